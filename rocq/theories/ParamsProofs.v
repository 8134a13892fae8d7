(** Proofs about the parameters. *)
From Coq Require Import ZArith Bool Lia List.
From Verif Require Import Outcome ParamsModel ParamsSpec.
Open Scope Z_scope.

(** ** The logarithm *)
Lemma bern x n m : 0 <= x -> 0 < m -> 0 <= n -> m ^ n + n * x * m ^ (n - 1) <= (m + x) ^ n.
Proof.
  intros Hx Hm Hn. pattern n. apply natlike_ind; [|clear n Hn|exact Hn].
  - rewrite !Z.pow_0_r. lia.
  - intros n Hn IH. rewrite !Z.pow_succ_r by lia. replace (Z.succ n - 1) with n by lia.
    destruct (Z.eq_dec n 0) as [->|N0]; [rewrite Z.pow_0_r; lia|].
    assert (E : m ^ n = m * m ^ (n - 1)) by (rewrite <- Z.pow_succ_r by lia; f_equal; lia).
    pose proof (Z.pow_nonneg m (n - 1) ltac:(lia)). nia.
Qed.
(** Bernoulli for a decrement. *)
Lemma bern_dec x n m : 0 <= x <= m -> 0 <= n -> m ^ Z.succ n - Z.succ n * x * m ^ n <= (m - x) ^ Z.succ n.
Proof.
  intros Hx Hn. pattern n. apply natlike_ind; [|clear n Hn|exact Hn].
  - change (Z.succ 0) with 1. rewrite !Z.pow_1_r, Z.pow_0_r. lia.
  - intros n Hn IH. rewrite !(Z.pow_succ_r _ (Z.succ n)) by lia. rewrite (Z.pow_succ_r m n) in * by lia.
    pose proof (Z.pow_nonneg m n ltac:(lia)). assert (0 <= m - x) by lia.
    apply Z.le_trans with ((m - x) * (m * m ^ n - Z.succ n * x * m ^ n)); [|nia].
    replace (Z.succ (Z.succ n)) with (Z.succ n + 1) by lia. assert (0 <= Z.succ n * (x * x) * m ^ n) by nia. nia.
Qed.
(** (1+1/m)^m increases. *)
Lemma ea_step m : 0 < m -> (m + 1) ^ m * (m + 1) ^ (m + 1) <= (m + 2) ^ (m + 1) * m ^ m.
Proof.
  intros Hm. pose proof (bern_dec 1 m ((m + 1) * (m + 1)) ltac:(nia) ltac:(lia)) as H.
  replace (Z.succ m) with (m + 1) in H by lia. replace ((m + 1) * (m + 1) - 1) with (m * (m + 2)) in H by ring.
  rewrite !Z.pow_mul_l in H. rewrite (Z.pow_add_r (m + 1) m 1), (Z.pow_add_r m m 1), !Z.pow_1_r in H by lia.
  rewrite (Z.pow_add_r (m + 1) m 1), Z.pow_1_r by lia.
  pose proof (Z.pow_pos_nonneg (m + 1) m ltac:(lia) ltac:(lia)). nia.
Qed.
(** (1+1/m)^(m+1) decreases. *)
Lemma eb_step m : 0 < m -> (m + 2) ^ (m + 2) * m ^ (m + 1) <= (m + 1) ^ (m + 1) * (m + 1) ^ (m + 2).
Proof.
  intros Hm. set (k := m + 1). replace (m + 2) with (k + 1) by lia. replace m with (k - 1) by lia. assert (Hk : 2 <= k) by lia. clearbody k. clear m Hm.
  pose proof (bern 1 k (k * k - 1) ltac:(lia) ltac:(nia) ltac:(lia)) as H. replace (k * k - 1 + 1) with (k * k) in H by ring.
  rewrite (Z.pow_add_r (k + 1) k 1), (Z.pow_add_r k k 1), !Z.pow_1_r by lia. rewrite Z.pow_mul_l in H.
  set (M := (k * k - 1) ^ (k - 1)) in *. assert (HM : 0 < M) by (apply Z.pow_pos_nonneg; nia).
  assert (E : (k * k - 1) ^ k = (k * k - 1) * M) by (unfold M; rewrite <- Z.pow_succ_r by lia; f_equal; lia).
  assert (E2 : (k + 1) ^ k * (k - 1) ^ k = (k * k - 1) * M) by (rewrite <- E, <- Z.pow_mul_l; f_equal; ring).
  rewrite E in H. replace ((k + 1) ^ k * (k + 1) * (k - 1) ^ k) with ((k + 1) * ((k + 1) ^ k * (k - 1) ^ k)) by ring. rewrite E2.
  replace (k ^ k * (k ^ k * k)) with (k * (k ^ k * k ^ k)) by ring. nia.
Qed.
(** a_m < b_n for all m, n: cross-multiplied. *)
Lemma ea_mono m d : 0 < m -> 0 <= d -> (m + 1) ^ m * (m + d) ^ (m + d) <= (m + d + 1) ^ (m + d) * m ^ m.
Proof.
  intros Hm Hd. pattern d. apply natlike_ind; [|clear d Hd|exact Hd]; [rewrite !Z.add_0_r; lia|].
  intros d Hd IH. set (n := m + d) in *. replace (m + Z.succ d) with (n + 1) by (unfold n; lia). replace (n + 1 + 1) with (n + 2) by lia.
  pose proof (ea_step n ltac:(lia)) as H. pose proof (Z.pow_pos_nonneg n n ltac:(lia) ltac:(lia)). pose proof (Z.pow_pos_nonneg (n + 1) n ltac:(lia) ltac:(lia)).
  pose proof (Z.pow_pos_nonneg (n + 1) (n + 1) ltac:(lia) ltac:(lia)). pose proof (Z.pow_pos_nonneg m m ltac:(lia) ltac:(lia)).
  apply Zmult_le_reg_r with (n ^ n * (n + 1) ^ n); [nia|].
  set (A := (m + 1) ^ m) in *. set (B := m ^ m) in *. set (C := n ^ n) in *. set (D := (n + 1) ^ n) in *. set (E := (n + 1) ^ (n + 1)) in *. set (F := (n + 2) ^ (n + 1)) in *.
  apply Z.le_trans with ((D * B) * (D * E)); [|].
  - replace (A * E * (C * D)) with ((A * C) * (D * E)) by ring. apply Z.mul_le_mono_nonneg_r; nia.
  - replace (F * B * (C * D)) with ((D * B) * (F * C)) by ring. apply Z.mul_le_mono_nonneg_l; nia.
Qed.
Lemma eb_mono m d : 0 < m -> 0 <= d -> (m + d + 1) ^ (m + d + 1) * m ^ (m + 1) <= (m + 1) ^ (m + 1) * (m + d) ^ (m + d + 1).
Proof.
  intros Hm Hd. pattern d. apply natlike_ind; [|clear d Hd|exact Hd]; [rewrite !Z.add_0_r; lia|].
  intros d Hd IH. set (n := m + d) in *. replace (m + Z.succ d) with (n + 1) by (unfold n; lia). replace (n + 1 + 1) with (n + 2) by lia.
  pose proof (eb_step n ltac:(lia)) as H. pose proof (Z.pow_pos_nonneg n (n + 1) ltac:(lia) ltac:(lia)).
  pose proof (Z.pow_pos_nonneg (n + 1) (n + 1) ltac:(lia) ltac:(lia)). pose proof (Z.pow_pos_nonneg (n + 1) (n + 2) ltac:(lia) ltac:(lia)).
  pose proof (Z.pow_pos_nonneg m (m + 1) ltac:(lia) ltac:(lia)).
  set (A := (m + 1) ^ (m + 1)) in *. set (B := m ^ (m + 1)) in *. set (C := n ^ (n + 1)) in *. set (D := (n + 1) ^ (n + 1)) in *. set (E := (n + 1) ^ (n + 2)) in *. set (F := (n + 2) ^ (n + 2)) in *.
  apply Zmult_le_reg_r with (C * D); [nia|].
  apply Z.le_trans with ((D * B) * (D * E)).
  - replace (F * B * (C * D)) with ((D * B) * (F * C)) by ring. apply Z.mul_le_mono_nonneg_l; nia.
  - replace (A * E * (C * D)) with ((A * C) * (D * E)) by ring. apply Z.mul_le_mono_nonneg_r; nia.
Qed.
Lemma e_between m n : 0 < m -> 0 < n -> (m + 1) ^ m * n ^ (n + 1) < (n + 1) ^ (n + 1) * m ^ m.
Proof.
  intros Hm Hn. pose proof (ea_mono m n Hm ltac:(lia)) as A. pose proof (eb_mono n m Hn ltac:(lia)) as B. replace (n + m) with (m + n) in B by lia.
  set (k := m + n) in *. rewrite (Z.pow_add_r k k 1), (Z.pow_add_r (k + 1) k 1), !Z.pow_1_r in B by lia.
  pose proof (Z.pow_pos_nonneg k k ltac:(lia) ltac:(lia)). pose proof (Z.pow_pos_nonneg (k + 1) k ltac:(lia) ltac:(lia)).
  pose proof (Z.pow_pos_nonneg m m ltac:(lia) ltac:(lia)). pose proof (Z.pow_pos_nonneg n (n + 1) ltac:(lia) ltac:(lia)).
  pose proof (Z.pow_pos_nonneg (m + 1) m ltac:(lia) ltac:(lia)). pose proof (Z.pow_pos_nonneg (n + 1) (n + 1) ltac:(lia) ltac:(lia)).
  set (a := (m + 1) ^ m) in *. set (b := m ^ m) in *. set (c := n ^ (n + 1)) in *. set (d := (n + 1) ^ (n + 1)) in *. set (x := k ^ k) in *. set (y := (k + 1) ^ k) in *.
  assert (Hk : 0 < k) by lia.
  apply (Zmult_lt_reg_r _ _ (x * y * (k + 1))); [nia|].
  apply Z.le_lt_trans with ((y * b) * (d * (x * k))).
  - replace (a * c * (x * y * (k + 1))) with ((a * x) * (y * (k + 1) * c)) by ring. apply Z.mul_le_mono_nonneg; nia.
  - replace (d * b * (x * y * (k + 1))) with ((y * b) * (d * x) * (k + 1)) by ring. replace (y * b * (d * (x * k))) with ((y * b) * (d * x) * k) by ring.
    apply Z.mul_lt_mono_pos_l; [nia|lia].
Qed.
Lemma pow_mono_l a b n : 0 <= a <= b -> a ^ n <= b ^ n.
Proof. intros. now apply Z.pow_le_mono_l. Qed.
(** The two relations are the two halves of a cut. *)
Lemma ln_cut a b a' b' t : 0 <= a -> 0 < b -> 0 <= a' -> 0 < b' -> 0 < t -> below_ln a b t -> above_ln a' b' t -> a * b' < a' * b.
Proof.
  intros Ha Hb Ha' Hb' Ht (m & Hm & H1) (m' & Hm' & H2). destruct (Z.lt_ge_cases (a * b') (a' * b)) as [|Q]; [assumption|exfalso].
  pose proof (e_between m' m Hm' Hm) as E.
  rewrite !(Z.pow_mul_r _ (m + 1)) in H1 by lia. rewrite !(Z.pow_mul_r _ m') in H2 by lia.
  pose proof (Z.pow_pos_nonneg m (m + 1) ltac:(lia) ltac:(lia)). pose proof (Z.pow_pos_nonneg (m + 1) (m + 1) ltac:(lia) ltac:(lia)).
  pose proof (Z.pow_pos_nonneg m' m' ltac:(lia) ltac:(lia)). pose proof (Z.pow_pos_nonneg (m' + 1) m' ltac:(lia) ltac:(lia)).
  assert (Ers : m ^ (m + 1) <= (m + 1) ^ (m + 1)) by (apply pow_mono_l; lia).
  set (r := (m + 1) ^ (m + 1)) in *. set (s := m ^ (m + 1)) in *. set (p := (m' + 1) ^ m') in *. set (q := m' ^ m') in *.
  assert (G1 : r ^ (a * b') < t ^ (b * b') * s ^ (a * b')).
  { rewrite !(Z.pow_mul_r _ a b'), (Z.pow_mul_r t b b'), <- Z.pow_mul_l by lia. apply Z.pow_lt_mono_l; [lia|]. split; [apply Z.pow_nonneg; lia|exact H1]. }
  assert (G2 : t ^ (b * b') * q ^ (a' * b) < p ^ (a' * b)).
  { rewrite !(Z.pow_mul_r _ a' b), (Z.mul_comm b b'), (Z.pow_mul_r t b' b), <- Z.pow_mul_l by lia. apply Z.pow_lt_mono_l; [lia|].
    split; [apply Z.mul_nonneg_nonneg; apply Z.pow_nonneg; lia|exact H2]. }
  set (c := a' * b) in *. assert (Hc : 0 <= c) by nia. replace (a * b') with (c + (a * b' - c)) in G1 by lia. set (d := a * b' - c) in *. assert (Hd : 0 <= d) by lia.
  rewrite !Z.pow_add_r in G1 by lia.
  assert (K1 : (p * s) ^ c <= (r * q) ^ c) by (apply pow_mono_l; nia). rewrite !Z.pow_mul_l in K1.
  assert (K2 : s ^ d <= r ^ d) by (apply pow_mono_l; lia).
  pose proof (Z.pow_pos_nonneg s c ltac:(lia) ltac:(lia)). pose proof (Z.pow_pos_nonneg s d ltac:(lia) ltac:(lia)). pose proof (Z.pow_pos_nonneg q c ltac:(lia) ltac:(lia)).
  pose proof (Z.pow_pos_nonneg t (b * b') ltac:(lia) ltac:(nia)). pose proof (Z.pow_pos_nonneg p c ltac:(lia) ltac:(lia)). pose proof (Z.pow_pos_nonneg r c ltac:(lia) ltac:(lia)).
  set (P := p ^ c) in *. set (Q' := q ^ c) in *. set (R := r ^ c) in *. set (S := s ^ c) in *. set (U := s ^ d) in *. set (V := r ^ d) in *. set (T := t ^ (b * b')) in *.
  assert (X1 : R * V * Q' < T * (S * U) * Q') by (apply Z.mul_lt_mono_pos_r; lia).
  assert (X2 : T * (S * U) * Q' < P * (S * U)).
  { replace (T * (S * U) * Q') with ((T * Q') * (S * U)) by ring. apply Z.mul_lt_mono_pos_r; [nia|lia]. }
  assert (X3 : P * (S * U) <= R * V * Q').
  { replace (P * (S * U)) with ((P * S) * U) by ring. replace (R * V * Q') with ((R * Q') * V) by ring. apply Z.mul_le_mono_nonneg; nia. }
  lia.
Qed.
Lemma pow2_cut x a b a' b' : 0 < x -> 0 <= a -> 0 < b -> 0 <= a' -> 0 < b' -> 2 ^ a <= x ^ b -> x ^ b' <= 2 ^ a' -> a * b' <= a' * b.
Proof.
  intros Hx Ha Hb Ha' Hb' H1 H2. apply (Z.pow_le_mono_r_iff 2); [lia|nia|].
  apply Z.le_trans with (x ^ (b * b')).
  - rewrite !Z.pow_mul_r by lia. apply pow_mono_l. split; [apply Z.pow_nonneg; lia|exact H1].
  - rewrite (Z.mul_comm b b'), !Z.pow_mul_r by lia. apply pow_mono_l. split; [apply Z.pow_nonneg; lia|exact H2].
Qed.
Lemma ceil_log_le nn tt L L' : 0 < nn -> 0 < tt -> ceil_log nn tt L -> ceil_log nn tt L' -> L <= L'.
Proof.
  intros Hn Ht [(a & b & Ha & Hb & H1 & H2 & H3) _] [_ (a' & b' & Ha' & Hb' & H1' & H2' & H3')].
  pose proof (ln_cut (2 * ((L - 1) * b - a)) b (2 * (L' * b' - a')) b' tt ltac:(lia) Hb ltac:(lia) Hb' Ht H3 H3') as C. pose proof (pow2_cut nn a b a' b' Hn Ha Hb Ha' Hb' H1 H1') as D.
  assert (bb : 0 < b * b') by (apply Z.mul_pos_pos; lia). assert (Q : (L - 1) * (b * b') < L' * (b * b')) by (clear - C D; nia). apply Z.mul_lt_mono_pos_r in Q; [lia|exact bb].
Qed.
Lemma ceil_log_unique nn tt L L' : 0 < nn -> 0 < tt -> ceil_log nn tt L -> ceil_log nn tt L' -> L = L'.
Proof. intros Hn Ht H H'. apply Z.le_antisymm; [exact (ceil_log_le nn tt L L' Hn Ht H H')|exact (ceil_log_le nn tt L' L Hn Ht H' H)]. Qed.
(** Coarse bounds. *)
Lemma ceil_log_bounds nn tt L : 0 < nn -> 0 < tt -> ceil_log nn tt L -> 0 <= L /\ nn <= 2 ^ L /\ 4 ^ (L - 1) < nn * nn * tt.
Proof.
  intros Hn Ht [(a & b & Ha & Hb & H1 & H2 & m & Hm & H3) (a' & b' & Ha' & Hb' & H1' & H2' & m' & Hm' & H3')].
  assert (L0 : 1 <= L). { destruct (Z.le_gt_cases 1 L) as [|Q]; [assumption|exfalso]. clear - H2 Ha Hb Q. nia. }
  assert (L1 : 0 <= L) by lia. split; [exact L1|]. split.
  - destruct (Z.le_gt_cases nn (2 ^ L)) as [|Q]; [assumption|exfalso].
    assert (2 ^ (L * b') < nn ^ b'). { rewrite Z.pow_mul_r by lia. apply Z.pow_lt_mono_l; [lia|]. split; [apply Z.pow_nonneg; lia|exact Q]. }
    assert (2 ^ a' <= 2 ^ (L * b')) by (apply Z.pow_le_mono_r; lia). lia.
  - set (A := 2 * ((L - 1) * b - a)) in *. assert (HA : 0 <= A) by lia.
    assert (G : 2 ^ A < tt ^ b).
    { rewrite !(Z.pow_mul_r _ (m + 1)) in H3 by lia. pose proof (Z.pow_pos_nonneg m (m + 1) ltac:(lia) ltac:(lia)) as P1.
      assert (E : 2 * m ^ (m + 1) <= (m + 1) ^ (m + 1)).
      { pose proof (bern 1 (m + 1) m ltac:(lia) Hm ltac:(lia)) as B. replace (m + 1 - 1) with m in B by lia.
        rewrite (Z.pow_add_r m m 1), Z.pow_1_r in * by lia. pose proof (Z.pow_pos_nonneg m m ltac:(lia) ltac:(lia)). nia. }
      assert (E2 : 2 ^ A * (m ^ (m + 1)) ^ A <= ((m + 1) ^ (m + 1)) ^ A) by (rewrite <- Z.pow_mul_l; apply pow_mono_l; lia).
      pose proof (Z.pow_pos_nonneg (m ^ (m + 1)) A ltac:(lia) ltac:(lia)). nia. }
    destruct (Z.lt_ge_cases (4 ^ (L - 1)) (nn * nn * tt)) as [|Q]; [assumption|exfalso].
    assert (Q2 : (nn * nn * tt) ^ b <= (4 ^ (L - 1)) ^ b) by (apply pow_mono_l; nia).
    rewrite !Z.pow_mul_l in Q2. rewrite <- Z.pow_mul_r in Q2 by lia. change 4 with (2 ^ 2) in Q2. rewrite <- Z.pow_mul_r in Q2 by lia.
    replace (2 * ((L - 1) * b)) with (a + a + A) in Q2 by (unfold A; lia). rewrite !Z.pow_add_r in Q2 by lia.
    pose proof (Z.pow_pos_nonneg 2 a ltac:(lia) Ha). pose proof (Z.pow_pos_nonneg 2 A ltac:(lia) HA).
    assert (2 ^ a * 2 ^ a <= nn ^ b * nn ^ b) by nia. nia.
Qed.

(** ** setParams *)
Definition kdim (s : Z) : Z := (- ((- (75 * (254 - s))) / 2) + 1) / 2.
Lemma kdim_bounds s : 75 * (254 - s) <= 4 * kdim s <= 75 * (254 - s) + 3.
Proof. unfold kdim. set (x := 75 * (254 - s)). clearbody x. Z.to_euclidean_division_equations. lia. Qed.
Lemma dims_eq s : dims 252 2 s = (2 * kdim s, kdim s).
Proof. unfold dims, kdim. replace (252 + 2 - s) with (254 - s) by lia. replace (- (- (75 * (254 - s)) / 2) + 2 - 1) with (- (- (75 * (254 - s)) / 2) + 1) by lia. reflexivity. Qed.
Section P.
Variable f : fpu.
Variable n : Z.
Hypothesis Hn : 5 <= n < 2 ^ 30.
Hypothesis Hf : fpu_ok f n.
Let L := fp_logn f (2 * n) (n - 1).

Lemma L_facts : 4 <= L <= 46 /\ 2 * n <= 2 ^ L.
Proof.
  destruct Hf as (H & _). fold L in H. destruct (ceil_log_bounds (2 * n) (n - 1) L ltac:(lia) ltac:(lia) H) as (L0 & L1 & L2).
  split; [|exact L1]. split.
  - destruct (Z.le_gt_cases 4 L) as [|Q]; [assumption|exfalso]. assert (2 ^ L <= 2 ^ 3) by (apply Z.pow_le_mono_r; lia). lia.
  - destruct (Z.le_gt_cases L 46) as [|Q]; [assumption|exfalso]. assert (4 ^ 46 <= 4 ^ (L - 1)) by (apply Z.pow_le_mono_r; lia).
    assert (2 * n * (2 * n) * (n - 1) < 2 ^ 31 * 2 ^ 31 * 2 ^ 30) by nia. lia.
Qed.
Lemma hlog_7 kk : 4097 <= kk <= 16000 -> fp_hlog f kk = 7.
Proof.
  intros Hk. destruct Hf as (_ & H & _). specialize (H kk ltac:(lia)). set (h := fp_hlog f kk) in *.
  destruct H as (H0 & H1 & H2). unfold eps in *.
  assert (7 <= h). { destruct (Z.le_gt_cases 7 h) as [|Q]; [assumption|exfalso]. assert (4 ^ h <= 4 ^ 6) by (apply Z.pow_le_mono_r; lia). lia. }
  destruct (Z.le_gt_cases h 7) as [|Q]; [lia|exfalso]. specialize (H2 ltac:(lia)). assert (4 ^ 7 <= 4 ^ (h - 1)) by (apply Z.pow_le_mono_r; lia). lia.
Qed.
Lemma search_ok d : forall fuel s last, s = 109 - L + Z.of_nat d -> s <= 115 - L -> (d < fuel)%nat ->
  search f 252 2 fuel 126 L s last = Ret (109 - L, (2 * kdim (109 - L), kdim (109 - L))).
Proof.
  destruct L_facts as [LL _]. induction d as [|d IH]; intros fuel s last Es Hs Hfu; (destruct fuel as [|fuel]; [lia|]); cbn [search].
  - destruct (Z.ltb_spec 0 s); [|lia]. rewrite dims_eq. pose proof (kdim_bounds s). rewrite hlog_7 by lia.
    destruct (Z.geb_spec 126 (s + L + 10 + 7)); [|lia]. replace s with (109 - L) by lia. reflexivity.
  - destruct (Z.ltb_spec 0 s); [|lia]. rewrite dims_eq. pose proof (kdim_bounds s). rewrite hlog_7 by lia.
    destruct (Z.geb_spec 126 (s + L + 10 + 7)); [lia|]. apply IH; lia.
Qed.
Lemma setParams_ok :
  setParams f 252 2 n = Ret (kdim (109 - L), 109 - L, 109 - L + fp_hlog f (124080 * (2 * kdim (109 - L)) * (n - 1))).
Proof.
  destruct L_facts as [LL _]. unfold setParams, int32. destruct (Z.leb_spec (- 2 ^ 31) (n * 2)); [|lia]. destruct (Z.ltb_spec (n * 2) (2 ^ 31)); [|lia].
  cbn [andb obind]. replace (Z.quot (n * 2 - 1) 2) with (n - 1) by (apply (Z.quot_unique _ _ _ 1); lia).
  destruct (Z.leb_spec (n * 2) 0); [lia|]. destruct (Z.leb_spec (n - 1) 0); [lia|]. cbn [orb].
  replace (n * 2) with (2 * n) by lia. fold L. change (252 * (2 - 1) / 2) with 126.
  rewrite (search_ok 6) by lia. cbn [obind]. pose proof (kdim_bounds (109 - L)) as K. unfold int64.
  assert (0 <= 124080 * (2 * kdim (109 - L)) * (n - 1) <= 124080 * (2 * 3750) * 2 ^ 30) by nia.
  destruct (Z.leb_spec (- 2 ^ 63) (124080 * (2 * kdim (109 - L)) * (n - 1))); [|lia].
  destruct (Z.ltb_spec (124080 * (2 * kdim (109 - L)) * (n - 1)) (2 ^ 63)); [|lia]. reflexivity.
Qed.
(** sigmaEnc2 *)
Let s1 := 109 - L.
Let k := kdim s1.
Let gap := fp_hlog f (124080 * (2 * k) * (n - 1)).
Lemma gap_facts : 8 <= gap /\ 4 ^ gap <= 2 ^ 32 * (n - 1) /\ 124080 * (2 * k) * (n - 1) <= 2 * 4 ^ gap.
Proof.
  destruct L_facts as [LL _]. pose proof (kdim_bounds s1) as K. fold k in K. destruct Hf as (_ & H & _).
  specialize (H (124080 * (2 * k) * (n - 1)) ltac:(nia)). fold gap in H. destruct H as (H0 & H1 & H2). unfold eps in *.
  assert (G8 : 8 <= gap). { destruct (Z.le_gt_cases 8 gap) as [|Q]; [assumption|exfalso]. assert (4 ^ gap <= 4 ^ 7) by (apply Z.pow_le_mono_r; lia). nia. }
  split; [exact G8|]. specialize (H2 ltac:(lia)). assert (E : 4 ^ gap = 4 * 4 ^ (gap - 1)) by (rewrite <- Z.pow_succ_r by lia; f_equal; lia).
  split; [nia|]. pose proof (Z.pow_pos_nonneg 4 gap ltac:(lia) H0). nia.
Qed.
Lemma s2_le : s1 + gap <= 122.
Proof.
  destruct L_facts as [LL LN]. destruct gap_facts as (G1 & G2 & _).
  assert (2 * gap < 32 + L).
  { destruct (Z.lt_ge_cases (2 * gap) (32 + L)) as [|Q]; [assumption|exfalso]. assert (4 ^ gap = 2 ^ (2 * gap)) by (rewrite Z.pow_mul_r by lia; reflexivity).
    assert (2 ^ (32 + L) <= 2 ^ (2 * gap)) by (apply Z.pow_le_mono_r; lia). rewrite Z.pow_add_r in * by lia. lia. }
  unfold s1. lia.
Qed.
End P.
