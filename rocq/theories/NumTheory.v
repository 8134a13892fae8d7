(** Elementary number theory used by the other files: modular exponentiation,
    Fermat's little theorem and the Pocklington primality criterion.
    Nothing here models code of /repo. *)
From Coq Require Import ZArith Znumtheory List Lia Permutation.
Import ListNotations.
Open Scope Z_scope.

(** Square-and-multiply exponentiation, [a^e mod n]. *)
Fixpoint powmod (a : Z) (e : positive) (n : Z) : Z :=
  match e with
  | xH => a mod n
  | xO e' => let r := powmod a e' n in (r * r) mod n
  | xI e' => let r := powmod a e' n in ((r * r) mod n * a) mod n
  end.

Lemma powmod_spec a e n : powmod a e n = a ^ (Zpos e) mod n.
Proof.
  revert a; induction e as [e IH|e IH|]; intros a; cbn [powmod].
  - rewrite IH. rewrite <- Zmult_mod.
    rewrite Zmult_mod_idemp_l.
    f_equal. replace (Zpos e~1) with (Zpos e + Zpos e + 1) by lia.
    rewrite !Z.pow_add_r by lia. now rewrite Z.pow_1_r.
  - rewrite IH. rewrite <- Zmult_mod. f_equal.
    replace (Zpos e~0) with (Zpos e + Zpos e) by lia.
    now rewrite Z.pow_add_r by lia.
  - now rewrite Z.pow_1_r.
Qed.

(** ** Products of lists *)
Definition zprod (l : list Z) : Z := fold_right Z.mul 1 l.

Lemma zprod_perm l l' : Permutation l l' -> zprod l = zprod l'.
Proof.
  unfold zprod. induction 1; cbn [fold_right] in *; try congruence.
  ring.
Qed.

Lemma zprod_rel_prime p l :
  prime p -> Forall (fun x => rel_prime x p) l -> rel_prime (zprod l) p.
Proof.
  intros Hp H. induction H; cbn.
  - apply rel_prime_1.
  - apply rel_prime_sym, rel_prime_mult; apply rel_prime_sym; assumption.
Qed.

Lemma zprod_map_mod p l : zprod (map (fun x => x mod p) l) mod p = zprod l mod p.
Proof.
  induction l as [|x l IH]; cbn [map zprod fold_right]; [reflexivity|].
  fold (zprod (map (fun x => x mod p) l)). fold (zprod l).
  rewrite Zmult_mod_idemp_l. rewrite Zmult_mod, IH, <- Zmult_mod. reflexivity.
Qed.

Lemma zprod_map_scale a l :
  zprod (map (fun x => a * x) l) = a ^ Z.of_nat (length l) * zprod l.
Proof.
  induction l as [|x l IH]; cbn [map zprod fold_right length].
  - reflexivity.
  - fold (zprod (map (fun x => a * x) l)). fold (zprod l). rewrite IH.
    replace (Z.of_nat (S (length l))) with (Z.of_nat (length l) + 1) by lia.
    rewrite Z.pow_add_r, Z.pow_1_r by lia. ring.
Qed.

(** The list [1; ..; n]. *)
Definition zrange1 (n : nat) : list Z := map Z.of_nat (seq 1 n).

Lemma in_zrange1 n x : In x (zrange1 n) <-> 1 <= x <= Z.of_nat n.
Proof.
  unfold zrange1. rewrite in_map_iff. split.
  - intros (k & <- & H). apply in_seq in H. lia.
  - intros H. exists (Z.to_nat x). split; [lia|]. apply in_seq. lia.
Qed.

Lemma zrange1_nodup n : NoDup (zrange1 n).
Proof.
  unfold zrange1. apply FinFun.Injective_map_NoDup; [|apply seq_NoDup].
  intros x y H; lia.
Qed.

Lemma zrange1_length n : length (zrange1 n) = n.
Proof. unfold zrange1. now rewrite map_length, seq_length. Qed.

Lemma prime_ndivide_rel p a : prime p -> ~ (p | a) -> rel_prime a p.
Proof. intros Hp H. apply rel_prime_sym, prime_rel_prime; assumption. Qed.

Lemma mod_nonzero_ndiv p a : 1 < p -> a mod p <> 0 -> ~ (p | a).
Proof. intros Hp H Hd. apply H. apply Z.mod_divide; [lia|assumption]. Qed.

Lemma mul_cancel_mod p a x y :
  prime p -> ~ (p | a) -> (a * x) mod p = (a * y) mod p -> x mod p = y mod p.
Proof.
  intros Hp Ha H. pose proof (prime_ge_2 p Hp).
  assert (Hd : (p | a * (x - y))).
  { apply Z.mod_divide; [lia|]. rewrite Z.mul_sub_distr_l, Zminus_mod, H.
    rewrite Z.sub_diag. apply Zmod_0_l. }
  apply prime_mult in Hd; [|assumption]. destruct Hd as [Hd|Hd]; [contradiction|].
  destruct Hd as [k Hk]. replace x with (y + k * p) by lia.
  now rewrite Z_mod_plus_full.
Qed.

Lemma NoDup_map_on {A B} (f : A -> B) l :
  NoDup l -> (forall x y, In x l -> In y l -> f x = f y -> x = y) -> NoDup (map f l).
Proof.
  induction 1; intros Hinj; cbn; constructor.
  - rewrite in_map_iff. intros (y & He & Hy).
    apply Hinj in He; [subst; contradiction|right; assumption|left; reflexivity].
  - apply IHNoDup. intros; apply Hinj; try assumption; now right.
Qed.

Theorem fermat_little p a :
  prime p -> ~ (p | a) -> a ^ (p - 1) mod p = 1.
Proof.
  intros Hp Ha. pose proof (prime_ge_2 p Hp) as H2.
  set (n := Z.to_nat (p - 1)).
  assert (Hn : Z.of_nat n = p - 1) by (unfold n; lia).
  set (l := zrange1 n).
  assert (Hperm : Permutation (map (fun x => (a * x) mod p) l) l).
  { apply NoDup_Permutation_bis.
    - apply NoDup_map_on; [apply zrange1_nodup|].
      intros x y Hx Hy He. apply in_zrange1 in Hx, Hy.
      apply mul_cancel_mod in He; try assumption.
      rewrite !Z.mod_small in He by lia. assumption.
    - rewrite map_length. lia.
    - intros z Hz. apply in_map_iff in Hz. destruct Hz as (x & <- & Hx).
      apply in_zrange1 in Hx. apply in_zrange1.
      pose proof (Z.mod_pos_bound (a * x) p ltac:(lia)).
      assert ((a * x) mod p <> 0); [|lia].
      intros Hz. apply Z.mod_divide in Hz; [|lia].
      apply prime_mult in Hz; [|assumption]. destruct Hz as [Hz|Hz]; [contradiction|].
      apply Z.divide_pos_le in Hz; lia. }
  apply zprod_perm in Hperm.
  assert (He : zprod (map (fun x => (a * x) mod p) l) mod p
               = (a ^ Z.of_nat n * zprod l) mod p).
  { rewrite <- (map_map (fun x => a * x) (fun x => x mod p)).
    rewrite zprod_map_mod, zprod_map_scale. unfold l. now rewrite zrange1_length. }
  rewrite Hperm, Hn in He.
  assert (Hl : ~ (p | zprod l)).
  { intros Hd.
    assert (rel_prime (zprod l) p).
    { apply zprod_rel_prime; [assumption|]. apply Forall_forall. intros x Hx.
      apply in_zrange1 in Hx. apply prime_ndivide_rel; [assumption|].
      intros Hx'. apply Z.divide_pos_le in Hx'; lia. }
    destruct H as [_ _ H]. specialize (H p Hd ltac:(exists 1; lia)).
    apply Z.divide_pos_le in H; lia. }
  symmetry in He. rewrite Z.mul_comm in He.
  replace (zprod l mod p) with ((zprod l * 1) mod p) in He by (f_equal; lia).
  apply mul_cancel_mod in He; try assumption.
  rewrite He. apply Z.mod_small; lia.
Qed.

(** A number >= 2 without prime divisor d, d*d <= n, is prime. *)
Lemma prime_divisor_exists n : 2 <= n -> exists r, prime r /\ (r | n).
Proof.
  induction n as [n IH] using (well_founded_ind (Z.lt_wf 2)); intros Hn.
  destruct (prime_dec n) as [Hp|Hp].
  - exists n; split; [assumption|exists 1; lia].
  - apply not_prime_divide in Hp; [|lia].
    destruct Hp as (m & Hm & Hd).
    destruct (IH m ltac:(lia) ltac:(lia)) as (r & Hr & Hrd).
    exists r; split; [assumption|]. now apply Z.divide_trans with m.
Qed.

Lemma prime_by_divisors n :
  2 <= n -> (forall r, prime r -> (r | n) -> n < r * r) -> prime n.
Proof.
  intros Hn H. destruct (prime_dec n) as [Hp|Hp]; [assumption|exfalso].
  apply not_prime_divide in Hp; [|lia]. destruct Hp as (m & Hm & k & Hk).
  assert (Hk1 : 2 <= k) by nia.
  destruct (Z.le_gt_cases m k) as [Hle|Hle].
  - destruct (prime_divisor_exists m ltac:(lia)) as (r & Hr & Hrd).
    assert (r <= m) by (apply Z.divide_pos_le in Hrd; lia).
    pose proof (prime_ge_2 r Hr).
    specialize (H r Hr ltac:(apply Z.divide_trans with m; [assumption|exists k; lia])).
    nia.
  - destruct (prime_divisor_exists k ltac:(lia)) as (r & Hr & Hrd).
    assert (r <= k) by (apply Z.divide_pos_le in Hrd; lia).
    pose proof (prime_ge_2 r Hr).
    specialize (H r Hr ltac:(apply Z.divide_trans with k; [assumption|exists m; lia])).
    nia.
Qed.

Lemma pow_mod_1 p a k : 1 < p -> a mod p = 1 -> 0 <= k -> a ^ k mod p = 1.
Proof.
  intros Hp Ha Hk. pattern k. apply natlike_ind; [|  |assumption].
  - rewrite Z.pow_0_r. apply Z.mod_small; lia.
  - intros x Hx IH. rewrite Z.pow_succ_r by assumption.
    rewrite Zmult_mod, Ha, IH. apply Z.mod_small; lia.
Qed.

(** Pocklington step: a prime factor q of n-1 divides r-1 for every prime r|n. *)
Lemma pocklington_step n q m a r :
  2 <= n -> prime q -> n - 1 = q * m ->
  a ^ (n - 1) mod n = 1 ->
  Z.gcd (a ^ m mod n - 1) n = 1 ->
  prime r -> (r | n) -> (q | r - 1).
Proof.
  intros Hn Hq Hm Ha Hg Hr Hrn.
  pose proof (prime_ge_2 r Hr). pose proof (prime_ge_2 q Hq).
  assert (0 < m) by nia.
  assert (Hmodr : forall x, (x mod n) mod r = x mod r).
  { intros x. destruct Hrn as [k Hk]. rewrite (Z.div_mod x n) at 2 by lia.
    rewrite Hk at 2. replace (k * r * (x / n) + x mod n) with (x mod n + (k * (x / n)) * r) by ring.
    now rewrite Z_mod_plus_full. }
  assert (Har : a ^ (n - 1) mod r = 1).
  { rewrite <- Hmodr, Ha. apply Z.mod_small; lia. }
  assert (Hnr : ~ (r | a)).
  { intros Hd. assert (Hz : (r | a ^ (n - 1))).
    { replace (n - 1) with (Z.succ (n - 2)) by lia.
      rewrite Z.pow_succ_r by lia. now apply Z.divide_mul_l. }
    apply Z.mod_divide in Hz; [|lia]. lia. }
  destruct (Zdivide_dec q (r - 1)) as [Hd|Hd]; [assumption|exfalso].
  assert (Hrel : rel_prime q (r - 1)) by (apply prime_rel_prime; assumption).
  apply rel_prime_bezout in Hrel. destruct Hrel as [u v Huv].
  (* make the Bezout coefficients non-negative: choose u' = u + k (r-1), v' = q k - v *)
  assert (Hb : exists u' v', 0 <= u' /\ 0 <= v' /\ u' * q = 1 + v' * (r - 1)).
  { set (k := Z.abs u + Z.abs v). exists (u + k * (r - 1)), (k * q - v).
    repeat split; unfold k; nia. }
  destruct Hb as (u' & v' & Hu' & Hv' & Hb).
  assert (Hone : a ^ m mod r = 1).
  { assert (HH1 : a ^ (m * (u' * q)) mod r = 1).
    { replace (m * (u' * q)) with ((n - 1) * u') by (rewrite Hm; ring).
      rewrite Z.pow_mul_r by lia. apply pow_mod_1; try lia. }
    rewrite Hb in HH1.
    replace (m * (1 + v' * (r - 1))) with (m + (r - 1) * (v' * m)) in HH1 by ring.
    rewrite Z.pow_add_r in HH1 by nia. rewrite Zmult_mod in HH1.
    rewrite (Z.pow_mul_r a (r - 1)) in HH1 by nia.
    rewrite (pow_mod_1 r (a ^ (r - 1))) in HH1; try nia.
    - rewrite Z.mul_1_r, Zmod_mod in HH1. assumption.
    - now apply fermat_little. }
  assert (Hdg : (r | Z.gcd (a ^ m mod n - 1) n)).
  { apply Z.gcd_greatest; [|assumption]. apply Z.mod_divide; [lia|].
    rewrite Zminus_mod, Hmodr, Hone.
    rewrite (Z.mod_small 1 r) by lia. now rewrite Z.sub_diag, Zmod_0_l. }
  rewrite Hg in Hdg. apply Z.divide_pos_le in Hdg; lia.
Qed.

(** Computable certificate checks. *)
Definition pock_check (n q a : Z) : bool :=
  let m := (n - 1) / q in
  (q * m =? n - 1) && (2 <=? n) &&
  (powmod a (Z.to_pos (n - 1)) n =? 1) &&
  (Z.gcd (powmod a (Z.to_pos m) n - 1) n =? 1).

Lemma pock_check_sound n q a r :
  pock_check n q a = true -> prime q -> prime r -> (r | n) -> (q | r - 1).
Proof.
  unfold pock_check. intros H Hq Hr Hrn.
  rewrite !Bool.andb_true_iff, !Z.eqb_eq, Z.leb_le in H.
  destruct H as (((Hm & Hn) & Ha) & Hg).
  pose proof (prime_ge_2 q Hq).
  assert (0 < (n - 1) / q) by nia.
  rewrite powmod_spec in Ha, Hg. rewrite Z2Pos.id in Ha, Hg by lia.
  apply pocklington_step with (n := n) (m := (n - 1) / q) (a := a); auto; lia.
Qed.

Lemma pocklington1 n q a :
  pock_check n q a = true -> prime q -> n <? q * q = true -> prime n.
Proof.
  intros H Hq Hs. apply Z.ltb_lt in Hs. apply prime_by_divisors.
  - unfold pock_check in H. rewrite !Bool.andb_true_iff, Z.leb_le in H. tauto.
  - intros r Hr Hrn. pose proof (pock_check_sound _ _ _ _ H Hq Hr Hrn) as Hd.
    pose proof (prime_ge_2 r Hr). apply Z.divide_pos_le in Hd; [|lia].
    pose proof (prime_ge_2 q Hq). nia.
Qed.

Lemma pocklington2 n q1 a1 q2 a2 :
  pock_check n q1 a1 = true -> prime q1 ->
  pock_check n q2 a2 = true -> prime q2 -> q1 <> q2 ->
  n <? (q1 * q2) * (q1 * q2) = true -> prime n.
Proof.
  intros H1 Hq1 H2 Hq2 Hne Hs. apply Z.ltb_lt in Hs. apply prime_by_divisors.
  - unfold pock_check in H1. rewrite !Bool.andb_true_iff, Z.leb_le in H1. tauto.
  - intros r Hr Hrn.
    pose proof (pock_check_sound _ _ _ _ H1 Hq1 Hr Hrn) as Hd1.
    pose proof (pock_check_sound _ _ _ _ H2 Hq2 Hr Hrn) as Hd2.
    pose proof (prime_ge_2 r Hr). pose proof (prime_ge_2 q1 Hq1). pose proof (prime_ge_2 q2 Hq2).
    assert (Hd : (q1 * q2 | r - 1)).
    { destruct Hd1 as [k Hk]. rewrite Hk in Hd2.
      apply prime_mult in Hd2; [|assumption]. destruct Hd2 as [[j Hj]|Hd2].
      - exists j. rewrite Hk, Hj. ring.
      - exfalso. apply Hne. symmetry. apply prime_div_prime; assumption. }
    apply Z.divide_pos_le in Hd; [|lia]. nia.
Qed.

(** Trial division for small primes. *)
Fixpoint no_divisor_upto (fuel : nat) (d n : Z) : bool :=
  match fuel with
  | O => false
  | S k => if n <? d * d then true
           else if n mod d =? 0 then false else no_divisor_upto k (d + 1) n
  end.

Lemma no_divisor_upto_sound fuel d n r :
  no_divisor_upto fuel d n = true -> 2 <= d -> 2 <= n ->
  d <= r -> (r | n) -> n < r * r.
Proof.
  revert d. induction fuel as [|k IH]; intros d H Hd Hn Hr Hrn; cbn in H; [discriminate|].
  destruct (n <? d * d) eqn:E; [apply Z.ltb_lt in E; nia|].
  destruct (n mod d =? 0) eqn:E2; [discriminate|].
  destruct (Z.eq_dec d r) as [->|Hne].
  - apply Z.eqb_neq in E2. exfalso; apply E2. apply Z.mod_divide; [lia|assumption].
  - apply IH with (d := d + 1); try assumption; lia.
Qed.

Lemma prime_by_trial n :
  2 <=? n = true -> no_divisor_upto (Z.to_nat (Z.sqrt n + 2)) 2 n = true -> prime n.
Proof.
  intros Hn H. apply Z.leb_le in Hn. apply prime_by_divisors; [assumption|].
  intros r Hr Hrn. pose proof (prime_ge_2 r Hr).
  eapply no_divisor_upto_sound; eauto; lia.
Qed.
