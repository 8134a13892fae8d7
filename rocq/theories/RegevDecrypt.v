(** Key generation, encryption and decryption. *)
From Coq Require Import ZArith List Lia Bool Arith Permutation Znumtheory.
From Verif Require Import Outcome Fp FSum Ring AlgebraModel AlgebraSpec AlgebraProofs AlgebraMore
  TernaryModel TernarySpec TernaryProofs RegevModel RegevSpec RegevProofs.
Import ListNotations.
Open Scope Z_scope.

Section Dots.
Context {p : Z} {ell : nat}.
Notation F := (Fp p).
Notation E := (elt p ell).
Add Ring FpRe : (@Fp_ring p).

Lemma edot_dotE (u v : list E) : edot u v = dotE u v (length u).
Proof. reflexivity. Qed.
Lemma edot_cons (x y : E) u v : edot (x :: u) (y :: v) = eadd (emul x y) (edot u v).
Proof. unfold edot. cbn [length seq map esum nth]. f_equal. rewrite <- seq_shift, map_map. reflexivity. Qed.
Lemma innerProductEE_loop (u v : list E) : length u = length v -> forall acc,
  fold_left (fun s e => eadd s (emul (fst e) (snd e))) (combine u v) acc = eadd acc (edot u v).
Proof.
  revert v. induction u as [|x u IH]; intros [|y v] H acc; try discriminate H.
  - cbn. now rewrite eadd_0_r.
  - cbn [combine fold_left fst snd]. rewrite IH by (cbn in H; lia). rewrite edot_cons. now rewrite eadd_assoc.
Qed.
Lemma innerProductEE_edot (u v : list E) : length u = length v -> innerProductEE u v = edot u v.
Proof. intros H. unfold innerProductEE. rewrite innerProductEE_loop by assumption. now rewrite eadd_0_l. Qed.
Lemma edot_add_r (u v w : list E) : length u = length v -> length u = length w ->
  edot u (zipWith eadd v w) = eadd (edot u v) (edot u w).
Proof.
  revert v w. induction u as [|x u IH]; intros [|y v] [|z w] H1 H2; try discriminate.
  - cbn. now rewrite eadd_0_r.
  - cbn [zipWith]. rewrite !edot_cons, IH by (cbn in *; lia). rewrite emul_add_r.
    apply coeff_ext. intros i _. rewrite !coeff_eadd. ring.
Qed.
Lemma edot_add_l (u v w : list E) : length u = length v -> length u = length w ->
  edot (zipWith eadd u v) w = eadd (edot u w) (edot v w).
Proof.
  revert v w. induction u as [|x u IH]; intros [|y v] [|z w] H1 H2; try discriminate.
  - cbn. now rewrite eadd_0_r.
  - cbn [zipWith]. rewrite !edot_cons, IH by (cbn in *; lia). rewrite emul_add_l.
    apply coeff_ext. intros i _. rewrite !coeff_eadd. ring.
Qed.
Lemma nth_map_lt {A B} (f : A -> B) l i d d' : (i < length l)%nat -> nth i (map f l) d = f (nth i l d').
Proof. intros H. rewrite nth_indep with (d' := f d') by (now rewrite map_length). apply map_nth. Qed.
(** sk (A r) = (sk A) r *)
Lemma edot_assoc (sk r : list E) (A : mat E) n m : mat_dims A n m -> length sk = n -> length r = m ->
  edot sk (map (fun row => edot row r) (mrows A)) = edot (map (fun j => edot sk (column e0 A j)) (seq 0 m)) r.
Proof.
  intros [D1 [D2 D3]] Hs Hr. unfold edot at 1 3. rewrite Hs, map_length, seq_length.
  transitivity (esum (map (fun i => esum (map (fun j => emul (nth i sk e0) (emul (mget e0 A i j) (nth j r e0))) (seq 0 m))) (seq 0 n))).
  - apply esum_map_ext. intros i Hi. apply in_seq in Hi.
    rewrite (nth_map_lt (fun row => edot row r) _ _ _ []) by lia. unfold edot. rewrite emul_esum_r, map_map.
    rewrite Forall_forall in D3. rewrite (D3 (nth i (mrows A) [])) by (apply nth_In; lia). reflexivity.
  - rewrite esum_swap. apply esum_map_ext. intros j Hj. apply in_seq in Hj.
    rewrite (nth_map_lt (fun j => edot sk (column e0 A j)) _ _ _ 0%nat) by (rewrite seq_length; lia).
    rewrite seq_nth by lia. cbn [Nat.add].
    unfold edot. rewrite emul_esum_l, map_map, Hs. apply esum_map_ext. intros i Hi. apply in_seq in Hi.
    rewrite emul_assoc. do 2 f_equal. unfold column, mget.
    now rewrite (nth_map_lt (fun r : list E => nth j r e0) _ _ _ []) by lia.
Qed.

(** Coefficients of an inner product over the integers. *)
Definition zflat (a : list E) : list Z := map balanced (coeffs_of a).
Definition wrow (k : nat) (b : E) (i : nat) : Z :=
  if (k <? i)%nat then - balanced (coeff b (ell + k - i)) else balanced (coeff b (k - i)).
Definition wflat (k : nat) (b : list E) : list Z := flat_map (fun e => map (wrow k e) (seq 0 ell)) b.

Lemma rev_range {A} (f : nat -> A) s n : map (fun i => f (s + (s + n - 1) - i)%nat) (seq s n) = rev (map f (seq s n)).
Proof.
  apply nth_ext with (d := f (s + (s + n - 1))%nat) (d' := f (s + (s + n - 1))%nat).
  - now rewrite rev_length, !map_length.
  - intros i Hi. rewrite map_length, seq_length in Hi.
    rewrite rev_nth by (now rewrite map_length, seq_length). rewrite map_length, seq_length.
    rewrite (nth_map_lt (fun i => f (s + (s + n - 1) - i)%nat) _ _ _ 0%nat) by (now rewrite seq_length).
    rewrite (nth_map_lt f _ _ _ 0%nat) by (rewrite seq_length; lia).
    rewrite !seq_nth by lia. f_equal. lia.
Qed.
Lemma wrow_sum_sq k (b : E) : (k < ell)%nat ->
  sum_sq (map (wrow k b) (seq 0 ell)) = sum_sq (map (fun i => balanced (coeff b i)) (seq 0 ell)).
Proof.
  intros Hk. set (f := fun i => balanced (coeff b i)).
  assert (Hs : seq 0 ell = seq 0 (S k) ++ seq (S k) (ell - S k)).
  { replace (seq 0 ell) with (seq 0 (S k + (ell - S k))) by (f_equal; lia). rewrite seq_app. reflexivity. }
  rewrite Hs, !map_app, !sum_sq_app. f_equal.
  - transitivity (sum_sq (map (fun i => f (0 + (0 + S k - 1) - i)%nat) (seq 0 (S k)))).
    + f_equal. apply map_ext_in. intros i Hi. apply in_seq in Hi. unfold wrow. destruct (Nat.ltb_spec k i); [lia|].
      unfold f. do 2 f_equal. lia.
    + rewrite rev_range. apply sum_sq_perm. symmetry. apply Permutation_rev.
  - transitivity (sum_sq (map (fun i => f (S k + (S k + (ell - S k) - 1) - i)%nat) (seq (S k) (ell - S k)))).
    + apply (eq_trans (y := sum_sq (map (fun i => - f (S k + (S k + (ell - S k) - 1) - i)%nat) (seq (S k) (ell - S k))))).
      * f_equal. apply map_ext_in. intros i Hi. apply in_seq in Hi. unfold wrow. destruct (Nat.ltb_spec k i); [|lia].
        unfold f. do 3 f_equal. lia.
      * clear Hs. induction (seq (S k) (ell - S k)); cbn [map]; [reflexivity|]. rewrite !sum_sq_cons. lia.
    + rewrite rev_range. apply sum_sq_perm. symmetry. apply Permutation_rev.
Qed.
Lemma wflat_sum_sq k (b : list E) : (k < ell)%nat -> sum_sq (wflat k b) = sum_sq (zflat b).
Proof.
  intros Hk. unfold wflat, zflat, coeffs_of. induction b as [|e b IH]; [reflexivity|]. cbn [flat_map].
  rewrite map_app, !sum_sq_app, IH, wrow_sum_sq by assumption. now rewrite map_map.
Qed.
Lemma zflat_length (a : list E) : length (zflat a) = (length a * ell)%nat.
Proof. unfold zflat, coeffs_of. rewrite map_length. induction a; [reflexivity|]. cbn [flat_map length]. rewrite app_length, map_length, seq_length. lia. Qed.
Lemma wflat_length k (a : list E) : length (wflat k a) = (length a * ell)%nat.
Proof. unfold wflat. induction a; [reflexivity|]. cbn [flat_map length]. rewrite app_length, map_length, seq_length. lia. Qed.

Hypothesis Hp : 2 <= p.
Lemma toF_balanced (s : F) : toF p (balanced s) = s.
Proof. apply (balanced_spec Hp). Qed.
Lemma coeff_emul_int (a b : E) k : (k < ell)%nat ->
  coeff (emul a b) k = toF p (zdot (map (fun i => balanced (coeff a i)) (seq 0 ell)) (map (wrow k b) (seq 0 ell))).
Proof.
  intros Hk. rewrite coeff_emul by assumption. generalize (seq 0 ell). intros l. induction l as [|i l IH]; [reflexivity|].
  cbn [map fsum]. rewrite zdot_cons, toF_add, toF_mul, IH, toF_balanced. f_equal. f_equal. unfold wrow.
  destruct (k <? i)%nat; [rewrite toF_opp|]; now rewrite toF_balanced.
Qed.
Lemma coeff_edot (a b : list E) k : (k < ell)%nat -> length a = length b ->
  coeff (edot a b) k = toF p (zdot (zflat a) (wflat k b)).
Proof.
  intros Hk. revert b. induction a as [|x a IH]; intros [|y b] H; try discriminate.
  - cbn. now rewrite coeff_e0.
  - rewrite edot_cons, coeff_eadd, IH by (cbn in H; lia). unfold zflat, wflat, coeffs_of. cbn [flat_map]. rewrite map_app, map_map.
    rewrite zdot_app by (now rewrite !map_length). rewrite toF_add. f_equal. now apply coeff_emul_int.
Qed.
Lemma short_zflat (v : list E) B S : short v B S -> sum_sq (zflat v) <= S.
Proof.
  intros [zs [H1 [_ H2]]]. unfold zflat. rewrite (are_balanced_unique Hp (coeffs_of v) _ zs (balanced_vec_spec Hp _) H1). assumption.
Qed.
Lemma edot_bound (a b : list E) k Ba Sa Bb Sb W : (k < ell)%nat -> length a = length b ->
  short a Ba Sa -> short b Bb Sb -> 0 <= W -> Sa * Sb <= W * W ->
  Z.abs (zdot (zflat a) (wflat k b)) <= W.
Proof.
  intros Hk Hl Ha Hb HW H. pose proof (short_zflat a Ba Sa Ha) as H1. pose proof (short_zflat b Bb Sb Hb) as H2.
  pose proof (cauchy_schwarz (zflat a) (wflat k b) ltac:(rewrite zflat_length, wflat_length, Hl; reflexivity)) as CS.
  rewrite wflat_sum_sq in CS by assumption.
  pose proof (sum_sq_nonneg Hp (zflat a)). pose proof (sum_sq_nonneg Hp (zflat b)).
  assert (Hs : sum_sq (zflat a) * sum_sq (zflat b) <= Sa * Sb) by (apply Z.mul_le_mono_nonneg; lia).
  set (z := zdot (zflat a) (wflat k b)) in *.
  apply Z.square_le_simpl_nonneg; [assumption|]. rewrite <- Z.abs_mul. rewrite Z.abs_eq by apply Z.square_nonneg. lia.
Qed.
End Dots.

Section Scheme.
Context {p : Z} {ell : nat}.
Variable bits : Z.
Notation F := (Fp p).
Notation E := (elt p ell).
Notation GKt := (globalKey p ell).
Add Ring FpRs : (@Fp_ring p).
Hypothesis Hp : 2 <= p.

Lemma as_int_inv z w : as_int z = Ret w -> w = z.
Proof. unfold as_int. destruct (_ && _); [congruence|discriminate]. Qed.
Lemma key_bound_inv k b : key_bound (ell := ell) k = Ret b -> b = 4 * k * Z.of_nat ell.
Proof. unfold key_bound. intros H. apply obind_ret_inv in H. destruct H as [x [H1 H2]]. apply as_int_inv in H1, H2. subst. lia. Qed.
Lemma noise_bound_inv s k b : noise_bound (ell := ell) s k = Ret b -> b = 2 ^ (2 * s) * k * Z.of_nat ell / 2.
Proof. unfold noise_bound. intros H. apply obind_ret_inv in H. destruct H as [x [H1 H2]]. apply as_int_inv in H1. subst. congruence. Qed.

Lemma loop51_short rnd n pos k bound v pos' : 0 <= n -> 2 * 2 ^ n <= p ->
  reject_loop (p := p) (ell := ell) trials 0 0 rnd n pos k bound = Ret (v, pos') ->
  length v = k /\ short v (2 ^ n - 1) bound.
Proof.
  intros Hn H2 H. destruct (reject_51 (p := p) (ell := ell) rnd n pos k bound) as [[t [E1 A]]|[E1 _]]; rewrite E1 in H; [|discriminate].
  injection H as <- <-. exact (accepted_short rnd 51 n pos k bound t Hp Hn H2 A).
Qed.
Lemma loop25_short rnd n pos k bound v pos' : 0 <= n -> 2 * 2 ^ n <= p ->
  reject_loop (p := p) (ell := ell) trials 1 0 rnd n pos k bound = Ret (v, pos') ->
  length v = k /\ short v (2 ^ n - 1) bound.
Proof.
  intros Hn H2 H. destruct (reject_25 (p := p) (ell := ell) rnd n pos k bound) as [[t [E1 A]]|[E1 _]]; rewrite E1 in H; [|discriminate].
  injection H as <- <-. exact (accepted_short rnd 25 n pos k bound t Hp Hn H2 A).
Qed.

Lemma zipWith_length {A B C} (f : A -> B -> C) l : forall l', length l = length l' -> length (zipWith f l l') = length l.
Proof. induction l as [|x l IH]; intros [|y l'] H; try discriminate; [reflexivity|]. cbn. f_equal. apply IH. cbn in H. lia. Qed.
Lemma zipWith_nth {A B C} (f : A -> B -> C) da db dc l : forall l' i, length l = length l' -> (i < length l)%nat ->
  nth i (zipWith f l l') dc = f (nth i l da) (nth i l' db).
Proof.
  induction l as [|x l IH]; intros [|y l'] [|i] H Hi; try discriminate; cbn in *; try lia; [reflexivity|]. apply IH; lia.
Qed.

Lemma keygen_spec (gk : GKt) rnd pos sk pk noise pos' : 8 <= p -> wf_key gk -> 2 * 2 ^ sigmaEnc1 gk <= p ->
  internalKeyGen gk rnd pos = Ret (sk, pk, noise, pos') ->
  let k := Z.to_nat (kay gk) in
  length sk = k /\ length noise = k /\
  short sk 3 (4 * kay gk * Z.of_nat ell) /\
  short noise (2 ^ sigmaEnc1 gk - 1) (2 ^ (2 * sigmaEnc1 gk) * kay gk * Z.of_nat ell / 2) /\
  pk = zipWith eadd (map (fun j => edot sk (column e0 (gkA gk) j)) (seq 0 k)) noise.
Proof.
  intros Hp8 [Hk [Hn [Hs1 [Hs2 [[DA1 [DA2 DA3]] _]]]]] H2 H. unfold internalKeyGen in H.
  apply obind_ret_inv in H. destruct H as [b [E1 H]]. apply key_bound_inv in E1.
  apply obind_ret_inv in H. destruct H as [[sk' p1] [E2 H]]. cbn [fst snd] in H.
  apply obind_ret_inv in H. destruct H as [nb [E3 H]]. apply noise_bound_inv in E3.
  apply obind_ret_inv in H. destruct H as [[no' p2] [E4 H]]. cbn [fst snd] in H.
  apply obind_ret_inv in H. destruct H as [skA [E5 H]].
  apply obind_ret_inv in H. destruct H as [pk' [E6 H]]. injection H as <- <- <- <-.
  apply loop51_short in E2; [|unfold rho; lia|unfold rho; lia]. destruct E2 as [L1 S1].
  apply loop51_short in E4; [|lia|assumption]. destruct E4 as [L2 S2].
  unfold vecMat in E5. destruct (_ =? _)%nat eqn:EL; cbn [negb] in E5; [|discriminate]. injection E5 as <-.
  clear EL. unfold vecAdd in E6. destruct (_ =? _)%nat eqn:EL2; cbn [negb] in E6; [|discriminate]. injection E6 as <-.
  rewrite DA2. cbn zeta. subst b nb. unfold rho in S1. change (2 ^ 2 - 1) with 3 in S1. auto.
Qed.

Lemma encrypt_spec (gk : GKt) ptxt rnd pos ct1 ct2 r e1 e2 pos' : 8 <= p -> wf_key gk ->
  2 * 2 ^ sigmaEnc1 gk <= p -> 2 * 2 ^ sigmaEnc2 gk <= p ->
  internalEncrypt bits gk ptxt rnd pos = Ret (ct1, ct2, r, e1, e2, pos') ->
  let k := Z.to_nat (kay gk) in let n := Z.to_nat (enn gk) in
  length ptxt = n /\ length r = k /\ length e1 = k /\ length e2 = n /\
  short r 3 (4 * kay gk * Z.of_nat ell) /\
  short e1 (2 ^ sigmaEnc1 gk - 1) (2 ^ (2 * sigmaEnc1 gk) * kay gk * Z.of_nat ell / 2) /\
  short e2 (2 ^ sigmaEnc2 gk - 1) (2 ^ (2 * sigmaEnc2 gk) * enn gk * Z.of_nat ell / 2) /\
  ct1 = zipWith eadd (map (fun row => edot row r) (mrows (gkA gk))) e1 /\
  length ct2 = n /\
  (forall i, (i < n)%nat -> nth i ct2 e0 =
     eadd (edot (nth i (mrows (gkB gk)) []) r) (eadd (escale (nth i ptxt 0%F) (gElement bits)) (nth i e2 e0))).
Proof.
  intros Hp8 [Hk [Hn [Hs1 [Hs2 [[DA1 [DA2 DA3]] [DB1 [DB2 DB3]]]]]]] H2 H3 H. unfold internalEncrypt in H.
  destruct (_ || _)%bool; [discriminate|].
  destruct (length ptxt =? length (mrows (gkB gk)))%nat eqn:EP; cbn [negb] in H; [|discriminate]. apply Nat.eqb_eq in EP.
  apply obind_ret_inv in H. destruct H as [b [E1 H]]. apply key_bound_inv in E1.
  apply obind_ret_inv in H. destruct H as [[r' p1] [E2 H]]. cbn [fst snd] in H.
  apply obind_ret_inv in H. destruct H as [c1 [E5 H]].
  apply obind_ret_inv in H. destruct H as [c2 [E6 H]].
  apply obind_ret_inv in H. destruct H as [nb1 [E3 H]]. apply noise_bound_inv in E3.
  apply obind_ret_inv in H. destruct H as [[e1' p2] [E4 H]]. cbn [fst snd] in H.
  apply obind_ret_inv in H. destruct H as [nb2 [E7 H]]. apply noise_bound_inv in E7.
  apply obind_ret_inv in H. destruct H as [[e2' p3] [E8 H]]. cbn [fst snd] in H. injection H as <- <- <- <- <- <-.
  apply loop51_short in E2; [|unfold rho; lia|unfold rho; lia]. destruct E2 as [L1 S1].
  apply loop25_short in E4; [|lia|assumption]. destruct E4 as [L2 S2].
  apply loop25_short in E8; [|lia|assumption]. destruct E8 as [L3 S3].
  unfold matVec in E5, E6. destruct (length r' =? mcols (gkA gk))%nat; cbn [negb] in E5; [|discriminate]. injection E5 as E5.
  destruct (length r' =? mcols (gkB gk))%nat; cbn [negb] in E6; [|discriminate]. injection E6 as E6. subst c1 c2.
  cbn zeta. subst b nb1 nb2. unfold rho in S1. change (2 ^ 2 - 1) with 3 in S1.
  assert (LP : length ptxt = Z.to_nat (enn gk)) by congruence.
  assert (LC : length (map (fun row => edot row r') (mrows (gkB gk))) = length (combine ptxt e2'))
    by (rewrite map_length, combine_length, L3, LP, DB1; lia).
  repeat (split; [first [assumption|reflexivity]|]). split.
  - rewrite zipWith_length by assumption. now rewrite map_length.
  - intros i Hi. rewrite (zipWith_nth _ (edot [] r') (@f0 p, @e0 p ell)) by (try assumption; rewrite map_length; lia).
    rewrite (map_nth (fun row => edot row r')). rewrite combine_nth by congruence. reflexivity.
Qed.

(** Decryption. *)
Notation D := (delta (ell := ell) bits).
Lemma decrypt_spec (gk0 gk : GKt) rndK posK rndE posE i sk pk noise pos1 ptxt ct1 ct2 r e1 e2 pos2 W old :
  (2 <= ell)%nat -> Z.of_nat ell <= bits -> 8 <= p -> 8 <= D -> wf_key gk -> wf_key gk0 ->
  gkA gk0 = gkA gk -> kay gk0 = kay gk -> sigmaEnc1 gk0 = sigmaEnc1 gk ->
  internalKeyGen gk0 rndK posK = Ret (sk, pk, noise, pos1) ->
  0 <= i < enn gk -> nth_error (mrows (gkB gk)) (Z.to_nat i) = Some pk ->
  internalEncrypt bits gk ptxt rndE posE = Ret (ct1, ct2, r, e1, e2, pos2) ->
  0 <= W ->
  (2 ^ (2 * sigmaEnc1 gk) * kay gk * Z.of_nat ell / 2) * (4 * kay gk * Z.of_nat ell) <= W * W ->
  2 * ((2 * W + 2 ^ sigmaEnc2 gk) * (D + 1)) < p ->
  2 * (2 * W + 2 ^ sigmaEnc2 gk) <= D ^ (Z.of_nat ell - 1) ->
  2 * 2 ^ sigmaEnc1 gk <= p ->
  exists e : nat -> Z, (forall j, (j < ell)%nat -> Z.abs (e j) < 2 * W + 2 ^ sigmaEnc2 gk) /\
    of_ints e = eadd (edot noise r) (esub (nth (Z.to_nat i) e2 e0) (edot sk e1)) /\
    internalDecrypt bits gk sk i ct1 ct2 old = Ret (nth (Z.to_nat i) ptxt 0%F, of_ints e).
Proof.
  intros Hell Hbits Hp8 HD8 Hwf Hwf0 EA EK ES HK Hi Hpk HE HW HWW Hbig Htop Hs1.
  assert (Hs2pos : 0 < 2 ^ sigmaEnc2 gk) by (apply Z.pow_pos_nonneg; [lia|destruct Hwf as [_ [_ [_ [H _]]]]; lia]).
  assert (Hs2 : 2 * 2 ^ sigmaEnc2 gk <= p) by nia.
  assert (HDp : D < p) by nia.
  destruct (keygen_spec gk0 rndK posK sk pk noise pos1 Hp8 Hwf0 ltac:(rewrite ES; lia) HK) as [K1 [K2 [K3 [K4 K5]]]].
  rewrite EA, EK, ES in *.
  destruct (encrypt_spec gk ptxt rndE posE ct1 ct2 r e1 e2 pos2 Hp8 Hwf Hs1 Hs2 HE)
    as [C0 [C1 [C2 [C3 [C4 [C5 [C6 [C7 [C8 C9]]]]]]]]].
  destruct Hwf as [Hk [Hn [Hsg1 [Hsg2 [HA HB]]]]].
  set (k := Z.to_nat (kay gk)) in *. set (n := Z.to_nat (enn gk)) in *. set (ii := Z.to_nat i) in *.
  assert (Hii : (ii < n)%nat) by lia.
  specialize (C9 ii Hii). rewrite (nth_error_nth _ _ _ Hpk) in C9.
  (* integers *)
  set (ez := fun j => zdot (zflat noise) (wflat j r) + (balanced (coeff (nth ii e2 e0) j) - zdot (zflat sk) (wflat j e1))).
  assert (B1 : forall j, (j < ell)%nat -> Z.abs (zdot (zflat noise) (wflat j r)) <= W).
  { intros j Hj. eapply (edot_bound Hp); [exact Hj| |exact K4|exact C4|assumption|assumption]. congruence. }
  assert (B2 : forall j, (j < ell)%nat -> Z.abs (zdot (zflat sk) (wflat j e1)) <= W).
  { intros j Hj. eapply (edot_bound Hp); [exact Hj| |exact K3|exact C5|assumption|rewrite Z.mul_comm; assumption]. congruence. }
  assert (B3 : forall j, (j < ell)%nat -> Z.abs (balanced (coeff (nth ii e2 e0) j)) <= 2 ^ sigmaEnc2 gk - 1).
  { intros j Hj. destruct C6 as [zs [Z1 [Z2 _]]]. rewrite (are_balanced_unique Hp _ zs _ Z1 (balanced_vec_spec Hp _)) in Z2.
    rewrite Forall_forall in Z2. apply Z2. apply in_map. unfold coeffs_of. apply in_flat_map.
    exists (nth ii e2 e0). split; [apply nth_In; lia|]. apply in_map. apply in_seq. lia. }
  assert (B : forall j, (j < ell)%nat -> Z.abs (ez j) < 2 * W + 2 ^ sigmaEnc2 gk).
  { intros j Hj. specialize (B1 j Hj). specialize (B2 j Hj). specialize (B3 j Hj). unfold ez. lia. }
  assert (Hez : of_ints ez = eadd (edot noise r) (esub (nth ii e2 e0) (edot sk e1))).
  { apply coeff_ext. intros j Hj. unfold of_ints. rewrite coeff_mkE. destruct (Nat.ltb_spec j ell); [|lia].
    rewrite coeff_eadd, coeff_esub. rewrite (coeff_edot Hp) by (try assumption; congruence).
    rewrite (coeff_edot Hp) by (try assumption; congruence). unfold ez.
    now rewrite toF_add, toF_sub, (toF_balanced Hp). }
  exists ez. split; [exact B|]. split; [exact Hez|].
  (* the code *)
  assert (L1 : length ct1 = k).
  { rewrite C7. rewrite zipWith_length; rewrite map_length; destruct HA as [HA1 _]; congruence. }
  unfold internalDecrypt. rewrite K1, L1, C8. unfold k, n. rewrite !Z2Nat.id by lia. rewrite !Z.eqb_refl. cbn [negb orb].
  destruct (Z.ltb_spec i 0); [lia|]. destruct (Z.leb_spec (enn gk) i); [lia|]. cbn [orb].
  assert (HG : oget ct2 (Z.to_nat i) = Ret (nth ii ct2 e0)).
  { apply oget_ret. apply nth_error_nth'. lia. }
  rewrite HG. cbn [obind].
  assert (HZ : esub (innerProductEE sk ct1) (nth ii ct2 e0) =
     eopp (eadd (escale (nth ii ptxt 0%F) (gadget D)) (of_ints ez))).
  { rewrite innerProductEE_edot by congruence. rewrite C7, C9, K5, Hez, <- (gElement_gadget bits Hell).
    destruct HA as [HA1 [HA2 HA3]].
    rewrite edot_add_r by (rewrite ?map_length; congruence).
    rewrite (edot_assoc sk r (gkA gk) k k) by (try (split; [assumption|split; assumption]); congruence).
    rewrite edot_add_l by (rewrite map_length, seq_length; congruence).
    apply coeff_ext. intros j _. rewrite ?coeff_esub, ?coeff_eopp, ?coeff_eadd, ?coeff_esub. ring. }
  rewrite HZ. apply (decode_spec bits Hp Hell Hbits HDp).
  - intros j Hj. pose proof (B j ltac:(lia)). pose proof (B (S j) ltac:(lia)).
    assert (Z.abs (D * ez j) <= D * (2 * W + 2 ^ sigmaEnc2 gk)).
    { rewrite Z.abs_mul, (Z.abs_eq D) by lia. apply Z.mul_le_mono_nonneg_l; lia. }
    nia.
  - pose proof (B (ell - 1)%nat ltac:(lia)). lia.
Qed.
End Scheme.
