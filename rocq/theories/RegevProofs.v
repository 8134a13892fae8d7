(** Proofs about the encryption scheme: sampling, decoding, decryption. *)
From Coq Require Import ZArith List Lia Bool Arith Permutation Znumtheory.
From Verif Require Import Outcome Fp FSum Ring AlgebraModel AlgebraSpec AlgebraProofs AlgebraMore
  TernaryModel TernarySpec TernaryProofs RegevModel RegevSpec.
Import ListNotations.
Open Scope Z_scope.

(** *** Integer inner products *)
Definition zdot (u v : list Z) : Z := fold_right (fun x s => fst x * snd x + s) 0 (combine u v).
Lemma zdot_cons x y u v : zdot (x :: u) (y :: v) = x * y + zdot u v.
Proof. reflexivity. Qed.
Lemma zdot_app u v u' v' : length u = length v -> zdot (u ++ u') (v ++ v') = zdot u v + zdot u' v'.
Proof.
  revert v. induction u as [|x u IH]; intros [|y v] H; try discriminate H; [reflexivity|].
  cbn [app]. rewrite !zdot_cons, IH by (cbn in H; lia). lia.
Qed.
Lemma cs_step S A B a b : 0 <= A -> 0 <= B -> S * S <= A * B -> (a * b + S) * (a * b + S) <= (a * a + A) * (b * b + B).
Proof.
  intros HA HB H.
  assert (K : 2 * (S * (a * b)) <= A * (b * b) + B * (a * a)).
  { assert (HX : 0 <= A * (b * b) + B * (a * a)) by nia.
    assert (HY : (2 * (S * (a * b))) * (2 * (S * (a * b))) <= (A * (b * b) + B * (a * a)) * (A * (b * b) + B * (a * a))).
    { assert (H1 : 4 * (S * S) * ((a * b) * (a * b)) <= 4 * (A * B) * ((a * b) * (a * b))).
      { apply Z.mul_le_mono_nonneg_r; [nia|lia]. }
      assert (H2 : 0 <= (A * (b * b) - B * (a * a)) * (A * (b * b) - B * (a * a))) by apply Z.square_nonneg.
      nia. }
    apply Z.square_le_simpl_nonneg; [exact HX|exact HY]. }
  nia.
Qed.
Lemma cauchy_schwarz u : forall v, length u = length v -> zdot u v * zdot u v <= sum_sq u * sum_sq v.
Proof.
  induction u as [|x u IH]; intros [|y v] H; try discriminate H; [cbn; lia|].
  rewrite zdot_cons, !sum_sq_cons. apply cs_step; [apply (sum_sq_nonneg (Z.le_refl 2))|apply (sum_sq_nonneg (Z.le_refl 2))|]. apply IH. cbn in H. lia.
Qed.
Lemma sum_sq_perm a b : Permutation a b -> sum_sq a = sum_sq b.
Proof. induction 1; rewrite ?sum_sq_cons in *; cbn [sum_sq fold_right]; rewrite ?sum_sq_cons; lia. Qed.

(** *** The rejection loops *)
Section Sampling.
Context {p : Z} {ell : nat}.
Notation F := (Fp p).
Notation E := (elt p ell).
Variable rnd : nat -> Z * Z.

Lemma attempt_S n pos k t : attempt (p := p) (ell := ell) rnd n (pos + k * ell) k t = attempt (p := p) (ell := ell) rnd n pos k (S t).
Proof. unfold attempt. f_equal. lia. Qed.

Lemma reject_loop_spec pre n k bound : 0 <= pre -> forall N fuel n0 pos,
  (N < fuel)%nat -> (forall t, (t < N)%nat -> n0 + pre + Z.of_nat t * (1 + pre) <= 50) ->
  50 < n0 + pre + Z.of_nat N * (1 + pre) ->
  (exists t, reject_loop fuel pre n0 rnd n pos k bound = Ret (attempt (p := p) (ell := ell) rnd n pos k t, (pos + S t * (k * ell))%nat) /\
             accepted_at (p := p) (ell := ell) rnd N n pos k bound t) \/
  (reject_loop (p := p) (ell := ell) fuel pre n0 rnd n pos k bound = Throw /\ all_rejected (p := p) (ell := ell) rnd N n pos k bound).
Proof.
  intros Hpre. induction N as [|N IH]; intros fuel n0 pos Hf Ht HN; (destruct fuel as [|fuel]; [lia|]); cbn [reject_loop].
  - right. destruct (Z.ltb_spec 50 (n0 + pre)); [|lia]. split; [reflexivity|]. intros u Hu. lia.
  - specialize (Ht 0%nat ltac:(lia)) as H0. destruct (Z.ltb_spec 50 (n0 + pre)); [lia|].
    destruct (Z.leb_spec (normSquared_e p (sample_vec (p := p) (ell := ell) rnd n pos k)) bound) as [Hn|Hn].
    + left. exists 0%nat. split.
      * f_equal. unfold attempt. f_equal; [f_equal; lia|lia].
      * split; [lia|]. split; [|intros u Hu; lia]. unfold attempt. now rewrite Nat.mul_0_l, Nat.add_0_r.
    + destruct (IH fuel (n0 + pre + 1) (pos + k * ell)%nat ltac:(lia)) as [[t [E1 [A1 [A2 A3]]]]|[E1 A1]].
      * intros t Hlt. specialize (Ht (S t) ltac:(lia)). lia.
      * lia.
      * left. exists (S t). rewrite E1. split; [f_equal; f_equal; [apply attempt_S|lia]|].
        split; [lia|]. rewrite <- attempt_S. split; [assumption|]. intros [|u] Hu.
        -- unfold attempt. now rewrite Nat.mul_0_l, Nat.add_0_r.
        -- rewrite <- attempt_S. apply A3. lia.
      * right. split; [assumption|]. intros [|u] Hu.
        -- unfold attempt. now rewrite Nat.mul_0_l, Nat.add_0_r.
        -- rewrite <- attempt_S. apply A1. lia.
Qed.
Lemma reject_51 n pos k bound :
  (exists t, reject_loop trials 0 0 rnd n pos k bound = Ret (attempt (p := p) (ell := ell) rnd n pos k t, (pos + S t * (k * ell))%nat) /\
             accepted_at (p := p) (ell := ell) rnd 51 n pos k bound t) \/
  (reject_loop (p := p) (ell := ell) trials 0 0 rnd n pos k bound = Throw /\ all_rejected (p := p) (ell := ell) rnd 51 n pos k bound).
Proof. apply reject_loop_spec; [lia|unfold trials; lia|intros; lia|lia]. Qed.
Lemma reject_25 n pos k bound :
  (exists t, reject_loop trials 1 0 rnd n pos k bound = Ret (attempt (p := p) (ell := ell) rnd n pos k t, (pos + S t * (k * ell))%nat) /\
             accepted_at (p := p) (ell := ell) rnd 25 n pos k bound t) \/
  (reject_loop (p := p) (ell := ell) trials 1 0 rnd n pos k bound = Throw /\ all_rejected (p := p) (ell := ell) rnd 25 n pos k bound).
Proof. apply reject_loop_spec; [lia|unfold trials; lia|intros; lia|lia]. Qed.

Lemma bounded_int_abs r n : 0 <= n -> Z.abs (bounded_int r n) <= 2 ^ n - 1.
Proof.
  intros Hn. unfold bounded_int. assert (0 < 2 ^ n) by (apply Z.pow_pos_nonneg; lia).
  pose proof (Z.mod_pos_bound (fst r) (2 ^ n) H). destruct (Z.odd (snd r)); lia.
Qed.
Lemma coeffs_sample n pos k : coeffs_of (sample_vec (p := p) (ell := ell) rnd n pos k) =
  map (fun i => toF p (bounded_int (rnd (pos + i)%nat) n)) (seq 0 (k * ell)).
Proof.
  unfold sample_vec, coeffs_of. rewrite flat_map_concat_map, map_map.
  transitivity (concat (map (fun i => map (fun j => toF p (bounded_int (rnd (pos + (i * ell + j))%nat) n)) (seq 0 ell)) (seq 0 k))).
  - f_equal. apply map_ext. intros i. apply map_ext_in. intros j Hj. apply in_seq in Hj.
    rewrite coeff_mkE. destruct (Nat.ltb_spec j ell); [|lia]. now rewrite Nat.add_assoc.
  - set (g := fun i => toF p (bounded_int (rnd (pos + i)%nat) n)).
    change (concat (map (fun i => map (fun j => g (i * ell + j)%nat) (seq 0 ell)) (seq 0 k)) = map g (seq 0 (k * ell))).
    clearbody g. induction k as [|k IH]; [reflexivity|].
    rewrite seq_S, map_app, concat_app, IH. cbn [map concat]. rewrite app_nil_r.
    replace (S k * ell)%nat with (k * ell + ell)%nat by lia. rewrite seq_app, map_app. f_equal.
    cbn [Nat.add]. apply (map_seq_shift g).
Qed.
Lemma sample_short n pos k : 2 <= p -> 0 <= n -> 2 * 2 ^ n <= p ->
  exists zs, are_balanced (coeffs_of (sample_vec (p := p) (ell := ell) rnd n pos k)) zs /\
    Forall (fun z => Z.abs z <= 2 ^ n - 1) zs.
Proof.
  intros Hp Hn H2. exists (map (fun i => bounded_int (rnd (pos + i)%nat) n) (seq 0 (k * ell))). rewrite coeffs_sample.
  split.
  - unfold are_balanced. induction (seq 0 (k * ell)) as [|i l IH]; cbn [map]; constructor; [|assumption].
    split; [reflexivity|]. pose proof (bounded_int_abs (rnd (pos + i)%nat) n Hn). lia.
  - apply Forall_forall. intros z Hz. apply in_map_iff in Hz. destruct Hz as [i [<- _]]. now apply bounded_int_abs.
Qed.
Lemma sample_length n pos k : length (sample_vec (p := p) (ell := ell) rnd n pos k) = k.
Proof. unfold sample_vec. now rewrite map_length, seq_length. Qed.
Lemma accepted_short N n pos k bound t : 2 <= p -> 0 <= n -> 2 * 2 ^ n <= p -> accepted_at (p := p) (ell := ell) rnd N n pos k bound t ->
  length (attempt (p := p) (ell := ell) rnd n pos k t) = k /\ short (attempt (p := p) (ell := ell) rnd n pos k t) (2 ^ n - 1) bound.
Proof.
  intros Hp Hn H2 [_ [Hb _]]. split; [apply sample_length|]. unfold attempt in *.
  destruct (sample_short n (pos + t * (k * ell)) k Hp Hn H2) as [zs [B1 B2]]. exists zs. split; [assumption|]. split; [assumption|].
  now rewrite (norm_e p ell _ zs Hp B1) in Hb.
Qed.
End Sampling.

(** *** Decoding *)
Section Decode.
Context {p : Z} {ell : nat}.
Variable bits : Z.
Notation F := (Fp p).
Notation E := (elt p ell).
Add Ring FpRd : (@Fp_ring p).
Hypothesis Hp : 2 <= p.
Hypothesis Hell : (2 <= ell)%nat.
Notation D := (delta (ell := ell) bits).
Hypothesis Hbits : Z.of_nat ell <= bits.
Hypothesis HD : D < p.

Lemma D_even : exists d, D = 2 * d /\ 0 < d.
Proof.
  unfold delta. assert (1 <= bits / Z.of_nat ell) by (apply Z.div_le_lower_bound; lia).
  exists (2 ^ (bits / Z.of_nat ell - 1)). split; [|apply Z.pow_pos_nonneg; lia].
  rewrite <- Z.pow_succ_r by lia. f_equal. lia.
Qed.
Lemma D_pos : 0 < D. Proof. destruct D_even as [d [-> H]]. lia. Qed.
Lemma D_ZZ : deltaZZ (p := p) (ell := ell) bits = D.
Proof. unfold deltaZZ, deltaScalar. rewrite fval_toF. pose proof D_pos. apply Z.mod_small. lia. Qed.
Lemma top_even : exists d, delta2ellm1 (ell := ell) bits = 2 * d /\ 0 < d.
Proof.
  unfold delta2ellm1. destruct D_even as [d [HDe Hd]]. pose proof D_pos.
  replace (Z.of_nat ell - 1) with (Z.succ (Z.of_nat (ell - 2))) by lia. rewrite Z.pow_succ_r by lia.
  exists (d * D ^ Z.of_nat (ell - 2)). split; [rewrite HDe at 1; ring|].
  apply Z.mul_pos_pos; [assumption|]. apply Z.pow_pos_nonneg; lia.
Qed.

Lemma g_loop_nth k : forall (c : F) i, (i < k)%nat ->
  nth i (g_loop (ell := ell) bits k c) 0%F = (c * toF p (D ^ Z.of_nat i))%F.
Proof.
  induction k as [|k IH]; intros c [|i] Hi; cbn [g_loop nth]; try lia.
  - change (D ^ Z.of_nat 0) with 1. change (toF p 1) with (@f1 p). ring.
  - rewrite IH by lia. rewrite Nat2Z.inj_succ, Z.pow_succ_r by lia. rewrite toF_mul. unfold deltaScalar. ring.
Qed.
Lemma gElement_gadget : gElement bits = gadget (p := p) (ell := ell) D.
Proof.
  apply coeff_ext. intros i Hi. unfold gElement, gadget. rewrite !coeff_mkE.
  destruct (Nat.ltb_spec i ell); [|lia]. rewrite g_loop_nth by assumption. ring.
Qed.

Lemma diff_balanced (v : list F) i z : toF p z = (nth i v 0 * toF p D - nth (i + 1) v 0)%F -> - p < 2 * z <= p ->
  decode_diff (ell := ell) bits v i = z.
Proof.
  intros H B. unfold decode_diff. fold (balanced_rep (p / 2) p (fval (nth i v 0 * deltaScalar (ell:=ell) bits - nth (i + 1) v 0)%F)).
  change (balanced (p := p) (nth i v 0 * deltaScalar (ell:=ell) bits - nth (i + 1) v 0)%F = z).
  unfold deltaScalar. rewrite <- H. now apply (balanced_of Hp).
Qed.
Lemma round_spec z : - delta2ellm1 (ell := ell) bits <= 2 * z < delta2ellm1 (ell := ell) bits -> forall w,
  decode_round (ell := ell) bits (z + w * delta2ellm1 (ell := ell) bits) = z.
Proof.
  intros Hz w. unfold decode_round. destruct top_even as [d [HT Hd]]. rewrite HT in *.
  rewrite Z.mod_add by lia. replace (2 * d / 2) with d by (rewrite Z.mul_comm, Z.div_mul; lia).
  destruct (Z.leb_spec 0 z) as [Hpos|Hneg].
  - rewrite Z.mod_small by lia. destruct (Z.leb_spec d z); [lia|].
    destruct (Z.ltb_spec z (- (2 * d) / 2)) as [Hlt|]; [|reflexivity].
    assert (- (2 * d) / 2 <= 0) by (apply Z.div_le_upper_bound; lia). lia.
  - assert (Hm : z mod (2 * d) = z + 2 * d).
    { symmetry. apply Z.mod_unique with (q := -1); lia. }
    rewrite Hm. destruct (Z.leb_spec d (z + 2 * d)); lia.
Qed.
(** Horner on the differences telescopes. *)
Lemma tmp_fold (e : nat -> Z) : forall k i0 acc, acc = e i0 - D ^ Z.of_nat i0 * e 0%nat ->
  fold_left (fun tmp d => tmp * D + d) (map (fun i => e (S i) - D * e i) (seq i0 k)) acc =
  e (i0 + k)%nat - D ^ Z.of_nat (i0 + k) * e 0%nat.
Proof.
  induction k as [|k IH]; intros i0 acc H; cbn [seq map fold_left].
  - now rewrite Nat.add_0_r.
  - rewrite IH.
    + now replace (S i0 + k)%nat with (i0 + S k)%nat by lia.
    + rewrite H, Nat2Z.inj_succ, Z.pow_succ_r by lia. ring.
Qed.
Lemma tmp_telescope (e : nat -> Z) k : (0 < k)%nat ->
  decode_tmp (p := p) (ell := ell) bits (map (fun i => e (S i) - D * e i) (seq 0 k)) = e k - D ^ Z.of_nat k * e 0%nat.
Proof.
  intros Hk. unfold decode_tmp. rewrite D_ZZ. destruct k as [|k]; [lia|]. cbn [seq map].
  rewrite (tmp_fold e k 1); [reflexivity|]. cbn [Z.of_nat]. rewrite Z.pow_1_r. reflexivity.
Qed.
Lemma back_spec (e : nat -> Z) : forall k i0,
  decode_back (p := p) (ell := ell) bits (map (fun i => e (S i) - D * e i) (seq i0 k)) (e (i0 + k)%nat) =
  map e (seq i0 (S k)).
Proof.
  induction k as [|k IH]; intros i0; cbn [seq map].
  - cbn. now rewrite Nat.add_0_r.
  - unfold decode_back in *. cbn [fold_right]. replace (i0 + S k)%nat with (S i0 + k)%nat by lia. rewrite IH.
    cbn [seq map hd]. f_equal. rewrite D_ZZ. pose proof D_pos.
    replace (e (S i0) - (e (S i0) - D * e i0)) with (e i0 * D) by ring. apply Z.div_mul. lia.
Qed.

Lemma decode_spec (old : E) (x : F) (e : nat -> Z) :
  (forall i, (i < ell - 1)%nat -> - p < 2 * (e (S i) - D * e i) <= p) ->
  - D ^ (Z.of_nat ell - 1) <= 2 * e (ell - 1)%nat < D ^ (Z.of_nat ell - 1) ->
  decodePtxt bits old (eopp (eadd (escale x (gadget D)) (of_ints e))) = Ret (x, of_ints e).
Proof.
  intros H1 H2. unfold decodePtxt.
  destruct top_even as [d [HT Hd]].
  destruct (Z.eqb_spec (delta2ellm1 (ell := ell) bits) 0); [lia|].
  destruct (Z.eqb_spec (deltaZZ (p := p) (ell := ell) bits) 0) as [E0|_]; [rewrite D_ZZ in E0; pose proof D_pos; lia|].
  cbn [orb].
  set (z := eopp (eadd (escale x (gadget D)) (of_ints e))).
  assert (Hv : forall i, (i < ell)%nat -> nth i (conv_svec z) 0%F = (- (x * toF p (D ^ Z.of_nat i) + toF p (e i)))%F).
  { intros i Hi. rewrite conv_svec_nth by assumption. unfold z. rewrite coeff_eopp, coeff_eadd, coeff_escale.
    unfold gadget, of_ints. rewrite !coeff_mkE. destruct (Nat.ltb_spec i ell); [reflexivity|lia]. }
  assert (Hds : decode_diffs (ell := ell) bits (conv_svec z) = map (fun i => e (S i) - D * e i) (seq 0 (ell - 1))).
  { apply map_ext_in. intros i Hi. apply in_seq in Hi. apply diff_balanced; [|apply H1; lia].
    rewrite !Hv by lia. rewrite toF_sub, toF_mul. replace (i + 1)%nat with (S i) by lia.
    rewrite Nat2Z.inj_succ, Z.pow_succ_r by lia. rewrite toF_mul. ring. }
  rewrite Hds, tmp_telescope by lia.
  assert (Hl : decode_round (ell := ell) bits (e (ell - 1)%nat - D ^ Z.of_nat (ell - 1) * e 0%nat) = e (ell - 1)%nat).
  { replace (e (ell - 1)%nat - D ^ Z.of_nat (ell - 1) * e 0%nat) with
      (e (ell - 1)%nat + (- e 0%nat) * delta2ellm1 (ell := ell) bits); [apply round_spec; exact H2|].
    unfold delta2ellm1. replace (Z.of_nat ell - 1) with (Z.of_nat (ell - 1)) by lia. ring. }
  rewrite Hl. pose proof (back_spec e (ell - 1) 0) as Hbk. cbn [Nat.add] in Hbk. rewrite Hbk. replace (S (ell - 1)) with ell by lia.
  rewrite map_map. f_equal. f_equal.
  - rewrite Hv by lia. assert (En : nth 0 (map (fun y => toF p (e y)) (seq 0 ell)) 0%F = toF p (e 0%nat)).
    { destruct ell as [|l]; [lia|]. reflexivity. }
    rewrite En. change (D ^ Z.of_nat 0) with 1. change (toF p 1) with (@f1 p). ring.
  - apply coeff_ext. intros j Hj. rewrite conv_elt_coeff by (try assumption; now rewrite map_length, seq_length).
    unfold of_ints. rewrite coeff_mkE. destruct (Nat.ltb_spec j ell); [|lia].
    rewrite nth_indep with (d' := toF p (e 0%nat)) by (rewrite map_length, seq_length; lia).
    rewrite (map_nth (fun y => toF p (e y))), seq_nth by lia. reflexivity.
Qed.
End Decode.
