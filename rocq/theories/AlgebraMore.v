(** Further proofs about the algebra helpers, in the form of the properties. *)
From Coq Require Import ZArith Znumtheory List Lia Bool.
From Verif Require Import NumTheory Prime25519 Outcome Bytes Fp Ring ConstraintsModel
  Scalar25519Model Scalar25519Spec Scalar25519Proofs AlgebraModel AlgebraSpec AlgebraProofs.
Import ListNotations.
Open Scope Z_scope.

Lemma prime_101 : prime 101.
Proof. apply prime_by_trial; vm_compute; reflexivity. Qed.

Lemma two_le_P : 2 <= P25519.
Proof. vm_compute. discriminate. Qed.
Lemma conv_scalar_rep (s : Fp P25519) : represents (crv_of_scalar s) s.
Proof.
  unfold crv_of_scalar, scalarBytes, bigIntBytes. pose proof (fval_range P25519 s P_pos) as H. pose proof P_lt_256.
  split; [split; [apply le_bytes_length|apply bytes_ok_nth, le_bytes_ok]|].
  rewrite Z.abs_eq by lia. apply le_val_bytes_small. lia.
Qed.
Lemma conv_scalar_spec (s : Fp P25519) :
  represents (crv_of_scalar s) s /\ scalar_of_crv (crv_of_scalar s) = Ret s.
Proof.
  split; [apply conv_scalar_rep|]. apply (scalar_roundtrip two_le_P s 32). vm_compute. lia.
Qed.
Lemma conv_scalar_hom (s t : Fp P25519) :
  crv_of_scalar (s + t)%F = s_add (crv_of_scalar s) (crv_of_scalar t) /\
  crv_of_scalar (s - t)%F = s_sub (crv_of_scalar s) (crv_of_scalar t) /\
  crv_of_scalar (s * t)%F = s_mul (crv_of_scalar s) (crv_of_scalar t).
Proof.
  destruct (arith_represents (crv_of_scalar s) (crv_of_scalar t)) as [A [B [C _]]].
  rewrite !(represents_value _ _ (conv_scalar_rep _)) in A, B, C.
  repeat split; (eapply represents_inj; [apply conv_scalar_rep|eassumption]).
Qed.
Lemma conv_from_curve b x : represents b x -> scalar_of_crv b = Ret x /\ crv_of_scalar x = b.
Proof.
  intros H. assert (E : crv_of_scalar x = b) by (eapply represents_inj; [apply conv_scalar_rep|exact H]).
  split; [|assumption]. rewrite <- E. apply conv_scalar_spec.
Qed.
Lemma conv_bigint_spec n : 0 <= n < P25519 -> represents (crv_of_bigint n) (toF P25519 n).
Proof.
  intros H. unfold crv_of_bigint, bigIntBytes. pose proof P_lt_256.
  split; [split; [apply le_bytes_length|apply bytes_ok_nth, le_bytes_ok]|].
  rewrite Z.abs_eq by lia. rewrite le_val_bytes_small by lia. rewrite fval_toF, Z.mod_small; lia.
Qed.
Lemma conv_bigint_outside n : 0 < n < P25519 ->
  ~ represents (crv_of_bigint (- n)) (toF P25519 (- n)) /\
  ~ represents (crv_of_bigint (P25519 + n)) (toF P25519 (P25519 + n)).
Proof.
  intros H. pose proof P_lt_256 as HP.
  assert (H2 : 2 * P25519 < 256 ^ Z.of_nat 32) by reflexivity.
  unfold crv_of_bigint, bigIntBytes. split; intros [_ E].
  - rewrite Z.abs_opp, Z.abs_eq, le_val_bytes_small in E by lia. rewrite fval_toF in E.
    rewrite Z.mod_opp_l_nz in E; rewrite ?Z.mod_small in * by lia; try lia.
    rewrite P_odd in E. lia.
  - rewrite Z.abs_eq, le_val_bytes_small in E by lia. rewrite fval_toF in E.
    pose proof (Z.mod_pos_bound (P25519 + n) P25519 P_pos). lia.
Qed.

Lemma two_digits p ell (hi lo v : list (elt p ell)) radix : 2 < p -> 2 <= radix < p ->
  exists hi' lo', breakTwoDigits hi lo v radix = Ret (hi', lo') /\
    length hi' = length v /\ length lo' = length v /\
    forall i j, (i < length v)%nat -> (j < ell)%nat ->
      forall x h l, is_balanced (coeff (nth i v e0) j) x ->
        is_balanced (coeff (nth i hi' e0) j) h -> is_balanced (coeff (nth i lo' e0) j) l ->
        x = l + radix * h /\ - radix < 2 * l <= radix /\ 2 * radix * Z.abs h <= 2 * Z.abs x + radix.
Proof.
  intros Hp Hr. assert (Hp2 : 2 <= p) by lia.
  destruct (break_loop_spec Hp2 radix v ltac:(lia) Hp ltac:(lia) (resizeE hi (length v)) (resizeE lo (length v))
    (resizeE_length _ _) (resizeE_length _ _)) as [hi' [lo' [E [L1 [L2 H]]]]].
  exists hi', lo'. split; [exact E|]. split; [assumption|]. split; [assumption|].
  intros i j Hi Hj x h l Hx Hh Hl.
  rewrite (is_balanced_unique Hp2 _ _ _ Hx (balanced_spec Hp2 _)).
  rewrite (is_balanced_unique Hp2 _ _ _ Hh (balanced_spec Hp2 _)).
  rewrite (is_balanced_unique Hp2 _ _ _ Hl (balanced_spec Hp2 _)).
  exact (H i j Hi Hj).
Qed.
Lemma two_digits_mod p ell (hi lo v : list (elt p ell)) radix hi' lo' : 2 < p -> 2 <= radix < p ->
  breakTwoDigits hi lo v radix = Ret (hi', lo') ->
  forall i, (i < length v)%nat -> nth i v e0 = eadd (nth i lo' e0) (escale (toF p radix) (nth i hi' e0)).
Proof.
  intros Hp Hr E i Hi. assert (Hp2 : 2 <= p) by lia.
  destruct (two_digits p ell hi lo v radix Hp Hr) as [h2 [l2 [E2 [_ [_ H]]]]].
  rewrite E in E2. injection E2 as <- <-. apply coeff_ext. intros j Hj.
  destruct (H i j Hi Hj _ _ _ (balanced_spec Hp2 _) (balanced_spec Hp2 _) (balanced_spec Hp2 _)) as [Hx _].
  rewrite coeff_eadd, coeff_escale.
  destruct (balanced_spec Hp2 (coeff (nth i v e0) j)) as [Ex _].
  destruct (balanced_spec Hp2 (coeff (nth i hi' e0) j)) as [Eh _].
  destruct (balanced_spec Hp2 (coeff (nth i lo' e0) j)) as [El _].
  rewrite <- Ex, <- Eh, <- El at 1. rewrite Hx, toF_add, toF_mul.
  rewrite Eh, El. reflexivity.
Qed.
Lemma break_zero_radix p ell (e : elt p ell) hi lo : (0 < ell)%nat -> breakTwoDigits hi lo [e] 0 = Abort.
Proof.
  intros He. unfold breakTwoDigits. cbn [length].
  pose proof (resizeE_length hi 1) as L1. pose proof (resizeE_length lo 1) as L2.
  destruct (resizeE hi 1) as [|h [|]]; try discriminate. destruct (resizeE lo 1) as [|l [|]]; try discriminate.
  cbn [break_loop]. unfold balanced_elt, balanced_vec.
  pose proof (conv_svec_length e) as L3. destruct (conv_svec e) as [|c cs]; [cbn in L3; lia|]. reflexivity.
Qed.

Lemma balanced_life p (calls : list (Fp p)) : 2 <= p ->
  are_balanced calls (balanced_calls None (map (fun s => (p, fval s)) calls)).
Proof.
  intros Hp. rewrite (@calls_constant p); [|intros m rep Hin|now left].
  - rewrite map_map. cbn [snd]. apply (balanced_vec_spec Hp).
  - apply in_map_iff in Hin. destruct Hin as [s [Es _]]. congruence.
Qed.
Lemma norm_s p (v : list (Fp p)) zs : 2 <= p -> are_balanced v zs -> normSquared_s p v = sum_sq zs.
Proof.
  intros Hp H. unfold normSquared_s. rewrite normSquaredBI_spec. f_equal.
  apply (are_balanced_unique Hp v); [apply (balanced_vec_spec Hp)|assumption].
Qed.
Lemma norm_e p ell (v : list (elt p ell)) zs : 2 <= p -> are_balanced (coeffs_of v) zs -> normSquared_e p v = sum_sq zs.
Proof. intros Hp H. exact (norm_s p (coeffs_of v) zs Hp H). Qed.
Lemma linf p ell (v : list (elt p ell)) zs : 2 <= p -> are_balanced (coeffs_of v) zs -> is_max_abs zs (lInftyNorm v).
Proof.
  intros Hp H. rewrite (are_balanced_unique Hp _ _ _ H (balanced_vec_spec Hp _)).
  unfold lInftyNorm. destruct (@max_loop p (flat_map conv_svec v) 0 ltac:(lia)) as [A [B C]]. cbn beta zeta in *.
  split; [assumption|]. split.
  - intros z Hz. apply in_map_iff in Hz. destruct Hz as [c [<- Hc]]. now apply B.
  - destruct C as [C|[c [Hc C]]]; [now left|right]. exists (balanced c). split; [now apply in_map|assumption].
Qed.

Lemma divCeil_spec x y : 0 < y -> exists q, divCeil x y = Ret q /\ (q - 1) * y < x <= q * y.
Proof.
  intros H. unfold divCeil. destruct (Z.eqb_spec y 0); [lia|]. eexists. split; [reflexivity|].
  pose proof (Z.div_mod (x + y - 1) y ltac:(lia)). pose proof (Z.mod_pos_bound (x + y - 1) y H). nia.
Qed.
Lemma ceilDiv_spec a b : 0 < b -> 0 <= a -> a + b < 2 ^ 31 ->
  exists q, ceilDiv a b = Ret q /\ (q - 1) * b < a <= q * b.
Proof.
  intros Hb Ha Hab. unfold ceilDiv.
  rewrite (proj2 (Z.eqb_neq b 0)), (proj2 (Z.leb_gt _ _)), (proj2 (Z.ltb_ge _ _)), (proj2 (Z.leb_gt _ _)), (proj2 (Z.ltb_ge _ _)) by lia.
  cbn [orb]. eexists. split; [reflexivity|]. rewrite Z.quot_div_nonneg by lia.
  pose proof (Z.div_mod (a + b - 1) b ltac:(lia)). pose proof (Z.mod_pos_bound (a + b - 1) b Hb). nia.
Qed.
Lemma log2roundUpBI_spec n : 0 < n ->
  n <= 2 ^ log2roundUpBI n /\ 0 <= log2roundUpBI n /\ forall k, 0 <= k -> n <= 2 ^ k -> log2roundUpBI n <= k.
Proof.
  intros H. unfold log2roundUpBI. destruct (Z.eqb_spec n 0); [lia|].
  split; [|split].
  - destruct (Z.eq_dec n 1) as [->|Hn]; [cbn; lia|]. pose proof (numBits_pow (n - 1) ltac:(lia)). lia.
  - apply numBits_nonneg.
  - intros k Hk Hle. unfold numBits. destruct (Z.eqb_spec (n - 1) 0); [assumption|].
    rewrite Z.abs_eq by lia.
    assert (Z.log2 (n - 1) < k) by (apply Z.log2_lt_pow2; lia). lia.
Qed.
