(** Properties C27-C30, C38, C66, C73: encodings, conversions, digits, norms,
    padding, map builders, rounding helpers. *)
From Coq Require Import ZArith Znumtheory List Lia Bool.
From Verif Require Import NumTheory Prime25519 Outcome Bytes Fp Ring ConstraintsModel FourSquaresModel FourSquaresSpec
  PropFourSquares Scalar25519Model Scalar25519Spec Scalar25519Proofs AlgebraModel AlgebraSpec AlgebraProofs AlgebraMore.
Import ListNotations.
Open Scope Z_scope.

(** C27.  With bufSize at least bytesPerScalar (times ell) bytes. *)
Theorem C27_scalar_roundtrip : forall p (s : Fp p) n, 2 <= p -> (bytesPerScalar p <= n)%nat ->
  length (scalarBytes s n) = n /\ scalarFromBytes (scalarBytes s n) n = Ret s.
Proof. intros p s n Hp. exact (scalar_roundtrip Hp s n). Qed.
Print Assumptions C27_scalar_roundtrip.
Theorem C27_element_roundtrip : forall p ell (e : elt p ell) n, 2 <= p -> (ell * bytesPerScalar p <= n)%nat ->
  length (elementBytes e n) = n /\ elementFromBytes (elementBytes e n) n = Ret e.
Proof. intros p ell e n Hp. exact (element_roundtrip Hp e n). Qed.
Print Assumptions C27_element_roundtrip.
(** Every byte of a buffer of any size is written. *)
Theorem C27_all_bytes_written : forall p ell (e : elt p ell) n, length (elementBytes e n) = n.
Proof. intros. apply elementBytes_length. Qed.
Print Assumptions C27_all_bytes_written.
Theorem C27_bytesPerScalar_P25519 : bytesPerScalar P25519 = 32%nat.
Proof. vm_compute. reflexivity. Qed.
(** Constant elements use the zero-filling branch (the representation drops the
    leading zero coefficient). *)
Example C27_example :
  elementBytes (mkE 2 (fun i => if Nat.eqb i 0 then toF P25519 258 else 0%F)) 64 = [2; 1] ++ repeat 0 62
  /\ elementBytes (mkE 2 (fun i => toF P25519 (Z.of_nat i + 3))) 64 = [3] ++ repeat 0 31 ++ [4] ++ repeat 0 31.
Proof. split; vm_compute; reflexivity. Qed.
(** One byte less loses information. *)
Theorem C27_short_buffer : exists (s : Fp P25519), scalarFromBytes (scalarBytes s 31) 31 <> Ret s.
Proof.
  exists (toF P25519 (2 ^ 250)). intros H. vm_compute in H. injection H as H. discriminate.
Qed.

(** C28.  Field scalars and curve scalars. *)
Theorem C28_roundtrip : forall s : Fp P25519,
  represents (crv_of_scalar s) s /\ scalar_of_crv (crv_of_scalar s) = Ret s.
Proof. exact conv_scalar_spec. Qed.
Print Assumptions C28_roundtrip.
Theorem C28_homomorphic : forall s t : Fp P25519,
  crv_of_scalar (s + t)%F = s_add (crv_of_scalar s) (crv_of_scalar t) /\
  crv_of_scalar (s - t)%F = s_sub (crv_of_scalar s) (crv_of_scalar t) /\
  crv_of_scalar (s * t)%F = s_mul (crv_of_scalar s) (crv_of_scalar t).
Proof. exact conv_scalar_hom. Qed.
Print Assumptions C28_homomorphic.
Theorem C28_from_curve : forall b x, represents b x -> scalar_of_crv b = Ret x /\ crv_of_scalar x = b.
Proof. exact conv_from_curve. Qed.
Print Assumptions C28_from_curve.
Theorem C28_bigint : forall n, 0 <= n < P25519 -> represents (crv_of_bigint n) (toF P25519 n).
Proof. exact conv_bigint_spec. Qed.
Print Assumptions C28_bigint.
(** Negative integers lose their sign, integers from P on are not reduced. *)
Theorem C28_bigint_outside : forall n, 0 < n < P25519 ->
  ~ represents (crv_of_bigint (- n)) (toF P25519 (- n)) /\
  ~ represents (crv_of_bigint (P25519 + n)) (toF P25519 (P25519 + n)).
Proof. exact conv_bigint_outside. Qed.
Print Assumptions C28_bigint_outside.
Example C28_example : crv_of_scalar (toF P25519 (-1)) = enc (-1) /\ crv_of_bigint 300 = [44; 1] ++ repeat 0 30.
Proof. split; vm_compute; reflexivity. Qed.

(** C29.  For every previous content of the output arguments.  The digits are
    read as balanced integers. *)
Theorem C29_two_digits : forall p ell (hi lo v : list (elt p ell)) radix, 2 < p -> 2 <= radix < p ->
  exists hi' lo', breakTwoDigits hi lo v radix = Ret (hi', lo') /\
    length hi' = length v /\ length lo' = length v /\
    forall i j, (i < length v)%nat -> (j < ell)%nat ->
      forall x h l, is_balanced (coeff (nth i v e0) j) x ->
        is_balanced (coeff (nth i hi' e0) j) h -> is_balanced (coeff (nth i lo' e0) j) l ->
        x = l + radix * h /\ - radix < 2 * l <= radix /\ 2 * radix * Z.abs h <= 2 * Z.abs x + radix.
Proof. exact two_digits. Qed.
Print Assumptions C29_two_digits.
(** Hence, coefficient by coefficient, modulo P. *)
Theorem C29_mod_p : forall p ell (hi lo v : list (elt p ell)) radix hi' lo', 2 < p -> 2 <= radix < p ->
  breakTwoDigits hi lo v radix = Ret (hi', lo') ->
  forall i, (i < length v)%nat -> nth i v e0 = eadd (nth i lo' e0) (escale (toF p radix) (nth i hi' e0)).
Proof. exact two_digits_mod. Qed.
Print Assumptions C29_mod_p.
Theorem C29_zero_radix : forall p ell (e : elt p ell) hi lo, (0 < ell)%nat -> breakTwoDigits hi lo [e] 0 = Abort.
Proof. exact break_zero_radix. Qed.
Print Assumptions C29_zero_radix.
Example C29_example : exists r, breakTwoDigits [] [] [mkE 2 (fun i => toF 101 (if Nat.eqb i 0 then 48 else -27))] 10 = Ret r /\
  map (fun e => map balanced (ec e)) (fst r) = [[5; -3]] /\ map (fun e => map balanced (ec e)) (snd r) = [[-2; 3]].
Proof. eexists. split; [vm_compute; reflexivity|]. split; reflexivity. Qed.

(** C30.  Balanced representative, for a process that uses one modulus. *)
Theorem C30_balanced_partial : forall p (calls : list (Fp p)), 2 <= p ->
  are_balanced calls (balanced_calls None (map (fun s => (p, fval s)) calls)).
Proof. exact balanced_life. Qed.
Print Assumptions C30_balanced_partial.
Theorem C30_unique : forall p (s : Fp p) z z', 2 <= p -> is_balanced s z -> is_balanced s z' -> z = z'.
Proof. intros p s z z' Hp. exact (is_balanced_unique Hp s z z'). Qed.
Print Assumptions C30_unique.
(** After a change of the modulus the cached half is wrong. *)
Theorem C30_refuted : exists m1 r1 m2 r2, prime m1 /\ prime m2 /\ 0 <= r1 < m1 /\ 0 <= r2 < m2 /\
  exists z1 z2, balanced_calls None [(m1, r1); (m2, r2)] = [z1; z2] /\ ~ is_balanced (toF m2 r2) z2.
Proof.
  exists 101, 5, 17, 16. split; [apply prime_101|]. split; [apply prime_17|]. split; [lia|]. split; [lia|].
  exists 5, 16. split; [reflexivity|]. intros [_ H]. lia.
Qed.
Print Assumptions C30_refuted.
Theorem C30_norm_scalars : forall p (v : list (Fp p)) zs, 2 <= p -> are_balanced v zs ->
  normSquared_s p v = sum_sq zs.
Proof. exact norm_s. Qed.
Theorem C30_norm_elements : forall p ell (v : list (elt p ell)) zs, 2 <= p -> are_balanced (coeffs_of v) zs ->
  normSquared_e p v = sum_sq zs.
Proof. exact norm_e. Qed.
Theorem C30_linf : forall p ell (v : list (elt p ell)) zs, 2 <= p -> are_balanced (coeffs_of v) zs ->
  is_max_abs zs (lInftyNorm v).
Proof. exact linf. Qed.
Print Assumptions C30_norm_scalars.
Print Assumptions C30_norm_elements.
Print Assumptions C30_linf.
Example C30_example : normSquared_s 17 [toF 17 16; toF 17 3; toF 17 9] = 74 /\
  lInftyNorm [mkE 2 (fun i => toF 17 (Z.of_nat i + 8))] = 8 /\
  balanced_calls None [(17, 8); (17, 9)] = [8; -8].
Proof. repeat split. Qed.

(** C38.  Padding to an exact norm. *)
Theorem C38_pad_scalars : forall p jacobi probPrime singlePrec, 2 <= p ->
  jacobi_ok jacobi -> prime_test_sound probPrime ->
  forall (v pad : list (Fp p)) bound, 0 <= bound -> 2 * bound <= p -> (4 <= length pad)%nat ->
  let n2 := sum_sq (map balanced v) in
  (bound * bound < n2 -> pad2exactNorm_s jacobi probPrime singlePrec p v pad bound = Throw) /\
  (n2 <= bound * bound ->
   exists four, decompose4 jacobi probPrime singlePrec (bound * bound - n2) = Ret four /\
    (four = [-1; -1; -1; -1] \/
     pad2exactNorm_s jacobi probPrime singlePrec p v pad bound = Ret (map (toF p) four ++ skipn 4 pad) /\
     length four = 4%nat /\ sum_sq (map balanced (v ++ map (toF p) four)) = bound * bound)).
Proof. intros p j pp sp Hp Hj Hpp. exact (pad_s_spec Hp j pp sp Hj Hpp). Qed.
Print Assumptions C38_pad_scalars.
Theorem C38_pad_elements : forall p ell jacobi probPrime singlePrec, 2 <= p ->
  jacobi_ok jacobi -> prime_test_sound probPrime ->
  forall (v pad : list (elt p ell)) bound, (0 < ell)%nat -> 0 <= bound -> 2 * bound <= p ->
  let n2 := sum_sq (map balanced (coeffs_of v)) in
  (bound * bound < n2 -> pad2exactNorm_ev jacobi probPrime singlePrec p v pad bound = Throw) /\
  (n2 <= bound * bound ->
   decompose4 jacobi probPrime singlePrec (bound * bound - n2) = Ret [-1; -1; -1; -1] \/
   exists pad', pad2exactNorm_ev jacobi probPrime singlePrec p v pad bound = Ret pad' /\
     sum_sq (map balanced (coeffs_of (v ++ pad'))) = bound * bound /\
     4 <= Z.of_nat (length pad' * ell) < Z.of_nat (4 + ell)).
Proof. intros p ell j pp sp Hp Hj Hpp. exact (pad_e_spec Hp j pp sp Hj Hpp). Qed.
Print Assumptions C38_pad_elements.
(** When the decomposition reports failure nothing is signalled: the padding
    consists of -1s and the norm is wrong. *)
Theorem C38_silent_failure : exists (v : list (Fp P25519)) bound pad',
  pad2exactNorm_s jac_ex pp_ex sp_ex P25519 v (repeat 0%F 4) bound = Ret pad' /\
  sum_sq (map balanced v) <= bound * bound /\ sum_sq (map balanced (v ++ pad')) <> bound * bound.
Proof.
  exists [toF P25519 3; toF P25519 1], 9, (repeat (toF P25519 (-1)) 4). split; [|split].
  - vm_compute. repeat f_equal; apply Fp_eq; reflexivity.
  - vm_compute. discriminate.
  - vm_compute. discriminate.
Qed.
Print Assumptions C38_silent_failure.
Example C38_example : exists pad', pad2exactNorm_ev (p:=P25519) (ell:=2) jac_ex pp_ex sp_ex P25519
    [mkE 2 (fun i => toF P25519 (Z.of_nat i - 2))] [] 10 = Ret pad' /\
  length pad' = 2%nat /\ sum_sq (map balanced (coeffs_of pad')) = 95.
Proof. eexists. split; [vm_compute; reflexivity|]. split; vm_compute; reflexivity. Qed.

(** C66.  Map builders, for indexes that fit in size_t. *)
Theorem C66_addEVec : forall p ell (m : pvec p) (v : list (elt p ell)) offset, ksorted m -> 0 <= offset ->
  offset + Z.of_nat (length v) * Z.of_nat ell <= 2 ^ 64 ->
  let r := addEVec2Map m v offset in
  ksorted r /\
  (forall i j e, nth_error v i = Some e -> (j < ell)%nat ->
     kfind r (offset + Z.of_nat i * Z.of_nat ell + Z.of_nat j) = Some (coeff e j)) /\
  (forall k, ~ (offset <= k < offset + Z.of_nat (length v) * Z.of_nat ell) -> kfind r k = kfind m k).
Proof. intros p ell. exact (@addEVec_spec p ell). Qed.
Print Assumptions C66_addEVec.
Theorem C66_addSVec : forall p (m : pvec p) (v : list (Fp p)) offset, ksorted m -> 0 <= offset ->
  offset + Z.of_nat (length v) <= 2 ^ 64 ->
  let r := addSVec2Map m v offset in
  ksorted r /\
  (forall i c, nth_error v i = Some c -> kfind r (offset + Z.of_nat i) = Some c) /\
  (forall k, ~ (offset <= k < offset + Z.of_nat (length v)) -> kfind r k = kfind m k).
Proof. intros p. exact (@add_vec_spec p). Qed.
Print Assumptions C66_addSVec.
Theorem C66_addRange_partial : forall s from len, zsorted s -> 0 <= from -> 0 <= len -> from + len < 2 ^ 31 ->
  zsorted (addRange2Set s from len) /\ forall k, In k (addRange2Set s from len) <-> In k s \/ from <= k < from + len.
Proof. exact addRange_spec. Qed.
Print Assumptions C66_addRange_partial.
(** Beyond int the range is wrong. *)
Theorem C66_refuted : exists from len, 0 <= from < 2 ^ 64 /\ from + len < 2 ^ 64 /\
  addRange2Set [] from len = [2 ^ 64 - 2 ^ 31] /\ ~ from <= 2 ^ 64 - 2 ^ 31 < from + len.
Proof. exists (2 ^ 31), 1. split; [lia|]. split; [lia|]. split; [reflexivity|lia]. Qed.
Print Assumptions C66_refuted.
Example C66_example :
  map fst (addEVec2Map [(5, toF 17 1); (9, toF 17 2)] [mkE 2 (fun i => toF 17 (Z.of_nat i + 3)); mkE 2 (fun i => toF 17 7)] 8) = [5; 8; 9; 10; 11]
  /\ map (fun e => fval (snd e)) (addEVec2Map [(5, toF 17 1); (9, toF 17 2)] [mkE 2 (fun i => toF 17 (Z.of_nat i + 3)); mkE 2 (fun i => toF 17 7)] 8) = [1; 3; 4; 7; 7]
  /\ addRange2Set [2; 7] 4 4 = [2; 4; 5; 6; 7].
Proof. repeat split; vm_compute; reflexivity. Qed.

(** C73.  Rounding helpers. *)
Theorem C73_divCeil : forall x y, 0 < y -> exists q, divCeil x y = Ret q /\ (q - 1) * y < x <= q * y.
Proof. exact divCeil_spec. Qed.
Theorem C73_ceilDiv : forall a b, 0 < b -> 0 <= a -> a + b < 2 ^ 31 ->
  exists q, ceilDiv a b = Ret q /\ (q - 1) * b < a <= q * b.
Proof. exact ceilDiv_spec. Qed.
Theorem C73_log2roundUp : forall n, 0 < n ->
  n <= 2 ^ log2roundUpBI n /\ 0 <= log2roundUpBI n /\ forall k, 0 <= k -> n <= 2 ^ k -> log2roundUpBI n <= k.
Proof. exact log2roundUpBI_spec. Qed.
Print Assumptions C73_divCeil.
Print Assumptions C73_ceilDiv.
Print Assumptions C73_log2roundUp.
(** For a negative numerator divCeil still rounds up, ceilDiv does not. *)
Theorem C73_ceilDiv_negative : exists a b q, 0 < b /\ ceilDiv a b = Ret q /\ ~ ((q - 1) * b < a <= q * b).
Proof. exists (-4), 3, 0. split; [lia|]. split; [reflexivity|lia]. Qed.
Print Assumptions C73_ceilDiv_negative.
Example C73_example : divCeil (-7) 3 = Ret (-2) /\ ceilDiv 4 3 = Ret 2 /\ log2roundUpBI 8 = 3 /\ log2roundUpBI 9 = 4.
Proof. repeat split. Qed.
