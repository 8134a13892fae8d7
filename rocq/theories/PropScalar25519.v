(** Properties C61-C65: curve scalars as byte strings, samplers, points. *)
From Coq Require Import ZArith Znumtheory List Lia Bool.
From Verif Require Import NumTheory Outcome Bytes Fp GroupMod FSum Prime25519 Scalar25519Model
  Scalar25519Spec Scalar25519Proofs.
Import ListNotations.
Open Scope Z_scope.

(** C61.  For all byte strings, reduced or not, each operation returns the
    reduced representation of the field operation on the values. *)
Theorem C61_arithmetic : forall a b : list Z,
  represents (s_add a b) (value a + value b)%F /\
  represents (s_sub a b) (value a - value b)%F /\
  represents (s_mul a b) (value a * value b)%F /\
  represents (s_negate a) (- value a)%F.
Proof. exact arith_represents. Qed.
Print Assumptions C61_arithmetic.

Theorem C61_division : forall a b : list Z,
  (value b = f0 -> s_div a b = Throw /\ s_invert b = Throw) /\
  (value b <> f0 -> exists q i, s_div a b = Ret q /\ s_invert b = Ret i /\
     represents i (finv (value b)) /\
     (forall x, represents q x -> (x * value b = value a)%F) /\ exists x, represents q x).
Proof. exact division_represents. Qed.
Print Assumptions C61_division.

(** Byte equality decides equality of values on reduced strings. *)
Theorem C61_equality : forall a b x y, represents a x -> represents b y ->
  (s_eqb a b = true <-> x = y) /\ (s_isZero a = true <-> x = f0).
Proof. exact equality_represents. Qed.
Print Assumptions C61_equality.

(** Inner products of arrays: reads exactly n entries of each, else undefined. *)
Theorem C61_innerProduct : forall (a b : list (list Z)) (n : nat), (n <= length a)%nat -> (n <= length b)%nat ->
  exists r, s_innerProduct a b n = Ret r /\
    represents r (fsum (map (fun e => (value (fst e) * value (snd e))%F) (combine (firstn n a) (firstn n b)))).
Proof. exact innerProduct_represents. Qed.
Print Assumptions C61_innerProduct.

(** The proviso "produced by the API" is needed: a string read from a stream
    may be unreduced, has the same value as 0 and is not equal to it. *)
Theorem C61_unreduced_strings_differ : exists b : list Z,
  string32 b /\ value b = f0 /\ s_isZero b = false.
Proof.
  exists (le_bytes 32 P25519). split; [|split].
  - split; [reflexivity|]. apply bytes_ok_nth. apply le_bytes_ok.
  - apply Fp_eq. vm_compute. reflexivity.
  - vm_compute. reflexivity.
Qed.
Print Assumptions C61_unreduced_strings_differ.

Example C61_example : exists q, s_div (enc 7) (enc 3) = Ret q /\ s_mul q (enc 3) = enc 7 /\ q <> enc 2.
Proof. eexists. split; [vm_compute; reflexivity|]. split; [vm_compute; reflexivity|discriminate]. Qed.

(** C62.  Every long except LONG_MIN. *)
Theorem C62_setInteger_partial : forall n, - 2 ^ 63 < n < 2 ^ 63 ->
  exists b, setInteger n = Ret b /\ represents b (toF P25519 n).
Proof. intros n H. exists (enc n). split; [now apply setInteger_ret|apply represents_enc]. Qed.
Print Assumptions C62_setInteger_partial.

(** For LONG_MIN the negation -n overflows, undefined behaviour. *)
Theorem C62_refuted : exists n, - 2 ^ 63 <= n < 2 ^ 63 /\ setInteger n = UB.
Proof. exists (- 2 ^ 63). split; [lia|reflexivity]. Qed.
Print Assumptions C62_refuted.

Example C62_example : exists b, setInteger (-5) = Ret b /\ represents b (toF P25519 (-5)).
Proof. apply C62_setInteger_partial. lia. Qed.

(** C63.  What %= computes: [signed_reading] is the one used by the code, the result represents the residue of sgn a modulo |sgn b| in
    (-|b|/2, |b|/2]. *)
Theorem C63_mod_partial : forall a b x y, represents a x -> represents b y -> y <> f0 ->
  exists r z, s_mod a b = Ret r /\
    nearest_residue (signed_reading (fval x)) (Z.abs (signed_reading (fval y))) z /\
    represents r (toF P25519 z).
Proof. exact mod_spec. Qed.
Print Assumptions C63_mod_partial.

(** A zero divisor is an NTL error. *)
Theorem C63_zero_divisor : forall a b, represents b f0 -> s_mod a b = Abort.
Proof. exact mod_zero. Qed.
Print Assumptions C63_zero_divisor.

(** The documented range [-|b|/2,|b|/2) is wrong at the upper end: 2 %= 4 is 2;
    and (P-1)/2, which lies in [-P/2,P/2), is read as -(P+1)/2, which does not. *)
Theorem C63_refuted :
  (exists a b, represents a (toF P25519 2) /\ represents b (toF P25519 4) /\
     s_mod a b = Ret a) /\
  (exists a b r, represents a (toF P25519 ((P25519 - 1) / 2)) /\ represents b (toF P25519 7) /\
     s_mod a b = Ret r /\
     ~ exists z, (7 | (P25519 - 1) / 2 - z) /\ - 7 <= 2 * z <= 7 /\ represents r (toF P25519 z)).
Proof. exact mod_refuted. Qed.
Print Assumptions C63_refuted.

Example C63_example : exists r, s_mod (enc 17) (enc (-7)) = Ret r /\ represents r (toF P25519 3).
Proof. eexists. split; [vm_compute; reflexivity|]. exact (represents_enc 3). Qed.
Example C63_example_neg : s_mod (enc 19) (enc 7) = Ret (enc (-2)).
Proof. vm_compute. reflexivity. Qed.

(** C64.  BoundedSizeScalar: constructor and every draw. *)
Theorem C64_bounded_throws : forall n, bounded_new n = Throw <-> ~ (1 <= n <= 251).
Proof. exact bounded_new_throw. Qed.
Print Assumptions C64_bounded_throws.
Theorem C64_bounded_range : forall n nBytes mask buf bit,
  bounded_new n = Ret (nBytes, mask) ->
  Z.of_nat (length buf) = nBytes -> (forall i, 0 <= nth i buf 0 < 256) ->
  exists z, - (2 ^ n - 1) <= z <= 2 ^ n - 1 /\ represents (bounded_draw nBytes mask buf bit) (toF P25519 z).
Proof. exact bounded_range. Qed.
Print Assumptions C64_bounded_range.
(** Every value of the range is reached. *)
Theorem C64_bounded_onto : forall n nBytes mask z,
  bounded_new n = Ret (nBytes, mask) -> - (2 ^ n - 1) <= z <= 2 ^ n - 1 ->
  exists buf bit, Z.of_nat (length buf) = nBytes /\ (forall i, 0 <= nth i buf 0 < 256) /\
    represents (bounded_draw nBytes mask buf bit) (toF P25519 z).
Proof. exact bounded_onto. Qed.
Print Assumptions C64_bounded_onto.
Example C64_example : exists nB m, bounded_new 10 = Ret (nB, m) /\
  represents (bounded_draw nB m [255; 255] 1) (toF P25519 (-1023)).
Proof. do 2 eexists. split; [reflexivity|]. exact (represents_enc (-1023)). Qed.

(** ZeroOneScalar on a zeroed target gives 0, 1 or -1 according to two bits. *)
Theorem C64_zeroOne_partial : forall r,
  represents (zeroOne r s_zero)
    (toF P25519 (if Z.odd r then (if Z.testbit r 1 then -1 else 1) else 0)).
Proof. exact zeroOne_zero. Qed.
Print Assumptions C64_zeroOne_partial.
(** On a target holding another value it does not: the other bytes (and, for an
    even r, all bytes) of the previous content survive. *)
Theorem C64_refuted : exists r r' data, represents data (toF P25519 1000) /\
  zeroOne r data = data /\ represents (zeroOne r' data) (toF P25519 769).
Proof.
  exists 0, 1, (enc 1000). split; [apply represents_enc|]. split; [reflexivity|].
  exact (represents_enc 769).
Qed.
Print Assumptions C64_refuted.

(** C65.  Group operations, for points of the subgroup and reduced scalars. *)
Theorem C65_points : forall (G : gmod P25519) (a b : G) (n : list Z) (x : Fp P25519),
  represents n x ->
  p_add a b = Ret (a + b)%G /\ p_sub a b = Ret (a - b)%G /\ p_mul a n = Ret (a * x)%G.
Proof. exact points_spec. Qed.
Print Assumptions C65_points.

(** baseTimesScalar throws exactly on the zero scalar. *)
Theorem C65_base : forall (G : gmod P25519) (base : G) n x, base <> 0%G -> represents n x ->
  (x = f0 -> baseTimesScalar base n = Throw) /\
  (x <> f0 -> baseTimesScalar base n = Ret (base * x)%G).
Proof. exact base_spec. Qed.
Print Assumptions C65_base.

(** An unreduced scalar of value 0 makes *= throw. *)
Theorem C65_unreduced_throws : forall (G : gmod P25519) (a : G), a <> 0%G ->
  exists n, string32 n /\ value n = f0 /\ p_mul a n = Throw.
Proof. exact unreduced_throws. Qed.
Print Assumptions C65_unreduced_throws.

Example C65_example : p_mul (G := Fp_gmod P25519) (toF P25519 5) (enc (-3)) = Ret (toF P25519 (-15)).
Proof. vm_compute. f_equal. apply Fp_eq. reflexivity. Qed.
