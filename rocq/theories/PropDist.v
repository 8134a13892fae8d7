(** Property C110: the distributions of the samplers, as exact numbers of random
    strings per value. *)
From Coq Require Import ZArith List Bool Lia.
From Verif Require Import Outcome Bytes Fp Ring Prime25519 TernaryModel TernarySpec AlgebraSpec RegevModel
  MaskSpec Scalar25519Model Scalar25519Spec DistSpec DistProofs.
Import ListNotations.
Open Scope Z_scope.

(** Among the 4^(n*m) * 4^padding strings, 2^zeros * 4^padding give the matrix f:
    the entries are independent, Pr[0] = 1/2 and Pr[1] = Pr[-1] = 1/4. *)
Theorem C110_ternary : forall n m f, (0 < n)%nat -> ternary n m f ->
  exactly (2 ^ Z.of_nat (zeros n m f) * 4 ^ Z.of_nat (padding n m))
    (fun buf => length buf = (n * ((m + 3) / 4))%nat /\ bytes buf /\ exists M, setFromBytes buf n m = Ret M /\ is_tmat M n m f).
Proof. exact matrix_count. Qed.
Print Assumptions C110_ternary.
(** The same for the ell matrices of a matrix of ring elements, stacked. *)
Theorem C110_ternary_ring : forall ell n m (F : nat -> nat -> nat -> Z), (0 < n)%nat -> (forall k, (k < ell)%nat -> ternary n m (F k)) ->
  exactly (2 ^ Z.of_nat (zeros (ell * n) m (fun r j => F (r / n)%nat (r mod n)%nat j)) * 4 ^ Z.of_nat (padding (ell * n) m))
    (fun buf => length buf = (ell * (n * ((m + 3) / 4)))%nat /\ bytes buf /\
       exists Ms, setFromBytesE (ell := ell) buf n m = Ret Ms /\ is_temat ell Ms n m F).
Proof. exact matrixE_count. Qed.
Print Assumptions C110_ternary_ring.
(** There are 2^(8*nBytes+32) pairs of a string and a word, so each z <> 0 has
    probability 2^-(n+1) and 0 has 2^-n. *)
Theorem C110_bounded : forall n nBytes mask z, bounded_new n = Ret (nBytes, mask) -> - (2 ^ n - 1) <= z <= 2 ^ n - 1 ->
  exactly (2 ^ (8 * nBytes - n) * (if z =? 0 then 2 ^ 32 else 2 ^ 31))
    (fun br => (Z.of_nat (length (fst br)) = nBytes /\ bytes (fst br) /\ word32 (snd br)) /\
       represents (bounded_draw nBytes mask (fst br) (snd br)) (toF P25519 z)).
Proof. exact bounded_count. Qed.
Print Assumptions C110_bounded.
Theorem C110_zeroOne : forall z, -1 <= z <= 1 ->
  exactly (if z =? 0 then 2 ^ 31 else 2 ^ 30) (fun r => word32 r /\ represents (zeroOne r s_zero) (toF P25519 z)).
Proof. exact zeroOne_count. Qed.
Print Assumptions C110_zeroOne.
(** Vectors of BoundedSizeElement (keys, noise and masks): among the
    2^((b+1)*n*ell) draws, 2^(number of zeros) give the vector z. *)
Theorem C110_vector : forall p ell b (z : list (elt p ell)), 2 <= p -> (0 < ell)%nat -> 0 <= b -> 2 * 2 ^ b <= p -> small (2 ^ b - 1) z ->
  exactly (2 ^ Z.of_nat (zero_coeffs z))
    (fun r => draws b (length z * ell) r /\ sample_vec (fun j => nth j r (0, 0)) b 0 (length z) = z).
Proof. intros p ell b z Hp He. exact (vector_count Hp He b z). Qed.
Print Assumptions C110_vector.

(* 0 1 -1 / 0 0 1: three zeros, one unused pair of bits in each row *)
Definition dist_mat (i j : nat) : Z := nth j (nth i [[0; 1; -1]; [0; 0; 1]] []) 0.
Example C110_example : exactly 128
    (fun buf => length buf = 2%nat /\ bytes buf /\ exists M, setFromBytes buf 2 3 = Ret M /\ is_tmat M 2 3 dist_mat).
Proof.
  apply (C110_ternary 2 3 dist_mat); [lia|]. intros [|[|i]] [|[|[|j]]] Hi Hj; try lia; cbn; lia.
Qed.
Example C110_example_bounded : exists nB m, bounded_new 10 = Ret (nB, m) /\ 8 * nB = 16 /\
  exactly (2 ^ 6 * 2 ^ 31) (fun br => (Z.of_nat (length (fst br)) = nB /\ bytes (fst br) /\ word32 (snd br)) /\
       represents (bounded_draw nB m (fst br) (snd br)) (toF P25519 (-1023))).
Proof.
  do 2 eexists. split; [reflexivity|]. split; [reflexivity|]. apply (C110_bounded 10 2 3 (-1023) eq_refl). lia.
Qed.
