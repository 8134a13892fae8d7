(** Property C109: ternary products whose result is, or is not, the argument. *)
From Coq Require Import ZArith List Bool Lia Ring.
From Verif Require Import Outcome Fp FSum Ring TernaryModel TernarySpec TernaryProofs PropTernary AliasModel AliasProofs.
Import ListNotations.
Open Scope Z_scope.

Section C109.
Context {p : Z} {ell : nat}.
Notation F := (Fp p).
Notation E := (elt p ell).
Add Ring Fr : (@Fp_ring p).
Lemma add00 : ((0 : F) + 0 = 0)%F. Proof. ring. Qed.
Lemma opp0 : (- (0 : F) = 0)%F. Proof. ring. Qed.

(** Separate objects: the loops on memory compute the products, and what was in the
    result before does not matter. *)
Theorem C109_separate (v : list F) M n m f : is_tmat M n m f -> ternary n m f ->
  (length v = n -> leftVecMultM 0%F fadd fopp false v M = Ret (vecmat v n m f)) /\
  (length v = m -> rightVecMultM 0%F fadd fopp false M v = Ret (matvec n m f v)).
Proof.
  intros HM Ht. split; intros L.
  - rewrite (left_separate 0%F fadd fopp v M n m f HM). exact (C32_leftVec p v M n m f HM Ht L).
  - rewrite (right_separate 0%F fadd fopp v M n m f HM). exact (C32_rightVec p v M n m f HM Ht L).
Qed.
Theorem C109_separate_matrix (B res : mat F) M n m f c r0 c0 : is_tmat M n m f -> ternary n m f -> mat_dims B m c -> mat_dims res r0 c0 ->
  rightMatMultM 0%F fadd fopp false M B res =
  Ret (Mat (map (fun i => map (fun j => fsum (map (fun k => (toF p (f i k) * mget 0 B k j)%F) (seq 0 m))) (seq 0 c)) (seq 0 n)) c).
Proof. intros HM Ht D D0. rewrite (right_mat_separate 0%F fadd fopp M B res n m f c r0 c0 HM D D0). exact (C32_rightMat p B M n m f c HM Ht D). Qed.
(** M * B in place is right for a square M, and throws for any other. *)
Theorem C109_in_place (B res : mat F) M n f c : is_tmat M n n f -> ternary n n f -> mat_dims B n c ->
  rightMatMultM 0%F fadd fopp true M B res =
  Ret (Mat (map (fun i => map (fun j => fsum (map (fun k => (toF p (f i k) * mget 0 B k j)%F) (seq 0 n))) (seq 0 c)) (seq 0 n)) c).
Proof. intros HM Ht D. rewrite (right_mat_shared 0%F fadd fopp M B res n f c HM D). exact (C32_rightMat p B M n n f c HM Ht D). Qed.
Theorem C109_in_place_throws (B res : mat F) M n m f c : is_tmat M n m f -> mat_dims B m (S c) -> n <> m ->
  rightMatMultM 0%F fadd fopp true M B res = Throw.
Proof. exact (right_mat_throw 0%F fadd fopp M B res n m f c). Qed.
(** The other products in place lose the argument: v * M and M * v are zero, or,
    for v * M with more columns than rows, undefined; B * M is zero, or throws. *)
Theorem C109_lost (v : list F) (B : mat F) M n m f r : is_tmat M n m f ->
  (length v = n -> (m <= n)%nat -> leftVecMultM 0%F fadd fopp true v M = Ret (repeat 0%F m)) /\
  (length v = n -> (n < m)%nat -> leftVecMultM 0%F fadd fopp true v M = UB) /\
  (length v = m -> (n <= m)%nat -> rightVecMultM 0%F fadd fopp true M v = Ret (repeat 0%F n)) /\
  (n = m -> mat_dims B r n -> leftMatMultShared 0%F fadd fopp B M = Ret (Mat (repeat (repeat 0%F n) r) n)) /\
  (n <> m -> mat_dims B (S r) n -> leftMatMultShared 0%F fadd fopp B M = Throw).
Proof.
  intros HM. repeat split.
  - intros L Hm. exact (left_shared 0%F fadd fopp add00 opp0 v M n m f HM L Hm).
  - intros L Hm. exact (left_shared_ub 0%F fadd fopp add00 opp0 v M n m f HM L Hm).
  - intros L Hm. exact (right_shared 0%F fadd fopp add00 opp0 v M n m f HM L Hm).
  - intros <- D. exact (left_mat_shared 0%F fadd fopp add00 opp0 B M r n f HM D).
  - intros Ne D. exact (left_mat_throw 0%F fadd fopp B M r n m f HM D Ne).
Qed.
(** So do the products of vectors by matrices of ring elements. *)
Theorem C109_lost_ring (v : list E) Ms n f : (0 < ell)%nat -> is_temat ell Ms n n f -> length v = n ->
  hornerShared vscaleX vplus (fun M w => leftVecMultM e0 eadd eopp true w M) (fun M w => leftVecMultE w M) ell Ms v = Ret (repeat e0 n) /\
  hornerShared vscaleX vplus (rightVecMultM e0 eadd eopp true) rightVecMultE ell Ms v = Ret (repeat e0 n).
Proof.
  intros He HM L. pose proof (eadd_0_l (e0 : E)) as A0. pose proof (eopp_0 (p := p) He) as O0. split; apply (horner_zero _ _ Ms n f v He HM); intros M g Hg.
  - exact (left_shared e0 eadd eopp A0 O0 v M n n g Hg L (Nat.le_refl n)).
  - exact (left_zero e0 eadd eopp A0 O0 M n g Hg).
  - exact (right_shared e0 eadd eopp A0 O0 v M n n g Hg L (Nat.le_refl n)).
  - exact (right_zero e0 eadd eopp A0 O0 M n g Hg).
Qed.
End C109.
Print Assumptions C109_separate.
Print Assumptions C109_separate_matrix.
Print Assumptions C109_in_place.
Print Assumptions C109_in_place_throws.
Print Assumptions C109_lost.
Print Assumptions C109_lost_ring.

(** The matrix ((1, -1), (0, 1)) and the vector (3, 5) modulo 17. *)
Example C109_example : exists M, setFromBytes [9; 4] 2 2 = Ret M /\ is_tmat M 2 2 (byte_entry [9; 4] 2) /\ ternary 2 2 (byte_entry [9; 4] 2) /\
  leftVecMultM 0%F fadd fopp false [s17 3; s17 5] M = Ret [s17 3; s17 2] /\
  leftVecMultM 0%F fadd fopp true [s17 3; s17 5] M = Ret [s17 0; s17 0] /\
  rightMatMultM 0%F fadd fopp true M (Mat [[s17 3]; [s17 5]] 1) (Mat [] 0) = Ret (Mat [[s17 15]; [s17 5]] 1).
Proof.
  destruct (setFromBytes_spec [9; 4] 2 2) as (M & HM & T); [lia| |cbn; lia|].
  { intros [|[|[|i]]]; cbn; lia. }
  exists M. split; [exact HM|]. split; [exact T|]. split; [intros i j Hi Hj; apply two_bits_ternary|].
  assert (Q : setFromBytes [9; 4] 2 2 = Ret M) by exact HM. vm_compute in Q. injection Q as <-.
  repeat split; vm_compute; f_equal; repeat (apply f_equal2; [first [apply Fp_eq; reflexivity|apply f_equal2; [apply Fp_eq; reflexivity|reflexivity]]|]); try reflexivity.
Qed.
