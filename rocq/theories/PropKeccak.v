(** Property C75: the permutation of the transcript. *)
From Coq Require Import ZArith List Lia Bool.
From Verif Require Import Bytes KeccakModel KeccakSpec KeccakProofs.
Import ListNotations.
Open Scope Z_scope.

Theorem C75_keccakf st : bytes_ok st -> length st = 200%nat ->
  length (keccakf st) = 200%nat /\ bytes_ok (keccakf st) /\
  forall x y z, (x < 5)%nat -> (y < 5)%nat -> (z < 64)%nat ->
    bit_of (keccakf st) x y z = keccak_f1600 (bit_of st) x y z.
Proof.
  intros H1 H2. destruct (keccakf_ok st H1 H2) as [A [B C]]. auto.
Qed.
Print Assumptions C75_keccakf.

(** The permutation of the all-zero state, first two lanes (published test vector). *)
Example C75_example : bytes_ok (repeat 0 200) /\ length (repeat 0 200) = 200%nat /\
  firstn 16 (keccakf (repeat 0 200)) =
    [0xe7; 0xdd; 0xe1; 0x40; 0x79; 0x8f; 0x25; 0xf1; 0x8a; 0x47; 0xc0; 0x33; 0xf9; 0xcc; 0xd5; 0x84].
Proof. split; [apply bytes_ok_repeat0|]. split; [reflexivity|]. vm_compute. reflexivity. Qed.
