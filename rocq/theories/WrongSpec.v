(** Vocabulary for proofs of wrong decryptions. *)
From Coq Require Import ZArith List.
Import ListNotations.
Open Scope Z_scope.

(** The number of non-zero digits in row 0 of n ring elements of degree < 2 with
    digits -1, 0, 1 (their squares are added). *)
Definition row_weight (n : nat) (f : nat -> nat -> nat -> Z) : Z :=
  fold_right Z.add 0 (map (fun j => f 0%nat 0%nat j * f 0%nat 0%nat j + f 1%nat 0%nat j * f 1%nat 0%nat j) (seq 0 n)).
