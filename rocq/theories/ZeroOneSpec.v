(** Vocabulary for the samplers ZeroOneScalar and ZeroOneElement. *)
From Coq Require Import ZArith List.
Import ListNotations.
Open Scope Z_scope.

(** Bit k of x. *)
Definition bit_of (x : Z) (k : nat) : Z := (x / 2 ^ Z.of_nat k) mod 2.
(** The difference of the two bits of pair i. *)
Definition difference (x : Z) (i : nat) : Z := bit_of x (2 * i) - bit_of x (2 * i + 1).
(** The number of zeros among t 0, ..., t (n-1). *)
Definition zeros_of (n : nat) (t : nat -> Z) : nat := length (filter (fun i => t i =? 0) (seq 0 n)).
