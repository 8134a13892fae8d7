(** Vocabulary for the distributions of the samplers: numbers of random strings
    that lead to a value ([exactly] is in MaskSpec). *)
From Coq Require Import ZArith List.
From Verif Require Import Fp Ring AlgebraSpec.
Import ListNotations.
Open Scope Z_scope.

(** The number of zeros among the entries of an n-by-m matrix. *)
Definition zeros (n m : nat) (f : nat -> nat -> Z) : nat :=
  length (filter (fun ij => f (fst ij) (snd ij) =? 0) (list_prod (seq 0 n) (seq 0 m))).
(** The bits that fill up the last byte of each row, in pairs. *)
Definition padding (n m : nat) : nat := (n * (4 * ((m + 3) / 4) - m))%nat.
(** A random 32-bit word. *)
Definition word32 (r : Z) : Prop := 0 <= r < 2 ^ 32.
(** The number of zeros among the coefficients of a vector of ring elements. *)
Definition zero_coeffs {p ell} (v : list (elt p ell)) : nat := length (filter (fun s => feqb s f0) (coeffs_of v)).
