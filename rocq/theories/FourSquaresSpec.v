(** What is assumed of the two NTL functions used by foursquares.cpp, and what a
    decomposition into squares is. *)
From Coq Require Import ZArith Znumtheory List.
Import ListNotations.
Open Scope Z_scope.

(** Euler's criterion for the Legendre symbol. *)
Definition jacobi_ok (jacobi : Z -> Z -> Z) : Prop :=
  forall a q, prime q -> 2 < q -> 0 <= a -> (jacobi a q = -1 <-> a ^ ((q - 1) / 2) mod q = q - 1).
(** The probabilistic test accepts only primes (wrong with probability at most
    4^-NumTrials per composite). *)
Definition prime_test_sound (pp : Z -> bool) : Prop := forall n, pp n = true -> prime n.
Definition prime_test_exact (pp : Z -> bool) : Prop := forall n, pp n = true <-> prime n.

Definition sum_of_squares (l : list Z) : Z := fold_right (fun x s => x * x + s) 0 l.
Definition four_squares_of (n : Z) (l : list Z) : Prop :=
  length l = 4%nat /\ Forall (fun x => 0 <= x) l /\ sum_of_squares l = n.
