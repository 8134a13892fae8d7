(** Vocabulary for counting the masks that lead to a reply. *)
From Coq Require Import ZArith List Bool.
From Verif Require Import Fp Ring AlgebraSpec.
Import ListNotations.
Open Scope Z_scope.

(** Exactly k elements satisfy P. *)
Definition exactly {A} (k : Z) (P : A -> Prop) : Prop :=
  exists l, NoDup l /\ (forall a, In a l <-> P a) /\ Z.of_nat (length l) = k.
(** A draw of BoundedSizeScalar: b random bits and a sign bit. *)
Definition is_draw (b : Z) (d : Z * Z) : Prop := 0 <= fst d < 2 ^ b /\ (snd d = 0 \/ snd d = 1).
Definition draws (b : Z) (n : nat) (r : list (Z * Z)) : Prop := length r = n /\ Forall (is_draw b) r.
(** All coefficients are at most B in absolute value. *)
Definition small {p ell} (B : Z) (v : list (elt p ell)) : Prop :=
  forall s z, In s (coeffs_of v) -> is_balanced s z -> Z.abs z <= B.
(** The number of coefficients in which two vectors agree. *)
Definition agree {p ell} (u v : list (elt p ell)) : nat :=
  length (filter (fun ab => feqb (fst ab) (snd ab)) (combine (coeffs_of u) (coeffs_of v))).
