(** Vocabulary for the question which runs of the proof steps return. *)
From Coq Require Import String.
From Coq Require Import ZArith List Bool.
From Verif Require Import Outcome Fp FSum GroupMod Ring ConstraintsModel ConstraintsSpec FourSquaresSpec BulletproofModel AlgebraModel AlgebraSpec
  TernaryModel TernarySpec RegevModel RegevPfModel RegevPfSpec RegevStSpec StepSpec.
Import ListNotations.
Open Scope Z_scope.

(** The nearest multiple of r to x is r * hi_digit r x. *)
Definition hi_digit (r x : Z) : Z := - ((r - 2 * x) / (2 * r)).

Section S.
Context {p : Z} {ell : nat} {G : gmod p}.
Notation F := (Fp p).
Notation E := (elt p ell).

(** The balanced coefficients of n ring elements. *)
Definition ints (n : nat) (v : nat -> E) : list Z := map balanced (coeffs_of (vec n v)).
(** The norm of v is at most b; the same for the high digits of v and the bound
    that is computed from B and n. *)
Definition fits (c : cfg ell G) (b : Z) (v : nat -> E) : Prop := sum_sq (ints (JLDIM c / ell) v) <= b * b.
Definition hi_fits (c : cfg ell G) (B n : Z) (v : nat -> E) : Prop :=
  let b := B / radix c + Z.sqrt_up n in sum_sq (map (hi_digit (radix c)) (ints (JLDIM c / ell) v)) <= b * b.

(** Commitment to a vector with the generators from i0 on. *)
Definition com_point (c : cfg ell G) (i0 : Z) (v : list F) (r : F) : G :=
  gadd (gmul (cbase c) r) (gdot (skipn (Z.to_nat i0) (cGs c)) v).

(** All vectors are long enough (constructor, regevProofs-utils.cpp 167-183). *)
Definition room {R : rmerlin G} (c : cfg ell G) (st : @pstate p ell G R) : Prop :=
  layout_of c (pidx st) /\ pidx st WW < Z.of_nat (length (cGs c)) /\ (10 * (JLDIM c + 4) <= length (cHs c))%nat /\
  (7 * ell <= length (plin st))%nat /\ (10 <= length (pnorm st))%nat /\ length (pcomp st) = (10 * (JLDIM c + 4) / ell)%nat.
(** JLDIM <= 4*SQRT_JL^2 (256 and 16). *)
Definition jl_sqrt (c : cfg ell G) : Prop := Z.of_nat (JLDIM c) <= 4 * (SQRT_JL c * SQRT_JL c).
(** The libraries are as they should be. *)
Definition good_libs (R : rmerlin G) (c : cfg ell G) : Prop :=
  byte_transcript R /\ exact_transcript R /\ jacobi_ok (cjac c) /\ prime_test_sound (cpp c).

(** The compressed vectors: noise*X and X*noise. *)
Definition compL (n : nat) (v : list E) (f : nat -> nat -> nat -> Z) (j : nat) : E :=
  sumE n (fun i => emul (nth i v e0) (Xent f i j)).
Definition compR (n : nat) (v : list E) (f : nat -> nat -> nat -> Z) (j : nat) : E :=
  sumE n (fun i => emul (nth i v e0) (Xent f j i)).
End S.

(** Trial t of proveSmallness is accepted: u = compressed*X and z = u + y are small. *)
Definition trial_ok {p ell} {G : gmod p} {R : rmerlin G} (c : cfg ell G) (st : @pstate p ell G R) (y : list (elt p ell)) (r : Fp p) : Prop :=
  let nRows := (10 * (JLDIM c + 4) / ell)%nat in let nCols := (LINYDIM c / ell)%nat in
  exists X m f,
    ternaryE (ell := ell) R (m_point R (pmer st) "smallnessPf"%string (com_point c (pidx st YY) (coeffs_of y) r)) "Smallness"%string nRows nCols = Ret (X, m) /\
    is_temat ell X nRows nCols f /\
    within (B_smallness c / Z.of_nat (LINYDIM c)) nCols (compL nRows (pcomp st) f) /\
    within (B_smallness c) nCols (fun j => eadd (compL nRows (pcomp st) f j) (nth j y e0)).
