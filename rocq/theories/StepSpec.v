(** Vocabulary for the soundness of the compressed equations. *)
From Coq Require Import String.
From Coq Require Import ZArith List.
From Verif Require Import Outcome Fp Ring GroupMod ConstraintsModel ConstraintsSpec AlgebraSpec BulletproofModel RegevModel RegevPfModel RegevPfSpec RegevStSpec CountSpec.
Import ListNotations.
Open Scope Z_scope.
Local Open Scope string_scope.

Section S.
Context {p : Z} {ell : nat}.
Notation F := (Fp p).
Notation E := (elt p ell).
(** The first n elements of v have coefficients of absolute value at most B. *)
Definition within (B : Z) (n : nat) (v : nat -> E) : Prop :=
  forall i k z, (i < n)%nat -> (k < ell)%nat -> is_balanced (coeff (v i) k) z -> Z.abs z <= B.
(** The same for scalars with indexes in a set. *)
Definition scalars_within (B : Z) (I : Z -> Prop) (w : Z -> F) : Prop :=
  forall k z, I k -> is_balanced (w k) z -> Z.abs z <= B.
(** x is a root of the polynomial with coefficients a_0, ..., a_(m-1), not all zero. *)
Definition vanishes (m : nat) (a : nat -> E) (x : E) : Prop :=
  (exists j, (j < m)%nat /\ a j <> e0) /\ sumE m (fun j => emul (epow x j) (a j)) = e0.
Definition vec (n : nat) (v : nat -> E) : list E := map v (seq 0 n).
End S.
(** The transcript delivers as many bytes as asked for. *)
Definition exact_transcript {p} {G : gmod p} (R : rmerlin G) : Prop := forall m l n, length (fst (rm_bytes R m l n)) = n.

(** The events of a lucky choice of the challenge bytes [buf] for a vector that is
    not within 2B: the compressed (and masked) vector is within B. *)
Section L.
Context {p : Z} {ell : nat}.
Notation E := (elt p ell).
Definition lucky_left (B : Z) (n m : nat) (noise mask : nat -> E) (buf : list Z) : Prop :=
  ~ within (2 * B) n noise /\ reply_ok B (vec n noise) (vec m mask) m buf = true.
Definition lucky_right (B : Z) (n m : nat) (noise mask : nat -> E) (buf : list Z) : Prop :=
  ~ within (2 * B) n noise /\ reply_okT B (vec n noise) (vec m mask) m buf = true.
Definition nomask (_ : nat) : E := e0.
End L.

(** The noise is within 2B, or the challenge matrix was a lucky one (bytes that
    the transcript m0 returned under the label), or else the challenge x is a root
    of a polynomial that is not zero. Matrix n x m times X from the right of the noise ... *)
Definition caught_left {p ell} {G : gmod p} (R : rmerlin G) (m0 : mst R) label (B : Z) (n m : nat) (noise mask tgt : nat -> elt p ell)
    (f : nat -> nat -> nat -> Z) (x : elt p ell) : Prop :=
  within (2 * B) n noise \/
  lucky_left B n m noise mask (fst (rm_bytes R m0 label (ell * ((n * m + 3) / 4))%nat)) \/
  vanishes m (fun j => esub (esub (tgt j) (mask j)) (sumE n (fun i => emul (noise i) (Xent f i j)))) x.
(** ... and m x n from the left. *)
Definition caught_right {p ell} {G : gmod p} (R : rmerlin G) (m0 : mst R) label (B : Z) (n m : nat) (noise mask tgt : nat -> elt p ell)
    (f : nat -> nat -> nat -> Z) (x : elt p ell) : Prop :=
  within (2 * B) n noise \/
  lucky_right B n m noise mask (fst (rm_bytes R m0 label (ell * ((m * n + 3) / 4))%nat)) \/
  vanishes m (fun j => esub (esub (tgt j) (mask j)) (sumE n (fun i => emul (noise i) (Xent f j i)))) x.

(** The norm constraint number i holds for w. *)
Definition norm_sat {p ell} {G : gmod p} {R : rmerlin G} (st : @pstate p ell G R) (i : nat) (w : Z -> Fp p) : Prop :=
  exists q, nth_error (pnorm st) i = Some q /\ quad_sat q w w.

(** The smallness step from st to st' let w escape. *)
Definition sml_escape {p ell} {G : gmod p} {R : rmerlin G} (c : cfg ell G) (st st' : @pstate p ell G R) (f : nat -> nat -> nat -> Z) (x : elt p ell) (w : Z -> Fp p) : Prop :=
  let nRows := (10 * (JLDIM c + 4) / ell)%nat in let nCols := (LINYDIM c / ell)%nat in
  lucky_left (ell := ell) (B_smallness c) nRows nCols (readV w 0) (readV w (pidx st YY))
    (fst (rm_bytes R (m_point R (pmer st) "smallnessPf"%string (pcom st' YY)) "Smallness"%string (ell * ((nRows * nCols + 3) / 4))%nat)) \/
  vanishes nCols (fun j => esub (esub (nth j (pz st') e0) (readV w (pidx st YY) j)) (sumE nRows (fun i => emul (readV w 0 i) (Xent f i j)))) x.
(** No wrap-around: vectors of JLDIM+4 scalars within 2*B_smallness have norms
    below p, and so do the bounds. *)
Definition no_wrap {p ell} {G : gmod p} (c : cfg ell G) (bs : list Z) : Prop :=
  0 <= B_smallness c /\ (Z.of_nat (JLDIM c) + 4) * ((2 * B_smallness c) * (2 * B_smallness c)) < p /\
  Forall (fun b => 0 <= b /\ b * b < p) bs.

(** The transcript states from which the challenge matrices of proveEncryption and
    proveKeyGen are drawn. *)
Section T.
Context {p : Z} {ell : nat} {G : gmod p} {R : rmerlin G}.
Variable c : cfg ell G.
Variables st st' : @pstate p ell G R.
Notation Kay := (Z.to_nat (kay (cgk c))).
Notation Enn := (Z.to_nat (enn (cgk c))).
Definition enc_mer0 : mst R := m_point R (m_point R (pmer st) "RegevEncPtxt" (pcom st' Pt2)) "RegevEncRnd" (pcom st' RR).
Definition enc_mer1 : mst R := snd (rm_bytes R enc_mer0 "RegevEncR1" (ell * ((JLDIM c / ell * Kay + 3) / 4))%nat).
Definition enc_mer2 : mst R := snd (rm_bytes R enc_mer1 "RegevEncR2" (ell * ((JLDIM c / ell * Enn + 3) / 4))%nat).
Definition key_mer0 : mst R := m_point R (pmer st) "RegevSK" (pcom st' Sk2).
Definition key_mer1 : mst R := snd (rm_bytes R key_mer0 "RegevKeyGenR1" (ell * ((Kay * (JLDIM c / ell) + 3) / 4))%nat).
End T.
