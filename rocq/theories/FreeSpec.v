(** Proofs made from what the verifier has, without the variables, the commitments or
    their randomness. *)
From Coq Require Import ZArith List.
From Verif Require Import Outcome Fp FSum GroupMod BulletproofModel BulletproofSpec RegevPfModel RegevAggModel RegevRunModel.
Import ListNotations.
Open Scope Z_scope.

Section S.
Context {p : Z} {ell : nat} {G : gmod p} {R : rmerlin G}.
Notation F := (Fp p).
(** What verifyLinear and verifyQuadratic are given in main.cpp 220-221 and 250-252
    besides the proofs: the rows, generators, right-hand sides, offsets and the two
    transcripts.  The commitments of the statements (regevProofs.hpp 321-326) are not
    among it. *)
Record public := Public { pu_lin : list F * list G * F * mst R; pu_quad : list G * list G * F * list F * list F * mst R }.
Definition public_of (d : flatdata R) : public :=
  Public (flinStmnt d, flinGs d, flinEq d, fmL d) (fquadGs d, fquadHs d, fquadEq d, foffG d, foffH d, fmQ d).
(** A first coordinate, then zeros. *)
Definition unit_vec (x : F) (n : nat) : list F := x :: repeat 0%F (n - 1).
(** The library's own provers, run on the vectors 0 and (eq, 0, ..), (1, 0, ..), with
    commitments made here, of randomness rL and rQ of one's choice. *)
Definition free_linear (base : G) (u : public) (rL : F) (b : @blinders p) : outcome (linpf G) :=
  let '(stmnt, gs, _, m) := pu_lin u in
  proveLinear base R (gmul base rL) rL m (blL b) (blLS b) (repeat 0%F (length gs)) stmnt gs (length gs).
Definition free_quadratic (base : G) (u : public) (rQ : F) (b : @blinders p) : outcome (quadpf G) :=
  let '(gs, hs, eq, offG, offH, m) := pu_quad u in
  let as_ := unit_vec eq (length gs) in let bs := unit_vec 1%F (length gs) in
  proveQuadratic base R (gadd (gadd (gadd (gmul base rQ) (gdot gs as_)) (gdot hs bs)) (gadd (gdot gs offG) (gdot hs offH)))
    rQ m (blQ b) (blQST b) (blQUV b) gs as_ hs bs (length gs).
(** The comparison that the verification leaves out. *)
Definition bound_to (d : flatdata R) (pfL : linpf G) (pfQ : quadpf G) : Prop := lpC pfL = flinCom d /\ qpC pfQ = fquadCom d.
End S.
Arguments public {p G} R.
