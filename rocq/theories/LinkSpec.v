(** The variable w that links the linear and the quadratic proof: a prover who uses
    two different values for it. *)
From Coq Require Import ZArith List.
From Verif Require Import Fp GroupMod ConstraintsModel ConstraintsSpec BulletproofModel RegevPfModel RegevPfSpec RegevAggModel RegevSoundSpec.
Import ListNotations.
Open Scope Z_scope.

Section S.
Context {p : Z} {ell : nat} {G : gmod p} {R : rmerlin G}.
Notation F := (Fp p).
Notation pstate := (@pstate p ell G R).
Definition add_last (l : list F) (e : F) : list F := removelast l ++ [(last l 0 + e)%F].
(** The prover adds e to the value in the commitment to w, which is added to both
    commitments (regevProofs.cpp 913-925), and to the witness of the quadratic proof,
    where w comes last; the witness of the linear proof stays.  (GW: the generator of
    w, the last one.)  The verifier only sees the two commitments. *)
Definition with_w (GW : G) (d : flatdata R) (e : F) : flatdata R :=
  Flat (fmL d) (fmQ d) (gadd (flinCom d) (gmul GW e)) (gadd (fquadCom d) (gmul GW e)) (flRnd d) (fqRnd d) (flinEq d) (fquadEq d)
    (flinGs d) (flinStmnt d) (flinWtns d) (fquadGs d) (fquadHs d) (foffG d) (foffH d) (add_last (fqwG d) e) (fqwH d).
(** By how much the quadratic equation is missed when the value of w in the linear
    proof exceeds that in the quadratic proof by e. *)
Definition residual2 (st : pstate) (g y : Z -> F) (e rl rn u rho : F) : F := (residual st g y rl rn u rho - rho * e)%F.
End S.
