(** The two verifications of main.cpp 225-253, for any proofs. *)
From Coq Require Import ZArith List.
From Verif Require Import Outcome Fp GroupMod BulletproofModel RegevPfModel RegevAggModel.
Import ListNotations.
Open Scope Z_scope.

Section S.
Context {p : Z} {ell : nat} {G : gmod p} {R : rmerlin G}.
(** The verifier's data only: flattened statements, commitments, transcripts. *)
Definition accepted (c : cfg ell G) (d : flatdata R) (pfL : linpf G) (pfQ : quadpf G) : Prop :=
  verifyLinear (cbase c) R pfL (flinStmnt d) (flinGs d) (length (flinGs d)) (flinEq d) (fmL d) None = Ret true /\
  verifyQuadratic (cbase c) R pfQ (fquadGs d) (fquadHs d) (length (fquadGs d)) (fquadEq d) (fmQ d) (Some (foffG d)) (Some (foffH d)) = Ret true.
End S.
