(** Vocabulary for what the aggregated constraints say about arbitrary openings,
    not only about the values an honest prover uses. *)
From Coq Require Import ZArith List Bool.
From Verif Require Import Outcome Fp FSum GroupMod ConstraintsModel ConstraintsSpec BulletproofModel RegevPfModel RegevAggModel RegevAggSpec.
Import ListNotations.
Open Scope Z_scope.

Section S.
Context {p : Z} {ell : nat} {G : gmod p} {R : rmerlin G}.
Notation F := (Fp p).
Notation pstate := (@pstate p ell G R).
(** An opening: [g k] is the value on G_k of a norm-constrained variable k, [y k]
    the value on H_k; for other variables [y k] is the value on G_k. *)
Definition lin_res (con : lincon p) (y : Z -> F) : F := (lin_val (lterms con) y - leq con)%F.
Definition norm_res (q : quadcon p) (g y : Z -> F) : F := (quad_val (qidx q) g y - qeq q)%F.
(** The indexes under a norm constraint, in increasing order. *)
Definition norm_idx (st : pstate) : list Z := fold_left zinsert (flat_map qidx (pnorm st)) [].
(** The power of the challenge that multiplies variable k. *)
Fixpoint scaleof (qs : list (quadcon p)) (rs : list F) (k : Z) : F :=
  match qs, rs with
  | q :: qs', r :: rs' => if zmem (qidx q) k then r else scaleof qs' rs' k
  | _, _ => 0%F
  end.
Definition scale (st : pstate) (rn : F) (k : Z) : F := scaleof (pnorm st) (powers rn (length (pnorm st))) k.
Definition gaps (st : pstate) (g y : Z -> F) (rn : F) : list F := map (fun k => (scale st rn k * (y k - g k))%F) (norm_idx st).
Definition lin_residuals (st : pstate) (y : Z -> F) : list F := map (fun con => lin_res con y) (plin st).
Definition norm_residuals (st : pstate) (g y : Z -> F) : list F := map (fun q => norm_res q g y) (pnorm st).
(** For challenges rl, rn, u, rho: by how much the quadratic equation is missed. *)
Definition residual (st : pstate) (g y : Z -> F) (rl rn u rho : F) : F :=
  (peval (norm_residuals st g y) (rn * rn) + peval (gaps st g y rn) u + rho * peval (lin_residuals st y) rl)%F.
(** The values for the flattened quadratic statement: scaled, shifted by the
    offsets; [w] on the G generator of the new variable and nothing on its H. *)
Definition qvalG (st : pstate) (a : rtv G) (g : Z -> F) (w : F) (k : Z) : F :=
  ((if k =? pidx st WW then w else scale st (chal_norm st) k * g k) - coef (rdG a) k)%F.
Definition qvalH (st : pstate) (a : rtv G) (y : Z -> F) (k : Z) : F :=
  ((if k =? pidx st WW then 0 else scale st (chal_norm st) k * y k) - coef (rdH a) k)%F.
Definition lvalG (st : pstate) (y : Z -> F) (w : F) (k : Z) : F := if k =? pidx st WW then w else y k.

(** The state of a prover who added t*G_k to the commitment of the variable x. *)
Definition with_com (st : pstate) (x : var) (C : G) : pstate :=
  PS (pidx st) (upd (pcom st) x C) (prnd st) (plin st) (pnorm st) (plinW st) (pqG st) (pqH st) (pcomp st) (pz st) (pmer st).
(** The same inputs, with another witness on the generators G for the prover of
    the quadratic statement.  No verifier input changes. *)
Definition with_wG (d : flatdata R) (wG : list F) : flatdata R :=
  Flat (fmL d) (fmQ d) (flinCom d) (fquadCom d) (flRnd d) (fqRnd d) (flinEq d) (fquadEq d)
    (flinGs d) (flinStmnt d) (flinWtns d) (fquadGs d) (fquadHs d) (foffG d) (foffH d) wG (fqwH d).
End S.
