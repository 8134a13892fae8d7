(** Property C96: only satisfied systems of constraints are accepted. *)
From Coq Require Import String.
From Coq Require Import ZArith Znumtheory List Bool Lia.
From Verif Require Import NumTheory Outcome Fp FSum GroupMod Ring ConstraintsModel ConstraintsSpec ConstraintsMerge BulletproofModel BulletproofForgery
  RegevModel RegevPfModel RegevPfSpec RegevStSpec RegevAggModel RegevAggSpec RegevRunModel RegevPfToy RegevRunToy PropLink CheatSpec RegevAggCheat.
Import ListNotations.
Open Scope Z_scope.

Section C96.
Context {p : Z} {ell : nat} {G : gmod p} {R : rmerlin G}.
Notation F := (Fp p).
Notation pstate := (@pstate p ell G R).
(** The number of variables of the flattened quadratic statement: ten blocks of
    JLDIM + 4 and w.  It is odd, so that it is never a power of two. *)
Theorem C96_length (c : cfg ell G) pick (st st'' : pstate) wRnd d : prime p -> queue_order pick -> wf_cfg c -> set_up c st -> all_mentioned c st ->
  prepareProofs R c pick st wRnd = Ret (st'', d) ->
  length (fquadGs d) = (10 * (JLDIM c + 4) + 1)%nat /\ (forall k, length (fquadGs d) <> (2 ^ k)%nat).
Proof.
  intros Hp Hq Hc Hs Hm E. pose proof (cheat_length Hp c pick Hq Hc st Hs Hm wRnd st'' d E) as L.
  rewrite L. split; [reflexivity|]. apply odd_not_pow; [lia|]. exists (5 * (JLDIM c + 4))%nat. lia.
Qed.
(** For every state, whether its constraints hold or not: the honest linear proof and
    the quadratic proof of the cheating prover of C23 (which skips one product of the
    last, padded round) are both accepted. *)
Theorem C96_forgery (c : cfg ell G) pick (st st'' : pstate) wRnd d b : prime p -> queue_order pick -> wf_cfg c -> set_up c st -> all_mentioned c st ->
  (forall m l, fst (m_chal R m l) <> 0%F) -> prepareProofs R c pick st wRnd = Ret (st'', d) ->
  exists pfL pfQ,
    proveLinear (cbase c) R (flinCom d) (flRnd d) (fmL d) (blL b) (blLS b) (flinWtns d) (flinStmnt d) (flinGs d) (length (flinGs d)) = Ret pfL /\
    cheatQuadratic (cbase c) R (fquadCom d) (fqRnd d) (fmQ d) (blQ b) (blQST b) (blQUV b) (fquadGs d) (fqwG d) (fquadHs d) (fqwH d) (length (fquadGs d))
      (fquadEq d - dot (fqwG d) (fqwH d))%F = Ret pfQ /\ accepted c d pfL pfQ.
Proof. intros Hp Hq Hc Hs Hm Hz E. exact (cheat_any Hp c pick Hq Hc st Hs Hm wRnd st'' d b E Hz). Qed.
End C96.
Print Assumptions C96_length.
Print Assumptions C96_forgery.

(** The setting, with a linear constraint that fails: C93_example. *)
Theorem C96_refuted : exists (st st'' : @pstate 101 2 G101 toyR) d pfL pfQ, set_up toyC st /\ all_mentioned toyC st /\
  ~ Forall (fun con => lin_sat con (coef (plinW st))) (plin st) /\
  prepareProofs toyR toyC min_index st (f101 9) = Ret (st'', d) /\ accepted toyC d pfL pfQ.
Proof.
  destruct C93_example as (s & st5 & st'' & d & con & rest & _ & _ & Hp & Hq & Hc & SU & AM & _ & E & EL & _ & _ & Hz & NV).
  destruct (C96_forgery toyC min_index (t_first st5) st'' (f101 9) d t_bl Hp Hq Hc SU AM Hz E) as (pfL & pfQ & _ & _ & A).
  exists (t_first st5), st'', d, pfL, pfQ. split; [exact SU|]. split; [exact AM|]. split; [|split; [exact E|exact A]].
  rewrite EL. intros Q. inversion Q; subst. contradiction.
Qed.
Print Assumptions C96_refuted.
