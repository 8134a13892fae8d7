(** Property C102: the verification is about the commitments of the statement. *)
From Coq Require Import String.
From Coq Require Import ZArith Znumtheory List Bool Lia.
From Verif Require Import NumTheory Outcome Fp FSum GroupMod Ring ConstraintsModel ConstraintsSpec ConstraintsMerge BulletproofModel
  RegevModel RegevPfModel RegevPfSpec RegevStSpec RegevAggModel RegevAggSpec RegevRunModel RegevPfToy RegevRunToy PropLink HideSpec PropHide CheatSpec FreeSpec FreeProofs.
Import ListNotations.
Open Scope Z_scope.

Section C102.
Context {p : Z} {ell : nat} {G : gmod p} {R : rmerlin G}.
Notation pstate := (@pstate p ell G R).
(** What holds of main.cpp: its own two proofs are for the commitments of the
    statement.  Missing: that other proofs are refused. *)
Theorem C102_partial (c : cfg ell G) (d : flatdata R) b pfL pfQ : makeProofs c d b = Ret (pfL, pfQ) -> bound_to d pfL pfQ.
Proof. exact (honest_bound c d b pfL pfQ). Qed.
(** For every state, whatever its commitments: the proofs made without any secret are
    accepted, and the commitment in the linear one can be any multiple of the base. *)
Theorem C102_forgery (c : cfg ell G) pick (st st'' : pstate) wRnd d rL rQ b : prime p -> queue_order pick -> wf_cfg c -> set_up c st -> all_mentioned c st ->
  (forall m l, fst (m_chal R m l) <> 0%F) -> prepareProofs R c pick st wRnd = Ret (st'', d) ->
  exists pfL pfQ, free_linear (cbase c) (public_of d) rL b = Ret pfL /\ free_quadratic (cbase c) (public_of d) rQ b = Ret pfQ /\
    accepted c d pfL pfQ /\ lpC pfL = gmul (cbase c) rL.
Proof. intros Hp Hq Hc Hs Hm Hz E. exact (free_accepted Hp c pick Hq Hc st Hs Hm wRnd Hz st'' d rL rQ b E). Qed.
End C102.
(** The honest proofs of the first prover of C100_proofs_example. *)
Example C102_example : exists (d : flatdata toyR) pfL pfQ, makeProofs toyC d t_bl = Ret (pfL, pfQ) /\ bound_to d pfL pfQ.
Proof.
  destruct C100_proofs_example as (t1 & t2 & u1 & d & [pfL pfQ] & _ & _ & _ & _ & _ & E & _).
  exists d, pfL, pfQ. split; [exact E|]. exact (C102_partial toyC d t_bl pfL pfQ E).
Qed.
Print Assumptions C102_partial.
Print Assumptions C102_forgery.

(** The setting is met, by a state whose first constraint fails: C93_example. *)
Theorem C102_refuted : exists (st st'' : @pstate 101 2 G101 toyR) d pfL pfQ rL rQ, set_up toyC st /\ all_mentioned toyC st /\
  ~ Forall (fun con => lin_sat con (coef (plinW st))) (plin st) /\
  prepareProofs toyR toyC min_index st (f101 9) = Ret (st'', d) /\
  free_linear (cbase toyC) (public_of d) rL t_bl = Ret pfL /\ free_quadratic (cbase toyC) (public_of d) rQ t_bl = Ret pfQ /\
  accepted toyC d pfL pfQ /\ ~ bound_to d pfL pfQ.
Proof.
  destruct C93_example as (s & st5 & st'' & d & con & rest & _ & _ & Hp & Hq & Hc & SU & AM & _ & E & EL & _ & _ & Hz & NV).
  assert (K : exists rL, gmul (cbase toyC) rL <> flinCom d).
  { destruct (Z.eq_dec (fval (gmul (cbase toyC) 0%F : Fp 101)) (fval (flinCom d : Fp 101))) as [Q|Q]; [|exists 0%F; intros X; apply Q; now rewrite X].
    apply Fp_eq in Q. exists 1%F. rewrite <- Q. intros X. apply (f_equal fval) in X. vm_compute in X. discriminate X. }
  destruct K as (rL & K).
  destruct (C102_forgery toyC min_index (t_first st5) st'' (f101 9) d rL (f101 4) t_bl Hp Hq Hc SU AM Hz E) as (pfL & pfQ & A & B & V & L).
  exists (t_first st5), st'', d, pfL, pfQ, rL, (f101 4). split; [exact SU|]. split; [exact AM|]. split.
  { rewrite EL. intros Q. inversion Q; subst. contradiction. }
  split; [exact E|]. split; [exact A|]. split; [exact B|]. split; [exact V|]. intros [X _]. apply K. now rewrite <- L.
Qed.
Print Assumptions C102_refuted.
