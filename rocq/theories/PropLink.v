(** Property C93: linear constraints and the value shared by the two proofs. *)
From Coq Require Import String.
From Coq Require Import ZArith Znumtheory List Bool Lia.
From Verif Require Import NumTheory Outcome Fp FSum GroupMod Ring ConstraintsModel ConstraintsSpec ConstraintsMerge BulletproofModel FourSquaresModel
  RegevModel RegevPfModel RegevPfSpec RegevStSpec RegevAggModel RegevAggSpec RegevRunModel RegevSoundSpec RegevAggOpen RegevPfToy RegevRunToy PropRegevAgg PropRegevSound LinkSpec RegevAggLink.
Import ListNotations.
Open Scope Z_scope.

Section C93.
Context {p : Z} {ell : nat} {G : gmod p} {R : rmerlin G}.
Notation F := (Fp p).
Notation pstate := (@pstate p ell G R).
(** Openings of the two aggregated commitments with the values w and w' of the new
    variable: by how much the quadratic equation is missed. *)
Theorem C93_residual (c : cfg ell G) pick (st st' : pstate) wRnd ap (g y : Z -> F) w w' : prime p -> queue_order pick ->
  wf_system st -> all_disjoint (pnorm st) -> Forall (fun con => lterms con <> [] \/ leq con = 0%F) (plin st) ->
  aggregateProver R c pick st wRnd = Ret (st', ap) -> lin_sat (rlin (rv ap)) (lvalG st y w) ->
  (quad_val (qidx (rquad (rv ap))) (qvalG st (rv ap) g w') (qvalH st (rv ap) y) - qeq (rquad (rv ap)))%F
  = residual2 st g y (w - w')%F (chal_lin st) (chal_norm st) (chal_u st) (chal_rho st).
Proof. intros Hp Hq. exact (residual2_eq Hp c pick Hq st st' wRnd ap g y w w'). Qed.
(** True for every constraint but the first: if another one is violated, then,
    whatever the difference e between the two values is, fewer challenges rl than there
    are constraints hide it; for every other rl at most one rho does.  Missing: the
    first constraint (see below). *)
Theorem C93_partial (st : pstate) (g y : Z -> F) con rest e : prime p -> plin st = con :: rest -> ~ Forall (fun con => lin_sat con y) rest ->
  (forall rls, NoDup rls -> Forall (fun rl => peval (lin_residuals st y) rl = e) rls -> (length rls < length (plin st))%nat) /\
  (forall rl rn u r1 r2, peval (lin_residuals st y) rl <> e ->
     residual2 st g y e rl rn u r1 = 0%F -> residual2 st g y e rl rn u r2 = 0%F -> r1 = r2).
Proof. intros Hp EL Hv. split; [intros rls; exact (count_rest Hp st y con rest e EL Hv rls)|intros rl rn u r1 r2; exact (one_rho2 Hp st g y e rl rn u r1 r2)]. Qed.
(** The first constraint: rVec starts with r^0 = 1 (regevProofs.cpp 772), so that the
    difference of the two values makes up for its violation.  A prover who adds the
    violation times the generator of w to the commitment of the masks, the last one
    that is put into the transcript, and who subtracts it from w in the quadratic
    proof only, has both verifications succeed, whatever the challenges are. *)
Theorem C93_forgery (c : cfg ell G) pick (st st'' : pstate) wRnd d b con rest : prime p -> queue_order pick -> wf_cfg c -> set_up c st -> all_mentioned c st ->
  Forall (fun con => lterms con <> [] \/ leq con = 0%F) (plin st) ->
  prepareProofs R c pick st wRnd = Ret (st'', d) -> plin st = con :: rest ->
  Forall (fun con => lin_sat con (coef (plinW st))) rest -> Forall (fun q => quad_sat q (coef (plinW st)) (coef (plinW st))) (pnorm st) ->
  (forall m l, fst (m_chal R m l) <> 0%F) ->
  let t := (lin_val (lterms con) (coef (plinW st)) - leq con)%F in let GW := nth (Z.to_nat (pidx st WW)) (cGs c) gzero in
  exists st2 d2, prepareProofs R c pick (with_com st YY (gadd (pcom st YY) (gmul GW t))) wRnd = Ret (st2, d2) /\
    proveVerify R c (with_w GW d2 (- t)%F) b = Ret (true, true).
Proof.
  intros Hp Hq Hc Hs Hm Hne E EL HL HQ Hz t GW. destruct (link_forge Hp c pick Hq Hc st Hs Hm wRnd st'' d b con rest Hne E EL HL HQ) as (st2 & d2 & E2 & H).
  exists st2, d2. split; [exact E2|]. destruct H as [H|[_ N]]; [exact H|contradiction].
Qed.
End C93.
Print Assumptions C93_residual.
Print Assumptions C93_partial.
Print Assumptions C93_forgery.

(** On the small configuration: the honest state with the right side of the first
    constraint changed, so that it fails. *)
Definition t_first (st : @pstate 101 2 G101 toyR) : @pstate 101 2 G101 toyR :=
  PS (pidx st) (pcom st) (prnd st) (match plin st with con :: rest => LinCon (lterms con) (leq con + 1)%F :: rest | [] => [] end)
    (pnorm st) (plinW st) (pqG st) (pqH st) (pcomp st) (pz st) (pmer st).
Lemma t_first_set_up st : set_up toyC st -> set_up toyC (t_first st).
Proof.
  intros ((A & B & C & D & E0) & H2 & H3 & H4 & H5 & H6 & H7 & H8 & H9). unfold set_up, wf_state.
  cbn [t_first pidx pcom prnd plin pnorm plinW pqG pqH pcomp pz pmer].
  destruct (plin st) as [|con rest] eqn:EL; [cbn in H2; lia|].
  split; [split; [exact A|split; [exact B|split; [exact C|split; [|exact E0]]]]|].
  { inversion_clear D. constructor; assumption. }
  split; [exact H2|]. split.
  { intros con' k [<-|Hc] Hk; [exact (H3 con k (or_introl eq_refl) Hk)|exact (H3 con' k (or_intror Hc) Hk)]. }
  split; [exact H4|]. split; [exact H5|]. split; [exact H6|]. split; [exact H7|]. split; [exact H8|exact H9].
Qed.
Definition t_first_chk (st : @pstate 101 2 G101 toyR) : bool :=
  ment_chk (t_first st) &&
  forallb (fun con => match lterms con with [] => feqb (leq con) 0%F | _ => true end) (plin (t_first st)) &&
  forallb (fun q => feqb (quad_val (qidx q) (coef (plinW st)) (coef (plinW st))) (qeq q)) (pnorm st) &&
  match plin (t_first st) with
  | con :: rest => negb (feqb (lin_val (lterms con) (coef (plinW st))) (leq con)) &&
      forallb (fun con => feqb (lin_val (lterms con) (coef (plinW st))) (leq con)) rest
  | [] => false end.
(** The setting of C93_forgery, with the first constraint violated. *)
Theorem C93_example : exists s st5 st'' d con rest, toyK 1 = Ret s /\ proofSteps toyR toyC s t_round = Ret st5 /\ prime 101 /\
  queue_order (@min_index 101) /\ wf_cfg toyC /\ set_up toyC (t_first st5) /\ all_mentioned toyC (t_first st5) /\
  Forall (fun con => lterms con <> [] \/ leq con = 0%F) (plin (t_first st5)) /\
  prepareProofs toyR toyC min_index (t_first st5) (f101 9) = Ret (st'', d) /\ plin (t_first st5) = con :: rest /\
  Forall (fun con => lin_sat con (coef (plinW (t_first st5)))) rest /\
  Forall (fun q => quad_sat q (coef (plinW (t_first st5))) (coef (plinW (t_first st5)))) (pnorm (t_first st5)) /\
  (forall m l, fst (m_chal toyR m l) <> 0%F) /\ ~ lin_sat con (coef (plinW (t_first st5))).
Proof.
  destruct toy_five as (s & st5 & E & A & B & C & PF & AM & RD).
  destruct (run2_ok (let! s := toyK 1 in proofSteps toyR toyC s t_round) (fun s => prepareProofs toyR toyC min_index (t_first s) (f101 9))
    (fun r => true)) as (st5' & [st'' d] & H & H2 & _); [vm_compute; reflexivity|].
  destruct (run_ok (let! s := toyK 1 in proofSteps toyR toyC s t_round) t_first_chk) as (st6 & H6 & K6); [vm_compute; reflexivity|].
  assert (st5' = st5) by (rewrite E in H; cbn [obind] in H; congruence). subst st5'.
  assert (st6 = st5) by (rewrite E in H6; cbn [obind] in H6; congruence). subst st6. clear H H6.
  unfold t_first_chk in K6. apply andb_true_iff in K6 as [K6 K4]. apply andb_true_iff in K6 as [K6 K3]. apply andb_true_iff in K6 as [K1 K2].
  destruct (plin (t_first st5)) as [|con rest] eqn:EL; [discriminate K4|]. apply andb_true_iff in K4 as [K4 K5].
  exists s, st5, st'', d, con, rest. split; [exact E|]. split; [exact C|]. split; [exact AlgebraMore.prime_101|]. split; [exact (min_index_order 101)|]. split; [exact toy_cfg|].
  split; [exact (t_first_set_up st5 (proj1 RD))|]. split; [exact (ment_chk_sound _ K1)|]. split.
  { rewrite EL, forallb_forall in *. apply Forall_forall. intros con' Hc. specialize (K2 con' Hc). destruct (lterms con'); [right; now apply feqb_eq|left; discriminate]. }
  split; [exact H2|]. split; [exact EL|].
  split. { rewrite forallb_forall in K5. apply Forall_forall. intros q Hq. apply feqb_eq. exact (K5 q Hq). }
  split. { rewrite forallb_forall in K3. apply Forall_forall. intros q Hq. apply feqb_eq. exact (K3 q Hq). }
  split.
  { intros m l Q. apply (f_equal fval) in Q. revert Q. cbn [m_chal toyR rm toyMer fst]. unfold f101. rewrite fval_toF.
    change (fval 0%F) with 0. pose proof (Z.mod_pos_bound m 100 ltac:(lia)). rewrite Z.mod_small by lia. lia. }
  intros Q. apply feqb_eq in Q. change (plinW (t_first st5)) with (plinW st5) in Q. rewrite Q in K4. discriminate K4.
Qed.
(** Hence the claim is false: a state whose first linear constraint does not hold for
    the committed values, and for which both verifications succeed. *)
Theorem C93_refuted : exists (st st2 : @pstate 101 2 G101 toyR) d2 t b, let GW := nth (Z.to_nat (pidx st WW)) (cGs toyC) gzero in
  set_up toyC st /\ ~ Forall (fun con => lin_sat con (coef (plinW st))) (plin st) /\
  prepareProofs toyR toyC min_index (with_com st YY (gadd (pcom st YY) (gmul GW t))) (f101 9) = Ret (st2, d2) /\
  proveVerify toyR toyC (with_w GW d2 (- t)%F) b = Ret (true, true).
Proof.
  destruct C93_example as (s & st5 & st'' & d & con & rest & _ & _ & Hp & Hq & Hc & SU & AM & Hne & E & EL & HL & HQ & Hz & NV).
  destruct (C93_forgery toyC min_index (t_first st5) st'' (f101 9) d t_bl con rest Hp Hq Hc SU AM Hne E EL HL HQ Hz) as (st2 & d2 & A & B).
  exists (t_first st5), st2, d2. eexists. exists t_bl. cbv zeta. split; [exact SU|]. split; [|split; [exact A|exact B]].
  rewrite EL. intros Q. inversion Q; subst. contradiction.
Qed.
Print Assumptions C93_example.
Print Assumptions C93_refuted.
