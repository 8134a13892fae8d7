(** Properties C76, C77: what the aggregated constraints say about arbitrary
    openings. *)
From Coq Require Import String.
From Coq Require Import ZArith Znumtheory List Bool Lia.
From Verif Require Import NumTheory Outcome Fp FSum GroupMod Ring ConstraintsModel ConstraintsSpec ConstraintsProofs ConstraintsMerge BulletproofModel
  AlgebraModel AlgebraSpec AlgebraMore TernaryModel RegevModel RegevPfModel RegevPfSpec RegevStSpec RegevPfToy PropRegevSt
  RegevAggModel RegevAggSpec RegevAggMaps RegevAggProofs RegevAggTotal RegevAggOpen RegevAggAccept RegevAggForge RegevRunModel RegevRunSpec RegevRunProofs RegevRunToy
  RegevSoundSpec RegevAggSound RegevAggFirst PropRegevAgg.
Import ListNotations.
Open Scope Z_scope.

(** ** C77: aggregation is sound *)
Section C77.
Context {p : Z} {ell : nat} {G : gmod p} {R : rmerlin G}.
Notation F := (Fp p).
Notation pstate := (@pstate p ell G R).
(** For any opening (g on the generators G, y on H, w for the new variable) that
    satisfies the aggregated linear constraint, the quadratic one is missed by the
    residual, a polynomial in the challenges whose coefficients are the amounts by
    which the original constraints are missed. *)
Theorem C77_residual (c : cfg ell G) pick (st st' : pstate) wRnd ap (g y : Z -> F) w : prime p -> queue_order pick ->
  wf_system st -> all_disjoint (pnorm st) -> Forall (fun con => lterms con <> [] \/ leq con = 0%F) (plin st) ->
  aggregateProver R c pick st wRnd = Ret (st', ap) -> lin_sat (rlin (rv ap)) (lvalG st y w) ->
  (quad_val (qidx (rquad (rv ap))) (qvalG st (rv ap) g w) (qvalH st (rv ap) y) - qeq (rquad (rv ap)))%F
  = residual st g y (chal_lin st) (chal_norm st) (chal_u st) (chal_rho st).
Proof.
  intros Hp Hpick Hwf Hd Hne E. destruct (final Hp c pick Hpick st st' wRnd ap Hwf Hd E) as [f]. exact (residual_eq Hp c pick Hpick st st' wRnd ap Hwf Hd Hne f g y w).
Qed.
(** If a linear constraint is violated, fewer challenges rl than there are
    constraints hide it; for every other rl, whatever rn and u are, at most one rho
    makes the residual 0. *)
Theorem C77_linear (st : pstate) (g y : Z -> F) : prime p -> ~ Forall (fun con => lin_sat con y) (plin st) ->
  (forall rls, NoDup rls -> Forall (fun rl => peval (lin_residuals st y) rl = 0%F) rls -> (length rls < length (plin st))%nat) /\
  (forall rl rn u r1 r2, peval (lin_residuals st y) rl <> 0%F ->
     residual st g y rl rn u r1 = 0%F -> residual st g y rl rn u r2 = 0%F -> r1 = r2).
Proof.
  intros Hp Hv. split.
  - intros rls. exact (count_lin Hp st y rls Hv).
  - intros rl rn u r1 r2. exact (one_rho Hp st g y rl rn u r1 r2).
Qed.
(** If all linear constraints hold and the values on G and H agree, but a norm
    constraint is violated, then the residual is 0 for fewer than 2m challenges rn,
    where m is the number of norm constraints. *)
Theorem C77_norm (st : pstate) (g y : Z -> F) rl u rho rns : prime p -> Forall (fun con => lin_sat con y) (plin st) ->
  (forall k, In k (norm_idx st) -> g k = y k) -> ~ Forall (fun q => quad_sat q g y) (pnorm st) ->
  NoDup rns -> Forall (fun rn => residual st g y rl rn u rho = 0%F) rns -> (length rns < 2 * length (pnorm st))%nat.
Proof. intros Hp. exact (count_rn Hp st g y rl u rho rns). Qed.
(** A variable with a non-zero coefficient in some linear constraint has a zero
    coefficient in the aggregated one for fewer challenges than constraints. *)
Theorem C77_mentioned (cs : list (lincon p)) k rls : prime p -> (exists con, In con cs /\ coef (lterms con) k <> 0%F) ->
  NoDup rls -> Forall (fun rl => comb_coef cs (powers rl (length cs)) k = 0%F) rls -> (length rls < length cs)%nat.
Proof.
  intros Hp (con & Hc & Hk) Hn Hz. pose proof (root_bound Hp (map (fun con => coef (lterms con) k) cs) rls) as H. rewrite map_length in H. apply H; [|exact Hn|].
  - intros Z. unfold pzero in Z. rewrite Forall_map, Forall_forall in Z. exact (Hk (Z con Hc)).
  - eapply Forall_impl; [|exact Hz]. intros rl E. rewrite <- (powers_peval Hp). exact E.
Qed.
End C77.
Print Assumptions C77_residual.
Print Assumptions C77_linear.
Print Assumptions C77_norm.
Print Assumptions C77_mentioned.

(** ** C76: the values on G and H agree *)
Section C76.
Context {p : Z} {ell : nat} {G : gmod p} {R : rmerlin G}.
Notation F := (Fp p).
Notation pstate := (@pstate p ell G R).
(** True for every variable but the first: if the values differ somewhere else,
    the residual is 0 for fewer challenges u than there are variables.  Missing: the
    first variable (see below). *)
Theorem C76_partial (st : pstate) (g y : Z -> F) rl rn rho us k0 ks k : prime p -> Forall (fun con => lin_sat con y) (plin st) -> rn <> 0%F ->
  norm_idx st = k0 :: ks -> In k ks -> g k <> y k ->
  NoDup us -> Forall (fun u => residual st g y rl rn u rho = 0%F) us -> (length us < length (norm_idx st))%nat.
Proof. intros Hp. exact (count_u Hp st g y rl rn rho us k0 ks k). Qed.
(** For the first variable: uVec starts with u^0 = 1 (regevProofs.cpp 1038), and so
    the difference of its two values is added to the norm constraint.  Another value
    on the generator G makes up for any violation of the first norm constraint,
    whatever the challenges are. *)
Theorem C76_first (st : pstate) (y : Z -> F) q qs k0 ks : prime p -> pnorm st = q :: qs -> norm_idx st = k0 :: ks -> In k0 (qidx q) ->
  wf_quad q -> all_disjoint (pnorm st) -> NoDup (norm_idx st) -> y k0 <> 1%F ->
  Forall (fun con => lin_sat con y) (plin st) -> Forall (fun q => quad_sat q y y) qs ->
  exists g, (forall k, k <> k0 -> g k = y k) /\ forall rl rn u rho, residual st g y rl rn u rho = 0%F.
Proof.
  intros Hp EN EI Hk Hq Hd Hn Hy HL HQ. eexists. split; [|exact (first_free Hp st y q qs k0 ks EN EI Hk Hq Hd Hn Hy HL HQ)].
  intros k Hne. unfold bump. now rewrite (proj2 (Z.eqb_neq k k0) Hne).
Qed.
(** And it works as an attack: whether or not the first norm constraint holds, a
    prover who adds a multiple of the generator G_0 to the commitment of the high
    digits of the decryption noise has both verifications succeed. *)
Theorem C76_forgery (c : cfg ell G) pick (st st'' : pstate) wRnd d b q qs : prime p -> queue_order pick -> wf_cfg c -> set_up c st -> all_mentioned c st ->
  prepareProofs R c pick st wRnd = Ret (st'', d) -> pnorm st = q :: qs ->
  Forall (fun con => lin_sat con (coef (plinW st))) (plin st) -> Forall (fun q => quad_sat q (coef (plinW st)) (coef (plinW st))) qs ->
  coef (plinW st) 0 <> 1%F -> (forall m l, fst (m_chal R m l) <> 0%F) ->
  exists t st2 d2 x l,
    prepareProofs R c pick (with_com st DCompHi (gadd (pcom st DCompHi) (gmul (nth 0 (cGs c) gzero) t))) wRnd = Ret (st2, d2) /\
    fqwG d2 = x :: l /\ proveVerify R c (with_wG d2 ((x + t)%F :: l)) b = Ret (true, true).
Proof.
  intros Hp Hpick Hc Hs Hm E EN HL HQ Hy Hz. destruct (prep_inv Hp c pick Hpick Hc st Hs Hm wRnd st'' d E) as (st' & ap & f & ->).
  destruct (forge_first Hp c pick Hpick Hc st Hs Hm wRnd st' ap f q qs b EN HL HQ Hy) as (t & x & l & Ex & H).
  destruct (prep_shift Hp c pick st (gmul (gen (cGs c) 0) t) wRnd st'' _ E) as (st2 & E2).
  exists t, st2. eexists. exists x, l. split; [exact E2|]. split; [exact Ex|].
  destruct H as [H|[_ N]]; [exact H|contradiction].
Qed.
End C76.
Print Assumptions C76_partial.
Print Assumptions C76_first.
Print Assumptions C76_forgery.

(** On the small configuration: the honest values, of squared norm not 0, are
    accepted for the bound 0. *)
Definition t_tight (st : @pstate 101 2 G101 toyR) : @pstate 101 2 G101 toyR :=
  PS (pidx st) (pcom st) (prnd st) (plin st) (match pnorm st with q :: qs => QuadCon (qidx q) (f101 0) :: qs | [] => [] end)
    (plinW st) (pqG st) (pqH st) (pcomp st) (pz st) (pmer st).
Lemma t_tight_set_up st : set_up toyC st -> set_up toyC (t_tight st).
Proof.
  intros ((A & B & C & D & E0) & H2 & H3 & H4 & H5 & H6 & H7 & H8 & H9). unfold set_up, wf_state.
  cbn [t_tight pidx pcom prnd plin pnorm plinW pqG pqH pcomp pz pmer].
  destruct (pnorm st) as [|q qs] eqn:EN; [discriminate H4|].
  split; [split; [exact A|split; [exact B|split; [exact C|split; [exact D|]]]]|].
  { inversion_clear E0. constructor; assumption. }
  split; [exact H2|]. split; [exact H3|]. split; [exact H4|]. split.
  { intros i x xp Hi. destruct (H5 i x xp Hi) as (q' & E & K). destruct i as [|i]; [|exists q'; split; [exact E|exact K]].
    injection E as <-. eexists. split; [reflexivity|]. exact K. }
  split; [exact H6|]. split; [exact H7|]. split; [exact H8|exact H9].
Qed.
(** The setting of C76_forgery: one round of the small configuration with the bound
    of the first norm constraint replaced by 0, and so violated. *)
Theorem C76_example : exists s st5 st'' d q qs, toyK 1 = Ret s /\ proofSteps toyR toyC s t_round = Ret st5 /\ prime 101 /\ wf_cfg toyC /\
  queue_order (@min_index 101) /\ set_up toyC (t_tight st5) /\ all_mentioned toyC (t_tight st5) /\
  prepareProofs toyR toyC min_index (t_tight st5) (f101 9) = Ret (st'', d) /\ pnorm (t_tight st5) = q :: qs /\
  Forall (fun con => lin_sat con (coef (plinW (t_tight st5)))) (plin (t_tight st5)) /\
  Forall (fun q => quad_sat q (coef (plinW (t_tight st5))) (coef (plinW (t_tight st5)))) qs /\
  ~ quad_sat q (coef (plinW (t_tight st5))) (coef (plinW (t_tight st5))) /\
  coef (plinW (t_tight st5)) 0 <> 1%F /\ (forall m l, fst (m_chal toyR m l) <> 0%F).
Proof.
  destruct toy_five as (s & st5 & E & A & B & C & PF & AM & RD).
  destruct (run2_ok (let! s := toyK 1 in proofSteps toyR toyC s t_round) (fun s => prepareProofs toyR toyC min_index (t_tight s) (f101 9))
    (fun r => true)) as (st5' & [st'' d] & H & H2 & _); [vm_compute; reflexivity|].
  destruct (run_ok (let! s := toyK 1 in proofSteps toyR toyC s t_round)
    (fun s => negb (feqb (coef (plinW s) 0) 1%F) && match pnorm s with q :: _ => negb (feqb (qeq q) 0%F) | [] => false end
      && forallb (fun q => feqb (quad_val (qidx q) (coef (plinW s)) (coef (plinW s))) (qeq q)) (pnorm s))) as (st6 & H6 & K6); [vm_compute; reflexivity|].
  assert (st5' = st5) by (rewrite E in H; cbn [obind] in H; congruence). subst st5'.
  assert (st6 = st5) by (rewrite E in H6; cbn [obind] in H6; congruence). subst st6.
  apply andb_true_iff in K6 as [K6 HN]. rewrite forallb_forall in HN.
  assert (HN' : Forall (fun q => quad_sat q (coef (plinW st5)) (coef (plinW st5))) (pnorm st5)).
  { rewrite Forall_forall. intros q Hq. apply feqb_eq. exact (HN q Hq). }
  clear HN. rename HN' into HN. apply andb_true_iff in K6 as [K1 K2]. apply negb_true_iff in K1.
  pose proof (t_tight_set_up st5 (proj1 RD)) as SU. destruct RD as [_ [HL _]].
  destruct (pnorm st5) as [|q qs] eqn:EN; [discriminate K2|]. apply negb_true_iff in K2.
  exists s, st5, st'', d, (QuadCon (qidx q) (f101 0)), qs. pose proof prime_101. pose proof toy_cfg. pose proof (min_index_order 101).
  repeat (split; [assumption|]). split; [cbn [t_tight pnorm]; now rewrite EN|].
  split; [exact HL|]. inversion HN; subst. split; [assumption|]. split; [|split].
  - intros Q. match goal with X : quad_sat q _ _ |- _ => rename X into Q' end. unfold quad_sat in *. cbn [qidx qeq t_tight plinW] in Q. rewrite Q in Q'.
    assert (X : feqb (qeq q) 0%F = true) by (apply feqb_eq; rewrite <- Q'; reflexivity). congruence.
  - intros Q. cbn [t_tight plinW] in Q. apply feqb_eq in Q. congruence.
  - intros m l Q. apply (f_equal fval) in Q. revert Q. cbn [m_chal toyR rm toyMer fst]. unfold f101. rewrite fval_toF.
    change (fval 0%F) with 0. pose proof (Z.mod_pos_bound m 100 ltac:(lia)). rewrite Z.mod_small by lia. lia.
Qed.
(** Hence the claim is false: a state whose norm constraints do not all hold, with a
    commitment and witness for which both verifications succeed. *)
Theorem C76_refuted : exists (st st2 : @pstate 101 2 G101 toyR) d2 t x l b,
  set_up toyC st /\ ~ Forall (fun q => quad_sat q (coef (plinW st)) (coef (plinW st))) (pnorm st) /\
  prepareProofs toyR toyC min_index (with_com st DCompHi (gadd (pcom st DCompHi) (gmul (nth 0 (cGs toyC) gzero) t))) (f101 9) = Ret (st2, d2) /\
  fqwG d2 = x :: l /\ proveVerify toyR toyC (with_wG d2 ((x + t)%F :: l)) b = Ret (true, true).
Proof.
  destruct C76_example as (s & st5 & st'' & d & q & qs & E1 & E2 & Hp & Hc & Hq & SU & AM & E3 & EN & HL & HN & NV & Hy & Hz).
  destruct (C76_forgery toyC min_index (t_tight st5) st'' (f101 9) d t_bl q qs Hp Hq Hc SU AM E3 EN HL HN Hy Hz) as (t & st2 & d2 & x & l & A & B & C).
  exists (t_tight st5), st2, d2, t, x, l, t_bl. split; [exact SU|]. split; [|split; [exact A|split; [exact B|exact C]]].
  rewrite EN. intros F. inversion F; subst. contradiction.
Qed.
Print Assumptions C76_example.
Print Assumptions C76_refuted.

(** The setting of C77: one round of the small configuration and an opening with
    every value off by one, which violates linear constraints.  The aggregated linear
    constraint is satisfied for the w below, the residual is not 0.  (For C77_norm see
    C76_example, where only a norm constraint is violated.) *)
Definition t_off (st : @pstate 101 2 G101 toyR) (k : Z) : Fp 101 := (coef (plinW st) k + 1)%F.
Definition t_w (st : @pstate 101 2 G101 toyR) (a : rtp G101) : Fp 101 :=
  let ts := lterms (rlin (rv a)) in
  ((leq (rlin (rv a)) - lin_val ts (lvalG st (t_off st) 0)) * finv (coef ts (pidx st WW)))%F.
Definition t_sound (st : @pstate 101 2 G101 toyR) (a : rtp G101) : bool :=
  forallb (fun con => match lterms con with [] => feqb (leq con) 0%F | _ => true end) (plin st) &&
  feqb (lin_val (lterms (rlin (rv a))) (lvalG st (t_off st) (t_w st a))) (leq (rlin (rv a))) &&
  existsb (fun con => negb (feqb (lin_val (lterms con) (t_off st)) (leq con))) (plin st) &&
  negb (feqb (residual st (t_off st) (t_off st) (chal_lin st) (chal_norm st) (chal_u st) (chal_rho st)) 0%F).
Theorem C77_example : exists s st5 st' ap w, toyK 1 = Ret s /\ proofSteps toyR toyC s t_round = Ret st5 /\ prime 101 /\
  queue_order (@min_index 101) /\ wf_system st5 /\ all_disjoint (pnorm st5) /\ Forall (fun con => lterms con <> [] \/ leq con = 0%F) (plin st5) /\
  aggregateProver toyR toyC min_index st5 (f101 9) = Ret (st', ap) /\ lin_sat (rlin (rv ap)) (lvalG st5 (t_off st5) w) /\
  ~ Forall (fun con => lin_sat con (t_off st5)) (plin st5) /\
  residual st5 (t_off st5) (t_off st5) (chal_lin st5) (chal_norm st5) (chal_u st5) (chal_rho st5) <> 0%F.
Proof.
  destruct toy_five as (s & st5 & E & A & B & C & PF & AM & RD).
  destruct (run2_ok (let! s := toyK 1 in proofSteps toyR toyC s t_round)
    (fun s => let! (s', a) := aggregateProver toyR toyC min_index s (f101 9) in Ret (s, s', a)) (fun r => t_sound (fst (fst r)) (snd r))) as (st5' & [[st6 st'] ap] & H & H2 & K); [vm_compute; reflexivity|].
  assert (X : st5' = st5) by (rewrite E in H; cbn [obind] in H; congruence). subst st5'.
  apply obind_ret_inv in H2 as ([s2 a2] & H2 & Q). injection Q as <- <- <-. cbn [fst snd] in K. unfold t_sound in K.
  apply andb_true_iff in K as [K K4]. apply andb_true_iff in K as [K K3]. apply andb_true_iff in K as [K1 K2].
  exists s, st5, s2, a2, (t_w st5 a2). pose proof prime_101. pose proof (min_index_order 101).
  pose proof (rd_wf toyC toy_cfg st5 (proj1 RD)). pose proof (rd_disj toyC toy_cfg st5 (proj1 RD)).
  repeat (split; [assumption|]). split; [|split; [exact H2|split; [|split]]].
  - rewrite forallb_forall in K1. rewrite Forall_forall. intros con Hc. specialize (K1 con Hc). destruct (lterms con); [right; now apply feqb_eq|left; discriminate].
  - apply feqb_eq. exact K2.
  - intros F. rewrite Forall_forall in F. apply existsb_exists in K3 as (con & Hc & N). specialize (F con Hc). apply feqb_eq in F. rewrite F in N. discriminate N.
  - intros Z0. apply feqb_eq in Z0. rewrite Z0 in K4. discriminate K4.
Qed.
Print Assumptions C77_example.
