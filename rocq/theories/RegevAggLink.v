(** The values of w in the two proofs need not agree: what a prover gains from it. *)
From Coq Require Import String.
From Coq Require Import ZArith Znumtheory List Bool Lia Ring Field Permutation.
From Verif Require Import NumTheory Outcome Fp FSum GroupMod Ring ConstraintsModel ConstraintsSpec ConstraintsProofs ConstraintsMerge
  ConstraintsOther PedersenModel BulletproofModel BulletproofSpec TernaryModel RegevModel RegevPfModel RegevPfSpec RegevPfBase RegevStSpec
  RegevAggModel RegevAggSpec RegevAggMaps RegevPfPost RegevAggProofs RegevAggTotal RegevAggOpen RegevAggAccept RegevAggForge RegevSoundSpec RegevAggSound
  RegevAggFirst LinkSpec.
Import ListNotations.
Open Scope Z_scope.

Lemma add_last_map {p} {A} (a : A -> Fp p) l x e : add_last (map a (l ++ [x])) e = map a l ++ [(a x + e)%F].
Proof. unfold add_last. rewrite map_app. cbn [map]. now rewrite removelast_last, last_last. Qed.

Section Link.
Context {p : Z} (Hp : prime p) {ell : nat} {G : gmod p} {R : rmerlin G}.
Notation F := (Fp p).
Add Field FpFldLk : (Fp_field Hp).
Variable c : cfg ell G.
Variable pick : list (cursor p) -> nat.
Notation pstate := (@pstate p ell G R).

(** Another commitment to the masks only moves the commitment of the linear
    statement. *)
Section Shift.
Variable st : pstate.
Variable D : G.
Notation st1 := (with_com st YY (gadd (pcom st YY) D)).
Definition with_l (d : flatdata R) (C : G) : flatdata R :=
  Flat (fmL d) (fmQ d) C (fquadCom d) (flRnd d) (fqRnd d) (flinEq d) (fquadEq d)
    (flinGs d) (flinStmnt d) (flinWtns d) (fquadGs d) (fquadHs d) (foffG d) (foffH d) (fqwG d) (fqwH d).
Lemma agg1_shiftY sa a : aggregateVerifier1 R pick st = Ret (sa, a) ->
  exists com, aggregateVerifier1 R pick st1 = Ret (PS (pidx sa) com (prnd sa) (plin sa) (pnorm sa) (plinW sa) (pqG sa) (pqH sa) (pcomp sa) (pz sa) (pmer sa),
    RTV (rlin a) (gadd (rlinCom a) D) (rquad a) (rquadCom a) (rdG a) (rdH a) (rrVec a) (ruVec a) (ras a) (rbs a)).
Proof.
  unfold aggregateVerifier1, with_com. cbn [pidx pcom prnd plin pnorm plinW pqG pqH pcomp pz pmer]. intros H.
  destruct (m_chal R (pmer st) "aggregateLinear") as [r m]. apply obind_ret_inv in H as (rv1 & E1 & H). rewrite E1. cbn [obind].
  apply obind_ret_inv in H as (lin & E2 & H). rewrite E2. cbn [obind].
  destruct (m_chal R m "aggregateNorms") as [r' m']. apply obind_ret_inv in H as (rv2 & E3 & H). rewrite E3. cbn [obind].
  apply obind_ret_inv in H as (quad & E4 & H). rewrite E4. cbn [obind]. apply obind_ret_inv in H as (terms & E5 & H). rewrite E5. cbn [obind].
  destruct (splitPtxtVec terms (qidx quad)) as [[as_ bs] w]. destruct (negb (int_of_size w =? pidx st WW)); [discriminate|].
  apply obind_ret_inv in H as (com & E6 & H). injection H as <- <-.
  assert (Hgen : forall l f0 f1 com, (forall x xp i, In (x, xp, i) l -> x <> YY /\ xp <> YY) ->
     (forall x, x <> YY -> f1 x = f0 x) -> f1 YY = gadd (f0 YY) D -> scale_pairs gadd gmul f0 rv2 l = Ret com ->
     exists com1, scale_pairs gadd gmul f1 rv2 l = Ret com1 /\ (forall x, x <> YY -> com1 x = com x) /\ com1 YY = gadd (com YY) D).
  { clear. induction l as [|[[x xp] i] l IH]; intros f0 f1 com Hl H1 H2 H; cbn [scale_pairs] in *.
    - injection H as <-. exists f1. auto.
    - apply obind_ret_inv in H as (r & E & H). rewrite E. cbn [obind]. destruct (Hl x xp i (or_introl eq_refl)) as [N1 N2].
      eapply IH; [intros; eapply Hl; right; eassumption| | |exact H].
      + intros y Hy. unfold upd. destruct (var_eq_dec y x); [now rewrite !H1|now apply H1].
      + rewrite !upd_other by (intros K; now apply N1). exact H2. }
  destruct (Hgen comPairs (pcom st) (upd (pcom st) YY (gadd (pcom st YY) D)) com) as (com1 & E8 & P1 & P2); [| | |exact E6|].
  { intros x xp i Hin. cbn [comPairs] in Hin. repeat (destruct Hin as [Hin|Hin]; [injection Hin as <- <- <-; split; discriminate|]). destruct Hin. }
  { intros x Hx. now rewrite upd_other by auto. }
  { now rewrite upd_same. }
  rewrite E8. cbn [obind]. exists com1. unfold sum_lin, sum_quad. cbn [fold_left rlin rlinCom rquad rquadCom rdG rdH rrVec ruVec ras rbs pidx pcom prnd plin pnorm plinW pqG pqH pcomp pz pmer].
  rewrite P2, !P1 by discriminate.
  match goal with |- Ret (_, RTV _ ?x _ _ _ _ _ _ _ _) = Ret (_, RTV _ ?y _ _ _ _ _ _ _ _) => replace x with y by gsolve end. reflexivity.
Qed.
Lemma agg2_shiftY m W a m' a' : aggregateVerifier2 R m W a = Ret (m', a') ->
  aggregateVerifier2 R m W (RTV (rlin a) (gadd (rlinCom a) D) (rquad a) (rquadCom a) (rdG a) (rdH a) (rrVec a) (ruVec a) (ras a) (rbs a))
  = Ret (m', RTV (rlin a') (gadd (rlinCom a') D) (rquad a') (rquadCom a') (rdG a') (rdH a') (rrVec a') (ruVec a') (ras a') (rbs a')).
Proof.
  unfold aggregateVerifier2. cbn [rlin rlinCom rquad rquadCom rdG rdH rrVec ruVec ras rbs]. intros H.
  destruct (m_chal R m "enforceNorm") as [u m1]. apply obind_ret_inv in H as (uv & E1 & H). rewrite E1. cbn [obind].
  destruct (negb (length uv =? length (ras a))%nat); [discriminate|]. apply obind_ret_inv in H as (uu & E2 & H). rewrite E2. cbn [obind].
  destruct (m_chal R m1 "separareLinQuad") as [rho m2]. apply obind_ret_inv in H as (A & E3 & H). rewrite E3. cbn [obind].
  apply obind_ret_inv in H as ([[as' dG] dH] & E4 & H). rewrite E4. cbn [obind]. injection H as <- <-. reflexivity.
Qed.
Lemma prep_shiftY wRnd st'' d : prepareProofs R c pick st wRnd = Ret (st'', d) ->
  exists st2, prepareProofs R c pick st1 wRnd = Ret (st2, with_l d (gadd (flinCom d) D)).
Proof.
  unfold prepareProofs, aggregateProver. intros H. apply obind_ret_inv in H as ([sX apX] & H0 & H).
  apply obind_ret_inv in H0 as ([sa a] & E1 & H0). destruct (agg1_shiftY sa a E1) as (com & E1'). rewrite E1'. cbn [obind].
  cbn [pidx pcom prnd plin pnorm plinW pqG pqH pcomp pz pmer rlin rlinCom rquad rquadCom rdG rdH rrVec ruVec ras rbs].
  apply obind_ret_inv in H0 as (rnd & E2 & H0). rewrite E2. cbn [obind].
  destruct (negb (size_of_int (pidx sa WW) =? size_of_int (Z.of_nat (length (cGs c)) - 1))); [discriminate|].
  apply obind_ret_inv in H0 as (wG & E3 & H0). rewrite E3. cbn [obind].
  apply obind_ret_inv in H0 as ([m a2] & E4 & H0). apply agg2_shiftY in E4. cbn [rlin rlinCom rquad rquadCom rdG rdH rrVec ruVec ras rbs] in E4.
  match type of E4 with context [gadd (gadd ?x ?w) D] => replace (gadd (gadd x w) D) with (gadd (gadd x D) w) in E4 by gsolve end.
  rewrite E4. cbn [obind]. cbn [rlin rlinCom rquad rquadCom rdG rdH rrVec ruVec ras rbs].
  apply obind_ret_inv in H0 as (qG & E5 & H0). cbn [rdG] in E5. rewrite E5. cbn [obind].
  apply obind_ret_inv in H0 as (qH & E6 & H0). cbn [rdH] in E6. rewrite E6. cbn [obind]. injection H0 as <- <-.
  cbn [rv rlRnd rqRnd pidx pcom prnd plin pnorm plinW pqG pqH pcomp pz pmer] in *. unfold flattenLinPrv, flattenLinVer in *.
  cbn [pidx pcom prnd plin pnorm plinW pqG pqH pcomp pz pmer rlin rlinCom rquad rquadCom rdG rdH rrVec ruVec ras rbs] in *.
  match type of H with (let! _ := (if ?b then _ else _) in _) = _ => destruct b; [discriminate|] end.
  apply obind_ret_inv in H as ([[s2 a5] [[lgs lst] lw]] & E7 & H). apply obind_ret_inv in E7 as ([gs stm] & E7 & E7'). rewrite E7. cbn [obind]. injection E7' as <- <- <- <- <-.
  unfold flattenQuadPrv, flattenQuadVer in *. cbn [pidx pcom prnd plin pnorm plinW pqG pqH pcomp pz pmer rlin rlinCom rquad rquadCom rdG rdH rrVec ruVec ras rbs leq qeq] in *.
  apply obind_ret_inv in H as ([[s3 q] ws] & E8 & H). apply obind_ret_inv in E8 as (q' & E8 & E9). rewrite E8. cbn [obind].
  apply obind_ret_inv in E9 as (ws' & E9 & E10). rewrite E9. cbn [obind]. injection E10 as <- <- <-.
  destruct q' as [[[qgs qhs] og] oh]. destruct ws' as [wg wh]. injection H as <- <-. eexists. reflexivity.
Qed.
End Shift.

Hypothesis Hpick : queue_order pick.
(** The residual for two values of w. *)
Lemma residual2_eq (st st' : pstate) wRnd ap (g y : Z -> F) w w' : wf_system st -> all_disjoint (pnorm st) ->
  Forall (fun con => lterms con <> [] \/ leq con = 0%F) (plin st) -> aggregateProver R c pick st wRnd = Ret (st', ap) ->
  lin_sat (rlin (rv ap)) (lvalG st y w) ->
  (quad_val (qidx (rquad (rv ap))) (qvalG st (rv ap) g w') (qvalH st (rv ap) y) - qeq (rquad (rv ap)))%F
  = residual2 st g y (w - w')%F (chal_lin st) (chal_norm st) (chal_u st) (chal_rho st).
Proof.
  intros Hwf Hd Hne E HL. destruct (final Hp c pick Hpick st st' wRnd ap Hwf Hd E) as [f]. pose proof (fn_S _ _ _ _ _ _ f) as S.
  unfold residual2. rewrite <- (residual_eq Hp c pick Hpick st st' wRnd ap Hwf Hd Hne f g y w HL).
  assert (HIW : forall k, In k (fn_I c pick st st' wRnd ap f) -> k <> pidx st WW) by (intros k Hk ->; pose proof (proj2 (so_lt _ _ S _ (or_intror Hk))); lia).
  rewrite (fn_idx _ _ _ _ _ _ f), !quad_val_app.
  rewrite (quad_val_ext (fn_I c pick st st' wRnd ap f) (qvalG st (rv ap) g w') (qvalH st (rv ap) y) (qvalG st (rv ap) g w) (qvalH st (rv ap) y)).
  2:{ intros k Hk. split; [|reflexivity]. unfold qvalG. now rewrite (proj2 (Z.eqb_neq k (pidx st WW)) (HIW k Hk)). }
  assert (EG : forall v, qvalG st (rv ap) g v (pidx st WW) = v).
  { intros v. unfold qvalG. rewrite Z.eqb_refl, (fn_dG _ _ _ _ _ _ f), coef_app. rewrite (coef_notin (pidx st WW) (map _ _)) by (rewrite keys_mapk; intros K; now apply HIW in K).
    rewrite coef_cons, Z.eqb_refl, coef_nil. ring. }
  assert (EH : qvalH st (rv ap) y (pidx st WW) = chal_rho st).
  { unfold qvalH. rewrite Z.eqb_refl, (fn_dH _ _ _ _ _ _ f), coef_app. rewrite (coef_notin (pidx st WW) (map _ _)) by (rewrite keys_mapk; intros K; now apply HIW in K).
    rewrite coef_cons, Z.eqb_refl, coef_nil, (fn_rhoeq _ _ _ _ _ _ f). ring. }
  unfold quad_val at 2 4. cbn [map fsum]. rewrite !EG, EH. ring.
Qed.
(** Counting: the difference e only matters for the first constraint. *)
Section Count.
Variables (st : pstate) (g y : Z -> F) (con : lincon p) (cons : list (lincon p)) (e : F).
Hypothesis EL : plin st = con :: cons.
Hypothesis Hv : ~ Forall (fun con => lin_sat con y) cons.
Lemma count_rest rls : NoDup rls -> Forall (fun rl => peval (lin_residuals st y) rl = e) rls -> (length rls < length (plin st))%nat.
Proof.
  intros Hn Hz. set (l := (lin_res con y - e)%F :: map (fun con => lin_res con y) cons).
  pose proof (root_bound Hp l rls) as H. unfold l at 3 in H. cbn [length] in H. rewrite map_length in H. rewrite EL. cbn [length]. apply H; [|exact Hn|].
  - intros Z. inversion_clear Z as [|? ? _ Z']. apply Hv. rewrite Forall_map in Z'. eapply Forall_impl; [|exact Z']. intros k E. exact (proj1 (fsub_eq_0 _ _) E).
  - eapply Forall_impl; [|exact Hz]. intros rl E. unfold lin_residuals in E. rewrite EL in E. unfold l. cbn [map peval] in *. rewrite <- E. ring.
Qed.
Lemma one_rho2 rl rn u r1 r2 : peval (lin_residuals st y) rl <> e -> residual2 st g y e rl rn u r1 = 0%F -> residual2 st g y e rl rn u r2 = 0%F -> r1 = r2.
Proof.
  intros Hl H1 H2. unfold residual2, residual in *. set (L := peval (lin_residuals st y) rl) in *.
  assert (E : ((r1 - r2) * (L - e))%F = 0%F).
  { match type of H1 with (?A + ?B + _ - _)%F = _ => transitivity ((A + B + r1 * L - r1 * e) - (A + B + r2 * L - r2 * e))%F; [ring|]; rewrite H1, H2; ring end. }
  apply (fmul_eq_0 Hp) in E as [E|E]; [exact (proj1 (fsub_eq_0 _ _) E)|]. destruct Hl. exact (proj1 (fsub_eq_0 _ _) E).
Qed.
End Count.

Hypothesis Hc : wf_cfg c.
Variable st : pstate.
Hypothesis Hr : set_up c st.
Hypothesis Hm : all_mentioned c st.
Notation W := (pidx st WW).
Notation y := (coef (plinW st)).
Lemma link_forge wRnd st'' d b con cons : Forall (fun con => lterms con <> [] \/ leq con = 0%F) (plin st) ->
  prepareProofs R c pick st wRnd = Ret (st'', d) -> plin st = con :: cons ->
  Forall (fun con => lin_sat con y) cons -> Forall (fun q => quad_sat q y y) (pnorm st) ->
  let t := lin_res con y in let GW := gen (cGs c) W in
  exists st2 d2, prepareProofs R c pick (with_com st YY (gadd (pcom st YY) (gmul GW t))) wRnd = Ret (st2, d2) /\
    (proveVerify R c (with_w GW d2 (- t)%F) b = Ret (true, true) \/
     (proveVerify R c (with_w GW d2 (- t)%F) b = Throw /\ ~ (forall m l, fst (m_chal R m l) <> 0%F))).
Proof.
  intros Hne E EL HL HQ t GW. destruct (prep_shiftY st (gmul GW t) wRnd st'' d E) as (st2 & E2). exists st2. eexists. split; [exact E2|].
  destruct (prep_inv Hp c pick Hpick Hc st Hr Hm wRnd st'' d E) as (st' & ap & f & ->). pose proof (rd_disj c Hc st Hr) as Hd. pose proof (fn_S _ _ _ _ _ _ f) as S.
  set (I := fn_I c pick st st' wRnd ap f) in *. set (a := coef (pqG st')). set (h := coef (pqH st')). set (w := fn_w c pick st st' wRnd ap f).
  assert (SL : lin_sat (rlin (rv ap)) (lvalG st y w)).
  { pose proof (fin_lin_sat Hp c pick st st' wRnd ap (rd_wf c Hc st Hr) (rd_rec c Hc st Hr) f) as H.
    destruct (fin_linW c pick st st' wRnd ap (rd_wf c Hc st Hr) (rd_rec c Hc st Hr) f) as (KL & _ & CL & CW).
    unfold lin_sat in *. rewrite <- H. apply lin_val_ext. intros k Hk. unfold lvalG. rewrite (fn_lin _ _ _ _ _ _ f) in Hk. cbn [lterms] in Hk. rewrite keys_app in Hk.
    apply in_app_iff in Hk as [Hk|[<-|[]]].
    - pose proof (fin_bs_lt c pick st st' wRnd ap f k Hk). rewrite (proj2 (Z.eqb_neq k W)) by lia. symmetry. now apply CL.
    - cbn [fst]. rewrite Z.eqb_refl. symmetry. exact CW. }
  pose proof (residual_eq Hp c pick Hpick st st' wRnd ap (rd_wf c Hc st Hr) Hd Hne f y y w SL) as HR.
  assert (Hres : residual st y y (chal_lin st) (chal_norm st) (chal_u st) (chal_rho st) = (chal_rho st * t)%F).
  { unfold residual. rewrite (gap_zero Hp) by reflexivity. unfold lin_residuals. rewrite EL. cbn [map peval]. fold t.
    rewrite (peval_pzero (map (fun con => lin_res con y) cons)).
    2:{ unfold pzero. rewrite Forall_map. eapply Forall_impl; [|exact HL]. intros q' X. unfold lin_res. rewrite X. ring. }
    rewrite (peval_pzero (norm_residuals st y y)); [ring|]. unfold pzero, norm_residuals. rewrite Forall_map. eapply Forall_impl; [|exact HQ].
    intros q' X. unfold norm_res. rewrite X. ring. }
  rewrite Hres in HR. clear Hres.
  assert (EV : quad_val (qidx (rquad (rv ap))) (qvalG st (rv ap) y w) (qvalH st (rv ap) y) = dot (map a (I ++ [W])) (map h (I ++ [W]))).
  { rewrite dot_quad, (fn_idx _ _ _ _ _ _ f). unfold quad_val. apply fsum_map_ext. intros k Hk. destruct (wit_vals Hp c pick Hc st Hr wRnd st' ap f k Hk) as [A B]. unfold a, h, w. now rewrite A, B. }
  rewrite EV in HR. clear EV.
  assert (HhW : h W = chal_rho st).
  { assert (HW0 : In W (I ++ [W])) by (apply in_app_iff; right; now left). unfold h. rewrite (proj2 (wit_vals Hp c pick Hc st Hr wRnd st' ap f W HW0)).
    assert (HIW : ~ In W I) by (intros K; pose proof (proj2 (so_lt _ _ S _ (or_intror K))); lia).
    unfold qvalH. rewrite Z.eqb_refl, (fn_dH _ _ _ _ _ _ f), coef_app. rewrite (coef_notin W (map _ _)) by now rewrite keys_mapk.
    rewrite coef_cons, Z.eqb_refl, coef_nil, (fn_rhoeq _ _ _ _ _ _ f). ring. }
  set (D := the_flat c pick st wRnd st' ap f).
  assert (EW : with_w GW (with_l D (gadd (flinCom D) (gmul GW t))) (- t)%F = with_q D (gadd (fquadCom D) (gmul GW (- t)%F)) (add_last (fqwG D) (- t)%F) (fqwH D)).
  { unfold with_w, with_l, with_q. cbn [fmL fmQ flinCom fquadCom flRnd fqRnd flinEq fquadEq flinGs flinStmnt flinWtns fquadGs fquadHs foffG foffH fqwG fqwH].
    replace (gadd (gadd (flinCom D) (gmul GW t)) (gmul GW (- t)%F)) with (flinCom D) by gsolve. reflexivity. }
  rewrite EW. clear EW. unfold D. apply (flat_accept_C Hp c pick Hc st Hr Hm wRnd st' ap f).
  - unfold the_flat. cbn [fqwG]. rewrite add_last_map, !app_length, map_length. reflexivity.
  - unfold the_flat. cbn [fqwH]. now rewrite map_length.
  - unfold the_flat. cbn [fqwG fqwH]. fold I a h. rewrite add_last_map. rewrite map_app. rewrite !map_app in HR. cbn [map] in *.
    rewrite dot_app in HR |- * by now rewrite !map_length. cbn [dot] in *. rewrite HhW in *.
    set (s := dot (map a I) (map h I)) in *. apply (proj1 (fsub_eq_0 _ _)).
    transitivity ((s + (a W * chal_rho st + 0) - qeq (rquad (rv ap))) - chal_rho st * t)%F; [ring|]. rewrite HR. ring.
  - unfold the_flat. cbn [fqwG fqwH fquadCom]. rewrite (quad_com Hp c pick Hc st Hr wRnd st' ap f), <- !gdot_atk. fold I a h. rewrite add_last_map. rewrite !map_app, !gdot_app by now rewrite !map_length.
    cbn [map gdot]. unfold GW. gsolve.
Qed.
End Link.
