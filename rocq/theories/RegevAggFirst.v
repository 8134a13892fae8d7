(** The values on the generators G and H of the first norm-constrained variable
    need not agree: what a prover gains from it. *)
From Coq Require Import String.
From Coq Require Import ZArith Znumtheory List Bool Lia Ring Field Permutation.
From Verif Require Import NumTheory Outcome Fp FSum GroupMod Ring ConstraintsModel ConstraintsSpec ConstraintsProofs ConstraintsMerge
  ConstraintsOther PedersenModel BulletproofModel BulletproofSpec TernaryModel RegevModel RegevPfModel RegevPfSpec RegevPfBase RegevStSpec
  RegevAggModel RegevAggSpec RegevAggMaps RegevPfPost RegevAggProofs RegevAggTotal RegevAggOpen RegevAggAccept RegevAggForge RegevSoundSpec RegevAggSound.
Import ListNotations.
Open Scope Z_scope.

Section First.
Context {p : Z} (Hp : prime p) {ell : nat} {G : gmod p} {R : rmerlin G}.
Notation F := (Fp p).
Add Field FpFldFi : (Fp_field Hp).
Variable c : cfg ell G.
Variable pick : list (cursor p) -> nat.
Notation pstate := (@pstate p ell G R).

(** Another commitment to the first vector only moves the commitment of the
    quadratic statement. *)
Section Shift.
Variable st : pstate.
Variable D : G.
Notation st1 := (with_com st DCompHi (gadd (pcom st DCompHi) D)).
Lemma agg1_shift sa a : aggregateVerifier1 R pick st = Ret (sa, a) ->
  exists com, aggregateVerifier1 R pick st1 = Ret (PS (pidx sa) com (prnd sa) (plin sa) (pnorm sa) (plinW sa) (pqG sa) (pqH sa) (pcomp sa) (pz sa) (pmer sa),
    RTV (rlin a) (rlinCom a) (rquad a) (gadd (rquadCom a) D) (rdG a) (rdH a) (rrVec a) (ruVec a) (ras a) (rbs a)).
Proof.
  unfold aggregateVerifier1, with_com. cbn [pidx pcom prnd plin pnorm plinW pqG pqH pcomp pz pmer]. intros H.
  destruct (m_chal R (pmer st) "aggregateLinear") as [r m]. apply obind_ret_inv in H as (rv1 & E1 & H). rewrite E1. cbn [obind].
  apply obind_ret_inv in H as (lin & E2 & H). rewrite E2. cbn [obind].
  destruct (m_chal R m "aggregateNorms") as [r' m']. apply obind_ret_inv in H as (rv2 & E3 & H). rewrite E3. cbn [obind].
  apply obind_ret_inv in H as (quad & E4 & H). rewrite E4. cbn [obind]. apply obind_ret_inv in H as (terms & E5 & H). rewrite E5. cbn [obind].
  destruct (splitPtxtVec terms (qidx quad)) as [[as_ bs] w]. destruct (negb (int_of_size w =? pidx st WW)); [discriminate|].
  apply obind_ret_inv in H as (com & E6 & H). injection H as <- <-.
  assert (E0 : nth 0 rv2 0%F = 1%F).
  { apply powerVectorS_spec in E3 as [N ->]. destruct (length (pnorm st)); [lia|]. now rewrite powers_S. }
  change comPairs with ((DCompHi, DPadHi, 0%nat) :: tl comPairs) in E6 |- *. cbn [scale_pairs] in E6 |- *.
  destruct (oget rv2 0) as [r0| | |] eqn:E7; try discriminate.
  assert (Hr0 : r0 = 1%F). { apply oget_ret in E7. rewrite <- E0. symmetry. now apply nth_error_nth. }
  cbn [obind] in E6 |- *.
  match type of E6 with scale_pairs _ _ ?f0 _ ?l = _ => set (F0 := f0) in E6; set (L := l) in E6 |- * end.
  match goal with |- context [scale_pairs gadd gmul ?f1 rv2 L] => set (F1 := f1) end.
  assert (HF : forall x, x <> DCompHi -> F1 x = F0 x) by (intros x Hx; unfold F1, F0; rewrite !upd_other; auto).
  assert (HF0 : F1 DCompHi = gadd (F0 DCompHi) D).
  { unfold F1, F0. rewrite !upd_same. rewrite upd_other by discriminate. rewrite Hr0. gsolve. }
  assert (Hgen : forall l f0 f1 com, (forall x xp i, In (x, xp, i) l -> x <> DCompHi /\ xp <> DCompHi) ->
     (forall x, x <> DCompHi -> f1 x = f0 x) -> f1 DCompHi = gadd (f0 DCompHi) D -> scale_pairs gadd gmul f0 rv2 l = Ret com ->
     exists com1, scale_pairs gadd gmul f1 rv2 l = Ret com1 /\ (forall x, x <> DCompHi -> com1 x = com x) /\ com1 DCompHi = gadd (com DCompHi) D).
  { clear. induction l as [|[[x xp] i] l IH]; intros f0 f1 com Hl H1 H2 H; cbn [scale_pairs] in *.
    - injection H as <-. exists f1. auto.
    - apply obind_ret_inv in H as (r & E & H). rewrite E. cbn [obind]. destruct (Hl x xp i (or_introl eq_refl)) as [N1 N2].
      eapply IH; [intros; eapply Hl; right; eassumption| | |exact H].
      + intros y Hy. unfold upd. destruct (var_eq_dec y x); [now rewrite !H1|now apply H1].
      + rewrite !upd_other by (intros K; now apply N1). exact H2. }
  destruct (Hgen L F0 F1 com) as (com1 & E8 & P1 & P2); [|exact HF|exact HF0|exact E6|].
  { unfold L. intros x xp i Hin. cbn [comPairs tl] in Hin. repeat (destruct Hin as [Hin|Hin]; [injection Hin as <- <- <-; split; discriminate|]). destruct Hin. }
  rewrite E8. cbn [obind]. exists com1. unfold sum_lin, sum_quad. cbn [fold_left rlin rlinCom rquad rquadCom rdG rdH rrVec ruVec ras rbs pidx pcom prnd plin pnorm plinW pqG pqH pcomp pz pmer].
  rewrite P2, !P1 by discriminate.
  match goal with |- Ret (_, RTV _ _ _ ?x _ _ _ _ _ _) = Ret (_, RTV _ _ _ ?y _ _ _ _ _ _) => replace x with y by gsolve end. reflexivity.
Qed.
Lemma agg2_shift m W a m' a' : aggregateVerifier2 R m W a = Ret (m', a') ->
  aggregateVerifier2 R m W (RTV (rlin a) (rlinCom a) (rquad a) (gadd (rquadCom a) D) (rdG a) (rdH a) (rrVec a) (ruVec a) (ras a) (rbs a))
  = Ret (m', RTV (rlin a') (rlinCom a') (rquad a') (gadd (rquadCom a') D) (rdG a') (rdH a') (rrVec a') (ruVec a') (ras a') (rbs a')).
Proof.
  unfold aggregateVerifier2. cbn [rlin rlinCom rquad rquadCom rdG rdH rrVec ruVec ras rbs]. intros H.
  destruct (m_chal R m "enforceNorm") as [u m1]. apply obind_ret_inv in H as (uv & E1 & H). rewrite E1. cbn [obind].
  destruct (negb (length uv =? length (ras a))%nat); [discriminate|]. apply obind_ret_inv in H as (uu & E2 & H). rewrite E2. cbn [obind].
  destruct (m_chal R m1 "separareLinQuad") as [rho m2]. apply obind_ret_inv in H as (A & E3 & H). rewrite E3. cbn [obind].
  apply obind_ret_inv in H as ([[as' dG] dH] & E4 & H). rewrite E4. cbn [obind]. injection H as <- <-. reflexivity.
Qed.
Lemma prep_shift wRnd st'' d : prepareProofs R c pick st wRnd = Ret (st'', d) ->
  exists st2, prepareProofs R c pick st1 wRnd = Ret (st2, with_q d (gadd (fquadCom d) D) (fqwG d) (fqwH d)).
Proof.
  unfold prepareProofs, aggregateProver. intros H. apply obind_ret_inv in H as ([sX apX] & H0 & H).
  apply obind_ret_inv in H0 as ([sa a] & E1 & H0). destruct (agg1_shift sa a E1) as (com & E1'). rewrite E1'. cbn [obind].
  cbn [pidx pcom prnd plin pnorm plinW pqG pqH pcomp pz pmer rlin rlinCom rquad rquadCom rdG rdH rrVec ruVec ras rbs].
  apply obind_ret_inv in H0 as (rnd & E2 & H0). rewrite E2. cbn [obind].
  destruct (negb (size_of_int (pidx sa WW) =? size_of_int (Z.of_nat (length (cGs c)) - 1))); [discriminate|].
  apply obind_ret_inv in H0 as (wG & E3 & H0). rewrite E3. cbn [obind].
  apply obind_ret_inv in H0 as ([m a2] & E4 & H0). apply agg2_shift in E4. cbn [rlin rlinCom rquad rquadCom rdG rdH rrVec ruVec ras rbs] in E4.
  match type of E4 with context [gadd (gadd ?x ?w) D] => replace (gadd (gadd x w) D) with (gadd (gadd x D) w) in E4 by gsolve end.
  rewrite E4. cbn [obind]. cbn [rlin rlinCom rquad rquadCom rdG rdH rrVec ruVec ras rbs].
  apply obind_ret_inv in H0 as (qG & E5 & H0). cbn [rdG] in E5. rewrite E5. cbn [obind].
  apply obind_ret_inv in H0 as (qH & E6 & H0). cbn [rdH] in E6. rewrite E6. cbn [obind]. injection H0 as <- <-.
  cbn [rv rlRnd rqRnd pidx pcom prnd plin pnorm plinW pqG pqH pcomp pz pmer] in *. unfold flattenLinPrv, flattenLinVer in *.
  cbn [pidx pcom prnd plin pnorm plinW pqG pqH pcomp pz pmer rlin rlinCom rquad rquadCom rdG rdH rrVec ruVec ras rbs] in *.
  match type of H with (let! _ := (if ?b then _ else _) in _) = _ => destruct b; [discriminate|] end.
  apply obind_ret_inv in H as ([[s2 a5] [[lgs lst] lw]] & E7 & H). apply obind_ret_inv in E7 as ([gs stm] & E7 & E7'). rewrite E7. cbn [obind]. injection E7' as <- <- <- <- <-.
  unfold flattenQuadPrv, flattenQuadVer in *. cbn [pidx pcom prnd plin pnorm plinW pqG pqH pcomp pz pmer rlin rlinCom rquad rquadCom rdG rdH rrVec ruVec ras rbs leq qeq] in *.
  apply obind_ret_inv in H as ([[s3 q] ws] & E8 & H). apply obind_ret_inv in E8 as (q' & E8 & E9). rewrite E8. cbn [obind].
  apply obind_ret_inv in E9 as (ws' & E9 & E10). rewrite E9. cbn [obind]. injection E10 as <- <- <-.
  destruct q' as [[[qgs qhs] og] oh]. destruct ws' as [wg wh]. injection H as <- <-. eexists. reflexivity.
Qed.
End Shift.

Hypothesis Hpick : queue_order pick.
Hypothesis Hc : wf_cfg c.
Variable st : pstate.
Hypothesis Hr : set_up c st.
Hypothesis Hm : all_mentioned c st.
Notation W := (pidx st WW).
Variable wRnd : F.
Lemma first_idx : pidx st DCompHi = 0.
Proof. destruct (lay_good c Hc _ (rd_lay c st Hr)) as (A & _). now rewrite (A DCompHi eq_refl). Qed.
Section F.
Variables (st' : pstate) (ap : rtp G).
Variable f : fin c pick st st' wRnd ap.
Notation I := (fn_I c pick st st' wRnd ap f).
Notation y := (coef (plinW st)).
(** The witness of the prover is the scaled and shifted one. *)
Lemma wit_vals k : In k (I ++ [W]) ->
  coef (pqG st') k = qvalG st (rv ap) y (fn_w c pick st st' wRnd ap f) k /\ coef (pqH st') k = qvalH st (rv ap) y k.
Proof.
  pose proof (fn_S _ _ _ _ _ _ f) as S. pose proof (rd_wf c Hc st Hr) as (HW & HQ & HL & HN & IL & IN). pose proof (rd_disj c Hc st Hr) as Hd.
  assert (HWI : ~ In W I). { intros K. pose proof (proj2 (so_lt _ _ S W (or_intror K))). lia. }
  assert (Hnd : NoDup I) by (apply zsorted_NoDup; exact (so_qsorted _ _ S)).
  rewrite in_app_iff. unfold qvalG, qvalH. intros [Hk|[<-|[]]].
  - assert (N : k <> W) by (intros ->; contradiction). rewrite (proj2 (Z.eqb_neq k W) N).
    rewrite (fn_G _ _ _ _ _ _ f k Hk), (fn_H _ _ _ _ _ _ f k Hk), (fn_dG _ _ _ _ _ _ f), (fn_dH _ _ _ _ _ _ f), !coef_app, !coef_mapk by assumption.
    rewrite !coef_cons, (proj2 (Z.eqb_neq W k)), !coef_nil by auto.
    assert (EX : fn_X _ _ _ _ _ _ f k = (scale st (chal_norm st) k * y k)%F).
    { pose proof Hk as Hk'. unfold fn_I in Hk'. apply (so_qidx _ _ S) in Hk' as (q & Hq & Hkq).
      destruct (combine_has q (pnorm st) (powers (chal_norm st) (length (pnorm st))) Hq ltac:(now rewrite powers_length)) as (r & Hin).
      rewrite (scale_at st Hd q r k Hin Hkq). unfold fn_X.
      destruct (mul_all_spec (pnorm st) (rrVec (fn_a _ _ _ _ _ _ f)) (pqG st) HQ HN Hd) as (_ & _ & Cm & _); [rewrite (v1_rVec _ _ _ _ (fn_V _ _ _ _ _ _ f)); now rewrite powers_length|].
      rewrite <- (v1_rVec _ _ _ _ (fn_V _ _ _ _ _ _ f)) in Hin. rewrite (Cm q r k Hin Hkq), (proj2 (rd_rec c Hc st Hr) q k Hq Hkq). ring. }
    rewrite EX. split; ring.
  - rewrite Z.eqb_refl, (fn_GW _ _ _ _ _ _ f), (fn_HW _ _ _ _ _ _ f), (fn_dG _ _ _ _ _ _ f), (fn_dH _ _ _ _ _ _ f), !coef_app, !(coef_notin W (map _ _)) by now rewrite keys_mapk.
    rewrite !coef_cons, Z.eqb_refl, !coef_nil. split; ring.
Qed.
Lemma forge_first q qs b : pnorm st = q :: qs -> Forall (fun con => lin_sat con y) (plin st) -> Forall (fun q => quad_sat q y y) qs -> y 0 <> 1%F ->
  exists t x l, fqwG (the_flat c pick st wRnd st' ap f) = x :: l /\
  let d := with_q (the_flat c pick st wRnd st' ap f) (gadd (rquadCom (rv ap)) (gmul (gen (cGs c) 0) t)) ((x + t)%F :: l) (fqwH (the_flat c pick st wRnd st' ap f)) in
  (proveVerify R c d b = Ret (true, true) \/ (proveVerify R c d b = Throw /\ ~ (forall m l, fst (m_chal R m l) <> 0%F))).
Proof.
  intros EN HL HQ Hy. destruct (I_range c pick Hc st Hr wRnd st' ap f) as (n & EI & Ln & LW).
  pose proof (fn_S _ _ _ _ _ _ f) as S. pose proof (rd_disj c Hc st Hr) as Hd.
  assert (EI2 : I ++ [W] = 0 :: (zrange 1 n ++ [W])).
  { rewrite EI. unfold zrange. cbn [seq map app]. rewrite <- seq_shift, map_map. f_equal. f_equal. apply map_ext. intros; lia. }
  assert (Hq0 : In 0 (qidx q)).
  { destruct Hr as (_ & _ & _ & _ & HN & _). destruct (HN 0%nat DCompHi DPadHi eq_refl) as (q' & E & K). rewrite EN in E. injection E as <-. apply K. left.
    unfold in_var. rewrite first_idx. pose proof (clen_pos c Hc DCompHi). lia. }
  assert (Hne : Forall (fun con => lterms con <> [] \/ leq con = 0%F) (plin st)).
  { eapply Forall_impl; [|exact HL]. intros con E. unfold lin_sat in E. destruct (lterms con); [right; now rewrite <- E|left; discriminate]. }
  set (a := coef (pqG st')). set (h := coef (pqH st')). set (w := fn_w c pick st st' wRnd ap f).
  assert (SL : lin_sat (rlin (rv ap)) (lvalG st y w)).
  { pose proof (fin_lin_sat Hp c pick st st' wRnd ap (rd_wf c Hc st Hr) (rd_rec c Hc st Hr) f) as H.
    destruct (fin_linW c pick st st' wRnd ap (rd_wf c Hc st Hr) (rd_rec c Hc st Hr) f) as (KL & _ & CL & CW).
    unfold lin_sat in *. rewrite <- H. apply lin_val_ext. intros k Hk. unfold lvalG. rewrite (fn_lin _ _ _ _ _ _ f) in Hk. cbn [lterms] in Hk. rewrite keys_app in Hk.
    apply in_app_iff in Hk as [Hk|[<-|[]]].
    - pose proof (fin_bs_lt c pick st st' wRnd ap f k Hk). rewrite (proj2 (Z.eqb_neq k W)) by lia. symmetry. now apply CL.
    - cbn [fst]. rewrite Z.eqb_refl. symmetry. exact CW. }
  pose proof (residual_eq Hp c pick Hpick st st' wRnd ap (rd_wf c Hc st Hr) Hd Hne f y y w SL) as HR.
  assert (Hres : residual st y y (chal_lin st) (chal_norm st) (chal_u st) (chal_rho st) = norm_res q y y).
  { unfold residual. rewrite (lin_zero Hp) by exact HL. rewrite (gap_zero Hp) by reflexivity. unfold norm_residuals. rewrite EN. cbn [map peval].
    rewrite (peval_pzero (map (fun q => norm_res q y y) qs)); [ring|]. unfold pzero. rewrite Forall_map. eapply Forall_impl; [|exact HQ].
    intros q' E. unfold norm_res. rewrite E. ring. }
  rewrite Hres in HR. clear Hres.
  assert (EV : quad_val (qidx (rquad (rv ap))) (qvalG st (rv ap) y w) (qvalH st (rv ap) y) = dot (map a (I ++ [W])) (map h (I ++ [W]))).
  { rewrite dot_quad, (fn_idx _ _ _ _ _ _ f). unfold quad_val. apply fsum_map_ext. intros k Hk. destruct (wit_vals k Hk) as [A B]. unfold a, h, w. now rewrite A, B. }
  rewrite EV in HR. clear EV.
  assert (Hh0 : h 0 = (y 0 - 1)%F).
  { assert (H0 : In 0 I) by (rewrite EI; apply in_zrange; lia). unfold h. rewrite (fn_H _ _ _ _ _ _ f 0 H0).
    destruct (wit_vals 0 ltac:(apply in_app_iff; now left)) as [_ B]. rewrite (fn_H _ _ _ _ _ _ f 0 H0) in B. rewrite B. unfold qvalH. pose proof (rd_W c Hc st Hr).
    rewrite (proj2 (Z.eqb_neq 0 W)) by lia. rewrite (fn_dH _ _ _ _ _ _ f), coef_app, coef_mapk by (first [exact H0 | exact Hp | apply zsorted_NoDup; exact (so_qsorted _ _ S)]).
    rewrite coef_cons, (proj2 (Z.eqb_neq W 0)), coef_nil by lia.
    assert (E1 : scale st (chal_norm st) 0 = 1%F). { unfold scale. rewrite EN. cbn [length]. rewrite powers_S. cbn [scaleof]. now rewrite (proj2 (zmem_In _ _) Hq0). }
    assert (E2 : fn_U _ _ _ _ _ _ f 0 = 1%F).
    { rewrite (fn_Ueq _ _ _ _ _ _ f), EI. unfold zrange. rewrite map_length, seq_length, powers_S. cbn [seq map]. unfold uof. cbn [combine]. rewrite coef_cons, Z.eqb_refl.
      rewrite coef_notin; [ring|]. intros K. apply in_map_iff in K as ([k v] & E & K). cbn [fst] in E. subst k. apply in_combine_l in K. apply in_map_iff in K as (j & E & K). apply in_seq in K. lia. }
    rewrite E1, E2. ring. }
  assert (Hne0 : (y 0 - 1)%F <> 0%F) by (intros E; exact (Hy (proj1 (fsub_eq_0 _ _) E))).
  set (t := (- norm_res q y y * finv (y 0 - 1))%F).
  exists t, (a 0), (map a (zrange 1 n ++ [W])). unfold the_flat at 1. cbn [fqwG]. rewrite EI2. cbn [map]. split; [reflexivity|].
  cbv zeta. apply (flat_accept_C Hp c pick Hc st Hr Hm wRnd st' ap f).
  - rewrite EI2. cbn [length]. now rewrite map_length.
  - unfold the_flat. cbn [fqwH]. now rewrite map_length.
  - unfold the_flat. cbn [fqwH]. fold h. rewrite EI2 in HR |- *. cbn [map dot] in HR |- *.
    transitivity (qeq (rquad (rv ap)) + ((a 0%Z * h 0%Z + dot (map a (zrange 1 n ++ [W])) (map h (zrange 1 n ++ [W])) - qeq (rquad (rv ap))) + t * h 0%Z))%F; [ring|].
    rewrite HR, Hh0. unfold t. field. exact Hne0.
  - unfold the_flat. cbn [fqwH]. rewrite (quad_com Hp c pick Hc st Hr wRnd st' ap f), <- !gdot_atk. fold a h. rewrite EI2. cbn [map gdot]. gsolve.
Qed.
End F.
End First.
