(** The aggregated statement of two runs that show the same. *)
From Coq Require Import String.
From Coq Require Import ZArith Znumtheory List Bool Lia Ring Field Permutation.
From Verif Require Import NumTheory Outcome Fp FSum GroupMod Ring ConstraintsModel ConstraintsSpec ConstraintsProofs ConstraintsMerge
  ConstraintsOther PedersenModel BulletproofModel BulletproofSpec BulletproofProofs BulletproofQuad TernaryModel RegevModel RegevPfModel RegevPfSpec RegevPfBase RegevStSpec
  RegevAggModel RegevAggSpec RegevAggMaps RegevPfPost RegevAggProofs RegevAggTotal RegevAggOpen RegevAggAccept RegevAggForge RegevRunModel ZkSpec ZkProofs HideSpec HideSteps.
Import ListNotations.
Open Scope Z_scope.

Section V.
Context {p : Z} (Hp : prime p) {ell : nat} {G : gmod p} {R : rmerlin G}.
Notation F := (Fp p).
Add Field FpFldV : (Fp_field Hp).
Variable c : cfg ell G.
Variable pick : list (cursor p) -> nat.
Hypothesis Hpick : queue_order pick.
Notation pstate := (@pstate p ell G R).
Hypothesis Hc : wf_cfg c.
Variable st : pstate.
Hypothesis Hr : set_up c st.
Hypothesis Hm : all_mentioned c st.
Notation W := (pidx st WW).
Variable wRnd : F.
Section F.
Variables (st' : pstate) (ap : rtp G).
Variable f : fin c pick st st' wRnd ap.
Notation I := (fn_I c pick st st' wRnd ap f).
Notation d := (the_flat c pick st wRnd st' ap f).

Lemma flat_lin_valid : valid_lin c d.
Proof.
  pose proof (fin_lin_sat Hp c pick st st' wRnd ap (rd_wf c Hc st Hr) (rd_rec c Hc st Hr) f) as SL.
  pose proof (rd_W c Hc st Hr) as HW.
  assert (GW : Z.of_nat (length (cGs c)) = W + 1) by (destruct Hr as (_ & _ & _ & _ & _ & _ & _ & _ & H); exact H).
  assert (LK : length (keys (lterms (rlin (rv ap)))) = length (lterms (rlin (rv ap)))) by (unfold keys; now rewrite map_length).
  assert (L1 : (1 <= length (keys (lterms (rlin (rv ap)))) <= length (cGs c))%nat).
  { split; [rewrite (fn_lin _ _ _ _ _ _ f); cbn [lterms]; rewrite keys_app, app_length; cbn; lia|].
    assert (H : (length (keys (lterms (rlin (rv ap)))) <= length (zrange 0 (length (cGs c))))%nat).
    { apply NoDup_incl_length.
      - apply zsorted_NoDup, ksorted_keys. exact (proj1 (fin_shape c pick st st' wRnd ap f)).
      - intros k Hk. apply in_zrange. rewrite Z.add_0_l. apply (bound_G c st Hr). now apply (lin_key_bound c pick Hc st Hr Hm wRnd st' ap f). }
    unfold zrange in H. now rewrite map_length, seq_length in H. }
  unfold valid_lin, the_flat. cbn [flinGs flinWtns flinStmnt flinEq flinCom flRnd]. rewrite !map_length.
  split; [lia|]. split; [lia|]. split; [reflexivity|]. split; [now symmetry|]. split.
  - rewrite dot_lin. rewrite (fn_lin _ _ _ _ _ _ f) in SL |- *. exact SL.
  - rewrite gdot_atk. apply (lin_com Hp c pick Hc st Hr Hm wRnd st' ap f).
Qed.
Lemma flat_quad_valid : all_hold st -> valid_quad c d.
Proof.
  intros Hh. destruct (fin_sat Hp c pick Hpick st st' wRnd ap (rd_wf c Hc st Hr) (rd_disj c Hc st Hr) (rd_rec c Hc st Hr) f Hh) as [_ SQ].
  pose proof (rd_W c Hc st Hr) as HW. pose proof (I_len c pick Hc st Hr wRnd st' ap f) as HI.
  assert (GW : Z.of_nat (length (cGs c)) = W + 1) by (destruct Hr as (_ & _ & _ & _ & _ & _ & _ & _ & H); exact H).
  assert (SQ2 : (length (I ++ [W]) <= length (cGs c))%nat).
  { assert (H : (length (I ++ [W]) <= length (zrange 0 (length (cGs c))))%nat).
    { apply NoDup_incl_length.
      - apply zsorted_NoDup, zsorted_snoc; [exact (I_sorted c pick st wRnd st' ap f)|]. intros k Hk. now apply (I_lt c pick st wRnd st' ap f).
      - intros k Hk. apply in_zrange. rewrite Z.add_0_l. apply (bound_G c st Hr). apply in_app_iff in Hk as [Hk|[<-|[]]]; [apply (I_lt c pick st wRnd st' ap f) in Hk; lia|lia]. }
    unfold zrange in H. now rewrite map_length, seq_length in H. }
  unfold valid_quad, the_flat. cbn [fquadGs fquadHs fqwG fqwH foffG foffH fquadEq fquadCom fqRnd]. rewrite !map_length.
  split; [rewrite app_length; cbn; lia|]. split; [lia|]. do 5 (split; [reflexivity|]). split.
  - rewrite dot_quad. unfold quad_sat in SQ. rewrite (fn_idx _ _ _ _ _ _ f) in SQ. exact SQ.
  - rewrite !gdot_atk. apply (quad_com Hp c pick Hc st Hr wRnd st' ap f).
Qed.
End F.
Lemma flat_valid st'' d : prepareProofs R c pick st wRnd = Ret (st'', d) -> all_hold st -> valid_lin c d /\ valid_quad c d.
Proof.
  intros E Hh. destruct (prep_inv Hp c pick Hpick Hc st Hr Hm wRnd st'' d E) as (st' & ap & f & ->).
  split; [apply flat_lin_valid|now apply flat_quad_valid].
Qed.
End V.

Section P.
Context {p : Z} {ell : nat} {G : gmod p} {R : rmerlin G}.
Notation F := (Fp p).
Variable c : cfg ell G.
Variable pick : list (cursor p) -> nat.
Notation pstate := (@pstate p ell G R).

Lemma scale_ext {A} (add : A -> A -> A) (mul : A -> F -> A) r l : forall f g f' g', (forall x, f x = g x) ->
  scale_pairs add mul f r l = Ret f' -> scale_pairs add mul g r l = Ret g' -> forall x, f' x = g' x.
Proof.
  induction l as [|[[x xp] i] l IH]; intros f g f' g' H E1 E2; cbn in E1, E2.
  - injection E1 as <-. injection E2 as <-. exact H.
  - apply obind_ret_inv in E1 as (r1 & O1 & E1). apply obind_ret_inv in E2 as (r2 & O2 & E2). same O1 O2.
    refine (IH _ _ _ _ _ E1 E2 _). intros y. rewrite (H x), (H xp). now apply upd_ext.
Qed.
Lemma sum_lin_ext (f g : var -> G) : (forall x, f x = g x) -> sum_lin gadd f = sum_lin gadd g.
Proof. intros H. unfold sum_lin. cbn. now rewrite !H. Qed.
Lemma sum_quad_ext (f g : var -> G) : (forall x, f x = g x) -> sum_quad gadd f = sum_quad gadd g.
Proof. intros H. unfold sum_quad. cbn. now rewrite !H. Qed.
Lemma ver1_pub (s1 s2 t1 t2 : pstate) a1 a2 : same_view s1 s2 ->
  aggregateVerifier1 R pick s1 = Ret (t1, a1) -> aggregateVerifier1 R pick s2 = Ret (t2, a2) ->
  a1 = a2 /\ same_view t1 t2 /\ mer_norm s1 = mer_norm s2.
Proof.
  intros [HS HC] E1 E2. apply stmt_inv in HS as (I1 & I2 & I3 & I4 & I5).
  unfold mer_norm. rewrite I5. unfold aggregateVerifier1 in *. rewrite I5, I2, I3, I1, I4 in E1.
  destruct (m_chal R (pmer s2) "aggregateLinear") as [r m].
  apply obind_ret_inv in E1 as (v & V & E1). apply obind_ret_inv in E2 as (v' & V' & E2). same V V'.
  apply obind_ret_inv in E1 as (l & V1 & E1). apply obind_ret_inv in E2 as (l' & V' & E2). same V1 V'.
  destruct (m_chal R m "aggregateNorms") as [r2 m2].
  apply obind_ret_inv in E1 as (v1 & V2 & E1). apply obind_ret_inv in E2 as (v1' & V' & E2). same V2 V'.
  apply obind_ret_inv in E1 as (q & V3 & E1). apply obind_ret_inv in E2 as (q' & V' & E2). same V3 V'.
  apply obind_ret_inv in E1 as (t & V4 & E1). apply obind_ret_inv in E2 as (t' & V' & E2). same V4 V'.
  destruct (splitPtxtVec t' (qidx q')) as [[as_ bs] w]. destruct (negb (int_of_size w =? pidx s2 WW)); [discriminate|].
  apply obind_ret_inv in E1 as (k & V5 & E1). apply obind_ret_inv in E2 as (k' & V5' & E2).
  pose proof (scale_ext _ _ _ _ _ _ _ _ HC V5 V5') as K.
  injection E1 as <- <-. injection E2 as <- <-. rewrite (sum_lin_ext _ _ K), (sum_quad_ext _ _ K).
  split; [reflexivity|]. split; [|reflexivity]. split; [reflexivity|exact K].
Qed.
(** What the aggregation returns for the verifier. *)
Lemma agg_pub (s1 s2 t1 t2 : pstate) w1 w2 a1 a2 : same_view s1 s2 ->
  aggregateProver R c pick s1 w1 = Ret (t1, a1) -> aggregateProver R c pick s2 w2 = Ret (t2, a2) -> pcom t1 WW = pcom t2 WW ->
  rv a1 = rv a2 /\ same_view t1 t2.
Proof.
  intros HV E1 E2 HW.
  apply (prv_inv c pick) in E1. destruct E1 as [u1 b1 m1 x1 rn1 g1 A1 _ _ G1 w w' B1 _ _ _ I1 K1 _ L1 N1 _ Z1 M1 ->].
  apply (prv_inv c pick) in E2. destruct E2 as [u2 b2 m2 x2 rn2 g2 A2 _ _ G2 v v' B2 _ _ _ I2 K2 _ L2 N2 _ Z2 M2 ->].
  destruct (ver1_pub _ _ _ _ _ _ HV A1 A2) as (<- & [_ HC] & HM).
  destruct HV as [HS _]. apply stmt_inv in HS as (J1 & J2 & J3 & J4 & J5).
  rewrite K1, K2 in HW. unfold upd in HW. destruct (var_eq_dec WW WW); [|easy].
  change (w' = v') in HW. fold w w' in B1, K1. fold v v' in B2, K2. rewrite HM, J1, HW, B2 in B1. injection B1 as <- <-.
  cbn [rv]. split; [reflexivity|]. split.
  - unfold statement. now rewrite I1, I2, L1, L2, N1, N2, Z1, Z2, M1, M2, J1, J2, J3, J4.
  - intros y. rewrite K1, K2, HW. apply upd_ext, HC.
Qed.
Lemma prep_pub (s1 s2 t1 t2 : pstate) w1 w2 d1 d2 : same_view s1 s2 ->
  prepareProofs R c pick s1 w1 = Ret (t1, d1) -> prepareProofs R c pick s2 w2 = Ret (t2, d2) -> pcom t1 WW = pcom t2 WW ->
  public d1 = public d2 /\ same_view t1 t2.
Proof.
  intros HV E1 E2 HW. unfold prepareProofs in *.
  apply obind_ret_inv in E1 as ([s1' a1] & A1 & E1). apply obind_ret_inv in E2 as ([s2' a2] & A2 & E2).
  apply obind_ret_inv in E1 as ([[s1a b1] [[g1 l1] k1]] & B1 & E1). apply obind_ret_inv in E2 as ([[s2a b2] [[g2 l2] k2]] & B2 & E2).
  unfold flattenLinPrv in B1, B2.
  destruct (negb (length (plinW s1') =? length (lterms (rlin (rv a1))))%nat); [discriminate|].
  destruct (negb (length (plinW s2') =? length (lterms (rlin (rv a2))))%nat); [discriminate|].
  apply obind_ret_inv in B1 as ([gs1 m1] & F1 & B1). apply obind_ret_inv in B2 as ([gs2 m2] & F2 & B2).
  injection B1 as <- <- <- <- <-. injection B2 as <- <- <- <- <-.
  apply obind_ret_inv in E1 as ([[s1b [[[qg1 qh1] og1] oh1]] [wg1 wh1]] & Q1 & E1).
  apply obind_ret_inv in E2 as ([[s2b [[[qg2 qh2] og2] oh2]] [wg2 wh2]] & Q2 & E2).
  unfold flattenQuadPrv in Q1, Q2. apply obind_ret_inv in Q1 as (x1 & X1 & Q1). apply obind_ret_inv in Q2 as (x2 & X2 & Q2).
  apply obind_ret_inv in Q1 as (y1 & _ & Q1). apply obind_ret_inv in Q2 as (y2 & _ & Q2).
  injection Q1 as <- -> ->. injection Q2 as <- -> ->. injection E1 as <- <-. injection E2 as <- <-.
  cbn [pcom pidx rquad rdG rdH] in HW, X1, X2.
  destruct (agg_pub _ _ _ _ _ _ _ _ HV A1 A2 HW) as [HR [HS HC]].
  unfold public. cbn [fmL fmQ flinCom fquadCom flinEq fquadEq flinGs flinStmnt fquadGs fquadHs foffG foffH rlinCom rquadCom rlin rquad leq].
  apply stmt_inv in HS as (J1 & J2 & J3 & J4 & J5). rewrite HR in *. rewrite J1 in X1. unfold flattenQuadVer in X1, X2. cbn [rquad rdG rdH] in X1, X2.
  same F1 F2. rewrite X2 in X1. injection X1 as -> -> -> ->. rewrite J5. split; [reflexivity|]. split; [|exact HC].
  unfold statement. cbn [pidx plin pnorm pz pmer]. now rewrite J1, J2, J3, J4.
Qed.
End P.

(** The second prover chooses the randomness of the commitment to w and the blinding
    values of the final proofs. *)
Section H.
Context {p : Z} (Hp : prime p) {ell : nat} {G : gmod p} {R : rmerlin G}.
Notation F := (Fp p).
Variable c : cfg ell G.
Variable pick : list (cursor p) -> nat.
Hypothesis Hpick : queue_order pick.
Hypothesis Hb : generates (cbase c).
Hypothesis Hc : wf_cfg c.
Hypothesis Hz : forall m l, fst (m_chal R m l) <> 0%F.
Notation pstate := (@pstate p ell G R).
Add Ring FHA : (@Fp_ring p).

Lemma mentioned_pub (s1 s2 : pstate) : statement s1 = statement s2 -> all_mentioned c s1 -> all_mentioned c s2.
Proof.
  intros HS. apply stmt_inv in HS as (J1 & J2 & J3 & J4 & J5). unfold all_mentioned, chal_lin, in_var, clen. now rewrite J1, J2, J5.
Qed.
(** All that the aggregation does with its randomness. *)
Lemma agg_wcom (st t : pstate) w a : aggregateProver R c pick st w = Ret (t, a) ->
  exists wG x, size_idx (cGs c) (pidx st WW) = Ret wG /\ pcom t WW = gadd (gmul (cbase c) w) (gmul wG x) /\
    forall w' t' a', aggregateProver R c pick st w' = Ret (t', a') -> pcom t' WW = gadd (gmul (cbase c) w') (gmul wG x).
Proof.
  intros E. apply (prv_inv c pick) in E. destruct E as [u1 b1 m1 x1 rn1 g1 A1 _ _ G1 v v' B1 _ _ _ I1 K1 _ L1 N1 _ Z1 M1 _].
  exists g1, v. split; [exact G1|]. split; [rewrite K1; unfold upd; now destruct (var_eq_dec WW WW)|].
  intros w' t' a' E'. apply (prv_inv c pick) in E'. destruct E' as [u2 b2 m2 x2 rn2 g2 A2 _ _ G2 y y' B2 _ _ _ I2 K2 _ L2 N2 _ Z2 M2 _].
  rewrite A1 in A2. rewrite G1 in G2. assert (b1 = b2) by congruence. assert (g1 = g2) by congruence. subst b2 g2.
  rewrite K2. unfold upd. now destruct (var_eq_dec WW WW).
Qed.
Lemma prep_total (st : pstate) w : set_up c st -> all_mentioned c st ->
  exists t a t' d, aggregateProver R c pick st w = Ret (t, a) /\ prepareProofs R c pick st w = Ret (t', d) /\ pcom t' = pcom t.
Proof.
  intros Hr Hm. destruct (rd_agg Hp c pick Hpick Hc st Hr Hm w) as [(t & a & E)|[E Z]]; [|exfalso; exact (Hz _ _ Z)].
  destruct (final Hp c pick Hpick st t w a (rd_wf c Hc st Hr) (rd_disj c Hc st Hr) E) as [f].
  destruct (prep_ok Hp c pick Hc st Hr Hm w t a f E) as (t' & E' & _ & E2 & _). eauto 8.
Qed.
Lemma prep_hide (s1 s2 t1 : pstate) w1 d1 : same_view s1 s2 -> set_up c s2 -> all_mentioned c s2 ->
  prepareProofs R c pick s1 w1 = Ret (t1, d1) ->
  exists w2 t2 d2, prepareProofs R c pick s2 w2 = Ret (t2, d2) /\ public d1 = public d2 /\ same_view t1 t2.
Proof.
  intros HV Hr Hm E1. destruct (prep_total s2 0%F Hr Hm) as (t0 & a0 & _ & _ & E0 & _).
  destruct (agg_wcom _ _ _ _ E0) as (wG & x & _ & _ & K).
  destruct Hb as [B _]. destruct (B (gadd (pcom t1 WW) (gopp (gmul wG x)))) as [w2 Hw].
  destruct (prep_total s2 w2 Hr Hm) as (t & a & t2 & d2 & A & E2 & C2).
  exists w2, t2, d2. split; [exact E2|]. apply (prep_pub c pick s1 s2 t1 t2 w1 w2 d1 d2 HV E1 E2).
  rewrite C2, (K _ _ _ A), Hw. gsolve.
Qed.
Lemma proofs_hide (d : flatdata R) pfs : valid_lin c d -> valid_quad c d ->
  (exists b, makeProofs c d b = Ret pfs) <-> accepted c d pfs.
Proof.
  intros (A1 & A2 & A3 & A4 & A5 & A6) (B1 & B2 & B3 & B4 & B5 & B6 & B7 & B8 & B9). destruct pfs as [pfL pfQ]. unfold makeProofs, accepted. cbn [fst snd].
  assert (A6' : flinCom d = gadd (gadd (gmul (cbase c) (flRnd d)) (gdot (flinGs d) (flinWtns d))) (offp (flinGs d) None)) by (rewrite A6; cbn [offp]; gsolve).
  split.
  - intros (b & E). apply obind_ret_inv in E as (l & EL & E). apply obind_ret_inv in E as (q & EQ & E). injection E as -> ->.
    destruct (linear_complete Hp (cbase c) R (flinWtns d) (flinStmnt d) (flinGs d) _ (flinEq d) (fmL d) None (flRnd d) (blL b) (blLS b) (flinCom d) A1 A2 A3 A4 eq_refl I A5 A6')
      as [[E' N]|(pf & E' & H1 & _ & _ & [H2|[_ N]])]; try (exfalso; exact (N Hz)).
    destruct (quadratic_complete Hp (cbase c) R (fqwG d) (fqwH d) (fquadGs d) (fquadHs d) _ (fquadEq d) (fmQ d) (Some (foffG d)) (Some (foffH d)) (fqRnd d) (blQ b) (blQST b) (blQUV b) (fquadCom d)
      B1 B2 B4 B5 eq_refl B3 B6 B7 B8 B9) as [[E'' N]|(pf' & E'' & H3 & _ & _ & H4)]; [exfalso; exact (N Hz)|].
    assert (pf = pfL) by congruence. assert (pf' = pfQ) by congruence. subst. auto.
  - intros (H1 & H2 & H3 & H4).
    destruct (linear_hit Hp (cbase c) Hb R (flinWtns d) (flinStmnt d) (flinGs d) _ (flinEq d) (fmL d) None (flRnd d) (flinCom d) pfL A1 A2 A3 A4 eq_refl I A5 A6' H1 H3) as (bl & blS & EL).
    destruct (quadratic_hit Hp (cbase c) Hb R (fqwG d) (fqwH d) (fquadGs d) (fquadHs d) _ (fquadEq d) (fmQ d) (Some (foffG d)) (Some (foffH d)) (fqRnd d) (fquadCom d) pfQ
      B1 B2 B4 B5 eq_refl B3 B6 B7 B8 B9 (chal_ok_last R (fmQ d) _ pfQ Hz) H2 H4) as (bq & bqs & bqu & EQ).
    exists (Bl bl blS bq bqs bqu). cbn [blL blLS blQ blQST blQUV]. rewrite EL. cbn [obind]. rewrite EQ. reflexivity.
Qed.
Lemma accepted_pub (d1 d2 : flatdata R) pfs : public d1 = public d2 -> accepted c d1 pfs -> accepted c d2 pfs.
Proof.
  intros H. unfold public in H. unfold accepted.
  assert (K1 : fmL d1 = fmL d2) by exact (f_equal (fun x => fst (fst (fst (fst (fst (fst (fst x))))))) H).
  assert (K2 : fmQ d1 = fmQ d2) by exact (f_equal (fun x => snd (fst (fst (fst (fst (fst (fst x))))))) H).
  assert (K3 : flinCom d1 = flinCom d2) by exact (f_equal (fun x => snd (fst (fst (fst (fst (fst x)))))) H).
  assert (K4 : fquadCom d1 = fquadCom d2) by exact (f_equal (fun x => snd (fst (fst (fst (fst x))))) H).
  assert (K5 : flinEq d1 = flinEq d2) by exact (f_equal (fun x => snd (fst (fst (fst x)))) H).
  assert (K6 : fquadEq d1 = fquadEq d2) by exact (f_equal (fun x => snd (fst (fst x))) H).
  assert (K7 : (flinGs d1, flinStmnt d1) = (flinGs d2, flinStmnt d2)) by exact (f_equal (fun x => snd (fst x)) H).
  assert (K8 : (fquadGs d1, fquadHs d1, foffG d1, foffH d1) = (fquadGs d2, fquadHs d2, foffG d2, foffH d2)) by exact (f_equal snd H).
  assert (K9 : flinGs d1 = flinGs d2) by exact (f_equal fst K7). assert (K10 : flinStmnt d1 = flinStmnt d2) by exact (f_equal snd K7).
  assert (K11 : fquadGs d1 = fquadGs d2) by exact (f_equal (fun x => fst (fst (fst x))) K8). assert (K12 : fquadHs d1 = fquadHs d2) by exact (f_equal (fun x => snd (fst (fst x))) K8).
  assert (K13 : foffG d1 = foffG d2) by exact (f_equal (fun x => snd (fst x)) K8). assert (K14 : foffH d1 = foffH d2) by exact (f_equal snd K8).
  clear H K7 K8. now rewrite K1, K2, K3, K4, K5, K6, K9, K10, K11, K12, K13, K14.
Qed.
(** Everything together. *)
Lemma final_hide (s1 s2 t1 : pstate) w1 d1 pfs : same_view s1 s2 -> ready c s2 -> all_mentioned c s2 ->
  prepareProofs R c pick s1 w1 = Ret (t1, d1) -> accepted c d1 pfs ->
  exists w2 t2 d2 b2, prepareProofs R c pick s2 w2 = Ret (t2, d2) /\ public d1 = public d2 /\ same_view t1 t2 /\ makeProofs c d2 b2 = Ret pfs.
Proof.
  intros HV [Hr Hh] Hm E1 HA. destruct (prep_hide s1 s2 t1 w1 d1 HV Hr Hm E1) as (w2 & t2 & d2 & E2 & HP & HV2).
  destruct (flat_valid Hp c pick Hpick Hc s2 Hr Hm w2 t2 d2 E2 Hh) as [VL VQ].
  destruct (proj2 (proofs_hide d2 pfs VL VQ) (accepted_pub d1 d2 pfs HP HA)) as [b2 E3]. exists w2, t2, d2, b2. auto.
Qed.
End H.
