(** What the aggregated constraints say about arbitrary openings. *)
From Coq Require Import String.
From Coq Require Import ZArith Znumtheory List Bool Lia Ring Field Permutation.
From Verif Require Import NumTheory Outcome Fp FSum GroupMod Ring ConstraintsModel ConstraintsSpec ConstraintsProofs ConstraintsMerge
  ConstraintsOther BulletproofModel RegevPfModel RegevPfSpec RegevStSpec
  RegevAggModel RegevAggSpec RegevAggMaps RegevAggProofs RegevAggForge RegevSoundSpec.
Import ListNotations.
Open Scope Z_scope.

Section Alg.
Context {p : Z} (Hp : prime p).
Notation F := (Fp p).
Add Field FpFldS : (Fp_field Hp).
Lemma quad_expand2 (X Y A U : Z -> F) (r : F) I :
  fsum (map (fun k => ((X k + r * A k + U k) * (Y k - U k))%F) I) =
  (fsum (map (fun k => (X k * Y k)%F) I) - fsum (map (fun k => (U k * U k)%F) I)
   + r * (fsum (map (fun k => (A k * Y k)%F) I) - fsum (map (fun k => (A k * U k)%F) I))
   + fsum (map (fun k => (U k * (Y k - X k))%F) I))%F.
Proof. induction I as [|k I IH]; cbn [map fsum]; [ring|]. rewrite IH. ring. Qed.
Lemma powers_S (r : F) n : powers r (S n) = 1%F :: map (fmul r) (powers r n).
Proof. unfold powers. cbn [seq map]. f_equal. rewrite <- seq_shift, !map_map. reflexivity. Qed.
Lemma powers_peval {A} (f : A -> F) (l : list A) (r : F) :
  fsum (map (fun e => (snd e * f (fst e))%F) (combine l (powers r (length l)))) = peval (map f l) r.
Proof.
  assert (H : forall (c : F) (l : list A) (rs : list F),
     fsum (map (fun e => (snd e * f (fst e))%F) (combine l (map (fmul c) rs))) = (c * fsum (map (fun e => (snd e * f (fst e))%F) (combine l rs)))%F).
  { intros c. induction l0 as [|a l0 IH]; intros [|x rs]; cbn; try ring. rewrite IH. ring. }
  induction l as [|a l IH]; [reflexivity|]. cbn [length]. rewrite powers_S. cbn [combine map fsum fst snd peval]. rewrite H, IH. ring.
Qed.
Lemma powers_peval2 {A} (f : A -> F) (l : list A) (r : F) :
  fsum (map (fun e => (f (fst e) * snd e * snd e)%F) (combine l (powers r (length l)))) = peval (map f l) (r * r)%F.
Proof.
  assert (H : forall (c : F) (l : list A) (rs : list F),
     fsum (map (fun e => (f (fst e) * snd e * snd e)%F) (combine l (map (fmul c) rs))) = (c * c * fsum (map (fun e => (f (fst e) * snd e * snd e)%F) (combine l rs)))%F).
  { intros c. induction l0 as [|a l0 IH]; intros [|x rs]; cbn; try ring. rewrite IH. ring. }
  induction l as [|a l IH]; [reflexivity|]. cbn [length]. rewrite powers_S. cbn [combine map fsum fst snd peval]. rewrite H, IH. ring.
Qed.
Lemma peval_uof (f : Z -> F) I u : NoDup I -> fsum (map (fun k => (uof I (powers u (length I)) k * f k)%F) I) = peval (map f I) u.
Proof.
  intros Hn. rewrite <- powers_peval. pose proof (map_uof Hp I (powers u (length I)) Hn ltac:(now rewrite powers_length)) as H.
  set (U := uof I (powers u (length I))) in *. rewrite <- H. clear.
  generalize U. intros V. induction I as [|k I IH]; [reflexivity|]. cbn [map combine fsum fst snd]. now rewrite IH.
Qed.
Lemma zinsert_all_sorted l : forall s, zsorted s -> zsorted (fold_left zinsert l s) /\ (forall k, In k (fold_left zinsert l s) <-> In k s \/ In k l).
Proof.
  induction l as [|x l IH]; intros s Hs; cbn [fold_left]; [split; [exact Hs|]; intros k; cbn; tauto|].
  destruct (IH (zinsert s x)) as [A B]; [now apply zinsert_sorted|]. split; [exact A|]. intros k. rewrite B, in_zinsert. cbn. intuition.
Qed.
Definition dbl (l : list F) : list F := flat_map (fun c => [c; 0%F]) l.
Lemma peval_dbl l x : peval (dbl l) x = peval l (x * x)%F.
Proof. induction l as [|c l IH]; [reflexivity|]. cbn [dbl flat_map app peval] in *. unfold dbl in IH. rewrite IH. ring. Qed.
Lemma length_dbl l : length (dbl l) = (2 * length l)%nat.
Proof. unfold dbl. induction l as [|c l IH]; [reflexivity|]. cbn [flat_map app length]. rewrite IH. lia. Qed.
Lemma pzero_dbl l : pzero (dbl l) -> pzero l.
Proof. unfold pzero, dbl. intros H. rewrite Forall_forall in *. intros x Hx. apply H. apply in_flat_map. exists x. split; [exact Hx|now left]. Qed.
Lemma scaleof_in qs : forall rs q (r : F) k, all_disjoint qs -> In (q, r) (combine qs rs) -> In k (qidx q) -> scaleof qs rs k = r.
Proof.
  induction qs as [|q0 qs IH]; intros [|r0 rs] q r k Hd Hin Hk; cbn [combine] in Hin; try destruct Hin.
  - injection H as -> ->. cbn [scaleof]. now rewrite (proj2 (zmem_In _ _) Hk).
  - cbn [all_disjoint] in Hd. destruct Hd as [D1 D2]. cbn [scaleof].
    destruct (zmem (qidx q0) k) eqn:E; [|now apply (IH rs q)].
    exfalso. apply zmem_In in E. apply in_combine_l in H. exact (D1 k q H E Hk).
Qed.
End Alg.

Section Res.
Context {p : Z} (Hp : prime p) {ell : nat} {G : gmod p} {R : rmerlin G}.
Notation F := (Fp p).
Add Field FpFldS2 : (Fp_field Hp).
Variable c : cfg ell G.
Variable pick : list (cursor p) -> nat.
Hypothesis Hpick : queue_order pick.
Notation pstate := (@pstate p ell G R).
Section Fixed.
Variables (st st' : pstate) (wRnd : F) (ap : rtp G).
Hypothesis Hwf : wf_system st.
Hypothesis Hd : all_disjoint (pnorm st).
Hypothesis Hne : Forall (fun con => lterms con <> [] \/ leq con = 0%F) (plin st).
Notation W := (pidx st WW).
Variable f : fin c pick st st' wRnd ap.
Notation a := (fn_a c pick st st' wRnd ap f).
Notation I := (fn_I c pick st st' wRnd ap f).
Notation V := (fn_V c pick st st' wRnd ap f).
Notation U := (fn_U c pick st st' wRnd ap f).
Notation rho := (fn_rho c pick st st' wRnd ap f).
Lemma idx_eq : I = norm_idx st.
Proof.
  destruct (zinsert_all_sorted (flat_map qidx (pnorm st)) [] Logic.I) as [A B].
  apply zsorted_same; [exact (so_qsorted _ _ (fn_S _ _ _ _ _ _ f))|exact A|].
  intros k. unfold norm_idx. rewrite B. unfold fn_I. rewrite (so_qidx _ _ (fn_S _ _ _ _ _ _ f) k), in_flat_map. cbn. intuition.
Qed.
Lemma scale_at q r k : In (q, r) (combine (pnorm st) (powers (chal_norm st) (length (pnorm st)))) -> In k (qidx q) -> scale st (chal_norm st) k = r.
Proof. intros A B. unfold scale. eapply scaleof_in; eassumption. Qed.
Lemma residual_eq (g y : Z -> F) w : lin_sat (rlin (rv ap)) (lvalG st y w) ->
  (quad_val (qidx (rquad (rv ap))) (qvalG st (rv ap) g w) (qvalH st (rv ap) y) - qeq (rquad (rv ap)))%F
  = residual st g y (chal_lin st) (chal_norm st) (chal_u st) (chal_rho st).
Proof.
  intros HL. pose proof (fn_S _ _ _ _ _ _ f) as S. pose proof Hwf as (_ & _ & HLw & HN & _ & _).
  assert (HIW : forall k, In k I -> k <> W) by (intros k Hk ->; pose proof (proj2 (so_lt _ _ S W (or_intror Hk))); lia).
  assert (HbW : forall k, In k (keys (rbs a)) -> k <> W) by (intros k Hk ->; pose proof (fin_bs_lt c pick st st' wRnd ap f W Hk); lia).
  assert (Hnd : NoDup I) by (apply zsorted_NoDup; exact (so_qsorted _ _ S)).
  (* w is the value of the linear part *)
  assert (Hw : w = lin_val (rbs a) y).
  { unfold lin_sat in HL. rewrite (fn_lin _ _ _ _ _ _ f) in HL. cbn [lterms leq] in HL. rewrite lin_val_app in HL.
    rewrite (lin_val_ext _ _ y) in HL. 2:{ intros k Hk. unfold lvalG. now rewrite (proj2 (Z.eqb_neq k W)) by (now apply HbW). }
    unfold lin_val at 2 in HL. cbn [map fsum fst snd] in HL. unfold lvalG in HL. rewrite Z.eqb_refl in HL.
    transitivity (lin_val (rbs a) y - (lin_val (rbs a) y + ((- (1)) * w + 0)))%F; [ring|]. rewrite HL. ring. }
  set (X := fun k => (scale st (chal_norm st) k * g k)%F). set (Y := fun k => (scale st (chal_norm st) k * y k)%F).
  assert (HV : (fsum (map (fun k => coef (ras a) k * Y k) I) + lin_val (rbs a) y)%F = lin_val (lterms (v1_lin _ _ _ _ V)) y).
  { apply (v1_val Hp pick Hpick st Hwf Hd). intros q r k Hin Hk. rewrite (v1_rVec _ _ _ _ V) in Hin. unfold Y. now rewrite (scale_at q r k Hin Hk). }
  assert (HLm : (lin_val (lterms (v1_lin _ _ _ _ V)) y - leq (v1_lin _ _ _ _ V))%F = peval (lin_residuals st y) (chal_lin st)).
  { rewrite (lin_merge_val pick Hpick (plin st) (powers (chal_lin st) (length (plin st))) _ y ltac:(now rewrite powers_length) HLw (v1_merge _ _ _ _ V)).
    destruct (lin_merge_spec pick Hpick (plin st) (powers (chal_lin st) (length (plin st)))) as (m' & EM & _ & _ & _ & EL); [now rewrite powers_length|exact HLw|].
    rewrite (v1_merge _ _ _ _ V) in EM. injection EM as <-. rewrite EL, merge_eq_full by exact Hne. unfold comb_rhs.
    rewrite <- fsum_map_sub. unfold lin_residuals. rewrite <- (powers_peval Hp). apply fsum_map_ext. intros e _. unfold lin_res. ring. }
  assert (HQm : (quad_val I X Y - qeq (rquad a))%F = peval (norm_residuals st g y) (chal_norm st * chal_norm st)%F).
  { destruct (quad_merge_spec (pnorm st) (powers (chal_norm st) (length (pnorm st)))) as (m' & EM & _ & _ & EQ & EV); [now rewrite powers_length|exact HN|].
    rewrite (v1_qmerge _ _ _ _ V) in EM. injection EM as <-. unfold fn_I. rewrite (EV Hd), EQ.
    transitivity (fsum (map (fun e : quadcon p * F => quad_val (qidx (fst e)) X Y) (combine (pnorm st) (powers (chal_norm st) (length (pnorm st)))))
      - fsum (map (fun e : quadcon p * F => qeq (fst e) * snd e * snd e) (combine (pnorm st) (powers (chal_norm st) (length (pnorm st))))))%F.
    - f_equal. assert (L : length (pnorm st) = length (powers (chal_norm st) (length (pnorm st)))) by now rewrite powers_length.
      clear -L. revert L. generalize (powers (chal_norm st) (length (pnorm st))). induction (pnorm st) as [|q qs IH]; intros [|r rs] L; try discriminate; [reflexivity|].
      cbn [map combine fsum fst]. rewrite (IH rs) by (cbn in L; lia). reflexivity.
    - unfold norm_residuals. rewrite <- (powers_peval2 Hp), <- fsum_map_sub. apply fsum_map_ext. intros [q r] Hin. cbn [fst snd]. unfold norm_res.
      assert (E : quad_val (qidx q) X Y = (quad_val (qidx q) g y * r * r)%F).
      { unfold quad_val. rewrite <- !fsum_map_scale_r. apply fsum_map_ext. intros k Hk. unfold X, Y. rewrite (scale_at q r k Hin Hk). ring. }
      rewrite E. ring. }
  unfold residual. rewrite <- HQm, <- HLm, <- HV. unfold gaps. rewrite <- idx_eq, <- (peval_uof Hp) by exact Hnd.
  rewrite <- (fn_Ueq _ _ _ _ _ _ f), <- (fn_rhoeq _ _ _ _ _ _ f).
  rewrite (fn_idx _ _ _ _ _ _ f), (fn_qeq _ _ _ _ _ _ f), quad_val_app. unfold quad_val at 2. cbn [map fsum].
  assert (EG : qvalG st (rv ap) g w W = w).
  { unfold qvalG. rewrite Z.eqb_refl, (fn_dG _ _ _ _ _ _ f), coef_app. rewrite (coef_notin W (map _ _)) by (rewrite keys_mapk; intros K; now apply HIW in K).
    rewrite coef_cons, Z.eqb_refl, coef_nil. ring. }
  assert (EH : qvalH st (rv ap) y W = rho).
  { unfold qvalH. rewrite Z.eqb_refl, (fn_dH _ _ _ _ _ _ f), coef_app. rewrite (coef_notin W (map _ _)) by (rewrite keys_mapk; intros K; now apply HIW in K).
    rewrite coef_cons, Z.eqb_refl, coef_nil. ring. }
  rewrite EG, EH. unfold quad_val.
  rewrite (fsum_map_ext _ (fun k => ((X k + rho * coef (ras a) k + U k) * (Y k - U k))%F)).
  - rewrite (quad_expand2 Hp). rewrite Hw.
    rewrite (fsum_map_ext (fun k => (U k * (Y k - X k))%F) (fun k => (U k * (scale st (chal_norm st) k * (y k - g k)))%F)) by (intros k _; unfold X, Y; ring).
    ring.
  - intros k Hk. unfold qvalG, qvalH. rewrite !(proj2 (Z.eqb_neq k W)) by (now apply HIW). rewrite (fn_dG _ _ _ _ _ _ f), (fn_dH _ _ _ _ _ _ f), !coef_app, !coef_mapk by assumption.
    rewrite !coef_cons, !(proj2 (Z.eqb_neq W k)), !coef_nil by (intros E; symmetry in E; now apply HIW in E). unfold X, Y. ring.
Qed.
End Fixed.

(** How often the residual vanishes. *)
Section Count.
Variables (st : pstate) (g y : Z -> F).
Lemma count_lin rls : ~ Forall (fun con => lin_sat con y) (plin st) -> NoDup rls -> Forall (fun rl => peval (lin_residuals st y) rl = 0%F) rls ->
  (length rls < length (plin st))%nat.
Proof.
  intros Hv Hn Hz. pose proof (root_bound Hp (lin_residuals st y) rls) as H. unfold lin_residuals at 3 in H. rewrite map_length in H. apply H; try assumption.
  intros Z. apply Hv. unfold pzero, lin_residuals in Z. rewrite Forall_map in Z. eapply Forall_impl; [|exact Z]. intros con E. exact (proj1 (fsub_eq_0 _ _) E).
Qed.
Lemma one_rho rl rn u r1 r2 : peval (lin_residuals st y) rl <> 0%F -> residual st g y rl rn u r1 = 0%F -> residual st g y rl rn u r2 = 0%F -> r1 = r2.
Proof.
  intros Hl H1 H2. unfold residual in *. set (L := peval (lin_residuals st y) rl) in *.
  assert (E : ((r1 - r2) * L)%F = 0%F).
  { match type of H1 with (?A + ?B + _)%F = _ => transitivity ((A + B + r1 * L) - (A + B + r2 * L))%F; [ring|]; rewrite H1, H2; ring end. }
  apply (fmul_eq_0 Hp) in E as [E|E]; [exact (proj1 (fsub_eq_0 _ _) E)|contradiction].
Qed.
Lemma lin_zero : Forall (fun con => lin_sat con y) (plin st) -> forall rl, peval (lin_residuals st y) rl = 0%F.
Proof.
  intros H rl. apply peval_pzero. unfold pzero, lin_residuals. rewrite Forall_map. eapply Forall_impl; [|exact H]. intros con E. unfold lin_res. rewrite E. ring.
Qed.
Lemma gap_zero rn : (forall k, In k (norm_idx st) -> g k = y k) -> forall u, peval (gaps st g y rn) u = 0%F.
Proof.
  intros H u. apply peval_pzero. unfold pzero, gaps. rewrite Forall_map. apply Forall_forall. intros k Hk. rewrite (H k Hk). ring.
Qed.
Lemma scale_nz rn k : rn <> 0%F -> In k (norm_idx st) -> scale st rn k <> 0%F.
Proof.
  intros Hr Hk. destruct (zinsert_all_sorted (flat_map qidx (pnorm st)) [] Logic.I) as [_ B]. apply B in Hk as [[]|Hk]. apply in_flat_map in Hk as (q & Hq & Hk).
  clear B. unfold scale. assert (H : forall x, In x (powers rn (length (pnorm st))) -> x <> 0%F) by (intros x Hx; apply (powers_in Hp) in Hx; assumption).
  assert (L : length (pnorm st) = length (powers rn (length (pnorm st)))) by now rewrite powers_length.
  revert H L. generalize (powers rn (length (pnorm st))). induction (pnorm st) as [|q0 qs IH]; intros [|r rs] H L; cbn in L; try discriminate; [destruct Hq|].
  cbn [scaleof]. destruct (zmem (qidx q0) k) eqn:E; [apply H; now left|]. destruct Hq as [->|Hq]; [now apply zmem_false in E|].
  refine (IH Hq rs _ _); [intros x Hx; apply H; now right|lia].
Qed.
Lemma count_u rl rn rho us k0 ks k : Forall (fun con => lin_sat con y) (plin st) -> rn <> 0%F ->
  norm_idx st = k0 :: ks -> In k ks -> g k <> y k ->
  NoDup us -> Forall (fun u => residual st g y rl rn u rho = 0%F) us -> (length us < length (norm_idx st))%nat.
Proof.
  intros HL Hr EI Hk Hgy Hn Hz.
  set (l := (peval (norm_residuals st g y) (rn * rn) + scale st rn k0 * (y k0 - g k0))%F :: map (fun k => (scale st rn k * (y k - g k))%F) ks).
  pose proof (root_bound Hp l us) as H. unfold l at 3 in H. cbn [length] in H. rewrite map_length in H. rewrite EI. cbn [length]. apply H; [|exact Hn|].
  - intros Z. inversion_clear Z as [|? ? _ Z']. rewrite Forall_map in Z'. rewrite Forall_forall in Z'. specialize (Z' k Hk).
    apply (fmul_eq_0 Hp) in Z' as [Z'|Z']; [|apply Hgy; symmetry; exact (proj1 (fsub_eq_0 _ _) Z')].
    revert Z'. apply scale_nz; [exact Hr|]. rewrite EI. now right.
  - eapply Forall_impl; [|exact Hz]. intros u E. unfold residual in E. rewrite lin_zero in E by exact HL. unfold gaps in E. rewrite EI in E.
    unfold l. cbn [peval map] in *. rewrite <- E. ring.
Qed.
Lemma count_rn rl u rho rns : Forall (fun con => lin_sat con y) (plin st) -> (forall k, In k (norm_idx st) -> g k = y k) ->
  ~ Forall (fun q => quad_sat q g y) (pnorm st) ->
  NoDup rns -> Forall (fun rn => residual st g y rl rn u rho = 0%F) rns -> (length rns < 2 * length (pnorm st))%nat.
Proof.
  intros HL Hg Hv Hn Hz. pose proof (root_bound Hp (dbl (norm_residuals st g y)) rns) as H. rewrite length_dbl in H. unfold norm_residuals at 3 in H. rewrite map_length in H.
  apply H; [|exact Hn|].
  - intros Z. apply pzero_dbl in Z. apply Hv. unfold pzero, norm_residuals in Z. rewrite Forall_map in Z. eapply Forall_impl; [|exact Z]. intros q E. exact (proj1 (fsub_eq_0 _ _) E).
  - eapply Forall_impl; [|exact Hz]. intros rn E. unfold residual in E. rewrite lin_zero, gap_zero in E by assumption. rewrite (peval_dbl Hp), <- E. ring.
Qed.
End Count.
(** The first variable. *)
Definition bump (y : Z -> F) (k0 : Z) (t : F) : Z -> F := fun k => if k =? k0 then (y k + t)%F else y k.
Lemma first_free (st : pstate) (y : Z -> F) q qs k0 ks : pnorm st = q :: qs -> norm_idx st = k0 :: ks -> In k0 (qidx q) -> wf_quad q -> all_disjoint (pnorm st) ->
  NoDup (norm_idx st) -> y k0 <> 1%F -> Forall (fun con => lin_sat con y) (plin st) -> Forall (fun q => quad_sat q y y) qs ->
  let t := ((qeq q - quad_val (qidx q) y y) * finv (y k0 - 1))%F in
  forall rl rn u rho, residual st (bump y k0 t) y rl rn u rho = 0%F.
Proof.
  intros EN EI Hk Hq Hd Hnd Hy HL HQ t rl rn u rho. unfold residual. rewrite lin_zero by exact HL.
  assert (Hy' : (y k0 - 1)%F <> 0%F) by (intros E; exact (Hy (proj1 (fsub_eq_0 _ _) E))).
  unfold gaps, norm_residuals. rewrite EI, EN. cbn [map peval].
  assert (E1 : scale st rn k0 = 1%F). { unfold scale. rewrite EN. cbn [length]. rewrite powers_S. cbn [scaleof]. now rewrite (proj2 (zmem_In _ _) Hk). }
  rewrite EI in Hnd. inversion Hnd as [|? ? Hk0 _]; subst.
  rewrite (peval_pzero (map (fun k => (scale st rn k * (y k - bump y k0 t k))%F) ks)).
  2:{ unfold pzero. rewrite Forall_map. apply Forall_forall. intros k Hks. unfold bump. rewrite (proj2 (Z.eqb_neq k k0)) by (intros ->; contradiction). ring. }
  rewrite (peval_pzero (map (fun q => norm_res q (bump y k0 t) y) qs)).
  2:{ unfold pzero. rewrite Forall_map. rewrite EN in Hd. cbn [all_disjoint] in Hd. destruct Hd as [Hd _]. rewrite Forall_forall in HQ. apply Forall_forall. intros q' Hq'.
      unfold norm_res. rewrite <- (HQ q' Hq'). unfold quad_val.
      rewrite (fsum_map_ext (fun k => (bump y k0 t k * y k)%F) (fun k => (y k * y k)%F)); [ring|]. intros k Hkq. unfold bump.
      rewrite (proj2 (Z.eqb_neq k k0)); [reflexivity|]. intros ->. exact (Hd k0 q' Hq' Hk Hkq). }
  assert (E2 : forall s, quad_val (qidx q) (bump y k0 s) y = (quad_val (qidx q) y y + s * y k0)%F).
  { intros s. unfold quad_val. assert (Hn : NoDup (qidx q)) by now apply zsorted_NoDup. clear -Hn Hk Hp. induction (qidx q) as [|x l IH]; [destruct Hk|].
    cbn [map fsum]. inversion Hn; subst. destruct Hk as [->|Hk].
    - rewrite (fsum_map_ext (fun k => (bump y k0 s k * y k)%F) (fun k => (y k * y k)%F)).
      + unfold bump. rewrite Z.eqb_refl. ring.
      + intros k Hk. unfold bump. rewrite (proj2 (Z.eqb_neq k k0)) by (intros ->; contradiction). reflexivity.
    - rewrite IH by assumption. unfold bump. rewrite (proj2 (Z.eqb_neq x k0)) by (intros ->; contradiction). ring. }
  unfold norm_res. rewrite E1, E2. unfold bump. rewrite Z.eqb_refl. unfold t. field. exact Hy'.
Qed.
End Res.
