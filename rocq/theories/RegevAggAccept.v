(** Both aggregated proofs are accepted. *)
From Coq Require Import String.
From Coq Require Import ZArith Znumtheory List Bool Lia Ring Field Permutation.
From Verif Require Import NumTheory Outcome Fp FSum GroupMod Ring ConstraintsModel ConstraintsSpec ConstraintsProofs ConstraintsMerge
  ConstraintsOther PedersenModel BulletproofModel BulletproofSpec BulletproofProofs BulletproofQuad TernaryModel RegevModel RegevPfModel RegevPfSpec RegevPfBase RegevStSpec
  RegevAggModel RegevAggSpec RegevAggMaps RegevPfPost RegevAggProofs RegevAggTotal RegevAggOpen.
Import ListNotations.
Open Scope Z_scope.

Section Flat.
Context {p : Z} (Hp : prime p) {ell : nat} {G : gmod p} {R : rmerlin G}.
Notation F := (Fp p).
Add Field FpFld : (Fp_field Hp).
Variable c : cfg ell G.
Lemma flat_gs (l : pvec p) : (forall k, In k (keys l) -> 0 <= k < Z.of_nat (length (cGs c))) ->
  omapM (fun e => size_idx (cGs c) (fst e)) l = Ret (map (gen (cGs c)) (keys l)).
Proof.
  induction l as [|[k x] l IH]; intros H; [reflexivity|]. cbn [omapM fst]. rewrite (size_idx_ok _ _ gzero) by (apply H; now left).
  cbn [obind]. rewrite IH by (intros j Hj; apply H; now right). reflexivity.
Qed.
Definition hgen (W : Z) (n : nat) (k : Z) : G := if k =? W then nth (n - 1) (cHs c) gzero else gen (cHs c) k.
Lemma flatQ_spec W (dG dH : pvec p) : forall idxs n, (forall k, In k idxs -> k < W /\ 0 <= k < Z.of_nat (length (cGs c)) /\ k < Z.of_nat (length (cHs c))) ->
  0 <= W < Z.of_nat (length (cGs c)) -> (1 <= n + length idxs <= length (cHs c))%nat ->
  flatQ_loop c W dG dH (idxs ++ [W]) n = Ret (map (gen (cGs c)) (idxs ++ [W]), map (hgen W (n + length idxs)) (idxs ++ [W]), map (kget dG) (idxs ++ [W]), map (kget dH) (idxs ++ [W])).
Proof.
  induction idxs as [|k idxs IH]; intros n H HW Hn; cbn [app flatQ_loop map].
  - rewrite (size_idx_ok _ _ gzero) by exact HW. cbn [obind]. rewrite Z.eqb_refl. cbn [negb length] in *.
    rewrite (size_idx_ok _ _ gzero) by lia. cbn [obind]. unfold hgen. rewrite Z.eqb_refl. rewrite Nat.add_0_r.
    replace (Z.to_nat (Z.of_nat n - 1)) with (n - 1)%nat by lia. reflexivity.
  - destruct (H k (or_introl eq_refl)) as (A1 & A2 & A3). rewrite (size_idx_ok _ _ gzero) by exact A2. cbn [obind].
    rewrite (proj2 (Z.eqb_neq k W)) by lia. cbn [negb]. rewrite (size_idx_ok _ _ gzero) by lia. cbn [obind].
    rewrite IH; [|intros j Hj; apply H; now right|exact HW|cbn [length] in Hn; lia]. cbn [obind].
    cbn [length]. replace (S n + length idxs)%nat with (n + S (length idxs))%nat by lia.
    assert (E : hgen W (n + S (length idxs)) k = nth (Z.to_nat k) (cHs c) gzero) by (unfold hgen; now rewrite (proj2 (Z.eqb_neq k W)) by lia).
    rewrite E. reflexivity.
Qed.
Lemma flat_lock_spec (a b : pvec p) : keys a = keys b -> flat_lock a b = Ret (map snd a, map snd b).
Proof.
  revert b. induction a as [|[k x] a IH]; intros [|[k' y] b] H; cbn in H; try discriminate; [reflexivity|].
  injection H as -> H. cbn [flat_lock map snd]. rewrite Z.eqb_refl, IH by exact H. reflexivity.
Qed.
Lemma snd_map_coef (a : pvec p) : NoDup (keys a) -> map snd a = map (coef a) (keys a).
Proof.
  induction a as [|[k x] a IH]; intros H; [reflexivity|]. cbn [keys map fst snd] in *. inversion H as [|? ? H1 H2]; subst. f_equal.
  - rewrite coef_cons, Z.eqb_refl, coef_notin by exact H1. ring.
  - fold (keys a) in *. rewrite IH by exact H2. apply map_ext_in. intros j Hj. rewrite coef_cons.
    destruct (k =? j) eqn:E; [apply Z.eqb_eq in E; subst; contradiction|]. ring.
Qed.
End Flat.

Section Accept.
Context {p : Z} (Hp : prime p) {ell : nat} {G : gmod p} {R : rmerlin G}.
Notation F := (Fp p).
Add Field FpFld2 : (Fp_field Hp).
Variable c : cfg ell G.
Variable pick : list (cursor p) -> nat.
Hypothesis Hpick : queue_order pick.
Notation pstate := (@pstate p ell G R).
Hypothesis Hc : wf_cfg c.
Variable st : pstate.
Hypothesis Hr : set_up c st.
Hypothesis Hm : all_mentioned c st.
Notation W := (pidx st WW).
Variable wRnd : F.

Definition rng (x : var) : list Z := zrange (pidx st x) (Z.to_nat (clen c x)).
Lemma in_rng x k : In k (rng x) <-> in_var c st x k.
Proof. unfold rng. rewrite in_zrange. pose proof (clen_pos c Hc x). unfold in_var. rewrite Z2Nat.id by lia. reflexivity. Qed.
Lemma rng_flat L : NoDup L -> NoDup (flat_map rng L).
Proof.
  intros H. apply NoDup_flat; [exact H|intros; apply NoDup_zrange|]. intros x y k A B. apply in_rng in A, B. exact (rd_uniq c Hc st Hr x y k A B).
Qed.
Definition lvars := [Pt1; Sk1; Pt2; RR; Sk2; YY].
Lemma lvars_spec x : In x lvars <-> is_norm x = false /\ x <> WW.
Proof. unfold lvars. split; [intros H; repeat (destruct H as [<-|H]; [split; [reflexivity|discriminate]|]); destruct H|]. intros [A B]. destruct x; cbn; auto 10; try discriminate. Qed.

(** Commitments in terms of the recorded witness. *)
Lemma com1_at x : is_norm x = false -> x <> WW -> pcom st x = gadd (gmul (cbase c) (prnd st x)) (atk (gen (cGs c)) (coef (plinW st)) (rng x)).
Proof.
  intros E N. destruct Hr as (_ & _ & _ & _ & _ & _ & _ & C1 & _). destruct (C1 x E N) as (v & L & (A & B) & S & _).
  rewrite B. f_equal. rewrite (gdot_range _ _ _ (coef (plinW st))).
  - unfold rng. now rewrite <- L, Nat2Z.id.
  - exact (lay_pos c Hc _ (rd_lay c st Hr) x).
  - exact A.
  - intros j Hj. apply (S j Hj).
Qed.
Lemma com2_at x : is_norm x = true -> pcom st x = gadd (gmul (cbase c) (prnd st x))
    (gadd (atk (gen (cGs c)) (coef (plinW st)) (rng x)) (atk (gen (cHs c)) (coef (plinW st)) (rng x))).
Proof.
  intros E. destruct Hr as (_ & _ & _ & _ & _ & _ & C2 & _). destruct (C2 x E) as (v & L & (A & A' & B) & S & _).
  rewrite B. f_equal. rewrite !(gdot_range _ _ _ (coef (plinW st))); try exact (lay_pos c Hc _ (rd_lay c st Hr) x); try assumption; try (intros j Hj; apply (S j Hj)).
  unfold rng. now rewrite <- L, Nat2Z.id.
Qed.
Lemma bound_G k : 0 <= k <= W -> 0 <= k < Z.of_nat (length (cGs c)).
Proof. destruct Hr as (_ & _ & _ & _ & _ & _ & _ & _ & H). lia. Qed.
Lemma bound_H x k : is_norm x = true -> in_var c st x k -> k < Z.of_nat (length (cHs c)).
Proof.
  intros E Hk. destruct Hr as (_ & _ & _ & _ & _ & _ & C2 & _). destruct (C2 x E) as (v & L & (A & A' & B) & S & _).
  pose proof (lay_pos c Hc _ (rd_lay c st Hr) x). unfold in_var in Hk. lia.
Qed.

Section F.
Variables (st' : pstate) (ap : rtp G).
Variable f : fin c pick st st' wRnd ap.
Notation I := (fn_I c pick st st' wRnd ap f).

Lemma I_spec k : In k I <-> exists x, is_norm x = true /\ in_var c st x k.
Proof. unfold fn_I. rewrite (so_qidx _ _ (fn_S _ _ _ _ _ _ f)). apply (rd_union c st Hr). Qed.
Lemma I_sorted : zsorted I. Proof. exact (so_qsorted _ _ (fn_S _ _ _ _ _ _ f)). Qed.
Lemma I_lt k : In k I -> 0 <= k < W. Proof. intros H. apply (so_lt _ _ (fn_S _ _ _ _ _ _ f)). now right. Qed.
Lemma bs_spec k : In k (keys (rbs (fn_a _ _ _ _ _ _ f))) <-> exists x, In x lvars /\ in_var c st x k.
Proof.
  pose proof (fn_S _ _ _ _ _ _ f) as S. split.
  - intros H. apply (so_bs_keys _ _ S) in H as (H1 & con & H2 & H3).
    destruct Hr as (_ & _ & KL & _). destruct (rd_var c Hc st Hr k (KL con k H2 H3)) as (x & N & Hx). exists x. split; [|exact Hx].
    apply lvars_spec. split; [|exact N]. destruct (is_norm x) eqn:E; [|reflexivity]. exfalso. apply H1. apply I_spec. now exists x.
  - intros (x & Hx & Hk). apply lvars_spec in Hx as [E N]. apply (so_bs_nz _ _ S).
    + intros H. apply I_spec in H as (y & Hy & Hk'). rewrite (rd_uniq c Hc st Hr x y k Hk Hk') in E. congruence.
    + exact (Hm x k E N Hk).
Qed.
Lemma bs_perm : Permutation (keys (rbs (fn_a _ _ _ _ _ _ f))) (flat_map rng lvars).
Proof.
  apply NoDup_Permutation.
  - apply zsorted_NoDup, ksorted_keys, (so_bs_sorted _ _ (fn_S _ _ _ _ _ _ f)).
  - apply rng_flat. unfold lvars. repeat constructor; cbn; intuition discriminate.
  - intros k. rewrite bs_spec, in_flat_map. split; intros (x & A & B); exists x; (split; [exact A|]); now apply in_rng.
Qed.

Lemma lin_com : rlinCom (rv ap) = gadd (gmul (cbase c) (rlRnd ap)) (atk (gen (cGs c)) (coef (plinW st')) (keys (lterms (rlin (rv ap))))).
Proof.
  rewrite (fn_lcom _ _ _ _ _ _ f), (fn_lrnd _ _ _ _ _ _ f), (fn_lin _ _ _ _ _ _ f). cbn [lterms]. rewrite keys_app, atk_app.
  destruct (fin_linW c pick st st' wRnd ap (rd_wf c Hc st Hr) (rd_rec c Hc st Hr) f) as (_ & _ & CL & CW).
  destruct (scale_spec _ _ _ _ _ (v1_scale _ _ _ _ (fn_V _ _ _ _ _ _ f))) as [_ S1].
  destruct (scale_spec _ _ _ _ _ (fn_scale _ _ _ _ _ _ f)) as [_ S2].
  assert (E : sum_lin gadd (v1_com _ _ _ _ (fn_V _ _ _ _ _ _ f)) =
     gadd (gmul (cbase c) (sum_lin fadd (fn_rnd _ _ _ _ _ _ f))) (atk (gen (cGs c)) (coef (plinW st)) (flat_map rng lvars))).
  { unfold sum_lin. erewrite (fold_open (cbase c)) with (rho := fn_rnd _ _ _ _ _ _ f) (A := fun x => atk (gen (cGs c)) (coef (plinW st)) (rng x)).
    - rewrite gsum_atk, <- atk_app. reflexivity.
    - intros x Hx. assert (Hl : In x lvars) by (now right). apply lvars_spec in Hl as [E N].
      assert (E' : is_comp x = false) by (unfold is_norm in E; now apply orb_false_iff in E).
      rewrite S1, S2 by exact E'. now apply com1_at.
    - rewrite S1, S2 by reflexivity. now apply com1_at. }
  rewrite E, <- (atk_perm _ _ _ _ bs_perm).
  rewrite (atk_ext (gen (cGs c)) (gen (cGs c)) (coef (plinW st')) (coef (plinW st)) (keys (rbs _))) by (intros k Hk; split; [reflexivity|now apply CL]).
  cbn [keys map fst]. unfold atk at 3. cbn [map gsum]. rewrite CW.
  pose proof (fn_get _ _ _ _ _ _ f) as EG. pose proof (rd_W c Hc st Hr). rewrite (size_idx_ok _ _ gzero) in EG by (apply bound_G; lia). injection EG as EG. fold (gen (cGs c) W) in EG. rewrite <- EG.
  gsolve.
Qed.

Definition qvars := [DCompHi; DCompLo; RComp; EComp1Hi; EComp1Lo; EComp2Hi; EComp2Lo; Sk2Comp; KCompHi; KCompLo].
Definition padof (x : var) : var :=
  match x with
  | DCompHi => DPadHi | DCompLo => DPadLo | RComp => RPad | EComp1Hi => EPad1Hi | EComp1Lo => EPad1Lo
  | EComp2Hi => EPad2Hi | EComp2Lo => EPad2Lo | Sk2Comp => Sk2Pad | KCompHi => KPadHi | KCompLo => KPadLo | _ => x
  end.
Definition rg (x : var) : list Z := flat_map rng [x; padof x].
Lemma qvars_norm x : In x qvars -> exists i, norm_of i = Some (x, padof x).
Proof.
  unfold qvars. intros H.
  destruct H as [<-|H]; [now exists 0%nat|]. destruct H as [<-|H]; [now exists 1%nat|]. destruct H as [<-|H]; [now exists 2%nat|].
  destruct H as [<-|H]; [now exists 3%nat|]. destruct H as [<-|H]; [now exists 4%nat|]. destruct H as [<-|H]; [now exists 5%nat|].
  destruct H as [<-|H]; [now exists 6%nat|]. destruct H as [<-|H]; [now exists 7%nat|]. destruct H as [<-|H]; [now exists 8%nat|].
  destruct H as [<-|H]; [now exists 9%nat|]. destruct H.
Qed.
Lemma flat_flat {A B C} (h : B -> list C) (g : A -> list B) L : flat_map h (flat_map g L) = flat_map (fun x => flat_map h (g x)) L.
Proof. induction L as [|x L IH]; [reflexivity|]. cbn [flat_map]. now rewrite flat_map_app, IH. Qed.
Lemma I_perm : Permutation I (flat_map rg qvars).
Proof.
  unfold rg. rewrite <- (flat_flat rng (fun x => [x; padof x])). apply NoDup_Permutation.
  - apply zsorted_NoDup, I_sorted.
  - apply rng_flat. unfold qvars. cbn [flat_map padof app]. repeat constructor; cbn; intuition discriminate.
  - intros k. rewrite I_spec, in_flat_map. split.
    + intros (x & A & B). exists x. split; [|now apply in_rng]. destruct x; try discriminate; unfold qvars; cbn [flat_map padof app]; cbn; tauto.
    + intros (x & A & B). exists x. split; [|now apply in_rng]. apply in_flat_map in A as (y & Hy & A).
      apply qvars_norm in Hy as (i & Hi). apply norm_of_norm in Hi as [N1 N2]. destruct A as [<-|[<-|[]]]; assumption.
Qed.
Lemma atk_gadd (g h : Z -> G) (w : Z -> F) a : atk (fun k => gadd (g k) (h k)) w a = gadd (atk g w a) (atk h w a).
Proof. unfold atk. induction a as [|k a IH]; cbn [map gsum]; [gsolve|]. rewrite IH. gsolve. Qed.

Notation X := (fn_X c pick st st' wRnd ap f).
Notation rV := (rrVec (fn_a _ _ _ _ _ _ f)).
Lemma X_val i x xp k : norm_of i = Some (x, xp) -> in_var c st x k \/ in_var c st xp k -> X k = (coef (plinW st) k * nth i rV 0)%F.
Proof.
  intros Hi Hk. destruct (rd_wf c Hc st Hr) as (HW & HQ & HL & HN & _).
  assert (Lr : length (pnorm st) = length rV) by (rewrite (v1_rVec _ _ _ _ (fn_V _ _ _ _ _ _ f)); now rewrite powers_length).
  destruct (mul_all_spec (pnorm st) rV (pqG st) HQ HN (rd_disj c Hc st Hr) Lr) as (_ & _ & Cm & _).
  destruct (norm_of_lt _ _ _ Hi) as (Li & _). destruct (norm_of_norm _ _ _ Hi) as [N1 N2].
  assert (Hr' := Hr). destruct Hr' as (_ & _ & _ & L & HNm & _). destruct (HNm i x xp Hi) as (q & Hq & A).
  unfold fn_X. rewrite (Cm q (nth i rV 0%F) k).
  - f_equal. destruct Hk as [Hk|Hk]; [exact (rd_same c st Hr x k N1 Hk)|exact (rd_same c st Hr xp k N2 Hk)].
  - apply (nth_error_In _ i). clear -Hq Lr Li L. rewrite L in Lr. revert Hq Lr. generalize rV as rs, (pnorm st) as qs. 
    intros rs qs Hq Lr. assert (Hi : (i < length rs)%nat) by lia. clear Lr Li L. revert qs i Hq Hi. induction rs as [|r rs IH]; intros qs i Hq Hi; [cbn in Hi; lia|].
    destruct qs as [|q' qs]; [destruct i; discriminate|]. destruct i as [|i]; cbn in *; [now injection Hq as ->|]. apply IH; [exact Hq|lia].
  - now apply A.
Qed.
Lemma quad_sum : sum_quad gadd (v1_com _ _ _ _ (fn_V _ _ _ _ _ _ f)) =
  gadd (gmul (cbase c) (sum_quad fadd (fn_rnd _ _ _ _ _ _ f))) (gadd (atk (gen (cGs c)) X I) (atk (gen (cHs c)) X I)).
Proof.
  destruct (scale_spec _ _ _ _ _ (v1_scale _ _ _ _ (fn_V _ _ _ _ _ _ f))) as [S1 _].
  destruct (scale_spec _ _ _ _ _ (fn_scale _ _ _ _ _ _ f)) as [S2 _].
  assert (HA : forall x, In x qvars -> v1_com _ _ _ _ (fn_V _ _ _ _ _ _ f) x =
     gadd (gmul (cbase c) (fn_rnd _ _ _ _ _ _ f x)) (atk (fun k => gadd (gen (cGs c) k) (gen (cHs c) k)) X (rg x))).
  { intros x Hx. destruct (qvars_norm x Hx) as (i & Hi). destruct (norm_of_norm _ _ _ Hi) as [N1 N2].
    rewrite (S1 i x _ Hi), (S2 i x _ Hi), (com2_at x N1), (com2_at _ N2).
    rewrite (atk_ext (fun k => gadd (gen (cGs c) k) (gen (cHs c) k)) (fun k => gadd (gen (cGs c) k) (gen (cHs c) k)) X (fun k => (coef (plinW st) k * nth i rV 0)%F) (rg x)).
    2:{ intros k Hk. split; [reflexivity|]. apply (X_val i x (padof x) k Hi). unfold rg in Hk. cbn [flat_map] in Hk. rewrite app_nil_r, in_app_iff, !in_rng in Hk. exact Hk. }
    rewrite atk_scale, atk_gadd. unfold rg. cbn [flat_map]. rewrite app_nil_r, !atk_app. gsolve. }
  unfold sum_quad. erewrite (fold_open (cbase c)) with (rho := fn_rnd _ _ _ _ _ _ f) (A := fun x => atk (fun k => gadd (gen (cGs c) k) (gen (cHs c) k)) X (rg x))
    (r0 := fn_rnd _ _ _ _ _ _ f DCompHi) (A0 := atk (fun k => gadd (gen (cGs c) k) (gen (cHs c) k)) X (rg DCompHi)).
  - rewrite gsum_atk, <- atk_app.
    change (rg DCompHi ++ flat_map rg [DCompLo; RComp; EComp1Hi; EComp1Lo; EComp2Hi; EComp2Lo; Sk2Comp; KCompHi; KCompLo]) with (flat_map rg qvars).
    rewrite <- (atk_perm _ _ _ _ I_perm), atk_gadd. reflexivity.
  - intros x Hx. apply HA. now right.
  - apply HA. now left.
Qed.
Notation hg := (hgen c W (length I)).
Lemma quad_com : rquadCom (rv ap) = gadd (gadd (gadd (gmul (cbase c) (rqRnd ap)) (atk (gen (cGs c)) (coef (pqG st')) (I ++ [W])))
    (atk hg (coef (pqH st')) (I ++ [W]))) (gadd (atk (gen (cGs c)) (kget (rdG (rv ap))) (I ++ [W])) (atk hg (kget (rdH (rv ap))) (I ++ [W]))).
Proof.
  rewrite (fn_qcom _ _ _ _ _ _ f), (fn_qrnd _ _ _ _ _ _ f), quad_sum.
  pose proof (fn_get _ _ _ _ _ _ f) as EG. pose proof (rd_W c Hc st Hr). rewrite (size_idx_ok _ _ gzero) in EG by (apply bound_G; lia). injection EG as EG. fold (gen (cGs c) W) in EG. rewrite <- EG.
  assert (SG : ksorted (rdG (rv ap))).
  { rewrite (fn_dG _ _ _ _ _ _ f). apply ksorted_keys. rewrite keys_app, keys_mapk. apply zsorted_snoc; [exact I_sorted|]. intros k Hk. now apply I_lt. }
  assert (SH : ksorted (rdH (rv ap))).
  { rewrite (fn_dH _ _ _ _ _ _ f). apply ksorted_keys. rewrite keys_app, keys_mapk. apply zsorted_snoc; [exact I_sorted|]. intros k Hk. now apply I_lt. }
  assert (HNI : NoDup I) by (apply zsorted_NoDup, I_sorted).
  assert (HWn : ~ In W I) by (intros K; apply I_lt in K; lia).
  assert (HG : forall k, In k I -> (coef (pqG st') k + kget (rdG (rv ap)) k)%F = X k).
  { intros k Hk. rewrite (fn_G _ _ _ _ _ _ f k Hk), kget_coef by exact SG. rewrite (fn_dG _ _ _ _ _ _ f), coef_app, coef_mapk by assumption.
    rewrite coef_cons, (proj2 (Z.eqb_neq W k)), coef_nil by (intros K; apply HWn; now rewrite K). ring. }
  assert (HH : forall k, In k I -> (coef (pqH st') k + kget (rdH (rv ap)) k)%F = X k).
  { intros k Hk. rewrite (fn_H _ _ _ _ _ _ f k Hk), kget_coef by exact SH. rewrite (fn_dH _ _ _ _ _ _ f), coef_app, coef_mapk by assumption.
    rewrite coef_cons, (proj2 (Z.eqb_neq W k)), coef_nil by (intros K; apply HWn; now rewrite K). ring. }
  assert (HGW : kget (rdG (rv ap)) W = 0%F).
  { rewrite kget_coef by exact SG. rewrite (fn_dG _ _ _ _ _ _ f), coef_app, (coef_notin W (map _ _)) by now rewrite keys_mapk.
    rewrite coef_cons, Z.eqb_refl, coef_nil. ring. }
  assert (HHW : kget (rdH (rv ap)) W = (- fn_rho _ _ _ _ _ _ f)%F).
  { rewrite kget_coef by exact SH. rewrite (fn_dH _ _ _ _ _ _ f), coef_app, (coef_notin W (map _ _)) by now rewrite keys_mapk.
    rewrite coef_cons, Z.eqb_refl, coef_nil. ring. }
  rewrite (atk_ext (gen (cGs c)) (gen (cGs c)) X (fun k => (coef (pqG st') k + kget (rdG (rv ap)) k)%F) I) by (intros k Hk; now rewrite HG).
  rewrite (atk_ext (gen (cHs c)) hg X (fun k => (coef (pqH st') k + kget (rdH (rv ap)) k)%F) I).
  2:{ intros k Hk. split; [|now rewrite HH]. unfold hgen. rewrite (proj2 (Z.eqb_neq k W)); [reflexivity|]. intros ->. contradiction. }
  rewrite !atk_add, !atk_app. unfold atk at 6 8 10 12. cbn [map gsum].
  rewrite (fn_GW _ _ _ _ _ _ f), (fn_HW _ _ _ _ _ _ f), HGW, HHW. gsolve.
Qed.

Lemma I_len : (1 <= length I <= length (cHs c))%nat.
Proof.
  split; [exact (fn_pos _ _ _ _ _ _ f)|].
  assert (H : (length I <= length (zrange 0 (length (cHs c))))%nat).
  { apply NoDup_incl_length; [apply zsorted_NoDup, I_sorted|]. intros k Hk. apply in_zrange. split; [now apply I_lt|].
    apply I_spec in Hk as (x & Hx & Hk). rewrite Z.add_0_l. exact (bound_H x k Hx Hk). }
  unfold zrange in H. now rewrite map_length, seq_length in H.
Qed.
(** What the flattening gives. *)
Definition the_flat : flatdata R :=
  Flat (m_lin R (pmer st') "linear" (rlin (rv ap))) (m_quad R (pmer st') "quadratic" (rquad (rv ap))) (rlinCom (rv ap)) (rquadCom (rv ap))
    (rlRnd ap) (rqRnd ap) 0%F (qeq (rquad (rv ap)))
    (map (gen (cGs c)) (keys (lterms (rlin (rv ap))))) (map snd (lterms (rlin (rv ap)))) (map (coef (plinW st')) (keys (lterms (rlin (rv ap)))))
    (map (gen (cGs c)) (I ++ [W])) (map hg (I ++ [W])) (map (kget (rdG (rv ap))) (I ++ [W])) (map (kget (rdH (rv ap))) (I ++ [W]))
    (map (coef (pqG st')) (I ++ [W])) (map (coef (pqH st')) (I ++ [W])).
Lemma lin_key_bound k : In k (keys (lterms (rlin (rv ap)))) -> 0 <= k <= W.
Proof.
  rewrite (fn_lin _ _ _ _ _ _ f). cbn [lterms]. rewrite keys_app, in_app_iff. pose proof (rd_W c Hc st Hr) as HW. intros [H|[<-|[]]]; [|cbn; lia].
  apply bs_spec in H as (x & Hx & Hk). apply lvars_spec in Hx as [_ N]. pose proof (rd_in c Hc st Hr x k N Hk). lia.
Qed.
Lemma prep_ok : aggregateProver R c pick st wRnd = Ret (st', ap) ->
  exists st'', prepareProofs R c pick st wRnd = Ret (st'', the_flat) /\ pidx st'' = pidx st /\ pcom st'' = pcom st' /\ prnd st'' = prnd st'.
Proof.
  intros E. unfold prepareProofs. rewrite E. cbn [obind].
  destruct (fin_linW c pick st st' wRnd ap (rd_wf c Hc st Hr) (rd_rec c Hc st Hr) f) as (KL & SL & _ & _).
  unfold flattenLinPrv. assert (LL : length (plinW st') = length (lterms (rlin (rv ap)))).
  { rewrite <- (map_length fst (plinW st')), <- (map_length fst (lterms _)). fold (keys (plinW st')) (keys (lterms (rlin (rv ap)))). now rewrite KL. }
  rewrite LL, Nat.eqb_refl. cbn [negb]. unfold flattenLinVer. rewrite flat_gs by (intros k Hk; apply bound_G; now apply lin_key_bound). cbn [obind].
  unfold flattenQuadPrv, flattenQuadVer. cbn [rquad rdG rdH pidx pqG pqH]. rewrite (fn_idx _ _ _ _ _ _ f), (fn_pidx _ _ _ _ _ _ f).
  pose proof (rd_W c Hc st Hr) as HW. pose proof I_len as HI.
  rewrite flatQ_spec; [|intros k Hk|apply bound_G; lia|exact HI].
  2:{ pose proof (I_lt k Hk). split; [lia|]. split; [apply bound_G; lia|]. apply I_spec in Hk as (x & Hx & Hk). exact (bound_H x k Hx Hk). }
  cbn [obind Nat.add]. rewrite flat_lock_spec by (now rewrite (fn_Gkeys _ _ _ _ _ _ f), (fn_Hkeys _ _ _ _ _ _ f)). cbn [obind].
  assert (NW : NoDup (I ++ [W])). { apply zsorted_NoDup, zsorted_snoc; [exact I_sorted|]. intros k Hk. now apply I_lt. }
  rewrite (snd_map_coef Hp (pqG st')), (snd_map_coef Hp (pqH st')), (snd_map_coef Hp (plinW st'));
    [|apply zsorted_NoDup, ksorted_keys, SL|now rewrite (fn_Hkeys _ _ _ _ _ _ f)|now rewrite (fn_Gkeys _ _ _ _ _ _ f)].
  rewrite KL, (fn_Gkeys _ _ _ _ _ _ f), (fn_Hkeys _ _ _ _ _ _ f).
  eexists. split; [unfold the_flat; cbn [rlinCom rquadCom leq rlin]; rewrite (fn_lin _ _ _ _ _ _ f) at 2; cbn [leq]; reflexivity|].
  cbn [pidx pcom prnd]. auto.
Qed.
Lemma dot_lin (l : pvec p) (w : Z -> F) : dot (map snd l) (map w (keys l)) = lin_val l w.
Proof. induction l as [|[k x] l IH]; [reflexivity|]. cbn [map keys dot fst snd]. fold (keys l). rewrite IH. reflexivity. Qed.
Lemma dot_quad (u v : Z -> F) ks : dot (map u ks) (map v ks) = quad_val ks u v.
Proof. apply dot_map_fsum. Qed.
Lemma flat_accept_C C wG wH b : length wG = length (I ++ [W]) -> length wH = length (I ++ [W]) -> dot wG wH = qeq (rquad (rv ap)) ->
  C = gadd (gadd (gadd (gmul (cbase c) (rqRnd ap)) (gdot (map (gen (cGs c)) (I ++ [W])) wG)) (gdot (map hg (I ++ [W])) wH))
    (gadd (gdot (map (gen (cGs c)) (I ++ [W])) (map (kget (rdG (rv ap))) (I ++ [W]))) (gdot (map hg (I ++ [W])) (map (kget (rdH (rv ap))) (I ++ [W])))) ->
  proveVerify R c (with_q the_flat C wG wH) b = Ret (true, true) \/
  (proveVerify R c (with_q the_flat C wG wH) b = Throw /\ ~ (forall m l, fst (m_chal R m l) <> 0%F)).
Proof.
  intros LG LH SQ HC.
  pose proof (fin_lin_sat Hp c pick st st' wRnd ap (rd_wf c Hc st Hr) (rd_rec c Hc st Hr) f) as SL.
  pose proof (rd_W c Hc st Hr) as HW. pose proof I_len as HI.
  unfold proveVerify, with_q, the_flat. cbn [flinGs flinCom flRnd fmL flinWtns flinStmnt flinEq fquadGs fquadCom fqRnd fmQ fqwG fquadHs fqwH fquadEq foffG foffH].
  assert (LK : length (keys (lterms (rlin (rv ap)))) = length (lterms (rlin (rv ap)))) by (unfold keys; now rewrite map_length).
  assert (L1 : (1 <= length (keys (lterms (rlin (rv ap)))) <= length (cGs c))%nat).
  { split; [rewrite (fn_lin _ _ _ _ _ _ f); cbn [lterms]; rewrite keys_app, app_length; cbn; lia|].
    assert (H : (length (keys (lterms (rlin (rv ap)))) <= length (zrange 0 (length (cGs c))))%nat).
    { apply NoDup_incl_length.
      - apply zsorted_NoDup, ksorted_keys. exact (proj1 (fin_shape c pick st st' wRnd ap f)).
      - intros k Hk. apply in_zrange. rewrite Z.add_0_l. apply bound_G. now apply lin_key_bound. }
    unfold zrange in H. now rewrite map_length, seq_length in H. }
  assert (GW : Z.of_nat (length (cGs c)) = W + 1) by (destruct Hr as (_ & _ & _ & _ & _ & _ & _ & _ & H); exact H).
  assert (SQ2 : (length (I ++ [W]) <= length (cGs c))%nat).
  { assert (H : (length (I ++ [W]) <= length (zrange 0 (length (cGs c))))%nat).
    { apply NoDup_incl_length.
      - apply zsorted_NoDup, zsorted_snoc; [exact I_sorted|]. intros k Hk. now apply I_lt.
      - intros k Hk. apply in_zrange. rewrite Z.add_0_l. apply bound_G. apply in_app_iff in Hk as [Hk|[<-|[]]]; [apply I_lt in Hk; lia|lia]. }
    unfold zrange in H. now rewrite map_length, seq_length in H. }
  destruct (linear_complete Hp (cbase c) R (map (coef (plinW st')) (keys (lterms (rlin (rv ap))))) (map snd (lterms (rlin (rv ap))))
      (map (gen (cGs c)) (keys (lterms (rlin (rv ap))))) (length (map (gen (cGs c)) (keys (lterms (rlin (rv ap)))))) 0%F
      (m_lin R (pmer st') "linear" (rlin (rv ap))) None (rlRnd ap) (blL b) (blLS b) (rlinCom (rv ap))) as [[E N]|(pf & E & _ & _ & _ & D)].
  - rewrite map_length. lia.
  - rewrite map_length. lia.
  - now rewrite !map_length.
  - rewrite !map_length. now symmetry.
  - reflexivity.
  - exact Logic.I.
  - rewrite dot_lin. rewrite (fn_lin _ _ _ _ _ _ f) in SL |- *. exact SL.
  - rewrite gdot_atk, lin_com. cbn [off_val]. gsolve.
  - right. rewrite E. cbn [obind]. now split.
  - rewrite E. cbn [obind]. destruct D as [D|[D N]]; [|right; rewrite D; cbn [obind]; now split]. rewrite D. cbn [obind].
    destruct (quadratic_complete Hp (cbase c) R wG wH
       (map (gen (cGs c)) (I ++ [W])) (map hg (I ++ [W])) (length (map (gen (cGs c)) (I ++ [W]))) (qeq (rquad (rv ap)))
       (m_quad R (pmer st') "quadratic" (rquad (rv ap))) (Some (map (kget (rdG (rv ap))) (I ++ [W]))) (Some (map (kget (rdH (rv ap))) (I ++ [W])))
       (rqRnd ap) (blQ b) (blQST b) (blQUV b) C) as [[E' N]|(pf' & E' & _ & _ & _ & D')].
    + rewrite map_length, app_length. cbn. lia.
    + rewrite map_length. lia.
    + now rewrite !map_length.
    + now rewrite !map_length.
    + reflexivity.
    + now rewrite !map_length.
    + cbn. now rewrite !map_length.
    + cbn. now rewrite !map_length.
    + exact SQ.
    + exact HC.
    + right. rewrite E'. cbn [obind]. now split.
    + rewrite E'. cbn [obind]. rewrite D'. cbn [obind]. now left.
Qed.
Lemma flat_accept_H wH b : length wH = length (I ++ [W]) -> dot (map (coef (pqG st')) (I ++ [W])) wH = qeq (rquad (rv ap)) ->
  gdot (map hg (I ++ [W])) wH = gdot (map hg (I ++ [W])) (map (coef (pqH st')) (I ++ [W])) ->
  proveVerify R c (with_wH the_flat wH) b = Ret (true, true) \/
  (proveVerify R c (with_wH the_flat wH) b = Throw /\ ~ (forall m l, fst (m_chal R m l) <> 0%F)).
Proof.
  intros LH SQ HC. apply (flat_accept_C (rquadCom (rv ap)) (map (coef (pqG st')) (I ++ [W])) wH b); [now rewrite map_length|exact LH|exact SQ|].
  rewrite HC, !gdot_atk. exact quad_com.
Qed.
Lemma flat_accept b : all_hold st -> proveVerify R c the_flat b = Ret (true, true) \/
  (proveVerify R c the_flat b = Throw /\ ~ (forall m l, fst (m_chal R m l) <> 0%F)).
Proof.
  intros Hh. destruct (fin_sat Hp c pick Hpick st st' wRnd ap (rd_wf c Hc st Hr) (rd_disj c Hc st Hr) (rd_rec c Hc st Hr) f Hh) as [_ SQ].
  apply (flat_accept_H (map (coef (pqH st')) (I ++ [W])) b); [now rewrite !map_length| |reflexivity].
  rewrite dot_quad. unfold quad_sat in SQ. rewrite (fn_idx _ _ _ _ _ _ f) in SQ. exact SQ.
Qed.
End F.

Theorem run_accept b : all_hold st -> (exists st', runProofs R c pick st wRnd b = Ret (st', (true, true))) \/
  (runProofs R c pick st wRnd b = Throw /\ ~ (forall m l, fst (m_chal R m l) <> 0%F)).
Proof.
  intros Hh. destruct (rd_agg Hp c pick Hpick Hc st Hr Hm wRnd) as [(st' & ap & E)|[E Z]].
  - destruct (final Hp c pick Hpick st st' wRnd ap (rd_wf c Hc st Hr) (rd_disj c Hc st Hr) E) as [f].
    destruct (prep_ok st' ap f E) as (st'' & E' & _). unfold runProofs. rewrite E'. cbn [obind].
    destruct (flat_accept st' ap f b Hh) as [H|[H N]]; rewrite H; cbn [obind]; [left; now eexists|right; now split].
  - right. unfold runProofs, prepareProofs. rewrite E. cbn [obind]. split; [reflexivity|]. intros N. exact (N _ _ Z).
Qed.
End Accept.
