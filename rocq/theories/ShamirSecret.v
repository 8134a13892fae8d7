(** Reconstruction and secrecy of Shamir sharing. *)
From Coq Require Import ZArith Znumtheory List Lia Bool Field.
From Verif Require Import NumTheory Outcome Fp FSum Poly ShamirModel ShamirSpec ShamirProofs.
Import ListNotations.
Open Scope Z_scope.
Local Open Scope fp_scope.

Section S.
Context {p : Z} (Hp : prime p).
Notation F := (Fp p).
Add Field FpFieldS2 : (Fp_field Hp).

Definition in_range (e : Z) : Prop := (1 <= e < p /\ e < 2 ^ 31)%Z.

Lemma lag_loop_spec xi rec : in_range xi -> Forall in_range rec -> forall n d,
  lag_loop xi rec n d =
  Ret (n * fprod (map (toF p) (others Z.eqb rec xi)),
       d * fprod (map (fun xj => toF p xj - toF p xi) (others Z.eqb rec xi))).
Proof.
  intros Hxi. induction 1 as [|xj rec Hj _ IH]; intros n d; cbn [lag_loop others filter].
  - cbn. f_equal. f_equal; ring.
  - destruct (xi =? xj)%Z; cbn [negb].
    + apply IH.
    + assert (E : is_int (xj - xi) = true).
      { unfold is_int, in_range in *. apply andb_true_iff. split; [apply Z.leb_le|apply Z.ltb_lt]; lia. }
      rewrite E, IH. cbn [map fprod]. rewrite toF_sub. f_equal. f_equal; unfold others; ring.
Qed.

Lemma toF_neq a b : in_range a -> in_range b -> a <> b -> toF p a - toF p b <> 0.
Proof.
  intros Ha Hb Hne E. apply (proj1 (fsub_eq_0 _ _)) in E.
  apply Hne. unfold in_range in *. apply (@toF_inj_range p a b); [lia|lia|exact E].
Qed.

Lemma lag_coeff_spec xi rec : in_range xi -> Forall in_range rec ->
  lag_coeff xi rec = Ret (fprod (map (toF p) (others Z.eqb rec xi)) /
       fprod (map (fun xj => toF p xj - toF p xi) (others Z.eqb rec xi))).
Proof.
  intros Hxi Hr. unfold lag_coeff. rewrite lag_loop_spec by assumption. cbn [obind fst snd].
  assert (Hnz : fprod (map (fun xj => toF p xj - toF p xi) (others Z.eqb rec xi)) <> 0).
  { apply (fprod_neq_0 Hp). apply Forall_forall. intros z Hz. apply in_map_iff in Hz.
    destruct Hz as (j & <- & Hj). apply (in_others Z.eqb Z.eqb_eq) in Hj.
    rewrite Forall_forall in Hr. apply toF_neq; [apply Hr; tauto|assumption|tauto]. }
  set (d := fprod _) in *. unfold finvert.
  destruct (feqb (1 * d) 0) eqn:E.
  - apply feqb_eq in E. exfalso. apply Hnz. rewrite <- E. ring.
  - cbn [obind]. f_equal. field. assumption.
Qed.

Lemma lag_outer_spec todo rec : Forall in_range todo -> Forall in_range rec ->
  lag_outer todo rec = Ret (map (fun xi => fprod (map (toF p) (others Z.eqb rec xi)) /
       fprod (map (fun xj => toF p xj - toF p xi) (others Z.eqb rec xi))) todo).
Proof.
  intros Ht Hr. induction Ht as [|xi todo Hxi _ IH]; [reflexivity|].
  cbn [lag_outer map]. rewrite lag_coeff_spec by assumption. cbn [obind]. now rewrite IH.
Qed.

(** Reconstruction from the values of a polynomial with at most |rec| coefficients. *)
Lemma getSecret_poly rec (q : list F) : NoDup rec -> Forall in_range rec -> (length q <= length rec)%nat ->
  getSecret (map (fun e => peval q (toF p e)) rec) rec = Ret (peval q 0).
Proof.
  intros Hnd Hr Hq. unfold getSecret, lagrangeCoeffs. rewrite lag_outer_spec by assumption. cbn [obind].
  f_equal. rewrite nInner_dot.
  rewrite <- (lagrange_formula Hp Z.eqb Z.eqb_eq (toF p) rec q 0); [|
    assert (G : NoDup (0 :: map (toF p) rec)) by (apply (good_nodup Hp); now split); now inversion G
    | assumption].
  assert (G : forall l, dot (map (fun xi => fprod (map (toF p) (others Z.eqb rec xi)) /
       fprod (map (fun xj => toF p xj - toF p xi) (others Z.eqb rec xi))) l)
        (map (fun e => peval q (toF p e)) l) =
     fsum (map (fun i => peval q (toF p i) * (fprod (map (fun j => toF p j - 0) (others Z.eqb rec i)) /
         fprod (map (fun j => toF p j - toF p i) (others Z.eqb rec i)))) l)).
  { induction l as [|e l IH]; [reflexivity|]. cbn [map dot fsum]. rewrite IH.
    assert (E : map (fun j => toF p j - 0) (others Z.eqb rec e) = map (toF p) (others Z.eqb rec e)).
    { apply map_ext. intros j. ring. }
    rewrite E. ring. }
  apply G.
Qed.

Lemma position_nth e evs : In e evs -> (position e evs < length evs)%nat /\ nth (position e evs) evs 0%Z = e.
Proof.
  induction evs as [|x evs IH]; intros Hin; [contradiction|]. cbn [position].
  destruct (Z.eqb_spec x e) as [->|Hne].
  - cbn. split; [lia|reflexivity].
  - destruct Hin as [|Hin]; [contradiction|]. destruct (IH Hin). cbn. split; [lia|assumption].
Qed.
Lemma share_of_newSharing evs (s : F) rs e : In e evs ->
  share_of evs (newSharing evs s rs) e = peval (s :: rs) (toF p e).
Proof.
  intros He. unfold share_of, newSharing. cbn [map nth].
  destruct (position_nth e evs He) as [Hl Hn].
  rewrite (nth_indep _ _ (peval (s :: rs) (toF p 0))) by (now rewrite !map_length).
  rewrite map_map. rewrite (map_nth (fun e => peval (s :: rs) (toF p e)) evs 0%Z). now rewrite Hn.
Qed.

Lemma reconstruct evs (s : F) rs rec : good_points (p := p) evs -> NoDup rec -> incl rec evs ->
  (S (length rs) <= length rec)%nat ->
  getSecret (map (share_of evs (newSharing evs s rs)) rec) rec = Ret s.
Proof.
  intros [_ Hg] Hnd Hincl Hl.
  assert (Hr : Forall in_range rec).
  { apply Forall_forall. intros e He. rewrite Forall_forall in Hg. apply Hg. now apply Hincl. }
  rewrite (map_ext_in _ (fun e => peval (s :: rs) (toF p e))).
  - rewrite getSecret_poly; try assumption. f_equal. cbn. ring.
  - intros e He. apply share_of_newSharing. now apply Hincl.
Qed.

(** *** Secrecy *)
Lemma cons_poly0 (l : list F) : (0 < length l)%nat -> exists rs, l = peval l 0 :: rs /\ length l = S (length rs).
Proof.
  destruct l as [|a l]; cbn; [lia|]. intros _. exists l. split; [|reflexivity]. f_equal. ring.
Qed.
Lemma secrecy_exists evs (corrupt : list Z) (ys : list F) (s : F) (k : nat) :
  good_points (p := p) evs -> NoDup corrupt -> incl corrupt evs -> length ys = length corrupt ->
  (length corrupt <= k)%nat ->
  exists rs, length rs = k /\ map (share_of evs (newSharing evs s rs)) corrupt = ys.
Proof.
  intros Hg Hnd Hincl Hys Hk.
  set (pts := (0, s) :: combine (map (toF p) corrupt) ys).
  assert (Hfst : map fst pts = 0 :: map (toF p) corrupt).
  { unfold pts. cbn [map fst]. f_equal. clear -Hys. revert ys Hys.
    induction corrupt as [|e c IH]; intros [|y ys] H; cbn in *; try discriminate; [reflexivity|].
    f_equal. apply IH. lia. }
  assert (Hgc : good_points (p := p) corrupt).
  { split; [assumption|]. apply Forall_forall. intros e He. destruct Hg as [_ Hg].
    rewrite Forall_forall in Hg. apply Hg. now apply Hincl. }
  pose proof (interp_spec Hp pts) as Hi. rewrite Hfst in Hi. specialize (Hi (good_nodup Hp _ Hgc)).
  set (q := interp pts) in *.
  assert (Hql : length q = S (length corrupt)).
  { unfold q. rewrite interp_length. unfold pts. cbn [length]. rewrite combine_length, map_length. lia. }
  destruct (cons_poly0 q) as (rs0 & Hq & Hl0); [lia|].
  assert (Hs : peval q 0 = s) by (apply Forall_inv in Hi; exact Hi).
  rewrite Hs in Hq.
  exists (rs0 ++ repeat 0 (k - length rs0)). split; [rewrite app_length, repeat_length; lia|].
  apply Forall_inv_tail in Hi.
  rewrite (map_ext_in _ (fun e => peval q (toF p e))).
  2:{ intros e He. rewrite share_of_newSharing by now apply Hincl.
      rewrite app_comm_cons, <- Hq. apply peval_pad. }
  clearbody q. clear - Hi Hys. revert ys Hys Hi. generalize q. clear q.
  induction corrupt as [|e c IH]; intros q [|y ys] H Hi; cbn in *; try discriminate; [reflexivity|].
  inversion Hi; subst. cbn in *. f_equal; [assumption|]. apply IH; [congruence|assumption].
Qed.
Lemma secrecy_unique evs (corrupt : list Z) (s : F) (rs rs' : list F) :
  good_points (p := p) evs -> NoDup corrupt -> incl corrupt evs ->
  length rs = length corrupt -> length rs' = length corrupt ->
  map (share_of evs (newSharing evs s rs)) corrupt = map (share_of evs (newSharing evs s rs')) corrupt ->
  rs = rs'.
Proof.
  intros Hg Hnd Hincl Hl Hl' E.
  assert (Hgc : good_points (p := p) corrupt).
  { split; [assumption|]. apply Forall_forall. intros e He. destruct Hg as [_ Hg].
    rewrite Forall_forall in Hg. apply Hg. now apply Hincl. }
  assert (G : s :: rs = s :: rs').
  { apply (poly_agree_coeffs Hp _ _ (0 :: map (toF p) corrupt) (good_nodup Hp _ Hgc)).
    - cbn. rewrite map_length. lia.
    - cbn. lia.
    - constructor; [cbn; ring|]. apply Forall_forall. intros r Hr. apply in_map_iff in Hr.
      destruct Hr as (e & <- & He). rewrite <- !(share_of_newSharing evs) by now apply Hincl.
      exact (ext_in_map E e He). }
  now injection G.
Qed.

Lemma newSharing_valid evs (s : F) rs : valid_sharing (S (length rs)) evs (newSharing evs s rs).
Proof.
  exists (s :: rs). split; [reflexivity|]. unfold newSharing. now rewrite map_poly_at.
Qed.
End S.
