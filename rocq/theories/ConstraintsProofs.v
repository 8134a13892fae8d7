(** Proofs about ConstraintsModel.v. *)
From Coq Require Import ZArith Znumtheory List Bool Lia Ring Permutation.
From Verif Require Import Outcome Fp FSum ConstraintsModel ConstraintsSpec.
Import ListNotations.
Open Scope Z_scope.

Section Proofs.
Context {p : Z}.
Notation F := (Fp p).
Add Ring FpRing : (@Fp_ring p).
Implicit Types l v : pvec p.

(** ** Sorted maps *)
Lemma coef_nil k : coef ([] : pvec p) k = 0%F.
Proof. reflexivity. Qed.
Lemma coef_cons k a (x : F) l : coef ((a, x) :: l) k = ((if a =? k then x else 0) + coef l k)%F.
Proof. reflexivity. Qed.
Lemma coef_app k l l' : coef (l ++ l') k = (coef l k + coef l' k)%F.
Proof. unfold coef. now rewrite map_app, fsum_app. Qed.
Lemma coef_notin k l : ~ In k (keys l) -> coef l k = 0%F.
Proof.
  induction l as [|[a x] l IH]; intros H; [reflexivity|].
  rewrite coef_cons. cbn in H. destruct (a =? k) eqn:E; [apply Z.eqb_eq in E; tauto|].
  rewrite IH by tauto. ring.
Qed.

Lemma ksorted_keys l : ksorted l <-> zsorted (keys l).
Proof.
  induction l as [|[k x] l IH]; cbn; [tauto|]. rewrite IH.
  split; intros [H H']; split; try assumption.
  - intros e He. apply in_map_iff in He. destruct He as (e' & <- & He'). auto.
  - intros e He. apply H. now apply in_map.
Qed.

Lemma zsorted_app s1 s2 :
  zsorted (s1 ++ s2) <-> zsorted s1 /\ zsorted s2 /\ (forall a b, In a s1 -> In b s2 -> a < b).
Proof.
  induction s1 as [|a s1 IH]; cbn.
  - intuition.
  - rewrite IH. split.
    + intros (H1 & H2 & H3 & H4). repeat split; try assumption.
      * intros e He. apply H1. apply in_app_iff. now left.
      * intros x b [->|Hx] Hb; [apply H1; apply in_app_iff; now right|auto].
    + intros ((H1 & H2) & H3 & H4). repeat split; try assumption.
      * intros e He. apply in_app_iff in He. destruct He; [auto|apply H4; auto].
      * intros; apply H4; auto.
Qed.

Lemma ksorted_app l1 l2 :
  ksorted (l1 ++ l2) <-> ksorted l1 /\ ksorted l2 /\
    (forall a b, In a (keys l1) -> In b (keys l2) -> a < b).
Proof. unfold keys. rewrite !ksorted_keys. unfold keys. rewrite map_app. apply zsorted_app. Qed.

Lemma zsorted_NoDup s : zsorted s -> NoDup s.
Proof.
  induction s as [|a s IH]; cbn; intros H; constructor.
  - intros Hin. destruct H as [H _]. specialize (H a Hin). lia.
  - now apply IH.
Qed.

Lemma in_keys l k : In k (keys l) <-> exists x, In (k, x) l.
Proof.
  unfold keys. rewrite in_map_iff. split.
  - intros ([k' x] & <- & H). now exists x.
  - intros (x & H). now exists (k, x).
Qed.

Lemma coef_in l k x : ksorted l -> In (k, x) l -> coef l k = x.
Proof.
  induction l as [|[a y] l IH]; cbn [ksorted]; intros Hs Hin; [contradiction|].
  destruct Hs as [Hlt Hs]. rewrite coef_cons. destruct Hin as [E|Hin].
  - injection E as -> ->. rewrite Z.eqb_refl, coef_notin; [ring|].
    intros Hk. apply in_keys in Hk. destruct Hk as (z & Hz). apply Hlt in Hz. cbn in Hz. lia.
  - pose proof (Hlt _ Hin) as Hl. cbn in Hl. destruct (a =? k) eqn:E; [apply Z.eqb_eq in E; lia|].
    rewrite IH by assumption. ring.
Qed.

Lemma kfind_coef l k : ksorted l ->
  kfind l k = if in_dec Z.eq_dec k (keys l) then Some (coef l k) else None.
Proof.
  induction l as [|[a y] l IH]; intros Hs; [reflexivity|].
  cbn [kfind]. destruct (a =? k) eqn:E.
  - apply Z.eqb_eq in E. subst a.
    destruct (in_dec Z.eq_dec k (keys ((k, y) :: l))) as [_|Hn].
    + f_equal. symmetry. apply coef_in; [assumption|now left].
    + exfalso. apply Hn. now left.
  - destruct Hs as [Hlt Hs]. rewrite IH by assumption. apply Z.eqb_neq in E.
    rewrite coef_cons. replace (a =? k) with false by (symmetry; now apply Z.eqb_neq).
    destruct (in_dec Z.eq_dec k (keys l)) as [H1|H1];
      destruct (in_dec Z.eq_dec k (keys ((a, y) :: l))) as [H2|H2]; cbn in H2; try tauto.
    f_equal. ring.
Qed.

Lemma kfind_some l k x : ksorted l -> (kfind l k = Some x <-> In (k, x) l).
Proof.
  induction l as [|[a y] l IH]; intros Hs; cbn; [split; [discriminate|contradiction]|].
  destruct Hs as [Hlt Hs]. destruct (a =? k) eqn:E.
  - apply Z.eqb_eq in E. subst a. split.
    + intros H. injection H as ->. now left.
    + intros [H|H]; [congruence|]. apply Hlt in H. cbn in H. lia.
  - apply Z.eqb_neq in E. rewrite IH by assumption. split; [now right|].
    intros [H|H]; [congruence|assumption].
Qed.

Lemma kfind_none l k : kfind l k = None <-> ~ In k (keys l).
Proof.
  induction l as [|[a y] l IH]; cbn; [tauto|].
  destruct (a =? k) eqn:E.
  - apply Z.eqb_eq in E. split; [discriminate|]. intros H; exfalso; apply H; now left.
  - apply Z.eqb_neq in E. rewrite IH. tauto.
Qed.

Lemma in_kset l k x k' x' : ksorted l ->
  (In (k', x') (kset l k x) <-> (k' = k /\ x' = x) \/ (k' <> k /\ In (k', x') l)).
Proof.
  induction l as [|[a y] l IH]; intros Hs; cbn [kset].
  - cbn. split; [intros [H|[]]; injection H as -> ->; tauto|].
    intros [[-> ->]|[_ []]]; now left.
  - destruct Hs as [Hlt Hs]. destruct (k <? a) eqn:E1; [|destruct (k =? a) eqn:E2].
    + apply Z.ltb_lt in E1. cbn [In]. split.
      * intros [H|[H|H]].
        -- injection H as -> ->. tauto.
        -- injection H as <- <-. right. split; [lia|now left].
        -- right. split; [apply Hlt in H; cbn in H; lia|now right].
      * intros [[-> ->]|[_ H]]; [now left|now right].
    + apply Z.eqb_eq in E2. subst a. cbn [In]. split.
      * intros [H|H]; [injection H as -> ->; tauto|].
        right. split; [apply Hlt in H; cbn in H; lia|now right].
      * intros [[-> ->]|[Hne [H|H]]]; [now left| |now right].
        injection H as -> ->. contradiction.
    + apply Z.ltb_ge in E1. apply Z.eqb_neq in E2. cbn [In]. rewrite IH by assumption. split.
      * intros [H|[H|[H1 H2]]]; [injection H as <- <-; right; split; [lia|now left]|tauto|tauto].
      * intros [H|[H1 [H|H]]]; [tauto|tauto|tauto].
Qed.

Lemma kset_sorted l k x : ksorted l -> ksorted (kset l k x).
Proof.
  induction l as [|[a y] l IH]; intros Hs; cbn [kset].
  - cbn. split; [intros e []|trivial].
  - destruct (k <? a) eqn:E1; [|destruct (k =? a) eqn:E2].
    + apply Z.ltb_lt in E1. cbn [ksorted]. split; [|exact Hs].
      intros e [<-|He]; [exact E1|]. destruct Hs as [H _]. specialize (H e He). lia.
    + apply Z.eqb_eq in E2. subst a. exact Hs.
    + apply Z.ltb_ge in E1. apply Z.eqb_neq in E2. destruct Hs as [Hlt Hs]. cbn [ksorted].
      split; [|now apply IH]. intros [k' x'] He. apply in_kset in He; [|assumption].
      cbn. destruct He as [[-> ->]|[_ He]]; [lia|]. apply (Hlt _ He).
Qed.

Lemma keys_kset l k x k' : ksorted l -> (In k' (keys (kset l k x)) <-> k' = k \/ In k' (keys l)).
Proof.
  intros Hs. rewrite !in_keys. split.
  - intros (y & H). apply in_kset in H; [|assumption]. destruct H as [[-> _]|[_ H]]; [tauto|].
    right. now exists y.
  - intros [->|(y & H)].
    + exists x. apply in_kset; [assumption|]. tauto.
    + destruct (Z.eq_dec k' k) as [->|Hne]; [exists x|exists y]; apply in_kset; tauto.
Qed.

Lemma coef_kset l k x k' : ksorted l ->
  coef (kset l k x) k' = if k' =? k then x else coef l k'.
Proof.
  intros Hs. pose proof (kset_sorted l k x Hs) as Hs'.
  destruct (k' =? k) eqn:E.
  - apply Z.eqb_eq in E. subst. apply coef_in; [assumption|]. apply in_kset; tauto.
  - apply Z.eqb_neq in E. destruct (in_dec Z.eq_dec k' (keys l)) as [H|H].
    + apply in_keys in H. destruct H as (y & H). rewrite (coef_in l k' y) by assumption.
      apply coef_in; [assumption|]. apply in_kset; tauto.
    + rewrite !coef_notin; [reflexivity|assumption|]. rewrite keys_kset by assumption. tauto.
Qed.

(** Sorted maps are determined by their membership relation. *)
Lemma zsorted_ext s1 s2 :
  zsorted s1 -> zsorted s2 -> (forall k, In k s1 <-> In k s2) -> s1 = s2.
Proof.
  revert s2. induction s1 as [|a s1 IH]; intros [|b s2] H1 H2 H.
  - reflexivity.
  - exfalso. apply (proj2 (H b)). now left.
  - exfalso. apply (proj1 (H a)). now left.
  - destruct H1 as [L1 S1], H2 as [L2 S2].
    assert (a = b).
    { destruct (proj1 (H a) (or_introl eq_refl)) as [E|E]; [congruence|].
      destruct (proj2 (H b) (or_introl eq_refl)) as [E'|E']; [congruence|].
      apply L2 in E. apply L1 in E'. lia. }
    subst b. f_equal. apply IH; try assumption. intros k. split; intros Hk.
    + destruct (proj1 (H k) (or_intror Hk)) as [E|E]; [|assumption].
      subst. apply L1 in Hk. lia.
    + destruct (proj2 (H k) (or_intror Hk)) as [E|E]; [|assumption].
      subst. apply L2 in Hk. lia.
Qed.

Lemma ksorted_ext l1 l2 :
  ksorted l1 -> ksorted l2 -> (forall k, In k (keys l1) <-> In k (keys l2)) ->
  (forall k, coef l1 k = coef l2 k) -> l1 = l2.
Proof.
  intros H1 H2 Hk Hc.
  assert (Hkeys : keys l1 = keys l2).
  { apply zsorted_ext; try assumption; now apply ksorted_keys. }
  clear Hk. revert l2 H2 Hc Hkeys.
  induction l1 as [|[a x] l1 IH]; intros [|[b y] l2] H2 Hc Hkeys; try discriminate; [reflexivity|].
  cbn in Hkeys. injection Hkeys as -> Hkeys. destruct H1 as [L1 S1], H2 as [L2 S2].
  assert (Hn1 : ~ In b (keys l1)).
  { intros Hin. apply in_keys in Hin. destruct Hin as (z & Hz). apply L1 in Hz. cbn in Hz. lia. }
  assert (Hn2 : ~ In b (keys l2)).
  { intros Hin. apply in_keys in Hin. destruct Hin as (z & Hz). apply L2 in Hz. cbn in Hz. lia. }
  assert (x = y).
  { pose proof (Hc b) as H. rewrite !coef_cons, Z.eqb_refl in H.
    rewrite !coef_notin in H by assumption.
    transitivity (x + 0)%F; [ring|]. rewrite H. ring. }
  subst y. f_equal. apply IH; try assumption.
  intros k. specialize (Hc k). rewrite !coef_cons in Hc.
  now apply fadd_cancel_l in Hc.
Qed.

(** lin_val through coefficients *)
Lemma lin_val_add_fun l w w' :
  lin_val l (fun k => w k + w' k)%F = (lin_val l w + lin_val l w')%F.
Proof.
  unfold lin_val. rewrite <- fsum_map_add. apply fsum_map_ext. intros. ring.
Qed.
Lemma lin_val_app l l' w : lin_val (l ++ l') w = (lin_val l w + lin_val l' w)%F.
Proof. unfold lin_val. now rewrite map_app, fsum_app. Qed.

(** The value of a sparse linear form only depends on the coefficients: sum
    over any duplicate-free index list covering the keys. *)
Lemma lin_val_cover l w ks :
  NoDup ks -> (forall k, In k (keys l) -> In k ks) ->
  lin_val l w = fsum (map (fun k => (coef l k * w k)%F) ks).
Proof.
  intros Hnd. induction l as [|[a x] l IH]; intros Hc.
  - change (lin_val [] w) with (@f0 p). symmetry. apply fsum_map_0. intros k _. rewrite coef_nil. ring.
  - unfold lin_val. cbn [map fst snd fsum]. fold (lin_val l w).
    rewrite IH by (intros; apply Hc; now right).
    assert (E : (x * w a)%F = fsum (map (fun k => ((if a =? k then x else 0) * w k)%F) ks)).
    { assert (Ha : In a ks) by (apply Hc; now left). clear -Hnd Ha.
      induction Hnd as [|b ks Hb Hnd IH]; [contradiction|]. cbn. destruct Ha as [->|Ha].
      - rewrite Z.eqb_refl. rewrite fsum_map_0; [ring|].
        intros k Hk. destruct (a =? k) eqn:E; [apply Z.eqb_eq in E; subst; contradiction|ring].
      - rewrite <- IH by assumption.
        destruct (a =? b) eqn:E; [apply Z.eqb_eq in E; subst; contradiction|ring]. }
    rewrite E, <- fsum_map_add. apply fsum_map_ext. intros k _. rewrite coef_cons. ring.
Qed.

End Proofs.
