(** Proofs about LinConstraint::merge and QuadConstraint::merge. *)
From Coq Require Import ZArith Znumtheory List Bool Lia Ring Permutation.
From Verif Require Import Outcome Fp FSum ConstraintsModel ConstraintsSpec ConstraintsProofs.
Import ListNotations.
Open Scope Z_scope.

Section Merge.
Context {p : Z}.
Notation F := (Fp p).
Add Ring FpRing : (@Fp_ring p).
Variable pick : list (cursor p) -> nat.
Hypothesis Hpick : queue_order pick.
Implicit Types q : list (cursor p).

Lemma remove_nth_perm {A} (l : list A) n x :
  nth_error l n = Some x -> Permutation l (x :: remove_nth n l).
Proof.
  intros H. apply nth_error_split in H. destruct H as (l1 & l2 & -> & <-).
  unfold remove_nth. rewrite firstn_app, Nat.sub_diag, firstn_all. cbn [firstn].
  rewrite app_nil_r. rewrite skipn_app. rewrite (skipn_all2 l1) by lia.
  replace (S (length l1) - length l1)%nat with 1%nat by lia. cbn [skipn app].
  symmetry. apply Permutation_middle.
Qed.

Definition clist (c : cursor p) : pvec p := (ckey c, cval c) :: crest c.
Definition cweight (coeffs : list F) (c : cursor p) : F := nth (cIdx c) coeffs 0%F.
Definition qcoef (coeffs : list F) q (k : Z) : F :=
  fsum (map (fun c => (cweight coeffs c * coef (clist c) k)%F) q).

Lemma qcoef_perm coeffs q q' k : Permutation q q' -> qcoef coeffs q k = qcoef coeffs q' k.
Proof. intros H. unfold qcoef. apply fsum_perm. now apply Permutation_map. Qed.

Lemma begin_cursor_spec i (l : pvec p) :
  match begin_cursor i l with
  | None => l = []
  | Some c => clist c = l /\ cIdx c = i
  end.
Proof. destruct l as [|[k x] l]; cbn; auto. Qed.

Record minv (coeffs : list F) (acc : pvec p) (cur : Z * F) (q : list (cursor p)) : Prop := {
  mi_sorted : ksorted acc;
  mi_lt : forall k, In k (keys acc) -> k < fst cur;
  mi_nz : forall k x, In (k, x) acc -> x <> 0%F;
  mi_q : forall c, In c q -> ksorted (clist c) /\ fst cur <= ckey c
}.

(** The largest key in the machine state. *)
Definition mmax (cur : Z * F) q (M : Z) : Prop :=
  (fst cur = M \/ exists c, In c q /\ In M (keys (clist c))) /\
  fst cur <= M /\ (forall c k, In c q -> In k (keys (clist c)) -> k <= M).

Lemma queue_terms_perm (q q' : list (cursor p)) : Permutation q q' -> queue_terms q = queue_terms q'.
Proof. unfold queue_terms. induction 1; cbn in *; lia. Qed.

Lemma merge_step_inv coeffs acc cur q M :
  q <> [] -> minv coeffs acc cur q -> mmax cur q M ->
  exists acc' cur' q',
    merge_step pick coeffs acc cur q = Some (acc', cur', q') /\
    minv coeffs acc' cur' q' /\ mmax cur' q' M /\
    S (queue_terms q') = queue_terms q /\
    (forall k, (coef (acc' ++ [cur']) k + qcoef coeffs q' k
               = coef (acc ++ [cur]) k + qcoef coeffs q k)%F).
Proof.
  intros Hq Hinv Hmax.
  destruct (Hpick q Hq) as (top & Hn & Hmin).
  unfold merge_step. rewrite Hn.
  pose proof (remove_nth_perm _ _ _ Hn) as Hperm.
  set (popped := remove_nth (pick q) q) in *.
  pose proof (begin_cursor_spec (cIdx top) (crest top)) as Hb.
  set (q' := match begin_cursor (cIdx top) (crest top) with
             | Some cu => popped ++ [cu] | None => popped end).
  set (coeff := nth (cIdx top) coeffs 0%F).
  assert (Htop : In top q) by now apply nth_error_In in Hn.
  destruct (mi_q _ _ _ _ Hinv top Htop) as [Hts Htk].
  assert (Hpop : forall c, In c popped -> In c q).
  { intros c Hc. apply (Permutation_in c (Permutation_sym Hperm)). now right. }
  (* shape of q' *)
  assert (Hq'in : forall c, In c q' -> In c popped \/
             (clist c = crest top /\ cIdx c = cIdx top)).
  { intros c Hc. unfold q' in Hc. destruct (begin_cursor (cIdx top) (crest top)) as [cu|].
    - apply in_app_iff in Hc. destruct Hc as [Hc|[<-|[]]]; [now left|right]. tauto.
    - now left. }
  assert (Hq'keys : forall k, In k (keys (crest top)) -> exists c, In c q' /\ In k (keys (clist c))).
  { intros k Hk. unfold q'. destruct (begin_cursor (cIdx top) (crest top)) as [cu|].
    - exists cu. split; [apply in_app_iff; right; now left|]. destruct Hb as [-> _]. assumption.
    - rewrite Hb in Hk. contradiction. }
  assert (Hq'pop : forall c, In c popped -> In c q').
  { intros c Hc. unfold q'. destruct (begin_cursor (cIdx top) (crest top)); [apply in_app_iff; now left|assumption]. }
  assert (Hqc : forall k, (qcoef coeffs q k = coeff * (if ckey top =? k then cval top else 0) + qcoef coeffs q' k)%F).
  { intros k. rewrite (qcoef_perm coeffs q _ k Hperm). unfold qcoef at 1. cbn [map fsum].
    fold (qcoef coeffs popped k). unfold clist at 1. rewrite coef_cons.
    change (cweight coeffs top) with coeff.
    unfold q'. destruct (begin_cursor (cIdx top) (crest top)) as [cu|].
    - destruct Hb as [Hb1 Hb2]. unfold qcoef. rewrite map_app, fsum_app. cbn [map fsum].
      unfold cweight at 3. rewrite Hb1, Hb2. fold coeff. ring.
    - rewrite Hb. rewrite coef_nil. ring. }
  assert (Hterms : S (queue_terms q') = queue_terms q).
  { rewrite (queue_terms_perm _ _ Hperm). cbn [queue_terms fold_right].
    fold (queue_terms popped). unfold q'.
    destruct (begin_cursor (cIdx top) (crest top)) as [cu|].
    - destruct Hb as [Hb1 _].
      rewrite (queue_terms_perm (popped ++ [cu]) (cu :: popped))
        by (symmetry; apply Permutation_cons_append).
      cbn. rewrite <- Hb1. cbn. reflexivity.
    - now rewrite Hb. }
  assert (Hsr : ksorted (crest top)) by (destruct Hts; assumption).
  assert (Hrk : forall k, In k (keys (crest top)) -> ckey top < k).
  { intros k Hk. apply in_keys in Hk. destruct Hk as (x & Hx). destruct Hts as [H _].
    apply (H _ Hx). }
  assert (Hq'ok : forall c, In c q' -> ksorted (clist c) /\ ckey top <= ckey c).
  { intros c Hc. apply Hq'in in Hc. destruct Hc as [Hc|[Hc _]].
    - pose proof (Hpop c Hc). split; [apply (mi_q _ _ _ _ Hinv); assumption|now apply Hmin].
    - rewrite Hc. split; [assumption|]. apply Z.lt_le_incl, Hrk. rewrite <- Hc. now left. }
  destruct Hmax as (Hm1 & Hm2 & Hm3).
  assert (Hmaxq' : forall c k, In c q' -> In k (keys (clist c)) -> k <= M).
  { intros c k Hc Hk. apply Hq'in in Hc. destruct Hc as [Hc|[Hc _]].
    - apply (Hm3 c k); auto.
    - rewrite Hc in Hk. apply (Hm3 top k Htop). now right. }
  assert (Hmex : forall m, (exists c, In c q /\ In m (keys (clist c))) ->
             ckey top = m \/ exists c, In c q' /\ In m (keys (clist c))).
  { intros m (c & Hc & Hk). apply (Permutation_in c Hperm) in Hc. destruct Hc as [<-|Hc].
    - destruct Hk as [Hk|Hk]; [now left|right; now apply Hq'keys].
    - right. exists c. split; [now apply Hq'pop|assumption]. }
  destruct (ckey top =? fst cur) eqn:E.
  - apply Z.eqb_eq in E.
    eexists acc, _, q'. split; [reflexivity|]. split; [|split; [|split]].
    + destruct Hinv as [I1 I2 I3 I4]. constructor; cbn [fst]; auto.
      intros c Hc. specialize (Hq'ok c Hc). split; [tauto|lia].
    + repeat split; cbn [fst]; try assumption.
      destruct Hm1 as [Hm1|Hm1]; [now left|].
      apply Hmex in Hm1. destruct Hm1; [left; lia|now right].
    + exact Hterms.
    + intros k. rewrite Hqc. rewrite !coef_app. destruct cur as [ck cx]. cbn [fst snd] in *.
      rewrite !coef_cons, !coef_nil, E. destruct (ck =? k); ring.
  - apply Z.eqb_neq in E. assert (Hlt : fst cur < ckey top) by lia.
    eexists _, _, q'. split; [reflexivity|]. split; [|split; [|split]].
    + destruct Hinv as [I1 I2 I3 I4]. constructor; cbn [fst].
      * destruct (feqb (snd cur) 0%F); [assumption|]. apply ksorted_app. repeat split.
        -- assumption.
        -- destruct cur as [ck cx]; cbn. split; [intros e []|trivial].
        -- intros a b Ha [<-|[]]. now apply I2.
      * intros k Hk. destruct (feqb (snd cur) 0%F); [apply I2 in Hk; lia|].
        unfold keys in Hk. rewrite map_app in Hk. apply in_app_iff in Hk.
        destruct Hk as [Hk|[<-|[]]]; [apply I2 in Hk; lia|assumption].
      * intros k x Hk. destruct (feqb (snd cur) 0%F) eqn:E0; [now apply (I3 k)|].
        apply in_app_iff in Hk. destruct Hk as [Hk|[Hk|[]]]; [now apply (I3 k)|].
        apply feqb_neq in E0. now rewrite Hk in E0.
      * exact Hq'ok.
    + repeat split; cbn [fst]; try assumption.
      * destruct Hm1 as [Hm1|Hm1].
        -- exfalso. assert (ckey top <= M) by (apply (Hm3 top); [assumption|now left]). lia.
        -- apply Hmex in Hm1. exact Hm1.
      * apply (Hm3 top); [assumption|now left].
    + exact Hterms.
    + intros k. rewrite Hqc. rewrite !coef_app, !coef_cons, !coef_nil.
      destruct cur as [ck cx]. cbn [fst snd] in *. rewrite coef_cons, coef_nil.
      destruct (feqb cx 0%F) eqn:E0.
      * apply feqb_eq in E0. subst cx. destruct (ck =? k), (ckey top =? k); ring.
      * rewrite coef_app, coef_cons, coef_nil. destruct (ck =? k), (ckey top =? k); ring.
Qed.

Lemma merge_loop_spec fuel coeffs acc cur q M :
  (queue_terms q <= fuel)%nat -> minv coeffs acc cur q -> mmax cur q M ->
  let r := merge_loop pick fuel coeffs acc cur q in
  ksorted r /\
  (forall k, coef r k = coef (acc ++ [cur]) k + qcoef coeffs q k)%F /\
  (forall k, In k (keys r) <-> coef r k <> 0%F \/ k = M).
Proof.
  revert acc cur q. induction fuel as [|fuel IH]; intros acc cur q Hf Hinv Hmax.
  - assert (q = []) as -> by (destruct q; [reflexivity|cbn in Hf; lia]).
    cbn [merge_loop]. cbv zeta.
    assert (Hs : ksorted (acc ++ [cur])).
    { destruct Hinv as [I1 I2 I3 I4]. apply ksorted_app. repeat split.
      - assumption.
      - destruct cur as [ck cx]; cbn. split; [intros e []|trivial].
      - intros a b Ha [<-|[]]. now apply I2. }
    split; [exact Hs|]. split; [intros k; unfold qcoef; cbn; ring|].
    intros k. destruct Hmax as ([HM|(c & [] & _)] & _).
    split.
    + intros Hk. unfold keys in Hk. rewrite map_app in Hk. apply in_app_iff in Hk.
      destruct Hk as [Hk|[<-|[]]]; [left|now right].
      apply in_keys in Hk. destruct Hk as (x & Hx).
      rewrite (coef_in _ k x); [|assumption|apply in_app_iff; now left].
      now apply (mi_nz _ _ _ _ Hinv k).
    + intros [Hk| ->].
      * destruct (in_dec Z.eq_dec k (keys (acc ++ [cur]))) as [H|H]; [assumption|].
        exfalso. apply Hk. now apply coef_notin.
      * unfold keys. rewrite map_app. apply in_app_iff. right. now left.
  - cbn [merge_loop]. destruct q as [|c0 q0].
    + apply (IH acc cur []); [cbn; lia|assumption|assumption] || idtac.
      assert (E : merge_loop pick fuel coeffs acc cur [] = acc ++ [cur]) by (destruct fuel; reflexivity).
      specialize (IH acc cur [] ltac:(cbn; lia) Hinv Hmax). rewrite E in IH. exact IH.
    + destruct (merge_step_inv coeffs acc cur (c0 :: q0) M ltac:(discriminate) Hinv Hmax)
        as (acc' & cur' & q' & Hst & Hinv' & Hmax' & Hterms & Hc).
      rewrite Hst. cbv zeta.
      destruct (IH acc' cur' q' ltac:(lia) Hinv' Hmax') as (R1 & R2 & R3).
      split; [exact R1|]. split; [|exact R3].
      intros k. rewrite R2. apply Hc.
Qed.

(** Initial queue. *)
Lemma init_queue_coef (cs : list (lincon p)) (all pre coeffs : list F) k :
  length cs = length coeffs -> all = pre ++ coeffs ->
  (qcoef all (init_queue (length pre) cs coeffs) k
   = fsum (map (fun e => (snd e * coef (lterms (fst e)) k)%F) (combine cs coeffs))).
Proof.
  revert pre coeffs. induction cs as [|c cs IH]; intros pre [|x coeffs] Hl Hall; cbn in Hl; try discriminate.
  - reflexivity.
  - cbn [init_queue combine map fsum fst snd].
    assert (IH' : qcoef all (init_queue (S (length pre)) cs coeffs) k
       = fsum (map (fun e => (snd e * coef (lterms (fst e)) k)%F) (combine cs coeffs))).
    { specialize (IH (pre ++ [x]) coeffs ltac:(lia)). rewrite app_length in IH. cbn [length] in IH.
      rewrite Nat.add_1_r in IH. apply IH. now rewrite <- app_assoc. }
    pose proof (begin_cursor_spec (length pre) (lterms c)) as Hb.
    destruct (begin_cursor (length pre) (lterms c)) as [cu|].
    + destruct Hb as [Hb1 Hb2]. destruct (feqb x 0%F) eqn:E.
      * apply feqb_eq in E. rewrite IH', E. ring.
      * unfold qcoef. cbn [map fsum].
        fold (qcoef all (init_queue (S (length pre)) cs coeffs) k). rewrite IH', Hb1.
        unfold cweight. rewrite Hb2, Hall. rewrite app_nth2, Nat.sub_diag by lia. reflexivity.
    + rewrite IH', Hb, coef_nil. ring.
Qed.

Lemma in_init_queue (cs : list (lincon p)) (coeffs : list F) i c :
  In c (init_queue i cs coeffs) ->
  exists lc x, In (lc, x) (combine cs coeffs) /\ x <> 0%F /\ clist c = lterms lc.
Proof.
  revert i coeffs. induction cs as [|lc cs IH]; intros i [|x coeffs] H; cbn in H; try contradiction.
  pose proof (begin_cursor_spec i (lterms lc)) as Hb.
  destruct (begin_cursor i (lterms lc)) as [cu|].
  - destruct (feqb x 0%F) eqn:E.
    + apply IH in H. destruct H as (lc' & x' & H1 & H2). exists lc', x'. split; [now right|tauto].
    + destruct H as [<-|H].
      * exists lc, x. split; [now left|]. apply feqb_neq in E. tauto.
      * apply IH in H. destruct H as (lc' & x' & H1 & H2). exists lc', x'. split; [now right|tauto].
  - apply IH in H. destruct H as (lc' & x' & H1 & H2). exists lc', x'. split; [now right|tauto].
Qed.

Lemma init_queue_complete (cs : list (lincon p)) (coeffs : list F) i lc x :
  In (lc, x) (combine cs coeffs) -> x <> 0%F -> lterms lc <> [] ->
  exists c, In c (init_queue i cs coeffs) /\ clist c = lterms lc.
Proof.
  revert i coeffs. induction cs as [|lc' cs IH]; intros i [|x' coeffs] H Hx Ht; cbn in H; try contradiction.
  cbn [init_queue].
  pose proof (begin_cursor_spec i (lterms lc')) as Hb.
  destruct H as [E|H].
  - injection E as -> ->. destruct (begin_cursor i (lterms lc)) as [cu|]; [|contradiction].
    replace (feqb x 0%F) with false by (symmetry; now apply feqb_neq).
    exists cu. split; [now left|tauto].
  - destruct (IH (S i) coeffs H Hx Ht) as (c & Hc & He).
    exists c. split; [|assumption].
    destruct (begin_cursor i (lterms lc')) as [cu|]; [|assumption].
    destruct (feqb x' 0%F); [assumption|now right].
Qed.

Lemma max_key_exists (q : list (cursor p)) : q <> [] ->
  exists M, (exists c, In c q /\ In M (keys (clist c))) /\
            (forall c k, In c q -> In k (keys (clist c)) -> k <= M).
Proof.
  intros Hq.
  assert (H : exists l : list Z, l <> [] /\
     forall k, In k l <-> exists c, In c q /\ In k (keys (clist c))).
  { exists (flat_map (fun c => keys (clist c)) q). split.
    - destruct q; [contradiction|discriminate].
    - intros k. now rewrite in_flat_map. }
  destruct H as (l & Hl & Hin).
  assert (Hmx : exists M, In M l /\ forall k, In k l -> k <= M).
  { clear -Hl. induction l as [|a l IH]; [contradiction|]. destruct l as [|b l].
    - exists a. split; [now left|]. intros k [->|[]]. lia.
    - destruct IH as (M & HM & Hle); [discriminate|].
      destruct (Z_le_gt_dec a M).
      + exists M. split; [now right|]. intros k [->|Hk]; [assumption|auto].
      + exists a. split; [now left|]. intros k [->|Hk]; [lia|]. specialize (Hle k Hk). lia. }
  destruct Hmx as (M & HM & Hle). exists M. split; [now apply Hin|].
  intros c k Hc Hk. apply Hle. apply Hin. eauto.
Qed.

Lemma lin_merge_throw (cs : list (lincon p)) coeffs :
  lin_merge pick cs coeffs = Throw <-> length cs <> length coeffs.
Proof.
  unfold lin_merge. destruct (Nat.eqb (length cs) (length coeffs)) eqn:E; cbn [negb].
  - apply Nat.eqb_eq in E. split; [|contradiction].
    destruct (init_queue 0 cs coeffs) as [|c0 q0]; [discriminate|].
    destruct (nth_error (c0 :: q0) (pick (c0 :: q0))); discriminate.
  - apply Nat.eqb_neq in E. tauto.
Qed.

Theorem lin_merge_spec (cs : list (lincon p)) coeffs :
  length cs = length coeffs -> Forall wf_lin cs ->
  exists m, lin_merge pick cs coeffs = Ret m /\
    ksorted (lterms m) /\
    (forall k, coef (lterms m) k = comb_coef cs coeffs k) /\
    (forall k, In k (keys (lterms m)) <->
               comb_coef cs coeffs k <> 0%F \/ is_max_index cs coeffs k) /\
    leq m = merge_eq cs coeffs.
Proof.
  intros Hl Hwf. unfold lin_merge. rewrite (proj2 (Nat.eqb_eq _ _) Hl). cbn [negb].
  pose proof (fun k => init_queue_coef cs coeffs [] coeffs k Hl eq_refl) as Hc. cbn [length] in Hc.
  change (forall k, qcoef coeffs (init_queue 0 cs coeffs) k = comb_coef cs coeffs k) in Hc.
  assert (Hlive : forall c x, In (c, x) (combine cs coeffs) -> x <> 0%F ->
                 forall k, In k (keys (lterms c)) ->
                 exists cu, In cu (init_queue 0 cs coeffs) /\ clist cu = lterms c).
  { intros c x Hin Hx k Hk. apply (init_queue_complete _ _ 0%nat c x Hin Hx).
    intros E. rewrite E in Hk. contradiction. }
  destruct (init_queue 0 cs coeffs) as [|c0 q0] eqn:Eq.
  - exists (LinCon [] 0%F). split; [reflexivity|]. cbn [lterms leq]. split; [exact I|].
    assert (Hz : forall k, comb_coef cs coeffs k = 0%F) by (intros k; rewrite <- Hc; reflexivity).
    split; [intros k; now rewrite Hz|]. split.
    + intros k. cbn. split; [contradiction|]. intros [H|[(c & x & Hin & Hx & Hk) _]].
      * now apply H.
      * destruct (Hlive c x Hin Hx k Hk) as (cu & [] & _).
    + clear -Eq Hl. revert coeffs Hl Eq. generalize 0%nat.
      induction cs as [|c cs IH]; intros i [|x coeffs] Hl Eq; cbn in *; try reflexivity; try discriminate.
      pose proof (begin_cursor_spec i (lterms c)) as Hb.
      destruct (begin_cursor i (lterms c)) as [cu|].
      * destruct (feqb x 0%F) eqn:E; [|discriminate]. rewrite <- (IH _ coeffs ltac:(lia) Eq).
        destruct (lterms c); reflexivity.
      * rewrite Hb. apply (IH _ coeffs ltac:(lia) Eq).
  - assert (Hq : c0 :: q0 <> []) by discriminate.
    destruct (Hpick _ Hq) as (top & Hn & Hmin). rewrite Hn.
    eexists. split; [reflexivity|]. cbn [lterms leq].
    destruct (max_key_exists _ Hq) as (M & HM1 & HM2).
    assert (Htop : In top (c0 :: q0)) by now apply nth_error_In in Hn.
    assert (Hinv : minv coeffs [] (ckey top, 0%F) (c0 :: q0)).
    { constructor; cbn [fst].
      - exact I.
      - intros k [].
      - intros k x [].
      - intros c Hin. split; [|now apply Hmin].
        assert (Hin' := Hin). rewrite <- Eq in Hin'. apply in_init_queue in Hin'.
        destruct Hin' as (lc & x & H1 & H2 & ->).
        rewrite Forall_forall in Hwf. apply Hwf. eapply in_combine_l; eassumption. }
    assert (Hmm : mmax (ckey top, 0%F) (c0 :: q0) M).
    { split; [right; exact HM1|]. cbn [fst]. split; [|exact HM2].
      apply (HM2 top); [assumption|now left]. }
    destruct (merge_loop_spec (queue_terms (c0 :: q0)) coeffs [] (ckey top, 0%F) (c0 :: q0) M
               (le_n _) Hinv Hmm) as (R1 & R2 & R3).
    set (r := merge_loop _ _ _ _ _ _) in *.
    assert (Hcc : forall k, coef r k = comb_coef cs coeffs k).
    { intros k. rewrite R2, Hc. cbn [app]. rewrite coef_cons, coef_nil.
      destruct (ckey top =? k); ring. }
    split; [exact R1|]. split; [exact Hcc|]. split; [|reflexivity].
    intros k. rewrite R3, Hcc.
    assert (Hk : k = M <-> is_max_index cs coeffs k); [|tauto].
    assert (HisM : is_max_index cs coeffs M).
    { split.
      - destruct HM1 as (c & Hin & Hk). rewrite <- Eq in Hin. apply in_init_queue in Hin.
        destruct Hin as (lc & x & H1 & H2 & H3). exists lc, x. rewrite <- H3. tauto.
      - intros c x k' Hin Hx Hk'. destruct (Hlive c x Hin Hx k' Hk') as (cu & Hcu & He).
        apply (HM2 cu); [assumption|]. now rewrite He. }
    split; [intros ->; assumption|].
    intros [(c & x & Hin & Hx & Hk) Hle]. destruct HisM as [(c' & x' & Hin' & Hx' & Hk') Hle'].
    specialize (Hle c' x' M Hin' Hx' Hk'). specialize (Hle' c x k Hin Hx Hk). lia.
Qed.

Lemma merge_eq_spec (cs : list (lincon p)) coeffs :
  merge_eq cs coeffs
  = fsum (map (fun e => match lterms (fst e) with [] => 0%F | _ => (snd e * leq (fst e))%F end)
             (combine cs coeffs)).
Proof.
  revert coeffs. induction cs as [|c cs IH]; intros [|x coeffs]; cbn; try reflexivity.
  rewrite IH. destruct (lterms c); [ring|].
  destruct (feqb x 0%F) eqn:E; [apply feqb_eq in E; subst; ring|ring].
Qed.

Lemma merge_eq_full (cs : list (lincon p)) coeffs :
  Forall (fun c => lterms c <> [] \/ leq c = 0%F) cs ->
  merge_eq cs coeffs = comb_rhs cs coeffs.
Proof.
  intros H. rewrite merge_eq_spec. unfold comb_rhs. apply fsum_map_ext.
  intros [c x] Hin. cbn [fst snd]. apply in_combine_l in Hin.
  rewrite Forall_forall in H. specialize (H c Hin).
  destruct (lterms c); [|reflexivity]. destruct H as [H|H]; [contradiction|]. rewrite H. ring.
Qed.

(** Value of the merged form at a witness. *)
Lemma lin_merge_val (cs : list (lincon p)) coeffs m w :
  length cs = length coeffs -> Forall wf_lin cs -> lin_merge pick cs coeffs = Ret m ->
  lin_val (lterms m) w
  = fsum (map (fun e => (snd e * lin_val (lterms (fst e)) w)%F) (combine cs coeffs)).
Proof.
  intros Hl Hwf Hm. destruct (lin_merge_spec cs coeffs Hl Hwf) as (m' & Hm' & Hs & Hc & _ & _).
  rewrite Hm in Hm'. injection Hm' as <-.
  set (ks := nodup Z.eq_dec (keys (lterms m) ++ flat_map (fun c => keys (lterms c)) cs)).
  assert (Hnd : NoDup ks) by apply NoDup_nodup.
  rewrite (lin_val_cover (lterms m) w ks Hnd).
  2:{ intros k Hk. apply nodup_In, in_app_iff. now left. }
  transitivity (fsum (map (fun e => fsum (map (fun k => (snd e * (coef (lterms (fst e)) k * w k))%F) ks))
                          (combine cs coeffs))).
  - rewrite fsum_swap. apply fsum_map_ext. intros k _. rewrite Hc. unfold comb_coef.
    rewrite <- fsum_map_scale_r. apply fsum_map_ext. intros e _. ring.
  - apply fsum_map_ext. intros [c x] Hin. cbn [fst snd].
    rewrite fsum_map_scale. f_equal. symmetry. apply lin_val_cover; [assumption|].
    intros k Hk. apply nodup_In, in_app_iff. right. apply in_flat_map.
    exists c. split; [eapply in_combine_l; eassumption|assumption].
Qed.

Theorem lin_merge_complete (cs : list (lincon p)) coeffs m w :
  length cs = length coeffs -> Forall wf_lin cs -> lin_merge pick cs coeffs = Ret m ->
  Forall (fun c => lin_sat c w) cs -> lin_sat m w.
Proof.
  intros Hl Hwf Hm Hsat. unfold lin_sat. rewrite (lin_merge_val cs coeffs m w Hl Hwf Hm).
  destruct (lin_merge_spec cs coeffs Hl Hwf) as (m' & Hm' & _ & _ & _ & Heq).
  rewrite Hm in Hm'. injection Hm' as <-. rewrite Heq.
  rewrite merge_eq_full.
  - unfold comb_rhs. apply fsum_map_ext. intros [c x] Hin. cbn [fst snd].
    rewrite Forall_forall in Hsat. rewrite (Hsat c); [reflexivity|]. eapply in_combine_l; eassumption.
  - apply Forall_forall. intros c Hc. rewrite Forall_forall in Hsat. specialize (Hsat c Hc).
    destruct (lterms c) eqn:E; [right|now left; congruence || (left; discriminate)].
    unfold lin_sat in Hsat. rewrite E in Hsat. now rewrite <- Hsat.
Qed.

End Merge.

Section Sound.
Context {p : Z} (Hp : prime p).
Notation F := (Fp p).
Add Field FpFld : (Fp_field Hp).

Lemma fsum_powers_peval (f : lincon p -> F) (cs : list (lincon p)) (r : F) :
  fsum (map (fun e => (snd e * f (fst e))%F) (combine cs (powers r (length cs))))
  = peval (map f cs) r.
Proof.
  unfold powers.
  assert (H : forall s, fsum (map (fun e => (snd e * f (fst e))%F)
                (combine cs (map (fun i => (r ^ i)%F) (seq s (length cs)))))
             = (r ^ s * peval (map f cs) r)%F).
  { induction cs as [|c cs IH]; intros s; cbn; [ring|]. rewrite IH. cbn. ring. }
  rewrite H. cbn. ring.
Qed.

Theorem lin_merge_sound pick (Hpick : queue_order pick) (cs : list (lincon p)) w (rs : list F) :
  Forall wf_lin cs -> Forall (fun c => lterms c <> []) cs ->
  ~ Forall (fun c => lin_sat c w) cs ->
  NoDup rs ->
  Forall (fun r => exists m, lin_merge pick cs (powers r (length cs)) = Ret m /\ lin_sat m w) rs ->
  (length rs < length cs)%nat.
Proof.
  intros Hwf Hne Hviol Hnd Hrs.
  set (f := fun c : lincon p => (lin_val (lterms c) w - leq c)%F).
  rewrite <- (map_length f cs). apply (root_bound Hp (map f cs) rs).
  - intros Hz. apply Hviol. unfold pzero in Hz. rewrite Forall_map in Hz.
    eapply Forall_impl; [|exact Hz]. intros c Hc. apply (proj1 (fsub_eq_0 _ _)) in Hc. exact Hc.
  - exact Hnd.
  - eapply Forall_impl; [|exact Hrs]. intros r (m & Hm & Hs).
    assert (Hl : length cs = length (powers r (length cs))).
    { unfold powers. now rewrite map_length, seq_length. }
    unfold lin_sat in Hs. rewrite (lin_merge_val pick Hpick cs _ m w Hl Hwf Hm) in Hs.
    destruct (lin_merge_spec pick Hpick cs _ Hl Hwf) as (m' & Hm' & _ & _ & _ & Heq).
    rewrite Hm in Hm'. injection Hm' as <-. rewrite Heq in Hs.
    rewrite merge_eq_full in Hs.
    2:{ eapply Forall_impl; [|exact Hne]. intros; now left. }
    unfold comb_rhs in Hs.
    rewrite <- (fsum_powers_peval f cs r). unfold f.
    apply fsub_eq_0 in Hs. rewrite <- Hs. rewrite <- fsum_map_sub.
    apply fsum_map_ext. intros [c x] _. cbn [fst snd]. ring.
Qed.
End Sound.

(** The concrete queue order used in examples is a valid one. *)
Lemma min_index_order p : queue_order (@min_index p).
Proof.
  intros q. induction q as [|c q IH]; intros Hq; [contradiction|].
  destruct q as [|c' q'].
  - exists c. split; [reflexivity|]. intros x [->|[]]. lia.
  - destruct IH as (m & Hm & Hle); [discriminate|].
    change (min_index (c :: c' :: q')) with
      (match nth_error (c' :: q') (min_index (c' :: q')) with
       | Some m => if ckey c <=? ckey m then O else S (min_index (c' :: q'))
       | None => O end).
    rewrite Hm. destruct (ckey c <=? ckey m) eqn:E.
    + apply Z.leb_le in E. exists c. split; [reflexivity|].
      intros x [->|Hx]; [lia|]. specialize (Hle x Hx). lia.
    + apply Z.leb_gt in E. exists m. split; [exact Hm|].
      intros x [->|Hx]; [lia|auto].
Qed.

(** ** Quadratic constraints *)
Section Quad.
Context {p : Z}.
Notation F := (Fp p).
Add Ring FpRing3 : (@Fp_ring p).

Lemma in_zinsert s k x : In x (zinsert s k) <-> x = k \/ In x s.
Proof.
  induction s as [|a s IH]; cbn; [intuition|].
  destruct (k <? a); [cbn; intuition|]. destruct (k =? a) eqn:E.
  - apply Z.eqb_eq in E. subst. cbn. intuition.
  - cbn. rewrite IH. intuition.
Qed.
Lemma zinsert_sorted s k : zsorted s -> zsorted (zinsert s k).
Proof.
  induction s as [|a s IH]; intros Hs; cbn; [split; [intros e []|trivial]|].
  destruct (k <? a) eqn:E1; [|destruct (k =? a) eqn:E2].
  - apply Z.ltb_lt in E1. split; [|exact Hs]. intros e [<-|He]; [assumption|].
    destruct Hs as [H _]. specialize (H e He). lia.
  - exact Hs.
  - apply Z.ltb_ge in E1. apply Z.eqb_neq in E2. destruct Hs as [H Hs]. split; [|auto].
    intros e He. apply in_zinsert in He. destruct He as [->|He]; [lia|auto].
Qed.
Lemma in_zinsert_all s src x : In x (zinsert_all s src) <-> In x s \/ In x src.
Proof.
  unfold zinsert_all. revert s. induction src as [|a src IH]; intros s; cbn; [intuition|].
  rewrite IH, in_zinsert. intuition.
Qed.
Lemma zinsert_all_sorted s src : zsorted s -> zsorted (zinsert_all s src).
Proof.
  unfold zinsert_all. revert s. induction src as [|a src IH]; intros s Hs; cbn; [assumption|].
  apply IH. now apply zinsert_sorted.
Qed.
Lemma zmem_In s k : zmem s k = true <-> In k s.
Proof.
  unfold zmem. rewrite existsb_exists. split.
  - intros (x & Hx & E). apply Z.eqb_eq in E. now subst.
  - intros H. exists k. split; [assumption|apply Z.eqb_refl].
Qed.

Lemma quad_val_perm s s' (u v : Z -> F) : Permutation s s' -> quad_val s u v = quad_val s' u v.
Proof. intros H. unfold quad_val. apply fsum_perm. now apply Permutation_map. Qed.
Lemma quad_val_app s s' (u v : Z -> F) : quad_val (s ++ s') u v = (quad_val s u v + quad_val s' u v)%F.
Proof. unfold quad_val. now rewrite map_app, fsum_app. Qed.

Lemma zinsert_all_perm s src :
  zsorted s -> zsorted src -> (forall k, In k s -> ~ In k src) ->
  Permutation (zinsert_all s src) (s ++ src).
Proof.
  intros Hs Hsrc Hd. apply NoDup_Permutation.
  - apply zsorted_NoDup. now apply zinsert_all_sorted.
  - apply zsorted_NoDup in Hs, Hsrc.
    clear -Hs Hsrc Hd. induction s as [|a s IH]; cbn; [assumption|].
    inversion Hs; subst. constructor.
    + rewrite in_app_iff. intros [H|H]; [contradiction|]. apply (Hd a); [now left|assumption].
    + apply IH; [assumption|]. intros k Hk. apply Hd. now right.
  - intros x. rewrite in_zinsert_all, in_app_iff. tauto.
Qed.

Lemma quad_merge_throw (qs : list (quadcon p)) coeffs :
  quad_merge qs coeffs = Throw <-> length qs <> length coeffs.
Proof.
  unfold quad_merge. destruct (Nat.eqb (length qs) (length coeffs)) eqn:E; cbn [negb].
  - apply Nat.eqb_eq in E. split; [discriminate|contradiction].
  - apply Nat.eqb_neq in E. tauto.
Qed.

Theorem quad_merge_spec (qs : list (quadcon p)) coeffs :
  length qs = length coeffs -> Forall wf_quad qs ->
  exists m, quad_merge qs coeffs = Ret m /\ zsorted (qidx m) /\
    (forall k, In k (qidx m) <-> exists q, In q qs /\ In k (qidx q)) /\
    qeq m = fsum (map (fun e : quadcon p * F => (qeq (fst e) * snd e * snd e)%F) (combine qs coeffs)) /\
    (all_disjoint qs -> forall u v : Z -> F,
       quad_val (qidx m) u v = fsum (map (fun q => quad_val (qidx q) u v) qs)).
Proof.
  intros Hl Hwf. unfold quad_merge. rewrite (proj2 (Nat.eqb_eq _ _) Hl). cbn [negb].
  eexists. split; [reflexivity|].
  assert (H : forall acc : quadcon p, zsorted (qidx acc) ->
     (forall k q, In q qs -> In k (qidx acc) -> In k (qidx q) -> all_disjoint qs -> False) \/ True ->
     let m := fold_left
              (fun acc e => QuadCon (zinsert_all (qidx acc) (qidx (fst e)))
                                    (qeq acc + qeq (fst e) * snd e * snd e)%F)
              (combine qs coeffs) acc in
     zsorted (qidx m) /\
     (forall k, In k (qidx m) <-> In k (qidx acc) \/ exists q, In q qs /\ In k (qidx q)) /\
     qeq m = (qeq acc + fsum (map (fun e : quadcon p * F => (qeq (fst e) * snd e * snd e)%F) (combine qs coeffs)))%F /\
     (all_disjoint qs -> (forall k q, In q qs -> In k (qidx acc) -> ~ In k (qidx q)) ->
        forall u v : Z -> F, quad_val (qidx m) u v
          = (quad_val (qidx acc) u v + fsum (map (fun q => quad_val (qidx q) u v) qs))%F)).
  { clear -Hl Hwf. revert coeffs Hl. induction qs as [|q qs IH]; intros [|x coeffs] Hl acc Hs _;
      cbn in Hl; try discriminate; cbn [combine fold_left].
    - cbv zeta. repeat split; try assumption; try tauto.
      + intros [H|(q & [] & _)]. assumption.
      + cbn. ring.
      + intros. cbn. ring.
    - inversion Hwf as [|? ? Hq Hwf']; subst.
      destruct (IH Hwf' coeffs ltac:(lia)
                 (QuadCon (zinsert_all (qidx acc) (qidx q)) (qeq acc + qeq q * x * x)%F)
                 (zinsert_all_sorted _ _ Hs) (or_intror I)) as (R1 & R2 & R3 & R4).
      cbv zeta. cbn [fst snd qidx qeq] in *. split; [exact R1|]. split; [|split].
      + intros k. rewrite R2, in_zinsert_all. split.
        * intros [[H|H]|(q' & H & H')]; [tauto| |].
          -- right. exists q. split; [now left|assumption].
          -- right. exists q'. split; [now right|assumption].
        * intros [H|(q' & [->|H] & H')]; [tauto|tauto|]. right. now exists q'.
      + rewrite R3. cbn [map fsum fst snd]. ring.
      + intros [Hd1 Hd2] Hacc u v. rewrite R4; [|assumption|].
        * rewrite (quad_val_perm _ (qidx acc ++ qidx q)).
          -- rewrite quad_val_app. cbn [map fsum]. ring.
          -- apply zinsert_all_perm; [assumption|assumption|].
             intros k Hk. apply (Hacc k q); [now left|assumption].
        * intros k q' Hin Hk Hk'. apply in_zinsert_all in Hk. destruct Hk as [Hk|Hk].
          -- apply (Hacc k q'); [now right|assumption|assumption].
          -- apply (Hd1 k q' Hin Hk Hk'). }
  destruct (H (QuadCon [] 0%F) I (or_intror I)) as (R1 & R2 & R3 & R4). cbn [qidx qeq] in *.
  split; [exact R1|]. split; [|split].
  - intros k. rewrite R2. cbn. tauto.
  - rewrite R3. ring.
  - intros Hd u v. rewrite R4; [|assumption|intros k q _ []].
    unfold quad_val at 1. cbn [map fsum]. ring.
Qed.

(** disjointness loop of operator+= *)
Lemma disjoint_loop_cons a s1 b s2 :
  disjoint_loop (a :: s1) (b :: s2) =
  if a <? b then disjoint_loop s1 (b :: s2)
  else if b <? a then disjoint_loop (a :: s1) s2 else Throw.
Proof. reflexivity. Qed.
Lemma disjoint_loop_spec (s1 s2 : list Z) :
  zsorted s1 -> zsorted s2 -> s2 <> [] ->
  disjoint_loop s1 s2 =
    if existsb (fun k => zmem s2 k) s1 then Throw
    else match s1 with
         | [] => Ret tt
         | _ => if last s1 0 <? last s2 0 then Ret tt else UB
         end.
Proof.
  revert s2. induction s1 as [|a s1 IH]; intros s2 H1 H2 Hne.
  - destruct s2; reflexivity.
  - induction s2 as [|b s2 IH2]; [contradiction|]. clear Hne.
    destruct H1 as [L1 S1]. destruct H2 as [L2 S2].
    rewrite disjoint_loop_cons. destruct (a <? b) eqn:E1; [|destruct (b <? a) eqn:E2].
    + apply Z.ltb_lt in E1. rewrite IH; [|assumption|split; assumption|discriminate].
      cbn [existsb].
      assert (Ha : zmem (b :: s2) a = false).
      { apply not_true_iff_false. rewrite zmem_In. intros [->|H]; [lia|]. apply L2 in H. lia. }
      rewrite Ha. cbn [orb]. destruct (existsb (fun k => zmem (b :: s2) k) s1) eqn:Ex; [reflexivity|].
      destruct s1 as [|a' s1']; [|reflexivity].
      cbn [last]. assert (Hl : a < last (b :: s2) 0); [|apply Z.ltb_lt in Hl; cbn [last] in Hl; now rewrite Hl].
      clear -E1 L2. destruct s2 as [|c s2]; [cbn; lia|].
      assert (Hin : In (last (c :: s2) 0) (c :: s2)).
      { rewrite (app_removelast_last 0 (l := c :: s2)) at 2 by discriminate.
        apply in_app_iff. right. now left. }
      apply L2 in Hin. change (last (b :: c :: s2) 0) with (last (c :: s2) 0). lia.
    + apply Z.ltb_lt in E2. apply Z.ltb_ge in E1.
      assert (Hb : zmem (a :: s1) b = false).
      { apply not_true_iff_false. rewrite zmem_In. intros [->|H]; [lia|]. apply L1 in H. lia. }
      assert (Hex : existsb (fun k => zmem (b :: s2) k) (a :: s1) = existsb (fun k => zmem s2 k) (a :: s1)).
      { apply Bool.eq_iff_eq_true. rewrite !existsb_exists. split; intros (x & Hx & Hm); exists x; split; try assumption.
        - apply zmem_In in Hm. apply zmem_In. destruct Hm as [->|Hm]; [|assumption].
          apply not_true_iff_false in Hb. exfalso. apply Hb. now apply zmem_In.
        - apply zmem_In in Hm. apply zmem_In. now right. }
      rewrite Hex. destruct s2 as [|c s2].
      * cbn [disjoint_loop]. replace (existsb (fun k => zmem [] k) (a :: s1)) with false
          by (symmetry; apply not_true_iff_false; rewrite existsb_exists; intros (x & _ & Hx); discriminate).
        assert (Hl : last [b] 0 <= last (a :: s1) 0).
        { cbn [last]. destruct s1 as [|a' s1']; [cbn; lia|].
          assert (Hin : In (last (a' :: s1') 0) (a' :: s1')).
          { rewrite (app_removelast_last 0 (l := a' :: s1')) at 2 by discriminate.
            apply in_app_iff. right. now left. }
          apply L1 in Hin. change (last (a :: a' :: s1') 0) with (last (a' :: s1') 0). lia. }
        apply Z.ltb_ge in Hl. now rewrite Hl.
      * rewrite IH2; [|assumption|discriminate].
        change (last (b :: c :: s2) 0) with (last (c :: s2) 0). reflexivity.
    + assert (a = b) by (apply Z.ltb_ge in E1, E2; lia). subst b.
      cbn [existsb]. replace (zmem (a :: s2) a) with true
        by (symmetry; apply zmem_In; now left). reflexivity.
Qed.
End Quad.
