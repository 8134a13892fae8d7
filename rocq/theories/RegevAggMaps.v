(** Lemmas on the loops over maps of RegevAggModel.v. *)
From Coq Require Import ZArith Znumtheory List Bool Lia Ring Field.
From Verif Require Import NumTheory Outcome Fp FSum GroupMod ConstraintsModel ConstraintsSpec ConstraintsProofs ConstraintsMerge
  ConstraintsOther PedersenModel BulletproofModel RegevPfModel RegevAggModel.
Import ListNotations.
Open Scope Z_scope.

Section Maps.
Context {p : Z}.
Notation F := (Fp p).
Add Ring Fr : (@Fp_ring p).

Lemma kget_coef (l : pvec p) k : ksorted l -> kget l k = coef l k.
Proof.
  intros H. unfold kget. rewrite kfind_coef by assumption. destruct (in_dec _ _ _); [reflexivity|]. symmetry. now apply coef_notin.
Qed.

Lemma div_one_spec (t : pvec p) idxs r t' : ksorted t -> zsorted idxs -> div_one t idxs r = Ret t' ->
  ksorted t' /\ (forall k, In k (keys t') <-> In k (keys t) \/ In k idxs) /\
  (idxs <> [] -> r <> 0%F) /\
  (forall k, In k idxs -> coef t' k = (coef t k * finv r)%F) /\ (forall k, ~ In k idxs -> coef t' k = coef t k).
Proof.
  revert t. induction idxs as [|i idxs IH]; intros t Ht Hs H; cbn [div_one] in H.
  - injection H as <-. split; [exact Ht|]. split; [intros k; cbn; tauto|]. split; [congruence|]. split; [intros k []|reflexivity].
  - apply obind_ret_inv in H as (ri & Er & H). destruct Hs as [Hlt Hs].
    assert (Hr : r <> 0%F /\ ri = finv r).
    { unfold finvert in Er. destruct (feqb r 0%F) eqn:E0; [discriminate|]. injection Er as <-. split; [|reflexivity].
      intros ->. rewrite (proj2 (feqb_eq _ _) eq_refl) in E0. discriminate. }
    destruct Hr as [Hr ->].
    destruct (IH _ (kset_sorted _ _ _ Ht) Hs H) as (A & B & _ & D & E). split; [exact A|]. split; [|split; [auto|split]].
    + intros k. rewrite B, keys_kset by assumption. cbn. intuition.
    + intros k [<-|Hk].
      * rewrite E by (intros Hi; apply Hlt in Hi; lia). rewrite coef_kset, Z.eqb_refl by assumption. now rewrite kget_coef.
      * rewrite D by assumption. rewrite coef_kset by assumption. apply Hlt in Hk.
        rewrite (proj2 (Z.eqb_neq k i)) by lia. reflexivity.
    + intros k Hk. rewrite E by (cbn in Hk; tauto). rewrite coef_kset by assumption.
      rewrite (proj2 (Z.eqb_neq k i)); [reflexivity|]. intros ->. apply Hk. now left.
Qed.
Lemma div_one_total (t : pvec p) idxs r : r <> 0%F -> exists t', div_one t idxs r = Ret t'.
Proof.
  intros Hr. revert t. induction idxs as [|i idxs IH]; intros t; cbn [div_one]; [now eexists|].
  unfold finvert. destruct (feqb r 0%F) eqn:E; [apply feqb_eq in E; contradiction|]. cbn [obind]. apply IH.
Qed.
Lemma div_all_spec qs : forall rs (t t' : pvec p), ksorted t -> Forall wf_quad qs -> all_disjoint qs -> length qs = length rs ->
  div_all t qs rs = Ret t' ->
  ksorted t' /\ (forall k, In k (keys t') <-> In k (keys t) \/ exists q, In q qs /\ In k (qidx q)) /\
  (forall q r k, In (q, r) (combine qs rs) -> In k (qidx q) -> r <> 0%F /\ coef t' k = (coef t k * finv r)%F) /\
  (forall k, (forall q, In q qs -> ~ In k (qidx q)) -> coef t' k = coef t k).
Proof.
  induction qs as [|q qs IH]; intros [|r rs] t t' Ht Hw Hd Hl H; cbn in Hl; try discriminate; cbn [div_all] in H.
  - injection H as <-. split; [exact Ht|]. split; [|split; [intros ? ? ? []|reflexivity]].
    intros k. split; [tauto|]. intros [H|(q & [] & _)]. assumption.
  - apply obind_ret_inv in H as (t1 & E1 & H). inversion Hw as [|? ? Hq Hw']; subst. destruct Hd as [Hd1 Hd2].
    destruct (div_one_spec t (qidx q) r t1 Ht Hq E1) as (A & B & C & D & E).
    destruct (IH rs t1 t' A Hw' Hd2 ltac:(lia) H) as (A' & B' & C' & D'). split; [exact A'|]. split; [|split].
    + intros k. rewrite B', B. split.
      * intros [[K|K]|(q' & K & K')]; [tauto|right; exists q; split; [now left|assumption]|right; exists q'; split; [now right|assumption]].
      * intros [K|(q' & [<-|K] & K')]; [tauto|tauto|right; now exists q'].
    + intros q' r' k [K|K] Hk.
      * injection K as <- <-. split; [apply C; destruct (qidx q); [destruct Hk|discriminate]|]. rewrite D'; [now apply D|].
        intros q' Hq'. now apply Hd1.
      * destruct (C' q' r' k K Hk) as [X Y]. split; [exact X|]. rewrite Y, E; [reflexivity|].
        intros K'. exact (Hd1 k q' (in_combine_l _ _ _ _ K) K' Hk).
    + intros k Hk. rewrite D', E; [reflexivity|apply Hk; now left|]. intros q' Hq'. apply Hk. now right.
Qed.
Lemma div_all_total qs : forall rs (t : pvec p), (forall r, In r rs -> r <> 0%F) -> exists t', div_all t qs rs = Ret t'.
Proof.
  induction qs as [|q qs IH]; intros [|r rs] t H; cbn [div_all]; try (now eexists).
  destruct (div_one_total t (qidx q) r (H r (or_introl eq_refl))) as (t1 & E). rewrite E. cbn [obind]. apply IH.
  intros r' Hr. apply H. now right.
Qed.

Lemma mul_one_spec (t : pvec p) idxs r : ksorted t -> zsorted idxs ->
  ksorted (mul_one t idxs r) /\ (forall k, In k (keys (mul_one t idxs r)) <-> In k (keys t) \/ In k idxs) /\
  (forall k, In k idxs -> coef (mul_one t idxs r) k = (coef t k * r)%F) /\
  (forall k, ~ In k idxs -> coef (mul_one t idxs r) k = coef t k).
Proof.
  unfold mul_one. revert t. induction idxs as [|i idxs IH]; intros t Ht Hs; cbn [fold_left].
  - split; [exact Ht|]. split; [intros k; cbn; tauto|]. split; [intros k []|reflexivity].
  - destruct Hs as [Hlt Hs]. destruct (IH (kset t i (kget t i * r)%F) (kset_sorted _ _ _ Ht) Hs) as (A & B & D & E).
    split; [exact A|]. split; [|split].
    + intros k. rewrite B, keys_kset by assumption. cbn. intuition.
    + intros k [<-|Hk].
      * rewrite E by (intros Hi; apply Hlt in Hi; lia). rewrite coef_kset, Z.eqb_refl by assumption. now rewrite kget_coef.
      * rewrite D by assumption. rewrite coef_kset by assumption. apply Hlt in Hk.
        rewrite (proj2 (Z.eqb_neq k i)) by lia. reflexivity.
    + intros k Hk. rewrite E by (cbn in Hk; tauto). rewrite coef_kset by assumption.
      rewrite (proj2 (Z.eqb_neq k i)); [reflexivity|]. intros ->. apply Hk. now left.
Qed.
Lemma mul_all_spec qs : forall rs (t : pvec p), ksorted t -> Forall wf_quad qs -> all_disjoint qs -> length qs = length rs ->
  let t' := mul_all t qs rs in
  ksorted t' /\ (forall k, In k (keys t') <-> In k (keys t) \/ exists q, In q qs /\ In k (qidx q)) /\
  (forall q r k, In (q, r) (combine qs rs) -> In k (qidx q) -> coef t' k = (coef t k * r)%F) /\
  (forall k, (forall q, In q qs -> ~ In k (qidx q)) -> coef t' k = coef t k).
Proof.
  induction qs as [|q qs IH]; intros [|r rs] t Ht Hw Hd Hl; cbn in Hl; try discriminate; cbn [mul_all]; cbv zeta.
  - split; [exact Ht|]. split; [|split; [intros ? ? ? []|reflexivity]].
    intros k. split; [tauto|]. intros [H|(q & [] & _)]. assumption.
  - inversion Hw as [|? ? Hq Hw']; subst. destruct Hd as [Hd1 Hd2].
    destruct (mul_one_spec t (qidx q) r Ht Hq) as (A & B & D & E).
    destruct (IH rs (mul_one t (qidx q) r) A Hw' Hd2 ltac:(lia)) as (A' & B' & C' & D'). split; [exact A'|]. split; [|split].
    + intros k. rewrite B', B. split.
      * intros [[K|K]|(q' & K & K')]; [tauto|right; exists q; split; [now left|assumption]|right; exists q'; split; [now right|assumption]].
      * intros [K|(q' & [<-|K] & K')]; [tauto|tauto|right; now exists q'].
    + intros q' r' k [K|K] Hk.
      * injection K as <- <-. rewrite D'; [now apply D|]. intros q' Hq'. now apply Hd1.
      * rewrite (C' q' r' k K Hk), E; [reflexivity|]. intros K'. exact (Hd1 k q' (in_combine_l _ _ _ _ K) K' Hk).
    + intros k Hk. rewrite D', E; [reflexivity|apply Hk; now left|]. intros q' Hq'. apply Hk. now right.
Qed.

Lemma sub_lock_spec (w : pvec p) : forall d r, sub_lock w d = Ret r ->
  keys r = keys w /\ keys d = keys w /\ (forall k, coef r k = (coef w k - coef d k)%F).
Proof.
  induction w as [|[k x] w IH]; intros [|[k' y] d] r H; cbn [sub_lock] in H; try discriminate.
  - injection H as <-. split; [reflexivity|]. split; [reflexivity|]. intros k. rewrite !coef_nil. ring.
  - destruct (k =? k') eqn:E; [|discriminate]. apply Z.eqb_eq in E. subst k'. apply obind_ret_inv in H as (r' & E & H). injection H as <-.
    destruct (IH d r' E) as (A & B & C). cbn [keys map fst]. fold (keys r') (keys w) (keys d). rewrite A, B. repeat split.
    intros j. rewrite !coef_cons, C. destruct (k =? j); ring.
Qed.
Lemma sub_lock_total (w : pvec p) : forall d, keys d = keys w -> exists r, sub_lock w d = Ret r.
Proof.
  induction w as [|[k x] w IH]; intros [|[k' y] d] H; cbn in H; try discriminate; [now eexists|].
  injection H as -> H. destruct (IH d H) as (r & E). cbn [sub_lock]. rewrite Z.eqb_refl, E. now eexists.
Qed.

Lemma keep_terms_spec (w : pvec p) : forall t : pvec p, ksorted w -> ksorted t -> (forall k, In k (keys t) -> In k (keys w)) ->
  keys (keep_terms w t) = keys t /\ ksorted (keep_terms w t) /\ (forall k, In k (keys t) -> coef (keep_terms w t) k = coef w k).
Proof.
  induction w as [|[k x] w IH]; intros [|[k' y] t] Hw Ht Hin; cbn [keep_terms].
  - split; [reflexivity|]. split; [exact I|]. intros k [].
  - exfalso. exact (Hin k' (or_introl eq_refl)).
  - split; [reflexivity|]. split; [exact I|]. intros j [].
  - destruct Hw as [L S]. destruct (k' =? k) eqn:E.
    + apply Z.eqb_eq in E. subst k'. destruct Ht as [L' S'].
      destruct (IH t S S') as (A & B & C).
      { intros j Hj. destruct (Hin j (or_intror Hj)) as [K|K]; [|exact K]. cbn in K. subst j. apply in_keys in Hj as (z & Hz). apply L' in Hz. cbn in Hz. lia. }
      cbn [keys map fst]. fold (keys (keep_terms w t)) (keys t). rewrite A. split; [reflexivity|]. split.
      * cbn [ksorted]. split; [|exact B]. intros [j z] Hj. assert (Hk : In j (keys t)) by (rewrite <- A; apply in_keys; now exists z).
        apply in_keys in Hk as (z' & Hz). exact (L' _ Hz).
      * intros j Hj. rewrite !coef_cons. destruct (k =? j) eqn:E.
        -- apply Z.eqb_eq in E. subst j. rewrite !coef_notin; [reflexivity| |].
           ++ intros K. apply in_keys in K as (z & Hz). apply L in Hz. cbn in Hz. lia.
           ++ rewrite A. intros K. apply in_keys in K as (z & Hz). apply L' in Hz. cbn in Hz. lia.
        -- apply Z.eqb_neq in E. destruct Hj as [K|Hj]; [cbn in K; congruence|]. rewrite C by assumption. reflexivity.
    + apply Z.eqb_neq in E.
      assert (Hin' : forall j, In j (keys ((k', y) :: t)) -> In j (keys w)).
      { intros j Hj. assert (K' : In k' (keys w)). { destruct (Hin k' (or_introl eq_refl)) as [K|K]; [cbn in K; congruence|exact K]. }
        destruct (Hin j Hj) as [K|K]; [|exact K]. cbn in K. subst j. exfalso. apply in_keys in K' as (z & Hz). apply L in Hz. cbn in Hz.
        destruct Hj as [K|K]; [cbn in K; lia|]. destruct Ht as [L' _]. apply in_keys in K as (z' & Hz'). apply L' in Hz'. cbn in Hz'. lia. }
      destruct (IH ((k', y) :: t) S Ht Hin') as (A & B & C). split; [exact A|]. split; [exact B|].
      intros j Hj. rewrite C by assumption. rewrite coef_cons. destruct (k =? j) eqn:E'; [|ring].
      apply Z.eqb_eq in E'. subst j. exfalso. apply Hin' in Hj. apply in_keys in Hj as (z & Hz). apply L in Hz. cbn in Hz. lia.
Qed.

Lemma kinsert_last (d : pvec p) k x : ksorted d -> (forall e, In e d -> fst e < k) -> kinsert d k x = d ++ [(k, x)].
Proof.
  intros Hs Hl. unfold kinsert. destruct (kfind d k) eqn:E.
  - apply kfind_some in E; [|assumption]. apply Hl in E. cbn in E. lia.
  - clear E. induction d as [|[k' y] d IH]; [reflexivity|]. cbn [kset app]. pose proof (Hl _ (or_introl eq_refl)) as L. cbn in L.
    rewrite (proj2 (Z.ltb_ge k k')), (proj2 (Z.eqb_neq k k')) by lia. f_equal. apply IH; [apply Hs|]. intros e He. apply Hl. now right.
Qed.
Lemma ksorted_snoc (d : pvec p) k x : ksorted d -> (forall e, In e d -> fst e < k) -> ksorted (d ++ [(k, x)]).
Proof. intros A B. apply ksorted_app. split; [exact A|]. split; [cbn; split; [intros e []|exact I]|]. intros e e' He [<-|[]]. apply in_keys in He as (z & Hz). exact (B _ Hz). Qed.

(** The offset vectors: for each index of as in order, -rho*a - u and u. *)
Lemma delta_loop_spec nrho (as_ : pvec p) : forall us dG dH, (length as_ <= length us)%nat ->
  ksorted dG -> ksorted dH -> ksorted as_ -> (forall e e', In e dG -> In e' as_ -> fst e < fst e') -> (forall e e', In e dH -> In e' as_ -> fst e < fst e') ->
  exists as', delta_loop nrho as_ us dG dH =
    Ret (as', dG ++ map (fun e => (fst (fst e), (snd (fst e) * nrho - snd e)%F)) (combine as_ us),
         dH ++ map (fun e => (fst (fst e), snd e)) (combine as_ us)).
Proof.
  induction as_ as [|[k a] as_ IH]; intros us dG dH Hl HG HH Ha LG LH; cbn [delta_loop combine map].
  - exists []. now rewrite !app_nil_r.
  - destruct us as [|u us]; cbn [length] in Hl; [lia|]. destruct Ha as [La Sa].
    assert (LG' : forall e, In e dG -> fst e < k) by (intros e He; exact (LG e _ He (or_introl eq_refl))).
    assert (LH' : forall e, In e dH -> fst e < k) by (intros e He; exact (LH e _ He (or_introl eq_refl))).
    rewrite !kinsert_last by assumption.
    destruct (IH us (dG ++ [(k, (a * nrho - u)%F)]) (dH ++ [(k, u)]) ltac:(lia)) as (as' & E).
    + now apply ksorted_snoc.
    + now apply ksorted_snoc.
    + exact Sa.
    + intros e e' He He'. apply in_app_iff in He as [He|[<-|[]]]; [apply LG; [exact He|now right]|exact (La _ He')].
    + intros e e' He He'. apply in_app_iff in He as [He|[<-|[]]]; [apply LH; [exact He|now right]|exact (La _ He')].
    + rewrite E. cbn [obind combine map fst snd]. rewrite <- !app_assoc. cbn [app]. eexists. reflexivity.
Qed.

Lemma sub_inner_spec (as_ : pvec p) : forall us A, (length as_ <= length us)%nat -> sub_inner A as_ us = Ret (A - dot (map snd as_) us)%F.
Proof.
  induction as_ as [|[k a] as_ IH]; intros us A Hl; cbn [sub_inner map].
  - f_equal. cbn. ring.
  - destruct us as [|u us]; cbn [length] in Hl; [lia|]. rewrite IH by lia. f_equal. cbn [dot snd]. ring.
Qed.

Lemma zinsert_last s k : (forall x, In x s -> x < k) -> zinsert s k = s ++ [k].
Proof.
  induction s as [|a s IH]; intros H; [reflexivity|]. cbn [zinsert app]. pose proof (H a (or_introl eq_refl)).
  rewrite (proj2 (Z.ltb_ge k a)), (proj2 (Z.eqb_neq k a)) by lia. f_equal. apply IH. intros x Hx. apply H. now right.
Qed.
Lemma kset_last (d : pvec p) k x : (forall j, In j (keys d) -> j < k) -> kset d k x = d ++ [(k, x)].
Proof.
  induction d as [|[k' y] d IH]; intros Hl; [reflexivity|]. cbn [kset app]. pose proof (Hl _ (or_introl eq_refl)) as L. cbn in L.
  rewrite (proj2 (Z.ltb_ge k k')), (proj2 (Z.eqb_neq k k')) by lia. f_equal. apply IH. intros e He. apply Hl. now right.
Qed.
Lemma keys_app (l l' : pvec p) : keys (l ++ l') = keys l ++ keys l'.
Proof. apply map_app. Qed.

(** powerVector *)
Lemma pow_loop_spec (x : F) n : forall cur, pow_loop fmul n cur x = map (fun i => (cur * x ^ i)%F) (seq 0 n).
Proof.
  induction n as [|n IH]; intros cur; cbn [pow_loop seq map]; [reflexivity|]. f_equal; [cbn [fpow]; ring|].
  rewrite IH, <- seq_shift, map_map. apply map_ext. intros i. cbn [fpow]. ring.
Qed.
Lemma powerVectorS_spec (x : F) n v : powerVectorS x n = Ret v -> (0 < n)%nat /\ v = powers x n.
Proof.
  unfold powerVectorS. destruct (n =? 0)%nat eqn:E; [discriminate|]. apply Nat.eqb_neq in E. intros H. injection H as <-.
  split; [lia|]. rewrite pow_loop_spec. unfold powers. apply map_ext. intros i. ring.
Qed.
Lemma powerVectorS_total (x : F) n : (0 < n)%nat -> powerVectorS x n = Ret (powers x n).
Proof.
  intros H. unfold powerVectorS. rewrite (proj2 (Nat.eqb_neq n 0)) by lia. f_equal. rewrite pow_loop_spec. unfold powers.
  apply map_ext. intros i. ring.
Qed.
Lemma powers_length (x : F) n : length (powers x n) = n.
Proof. unfold powers. now rewrite map_length, seq_length. Qed.

Lemma innerProd_dot (u : list F) : innerProd u u (length u) = Ret (dot u u).
Proof.
  unfold innerProd, sub. cbn [skipn]. rewrite Nat.leb_refl. cbn [obind]. rewrite firstn_all. f_equal.
  assert (H : forall (a b : list F) c, fold_left (fun c e => (c + fst e * snd e)%F) (combine a b) c = (c + dot a b)%F).
  { induction a as [|x a IH]; intros [|y b] c; cbn; try ring. rewrite IH. ring. }
  rewrite H. ring.
Qed.
End Maps.
