(** Proofs about the remaining functions of constraints.cpp. *)
From Coq Require Import ZArith Znumtheory List Bool Lia Ring Permutation.
From Verif Require Import Outcome Fp FSum ConstraintsModel ConstraintsSpec ConstraintsProofs ConstraintsMerge.
Import ListNotations.
Open Scope Z_scope.

Section Other.
Context {p : Z}.
Notation F := (Fp p).
Add Ring FpRing4 : (@Fp_ring p).
Implicit Types l v w xs ys : pvec p.

(** *** generic facts *)
Lemma last_in {A} (l : list A) d : l <> [] -> In (last l d) l.
Proof.
  intros H. rewrite (app_removelast_last d H) at 2. apply in_app_iff. right. now left.
Qed.
Lemma zsorted_last s x : zsorted s -> In x s -> x <= last s 0.
Proof.
  induction s as [|a s IH]; intros Hs Hx; [contradiction|].
  destruct Hs as [H Hs]. destruct s as [|b s].
  - destruct Hx as [->|[]]. cbn. lia.
  - change (last (a :: b :: s) 0) with (last (b :: s) 0).
    destruct Hx as [->|Hx]; [|now apply IH].
    assert (x < last (b :: s) 0) by (apply H, last_in; discriminate). lia.
Qed.

(** *** innerProduct *)
Lemma innerProduct_cons k1 (a1 : F) v1 k2 (a2 : F) v2 :
  innerProduct ((k1, a1) :: v1) ((k2, a2) :: v2) =
  if k1 <? k2 then innerProduct v1 ((k2, a2) :: v2)
  else if k2 <? k1 then innerProduct ((k1, a1) :: v1) v2
  else (a1 * a2 + innerProduct v1 v2)%F.
Proof. reflexivity. Qed.
Lemma innerProduct_nil_r v : innerProduct v [] = 0%F.
Proof. destruct v as [|[k a] v]; reflexivity. Qed.

Lemma lt_notin_keys k a (x : F) l : ksorted ((a, x) :: l) -> k < a -> ~ In k (keys ((a, x) :: l)).
Proof.
  intros [H _] Hk Hin. cbn in Hin. destruct Hin as [E|Hin]; [lia|]. apply in_keys in Hin. destruct Hin as (y & Hy).
  apply H in Hy. cbn in Hy. lia.
Qed.

Lemma innerProduct_lin v1 v2 : ksorted v1 -> ksorted v2 ->
  innerProduct v1 v2 = lin_val v1 (coef v2).
Proof.
  revert v2. induction v1 as [|[k1 a1] v1 IH]; intros v2 H1 H2.
  - destruct v2; reflexivity.
  - induction v2 as [|[k2 a2] v2 IH2].
    + symmetry. apply fsum_map_0. intros e _. rewrite coef_nil. ring.
    + rewrite innerProduct_cons. destruct (k1 <? k2) eqn:E1; [|destruct (k2 <? k1) eqn:E2].
      * apply Z.ltb_lt in E1. rewrite IH; [|now destruct H1|assumption].
        unfold lin_val. cbn [map fsum fst snd].
        rewrite (coef_notin k1 ((k2, a2) :: v2)) by now apply lt_notin_keys.
        ring.
      * apply Z.ltb_lt in E2. rewrite IH2 by now destruct H2.
        unfold lin_val. apply fsum_map_ext. intros [k x] Hin. cbn [fst snd].
        rewrite coef_cons. assert (k2 < k).
        { destruct Hin as [E|Hin]; [congruence|]. destruct H1 as [H1 _]. apply H1 in Hin. cbn in Hin. lia. }
        destruct (k2 =? k) eqn:E; [apply Z.eqb_eq in E; lia|]. ring.
      * assert (k1 = k2) by (apply Z.ltb_ge in E1, E2; lia). subst k2.
        rewrite IH; [|now destruct H1|now destruct H2].
        unfold lin_val. cbn [map fsum fst snd]. rewrite coef_cons, Z.eqb_refl.
        rewrite (coef_notin k1 v2).
        2:{ intros Hk. apply in_keys in Hk. destruct Hk as (y & Hy). destruct H2 as [H2 _].
            apply H2 in Hy. cbn in Hy. lia. }
        replace (fsum (map (fun e => (snd e * coef ((k1, a2) :: v2) (fst e))%F) v1))
          with (fsum (map (fun e => (snd e * coef v2 (fst e))%F) v1)).
        2:{ apply fsum_map_ext. intros [k x] Hin. cbn [fst snd]. rewrite coef_cons.
            destruct H1 as [H1 _]. apply H1 in Hin. cbn in Hin.
            destruct (k1 =? k) eqn:E; [apply Z.eqb_eq in E; lia|]. ring. }
        ring.
Qed.

Lemma innerProduct_spec v1 v2 ks : ksorted v1 -> ksorted v2 ->
  NoDup ks -> (forall k, In k ks <-> In k (keys v1) /\ In k (keys v2)) ->
  innerProduct v1 v2 = fsum (map (fun k => (coef v1 k * coef v2 k)%F) ks).
Proof.
  intros H1 H2 Hnd Hks. rewrite innerProduct_lin by assumption.
  assert (Hnd1 : NoDup (keys v1)) by (apply zsorted_NoDup; now apply ksorted_keys).
  rewrite (lin_val_cover v1 (coef v2) (keys v1)) by (assumption || auto).
  assert (Hp : Permutation (filter (fun k => if in_dec Z.eq_dec k (keys v2) then true else false) (keys v1)) ks).
  { apply NoDup_Permutation; [now apply NoDup_filter|assumption|].
    intros k. rewrite filter_In, Hks. destruct (in_dec Z.eq_dec k (keys v2)); intuition discriminate. }
  rewrite <- (fsum_perm _ _ (Permutation_map _ Hp)).
  generalize (keys v1) as kk. induction kk as [|k kk IH]; [reflexivity|].
  cbn [filter map fsum]. destruct (in_dec Z.eq_dec k (keys v2)) as [H|H].
  - cbn [map fsum]. now rewrite IH.
  - rewrite (coef_notin k v2 H), IH. ring.
Qed.

Lemma innerProduct_sym v1 v2 : ksorted v1 -> ksorted v2 -> innerProduct v1 v2 = innerProduct v2 v1.
Proof.
  intros H1 H2.
  set (ks := filter (fun k => if in_dec Z.eq_dec k (keys v2) then true else false) (keys v1)).
  assert (Hnd : NoDup ks).
  { apply NoDup_filter, zsorted_NoDup. now apply ksorted_keys. }
  assert (Hks : forall k, In k ks <-> In k (keys v1) /\ In k (keys v2)).
  { intros k. unfold ks. rewrite filter_In. destruct (in_dec Z.eq_dec k (keys v2)); intuition discriminate. }
  rewrite (innerProduct_spec v1 v2 ks), (innerProduct_spec v2 v1 ks); try assumption.
  - apply fsum_map_ext. intros. ring.
  - intros k. rewrite Hks. tauto.
Qed.

(** *** addTerm / addIdx histories *)
Lemma addTerm_spec (c : lincon p) idx s : wf_lin c ->
  wf_lin (addTerm c idx s) /\ leq (addTerm c idx s) = leq c /\
  (forall k, coef (lterms (addTerm c idx s)) k
     = (coef (lterms c) k + if k =? idx then s else 0)%F) /\
  (forall k, In k (keys (lterms (addTerm c idx s))) <-> k = idx \/ In k (keys (lterms c))).
Proof.
  intros Hs. unfold addTerm, wf_lin. cbn [lterms leq]. split; [now apply kset_sorted|].
  split; [reflexivity|]. split.
  - intros k. rewrite coef_kset by assumption. rewrite kfind_coef by assumption.
    destruct (k =? idx) eqn:E.
    + apply Z.eqb_eq in E. subst k. destruct (in_dec Z.eq_dec idx (keys (lterms c))); [reflexivity|].
      rewrite coef_notin by assumption. reflexivity.
    + ring.
  - intros k. now apply keys_kset.
Qed.

Lemma addTerms_spec (ts : list (Z * F)) (c : lincon p) : wf_lin c ->
  let c' := fold_left (fun c e => addTerm c (fst e) (snd e)) ts c in
  wf_lin c' /\ leq c' = leq c /\
  (forall k, coef (lterms c') k = (coef (lterms c) k + coef ts k)%F) /\
  (forall k, In k (keys (lterms c')) <-> In k (keys (lterms c)) \/ In k (keys ts)).
Proof.
  revert c. induction ts as [|[i s] ts IH]; intros c Hs; cbn [fold_left].
  - cbv zeta. repeat split; try assumption; [intros; rewrite coef_nil; ring|tauto|cbn; tauto].
  - destruct (addTerm_spec c i s Hs) as (A1 & A2 & A3 & A4).
    destruct (IH _ A1) as (B1 & B2 & B3 & B4). cbv zeta. cbn [fst snd] in *.
    split; [exact B1|]. split; [congruence|]. split.
    + intros k. rewrite B3, A3, coef_cons. rewrite (Z.eqb_sym i k). ring.
    + intros k. rewrite B4, A4. cbn [keys map fst In]. intuition.
Qed.

Lemma coef_perm (l l' : pvec p) k : Permutation l l' -> coef l k = coef l' k.
Proof. intros H. unfold coef. apply fsum_perm. now apply Permutation_map. Qed.

Lemma addTerms_order (ts ts' : list (Z * F)) (c : lincon p) : wf_lin c -> Permutation ts ts' ->
  fold_left (fun c e => addTerm c (fst e) (snd e)) ts c
  = fold_left (fun c e => addTerm c (fst e) (snd e)) ts' c.
Proof.
  intros Hs Hp. destruct (addTerms_spec ts c Hs) as (A1 & A2 & A3 & A4).
  destruct (addTerms_spec ts' c Hs) as (B1 & B2 & B3 & B4).
  destruct (fold_left _ ts c) as [t e]. destruct (fold_left _ ts' c) as [t' e']. cbn [lterms leq] in *.
  f_equal; [|congruence]. apply ksorted_ext; try assumption.
  - intros k. rewrite A4, B4. assert (In k (keys ts) <-> In k (keys ts')); [|tauto].
    unfold keys. split; apply Permutation_in; [|symmetry]; now apply Permutation_map.
  - intros k. rewrite A3, B3. f_equal. now apply coef_perm.
Qed.

Fixpoint addIdxs (q : quadcon p) (is : list Z) : outcome (quadcon p) :=
  match is with
  | [] => Ret q
  | i :: is' => let! q' := addIdx q i in addIdxs q' is'
  end.

Lemma addIdx_spec (q : quadcon p) i : wf_quad q ->
  (In i (qidx q) /\ addIdx q i = Throw) \/
  (~ In i (qidx q) /\ exists q', addIdx q i = Ret q' /\ wf_quad q' /\ qeq q' = qeq q /\
     forall k, In k (qidx q') <-> k = i \/ In k (qidx q)).
Proof.
  intros Hq. unfold addIdx. destruct (zmem (qidx q) i) eqn:E.
  - left. now apply zmem_In in E.
  - right. split.
    + intros H. apply zmem_In in H. congruence.
    + eexists. split; [reflexivity|]. cbn. split; [now apply zinsert_sorted|]. split; [reflexivity|].
      intros k. apply in_zinsert.
Qed.

Lemma addIdxs_spec (is : list Z) (q : quadcon p) : wf_quad q ->
  (NoDup is /\ (forall i, In i is -> ~ In i (qidx q)) ->
     exists q', addIdxs q is = Ret q' /\ wf_quad q' /\ qeq q' = qeq q /\
       forall k, In k (qidx q') <-> In k is \/ In k (qidx q)) /\
  (~ (NoDup is /\ (forall i, In i is -> ~ In i (qidx q))) -> addIdxs q is = Throw).
Proof.
  revert q. induction is as [|i is IH]; intros q Hq; cbn [addIdxs].
  - split.
    + intros _. exists q. repeat split; try assumption; cbn; tauto.
    + intros H. exfalso. apply H. split; [constructor|intros i []].
  - destruct (addIdx_spec q i Hq) as [[Hin E]|(Hni & q1 & E & W1 & E1 & K1)]; rewrite E; cbn [obind].
    + split; [|reflexivity]. intros [_ H]. exfalso. apply (H i); [now left|assumption].
    + destruct (IH q1 W1) as [A B]. split.
      * intros [Hnd H]. inversion Hnd as [|? ? H1 H2]; subst.
        destruct A as (q' & R & W & Eq & K).
        { split; [assumption|]. intros j Hj Hj1. apply K1 in Hj1. destruct Hj1 as [->|Hj1]; [contradiction|].
          apply (H j); [now right|assumption]. }
        exists q'. split; [assumption|]. split; [assumption|]. split; [congruence|].
        intros k. rewrite K, K1. cbn. intuition.
      * intros H. apply B. intros [Hnd Hd]. apply H. split.
        -- constructor; [|assumption]. intros Hi. apply (Hd i Hi). apply K1. now left.
        -- intros j [<-|Hj]; [assumption|]. intros Hq'. apply (Hd j Hj). apply K1. now right.
Qed.

(** *** operator+= *)
Definition add_ub (q other : quadcon p) : Prop :=
  qidx q <> [] /\ qidx other <> [] /\
  (forall k, In k (qidx q) -> ~ In k (qidx other)) /\
  (exists k, In k (qidx q) /\ forall j, In j (qidx other) -> j < k) /\
  (exists j, In j (qidx other) /\ exists k, In k (qidx q) /\ k < j).

Lemma zsorted_head s a x : zsorted (a :: s) -> In x (a :: s) -> a <= x.
Proof. intros [H _] [->|Hx]; [lia|]. specialize (H x Hx). lia. Qed.

Theorem quad_add_spec (q other : quadcon p) : wf_quad q -> wf_quad other ->
  (qidx q <> [] -> qidx other <> [] ->
     (exists k, In k (qidx q) /\ In k (qidx other)) -> quad_add q other = Throw) /\
  (add_ub q other -> quad_add q other = UB) /\
  (~ (exists k, In k (qidx q) /\ In k (qidx other)) -> ~ add_ub q other ->
     exists r, quad_add q other = Ret r /\ wf_quad r /\
       (forall k, In k (qidx r) <-> In k (qidx q) \/ In k (qidx other)) /\
       (qidx q <> [] -> qidx other <> [] -> qeq r = (qeq q + qeq other)%F) /\
       (qidx other = [] -> r = q) /\ (qidx q = [] -> qidx other <> [] -> r = other)).
Proof.
  unfold wf_quad. destruct q as [s e], other as [t f]. cbn [qidx qeq]. intros Hs Ht.
  unfold quad_add. cbn [qidx qeq]. unfold add_ub. cbn [qidx].
  destruct t as [|o0 t].
  { split; [|split].
    - intros _ H. contradiction.
    - intros (_ & H & _). contradiction.
    - intros _ _. exists (QuadCon s e). cbn. repeat split; try tauto; try contradiction; try assumption. }
  destruct s as [|i0 s].
  { split; [|split].
    - intros H. contradiction.
    - intros (H & _). contradiction.
    - intros _ _. exists (QuadCon (o0 :: t) f). cbn [qidx qeq]. repeat split; try tauto; try contradiction; try discriminate; cbn in *; tauto. }
  set (S := i0 :: s) in *. set (T := o0 :: t) in *.
  assert (HSl : In (last S 0) S) by (apply last_in; discriminate).
  assert (HTl : In (last T 0) T) by (apply last_in; discriminate).
  pose proof (fun x => zsorted_last S x Hs) as HSm. pose proof (fun x => zsorted_last T x Ht) as HTm.
  pose proof (fun x => zsorted_head s i0 x Hs) as HSh. pose proof (fun x => zsorted_head t o0 x Ht) as HTh.
  fold S in HSh. fold T in HTh.
  assert (HR : forall k, In k (zinsert_all S T) <-> In k S \/ In k T) by (intros; apply in_zinsert_all).
  assert (HW : zsorted (zinsert_all S T)) by now apply zinsert_all_sorted.
  destruct ((i0 <=? last T 0) && (o0 <=? last S 0)) eqn:Erange.
  - rewrite (disjoint_loop_spec S T Hs Ht) by discriminate.
    apply andb_true_iff in Erange. destruct Erange as [R1 R2]. apply Z.leb_le in R1, R2.
    destruct (existsb (fun k => zmem T k) S) eqn:Ex.
    + apply existsb_exists in Ex. destruct Ex as (k & Hk & Hk'). apply zmem_In in Hk'.
      split; [reflexivity|]. split.
      * intros (_ & _ & Hd & _). exfalso. now apply (Hd k).
      * intros H. exfalso. apply H. now exists k.
    + assert (Hdis : forall k, In k S -> ~ In k T).
      { intros k Hk Hk'. apply not_true_iff_false in Ex. apply Ex. apply existsb_exists.
        exists k. split; [assumption|now apply zmem_In]. }
      split; [intros _ _ (k & Hk & Hk'); exfalso; now apply (Hdis k)|].
      change (match S with [] => Ret tt | _ :: _ => if last S 0 <? last T 0 then Ret tt else UB end)
        with (if last S 0 <? last T 0 then Ret tt else UB : outcome unit).
      destruct (last S 0 <? last T 0) eqn:El; cbn [obind].
      * apply Z.ltb_lt in El. split.
        -- intros (_ & _ & _ & (k & Hk & Hj) & _). specialize (Hj _ HTl). specialize (HSm k Hk). lia.
        -- intros _ _. eexists. split; [reflexivity|]. cbn [qidx qeq].
           repeat split; try assumption; try apply HR; intros; discriminate.
      * apply Z.ltb_ge in El. split; [reflexivity|].
        intros _ Hub. exfalso. apply Hub. repeat split; try discriminate.
        -- exact Hdis.
        -- exists (last S 0). split; [assumption|]. intros j Hj.
           specialize (HTm j Hj). assert (j <> last S 0); [|lia]. intros ->. now apply (Hdis (last S 0)).
        -- exists (last T 0). split; [assumption|]. exists i0. split; [now left|].
           assert (i0 <> last T 0); [|lia]. intros E. apply (Hdis i0); [now left|]. now rewrite E.
  - cbn [obind].
    assert (Hd : last T 0 < i0 \/ last S 0 < o0).
    { apply andb_false_iff in Erange. destruct Erange as [R|R]; apply Z.leb_gt in R; tauto. }
    assert (Hdis : ~ exists k, In k S /\ In k T).
    { intros (k & Hk & Hk'). specialize (HSm k Hk). specialize (HTm k Hk').
      specialize (HSh k Hk). specialize (HTh k Hk'). lia. }
    split; [intros _ _ H; contradiction|]. split.
    + intros (_ & _ & _ & (k & Hk & Hj) & (j & Hj' & k' & Hk' & Hlt)). exfalso.
      specialize (HSm k Hk). specialize (HTm j Hj'). specialize (HSh k' Hk'). specialize (Hj o0 (or_introl eq_refl)).
      lia.
    + intros _ _. eexists. split; [reflexivity|]. cbn [qidx qeq].
      repeat split; try assumption; try apply HR; intros; discriminate.
Qed.

(** *** setDifference and splitPtxtVec *)
Definition inset (s : list Z) (e : Z * F) : bool := zmem s (fst e).

Lemma setDifference_cons k (x : F) l b s :
  setDifference ((k, x) :: l) (b :: s) =
  if k <? b then (k, x) :: setDifference l (b :: s)
  else if b <? k then setDifference ((k, x) :: l) s
  else setDifference l s.
Proof. reflexivity. Qed.
Lemma split_loop_cons k (x : F) l b s :
  split_loop ((k, x) :: l) (b :: s) =
  if k <? b then (let '(i, d) := split_loop l (b :: s) in (i, (k, x) :: d))
  else if b <? k then split_loop ((k, x) :: l) s
  else (let '(i, d) := split_loop l s in ((k, x) :: i, d)).
Proof. reflexivity. Qed.

Lemma zmem_false s k : zmem s k = false <-> ~ In k s.
Proof. rewrite <- zmem_In. destruct (zmem s k); intuition congruence. Qed.

Lemma filter_ext_in {A} (f g : A -> bool) (l : list A) :
  (forall x, In x l -> f x = g x) -> filter f l = filter g l.
Proof.
  induction l as [|a l IH]; intros H; [reflexivity|]. cbn.
  rewrite (H a) by now left. rewrite IH by (intros; apply H; now right). reflexivity.
Qed.

Lemma zmem_cons_lt b s k : b < k -> zmem (b :: s) k = zmem s k.
Proof. intros H. cbn. destruct (k =? b) eqn:E; [apply Z.eqb_eq in E; lia|reflexivity]. Qed.


Lemma filter_true {A} (f : A -> bool) (l : list A) : (forall x, In x l -> f x = true) -> filter f l = l.
Proof.
  induction l as [|a l IH]; intros H; [reflexivity|]. cbn. rewrite (H a) by now left.
  f_equal. apply IH. intros; apply H; now right.
Qed.
Lemma filter_false {A} (f : A -> bool) (l : list A) : (forall x, In x l -> f x = false) -> filter f l = [].
Proof.
  induction l as [|a l IH]; intros H; [reflexivity|]. cbn. rewrite (H a) by now left.
  apply IH. intros; apply H; now right.
Qed.

Lemma split_loop_spec l s : ksorted l -> zsorted s ->
  split_loop l s = (filter (inset s) l, filter (fun e => negb (inset s e)) l).
Proof.
  revert s. induction l as [|[k x] l IH]; intros s Hl Hs.
  - destruct s; reflexivity.
  - induction s as [|b s IH2].
    + rewrite filter_false by reflexivity. rewrite filter_true by reflexivity. reflexivity.
    + rewrite split_loop_cons. destruct (k <? b) eqn:E1; [|destruct (b <? k) eqn:E2].
      * apply Z.ltb_lt in E1. rewrite IH; [|now destruct Hl|assumption].
        cbn [filter]. unfold inset at 3 6. cbn [fst].
        replace (zmem (b :: s) k) with false; [reflexivity|].
        symmetry. apply zmem_false. intros [->|Hk]; [lia|]. destruct Hs as [Hs _]. apply Hs in Hk. lia.
      * apply Z.ltb_lt in E2. rewrite IH2 by now destruct Hs.
        assert (H : forall e, In e ((k, x) :: l) -> inset s e = inset (b :: s) e).
        { intros e He. unfold inset. symmetry. apply zmem_cons_lt.
          destruct He as [<-|He]; [assumption|]. destruct Hl as [Hl _]. apply Hl in He. cbn in He. lia. }
        f_equal; apply filter_ext_in; intros e He; now rewrite (H e He).
      * assert (k = b) by (apply Z.ltb_ge in E1, E2; lia). subst b.
        rewrite IH; [|now destruct Hl|now destruct Hs].
        cbn [filter]. unfold inset at 3 6. cbn [fst].
        replace (zmem (k :: s) k) with true by (symmetry; apply zmem_In; now left). cbn [negb].
        assert (H : forall e, In e l -> inset s e = inset (k :: s) e).
        { intros e He. unfold inset. symmetry. apply zmem_cons_lt.
          destruct Hl as [Hl _]. apply Hl in He. cbn in He. lia. }
        f_equal; [f_equal|]; apply filter_ext_in; intros e He; now rewrite (H e He).
Qed.

Lemma setDifference_split l s : setDifference l s = snd (split_loop l s).
Proof.
  revert s. induction l as [|[k x] l IH]; intros s; [now destruct s|].
  induction s as [|b s IH2]; [reflexivity|].
  rewrite setDifference_cons, split_loop_cons. destruct (k <? b); [|destruct (b <? k)].
  - rewrite IH. now destruct (split_loop l (b :: s)).
  - exact IH2.
  - rewrite IH. now destruct (split_loop l s).
Qed.
Lemma setDifference_spec l s : ksorted l -> zsorted s ->
  setDifference l s = filter (fun e => negb (inset s e)) l.
Proof. intros Hl Hs. rewrite setDifference_split, split_loop_spec by assumption. reflexivity. Qed.

Theorem splitPtxtVec_spec src s i d n : ksorted src -> zsorted s ->
  (forall k, In k (keys src) -> 0 <= k) -> (forall k, In k s -> 0 <= k) ->
  splitPtxtVec src s = (i, d, n) ->
  i = filter (inset s) src /\ d = filter (fun e => negb (inset s e)) src /\
  Permutation src (i ++ d) /\
  1 <= n /\ (forall k, In k (keys src) \/ In k s -> k < n) /\
  (n = 1 /\ src = [] /\ s = [] \/ In (n - 1) (keys src) \/ In (n - 1) s).
Proof.
  intros Hl Hs Pl Ps H.
  assert (Hperm : forall f : Z * F -> bool, Permutation src (filter f src ++ filter (fun e => negb (f e)) src)).
  { intros f. clear. induction src as [|e src IH]; [constructor|]. cbn. destruct (f e); cbn.
    - now constructor.
    - rewrite IH at 1. apply Permutation_middle. }
  pose proof (zsorted_last (keys src)) as L1. pose proof (zsorted_last s) as L2.
  apply (proj1 (ksorted_keys src)) in Hl as Hl'.
  unfold splitPtxtVec in H. destruct src as [|e0 src]; [destruct s as [|s0 s]|destruct s as [|s0 s]].
  - apply pair_equal_spec in H; destruct H as [H <-]; apply pair_equal_spec in H; destruct H as [<- <-]. repeat split; cbn; try constructor; try lia; tauto.
  - apply pair_equal_spec in H; destruct H as [H <-]; apply pair_equal_spec in H; destruct H as [<- <-]. split; [reflexivity|]. split; [reflexivity|]. split; [constructor|]. split; [|split].
    + specialize (Ps (last (s0 :: s) 0) (last_in (s0 :: s) 0 ltac:(discriminate))). lia.
    + intros k [[]|Hk]. specialize (L2 k Hs Hk). lia.
    + right. right. replace (1 + last (s0 :: s) 0 - 1) with (last (s0 :: s) 0) by lia.
      apply last_in. discriminate.
  - apply pair_equal_spec in H; destruct H as [H <-]; apply pair_equal_spec in H; destruct H as [<- <-].
    change (map fst (e0 :: src)) with (keys (e0 :: src)).
    rewrite filter_false by reflexivity. rewrite filter_true by reflexivity.
    split; [reflexivity|]. split; [reflexivity|]. split; [reflexivity|]. split; [|split].
    + specialize (Pl (last (keys (e0 :: src)) 0) (last_in (keys (e0 :: src)) 0 ltac:(discriminate))). lia.
    + intros k [Hk|[]]. specialize (L1 k Hl' Hk). lia.
    + right. left. replace (1 + last (keys (e0 :: src)) 0 - 1) with (last (keys (e0 :: src)) 0) by lia.
      apply last_in. discriminate.
  - rewrite split_loop_spec in H by assumption.
    change (map fst (e0 :: src)) with (keys (e0 :: src)) in H.
    apply pair_equal_spec in H; destruct H as [H <-]; apply pair_equal_spec in H; destruct H as [<- <-]. split; [reflexivity|]. split; [reflexivity|]. split; [apply Hperm|].
    pose proof (last_in (keys (e0 :: src)) 0 ltac:(discriminate)) as I1.
    pose proof (last_in (s0 :: s) 0 ltac:(discriminate)) as I2.
    set (m1 := last (keys (e0 :: src)) 0) in *. set (m2 := last (s0 :: s) 0) in *.
    split; [specialize (Ps _ I2); lia|]. split.
    + intros k [Hk|Hk]; [specialize (L1 k Hl' Hk)|specialize (L2 k Hs Hk)]; lia.
    + right. replace (Z.max m1 m2 + 1 - 1) with (Z.max m1 m2) by lia.
      destruct (Z.max_spec m1 m2) as [[_ ->]|[_ ->]]; tauto.
Qed.

(** *** makeAlmostDisjoint *)
Lemma int_of_size_small k : in_range31 k -> int_of_size k = k.
Proof.
  unfold in_range31, int_of_size. intros H.
  rewrite Z.mod_small; lia.
Qed.

Lemma largestKeyQ_spec s : zsorted s -> Forall in_range31 s ->
  (s = [] /\ largestKeyQ s = -1) \/
  (In (largestKeyQ s) s /\ forall k, In k s -> k <= largestKeyQ s).
Proof.
  intros Hs Hr. destruct s as [|a s]; [now left|right].
  pose proof (last_in (a :: s) 0 ltac:(discriminate)) as Hl.
  unfold largestKeyQ. rewrite Forall_forall in Hr. rewrite int_of_size_small by now apply Hr.
  split; [assumption|]. intros k Hk. now apply zsorted_last.
Qed.
Lemma largestKeyL_spec l : ksorted l -> Forall in_range31 (keys l) ->
  (l = [] /\ largestKeyL l = -1) \/
  (In (largestKeyL l) (keys l) /\ forall k, In k (keys l) -> k <= largestKeyL l).
Proof.
  intros Hs Hr. destruct l as [|e l]; [now left|right].
  apply ksorted_keys in Hs.
  change (largestKeyL (e :: l)) with (largestKeyQ (keys (e :: l))).
  destruct (largestKeyQ_spec _ Hs Hr) as [[H _]|H]; [discriminate|exact H].
Qed.

Lemma in_setDiff_keys l s k : ksorted l -> zsorted s ->
  (In k (keys (setDifference l s)) <-> In k (keys l) /\ ~ In k s).
Proof.
  intros Hl Hs. rewrite setDifference_spec by assumption. rewrite !in_keys. split.
  - intros (x & H). apply filter_In in H. destruct H as [H1 H2]. split; [now exists x|].
    unfold inset in H2. cbn in H2. apply negb_true_iff in H2. now apply zmem_false.
  - intros [(x & H1) H2]. exists x. apply filter_In. split; [assumption|].
    unfold inset. cbn. apply negb_true_iff. now apply zmem_false.
Qed.
Lemma filter_sorted (f : Z * F -> bool) l : ksorted l -> ksorted (filter f l).
Proof.
  induction l as [|[k x] l IH]; intros H; [exact I|]. destruct H as [H Hs]. cbn [filter].
  destruct (f (k, x)); [|now apply IH]. split; [|now apply IH].
  intros e He. apply filter_In in He. apply H. tauto.
Qed.

Lemma lin_val_ext l (x y : Z -> F) : (forall k, In k (keys l) -> x k = y k) -> lin_val l x = lin_val l y.
Proof.
  intros H. unfold lin_val. apply fsum_map_ext. intros [k a] He. cbn. rewrite H; [reflexivity|].
  apply in_keys. now exists a.
Qed.
Lemma quad_val_ext s (x y x' y' : Z -> F) :
  (forall k, In k s -> x k = x' k /\ y k = y' k) -> quad_val s x y = quad_val s x' y'.
Proof.
  intros H. unfold quad_val. apply fsum_map_ext. intros k He. destruct (H k He) as [-> ->]. reflexivity.
Qed.

Lemma lin_val_perm l l' (x : Z -> F) : Permutation l l' -> lin_val l x = lin_val l' x.
Proof. intros H. unfold lin_val. apply fsum_perm. now apply Permutation_map. Qed.

Lemma lin_val_split l s (x : Z -> F) : ksorted l -> zsorted s ->
  lin_val l x = (lin_val (filter (fun e => negb (inset s e)) l) x
                 + quad_val s (coef l) x)%F.
Proof.
  intros Hl Hs.
  assert (E : lin_val l x = (lin_val (filter (inset s) l) x + lin_val (filter (fun e => negb (inset s e)) l) x)%F).
  { clear Hl. induction l as [|[k a] l IH]; cbn [filter]; [unfold lin_val; cbn [map fsum]; ring|].
    unfold lin_val in *. cbn [map fsum]. rewrite IH.
    destruct (inset s (k, a)); cbn [negb map fsum]; ring. }
  rewrite E. rewrite (lin_val_cover (filter (inset s) l) x s).
  - unfold quad_val.
    rewrite (fsum_map_ext (fun k => (coef (filter (inset s) l) k * x k)%F) (fun k => (coef l k * x k)%F)); [ring|].
    intros k Hk. f_equal. destruct (in_dec Z.eq_dec k (keys l)) as [H|H].
    + apply in_keys in H. destruct H as (a & Ha).
      rewrite (coef_in l k a) by assumption. apply coef_in; [now apply filter_sorted|].
      apply filter_In. split; [assumption|]. unfold inset. cbn. now apply zmem_In.
    + rewrite !coef_notin; auto. intros H'. apply H. apply in_keys in H'. destruct H' as (a & Ha).
      apply filter_In in Ha. apply in_keys. exists a. tauto.
  - now apply zsorted_NoDup.
  - intros k Hk. apply in_keys in Hk. destruct Hk as (a & Ha). apply filter_In in Ha.
    destruct Ha as [_ Ha]. now apply zmem_In.
Qed.

Theorem makeAlmostDisjoint_spec (lin : lincon p) (quad : quadcon p) (s : F) :
  wf_lin lin -> wf_quad quad ->
  Forall in_range31 (keys (lterms lin)) -> Forall in_range31 (qidx quad) ->
  exists lin' quad' nk,
    makeAlmostDisjoint lin quad s = Ret (lin', quad', nk) /\
    wf_lin lin' /\ wf_quad quad' /\
    ~ In nk (qidx quad) /\
    (forall k, In k (keys (lterms lin')) <-> k = nk \/ (In k (keys (lterms lin)) /\ ~ In k (qidx quad))) /\
    ~ In nk (keys (lterms lin)) /\
    (forall k, In k (qidx quad') <-> k = nk \/ In k (qidx quad)) /\
    coef (lterms lin') nk = 1%F /\
    (forall k, k <> nk -> ~ In k (qidx quad) -> coef (lterms lin') k = coef (lterms lin) k) /\
    forall x y : Z -> F,
      lin_sat lin' (new_x lin quad nk x) /\
      (quad_sat quad' (new_x lin quad nk x) (new_y lin s nk y) <->
       (quad_val (qidx quad) x y - qeq quad = s * (lin_val (lterms lin) x - leq lin))%F).
Proof.
  unfold wf_lin, wf_quad. intros Hl Hq Rl Rq. unfold makeAlmostDisjoint.
  set (t' := setDifference (lterms lin) (qidx quad)).
  assert (Ht' : t' = filter (fun e => negb (inset (qidx quad) e)) (lterms lin)) by now apply setDifference_spec.
  assert (St' : ksorted t') by (rewrite Ht'; now apply filter_sorted).
  assert (Kt' : forall k, In k (keys t') <-> In k (keys (lterms lin)) /\ ~ In k (qidx quad))
    by (intros; now apply in_setDiff_keys).
  assert (Rt' : Forall in_range31 (keys t')).
  { apply Forall_forall. intros k Hk. apply Kt' in Hk. rewrite Forall_forall in Rl. now apply Rl. }
  set (m := Z.max (largestKeyL t') (largestKeyQ (qidx quad))).
  assert (Hm : -1 <= m < 2 ^ 31 - 1 /\ (forall k, In k (keys t') -> k <= m) /\ (forall k, In k (qidx quad) -> k <= m)).
  { assert (A : -1 <= largestKeyL t' < 2 ^ 31 - 1 /\ (forall k, In k (keys t') -> k <= largestKeyL t')).
    { destruct (largestKeyL_spec t' St' Rt') as [[E ->]|[Hi Hk]].
      - rewrite E. split; [lia|intros k []].
      - rewrite Forall_forall in Rt'. apply Rt' in Hi. unfold in_range31 in Hi. split; [lia|assumption]. }
    assert (B : -1 <= largestKeyQ (qidx quad) < 2 ^ 31 - 1 /\ (forall k, In k (qidx quad) -> k <= largestKeyQ (qidx quad))).
    { destruct (largestKeyQ_spec _ Hq Rq) as [[E E']|[Hi Hk]].
      - rewrite E'. split; [lia|]. rewrite E. intros k [].
      - rewrite Forall_forall in Rq. apply Rq in Hi. unfold in_range31 in Hi. split; [lia|assumption]. }
    unfold m. destruct A as [A1 A2], B as [B1 B2]. split; [lia|].
    split; intros k Hk; [specialize (A2 k Hk)|specialize (B2 k Hk)]; lia. }
  destruct Hm as (Hm & HmL & HmQ).
  destruct (m =? 2 ^ 31 - 1) eqn:E; [apply Z.eqb_eq in E; lia|].
  assert (Hnk : size_of_int (m + 1) = m + 1) by (unfold size_of_int; apply Z.mod_small; lia).
  rewrite Hnk. set (nk := m + 1) in *.
  assert (NQ : ~ In nk (qidx quad)) by (intros H; apply HmQ in H; lia).
  assert (NL : ~ In nk (keys t')) by (intros H; apply HmL in H; lia).
  eexists _, _, nk. split; [reflexivity|]. cbn [lterms qidx leq qeq].
  unfold kinsert. rewrite (proj2 (kfind_none t' nk) NL).
  assert (C1 : coef (kset t' nk 1%F) nk = 1%F) by (rewrite coef_kset by assumption; now rewrite Z.eqb_refl).
  assert (CT : forall k, ~ In k (qidx quad) -> coef t' k = coef (lterms lin) k).
  { intros k H2. destruct (in_dec Z.eq_dec k (keys (lterms lin))) as [H|H].
    - apply in_keys in H as H'. destruct H' as (a & Ha). rewrite (coef_in (lterms lin) k a) by assumption.
      apply coef_in; [assumption|]. rewrite Ht'. apply filter_In. split; [assumption|].
      unfold inset. cbn. apply negb_true_iff. now apply zmem_false.
    - rewrite !coef_notin; auto. intros H'. apply Kt' in H'. tauto. }
  split; [now apply kset_sorted|]. split; [now apply zinsert_sorted|].
  split; [assumption|]. split; [intros k; rewrite keys_kset by assumption; rewrite Kt'; tauto|].
  split.
  { intros H. apply NL. apply Kt'. tauto. }
  split; [intros k; apply in_zinsert|]. split; [exact C1|]. split.
  { intros k H1 H2. rewrite coef_kset by assumption.
    destruct (k =? nk) eqn:E'; [apply Z.eqb_eq in E'; contradiction|]. now apply CT. }
  intros x y.
  assert (Hx : forall k, k <> nk -> new_x lin quad nk x k = x k).
  { intros k Hk. unfold new_x. destruct (k =? nk) eqn:E'; [apply Z.eqb_eq in E'; contradiction|reflexivity]. }
  assert (Hxn : new_x lin quad nk x nk = (- lin_val t' x)%F) by (unfold new_x; now rewrite Z.eqb_refl, Ht').
  assert (Hy : forall k, k <> nk -> new_y lin s nk y k = (y k - s * coef (lterms lin) k)%F).
  { intros k Hk. unfold new_y. destruct (k =? nk) eqn:E'; [apply Z.eqb_eq in E'; contradiction|reflexivity]. }
  assert (Hyn : new_y lin s nk y nk = s) by (unfold new_y; now rewrite Z.eqb_refl).
  split.
  - unfold lin_sat. cbn [lterms leq].
    assert (Hpm : Permutation (kset t' nk 1%F) (t' ++ [(nk, 1%F)])).
    { apply NoDup_Permutation.
      - eapply NoDup_map_inv with (f := fst). apply zsorted_NoDup. apply ksorted_keys. now apply kset_sorted.
      - eapply NoDup_map_inv with (f := fst). rewrite map_app. cbn.
        apply NoDup_rev in C1 || idtac.
        apply (Permutation_NoDup (l := nk :: keys t')).
        + apply Permutation_cons_append.
        + constructor; [assumption|]. apply zsorted_NoDup. now apply ksorted_keys.
      - intros [k a]. rewrite in_kset by assumption. rewrite in_app_iff. cbn [In]. split.
        + intros [[-> ->]|[_ H]]; tauto.
        + intros [H|[H|[]]].
          * right. split; [|assumption]. intros ->. apply NL. apply in_keys. now exists a.
          * injection H as <- <-. tauto. }
    rewrite (lin_val_perm _ _ _ Hpm), lin_val_app.
    rewrite (lin_val_ext t' _ x).
    2:{ intros k Hk. apply Hx. intros ->. contradiction. }
    unfold lin_val at 2. cbn [map fsum fst snd]. rewrite Hxn. ring.
  - unfold quad_sat. cbn [qidx qeq].
    assert (Hpm : Permutation (zinsert (qidx quad) nk) (nk :: qidx quad)).
    { apply NoDup_Permutation.
      - apply zsorted_NoDup. now apply zinsert_sorted.
      - constructor; [assumption|]. now apply zsorted_NoDup.
      - intros k. rewrite in_zinsert. cbn. intuition. }
    rewrite (quad_val_perm _ _ _ _ Hpm). unfold quad_val at 1. cbn [map fsum].
    fold (quad_val (qidx quad) (new_x lin quad nk x) (new_y lin s nk y)).
    rewrite Hxn, Hyn.
    rewrite (quad_val_ext (qidx quad) _ _ x (fun k => (y k - s * coef (lterms lin) k)%F)).
    2:{ intros k Hk. assert (k <> nk) by (intros ->; contradiction). split; [now apply Hx|now apply Hy]. }
    assert (Q : quad_val (qidx quad) x (fun k => (y k - s * coef (lterms lin) k)%F)
              = (quad_val (qidx quad) x y - s * quad_val (qidx quad) (coef (lterms lin)) x)%F).
    { unfold quad_val. rewrite <- fsum_map_scale, <- fsum_map_sub. apply fsum_map_ext. intros. ring. }
    rewrite Q. pose proof (lin_val_split (lterms lin) (qidx quad) x Hl Hq) as HL.
    rewrite <- Ht' in HL. rewrite HL. clear Q HL Hx Hxn Hy Hyn.
    split; intros H.
    + apply (proj2 (fsub_eq_0 _ _)) in H. apply (proj1 (fsub_eq_0 _ _)). rewrite <- H. ring.
    + apply (proj2 (fsub_eq_0 _ _)) in H. apply (proj1 (fsub_eq_0 _ _)). rewrite <- H. ring.
Qed.

Theorem makeAlmostDisjoint_back (lin : lincon p) (quad : quadcon p) (s : F) lin' quad' nk (x y : Z -> F) :
  wf_lin lin -> wf_quad quad ->
  Forall in_range31 (keys (lterms lin)) -> Forall in_range31 (qidx quad) ->
  makeAlmostDisjoint lin quad s = Ret (lin', quad', nk) ->
  lin_sat lin' x -> quad_sat quad' x y -> y nk = s ->
  (quad_val (qidx quad) x (fun k => y k + s * coef (lterms lin) k) - qeq quad
   = s * (lin_val (lterms lin) x - leq lin))%F.
Proof.
  intros Hl Hq Rl Rq Hm Hsl Hsq Hy.
  destruct (makeAlmostDisjoint_spec lin quad s Hl Hq Rl Rq)
    as (l' & q' & nk' & E & Wl & Wq & N1 & Kl & N2 & Kq & C1 & C2 & HS).
  rewrite Hm in E. injection E as <- <- <-.
  destruct (HS x (fun k => (y k + s * coef (lterms lin) k)%F)) as [HS1 HS2].
  assert (Hx : forall k, k <> nk -> new_x lin quad nk x k = x k).
  { intros k Hk. unfold new_x. destruct (k =? nk) eqn:E'; [apply Z.eqb_eq in E'; contradiction|reflexivity]. }
  (* the linear constraint determines the fresh variable *)
  assert (Hd : x nk = new_x lin quad nk x nk).
  { unfold lin_sat in HS1, Hsl. rewrite <- Hsl in HS1.
    assert (Hnd : NoDup (keys (lterms lin'))) by (apply zsorted_NoDup; now apply ksorted_keys).
    assert (Hin : In nk (keys (lterms lin'))) by (apply Kl; now left).
    rewrite !(lin_val_cover (lterms lin') _ (keys (lterms lin'))) in HS1 by auto.
    apply in_split in Hin. destruct Hin as (k1 & k2 & Ek). rewrite Ek in HS1, Hnd.
    apply NoDup_remove_2 in Hnd.
    rewrite !map_app, !fsum_app in HS1. cbn [map fsum] in HS1. rewrite C1 in HS1.
    rewrite (fsum_map_ext (fun k => (coef (lterms lin') k * new_x lin quad nk x k)%F)
              (fun k => (coef (lterms lin') k * x k)%F) k1) in HS1
      by (intros k Hk; rewrite Hx; [reflexivity|intros ->; apply Hnd; apply in_app_iff; tauto]).
    rewrite (fsum_map_ext (fun k => (coef (lterms lin') k * new_x lin quad nk x k)%F)
              (fun k => (coef (lterms lin') k * x k)%F) k2) in HS1
      by (intros k Hk; rewrite Hx; [reflexivity|intros ->; apply Hnd; apply in_app_iff; tauto]).
    apply fadd_cancel_l in HS1.
    apply (proj2 (fsub_eq_0 _ _)) in HS1. apply (proj1 (fsub_eq_0 _ _)).
    match type of HS1 with ?e = _ => transitivity (- e)%F end; [ring|]. rewrite HS1. ring. }
  apply HS2. unfold quad_sat in *. rewrite <- Hsq. apply quad_val_ext. intros k Hk. split.
  - destruct (Z.eq_dec k nk) as [->|Hn]; [now symmetry|now apply Hx].
  - unfold new_y. destruct (k =? nk) eqn:E'.
    + apply Z.eqb_eq in E'. now subst k.
    + ring.
Qed.

(** *** checkConstraint *)
Lemma check_lin_loop_spec l w sum : ksorted l -> ksorted w ->
  check_lin_loop l w sum =
  if list_eq_dec Z.eq_dec (keys l) (keys w) then Some (sum + lin_val l (coef w))%F else None.
Proof.
  revert w sum. induction l as [|[k a] l IH]; intros [|[k' x] w] sum Hl Hw; cbn [check_lin_loop].
  - destruct (list_eq_dec Z.eq_dec (keys []) (keys [])) as [_|H]; [|contradiction].
    unfold lin_val. cbn. f_equal. ring.
  - destruct (list_eq_dec _ _ _) as [H|_]; [discriminate|reflexivity].
  - destruct (list_eq_dec _ _ _) as [H|_]; [discriminate|reflexivity].
  - destruct (k =? k') eqn:E.
    + apply Z.eqb_eq in E. subst k'. destruct Hl as [Hl1 Hl], Hw as [Hw1 Hw].
      rewrite IH by assumption. destruct (list_eq_dec Z.eq_dec (keys l) (keys w)) as [H|H];
      destruct (list_eq_dec Z.eq_dec (keys ((k, a) :: l)) (keys ((k, x) :: w))) as [H'|H'].
      * f_equal. unfold lin_val. cbn [map fsum fst snd]. rewrite coef_cons, Z.eqb_refl.
        rewrite (coef_notin k w).
        2:{ intros Hk. apply in_keys in Hk. destruct Hk as (z & Hz). apply Hw1 in Hz. cbn in Hz. lia. }
        rewrite (fsum_map_ext (fun e => (snd e * coef ((k, x) :: w) (fst e))%F) (fun e => (snd e * coef w (fst e))%F)); [ring|].
        intros [j b] Hj. cbn [fst snd]. rewrite coef_cons. apply Hl1 in Hj. cbn in Hj.
        destruct (k =? j) eqn:E; [apply Z.eqb_eq in E; lia|]. f_equal. ring.
      * exfalso. apply H'. cbn [keys map fst]. now f_equal.
      * exfalso. apply H. now injection H'.
      * reflexivity.
    + destruct (list_eq_dec _ _ _) as [H|_]; [|reflexivity].
      exfalso. injection H as H _. apply Z.eqb_neq in E. contradiction.
Qed.

Theorem checkLin_spec (c : lincon p) w : wf_lin c -> ksorted w ->
  (checkLin c w = true <->
   (forall k, In k (keys (lterms c)) <-> In k (keys w)) /\ lin_sat c (coef w)).
Proof.
  intros Hc Hw. unfold checkLin. rewrite check_lin_loop_spec by assumption.
  destruct (list_eq_dec Z.eq_dec (keys (lterms c)) (keys w)) as [H|H].
  - rewrite feqb_eq. unfold lin_sat. rewrite H.
    replace (0 + lin_val (lterms c) (coef w))%F with (lin_val (lterms c) (coef w)) by ring. tauto.
  - split; [discriminate|]. intros [K _]. exfalso. apply H.
    apply zsorted_ext; [now apply ksorted_keys|now apply ksorted_keys|assumption].
Qed.

Lemma loose_lin_loop_spec l w sum : ksorted w ->
  loose_lin_loop l w sum =
  if forallb (fun e => feqb (snd e) 0%F || zmem (keys w) (fst e)) l
  then Some (sum + lin_val l (coef w))%F else None.
Proof.
  intros Hw. revert sum. induction l as [|[k a] l IH]; intros sum; cbn [loose_lin_loop forallb fst snd].
  - unfold lin_val. cbn. f_equal. ring.
  - destruct (feqb a 0%F) eqn:E; cbn [orb andb].
    + rewrite IH. apply feqb_eq in E. subst a. destruct (forallb _ l); [|reflexivity].
      unfold lin_val. cbn [map fsum fst snd]. f_equal. ring.
    + rewrite kfind_coef by assumption. destruct (in_dec Z.eq_dec k (keys w)) as [H|H].
      * rewrite (proj2 (zmem_In _ _) H). cbn [andb]. rewrite IH. destruct (forallb _ l); [|reflexivity].
        unfold lin_val. cbn [map fsum fst snd]. f_equal. ring.
      * rewrite (proj2 (zmem_false _ _) H). reflexivity.
Qed.

Theorem checkLinLoose_spec (c : lincon p) w : wf_lin c -> ksorted w ->
  (checkLinLoose c w = true <->
   (forall k, coef (lterms c) k <> 0%F -> In k (keys w)) /\ lin_sat c (coef w)).
Proof.
  intros Hc Hw. unfold checkLinLoose. rewrite loose_lin_loop_spec by assumption.
  destruct (forallb _ (lterms c)) eqn:E.
  - rewrite feqb_eq. unfold lin_sat. replace (0 + lin_val (lterms c) (coef w))%F with (lin_val (lterms c) (coef w)) by ring.
    split; [|tauto]. intros H. split; [|exact H]. intros k Hk.
    destruct (in_dec Z.eq_dec k (keys (lterms c))) as [Hi|Hi]; [|exfalso; apply Hk; now apply coef_notin].
    apply in_keys in Hi. destruct Hi as (a & Ha). rewrite (coef_in _ k a) in Hk by assumption.
    rewrite forallb_forall in E. specialize (E _ Ha). cbn in E. apply orb_true_iff in E.
    destruct E as [E|E]; [apply feqb_eq in E; contradiction|now apply zmem_In].
  - split; [discriminate|]. intros [K _]. exfalso. apply not_true_iff_false in E. apply E.
    apply forallb_forall. intros [k a] Hka. cbn. apply orb_true_iff.
    destruct (fp_dec a 0%F) as [->|Ha]; [left; apply feqb_refl|right].
    apply zmem_In, K. rewrite (coef_in _ k a) by assumption. assumption.
Qed.

Lemma check_quad_loop_spec s xs ys sum : zsorted s -> ksorted xs -> ksorted ys ->
  check_quad_loop s xs ys sum =
  if list_eq_dec Z.eq_dec s (keys xs) then
    if list_eq_dec Z.eq_dec s (keys ys) then Some (sum + quad_val s (coef xs) (coef ys))%F else None
  else None.
Proof.
  revert xs ys sum. induction s as [|k s IH]; intros [|[k1 x] xs] [|[k2 y] ys] sum Hs Hx Hy; cbn [check_quad_loop];
    try (repeat destruct (list_eq_dec _ _ _) as [?H|?H]; try reflexivity; try discriminate; try contradiction; fail).
  - destruct (list_eq_dec _ _ _) as [_|H]; [|now contradiction H].
    unfold quad_val. cbn. f_equal. ring.
  - destruct (k =? k1) eqn:E1; cbn [negb orb].
    2:{ destruct (list_eq_dec _ _ _) as [H|_]; [|reflexivity].
        exfalso. injection H as H _. apply Z.eqb_neq in E1. contradiction. }
    destruct (k =? k2) eqn:E2; cbn [negb orb].
    2:{ destruct (list_eq_dec _ _ _) as [_|_]; [|reflexivity].
        destruct (list_eq_dec _ _ _) as [H|_]; [|reflexivity].
        exfalso. injection H as H _. apply Z.eqb_neq in E2. contradiction. }
    apply Z.eqb_eq in E1, E2. subst k1 k2.
    destruct Hs as [Hs1 Hs], Hx as [Hx1 Hx], Hy as [Hy1 Hy]. rewrite IH by assumption.
    destruct (list_eq_dec Z.eq_dec s (keys xs)) as [A|A];
      destruct (list_eq_dec Z.eq_dec (k :: s) (keys ((k, x) :: xs))) as [A'|A'];
      try (exfalso; apply A'; cbn [keys map fst]; now f_equal);
      try (exfalso; apply A; now injection A'); [|reflexivity].
    destruct (list_eq_dec Z.eq_dec s (keys ys)) as [B|B];
      destruct (list_eq_dec Z.eq_dec (k :: s) (keys ((k, y) :: ys))) as [B'|B'];
      try (exfalso; apply B'; cbn [keys map fst]; now f_equal);
      try (exfalso; apply B; now injection B'); [|reflexivity].
    f_equal. unfold quad_val. cbn [map fsum]. rewrite !coef_cons, Z.eqb_refl.
    rewrite (coef_notin k xs), (coef_notin k ys).
    2,3: intros Hk; rewrite <- ?A, <- ?B in Hk; apply Hs1 in Hk; lia.
    rewrite (fsum_map_ext (fun j => (coef ((k, x) :: xs) j * coef ((k, y) :: ys) j)%F) (fun j => (coef xs j * coef ys j)%F)); [ring|].
    intros j Hj. rewrite !coef_cons. apply Hs1 in Hj. destruct (k =? j) eqn:E; [apply Z.eqb_eq in E; lia|]. ring.
Qed.

Theorem checkQuad_spec (q : quadcon p) xs ys : wf_quad q -> ksorted xs -> ksorted ys ->
  (checkQuad q xs ys = true <->
   (forall k, In k (qidx q) <-> In k (keys xs)) /\ (forall k, In k (qidx q) <-> In k (keys ys)) /\
   quad_sat q (coef xs) (coef ys)).
Proof.
  intros Hq Hx Hy. unfold checkQuad. rewrite check_quad_loop_spec by assumption.
  destruct (list_eq_dec Z.eq_dec (qidx q) (keys xs)) as [A|A].
  2:{ split; [discriminate|]. intros (K & _). exfalso. apply A. apply zsorted_ext; [assumption|now apply ksorted_keys|assumption]. }
  destruct (list_eq_dec Z.eq_dec (qidx q) (keys ys)) as [B|B].
  2:{ split; [discriminate|]. intros (_ & K & _). exfalso. apply B. apply zsorted_ext; [assumption|now apply ksorted_keys|assumption]. }
  rewrite feqb_eq. unfold quad_sat.
  replace (0 + quad_val (qidx q) (coef xs) (coef ys))%F with (quad_val (qidx q) (coef xs) (coef ys)) by ring.
  rewrite <- A, <- B. tauto.
Qed.

Lemma loose_quad_loop_spec s xs ys sum : ksorted xs -> ksorted ys ->
  loose_quad_loop s xs ys sum =
  if forallb (fun k => zmem (keys xs) k && zmem (keys ys) k) s
  then Some (sum + quad_val s (coef xs) (coef ys))%F else None.
Proof.
  intros Hx Hy. revert sum. induction s as [|k s IH]; intros sum; cbn [loose_quad_loop forallb].
  - unfold quad_val. cbn. f_equal. ring.
  - rewrite !kfind_coef by assumption. destruct (in_dec Z.eq_dec k (keys xs)) as [A|A].
    + rewrite (proj2 (zmem_In _ _) A). destruct (in_dec Z.eq_dec k (keys ys)) as [B|B].
      * rewrite (proj2 (zmem_In _ _) B). cbn [andb]. rewrite IH. destruct (forallb _ s); [|reflexivity].
        unfold quad_val. cbn [map fsum]. f_equal. ring.
      * rewrite (proj2 (zmem_false _ _) B). reflexivity.
    + rewrite (proj2 (zmem_false _ _) A). reflexivity.
Qed.

Theorem checkQuadLoose_spec (q : quadcon p) xs ys : wf_quad q -> ksorted xs -> ksorted ys ->
  (checkQuadLoose q xs ys = true <->
   (forall k, In k (qidx q) -> In k (keys xs) /\ In k (keys ys)) /\ quad_sat q (coef xs) (coef ys)).
Proof.
  intros Hq Hx Hy. unfold checkQuadLoose. rewrite loose_quad_loop_spec by assumption.
  destruct (forallb _ (qidx q)) eqn:E.
  - rewrite feqb_eq. unfold quad_sat.
    replace (0 + quad_val (qidx q) (coef xs) (coef ys))%F with (quad_val (qidx q) (coef xs) (coef ys)) by ring.
    split; [|tauto]. intros H. split; [|exact H]. intros k Hk.
    rewrite forallb_forall in E. specialize (E _ Hk). apply andb_true_iff in E. rewrite !zmem_In in E. exact E.
  - split; [discriminate|]. intros [K _]. exfalso. apply not_true_iff_false in E. apply E.
    apply forallb_forall. intros k Hk. apply andb_true_iff. rewrite !zmem_In. now apply K.
Qed.

(** quad_merge completeness (C07) *)
Theorem quad_merge_complete (qs : list (quadcon p)) coeffs m (u v : Z -> F) :
  length qs = length coeffs -> Forall wf_quad qs -> all_disjoint qs ->
  quad_merge qs coeffs = Ret m ->
  Forall (fun q => quad_sat q u v) qs ->
  forall su sv : Z -> F,
  (forall q c k, In (q, c) (combine qs coeffs) -> In k (qidx q) -> su k = (c * u k)%F /\ sv k = (c * v k)%F) ->
  quad_sat m su sv.
Proof.
  intros Hl Hwf Hd Hm Hsat su sv Hsc.
  destruct (quad_merge_spec qs coeffs Hl Hwf) as (m' & Hm' & _ & _ & He & Hv).
  rewrite Hm in Hm'. injection Hm' as <-. unfold quad_sat. rewrite (Hv Hd), He.
  transitivity (fsum (map (fun e : quadcon p * F => quad_val (qidx (fst e)) su sv) (combine qs coeffs))).
  - clear -Hl. revert coeffs Hl. induction qs as [|q qs IH]; intros [|c coeffs] Hl; cbn in *; try discriminate; [reflexivity|].
    rewrite <- IH by lia. reflexivity.
  - apply fsum_map_ext. intros [q c] Hin. cbn [fst snd].
    rewrite Forall_forall in Hsat. specialize (Hsat q (in_combine_l _ _ _ _ Hin)). unfold quad_sat in Hsat.
    rewrite <- Hsat. unfold quad_val. rewrite <- !fsum_map_scale_r. apply fsum_map_ext.
    intros k Hk. destruct (Hsc q c k Hin Hk) as [-> ->]. ring.
Qed.
End Other.

Section Two.
Context {p : Z} (Hp : prime p).
Add Field FpFld2 : (Fp_field Hp).
Lemma two_scalars (lin : lincon p) (quad : quadcon p) (s1 s2 : Fp p) x y :
  s1 <> s2 ->
  (quad_val (qidx quad) x y - qeq quad = s1 * (lin_val (lterms lin) x - leq lin))%F ->
  (quad_val (qidx quad) x y - qeq quad = s2 * (lin_val (lterms lin) x - leq lin))%F ->
  lin_sat lin x /\ quad_sat quad x y.
Proof.
  intros Hs H1 H2.
  assert (E : ((s1 - s2) * (lin_val (lterms lin) x - leq lin) = 0)%F).
  { transitivity (s1 * (lin_val (lterms lin) x - leq lin) - s2 * (lin_val (lterms lin) x - leq lin))%F; [ring|].
    rewrite <- H1, <- H2. ring. }
  apply (fmul_eq_0 Hp) in E. destruct E as [E|E].
  - exfalso. apply Hs. now apply (proj1 (fsub_eq_0 _ _)).
  - rewrite E in H1. split; [now apply (proj1 (fsub_eq_0 _ _))|].
    unfold quad_sat. apply (proj1 (fsub_eq_0 _ _)). rewrite H1. ring.
Qed.
End Two.
