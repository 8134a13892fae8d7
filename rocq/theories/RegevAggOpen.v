(** From a state that is ready to aggregated statements that are proved and
    verified. *)
From Coq Require Import String.
From Coq Require Import ZArith Znumtheory List Bool Lia Ring Field Permutation.
From Verif Require Import NumTheory Outcome Fp FSum GroupMod Ring ConstraintsModel ConstraintsSpec ConstraintsProofs ConstraintsMerge
  ConstraintsOther PedersenModel BulletproofModel TernaryModel RegevModel RegevPfModel RegevPfSpec RegevPfBase RegevStSpec
  RegevAggModel RegevAggSpec RegevAggMaps RegevPfPost RegevAggProofs RegevAggTotal.
Import ListNotations.
Open Scope Z_scope.

Section GK.
Context {p : Z} {G : gmod p}.
Notation F := (Fp p).
Add Ring FpR : (@Fp_ring p).
Local Open Scope g_scope.
(** sum over the indexes ks of g_k w_k *)
Definition atk (g : Z -> G) (w : Z -> F) (ks : list Z) : G := gsum (map (fun k => g k * w k) ks).
Definition gen (l : list G) (k : Z) : G := nth (Z.to_nat k) l gzero.
Lemma atk_app g w a b : atk g w (a ++ b) = atk g w a + atk g w b.
Proof. unfold atk. induction a as [|k a IH]; cbn [app map gsum]; [gsolve|]. rewrite IH. gsolve. Qed.
Lemma atk_cons g w k b : atk g w (k :: b) = g k * w k + atk g w b.
Proof. reflexivity. Qed.
Lemma atk_perm g w a b : Permutation a b -> atk g w a = atk g w b.
Proof. unfold atk. induction 1; cbn [map gsum]; [reflexivity|now rewrite IHPermutation|gsolve|congruence]. Qed.
Lemma atk_ext g g' w w' a : (forall k, In k a -> g k = g' k /\ w k = w' k) -> atk g w a = atk g' w' a.
Proof.
  unfold atk. intros H. f_equal. apply map_ext_in. intros k Hk. destruct (H k Hk) as [-> ->]. reflexivity.
Qed.
Lemma atk_scale g w r a : atk g (fun k => (w k * r)%F) a = atk g w a * r.
Proof. unfold atk. induction a as [|k a IH]; cbn [map gsum]; [gsolve|]. rewrite IH. gsolve. Qed.
Lemma atk_add g w w' a : atk g (fun k => (w k + w' k)%F) a = atk g w a + atk g w' a.
Proof. unfold atk. induction a as [|k a IH]; cbn [map gsum]; [gsolve|]. rewrite IH. gsolve. Qed.
Lemma gdot_atk (g : Z -> G) (w : Z -> F) ks : gdot (map g ks) (map w ks) = atk g w ks.
Proof. unfold atk. induction ks as [|k ks IH]; cbn [map gsum gdot]; [reflexivity|]. now rewrite IH. Qed.
Definition zrange (i0 : Z) (n : nat) : list Z := map (fun j => (i0 + Z.of_nat j)%Z) (seq 0 n).
Lemma in_zrange i0 n k : In k (zrange i0 n) <-> (i0 <= k < i0 + Z.of_nat n)%Z.
Proof.
  unfold zrange. rewrite in_map_iff. split.
  - intros (j & <- & Hj). apply in_seq in Hj. lia.
  - intros H. exists (Z.to_nat (k - i0)). split; [lia|]. apply in_seq. lia.
Qed.
Lemma NoDup_zrange i0 n : NoDup (zrange i0 n).
Proof. unfold zrange. apply FinFun.Injective_map_NoDup; [|apply seq_NoDup]. intros a b H. lia. Qed.
Lemma gdot_range (l : list G) i0 v (w : Z -> F) : (0 <= i0)%Z -> (Z.to_nat i0 + length v <= length l)%nat ->
  (forall j, (j < length v)%nat -> w (i0 + Z.of_nat j)%Z = nth j v 0%F) ->
  gdot (skipn (Z.to_nat i0) l) v = atk (gen l) w (zrange i0 (length v)).
Proof.
  revert i0. induction v as [|x v IH]; intros i0 Hi Hl Hw; [now rewrite gdot_nil_r|].
  cbn [length] in Hl. assert (Hx : (Z.to_nat i0 < length l)%nat) by lia.
  assert (Hs : skipn (Z.to_nat i0) l = gen l i0 :: skipn (Z.to_nat (i0 + 1)) l).
  { replace (Z.to_nat (i0 + 1)) with (S (Z.to_nat i0)) by lia. unfold gen. clear -Hx. revert Hx. generalize (Z.to_nat i0) as n. induction l as [|a l IH]; intros n Hn; [cbn in Hn; lia|].
    destruct n as [|n]; [reflexivity|]. cbn [skipn nth]. apply IH. cbn in Hn. lia. }
  rewrite Hs. cbn [gdot length]. unfold zrange. cbn [seq map]. rewrite <- seq_shift.
  rewrite (IH (i0 + 1)%Z); [|lia|lia|].
  - rewrite map_map, atk_cons. f_equal.
    + f_equal; [f_equal; lia|]. symmetry. apply (Hw 0%nat). cbn; lia.
    + unfold zrange. f_equal. apply map_ext. intros j. lia.
  - intros j Hj. replace (i0 + 1 + Z.of_nat j)%Z with (i0 + Z.of_nat (S j))%Z by lia. apply (Hw (S j)). cbn; lia.
Qed.
Lemma fold_open {V : Type} (base : G) (f A : V -> G) (rho : V -> F) L : (forall x, In x L -> f x = base * rho x + A x) ->
  forall a0 r0 A0, a0 = base * r0 + A0 ->
  fold_left (fun a x => a + f x) L a0 = base * (fold_left (fun a x => (a + rho x)%F) L r0) + (A0 + gsum (map A L)).
Proof.
  induction L as [|x L IH]; intros H a0 r0 A0 E; cbn [fold_left map gsum]; [rewrite E; gsolve|].
  rewrite (IH (fun y Hy => H y (or_intror Hy)) (a0 + f x) (r0 + rho x)%F (A0 + A x)); [gsolve|].
  rewrite E, (H x (or_introl eq_refl)). gsolve.
Qed.
Lemma gsum_atk {V : Type} (g : Z -> G) w (rg : V -> list Z) L : gsum (map (fun x => atk g w (rg x)) L) = atk g w (flat_map rg L).
Proof. induction L as [|x L IH]; cbn [map gsum flat_map]; [reflexivity|]. now rewrite IH, atk_app. Qed.
End GK.

Lemma NoDup_flat {A B} (f : A -> list B) L : NoDup L -> (forall x, In x L -> NoDup (f x)) ->
  (forall x y k, In k (f x) -> In k (f y) -> x = y) -> NoDup (flat_map f L).
Proof.
  intros HN Hf Hd. induction HN as [|x L Hx HN IH]; cbn [flat_map]; [constructor|]. apply NoDup_app_intro.
  - apply Hf. now left.
  - apply IH. intros y Hy. apply Hf. now right.
  - intros k Hk Hk'. apply in_flat_map in Hk' as (y & Hy & Hk'). apply (Hd x y k Hk) in Hk'. subst y. contradiction.
Qed.

Section Scale.
Context {p : Z} {A : Type} (add : A -> A -> A) (mul : A -> Fp p -> A).
Lemma scale_gen rs l : forall f f', scale_pairs add mul f rs l = Ret f' -> NoDup (map (fun e => fst (fst e)) l) ->
  (forall x y, In x (map (fun e => fst (fst e)) l) -> In y (map (fun e => snd (fst e)) l) -> x <> y) ->
  (forall x xp i, In (x, xp, i) l -> f' x = mul (add (f x) (f xp)) (nth i rs 0%F)) /\
  (forall x, ~ In x (map (fun e => fst (fst e)) l) -> f' x = f x).
Proof.
  induction l as [|[[x xp] i] l IH]; intros f f' H HN HD.
  - injection H as <-. split; [intros ? ? ? []|reflexivity].
  - cbn [scale_pairs] in H. apply obind_ret_inv in H as (r & E & H). apply oget_ret in E.
    cbn [map fst snd] in HN, HD. inversion HN as [|? ? H1 H2]; subst.
    destruct (IH _ _ H H2) as [P1 P2]. { intros y z Hy Hz. apply HD; now right. }
    split.
    + intros y yp j [Hy|Hy].
      * injection Hy as <- <- <-. rewrite P2, upd_same by exact H1. now rewrite (nth_error_nth _ _ _ E).
      * assert (Hy1 : In y (map (fun e => fst (fst e)) l)) by (apply in_map_iff; now exists (y, yp, j)).
        assert (Hy2 : In yp (map (fun e => snd (fst e)) l)) by (apply in_map_iff; now exists (y, yp, j)).
        rewrite (P1 y yp j Hy), !upd_other; [reflexivity| |].
        -- intros K. apply (HD x yp); [now left|now right|now symmetry].
        -- intros ->. contradiction.
    + intros y Hy. rewrite P2 by (intros K; apply Hy; now right). apply upd_other. intros ->. apply Hy. now left.
Qed.
Lemma scale_spec f rs f' : scale_pairs add mul f rs comPairs = Ret f' ->
  (forall i x xp, norm_of i = Some (x, xp) -> f' x = mul (add (f x) (f xp)) (nth i rs 0%F)) /\ (forall x, is_comp x = false -> f' x = f x).
Proof.
  intros H. destruct (scale_gen _ _ _ _ H) as [P1 P2].
  - unfold comPairs. cbn [map fst]. repeat constructor; cbn; intuition discriminate.
  - intros x y Hx Hy <-. unfold comPairs in Hx, Hy. cbn [map fst snd] in Hx, Hy.
    repeat (destruct Hx as [<-|Hx]; [cbn in Hy; intuition discriminate|]). destruct Hx.
  - split.
    + intros i x xp Hi. apply P1. do 10 (destruct i as [|i]; [injection Hi as <- <-; cbn; tauto|]). destruct i; discriminate.
    + intros x Hx. apply P2. intros K. unfold comPairs in K. cbn [map fst] in K.
      repeat (destruct K as [<-|K]; [discriminate|]). destruct K.
Qed.
End Scale.

Section Ready.
Context {p : Z} (Hp : prime p) {ell : nat} {G : gmod p} {R : rmerlin G}.
Notation F := (Fp p).
Add Field FpFld : (Fp_field Hp).
Variable c : cfg ell G.
Variable pick : list (cursor p) -> nat.
Hypothesis Hpick : queue_order pick.
Notation pstate := (@pstate p ell G R).
Hypothesis Hc : wf_cfg c.
Variable st : pstate.
Hypothesis Hr : set_up c st.
Notation W := (pidx st WW).

Lemma rd_lay : layout_of c (pidx st). Proof. exact (proj1 (proj1 Hr)). Qed.
Lemma rd_layout : is_layout (clen c) (pidx st).
Proof. apply good_is_layout; [destruct Hc as (_ & _ & _ & _ & H & _); lia|]. exact (lay_good c Hc _ rd_lay). Qed.
Lemma rd_W : 0 <= W < 2 ^ 31.
Proof. pose proof (lay_pos c Hc _ rd_lay WW). pose proof (lay_top c Hc _ rd_lay WW). change (clen c WW) with 1 in *. lia. Qed.
Lemma rd_in x k : x <> WW -> in_var c st x k -> 0 <= k < W.
Proof.
  intros N H. destruct (lay_good c Hc _ rd_lay) as (_ & _ & A & _). specialize (A x N). fold (clen c x) in A.
  pose proof (lay_pos c Hc _ rd_lay x). unfold in_var in H. lia.
Qed.
Lemma rd_var k : 0 <= k < W -> exists x, x <> WW /\ in_var c st x k.
Proof.
  intros H. destruct rd_layout as (_ & A & _). destruct (proj1 (A k)) as (x & Hx); [lia|].
  exists x. split; [intros ->; lia|exact Hx].
Qed.
Lemma rd_uniq x y k : in_var c st x k -> in_var c st y k -> x = y.
Proof. intros A B. exact (proj1 rd_layout x y k A B). Qed.

Lemma norm_of_some i : (i < 10)%nat -> exists x xp, norm_of i = Some (x, xp).
Proof. intros H. do 10 (destruct i as [|i]; [now do 2 eexists|]). lia. Qed.
Lemma norm_of_lt i x xp : norm_of i = Some (x, xp) -> (i < 10)%nat /\ is_comp x = true /\ is_pad xp = true.
Proof. intros H. do 10 (destruct i as [|i]; [injection H as <- <-; split; [lia|now split]|]). destruct i; discriminate. Qed.
Lemma norm_of_norm i x xp : norm_of i = Some (x, xp) -> is_norm x = true /\ is_norm xp = true.
Proof. intros H. apply norm_of_lt in H as (_ & A & B). unfold is_norm. rewrite A, B. split; [reflexivity|apply orb_true_r]. Qed.
Lemma norm_of_inj i j x xp y yp : norm_of i = Some (x, xp) -> norm_of j = Some (y, yp) -> (x = y \/ xp = yp) -> i = j.
Proof.
  intros A B. do 10 (destruct i as [|i]; [injection A as <- <-; do 10 (destruct j as [|j]; [injection B as <- <-; intros [H|H]; (reflexivity || discriminate)|]); destruct j; discriminate|]). destruct i; discriminate.
Qed.
Lemma norm_of_all x : is_norm x = true -> exists i y yp, norm_of i = Some (y, yp) /\ (x = y \/ x = yp).
Proof.
  intros H. destruct x; try discriminate;
  first [exists 0%nat; do 2 eexists; split; [reflexivity|tauto] | exists 1%nat; do 2 eexists; split; [reflexivity|tauto]
       | exists 2%nat; do 2 eexists; split; [reflexivity|tauto] | exists 3%nat; do 2 eexists; split; [reflexivity|tauto]
       | exists 4%nat; do 2 eexists; split; [reflexivity|tauto] | exists 5%nat; do 2 eexists; split; [reflexivity|tauto]
       | exists 6%nat; do 2 eexists; split; [reflexivity|tauto] | exists 7%nat; do 2 eexists; split; [reflexivity|tauto]
       | exists 8%nat; do 2 eexists; split; [reflexivity|tauto] | exists 9%nat; do 2 eexists; split; [reflexivity|tauto]].
Qed.

(** The i-th norm constraint. *)
Lemma rd_q q : In q (pnorm st) -> exists i x xp, norm_of i = Some (x, xp) /\ nth_error (pnorm st) i = Some q /\
  (forall k, In k (qidx q) <-> in_var c st x k \/ in_var c st xp k).
Proof.
  destruct Hr as (_ & _ & _ & L & HN & _). intros Hq. apply In_nth_error in Hq as (i & Hi).
  assert (i < 10)%nat by (rewrite <- L; apply nth_error_Some; congruence).
  destruct (norm_of_some i H) as (x & xp & E). exists i, x, xp. destruct (HN i x xp E) as (q' & Hq' & A).
  rewrite Hi in Hq'. injection Hq' as <-. auto.
Qed.
Lemma rd_union k : (exists q, In q (pnorm st) /\ In k (qidx q)) <-> exists x, is_norm x = true /\ in_var c st x k.
Proof.
  split.
  - intros (q & Hq & Hk). destruct (rd_q q Hq) as (i & x & xp & E & _ & A). apply norm_of_norm in E as [E1 E2].
    apply A in Hk as [Hk|Hk]; eauto.
  - intros (x & Hx & Hk). destruct (norm_of_all x Hx) as (i & y & yp & E & H).
    destruct Hr as (_ & _ & _ & L & HN & _). destruct (HN i y yp E) as (q & Hq & A). exists q. split; [eapply nth_error_In; eassumption|].
    apply A. destruct H as [-> | ->]; auto.
Qed.
Lemma is_norm_WW x : is_norm x = true -> x <> WW. Proof. intros H ->. discriminate. Qed.

Lemma all_disjoint_nth (qs : list (quadcon p)) :
  (forall i j q q' k, nth_error qs i = Some q -> nth_error qs j = Some q' -> In k (qidx q) -> In k (qidx q') -> i = j) -> all_disjoint qs.
Proof.
  induction qs as [|q qs IH]; intros H; [exact I|]. split.
  - intros k q' Hq' Hk Hk'. apply In_nth_error in Hq' as (j & Hj). specialize (H 0%nat (S j) q q' k eq_refl Hj Hk Hk'). discriminate.
  - apply IH. intros i j q1 q2 k A B C D. specialize (H (S i) (S j) q1 q2 k A B C D). lia.
Qed.
Lemma rd_disj : all_disjoint (pnorm st).
Proof.
  apply all_disjoint_nth. intros i j q q' k Hi Hj Hk Hk'. destruct Hr as (_ & _ & _ & L & HN & _).
  assert (Li : (i < 10)%nat) by (rewrite <- L; apply nth_error_Some; congruence).
  assert (Lj : (j < 10)%nat) by (rewrite <- L; apply nth_error_Some; congruence).
  destruct (norm_of_some i Li) as (x & xp & E). destruct (norm_of_some j Lj) as (y & yp & E').
  destruct (HN i x xp E) as (q1 & Q1 & A). rewrite Hi in Q1. injection Q1 as <-.
  destruct (HN j y yp E') as (q1 & Q1 & B). rewrite Hj in Q1. injection Q1 as <-.
  apply A in Hk. apply B in Hk'.
  destruct (norm_of_lt _ _ _ E) as (_ & C1 & P1). destruct (norm_of_lt _ _ _ E') as (_ & C2 & P2).
  destruct Hk as [Hk|Hk], Hk' as [Hk'|Hk']; pose proof (rd_uniq _ _ _ Hk Hk') as U.
  - apply (norm_of_inj i j x xp y yp); auto.
  - subst x. destruct yp; discriminate.
  - subst xp. destruct y; discriminate.
  - apply (norm_of_inj i j x xp y yp); auto.
Qed.
Lemma rd_wf : wf_system st.
Proof.
  pose proof rd_W as HW. destruct Hr as ((_ & S1 & S2 & L & Q) & _ & KL & _).
  repeat (split; [assumption|]). split.
  - intros con k Hc' Hk. specialize (KL con k Hc' Hk). lia.
  - intros q k Hq Hk. destruct (proj1 (rd_union k)) as (x & Hx & Hk'); [now exists q|]. pose proof (rd_in x k (is_norm_WW x Hx) Hk'). lia.
Qed.
Lemma stored_at (m : pvec p) x v k : Z.of_nat (length v) = clen c x -> stores m (pidx st x) v -> in_var c st x k ->
  In k (keys m) /\ coef m k = nth (Z.to_nat (k - pidx st x)) v 0%F.
Proof.
  intros L S H. unfold in_var in H. destruct (S (Z.to_nat (k - pidx st x))) as [A B]; [lia|].
  rewrite Z2Nat.id in A, B by lia. replace (pidx st x + (k - pidx st x)) with k in A, B by lia. now split.
Qed.
Lemma rd_key k : 0 <= k < W -> In k (keys (plinW st)).
Proof.
  intros H. destruct (rd_var k H) as (x & N & Hx). destruct Hr as (_ & _ & _ & _ & _ & _ & C2 & C1 & _).
  destruct (is_norm x) eqn:E.
  - destruct (C2 x E) as (v & L & _ & S & _). exact (proj1 (stored_at _ x v k L S Hx)).
  - destruct (C1 x E N) as (v & L & _ & S & _). exact (proj1 (stored_at _ x v k L S Hx)).
Qed.
Lemma rd_same x k : is_norm x = true -> in_var c st x k -> coef (pqG st) k = coef (plinW st) k.
Proof.
  intros E Hx. destruct Hr as (_ & _ & _ & _ & _ & _ & C2 & _). destruct (C2 x E) as (v & L & _ & S & S' & _).
  now rewrite (proj2 (stored_at _ x v k L S Hx)), (proj2 (stored_at _ x v k L S' Hx)).
Qed.
Lemma rd_rec : recorded st.
Proof.
  split.
  - intros con k Hc' Hk. apply rd_key. destruct Hr as (_ & _ & KL & _). exact (KL con k Hc' Hk).
  - intros q k Hq Hk. destruct (proj1 (rd_union k)) as (x & Hx & Hk'); [now exists q|]. exact (rd_same x k Hx Hk').
Qed.

Hypothesis Hm : all_mentioned c st.
Variable wRnd : F.
Lemma rd_agg : (exists st' ap, aggregateProver R c pick st wRnd = Ret (st', ap)) \/ (aggregateProver R c pick st wRnd = Throw /\ chal_norm st = 0%F).
Proof.
  pose proof rd_W as HW. pose proof (lay_pos c Hc _ rd_lay YY) as Y1. pose proof (clen_pos c Hc YY) as Y2.
  apply agg_total; try assumption.
  - exact rd_wf.
  - exact rd_disj.
  - exact (proj1 (proj2 Hr)).
  - destruct Hr as (_ & _ & _ & L & _). exact L.
  - destruct (proj2 (rd_union (pidx st DCompHi))) as (q & Hq & Hk); [|now exists q, (pidx st DCompHi)].
    exists DCompHi. split; [reflexivity|]. unfold in_var. pose proof (clen_pos c Hc DCompHi). lia.
  - intros k. rewrite rd_union. destruct Hr as (_ & _ & _ & _ & _ & K & _). apply K.
  - intros con k Hc' Hk. destruct Hr as (_ & _ & KL & _). apply (KL con k Hc' Hk).
  - intros q k Hq Hk. destruct (proj1 (rd_union k)) as (x & Hx & Hk'); [now exists q|]. apply (rd_in x k (is_norm_WW x Hx) Hk').
  - assert (H0 : 0 <= W - 1 < W). { assert (0 <= pidx st YY < W); [|lia]. apply (rd_in YY); [discriminate|]. unfold in_var. lia. }
    destruct (rd_var _ H0) as (x & N & Hx). destruct (is_norm x) eqn:E.
    + left. apply rd_union. now exists x.
    + right. exact (Hm x _ E N Hx).
  - destruct Hr as (_ & _ & _ & _ & _ & _ & _ & _ & H). exact H.
Qed.
End Ready.
