(** The operations of the proof steps, one by one. *)
From Coq Require Import String.
From Coq Require Import ZArith List Bool Lia Ring.
From Verif Require Import Outcome Fp FSum GroupMod Ring ConstraintsModel ConstraintsSpec ConstraintsProofs ConstraintsOther
  PedersenModel PedersenProofs BulletproofModel AlgebraModel AlgebraSpec AlgebraProofs AlgebraMore TernaryModel TernarySpec TernaryProofs
  RegevModel RegevSpec RegevPfModel RegevPfSpec RegevPfBase RegevPfLin RegevPfCom RegevStSpec
  FourSquaresModel FourSquaresSpec FourSquaresProofs.
Import ListNotations.
Open Scope Z_scope.

Section W.
Context {p : Z}.
Notation F := (Fp p).
Add Ring Fst : (@Fp_ring p).

(** Writing a list of scalars from index o on. *)
Definition wr (w : Z -> F) (o : Z) (l : list F) (k : Z) : F :=
  if (o <=? k) && (k <? o + Z.of_nat (length l)) then nth (Z.to_nat (k - o)) l 0%F else w k.
Definition inr (o len k : Z) : Prop := o <= k < o + len.
Lemma addS_spec (m : pvec p) (l : list F) o : ksorted m -> 0 <= o -> o + Z.of_nat (length l) <= 2 ^ 64 ->
  ksorted (addSVec2Map m l o) /\ (forall k, coef (addSVec2Map m l o) k = wr (coef m) o l k) /\
  (forall k, In k (keys (addSVec2Map m l o)) <-> In k (keys m) \/ inr o (Z.of_nat (length l)) k).
Proof.
  intros Hs Ho Hl. destruct (add_vec_spec m l o Hs Ho Hl) as (A1 & A2 & A3). cbv zeta in *.
  change (add_down m (rev l) _) with (addSVec2Map m l o) in *.
  split; [exact A1|]. 
  assert (D : forall k, (inr o (Z.of_nat (length l)) k /\ kfind (addSVec2Map m l o) k = Some (nth (Z.to_nat (k - o)) l 0%F)) \/
                        (~ inr o (Z.of_nat (length l)) k /\ kfind (addSVec2Map m l o) k = kfind m k)).
  { intros k. unfold inr. destruct (Z_le_gt_dec o k), (Z_lt_le_dec k (o + Z.of_nat (length l))).
    - left. split; [lia|]. rewrite <- (A2 (Z.to_nat (k - o)) (nth (Z.to_nat (k - o)) l 0%F)); [f_equal; lia|].
      apply nth_error_nth'. lia.
    - right. split; [lia|]. apply A3. lia.
    - right. split; [lia|]. apply A3. lia.
    - right. split; [lia|]. apply A3. lia. }
  assert (V : forall (l : pvec p) k, ksorted l -> coef l k = match kfind l k with Some x => x | None => 0%F end).
  { intros l0 k H0. destruct (kfind l0 k) as [x|] eqn:E; [apply kfind_some in E; [|assumption]; now apply coef_in|].
    apply kfind_none in E. now apply coef_notin. }
  split; intros k; destruct (D k) as [[H1 H2]|[H1 H2]]; unfold inr in *.
  - rewrite V, H2 by assumption. unfold wr. rewrite (proj2 (Z.leb_le _ _)), (proj2 (Z.ltb_lt _ _)) by lia. reflexivity.
  - rewrite V, H2, <- V by assumption. unfold wr.
    destruct (Z.leb_spec o k), (Z.ltb_spec k (o + Z.of_nat (length l))); try reflexivity. lia.
  - assert (In k (keys (addSVec2Map m l o))); [|tauto]. destruct (in_dec Z.eq_dec k (keys (addSVec2Map m l o))); [assumption|].
    apply kfind_none in n. congruence.
  - split.
    + intros Hk. left. destruct (in_dec Z.eq_dec k (keys m)) as [i|n]; [assumption|]. apply kfind_none in n. rewrite <- H2 in n.
      apply kfind_none in n. contradiction.
    + intros [Hk|Hk]; [|contradiction]. destruct (in_dec Z.eq_dec k (keys (addSVec2Map m l o))) as [i|n]; [assumption|].
      apply kfind_none in n. rewrite H2 in n. apply kfind_none in n. contradiction.
Qed.

(** A sequence of writes to variables. *)
Definition wrs (idx : var -> Z) (ws : list (var * list F)) (m : pvec p) : pvec p :=
  fold_left (fun m e => addSVec2Map m (snd e) (idx (fst e))) ws m.
Section Wrs.
Variable len : var -> Z.
Variable idx : var -> Z.
Hypothesis idx_pos : forall x, 0 <= idx x.
Hypothesis idx_top : forall x, idx x + len x <= 2 ^ 64.
Hypothesis disj : forall x y, x <> y -> idx x + len x <= idx y \/ idx y + len y <= idx x.
Definition fits (ws : list (var * list F)) : Prop := Forall (fun e => Z.of_nat (length (snd e)) = len (fst e)) ws.
Lemma wrs_spec ws : forall m, ksorted m -> fits ws -> NoDup (map fst ws) ->
  ksorted (wrs idx ws m) /\
  (forall x l j, In (x, l) ws -> 0 <= j < len x -> coef (wrs idx ws m) (idx x + j) = nth (Z.to_nat j) l 0%F) /\
  (forall k, (forall x, In x (map fst ws) -> ~ inr (idx x) (len x) k) -> coef (wrs idx ws m) k = coef m k) /\
  (forall k, In k (keys (wrs idx ws m)) <-> In k (keys m) \/ exists x, In x (map fst ws) /\ inr (idx x) (len x) k).
Proof.
  induction ws as [|[y ly] ws IH]; intros m Hs Hf Hn.
  - cbn [wrs fold_left map]. split; [assumption|]. split; [contradiction|]. split; [reflexivity|]. intros k. split; [tauto|]. intros [H|[x [[] _]]]; assumption.
  - inversion Hf as [|? ? Hy Hf']; subst. cbn [map fst] in Hn. inversion Hn as [|? ? Hy' Hn']; subst. cbn [fst snd] in Hy.
    destruct (addS_spec m ly (idx y) Hs (idx_pos y) ltac:(rewrite Hy; apply idx_top)) as (A1 & A2 & A3).
    destruct (IH _ A1 Hf' Hn') as (B1 & B2 & B3 & B4). change (wrs idx ((y, ly) :: ws) m) with (wrs idx ws (addSVec2Map m ly (idx y))).
    rewrite Hy in A3. split; [exact B1|]. split; [|split].
    + intros x l j Hx Hj. destruct Hx as [E|Hx]; [|now apply B2]. injection E as -> ->.
      rewrite B3.
      * rewrite A2. unfold wr. rewrite (proj2 (Z.leb_le _ _)), (proj2 (Z.ltb_lt _ _)) by lia. cbn [andb]. do 2 f_equal. lia.
      * intros z Hz. assert (N : x <> z) by (intros ->; contradiction). unfold inr. destruct (disj x z N); lia.
    + intros k Hk. rewrite B3 by (intros; apply Hk; now right). rewrite A2. unfold wr.
      specialize (Hk y ltac:(now left)). unfold inr in Hk. rewrite Hy.
      destruct (Z.leb_spec (idx y) k), (Z.ltb_spec k (idx y + len y)); cbn [andb]; try reflexivity. lia.
    + intros k. rewrite B4, A3. cbn [map fst]. split.
      * intros [[H|H]|[x [H1 H2]]]; [tauto|right; exists y; split; [now left|assumption]|right; exists x; split; [now right|assumption]].
      * intros [H|[x [[<-|H1] H2]]]; [tauto|tauto|right; eauto].
Qed.
End Wrs.
End W.

Section Ops.
Context {p : Z} {ell : nat} {G : gmod p}.
Notation F := (Fp p).
Notation E := (elt p ell).
Variable R : rmerlin G.
Variable c : cfg ell G.
Notation pstate := (@pstate p ell G R).
Add Ring Fops : (@Fp_ring p).

Lemma coeffs_length (v : list E) : length (coeffs_of v) = (length v * ell)%nat.
Proof. apply flat_length. Qed.
Lemma addE_S (m : pvec p) (v : list E) o : addEVec2Map m v o = addSVec2Map m (coeffs_of v) o.
Proof. unfold addEVec2Map, addSVec2Map. rewrite coeffs_length, Nat2Z.inj_mul. reflexivity. Qed.

Lemma comS_inv (st : pstate) x v r st' : comS R c st x v r = Ret st' ->
  exists C, st' = set_com R st x C r /\ is_com1 c (pidx st x) v r C.
Proof.
  unfold comS. intros H. apply obind_ret_inv in H as [C [HC H]]. injection H as <-. exists C. split; [reflexivity|].
  rewrite commitS_all in HC. destruct (Nat.ltb_spec (length (cGs c)) (genAt R st x + length v)); [discriminate|].
  injection HC as <-. split; [assumption|reflexivity].
Qed.
Lemma comE_inv (st : pstate) x v r st' : comE R c st x v r = Ret st' ->
  exists C, st' = set_com R st x C r /\ is_com1 c (pidx st x) (coeffs_of v) r C.
Proof.
  unfold comE. intros H. apply obind_ret_inv in H as [C [HC H]]. injection H as <-. exists C. split; [reflexivity|].
  rewrite commitE_all in HC. destruct (Nat.ltb_spec (length (cGs c)) (genAt R st x + ell * length v)); [discriminate|].
  injection HC as <-. split; [|reflexivity]. rewrite coeffs_length. unfold genAt in *. lia.
Qed.
Lemma com2_inv (st : pstate) x v r st' : com2 R c st x v r = Ret st' ->
  exists C, st' = set_com R st x C r /\ is_com2 c (pidx st x) (coeffs_of v) r C.
Proof.
  unfold com2. intros H. apply obind_ret_inv in H as [C [HC H]]. injection H as <-. exists C. split; [reflexivity|].
  rewrite commitE2_all in HC. destruct (Nat.ltb_spec (length (cGs c)) (genAt R st x + ell * length v)); [discriminate|].
  destruct (Nat.ltb_spec (length (cHs c)) (genAt R st x + ell * length v)); [discriminate|]. cbn [orb] in HC.
  injection HC as <-. unfold is_com2. rewrite coeffs_length. unfold genAt in *. repeat split; lia.
Qed.
Lemma norm_inv (st : pstate) i b x xp st' : norm R c st i b x xp = Ret st' ->
  exists qs, st' = set_norms R st qs /\
    set_norm (pnorm st) i (toF p (b * b)) [(pidx st x, Z.of_nat (JLDIM c)); (pidx st xp, Z.of_nat PAD_SIZE)] = Ret qs.
Proof. unfold norm. intros H. apply obind_ret_inv in H as [q [Hq H]]. injection H as <-. eauto. Qed.
Lemma copy_inv (st : pstate) x v st' : copy R st x v = Ret st' ->
  exists l, st' = set_comp R st l /\ copy_at (pcomp st) (Z.to_nat (pidx st x / Z.of_nat ell)) v = Ret l.
Proof. unfold copy. intros H. apply obind_ret_inv in H as [q [Hq H]]. injection H as <-. eauto. Qed.
Lemma block_inv (st : pstate) off f st' : block R st off f = Ret st' ->
  exists l, st' = set_lin R st l /\ on_block (ell := ell) (plin st) off f = Ret l.
Proof. unfold block. intros H. apply obind_ret_inv in H as [q [Hq H]]. injection H as <-. eauto. Qed.

(** Lists updated at one position. *)
Lemma list_set_nth {A} (l : list A) : forall i a j, nth_error (list_set l i a) j =
  if (i =? j)%nat then (if (i <? length l)%nat then Some a else None) else nth_error l j.
Proof.
  induction l as [|y l IH]; intros [|i] a [|j]; cbn [list_set nth_error length]; try reflexivity.
  - cbn [Nat.eqb]. destruct (i =? j)%nat; reflexivity.
  - rewrite IH. cbn [Nat.eqb]. destruct (i =? j)%nat; [|reflexivity].
    change (S i <? S (length l))%nat with (i <? length l)%nat. reflexivity.
Qed.
Lemma oset_inv {A} (l : list A) i a l' : oset l i a = Ret l' ->
  (i < length l)%nat /\ length l' = length l /\ forall j, nth_error l' j = if (i =? j)%nat then Some a else nth_error l j.
Proof.
  unfold oset. destruct (Nat.ltb_spec i (length l)); [|discriminate]. intros E. injection E as <-.
  split; [assumption|]. split; [apply list_set_length|]. intros j. rewrite list_set_nth. now rewrite (proj2 (Nat.ltb_lt _ _)).
Qed.
Lemma copy_at_inv (v : list E) : forall l a l', copy_at l a v = Ret l' ->
  length l' = length l /\ (v <> [] -> a + length v <= length l)%nat /\
  forall j, nth_error l' j = if ((a <=? j) && (j <? a + length v))%nat then nth_error v (j - a) else nth_error l j.
Proof.
  induction v as [|e v IH]; intros l a l' H; cbn [copy_at] in H.
  - injection H as <-. split; [reflexivity|]. split; [congruence|]. intros j. cbn [length].
    destruct (Nat.leb_spec a j), (Nat.ltb_spec j (a + 0)); cbn [andb]; try reflexivity. lia.
  - apply obind_ret_inv in H as [l1 [H1 H]]. apply oset_inv in H1 as (A1 & A2 & A3). apply IH in H as (B1 & B2 & B3).
    split; [congruence|]. split.
    + intros _. cbn [length]. destruct v as [|e' v]; [cbn [length]; lia|]. specialize (B2 ltac:(discriminate)). lia.
    + intros j. rewrite B3. cbn [length].
      destruct (Nat.leb_spec (S a) j), (Nat.ltb_spec j (S a + length v)), (Nat.leb_spec a j), (Nat.ltb_spec j (a + S (length v)));
        cbn [andb]; try lia; try (rewrite A3; destruct (Nat.eqb_spec a j); [try lia|reflexivity]).
      * replace (j - a)%nat with (S (j - S a)) by lia. reflexivity.
      * assert (j = a) by lia. subst j. now rewrite A3, Nat.eqb_refl, Nat.sub_diag.
Qed.

(** Sequences of copies. *)
Fixpoint copies (idx : var -> Z) (cps : list (var * list E)) (l l' : list E) : Prop :=
  match cps with
  | [] => l' = l
  | (x, v) :: cps' => exists l1, copy_at l (Z.to_nat (idx x / Z.of_nat ell)) v = Ret l1 /\ copies idx cps' l1 l'
  end.
(** Sequences of norm constraints (index, (bound, variable, padding)). *)
Fixpoint norms (idx : var -> Z) (nms : list (nat * (Z * var * var))) (qs qs' : list (quadcon p)) : Prop :=
  match nms with
  | [] => qs' = qs
  | (i, (b, x, xp)) :: nms' => exists q1,
      set_norm qs i (toF p (b * b)) [(idx x, Z.of_nat (JLDIM c)); (idx xp, Z.of_nat PAD_SIZE)] = Ret q1 /\ norms idx nms' q1 qs'
  end.
Lemma norms_spec idx nms : forall qs qs', norms idx nms qs qs' -> NoDup (map fst nms) ->
  length qs' = length qs /\
  (forall i b x xp, In (i, (b, x, xp)) nms -> exists q, nth_error qs i = Some q /\
     nth_error qs' i = Some (QuadCon (addRange2Set (addRange2Set (qidx q) (idx x) (Z.of_nat (JLDIM c))) (idx xp) 4) (toF p (b * b)))) /\
  (forall i, ~ In i (map fst nms) -> nth_error qs' i = nth_error qs i).
Proof.
  induction nms as [|[i [[b x] xp]] nms IH]; intros qs qs' H Hn; cbn [norms] in H.
  - subst. repeat split; try reflexivity. intros ? ? ? ? [].
  - destruct H as [q1 [H1 H]]. cbn [map fst] in Hn. inversion Hn as [|? ? Hi Hn']; subst.
    destruct (IH _ _ H Hn') as (B1 & B2 & B3). unfold set_norm in H1. apply obind_ret_inv in H1 as [q [Hq H1]].
    apply oset_inv in H1 as (A1 & A2 & A3). cbn [fold_left fst snd] in A3.
    assert (Hq' : nth_error qs i = Some q). { unfold oget in Hq. destruct (nth_error qs i); congruence. }
    split; [congruence|]. split.
    + intros i' b' x' xp' [E|Hin].
      * injection E as <- <- <- <-. exists q. split; [assumption|]. rewrite (B3 i Hi), A3, Nat.eqb_refl. reflexivity.
      * destruct (B2 _ _ _ _ Hin) as (q' & C1 & C2). exists q'. split; [|assumption].
        rewrite A3 in C1. destruct (Nat.eqb_spec i i') as [<-|]; [|assumption].
        exfalso. apply Hi. apply in_map_iff. eexists; split; [|exact Hin]. reflexivity.
    + intros i' Hi'. rewrite B3 by (intros ?; apply Hi'; now right). rewrite A3.
      destruct (Nat.eqb_spec i i') as [<-|]; [|reflexivity]. exfalso. apply Hi'. now left.
Qed.

(** Challenge matrices. *)
Lemma ternaryE_inv (Hb : byte_transcript R) m label n k X m' : (0 < ell)%nat -> (0 < n)%nat ->
  ternaryE (ell := ell) R m label n k = Ret (X, m') ->
  exists f, is_temat ell X n k f.
Proof.
  intros He Hn H. unfold ternaryE in H. cbv zeta in H. apply obind_ret_inv in H as [X' [HX H]]. injection H as -> _.
  unfold newTernaryEMatrix in HX. set (buf := fst _) in HX.
  pose proof (bytes_nth buf (Hb _ _ _)) as Hb'.
  destruct (le_lt_dec (ell * (n * rowBytes k)) (length buf)) as [H|H].
  - destruct (setFromBytesE_spec (ell := ell) buf n k Hn Hb' H) as [Ms [E1 E2]]. rewrite HX in E1. injection E1 as ->. eauto.
  - rewrite (setFromBytesE_short (ell := ell) buf n k He Hb' H) in HX. discriminate.
Qed.

(** Padding. *)
Lemma fsq_sum (l : list F) : 2 <= p -> fsum (map (fun x => (x * x)%F) l) = toF p (sum_sq (map balanced l)).
Proof.
  intros Hp. induction l as [|x l IH]; [reflexivity|]. cbn [map]. rewrite sum_sq_cons.
  unfold fsum in *. cbn [fold_right]. rewrite IH, toF_add, toF_mul. now rewrite (proj1 (balanced_spec Hp x)).
Qed.
Lemma fsq_toF (l : list Z) : fsum (map (fun x => (x * x)%F) (map (toF p) l)) = toF p (sum_sq l).
Proof.
  induction l as [|x l IH]; [reflexivity|]. cbn [map]. rewrite sum_sq_cons.
  unfold fsum in *. cbn [fold_right]. now rewrite IH, toF_add, toF_mul.
Qed.
Lemma pad_extra_exact : (0 < ell)%nat -> Nat.divide ell 4 -> (pad_extra (ell := ell) * ell = 4)%nat.
Proof.
  intros He [q Hq]. unfold pad_extra, PAD_SIZE. rewrite Hq.
  replace (Z.of_nat (q * ell) + Z.of_nat ell - 1) with (Z.of_nat q * Z.of_nat ell + (Z.of_nat ell - 1)) by lia.
  rewrite Z.div_add_l by lia. rewrite Z.div_small by lia. rewrite Z.add_0_r, Nat2Z.id. reflexivity.
Qed.
Lemma pad_inv (v : list E) b pd : jacobi_ok (cjac c) -> prime_test_sound (cpp c) -> wf_cfg c -> pad c v b = Ret pd ->
  length (coeffs_of pd) = 4%nat /\
  (pad_fails c v b \/ fsum (map (fun x => (x * x)%F) (coeffs_of v ++ coeffs_of pd)) = toF p (b * b)).
Proof.
  intros Hj Hpp (He & H4 & _ & _ & _ & _ & _ & _ & _ & Hp & _) H. unfold pad, pad2exactNorm_ev, pad2exactNorm_e, normSquared_e, conv_bivec in H.
  change (flat_map conv_svec v) with (coeffs_of v) in H. rewrite normSquaredBI_spec in H.
  pose proof (pad_extra_exact He H4) as Hx.
  apply obind_ret_inv in H as [four [E4 H]]. rewrite resizeE_length, Nat.ltb_irrefl in H.
  rewrite skipn_all2 in H by (rewrite resizeE_length; lia). rewrite app_nil_r in H. injection H as <-.
  split; [rewrite coeffs_length, map_length, seq_length; exact Hx|].
  unfold pad_fails. set (d := b * b - _) in *.
  destruct (Z.ltb_spec d 0) as [Hd|Hd].
  { unfold decompose4 in E4. rewrite (proj2 (Z.ltb_lt _ _)) in E4 by assumption. discriminate. }
  destruct (decompose4_good _ _ (csp c) Hj Hpp d Hd) as [four' [E4' Hc]]. rewrite E4 in E4'. injection E4' as <-.
  destruct Hc as [->|Hc]; [now left|right].
  destruct Hc as [L [_ Hs]].
  replace (coeffs_of (map _ _)) with (map (toF p) four).
  - rewrite map_app, fsum_app, fsq_sum, fsq_toF, <- toF_add by lia. f_equal. unfold d in Hs.
    change (sum_of_squares four) with (sum_sq four) in Hs. lia.
  - unfold coeffs_of. rewrite flat_map_concat_map, map_map.
    replace (map _ (seq 0 pad_extra)) with (map (pad_tmp (p:=p) (ell:=ell) four) (seq 0 (pad_extra (ell:=ell)))).
    2:{ apply map_ext. intros i. symmetry. apply conv_svec_conv. apply pad_tmp_length. }
    rewrite <- flat_map_concat_map, flat_tmp_val; [|assumption|lia]. rewrite Hx, Nat.sub_diag. cbn [repeat]. now rewrite app_nil_r.
Qed.
End Ops.
