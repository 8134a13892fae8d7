(** The products on memory. *)
From Coq Require Import ZArith List Bool Lia.
From Verif Require Import Outcome Fp FSum Ring TernaryModel TernarySpec TernaryProofs AliasModel.
Import ListNotations.
Open Scope Z_scope.

Definition upd {A} (g : nat -> A) (i : nat) (a : A) : nat -> A := fun k => if (k =? i)%nat then a else g k.
Lemma put_map {A} (g : nat -> A) n i a : (i < n)%nat -> put (map g (seq 0 n)) i a = Ret (map (upd g i a) (seq 0 n)).
Proof.
  intros H. unfold put. rewrite map_length, seq_length. destruct (Nat.ltb_spec i n); [|lia]. f_equal.
  apply nth_ext with (d := a) (d' := a).
  - rewrite app_length, firstn_length. cbn [length]. rewrite skipn_length, !map_length, seq_length. lia.
  - intros k Hk. rewrite app_length, firstn_length in Hk. cbn [length] in Hk. rewrite skipn_length, map_length, seq_length in Hk.
    assert (Hk' : (k < n)%nat) by lia. clear Hk.
    rewrite (nth_indep (map (upd g i a) (seq 0 n)) a (upd g i a 0%nat)) by (rewrite map_length, seq_length; lia). rewrite map_nth, seq_nth by lia. cbn [Nat.add]. unfold upd.
    assert (Lf : length (firstn i (map g (seq 0 n))) = i) by (rewrite firstn_length, map_length, seq_length; lia).
    destruct (Nat.eqb_spec k i) as [->|Ne].
    + rewrite app_nth2; rewrite Lf; [|lia]. now rewrite Nat.sub_diag.
    + destruct (Nat.lt_ge_cases k i) as [L|L].
      * rewrite app_nth1 by (rewrite Lf; lia).
        assert (Q : nth_error (firstn i (map g (seq 0 n))) k = Some (g k)).
        { rewrite nth_error_firstn by lia. rewrite nth_error_map, (nth_error_nth' _ 0%nat) by (rewrite seq_length; lia). now rewrite seq_nth by lia. }
        now apply nth_error_nth.
      * rewrite app_nth2; rewrite Lf; [|lia]. destruct (k - i)%nat as [|q] eqn:Eq; [lia|]. cbn [nth]. rewrite TernaryProofs.nth_skipn.
        replace (S i + q)%nat with k by lia. rewrite (nth_indep _ a (g 0%nat)) by (rewrite map_length, seq_length; lia). rewrite map_nth, seq_nth by lia. reflexivity.
Qed.
Lemma oget_map {A} (g : nat -> A) n i : (i < n)%nat -> oget (map g (seq 0 n)) i = Ret (g i).
Proof.
  intros H. unfold oget. rewrite nth_error_map, (nth_error_nth' _ 0%nat) by (rewrite seq_length; lia). rewrite seq_nth by lia. reflexivity.
Qed.
Lemma list_map {A} (l : list A) d : l = map (fun i => nth i l d) (seq 0 (length l)).
Proof.
  apply nth_ext with (d := d) (d' := d); [now rewrite map_length, seq_length|]. intros k Hk.
  rewrite (nth_indep (map (fun i => nth i l d) (seq 0 (length l))) d (nth 0 l d)) by (rewrite map_length, seq_length; lia).
  rewrite (map_nth (fun i => nth i l d) (seq 0 (length l)) 0%nat k), seq_nth by lia. reflexivity.
Qed.
(** A loop that updates position j in step j. *)
Lemma each_map {A} (f : nat -> list A -> outcome (list A)) (h : nat -> A) m : forall n k (g : nat -> A), (k + n = m)%nat ->
  (forall j g', (k <= j < m)%nat -> (forall q, (j <= q)%nat -> g' q = g q) -> f j (map g' (seq 0 m)) = Ret (map (upd g' j (h j)) (seq 0 m))) ->
  each f (seq k n) (map g (seq 0 m)) = Ret (map (fun q => if (k <=? q)%nat then h q else g q) (seq 0 m)).
Proof.
  induction n as [|n IH]; intros k g E H.
  - cbn [seq each]. f_equal. apply map_ext_in. intros q Hq. apply in_seq in Hq. destruct (Nat.leb_spec k q); [lia|reflexivity].
  - cbn [seq each]. rewrite (H k g) by (auto; lia). cbn [obind]. rewrite (IH (S k)); [|lia|].
    + f_equal. apply map_ext. intros q. unfold upd. destruct (Nat.leb_spec (S k) q), (Nat.leb_spec k q), (Nat.eqb_spec q k); subst; try lia; reflexivity.
    + intros j g' Hj Hg. apply H; [lia|]. intros q Hq. rewrite Hg by lia. unfold upd. destruct (Nat.eqb_spec q k); [lia|reflexivity].
Qed.

Section P.
Context {A : Type}.
Variable zero : A.
Variable add : A -> A -> A.
Variable opp : A -> A.
Notation pick := (pick zero opp).
Lemma oget_nth (v : list A) i : (i < length v)%nat -> oget v i = Ret (nth i v zero).
Proof. intros H. unfold oget. now rewrite (nth_error_nth' v zero H). Qed.
(** Separate memory: one pass of the inner loop, then all. *)
Lemma acc_separate v i m j (g : nat -> A) n : (i < length v)%nat -> (j < n)%nat ->
  accumulate zero add false v (map opp v) i m j (map g (seq 0 n)) = Ret (map (upd g j (add (g j) (pick (nth i v zero) m))) (seq 0 n)).
Proof.
  intros Hi Hj. unfold accumulate, TernaryModel.pick.
  assert (E : (if m =? 1 then oget v i else if m =? 0 then Ret zero else oget (map opp v) i) =
              Ret (if m =? 1 then nth i v zero else if m =? 0 then zero else opp (nth i v zero))).
  { destruct (m =? 1); [now apply oget_nth|]. destruct (m =? 0); [reflexivity|]. unfold oget. rewrite nth_error_map, (nth_error_nth' v zero Hi). reflexivity. }
  rewrite E. cbn [obind]. rewrite oget_map by lia. cbn [obind]. now rewrite put_map.
Qed.
Definition sweep (v : list A) (e : nat -> nat -> Z) (i : nat) (g : nat -> A) : nat -> A := fun j => add (g j) (pick (nth i v zero) (e i j)).
Lemma inner_separate v (entry : nat -> nat -> outcome Z) e i n (g : nat -> A) : (i < length v)%nat -> (forall j, (j < n)%nat -> entry i j = Ret (e i j)) ->
  each (fun j res => let! m := entry i j in accumulate zero add false v (map opp v) i m j res) (seq 0 (length (map g (seq 0 n)))) (map g (seq 0 n)) =
  Ret (map (sweep v e i g) (seq 0 n)).
Proof.
  intros Hi He. rewrite map_length, seq_length. rewrite (each_map _ (sweep v e i g) n n 0 g); [|lia|].
  - f_equal.
  - intros j g' Hj Hg. rewrite He by lia. cbn [obind]. rewrite acc_separate by lia. unfold sweep. now rewrite Hg by lia.
Qed.
Lemma vec_separate v entry e n : (forall i j, (i < length v)%nat -> (j < n)%nat -> entry i j = Ret (e i j)) ->
  vecMult zero add opp false entry n v = Ret (map (fold_left (fun g i => sweep v e i g) (seq 0 (length v)) (fun _ => zero)) (seq 0 n)).
Proof.
  intros H. unfold vecMult. rewrite (TernaryProofs.repeat_map_seq zero n 0).
  generalize (fun _ : nat => zero) as g.
  assert (Q : forall is g, (forall i, In i is -> (i < length v)%nat) ->
    each (fun i res => each (fun j res => let! m := entry i j in accumulate zero add false v (map opp v) i m j res) (seq 0 (length res)) res) is (map g (seq 0 n)) =
    Ret (map (fold_left (fun g i => sweep v e i g) is g) (seq 0 n))).
  { induction is as [|i is IH]; intros g Hi; [reflexivity|]. cbn [each fold_left].
    rewrite (inner_separate v entry e) by (intros; first [apply H; [apply Hi; now left|assumption]|apply Hi; now left]). cbn [obind].
    apply IH. intros; apply Hi; now right. }
  intros g. apply Q. intros i Hi. apply in_seq in Hi. lia.
Qed.
(** The same as the products of TernaryModel. *)
Lemma left_sweeps v M n m f : is_tmat M n m f -> length v = n ->
  leftVecMult zero add opp v M = Ret (map (fold_left (fun g i => sweep v f i g) (seq 0 n) (fun _ => zero)) (seq 0 m)).
Proof.
  intros HM Hl. unfold leftVecMult. rewrite (entries_spec M n m f HM). destruct HM as [Hn [Hm _]]. rewrite Hl, Hn, Nat.eqb_refl. cbn [negb obind]. f_equal.
  rewrite (combine_rows zero v n f m Hl), Hm, (TernaryProofs.repeat_map_seq zero m 0). generalize (fun _ : nat => zero) as g.
  induction (seq 0 n) as [|i is IH]; intros g; [reflexivity|]. cbn [map fold_left fst snd]. rewrite <- IH. f_equal.
  rewrite (zipWith_map (fun r mm => add r (pick (nth i v zero) mm)) g (f i)). reflexivity.
Qed.
Lemma right_sweeps v M n m f : is_tmat M n m f -> length v = m ->
  rightVecMult zero add opp M v = Ret (map (fold_left (fun g j => sweep v (fun j i => f i j) j g) (seq 0 m) (fun _ => zero)) (seq 0 n)).
Proof.
  intros HM Hl. unfold rightVecMult. rewrite (entries_spec M n m f HM). destruct HM as [Hn [Hm _]]. rewrite Hl, Hm, Nat.eqb_refl. cbn [negb obind]. f_equal.
  rewrite <- Hl at 1. rewrite (combine_seq_nth zero v), Hl, Hn, (TernaryProofs.repeat_map_seq zero n 0). generalize (fun _ : nat => zero) as g.
  assert (Q : forall js g, (forall j, In j js -> (j < m)%nat) ->
    fold_left (fun res e => zipWith (fun r row => add r (pick (snd e) (nth (fst e) row 0))) res (map (fun i => map (f i) (seq 0 m)) (seq 0 n)))
      (map (fun j => (j, nth j v zero)) js) (map g (seq 0 n)) = map (fold_left (fun g j => sweep v (fun j i => f i j) j g) js g) (seq 0 n)).
  { induction js as [|j js IH]; intros g Hj; [reflexivity|]. cbn [map fold_left fst snd]. rewrite <- IH by (intros; apply Hj; now right). f_equal.
    rewrite (zipWith_map (fun r row => add r (pick (nth j v zero) (nth j row 0))) g (fun i => map (f i) (seq 0 m))). apply map_ext. intros i. unfold sweep. do 2 f_equal.
    assert (L : (j < m)%nat) by (apply Hj; now left).
    rewrite (nth_indep (map (f i) (seq 0 m)) 0 (f i 0%nat)) by (rewrite map_length, seq_length; lia). now rewrite map_nth, seq_nth by lia. }
  intros g. apply Q. intros j Hj. apply in_seq in Hj. lia.
Qed.
Lemma tentry_spec M n m f i j : is_tmat M n m f -> (i < n)%nat -> (j < m)%nat -> tentry M i j = Ret (f i j).
Proof. intros (_ & _ & H) Hi Hj. destruct (H i Hi) as (r & E & _ & G). unfold tentry, oget. rewrite E. cbn [obind]. now apply G. Qed.
Lemma left_separate v M n m f : is_tmat M n m f -> leftVecMultM zero add opp false v M = leftVecMult zero add opp v M.
Proof.
  intros HM. unfold leftVecMultM. destruct (Nat.eqb_spec (length v) (tNumRows M)) as [E|E]; cbn [negb].
  - pose proof HM as (Hn & Hm & _). rewrite (left_sweeps v M n m f HM) by congruence. rewrite Hm. rewrite (vec_separate v (tentry M) f m).
    + now rewrite E, Hn.
    + intros i j Hi Hj. apply (tentry_spec M n m f); [assumption|congruence|assumption].
  - symmetry. now apply leftVecMult_throw.
Qed.
Lemma right_separate v M n m f : is_tmat M n m f -> rightVecMultM zero add opp false M v = rightVecMult zero add opp M v.
Proof.
  intros HM. unfold rightVecMultM. destruct (Nat.eqb_spec (length v) (tNumCols M)) as [E|E]; cbn [negb].
  - pose proof HM as (Hn & Hm & _). rewrite (right_sweeps v M n m f HM) by congruence. rewrite Hn. rewrite (vec_separate v (fun i j => tentry M j i) (fun j i => f i j) n).
    + now rewrite E, Hm.
    + intros i j Hi Hj. apply (tentry_spec M n m f); [assumption|assumption|congruence].
  - symmetry. now apply rightVecMult_throw.
Qed.
(** Shared memory: the vector is zero before anything is read. *)
Hypothesis add_zero : add zero zero = zero.
Hypothesis opp_zero : opp zero = zero.
Lemma acc_shared i m j n : (i < n)%nat -> (j < n)%nat ->
  accumulate zero add true (repeat zero n) (map opp (repeat zero n)) i m j (repeat zero n) = Ret (repeat zero n).
Proof.
  intros Hi Hj. unfold accumulate.
  assert (G : forall k, (k < n)%nat -> oget (repeat zero n) k = Ret zero) by (intros k Hk; unfold oget; now rewrite nth_error_repeat by lia).
  assert (E : (if m =? 1 then oget (repeat zero n) i else if m =? 0 then Ret zero else oget (map opp (repeat zero n)) i) = Ret zero).
  { destruct (m =? 1); [now apply G|]. destruct (m =? 0); [reflexivity|]. unfold oget. rewrite nth_error_map, nth_error_repeat by lia. cbn. now rewrite opp_zero. }
  rewrite E. cbn [obind]. rewrite (G j Hj). cbn [obind]. rewrite add_zero, (TernaryProofs.repeat_map_seq zero n 0), put_map by lia. f_equal. apply map_ext.
  intros k. unfold upd. now destruct (k =? j)%nat.
Qed.
Lemma each_const {B} (f : nat -> B -> outcome B) b js : (forall j, In j js -> f j b = Ret b) -> each f js b = Ret b.
Proof. induction js as [|j js IH]; intros H; [reflexivity|]. cbn [each]. rewrite (H j) by now left. cbn [obind]. apply IH. intros; apply H; now right. Qed.
Lemma vec_shared entry n v : (forall i j, (i < n)%nat -> (j < n)%nat -> exists m, entry i j = Ret m) ->
  vecMult zero add opp true entry n v = Ret (repeat zero n).
Proof.
  intros H. unfold vecMult. rewrite repeat_length. apply each_const. intros i Hi. apply in_seq in Hi. rewrite repeat_length. apply each_const.
  intros j Hj. apply in_seq in Hj. destruct (H i j) as [m ->]; try lia. cbn [obind]. now apply acc_shared; lia.
Qed.
Lemma left_shared v M n m f : is_tmat M n m f -> length v = n -> (m <= n)%nat -> leftVecMultM zero add opp true v M = Ret (repeat zero m).
Proof.
  intros HM Hl L. unfold leftVecMultM. pose proof HM as (Hn & Hm & _). rewrite Hl, Hn, Nat.eqb_refl, Hm. cbn [negb]. apply vec_shared.
  intros i j Hi Hj. exists (f i j). apply (tentry_spec M n m f); [assumption|lia|assumption].
Qed.
Lemma right_shared v M n m f : is_tmat M n m f -> length v = m -> (n <= m)%nat -> rightVecMultM zero add opp true M v = Ret (repeat zero n).
Proof.
  intros HM Hl L. unfold rightVecMultM. pose proof HM as (Hn & Hm & _). rewrite Hl, Hm, Nat.eqb_refl, Hn. cbn [negb]. apply vec_shared.
  intros i j Hi Hj. exists (f j i). apply (tentry_spec M n m f); [assumption|assumption|lia].
Qed.
(** Fewer rows than columns: a row after the last one is read. *)
Lemma each_app {B} (f : nat -> B -> outcome B) l l' b : each f (l ++ l') b = (let! b := each f l b in each f l' b).
Proof. revert b. induction l as [|j l IH]; intros b; [reflexivity|]. cbn [app each]. destruct (f j b); cbn [obind]; auto. Qed.
Lemma left_shared_ub v M n m f : is_tmat M n m f -> length v = n -> (n < m)%nat -> leftVecMultM zero add opp true v M = UB.
Proof.
  intros HM Hl L. unfold leftVecMultM. pose proof HM as (Hn & Hm & _). rewrite Hl, Hn, Nat.eqb_refl, Hm. cbn [negb]. unfold vecMult. rewrite repeat_length.
  replace m with (n + S (m - n - 1))%nat at 1 by lia. rewrite seq_app, each_app. rewrite each_const.
  - cbn [obind Nat.add seq each]. rewrite repeat_length. destruct m as [|m']; [lia|]. cbn [seq each]. unfold tentry at 1, oget at 1.
    destruct (nth_error M n) eqn:Q; [|reflexivity]. assert (n < length M)%nat by (apply nth_error_Some; congruence). unfold tNumRows in Hn. lia.
  - intros i Hi. apply in_seq in Hi. rewrite repeat_length. apply each_const. intros j Hj. apply in_seq in Hj.
    rewrite (tentry_spec M n m f) by (assumption || lia). cbn [obind]. apply acc_shared; lia.
Qed.
(** Matrices. *)
Lemma left_mat_shared M1 M r n f : is_tmat M n n f -> mat_dims M1 r n ->
  leftMatMultShared zero add opp M1 M = Ret (Mat (repeat (repeat zero n) r) n).
Proof.
  intros HM (D1 & D2 & D3). pose proof HM as (Hn & Hm & _). unfold leftMatMultShared, setDims. rewrite D2, Hn, Hm, !Nat.eqb_refl. cbn [negb mrows mcols].
  rewrite firstn_all, D1, Nat.sub_diag. cbn [repeat]. rewrite app_nil_r.
  assert (Q : omapM (fun q => leftVecMultM zero add opp true q M) (mrows M1) = Ret (repeat (repeat zero n) r)).
  { rewrite <- D1. clear D1. induction (mrows M1) as [|q rs IH]; [reflexivity|]. apply Forall_cons_iff in D3 as [Hq Hr]. cbn [omapM length repeat].
    rewrite (left_shared q M n n f HM Hq (Nat.le_refl n)). cbn [obind]. now rewrite (IH Hr). }
  now rewrite Q.
Qed.
Lemma left_mat_throw M1 M r n m f : is_tmat M n m f -> mat_dims M1 (S r) n -> n <> m -> leftMatMultShared zero add opp M1 M = Throw.
Proof.
  intros HM (D1 & D2 & D3) Ne. pose proof HM as (Hn & Hm & _). unfold leftMatMultShared, setDims. rewrite D2, Hn, Hm, Nat.eqb_refl.
  destruct (Nat.eqb_spec n m); [lia|]. cbn [negb mrows mcols]. rewrite D1. cbn [repeat omapM]. unfold leftVecMultM at 1. rewrite repeat_length, Hn.
  destruct (Nat.eqb_spec m n); [lia|]. reflexivity.
Qed.
(** Right products of matrices, column by column. *)
Definition tab (n c : nat) (g : nat -> nat -> A) : list (list A) := map (fun i => map (g i) (seq 0 c)) (seq 0 n).
Definition prodR (m : nat) (f : nat -> nat -> Z) (v : list A) : nat -> A :=
  fold_left (fun g j => sweep v (fun j i => f i j) j g) (seq 0 m) (fun _ => zero).
Lemma store_tab n c j (o : nat -> A) g : (j < c)%nat ->
  storeColumn j (map o (seq 0 n)) (tab n c g) = Ret (tab n c (fun i => upd (g i) j (o i))).
Proof.
  intros Hj. unfold storeColumn, tab. rewrite map_length, seq_length.
  rewrite (each_map _ (fun i => map (upd (g i) j (o i)) (seq 0 c)) n n 0 (fun i => map (g i) (seq 0 c))); [reflexivity|lia|].
  intros i g' Hi Hg. rewrite oget_map by lia. cbn [obind]. rewrite oget_map by lia. cbn [obind]. rewrite Hg by lia. rewrite put_map by lia. cbn [obind]. now rewrite put_map by lia.
Qed.
Lemma read_tab n n' c g j : (n <= n')%nat -> (j < c)%nat -> readColumn n (tab n' c g) j = Ret (map (fun i => g i j) (seq 0 n)).
Proof.
  intros Hn Hj. unfold readColumn, tab. apply omapM_ret. intros i Hi. apply in_seq in Hi. rewrite oget_map by lia. cbn [obind]. now rewrite oget_map by lia.
Qed.
Lemma col_loop M n m f c (src : list (list A) -> list (list A)) nn (col : nat -> list A) : is_tmat M n m f -> (forall j, (j < c)%nat -> length (col j) = m) -> forall q k g, (k + q = c)%nat ->
  (forall j g', (k <= j < c)%nat -> (forall i l, (j <= l)%nat -> g' i l = g i l) -> readColumn nn (src (tab n c g')) j = Ret (col j)) ->
  each (fun j rows => let! inTmp := readColumn nn (src rows) j in let! outTmp := rightVecMultM zero add opp false M inTmp in storeColumn j outTmp rows) (seq k q) (tab n c g) =
  Ret (tab n c (fun i l => if (k <=? l)%nat then prodR m f (col l) i else g i l)).
Proof.
  intros HM Hc. induction q as [|q IH]; intros k g E H.
  - cbn [seq each]. f_equal. unfold tab. apply map_ext. intros i. apply map_ext_in. intros l Hl. apply in_seq in Hl. destruct (Nat.leb_spec k l); [lia|reflexivity].
  - cbn [seq each]. rewrite (H k g) by (auto; lia). cbn [obind]. rewrite (right_separate (col k) M n m f HM), (right_sweeps (col k) M n m f HM) by (apply Hc; lia). cbn [obind].
    rewrite store_tab by lia. cbn [obind]. rewrite (IH (S k)); [|lia|].
    + f_equal. unfold tab. apply map_ext. intros i. apply map_ext. intros l. unfold upd. destruct (Nat.leb_spec (S k) l), (Nat.leb_spec k l), (Nat.eqb_spec l k); subst; try lia; reflexivity.
    + intros j g' Hj Hg. apply H; [lia|]. intros i l Hl. rewrite Hg by lia. unfold upd. destruct (Nat.eqb_spec l k); [lia|reflexivity].
Qed.
Lemma rows_tab (rs : list (list A)) c : Forall (fun r => length r = c) rs -> rs = tab (length rs) c (fun i j => nth j (nth i rs []) zero).
Proof.
  intros H. unfold tab. transitivity (map (fun i => nth i rs []) (seq 0 (length rs))); [apply list_map|]. apply map_ext_in. intros i Hi. apply in_seq in Hi.
  rewrite Forall_forall in H. rewrite <- (H (nth i rs [])) at 1 by (apply nth_In; lia). symmetry. rewrite <- list_map. reflexivity.
Qed.
Lemma right_mat_sweeps M M2 n m f c : is_tmat M n m f -> mat_dims M2 m c ->
  rightMatMult zero add opp M M2 = Ret (Mat (tab n c (fun i l => prodR m f (column zero M2 l) i)) c).
Proof.
  intros HM (D1 & D2 & D3). pose proof HM as (Hn & Hm & _). unfold rightMatMult. rewrite Hm, D1, Nat.eqb_refl, D2, Hn. cbn [negb].
  rewrite (omapM_ret _ (fun j => map (prodR m f (column zero M2 j)) (seq 0 n))).
  - cbn [obind]. f_equal. f_equal. unfold tab. apply map_ext_in. intros i Hi. apply in_seq in Hi. rewrite map_map. apply map_ext. intros l.
    rewrite (nth_indep _ zero (prodR m f (column zero M2 l) 0%nat)) by (rewrite map_length, seq_length; lia). now rewrite map_nth, seq_nth by lia.
  - intros j _. apply (right_sweeps _ M n m f HM). unfold column. now rewrite map_length.
Qed.
Lemma column_tab M2 m c l : mat_dims M2 m c -> map (fun i => nth l (nth i (mrows M2) []) zero) (seq 0 m) = column zero M2 l.
Proof. intros (D1 & _ & _). unfold column. pose proof (f_equal (map (fun r => nth l r zero)) (list_map (mrows M2) [])) as E. rewrite map_map, D1 in E. now symmetry. Qed.
(** In place: right for square matrices. *)
Lemma right_mat_shared M M2 res0 n f c : is_tmat M n n f -> mat_dims M2 n c -> rightMatMultM zero add opp true M M2 res0 = rightMatMult zero add opp M M2.
Proof.
  intros HM D. rewrite (right_mat_sweeps M M2 n n f c HM D). pose proof D as (D1 & D2 & D3). pose proof HM as (Hn & Hm & _).
  unfold rightMatMultM, setDims. rewrite Hm, D1, Hn, D2, !Nat.eqb_refl. cbn [negb mrows mcols].
  assert (Q : firstn n (mrows M2) ++ repeat (repeat zero c) (n - n) = tab n c (fun i j => nth j (nth i (mrows M2) []) zero)).
  { rewrite Nat.sub_diag. cbn [repeat]. rewrite app_nil_r, <- D1, firstn_all. apply (rows_tab (mrows M2) c D3). }
  rewrite Q. assert (Ln : length (tab n c (fun i j => nth j (nth i (mrows M2) []) zero)) = n) by (unfold tab; now rewrite map_length, seq_length). rewrite Ln.
  rewrite (col_loop M n n f c (fun rows => rows) n (column zero M2) HM); [|intros; unfold column; now rewrite map_length|lia|].
  - cbn [obind Nat.leb]. reflexivity.
  - intros j g' Hj Hg. rewrite read_tab by lia. f_equal. rewrite <- (column_tab M2 n c j D). apply map_ext. intros i. apply Hg. lia.
Qed.
Lemma right_mat_throw M M2 res0 n m f c : is_tmat M n m f -> mat_dims M2 m (S c) -> n <> m -> rightMatMultM zero add opp true M M2 res0 = Throw.
Proof.
  intros HM D Ne. pose proof D as (D1 & D2 & D3). pose proof HM as (Hn & Hm & _).
  unfold rightMatMultM, setDims. rewrite Hm, D1, Hn, D2, !Nat.eqb_refl. cbn [negb mrows mcols].
  assert (F : Forall (fun r => length r = S c) (firstn n (mrows M2) ++ repeat (repeat zero (S c)) (n - m))).
  { apply Forall_app. split.
    - apply Forall_forall. intros r Hr. rewrite Forall_forall in D3. apply D3. rewrite <- (firstn_skipn n (mrows M2)). apply in_or_app. now left.
    - apply Forall_forall. intros r Hr. apply repeat_spec in Hr as ->. apply repeat_length. }
  assert (L : length (firstn n (mrows M2) ++ repeat (repeat zero (S c)) (n - m)) = n) by (rewrite app_length, firstn_length, repeat_length; lia).
  rewrite (rows_tab _ _ F), L. remember (fun i j => nth j (nth i (firstn n (mrows M2) ++ repeat (repeat zero (S c)) (n - m)) []) zero) as g.
  assert (L' : length (tab n (S c) g) = n) by (unfold tab; now rewrite map_length, seq_length). rewrite L'. cbn [seq each]. rewrite read_tab by lia. cbn [obind].
  unfold rightVecMultM at 1. rewrite map_length, seq_length, Hm. destruct (Nat.eqb_spec n m); [lia|]. reflexivity.
Qed.
Lemma right_mat_separate M M2 res0 n m f c r0 c0 : is_tmat M n m f -> mat_dims M2 m c -> mat_dims res0 r0 c0 ->
  rightMatMultM zero add opp false M M2 res0 = rightMatMult zero add opp M M2.
Proof.
  intros HM D (R1 & R2 & R3). rewrite (right_mat_sweeps M M2 n m f c HM D). pose proof D as (D1 & D2 & D3). pose proof HM as (Hn & Hm & _).
  unfold rightMatMultM. rewrite Hm, D1, Hn, D2, Nat.eqb_refl. cbn [negb].
  assert (Q : exists g, setDims zero res0 n c = Mat (tab n c g) c).
  { unfold setDims. rewrite R2. destruct (Nat.eqb_spec c0 c) as [->|].
    - assert (F : Forall (fun r => length r = c) (firstn n (mrows res0) ++ repeat (repeat zero c) (n - length (mrows res0)))).
      { apply Forall_app. split.
        - apply Forall_forall. intros r Hr. rewrite Forall_forall in R3. apply R3. rewrite <- (firstn_skipn n (mrows res0)). apply in_or_app. now left.
        - apply Forall_forall. intros r Hr. apply repeat_spec in Hr as ->. apply repeat_length. }
      eexists. rewrite (rows_tab _ _ F). rewrite app_length, firstn_length, repeat_length. replace (Nat.min n (length (mrows res0)) + (n - length (mrows res0)))%nat with n by lia. reflexivity.
    - exists (fun _ _ => zero). f_equal. unfold tab. rewrite (TernaryProofs.repeat_map_seq (repeat zero c) n 0). apply map_ext. intros _. apply TernaryProofs.repeat_map_seq. }
  destruct Q as [g ->]. cbn [mrows mcols].
  rewrite (col_loop M n m f c (fun _ => mrows M2) m (column zero M2) HM); [|intros; unfold column; now rewrite map_length|lia|].
  - reflexivity.
  - intros j g' Hj Hg. rewrite (rows_tab (mrows M2) c D3), D1, read_tab by lia. f_equal. apply (column_tab M2 m c j D).
Qed.
Lemma sweeps_zero n f is : (forall i, In i is -> (i < n)%nat) -> forall j, fold_left (fun g i => sweep (repeat zero n) f i g) is (fun _ => zero) j = zero.
Proof.
  assert (Q : forall is g, (forall j, g j = zero) -> forall j, fold_left (fun g i => sweep (repeat zero n) f i g) is g j = zero).
  { induction is0 as [|i is0 IH]; intros g Hg j; [apply Hg|]. cbn [fold_left]. apply IH. intros k. unfold sweep. rewrite Hg, nth_repeat.
    unfold TernaryModel.pick. destruct (f i k =? 1); [apply add_zero|]. destruct (f i k =? 0); [apply add_zero|]. now rewrite opp_zero. }
  intros _. now apply Q.
Qed.
Lemma left_zero M n f : is_tmat M n n f -> leftVecMult zero add opp (repeat zero n) M = Ret (repeat zero n).
Proof.
  intros HM. rewrite (left_sweeps _ M n n f HM) by apply repeat_length. f_equal. rewrite (TernaryProofs.repeat_map_seq zero n 0). apply map_ext_in. intros j _.
  rewrite <- (TernaryProofs.repeat_map_seq zero n 0). apply sweeps_zero. intros i Hi. apply in_seq in Hi. lia.
Qed.
Lemma right_zero M n f : is_tmat M n n f -> rightVecMult zero add opp M (repeat zero n) = Ret (repeat zero n).
Proof.
  intros HM. rewrite (right_sweeps _ M n n f HM) by apply repeat_length. f_equal. rewrite (TernaryProofs.repeat_map_seq zero n 0). apply map_ext_in. intros j _.
  rewrite <- (TernaryProofs.repeat_map_seq zero n 0). apply sweeps_zero. intros i Hi. apply in_seq in Hi. lia.
Qed.
End P.

Section TE.
Context {p : Z} {ell : nat}.
Notation E := (elt p ell).
Lemma eopp_0 : (0 < ell)%nat -> eopp (e0 : E) = e0.
Proof. intros He. rewrite <- (eadd_0_l (eopp e0)). apply (Ropp_def (elt_ring He)). Qed.
Lemma vscale_zero n : vscaleX (repeat (e0 : E) n) = repeat e0 n.
Proof. unfold vscaleX. induction n; [reflexivity|]. cbn [repeat map]. rewrite IHn. f_equal. apply emul_0_r. Qed.
Lemma vplus_zero n : vplus (repeat (e0 : E) n) (repeat e0 n) = repeat e0 n.
Proof. unfold vplus. induction n; [reflexivity|]. cbn [repeat zipWith]. rewrite IHn. f_equal. apply eadd_0_l. Qed.
Lemma horner_zero (prodS prod : tmat -> list E -> outcome (list E)) Ms n f v : (0 < ell)%nat -> is_temat ell Ms n n f ->
  (forall M g, is_tmat M n n g -> prodS M v = Ret (repeat e0 n)) -> (forall M g, is_tmat M n n g -> prod M (repeat e0 n) = Ret (repeat e0 n)) ->
  hornerShared vscaleX vplus prodS prod ell Ms v = Ret (repeat e0 n).
Proof.
  intros He [L H] H1 H2. unfold hornerShared. rewrite L, Nat.eqb_refl. destruct (Nat.eqb_spec ell 0); [lia|]. cbn [negb orb].
  assert (W : forall M, In M (rev Ms) -> exists g, is_tmat M n n g).
  { intros M HM. apply in_rev in HM. apply In_nth_error in HM as [k Hk]. destruct (H k M Hk) as [Q _]. now exists (f k). }
  destruct (rev Ms) as [|top rest] eqn:R; [apply (f_equal (@length tmat)) in R; rewrite rev_length in R; cbn in R; lia|].
  destruct (W top (or_introl eq_refl)) as [g Hg]. rewrite (H1 top g Hg). cbn [obind].
  assert (W' : forall M, In M rest -> exists g, is_tmat M n n g) by (intros; apply W; now right). clear W R H1 Hg.
  induction rest as [|M rest IH]; [reflexivity|]. cbn [fold_left obind]. destruct (W' M (or_introl eq_refl)) as [g' Hg']. rewrite (H2 M g' Hg'). cbn [obind].
  rewrite vscale_zero, vplus_zero. apply IH. intros; apply W'; now right.
Qed.
End TE.
