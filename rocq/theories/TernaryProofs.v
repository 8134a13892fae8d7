(** Proofs about ternary matrices. *)
From Coq Require Import ZArith List Lia Bool Arith.
From Verif Require Import Outcome Fp FSum Ring TernaryModel TernarySpec.
Import ListNotations.
Open Scope Z_scope.

(** *** Decoding *)
Definition byte_range : list Z := map Z.of_nat (seq 0 256).
Lemma clear11_all : forallb (fun b => forallb (fun j =>
   let x := Z.shiftr (clear11 b) (2 * j) in
   (Z.land x 1 - Z.land (Z.shiftr x 1) 1 =? two_bits (Z.testbit b (2 * j)) (Z.testbit b (2 * j + 1)))) [0; 1; 2; 3]) byte_range = true.
Proof. vm_compute. reflexivity. Qed.
Lemma clear11_spec b j : 0 <= b < 256 -> (j < 4)%nat ->
  let x := Z.shiftr (clear11 b) (2 * Z.of_nat j) in
  Z.land x 1 - Z.land (Z.shiftr x 1) 1 = two_bits (Z.testbit b (2 * Z.of_nat j)) (Z.testbit b (2 * Z.of_nat j + 1)).
Proof.
  intros Hb Hj. pose proof clear11_all as H. rewrite forallb_forall in H.
  assert (Hin : In b byte_range).
  { unfold byte_range. apply in_map_iff. exists (Z.to_nat b). split; [lia|]. apply in_seq. lia. }
  specialize (H b Hin). rewrite forallb_forall in H.
  assert (Hjn : In (Z.of_nat j) [0; 1; 2; 3]).
  { destruct j as [|[|[|[|j]]]]; cbn; auto 6. lia. }
  specialize (H _ Hjn). now apply Z.eqb_eq in H.
Qed.

Lemma rowBytes_index m j : (j < m)%nat -> (j / 4 < rowBytes m)%nat.
Proof.
  intros H. unfold rowBytes. apply Nat.div_lt_upper_bound; [lia|].
  pose proof (Nat.div_mod (m + 3) 4 ltac:(lia)). pose proof (Nat.mod_upper_bound (m + 3) 4 ltac:(lia)). lia.
Qed.
Lemma nth_error_firstn {A} (l : list A) : forall n i, (i < n)%nat -> nth_error (firstn n l) i = nth_error l i.
Proof.
  induction l as [|x l IH]; intros [|n] [|i] H; cbn; try reflexivity; try lia. apply IH. lia.
Qed.

Lemma row_get_spec buf m j : (forall i, 0 <= nth i buf 0 < 256) -> (rowBytes m <= length buf)%nat -> (j < m)%nat ->
  trow_get (TRow m (map clear11 (firstn (rowBytes m) buf))) j = Ret (byte_entry buf m 0 j).
Proof.
  intros Hb Hl Hj. unfold trow_get. cbn [trep]. pose proof (rowBytes_index m j Hj) as Hr.
  assert (E : nth_error (map clear11 (firstn (rowBytes m) buf)) (j / 4) = Some (clear11 (nth (j / 4) buf 0))).
  { rewrite nth_error_map, nth_error_firstn by assumption.
    rewrite nth_error_nth' with (d := 0) by lia. reflexivity. }
  unfold oget. rewrite E. cbn [obind]. f_equal. unfold byte_entry. cbn [Nat.mul Nat.add].
  apply clear11_spec; [apply Hb|]. apply Nat.mod_upper_bound. lia.
Qed.
Lemma nth_skipn {A} (l : list A) (d : A) : forall k i, nth i (skipn k l) d = nth (k + i) l d.
Proof.
  induction l as [|x l IH]; intros [|k] i; cbn; try reflexivity.
  - now destruct i.
  - apply IH.
Qed.
Lemma byte_entry_skip buf m i j : byte_entry (skipn (rowBytes m) buf) m i j = byte_entry buf m (S i) j.
Proof.
  unfold byte_entry. rewrite nth_skipn. unfold rowBytes. cbn [Nat.mul]. now rewrite Nat.add_assoc.
Qed.

Lemma set_rows_spec n m : forall buf, (forall i, 0 <= nth i buf 0 < 256) -> (n * rowBytes m <= length buf)%nat ->
  exists M, set_rows buf n m = Ret M /\ length M = n /\
   (n = 0%nat \/ tNumCols M = m) /\
   forall i, (i < n)%nat -> exists r, nth_error M i = Some r /\ tlen r = m /\ length (trep r) = rowBytes m /\
     forall j, (j < m)%nat -> trow_get r j = Ret (byte_entry buf m i j).
Proof.
  induction n as [|n IH]; intros buf Hb Hl; cbn [set_rows].
  - exists []. repeat split; [now left|]. intros i Hi. lia.
  - cbn [Nat.mul] in Hl. destruct (Nat.ltb_spec (length buf) (rowBytes m)); [lia|].
    destruct (IH (skipn (rowBytes m) buf)) as [M [E [L [_ H1]]]].
    { intros i. rewrite nth_skipn. apply Hb. }
    { rewrite skipn_length. lia. }
    rewrite E. cbn [obind]. eexists. split; [reflexivity|]. split; [cbn; congruence|]. split; [now right|].
    intros [|i] Hi.
    + eexists. split; [reflexivity|]. split; [reflexivity|]. split.
      * cbn [trep]. rewrite map_length, firstn_length. lia.
      * intros j Hj. now apply row_get_spec.
    + destruct (H1 i ltac:(lia)) as [r [E1 [E2 [E3 H2]]]]. exists r. split; [exact E1|]. split; [assumption|]. split; [assumption|].
      intros j Hj. rewrite (H2 j Hj). now rewrite byte_entry_skip.
Qed.
Lemma set_rows_short n m : forall buf, (length buf < n * rowBytes m)%nat -> set_rows buf n m = UB.
Proof.
  induction n as [|n IH]; intros buf H; [cbn in H; lia|]. cbn [set_rows Nat.mul] in *.
  destruct (Nat.ltb_spec (length buf) (rowBytes m)); [reflexivity|].
  rewrite IH; [reflexivity|]. rewrite skipn_length. lia.
Qed.
Lemma set_rows_ext n m : forall buf buf', firstn (n * rowBytes m) buf = firstn (n * rowBytes m) buf' ->
  (n * rowBytes m <= length buf)%nat -> (n * rowBytes m <= length buf')%nat -> set_rows buf n m = set_rows buf' n m.
Proof.
  induction n as [|n IH]; intros buf buf' E H H'; [reflexivity|]. cbn [set_rows Nat.mul] in *.
  destruct (Nat.ltb_spec (length buf) (rowBytes m)); [lia|]. destruct (Nat.ltb_spec (length buf') (rowBytes m)); [lia|].
  assert (E1 : firstn (rowBytes m) buf = firstn (rowBytes m) buf').
  { apply (f_equal (firstn (rowBytes m))) in E. rewrite !firstn_firstn in E. now rewrite !Nat.min_l in E by lia. }
  rewrite E1. rewrite (IH (skipn (rowBytes m) buf) (skipn (rowBytes m) buf')); [reflexivity| |rewrite skipn_length; lia|rewrite skipn_length; lia].
  apply (f_equal (skipn (rowBytes m))) in E. rewrite !skipn_firstn_comm in E.
  now replace (rowBytes m + n * rowBytes m - rowBytes m)%nat with (n * rowBytes m)%nat in E by lia.
Qed.
Lemma two_bits_ternary lo hi : two_bits lo hi = -1 \/ two_bits lo hi = 0 \/ two_bits lo hi = 1.
Proof. destruct lo, hi; cbn; auto. Qed.

Lemma setFromBytes_spec buf n m : (0 < n)%nat -> (forall i, 0 <= nth i buf 0 < 256) -> (n * rowBytes m <= length buf)%nat ->
  exists M, setFromBytes buf n m = Ret M /\ is_tmat M n m (byte_entry buf m).
Proof.
  intros Hn Hb Hl. destruct (set_rows_spec n m buf Hb Hl) as [M [E [L [[Hc|Hc] H]]]]; [lia|].
  exists M. split; [exact E|]. split; [exact L|]. split; [exact Hc|].
  intros i Hi. destruct (H i Hi) as [r [E1 [E2 [_ H2]]]]. exists r. auto.
Qed.

(** *** Entries *)
Lemma omapM_ret {A B} (f : A -> outcome B) (g : A -> B) l : (forall a, In a l -> f a = Ret (g a)) ->
  omapM f l = Ret (map g l).
Proof.
  induction l as [|a l IH]; intros H; [reflexivity|]. cbn [omapM map]. rewrite (H a) by now left.
  cbn [obind]. rewrite IH by (intros; apply H; now right). reflexivity.
Qed.
Lemma omapM_ret2 {A B} (f : A -> outcome B) l (g : nat -> B) : (forall i a, nth_error l i = Some a -> f a = Ret (g i)) ->
  omapM f l = Ret (map g (seq 0 (length l))).
Proof.
  revert g. induction l as [|a l IH]; intros g H; [reflexivity|]. cbn [omapM length seq map].
  rewrite (H 0%nat a eq_refl). cbn [obind]. rewrite (IH (fun i => g (S i))) by (intros i b Hb; apply (H (S i) b Hb)).
  cbn [obind]. rewrite <- seq_shift, map_map. reflexivity.
Qed.
Lemma entries_spec M n m f : is_tmat M n m f ->
  entries M = Ret (map (fun i => map (f i) (seq 0 m)) (seq 0 n)).
Proof.
  intros [Hn [Hm H]]. unfold entries. rewrite Hm.
  rewrite (omapM_ret2 _ M (fun i => map (f i) (seq 0 m))); [now rewrite <- Hn|].
  intros i r Hr. assert (Hi : (i < n)%nat) by (rewrite <- Hn; apply nth_error_Some; congruence).
  destruct (H i Hi) as [r' [Hr' [_ Hj]]]. rewrite Hr in Hr'. injection Hr' as <-.
  apply omapM_ret. intros j Hin. apply in_seq in Hin. apply Hj. lia.
Qed.

(** *** Generic products *)
Section Gen.
Context {A : Type}.
Variable zero : A.
Variable add : A -> A -> A.
Variable opp : A -> A.
Variable sm : Z -> A -> A.
Hypothesis add_assoc : forall a b c, add a (add b c) = add (add a b) c.
Hypothesis add_0_l : forall a, add zero a = a.
Hypothesis add_0_r : forall a, add a zero = a.
Hypothesis sm_1 : forall a, sm 1 a = a.
Hypothesis sm_0 : forall a, sm 0 a = zero.
Hypothesis sm_m1 : forall a, sm (-1) a = opp a.

Definition sumA (l : list A) : A := fold_right add zero l.

Lemma pick_sm v m : m = -1 \/ m = 0 \/ m = 1 -> pick zero opp v m = sm m v.
Proof.
  intros [->|[->| ->]]; unfold pick; cbn; [now rewrite sm_m1|now rewrite sm_0|now rewrite sm_1].
Qed.
Lemma zipWith_map {B C D} (f : B -> C -> D) (g : nat -> B) (h : nat -> C) l :
  zipWith f (map g l) (map h l) = map (fun i => f (g i) (h i)) l.
Proof. induction l; cbn; [reflexivity|]. now rewrite IHl. Qed.
Lemma repeat_map_seq (a : A) k : forall s, repeat a k = map (fun _ : nat => a) (seq s k).
Proof. induction k; intros s; [reflexivity|]. cbn. f_equal. apply IHk. Qed.

Lemma left_fold (ps : list (A * (nat -> Z))) m : forall g,
  fold_left (fun res e => zipWith (fun r mm => add r (pick zero opp (fst e) mm)) res (snd e))
    (map (fun q => (fst q, map (snd q) (seq 0 m))) ps) (map g (seq 0 m)) =
  map (fun j => add (g j) (sumA (map (fun q => pick zero opp (fst q) (snd q j)) ps))) (seq 0 m).
Proof.
  induction ps as [|[v f] ps IH]; intros g; cbn [map fold_left fst snd].
  - apply map_ext. intros j. cbn. now rewrite add_0_r.
  - rewrite zipWith_map, IH. apply map_ext. intros j. cbn [sumA fold_right]. now rewrite add_assoc.
Qed.
Lemma combine_rows (v : list A) n (f : nat -> nat -> Z) m : length v = n ->
  combine v (map (fun i => map (f i) (seq 0 m)) (seq 0 n)) =
  map (fun q => (fst q, map (snd q) (seq 0 m))) (map (fun i => (nth i v zero, f i)) (seq 0 n)).
Proof.
  intros <-. rewrite map_map. cbn [fst snd]. revert f. induction v as [|x v IH]; intros f; [reflexivity|].
  cbn [length seq map combine nth]. f_equal. rewrite <- seq_shift, !map_map. apply (IH (fun i => f (S i))).
Qed.
Lemma leftVecMult_gen v M n m f : is_tmat M n m f -> ternary n m f -> length v = n ->
  leftVecMult zero add opp v M =
  Ret (map (fun j => sumA (map (fun i => sm (f i j) (nth i v zero)) (seq 0 n))) (seq 0 m)).
Proof.
  intros HM Ht Hl. unfold leftVecMult. rewrite (entries_spec M n m f HM). destruct HM as [Hn [Hm _]].
  rewrite Hn, Hm, Hl, Nat.eqb_refl. cbn [negb obind]. f_equal.
  rewrite combine_rows by assumption. rewrite (repeat_map_seq zero m 0), left_fold.
  apply map_ext_in. intros j Hj. apply in_seq in Hj. rewrite add_0_l, map_map. f_equal. apply map_ext_in. intros i Hi.
  apply in_seq in Hi. cbn [fst snd]. apply pick_sm. apply Ht; lia.
Qed.
Lemma leftVecMult_throw v M : length v <> tNumRows M -> leftVecMult zero add opp v M = Throw.
Proof. intros H. unfold leftVecMult. apply Nat.eqb_neq in H. now rewrite H. Qed.

Lemma right_fold (f : nat -> nat -> Z) m n (ps : list (nat * A)) : (forall q, In q ps -> (fst q < m)%nat) -> forall g,
  fold_left (fun res e => zipWith (fun r row => add r (pick zero opp (snd e) (nth (fst e) row 0))) res (map (fun i => map (f i) (seq 0 m)) (seq 0 n)))
    ps (map g (seq 0 n)) =
  map (fun i => add (g i) (sumA (map (fun q => pick zero opp (snd q) (f i (fst q))) ps))) (seq 0 n).
Proof.
  induction ps as [|[j v] ps IH]; intros Hq g; cbn [map fold_left fst snd].
  - apply map_ext. intros i. cbn. now rewrite add_0_r.
  - rewrite zipWith_map, IH by (intros; apply Hq; now right). apply map_ext. intros i. cbn [sumA fold_right].
    rewrite add_assoc. do 2 f_equal. f_equal.
    assert (Hj : (j < m)%nat) by (apply (Hq (j, v)); now left).
    rewrite nth_indep with (d' := f i 0%nat) by (rewrite map_length, seq_length; lia).
    rewrite map_nth, seq_nth by assumption. reflexivity.
Qed.
Lemma combine_seq_nth (v : list A) : combine (seq 0 (length v)) v = map (fun j => (j, nth j v zero)) (seq 0 (length v)).
Proof.
  apply nth_ext with (d := (0%nat, zero)) (d' := (0%nat, zero)).
  - now rewrite combine_length, map_length, !seq_length, Nat.min_id.
  - intros k Hk. rewrite combine_length, seq_length, Nat.min_id in Hk.
    rewrite combine_nth by apply seq_length. rewrite seq_nth by assumption. cbn [Nat.add].
    rewrite nth_indep with (d' := (fun j => (j, nth j v zero)) 0%nat) by (rewrite map_length, seq_length; lia).
    rewrite (map_nth (fun j => (j, nth j v zero))), seq_nth by assumption. reflexivity.
Qed.
Lemma rightVecMult_gen v M n m f : is_tmat M n m f -> ternary n m f -> length v = m ->
  rightVecMult zero add opp M v =
  Ret (map (fun i => sumA (map (fun j => sm (f i j) (nth j v zero)) (seq 0 m))) (seq 0 n)).
Proof.
  intros HM Ht Hl. unfold rightVecMult. rewrite (entries_spec M n m f HM). destruct HM as [Hn [Hm _]].
  rewrite Hn, Hm, Hl, Nat.eqb_refl. cbn [negb obind]. f_equal.
  rewrite <- Hl at 1. rewrite combine_seq_nth. rewrite (repeat_map_seq zero n 0), right_fold.
  2:{ intros q Hq. apply in_map_iff in Hq. destruct Hq as [j [<- Hj]]. apply in_seq in Hj. cbn. lia. }
  rewrite Hl. apply map_ext_in. intros i Hi. apply in_seq in Hi. rewrite add_0_l, map_map. f_equal. apply map_ext_in. intros j Hj.
  apply in_seq in Hj. cbn [fst snd]. apply pick_sm. apply Ht; lia.
Qed.
Lemma rightVecMult_throw v M : length v <> tNumCols M -> rightVecMult zero add opp M v = Throw.
Proof. intros H. unfold rightVecMult. apply Nat.eqb_neq in H. now rewrite H. Qed.

Lemma leftMatMult_gen (M1 : mat A) M n m f r : is_tmat M n m f -> ternary n m f -> mat_dims M1 r n ->
  leftMatMult zero add opp M1 M =
  Ret (Mat (map (fun i => map (fun j => sumA (map (fun k => sm (f k j) (mget zero M1 i k)) (seq 0 n))) (seq 0 m)) (seq 0 r)) m).
Proof.
  intros HM Ht [D1 [D2 D3]]. unfold leftMatMult. pose proof HM as [Hn [Hm _]]. rewrite D2, Hn, Nat.eqb_refl. cbn [negb].
  rewrite (omapM_ret2 _ (mrows M1) (fun i => map (fun j => sumA (map (fun k => sm (f k j) (mget zero M1 i k)) (seq 0 n))) (seq 0 m))).
  - cbn [obind]. now rewrite D1, Hm.
  - intros i row Hrow. rewrite Forall_forall in D3. rewrite (leftVecMult_gen row M n m f HM Ht) by (apply D3; eapply nth_error_In; eassumption).
    f_equal. unfold mget. now rewrite (nth_error_nth _ _ _ Hrow).
Qed.
Lemma rightMatMult_gen (M2 : mat A) M n m f c : is_tmat M n m f -> ternary n m f -> mat_dims M2 m c ->
  rightMatMult zero add opp M M2 =
  Ret (Mat (map (fun i => map (fun j => sumA (map (fun k => sm (f i k) (mget zero M2 k j)) (seq 0 m))) (seq 0 c)) (seq 0 n)) c).
Proof.
  intros HM Ht [D1 [D2 D3]]. unfold rightMatMult. pose proof HM as [Hn [Hm _]]. rewrite D1, Hm, Nat.eqb_refl. cbn [negb].
  rewrite (omapM_ret _ (fun j => map (fun i => sumA (map (fun k => sm (f i k) (mget zero M2 k j)) (seq 0 m))) (seq 0 n))).
  - cbn [obind]. rewrite D2, Hn. do 2 f_equal. apply map_ext_in. intros i Hi. rewrite map_map. apply map_ext. intros j.
    apply in_seq in Hi.
    set (g := fun i0 : nat => sumA (map (fun k => sm (f i0 k) (mget zero M2 k j)) (seq 0 m))).
    rewrite nth_indep with (d' := g 0%nat) by (rewrite map_length, seq_length; lia).
    rewrite (map_nth g), seq_nth by lia. reflexivity.
  - intros j _. rewrite (rightVecMult_gen (column zero M2 j) M n m f HM Ht) by (unfold column; now rewrite map_length).
    f_equal. apply map_ext. intros i. f_equal. apply map_ext_in. intros k Hk. apply in_seq in Hk. f_equal.
    unfold column, mget. set (g := fun r : list A => nth j r zero).
    rewrite nth_indep with (d' := g []) by (rewrite map_length; lia). now rewrite (map_nth g).
Qed.
Lemma leftMatMult_throw (M1 : mat A) M : mcols M1 <> tNumRows M -> leftMatMult zero add opp M1 M = Throw.
Proof. intros H. unfold leftMatMult. apply Nat.eqb_neq in H. now rewrite H. Qed.
Lemma rightMatMult_throw (M2 : mat A) M : tNumCols M <> length (mrows M2) -> rightMatMult zero add opp M M2 = Throw.
Proof. intros H. unfold rightMatMult. apply Nat.eqb_neq in H. now rewrite H. Qed.
End Gen.

(** *** Scalar and Element instances *)
Section Inst.
Context {p : Z} {ell : nat}.
Notation F := (Fp p).
Notation E := (elt p ell).
Add Ring FpRt : (@Fp_ring p).

Lemma sumA_fsum (l : list F) : sumA 0%F fadd l = fsum l.
Proof. induction l; cbn [sumA fold_right fsum]; [reflexivity|]. now f_equal. Qed.
Lemma sumA_esum (l : list E) : sumA e0 eadd l = esum l.
Proof. induction l; cbn [sumA fold_right esum]; [reflexivity|]. now f_equal. Qed.
Lemma toF_m1 : toF p (-1) = fopp f1.
Proof. change (-1) with (- (1)). now rewrite toF_opp. Qed.
Lemma escale_m1 (a : E) : escale (toF p (-1)) a = eopp a.
Proof. apply coeff_ext. intros i _. rewrite coeff_escale, coeff_eopp, toF_m1. ring. Qed.
Lemma sF_1 (a : F) : (toF p 1 * a = a)%F.
Proof. change (toF p 1) with (@f1 p). ring. Qed.
Lemma sF_0 (a : F) : (toF p 0 * a = 0)%F.
Proof. change (toF p 0) with (@f0 p). ring. Qed.
Lemma sF_m1 (a : F) : (toF p (-1) * a = - a)%F.
Proof. rewrite toF_m1. ring. Qed.
Lemma sE_1 (a : E) : escale (toF p 1) a = a.
Proof. change (toF p 1) with (@f1 p). apply escale_1. Qed.
Lemma sE_0 (a : E) : escale (toF p 0) a = e0.
Proof. change (toF p 0) with (@f0 p). apply escale_0_l. Qed.
Lemma fadd_assoc' (a b c : F) : (a + (b + c) = a + b + c)%F. Proof. ring. Qed.
Lemma fadd_0_l' (a : F) : (0 + a = a)%F. Proof. ring. Qed.
Lemma fadd_0_r' (a : F) : (a + 0 = a)%F. Proof. ring. Qed.

Lemma leftVecMultS_spec (v : list F) M n m f : is_tmat M n m f -> ternary n m f -> length v = n ->
  leftVecMultS v M = Ret (vecmat v n m f).
Proof.
  intros HM Ht Hl. unfold leftVecMultS.
  rewrite (leftVecMult_gen 0%F fadd fopp (fun z a => (toF p z * a)%F) fadd_assoc' fadd_0_l' fadd_0_r' sF_1 sF_0 sF_m1 v M n m f HM Ht Hl).
  apply f_equal. apply map_ext. intros j. rewrite sumA_fsum. f_equal. apply map_ext. intros i. ring.
Qed.
Lemma rightVecMultS_spec (v : list F) M n m f : is_tmat M n m f -> ternary n m f -> length v = m ->
  rightVecMultS M v = Ret (matvec n m f v).
Proof.
  intros HM Ht Hl. unfold rightVecMultS.
  rewrite (rightVecMult_gen 0%F fadd fopp (fun z a => (toF p z * a)%F) fadd_assoc' fadd_0_l' fadd_0_r' sF_1 sF_0 sF_m1 v M n m f HM Ht Hl).
  apply f_equal. apply map_ext. intros j. now rewrite sumA_fsum.
Qed.
Lemma leftMatMultS_spec (M1 : mat F) M n m f r : is_tmat M n m f -> ternary n m f -> mat_dims M1 r n ->
  leftMatMultS M1 M = Ret (Mat (map (fun i => vecmat (nth i (mrows M1) []) n m f) (seq 0 r)) m).
Proof.
  intros HM Ht Hl. unfold leftMatMultS.
  rewrite (leftMatMult_gen 0%F fadd fopp (fun z a => (toF p z * a)%F) fadd_assoc' fadd_0_l' fadd_0_r' sF_1 sF_0 sF_m1 M1 M n m f r HM Ht Hl).
  apply f_equal, f_equal2; [|reflexivity]. apply map_ext. intros i. apply map_ext. intros j. rewrite sumA_fsum. f_equal. apply map_ext. intros k. unfold mget. ring.
Qed.
Lemma rightMatMultS_spec (M2 : mat F) M n m f c : is_tmat M n m f -> ternary n m f -> mat_dims M2 m c ->
  rightMatMultS M M2 = Ret (Mat (map (fun i => map (fun j => fsum (map (fun k => (toF p (f i k) * mget 0 M2 k j)%F) (seq 0 m))) (seq 0 c)) (seq 0 n)) c).
Proof.
  intros HM Ht Hl. unfold rightMatMultS.
  rewrite (rightMatMult_gen 0%F fadd fopp (fun z a => (toF p z * a)%F) fadd_assoc' fadd_0_l' fadd_0_r' sF_1 sF_0 sF_m1 M2 M n m f c HM Ht Hl).
  apply f_equal, f_equal2; [|reflexivity]. apply map_ext. intros i. apply map_ext. intros j. now rewrite sumA_fsum.
Qed.

Definition sE (z : Z) (a : E) : E := escale (toF p z) a.
Lemma leftVecMultE_raw (v : list E) M n m f : is_tmat M n m f -> ternary n m f -> length v = n ->
  leftVecMultE v M = Ret (map (fun j => esum (map (fun i => sE (f i j) (nth i v e0)) (seq 0 n))) (seq 0 m)).
Proof.
  intros HM Ht Hl. unfold leftVecMultE.
  rewrite (leftVecMult_gen e0 eadd eopp sE eadd_assoc eadd_0_l eadd_0_r sE_1 sE_0 escale_m1 v M n m f HM Ht Hl).
  apply f_equal. apply map_ext. intros j. now rewrite sumA_esum.
Qed.
Lemma rightVecMultE_raw (v : list E) M n m f : is_tmat M n m f -> ternary n m f -> length v = m ->
  rightVecMultE M v = Ret (map (fun i => esum (map (fun j => sE (f i j) (nth j v e0)) (seq 0 m))) (seq 0 n)).
Proof.
  intros HM Ht Hl. unfold rightVecMultE.
  rewrite (rightVecMult_gen e0 eadd eopp sE eadd_assoc eadd_0_l eadd_0_r sE_1 sE_0 escale_m1 v M n m f HM Ht Hl).
  apply f_equal. apply map_ext. intros j. now rewrite sumA_esum.
Qed.
Lemma leftMatMultE_raw (M1 : mat E) M n m f r : is_tmat M n m f -> ternary n m f -> mat_dims M1 r n ->
  leftMatMultE M1 M = Ret (Mat (map (fun i => map (fun j => esum (map (fun k => sE (f k j) (mget e0 M1 i k)) (seq 0 n))) (seq 0 m)) (seq 0 r)) m).
Proof.
  intros HM Ht Hl. unfold leftMatMultE.
  rewrite (leftMatMult_gen e0 eadd eopp sE eadd_assoc eadd_0_l eadd_0_r sE_1 sE_0 escale_m1 M1 M n m f r HM Ht Hl).
  apply f_equal, f_equal2; [|reflexivity]. apply map_ext. intros i. apply map_ext. intros j. now rewrite sumA_esum.
Qed.
Lemma rightMatMultE_raw (M2 : mat E) M n m f c : is_tmat M n m f -> ternary n m f -> mat_dims M2 m c ->
  rightMatMultE M M2 = Ret (Mat (map (fun i => map (fun j => esum (map (fun k => sE (f i k) (mget e0 M2 k j)) (seq 0 m))) (seq 0 c)) (seq 0 n)) c).
Proof.
  intros HM Ht Hl. unfold rightMatMultE.
  rewrite (rightMatMult_gen e0 eadd eopp sE eadd_assoc eadd_0_l eadd_0_r sE_1 sE_0 escale_m1 M2 M n m f c HM Ht Hl).
  apply f_equal, f_equal2; [|reflexivity]. apply map_ext. intros i. apply map_ext. intros j. now rewrite sumA_esum.
Qed.

(** integers times elements as ring products *)
Lemma sE_emul (z : Z) (a : E) : (0 < ell)%nat -> sE z a = emul a (ofint z).
Proof. intros H. unfold sE, ofint. rewrite emul_comm. now rewrite econst_scale. Qed.
Lemma sE_emul_l (z : Z) (a : E) : (0 < ell)%nat -> sE z a = emul (ofint z) a.
Proof. intros H. unfold sE, ofint. now rewrite econst_scale. Qed.

(** *** Horner *)
Lemma emul_TX (a : E) : (0 < ell)%nat -> emul TX a = emulX a.
Proof. intros H. unfold TX, eX. cbn [emulXn]. rewrite emulX_l. now rewrite emul_1_l. Qed.

Lemma emulX_sum {B} (f : B -> E) l : emulX (esum (map f l)) = esum (map (fun x => emulX (f x)) l).
Proof. now rewrite emulX_esum, map_map. Qed.
Lemma fold_left_rev {B C} (f : C -> B -> C) l a : fold_left f (rev l) a = fold_right (fun x y => f y x) a l.
Proof. symmetry. rewrite <- (rev_involutive l) at 1. apply fold_left_rev_right. Qed.

Section HornerGen.
Context {V I : Type}.
Variable rep : (I -> E) -> V.
Variable scaleX : V -> V.
Variable plus : V -> V -> V.
Variable prod : tmat -> outcome V.
Hypothesis ell_pos : (0 < ell)%nat.
Hypothesis rep_ext : forall g h, (forall x, g x = h x) -> rep g = rep h.
Hypothesis rep_scale : forall g, scaleX (rep g) = rep (fun x => emul TX (g x)).
Hypothesis rep_plus : forall g h, plus (rep g) (rep h) = rep (fun x => eadd (g x) (h x)).

Lemma horner_aux (top : I -> E) : forall (low : list tmat) (g : nat -> I -> E),
  (forall k M, nth_error low k = Some M -> prod M = Ret (rep (g k))) ->
  fold_right (fun M acc => let! r := acc in let! tmp := prod M in Ret (plus (scaleX r) tmp)) (Ret (rep top)) low =
  Ret (rep (fun x => eadd (esum (map (fun k => emulXn k (g k x)) (seq 0 (length low)))) (emulXn (length low) (top x)))).
Proof.
  induction low as [|M low IH]; intros g H.
  - cbn. f_equal. apply rep_ext. intros x. now rewrite eadd_0_l.
  - cbn [fold_right length]. rewrite (IH (fun k => g (S k))) by (intros k M' Hk; apply (H (S k) M' Hk)).
    cbn [obind]. rewrite (H 0%nat M eq_refl). cbn [obind]. f_equal. rewrite rep_scale, rep_plus. apply rep_ext. intros x.
    cbn [seq map esum emulXn]. rewrite emul_TX by assumption. rewrite emulX_add, emulX_sum.
    rewrite <- seq_shift, map_map. cbn [emulXn].
    rewrite eadd_comm. now rewrite eadd_assoc.
Qed.
Lemma horner_gen (Ms : list tmat) (g : nat -> I -> E) : length Ms = ell ->
  (forall k M, nth_error Ms k = Some M -> prod M = Ret (rep (g k))) ->
  horner scaleX plus prod Ms (ell := ell) = Ret (rep (fun x => esum (map (fun k => emulXn k (g k x)) (seq 0 ell)))).
Proof.
  intros Hl H. unfold horner. rewrite Hl, Nat.eqb_refl. destruct (Nat.eqb_spec ell 0); [lia|]. cbn [negb orb].
  destruct (exists_last (l := Ms)) as [low [top E]]; [intros ->; cbn in Hl; lia|]. subst Ms.
  rewrite rev_app_distr. cbn [rev app]. rewrite app_length in Hl. cbn [length] in Hl.
  rewrite (H (length low) top) by (rewrite nth_error_app2, Nat.sub_diag by lia; reflexivity). cbn [obind].
  rewrite fold_left_rev, (horner_aux _ low g).
  - f_equal. apply rep_ext. intros x. replace (seq 0 ell) with (seq 0 (length low + 1)) by (f_equal; lia).
    rewrite seq_app, map_app, esum_app. cbn [seq map esum Nat.add]. now rewrite eadd_0_r.
  - intros k M Hk. apply H. rewrite nth_error_app1; [assumption|]. apply nth_error_Some. congruence.
Qed.
End HornerGen.

Lemma ofdigits_emul (d : nat -> Z) (v : E) : emul (ofdigits d) v = esum (map (fun k => emulXn k (sE (d k) v)) (seq 0 ell)).
Proof.
  rewrite emul_sum. apply esum_map_ext. intros k Hk. apply in_seq in Hk. unfold sE. rewrite emulXn_scale. f_equal.
  unfold ofdigits. rewrite coeff_mkE. destruct (Nat.ltb_spec k ell); [reflexivity|lia].
Qed.
Lemma esum_swap {B C} (f : B -> C -> E) la lb :
  esum (map (fun a => esum (map (f a) lb)) la) = esum (map (fun b => esum (map (fun a => f a b) la)) lb).
Proof.
  apply coeff_ext. intros i _. rewrite !coeff_esum, !map_map.
  erewrite map_ext by (intros a; rewrite coeff_esum, map_map; reflexivity).
  rewrite fsum_swap. f_equal. apply map_ext. intros b. now rewrite coeff_esum, map_map.
Qed.
Lemma emulXn_sum {B} k (f : B -> E) l : emulXn k (esum (map f l)) = esum (map (fun x => emulXn k (f x)) l).
Proof. induction k; [reflexivity|]. cbn [emulXn]. now rewrite IHk, emulX_sum. Qed.
Lemma digits_sum {B} (d : nat -> B -> Z) (v : B -> E) (l : list B) :
  esum (map (fun k => emulXn k (esum (map (fun i => sE (d k i) (v i)) l))) (seq 0 ell)) =
  esum (map (fun i => emul (ofdigits (fun k => d k i)) (v i)) l).
Proof.
  erewrite map_ext by (intros k; apply emulXn_sum). rewrite esum_swap. f_equal. apply map_ext. intros i. now rewrite ofdigits_emul.
Qed.


Lemma leftVecMultTE_spec (v : list E) Ms n m f : (0 < ell)%nat -> is_temat ell Ms n m f -> length v = n ->
  leftVecMultTE v Ms = Ret (vecmatR v n m (fun i j => ofdigits (fun k => f k i j))).
Proof.
  intros He [Hl HM] Hv. unfold leftVecMultTE.
  rewrite (horner_gen (fun h => map h (seq 0 m)) vscaleX vplus (fun M => leftVecMultE v M) He) with
    (g := fun k j => esum (map (fun i => sE (f k i j) (nth i v e0)) (seq 0 n))).
  - f_equal. unfold vecmatR. apply map_ext. intros j. rewrite (digits_sum (fun k i => f k i j)). apply esum_map_ext. intros i _. apply emul_comm.
  - intros g h Hgh. apply map_ext. exact Hgh.
  - intros g. unfold vscaleX. now rewrite map_map.
  - intros g h. unfold vplus. apply zipWith_map.
  - exact Hl.
  - intros k M Hk. destruct (HM k M Hk). now apply leftVecMultE_raw.
Qed.
Lemma rightVecMultTE_spec (v : list E) Ms n m f : (0 < ell)%nat -> is_temat ell Ms n m f -> length v = m ->
  rightVecMultTE Ms v = Ret (matvecR n m (fun i j => ofdigits (fun k => f k i j)) v).
Proof.
  intros He [Hl HM] Hv. unfold rightVecMultTE.
  rewrite (horner_gen (fun h => map h (seq 0 n)) vscaleX vplus (fun M => rightVecMultE M v) He) with
    (g := fun k i => esum (map (fun j => sE (f k i j) (nth j v e0)) (seq 0 m))).
  - f_equal. unfold matvecR. apply map_ext. intros i. now rewrite (digits_sum (fun k j => f k i j)).
  - intros g h Hgh. apply map_ext. exact Hgh.
  - intros g. unfold vscaleX. now rewrite map_map.
  - intros g h. unfold vplus. apply zipWith_map.
  - exact Hl.
  - intros k M Hk. destruct (HM k M Hk). now apply rightVecMultE_raw.
Qed.
Definition repM (r c : nat) (h : nat * nat -> E) : mat E :=
  Mat (map (fun i => map (fun j => h (i, j)) (seq 0 c)) (seq 0 r)) c.
Lemma repM_ext r c g h : (forall x, g x = h x) -> repM r c g = repM r c h.
Proof. intros H. unfold repM. f_equal. apply map_ext. intros i. apply map_ext. intros j. apply H. Qed.
Lemma repM_scale r c g : mscaleX (repM r c g) = repM r c (fun x => emul TX (g x)).
Proof. unfold mscaleX, repM. cbn [mrows mcols]. f_equal. rewrite map_map. apply map_ext. intros i. unfold vscaleX. now rewrite map_map. Qed.
Lemma repM_plus r c g h : mplus (repM r c g) (repM r c h) = repM r c (fun x => eadd (g x) (h x)).
Proof.
  unfold mplus, repM. cbn [mrows mcols]. f_equal. rewrite (zipWith_map vplus). apply map_ext. intros i. unfold vplus. now rewrite zipWith_map.
Qed.
Lemma leftMatMultTE_spec (A : mat E) Ms n m f r : (0 < ell)%nat -> is_temat ell Ms n m f -> mat_dims A r n ->
  leftMatMultTE A Ms = Ret (Mat (map (fun i => vecmatR (nth i (mrows A) []) n m (fun i j => ofdigits (fun k => f k i j))) (seq 0 r)) m).
Proof.
  intros He [Hl HM] Hv. unfold leftMatMultTE.
  rewrite (horner_gen (repM r m) mscaleX mplus (fun M => leftMatMultE A M) He) with
    (g := fun k ij => esum (map (fun t => sE (f k t (snd ij)) (mget e0 A (fst ij) t)) (seq 0 n))).
  - f_equal. unfold repM. f_equal. apply map_ext. intros i. unfold vecmatR. apply map_ext. intros j. cbn [fst snd].
    rewrite (digits_sum (fun k t => f k t j)). apply esum_map_ext. intros t _. apply emul_comm.
  - apply repM_ext.
  - apply repM_scale.
  - apply repM_plus.
  - exact Hl.
  - intros k M Hk. destruct (HM k M Hk). exact (leftMatMultE_raw A M n m (f k) r ltac:(assumption) ltac:(assumption) Hv).
Qed.
Lemma rightMatMultTE_spec (A : mat E) Ms n m f c : (0 < ell)%nat -> is_temat ell Ms n m f -> mat_dims A m c ->
  rightMatMultTE Ms A = Ret (Mat (map (fun i => map (fun j => esum (map (fun t => emul (ofdigits (fun k => f k i t)) (mget e0 A t j)) (seq 0 m))) (seq 0 c)) (seq 0 n)) c).
Proof.
  intros He [Hl HM] Hv. unfold rightMatMultTE.
  rewrite (horner_gen (repM n c) mscaleX mplus (fun M => rightMatMultE M A) He) with
    (g := fun k ij => esum (map (fun t => sE (f k (fst ij) t) (mget e0 A t (snd ij))) (seq 0 m))).
  - f_equal. unfold repM. f_equal. apply map_ext. intros i. apply map_ext. intros j. cbn [fst snd].
    now rewrite (digits_sum (fun k t => f k i t)).
  - apply repM_ext.
  - apply repM_scale.
  - apply repM_plus.
  - exact Hl.
  - intros k M Hk. destruct (HM k M Hk). exact (rightMatMultE_raw A M n m (f k) c ltac:(assumption) ltac:(assumption) Hv).
Qed.

(** *** setFromBytes for E matrices *)
Lemma setFromBytesE_spec buf n m : (0 < n)%nat -> (forall i, 0 <= nth i buf 0 < 256) ->
  (ell * (n * rowBytes m) <= length buf)%nat ->
  exists Ms, setFromBytesE buf n m (ell := ell) = Ret Ms /\
    is_temat ell Ms n m (fun k i j => byte_entry (skipn (k * (n * rowBytes m)) buf) m i j).
Proof.
  intros Hn Hb Hl. unfold setFromBytesE.
  assert (G : forall ks, (forall k, In k ks -> (k < ell)%nat) ->
     exists Ms, omapM (fun k => setFromBytes (skipn (k * (n * rowBytes m)) buf) n m) ks = Ret Ms /\ length Ms = length ks /\
      forall i k M, nth_error ks i = Some k -> nth_error Ms i = Some M -> is_tmat M n m (byte_entry (skipn (k * (n * rowBytes m)) buf) m)).
  { induction ks as [|k ks IH]; intros Hk.
    - exists []. split; [reflexivity|]. split; [reflexivity|]. intros [|i] k M H; discriminate H.
    - destruct IH as [Ms [E1 [E2 H]]]; [intros; apply Hk; now right|].
      destruct (setFromBytes_spec (skipn (k * (n * rowBytes m)) buf) n m Hn) as [M [E3 H3]].
      + intros i. rewrite nth_skipn. apply Hb.
      + rewrite skipn_length. assert (k < ell)%nat by (apply Hk; now left). nia.
      + exists (M :: Ms). cbn [omapM]. rewrite E3. cbn [obind]. rewrite E1. split; [reflexivity|]. split; [cbn; congruence|].
        intros [|i] k' M' Hk' HM'; cbn in Hk', HM'.
        * injection Hk' as <-. injection HM' as <-. exact H3.
        * eapply H; eassumption. }
  destruct (G (seq 0 ell)) as [Ms [E1 [E2 H]]]; [intros k Hk; apply in_seq in Hk; lia|].
  rewrite seq_length in E2. exists Ms. split; [exact E1|]. split; [exact E2|]. intros k M Hk.
  assert (Hlt : (k < ell)%nat) by (rewrite <- E2; apply nth_error_Some; congruence). split.
  - apply (H k k M); [|assumption]. rewrite nth_error_nth' with (d := 0%nat) by (rewrite seq_length; lia). now rewrite seq_nth.
  - intros i j _ _. apply two_bits_ternary.
Qed.
Lemma omapM_UB {A B} (f : A -> outcome B) l a : In a l -> (forall b, In b l -> f b = UB \/ exists x, f b = Ret x) -> f a = UB -> omapM f l = UB.
Proof.
  induction l as [|b l IH]; intros Hin Hf Ha; [destruct Hin|]. cbn [omapM].
  destruct (Hf b ltac:(now left)) as [->|[x Ex]]; [reflexivity|]. rewrite Ex. cbn [obind].
  rewrite IH; [reflexivity| |intros; apply Hf; now right|assumption].
  destruct Hin as [<-|]; [congruence|assumption].
Qed.
Lemma setFromBytesE_short buf n m : (0 < ell)%nat -> (forall i, 0 <= nth i buf 0 < 256) ->
  (length buf < ell * (n * rowBytes m))%nat -> setFromBytesE buf n m (ell := ell) = UB.
Proof.
  intros He Hb Hl. unfold setFromBytesE. apply omapM_UB with (a := (ell - 1)%nat).
  - apply in_seq. lia.
  - intros k _. destruct (le_lt_dec (n * rowBytes m) (length (skipn (k * (n * rowBytes m)) buf))) as [H|H].
    + right. destruct (set_rows_spec n m (skipn (k * (n * rowBytes m)) buf)) as [M [EM _]]; [|assumption|eauto].
      intros i. rewrite nth_skipn. apply Hb.
    + left. now apply set_rows_short.
  - apply set_rows_short. rewrite skipn_length. nia.
Qed.
Lemma omapM_id_nth (g : nat -> Z) (Ms : tematrix) (h : tmat -> outcome Z) :
  (forall k M, nth_error Ms k = Some M -> h M = Ret (g k)) -> omapM h Ms = Ret (map g (seq 0 (length Ms))).
Proof. apply omapM_ret2. Qed.
Lemma te_get_spec Ms n m f i j : is_temat ell Ms n m f -> (i < n)%nat -> (j < m)%nat ->
  te_get Ms i j = Ret (@ofdigits p ell (fun k => f k i j)).
Proof.
  intros [Hl HM] Hi Hj. unfold te_get. rewrite (omapM_id_nth (fun k => f k i j)).
  - cbn [obind]. f_equal. apply coeff_ext. intros k Hk. unfold ofdigits. rewrite !coeff_mkE.
    destruct (Nat.ltb_spec k ell); [|lia]. f_equal.
    rewrite nth_indep with (d' := f 0%nat i j) by (rewrite map_length, seq_length; lia).
    rewrite (map_nth (fun k => f k i j)), seq_nth by lia. reflexivity.
  - intros k M Hk. destruct (HM k M Hk) as [[_ [_ H]] _]. destruct (H i Hi) as [r [Er [_ Hr]]].
    unfold oget. rewrite Er. cbn [obind]. now apply Hr.
Qed.
End Inst.

(** *** The size of the challenge buffer *)
Lemma div4 a : (4 * (a / 4) <= a < 4 * (a / 4) + 4)%nat.
Proof. pose proof (Nat.div_mod a 4 ltac:(lia)). pose proof (Nat.mod_upper_bound a 4 ltac:(lia)). lia. Qed.
Definition slack (m : nat) : nat := ((4 - m mod 4) mod 4)%nat.
Lemma rowBytes_slack m : (4 * rowBytes m = m + slack m)%nat.
Proof.
  unfold rowBytes, slack. pose proof (Nat.div_mod m 4 ltac:(lia)) as E. pose proof (Nat.mod_upper_bound m 4 ltac:(lia)) as B.
  set (q := (m / 4)%nat) in *. set (r := (m mod 4)%nat) in *.
  assert (r = 0 \/ r = 1 \/ r = 2 \/ r = 3)%nat as [R|[R|[R|R]]] by lia; rewrite R in *;
  [change ((4 - 0) mod 4)%nat with 0%nat|change ((4 - 1) mod 4)%nat with 3%nat|change ((4 - 2) mod 4)%nat with 2%nat|change ((4 - 3) mod 4)%nat with 1%nat];
  pose proof (div4 (m + 3)); lia.
Qed.
Lemma buffer_enough n m : (n * rowBytes m <= (n * m + 3) / 4 <-> n * slack m < 4)%nat.
Proof.
  pose proof (rowBytes_slack m) as H. pose proof (div4 (n * m + 3)) as D.
  assert (E : (4 * (n * rowBytes m) = n * m + n * slack m)%nat) by nia. lia.
Qed.
Lemma bytes_nth buf : bytes buf -> forall i, 0 <= nth i buf 0 < 256.
Proof.
  intros H i. destruct (le_lt_dec (length buf) i) as [Hi|Hi].
  - rewrite nth_overflow by assumption. lia.
  - unfold bytes in H. rewrite Forall_forall in H. apply H. now apply nth_In.
Qed.

Lemma setFromBytes_short buf n m : (length buf < n * rowBytes m)%nat -> setFromBytes buf n m = UB.
Proof. apply set_rows_short. Qed.

Section Size.
Variable challenge : nat -> list Z.
Hypothesis ch_len : forall k, length (challenge k) = k.
Hypothesis ch_bytes : forall k, bytes (challenge k).
Lemma newTernaryMatrix_ok n m : (0 < n)%nat ->
  ((exists M, newTernaryMatrix challenge n m = Ret M) <-> (n * slack m < 4)%nat) /\
  (newTernaryMatrix challenge n m = UB <-> (4 <= n * slack m)%nat).
Proof.
  intros Hn. unfold newTernaryMatrix. pose proof (buffer_enough n m) as B.
  set (buf := challenge ((n * m + 3) / 4)%nat).
  assert (L : length buf = ((n * m + 3) / 4)%nat) by apply ch_len.
  destruct (le_lt_dec (n * rowBytes m) (length buf)) as [H|H].
  - destruct (setFromBytes_spec buf n m Hn (bytes_nth buf (ch_bytes _)) H) as [M [E _]]. rewrite E. rewrite L in H.
    split; split; intros H0; try lia; try (now exists M); try discriminate H0; try (now apply B).
  - rewrite (setFromBytes_short buf n m H). rewrite L in H. split; split; intros H0; try reflexivity; try lia.
    destruct H0 as [M H0]. discriminate H0.
Qed.
Lemma newTernaryEMatrix_ok ell n m : (0 < ell)%nat -> (0 < n)%nat ->
  ((exists M, newTernaryEMatrix (ell := ell) challenge n m = Ret M) <-> (n * slack m < 4)%nat) /\
  (newTernaryEMatrix (ell := ell) challenge n m = UB <-> (4 <= n * slack m)%nat).
Proof.
  intros He Hn. unfold newTernaryEMatrix. pose proof (buffer_enough n m) as B.
  set (buf := challenge (ell * ((n * m + 3) / 4))%nat).
  assert (L : length buf = (ell * ((n * m + 3) / 4))%nat) by apply ch_len.
  destruct (le_lt_dec (ell * (n * rowBytes m)) (length buf)) as [H|H].
  - destruct (setFromBytesE_spec (ell := ell) buf n m Hn (bytes_nth buf (ch_bytes _)) H) as [M [E _]]. rewrite E. rewrite L in H.
    apply Nat.mul_le_mono_pos_l in H; [|assumption].
    split; split; intros H0; try lia; try (now exists M); try discriminate H0; try (now apply B).
  - rewrite (setFromBytesE_short buf n m He (bytes_nth buf (ch_bytes _)) H). rewrite L in H.
    apply Nat.mul_lt_mono_pos_l in H; [|assumption].
    split; split; intros H0; try reflexivity; try lia.
    destruct H0 as [M H0]. discriminate H0.
Qed.
End Size.
Lemma setFromBytes_ext buf buf' n m : firstn (n * rowBytes m) buf = firstn (n * rowBytes m) buf' ->
  (n * rowBytes m <= length buf)%nat -> (n * rowBytes m <= length buf')%nat -> setFromBytes buf n m = setFromBytes buf' n m.
Proof. apply set_rows_ext. Qed.
