(** Commitments to slices. *)
From Coq Require Import ZArith List Bool Lia Ring.
From Verif Require Import Outcome Fp FSum GroupMod Ring ConstraintsModel
  PedersenModel PedersenProofs AlgebraModel AlgebraSpec AlgebraProofs TernaryModel TernaryProofs RegevModel RegevPfModel RegevPfSpec RegevPfBase RegevPfLin.
Import ListNotations.
Open Scope Z_scope.

Section C.
Context {p : Z} {ell : nat} {G : gmod p}.
Notation F := (Fp p).
Notation E := (elt p ell).
Add Ring Fcom : (@Fp_ring p).
Variable base : G.

Lemma commit_prefix gs (xs : list F) r : (length xs <= length gs)%nat ->
  commit base gs xs (length xs) r base 0%F = Ret (gadd (gmul base r) (gdot gs xs)).
Proof.
  intros H. unfold commit. rewrite multiExp_ret by lia. cbn [obind]. rewrite firstn_all, <- gdot_firstn.
  f_equal. gsolve.
Qed.

Lemma list_set_app {A} (l r : list A) x a : list_set (l ++ x :: r) (length l) a = l ++ a :: r.
Proof. induction l as [|y l IH]; cbn; [reflexivity|now rewrite IH]. Qed.
Lemma list_set_length {A} (l : list A) : forall i a, length (list_set l i a) = length l.
Proof. induction l as [|y l IH]; intros [|i] a; cbn; try reflexivity. now rewrite IH. Qed.
Lemma commit_fill_ok (v : list F) k : forall i, (i + k <= length v)%nat ->
  commit_fill v (firstn i v ++ repeat 0%F k) (seq i k) = Ret (firstn (i + k) v).
Proof.
  induction k as [|k IH]; intros i Hk; cbn [seq commit_fill repeat].
  - now rewrite app_nil_r, Nat.add_0_r.
  - unfold oget. destruct (nth_error v i) as [a|] eqn:Ea; [|apply nth_error_None in Ea; lia]. cbn [obind].
    assert (Li : length (firstn i v) = i) by (rewrite firstn_length; lia).
    unfold oset. rewrite (proj2 (Nat.ltb_lt _ _)) by (rewrite app_length; cbn; lia). cbn [obind].
    rewrite <- Li at 2. rewrite list_set_app.
    replace (firstn i v ++ a :: repeat 0%F k) with (firstn (S i) v ++ repeat 0%F k).
    + rewrite IH by lia. do 2 f_equal. lia.
    + clear - Ea. revert i Ea. induction v as [|x v IH]; intros [|i] Ea; cbn in *; try discriminate; [now injection Ea as ->|].
      f_equal. rewrite <- IH by assumption. destruct v; [destruct i; discriminate|reflexivity].
Qed.
Lemma commit_fill_short (v : list F) is : forall xes, (exists i, In i is /\ (length v <= i)%nat) ->
  (forall i, In i is -> (i < length xes)%nat) -> commit_fill v xes is = UB.
Proof.
  induction is as [|i is IH]; intros xes [j [Hj Hl]] Hx; [contradiction|]. cbn [commit_fill].
  unfold oget. destruct (nth_error v i) as [a|] eqn:Ea; [|reflexivity]. cbn [obind]. unfold oset.
  destruct (i <? length xes)%nat; cbn [obind]; [|reflexivity].
  apply IH.
  - destruct Hj as [->|Hj]; [|eauto]. assert (j < length v)%nat by (apply nth_error_Some; congruence). lia.
  - intros k Hk. rewrite list_set_length. apply Hx. now right.
Qed.
Lemma commit_fill_over (v : list F) is : forall xes, (forall i, In i is -> (i < length v)%nat) ->
  (exists i, In i is /\ (length xes <= i)%nat) -> commit_fill v xes is = UB.
Proof.
  induction is as [|i is IH]; intros xes Hv [j [Hj Hl]]; [contradiction|]. cbn [commit_fill].
  unfold oget. destruct (nth_error v i) as [a|] eqn:Ea; [|reflexivity]. cbn [obind]. unfold oset.
  destruct (Nat.ltb_spec i (length xes)); cbn [obind]; [|reflexivity].
  apply IH; [intros; apply Hv; now right|]. destruct Hj as [->|Hj]; [lia|]. exists j. now rewrite list_set_length.
Qed.

Lemma commitS_prefix (v : list F) gi Gs r to : (to <= length v)%nat ->
  commitS base v gi Gs r 0 (Some to) =
    if (length Gs <? gi + to)%nat then Throw else Ret (gadd (gmul base r) (gdot (skipn gi Gs) (firstn to v))).
Proof.
  intros Ht. unfold commitS. rewrite Nat.sub_0_r. rewrite (proj2 (Nat.ltb_ge to 0)) by lia. cbn [orb].
  destruct (Nat.ltb_spec (length Gs) (gi + to)); [reflexivity|].
  pose proof (commit_fill_ok v to 0 ltac:(lia)) as C. cbn [firstn app Nat.add] in C. rewrite C. cbn [obind].
  apply commit_prefix. rewrite firstn_length, skipn_length. lia.
Qed.
Lemma commitS_all (v : list F) gi Gs r :
  commitS base v gi Gs r 0 None =
    if (length Gs <? gi + length v)%nat then Throw else Ret (gadd (gmul base r) (gdot (skipn gi Gs) v)).
Proof. rewrite <- (firstn_all v) at 3. rewrite <- commitS_prefix by lia. reflexivity. Qed.
Lemma commitS_offset (v : list F) gi Gs r from to : (0 < from < to)%nat -> (to <= length v)%nat ->
  (gi + (to - from) <= length Gs)%nat -> commitS base v gi Gs r from (Some to) = UB.
Proof.
  intros Hf Ht Hg. unfold commitS. rewrite (proj2 (Nat.ltb_ge to from)), (proj2 (Nat.ltb_ge _ _)) by lia. cbn [orb].
  rewrite commit_fill_over; [reflexivity| |].
  - intros i Hi. apply in_seq in Hi. lia.
  - exists (to - 1)%nat. rewrite repeat_length, in_seq. lia.
Qed.

Lemma slice_coeffs_ok (v : list E) from to : (from <= to <= length v)%nat ->
  slice_coeffs v from to = Ret (coeffs_of (firstn (to - from) (skipn from v))).
Proof.
  intros H. unfold slice_coeffs.
  assert (X : omapM (oget v) (seq from (to - from)) = Ret (firstn (to - from) (skipn from v))).
  { replace (seq from (to - from)) with (map (fun i => (from + i)%nat) (seq 0 (to - from))).
    2:{ clear. generalize (to - from)%nat. intros k.
        enough (Y : forall s, map (fun i => (from + i)%nat) (seq s k) = seq (from + s) k) by (rewrite (Y 0%nat); now rewrite Nat.add_0_r).
        induction k as [|k IH]; intros s; cbn; [reflexivity|]. f_equal. rewrite IH. f_equal. lia. }
    assert (Y : forall l k s, (s + k <= length l)%nat -> omapM (oget l) (map (fun i => (s + i)%nat) (seq 0 k)) = Ret (firstn k (skipn s l) : list E)).
    { clear. intros l k. induction k as [|k IH]; intros s Hs; [reflexivity|]. cbn [seq map omapM].
      rewrite Nat.add_0_r. unfold oget at 1. destruct (nth_error l s) as [a|] eqn:Ea; [|apply nth_error_None in Ea; lia]. cbn [obind].
      rewrite <- seq_shift, map_map.
      rewrite (map_ext _ (fun i => (S s + i)%nat)) by (intros; lia). rewrite IH by lia. cbn [obind]. f_equal.
      clear - Ea. revert s Ea. induction l as [|x l IH]; intros [|s] Ea; cbn [nth_error] in Ea; try discriminate; [now injection Ea as ->|]. exact (IH s Ea). }
    rewrite Y by lia. reflexivity. }
  rewrite X. reflexivity.
Qed.
Lemma commitE_slice (v : list E) gi Gs r from to : (from <= to <= length v)%nat ->
  commitE base v gi Gs r from (Some to) =
    if (length Gs <? gi + ell * (to - from))%nat then Throw
    else Ret (gadd (gmul base r) (gdot (skipn gi Gs) (coeffs_of (firstn (to - from) (skipn from v))))).
Proof.
  intros H. unfold commitE. rewrite (proj2 (Nat.ltb_ge to from)) by lia. cbn [orb].
  destruct (Nat.ltb_spec (length Gs) (gi + ell * (to - from))); [reflexivity|].
  rewrite slice_coeffs_ok by lia. cbn [obind]. apply commit_prefix.
  change (coeffs_of ?l) with (flat_map conv_svec l). rewrite flat_length, skipn_length, firstn_length, skipn_length. nia.
Qed.
Lemma commitE_all (v : list E) gi Gs r :
  commitE base v gi Gs r 0 None =
    if (length Gs <? gi + ell * length v)%nat then Throw
    else Ret (gadd (gmul base r) (gdot (skipn gi Gs) (coeffs_of v))).
Proof.
  pose proof (commitE_slice v gi Gs r 0 (length v) ltac:(lia)) as H. rewrite Nat.sub_0_r in H. cbn [skipn] in H. rewrite firstn_all in H.
  exact H.
Qed.
Lemma gplush_ok Gs Hs gi n : (gi + n <= length Gs)%nat -> (gi + n <= length Hs)%nat ->
  omapM (fun i => let! g := oget Gs (i + gi) in let! h := oget Hs (i + gi) in Ret (gadd g h)) (seq 0 n)
  = Ret (map (fun e => gadd (fst e) (snd e)) (combine (firstn n (skipn gi Gs)) (firstn n (skipn gi Hs)))) :> outcome (list G).
Proof.
  revert gi. induction n as [|n IH]; intros gi H1 H2; [reflexivity|]. cbn [seq omapM].
  destruct (nth_error Gs gi) as [g|] eqn:Eg; [|apply nth_error_None in Eg; lia].
  destruct (nth_error Hs gi) as [h|] eqn:Eh; [|apply nth_error_None in Eh; lia].
  cbn [Nat.add]. unfold oget at 1 2. rewrite Eg, Eh. cbn [obind].
  assert (X : omapM (fun i => let! g := oget Gs (i + gi) in let! h := oget Hs (i + gi) in Ret (gadd g h)) (seq 1 n)
     = omapM (fun i => let! g := oget Gs (i + S gi) in let! h := oget Hs (i + S gi) in Ret (gadd g h)) (seq 0 n) :> outcome (list G)).
  { rewrite <- seq_shift. generalize (seq 0 n). intros l. induction l as [|i l IHl]; [reflexivity|]. cbn [map omapM].
    replace (S i + gi)%nat with (i + S gi)%nat by lia. now rewrite IHl. }
  rewrite X, IH by lia. cbn [obind]. f_equal.
  assert (S1 : forall (l : list G) (a : G) k, nth_error l k = Some a -> skipn k l = a :: skipn (S k) l).
  { clear. induction l as [|x l IH]; intros a [|k] H; cbn in *; try discriminate; [now injection H as ->|]. now apply IH. }
  rewrite (S1 _ _ _ Eg), (S1 _ _ _ Eh). reflexivity.
Qed.
Lemma commitE2_slice (v : list E) gi Gs Hs r from to : (from <= to <= length v)%nat ->
  let n := (ell * (to - from))%nat in
  let xs := coeffs_of (firstn (to - from) (skipn from v)) in
  commitE2 base v gi Gs Hs r from (Some to) =
    if (length Gs <? gi + n)%nat || (length Hs <? gi + n)%nat then Throw
    else Ret (gadd (gmul base r) (gadd (gdot (skipn gi Gs) xs) (gdot (skipn gi Hs) xs))).
Proof.
  intros H n xs. unfold commitE2. rewrite (proj2 (Nat.ltb_ge to from)) by lia. cbn [orb]. fold n.
  destruct (Nat.ltb_spec (length Gs) (gi + n)); [reflexivity|]. destruct (Nat.ltb_spec (length Hs) (gi + n)); [reflexivity|]. cbn [orb].
  rewrite slice_coeffs_ok by lia. fold xs. cbn [obind]. rewrite gplush_ok by lia. cbn [obind].
  assert (L : length xs = n).
  { unfold xs. change (coeffs_of ?l) with (flat_map conv_svec l). rewrite flat_length, firstn_length, skipn_length. unfold n. nia. }
  assert (L1 : length (firstn n (skipn gi Gs)) = n) by (rewrite firstn_length, skipn_length; lia).
  assert (L2 : length (firstn n (skipn gi Hs)) = n) by (rewrite firstn_length, skipn_length; lia).
  rewrite commit_prefix by (rewrite map_length, combine_length, L1, L2; lia).
  rewrite gdot_gadd by congruence. rewrite (gdot_firstn (skipn gi Gs)), (gdot_firstn (skipn gi Hs)), L. reflexivity.
Qed.
Lemma commitE2_all (v : list E) gi Gs Hs r :
  commitE2 base v gi Gs Hs r 0 None =
    if (length Gs <? gi + ell * length v)%nat || (length Hs <? gi + ell * length v)%nat then Throw
    else Ret (gadd (gmul base r) (gadd (gdot (skipn gi Gs) (coeffs_of v)) (gdot (skipn gi Hs) (coeffs_of v)))).
Proof.
  pose proof (commitE2_slice v gi Gs Hs r 0 (length v) ltac:(lia)) as H. cbv zeta in H. rewrite Nat.sub_0_r in H. cbn [skipn] in H. rewrite firstn_all in H.
  exact H.
Qed.
End C.
