(** Constraint blocks as ring equations; slices of commitments. *)
From Coq Require Import ZArith List Bool Lia Ring.
From Verif Require Import Outcome Fp FSum GroupMod Ring ConstraintsModel ConstraintsSpec ConstraintsProofs ConstraintsOther
  PedersenModel PedersenProofs AlgebraModel AlgebraSpec AlgebraProofs TernaryModel TernaryProofs RegevModel RegevSpec RegevPfModel RegevPfSpec RegevPfBase.
Import ListNotations.
Open Scope Z_scope.

Section L.
Context {p : Z} {ell : nat}.
Notation F := (Fp p).
Notation E := (elt p ell).
Add Ring Flin : (@Fp_ring p).

Lemma addTerms_val (ts : list (Z * F)) (c : lincon p) w : wf_lin c ->
  lin_val (lterms (fold_left (fun c e => addTerm c (fst e) (snd e)) ts c)) w = (lin_val (lterms c) w + lin_val ts w)%F.
Proof.
  intros Hc. destruct (addTerms_spec ts c Hc) as (_ & _ & A3 & A4).
  set (c' := fold_left _ ts c) in *.
  set (ks := nodup Z.eq_dec (keys (lterms c) ++ keys ts)).
  assert (Hn : NoDup ks) by apply NoDup_nodup.
  rewrite (lin_val_cover (lterms c') w ks Hn), (lin_val_cover (lterms c) w ks Hn), (lin_val_cover ts w ks Hn).
  - rewrite <- fsum_map_add. apply fsum_map_ext. intros k _. rewrite A3. ring.
  - intros k Hk. apply nodup_In, in_or_app. now right.
  - intros k Hk. apply nodup_In, in_or_app. now left.
  - intros k Hk. apply nodup_In, in_or_app. now apply A4.
Qed.

Definition row_terms (i : nat) (idx : Z) (a : E) : list (Z * F) :=
  map (fun j => (idx + Z.of_nat j, if (j <=? i)%nat then coeff a (i - j) else (- coeff a (i + ell - j))%F)) (seq 0 ell).
Lemma fold_map_terms {A} (f : A -> Z * F) l : forall c : lincon p,
  fold_left (fun c x => addTerm c (fst (f x)) (snd (f x))) l c = fold_left (fun c e => addTerm c (fst e) (snd e)) (map f l) c.
Proof. induction l as [|a l IH]; intros c; cbn; [reflexivity|apply IH]. Qed.
Lemma expand_row_fold i idx a c :
  expand_row i idx a c = fold_left (fun c e => addTerm c (fst e) (snd e)) (row_terms i idx a) c.
Proof. unfold expand_row, row_terms. rewrite <- fold_map_terms. reflexivity. Qed.
Lemma expand_row_spec i idx (a : E) (c : lincon p) : (i < ell)%nat -> wf_lin c ->
  wf_lin (expand_row i idx a c) /\ leq (expand_row i idx a c) = leq c /\
  (forall w, lin_val (lterms (expand_row i idx a c)) w = (lin_val (lterms c) w + coeff (emul a (readE w idx)) i)%F) /\
  (forall k, In k (keys (lterms (expand_row i idx a c))) <-> In k (keys (lterms c)) \/ idx <= k < idx + Z.of_nat ell).
Proof.
  intros Hi Hc. rewrite expand_row_fold. destruct (addTerms_spec (row_terms i idx a) c Hc) as (A1 & A2 & A3 & A4).
  split; [exact A1|]. split; [exact A2|]. split.
  - intros w. rewrite addTerms_val by assumption. f_equal. rewrite emul_comm, coeff_emul by assumption.
    unfold lin_val, row_terms. rewrite map_map. apply fsum_map_ext. intros j Hj. apply in_seq in Hj. cbn [fst snd].
    unfold readE. rewrite coeff_mkE. rewrite (proj2 (Nat.ltb_lt _ _)) by lia.
    destruct (Nat.leb_spec j i), (Nat.ltb_spec i j); try lia; [ring|].
    rewrite (Nat.add_comm ell i). ring.
  - intros k. rewrite A4. apply or_iff_compat_l. unfold keys, row_terms. rewrite map_map. cbn [fst]. rewrite in_map_iff. split.
    + intros [j [<- Hj]]. apply in_seq in Hj. lia.
    + intros Hk. exists (Z.to_nat (k - idx)). split; [lia|]. apply in_seq. lia.
Qed.

(** *** blocks *)
Lemma mapi_length {A B} (f : nat -> A -> B) l : length (mapi f l) = length l.
Proof. unfold mapi. rewrite map_length, combine_length, seq_length. lia. Qed.
Lemma mapi_nth_error {A B} (f : nat -> A -> B) l i a : nth_error l i = Some a -> nth_error (mapi f l) i = Some (f i a).
Proof.
  intros H. unfold mapi. rewrite nth_error_map.
  assert (G : nth_error (combine (seq 0 (length l)) l) i = Some (i, a)); [|now rewrite G].
  enough (forall s, nth_error (combine (seq s (length l)) l) i = Some ((s + i)%nat, a)) as X by (apply (X 0%nat)).
  revert i H. induction l as [|x l IH]; intros [|i] H s; try discriminate.
  - cbn in *. injection H as ->. now rewrite Nat.add_0_r.
  - cbn [length seq combine nth_error] in *. rewrite IH by assumption. do 2 f_equal. lia.
Qed.
Lemma mapi_nth {A B} (f : nat -> A -> B) l i d d' : (i < length l)%nat -> nth i (mapi f l) d' = f i (nth i l d).
Proof.
  intros H. pose proof (nth_error_nth' l d H) as H1. apply (mapi_nth_error f) in H1. now apply nth_error_nth.
Qed.
(** A block: ell constraints with sorted terms. *)
Definition wf_block (b : list (lincon p)) : Prop := length b = ell /\ Forall wf_lin b.
Lemma wf_block_nth b i : wf_block b -> wf_lin (nth i b (LinCon [] 0%F)).
Proof.
  intros [Hl Hf]. destruct (Nat.lt_ge_cases i (length b)).
  - rewrite Forall_forall in Hf. apply Hf. now apply nth_In.
  - rewrite nth_overflow by assumption. exact I.
Qed.
(** [b'] is [b] with [f w] added to the left-hand side, and the keys [ks] added. *)
Definition block_adds (b b' : list (lincon p)) (f : (Z -> F) -> E) (ks : Z -> Prop) : Prop :=
  wf_block b' /\ rhsE (ell := ell) b' = rhsE b /\ (forall w, lhsE (ell := ell) b' w = eadd (lhsE b w) (f w)) /\
  (forall i k, (i < ell)%nat -> (In k (keys (lterms (nth i b' (LinCon [] 0%F)))) <-> In k (keys (lterms (nth i b (LinCon [] 0%F)))) \/ ks k)).
Lemma block_mapi b (g : nat -> lincon p -> lincon p) (f : (Z -> F) -> E) ks : wf_block b ->
  (forall i c, (i < ell)%nat -> wf_lin c -> wf_lin (g i c) /\ leq (g i c) = leq c /\
     (forall w, lin_val (lterms (g i c)) w = (lin_val (lterms c) w + coeff (f w) i)%F) /\
     (forall k, In k (keys (lterms (g i c))) <-> In k (keys (lterms c)) \/ ks k)) ->
  block_adds b (mapi g b) f ks.
Proof.
  intros Hb Hg. destruct Hb as [Hl Hf].
  assert (N : forall i, (i < ell)%nat -> nth i (mapi g b) (LinCon [] 0%F) = g i (nth i b (LinCon [] 0%F))).
  { intros i Hi. apply mapi_nth. lia. }
  assert (W : forall i, (i < ell)%nat -> wf_lin (nth i b (LinCon [] 0%F))) by (intros; now apply wf_block_nth).
  split; [split|split; [|split]].
  - now rewrite mapi_length.
  - apply Forall_forall. intros c Hc. apply (In_nth _ _ (LinCon [] 0%F)) in Hc as [i [Hi <-]]. rewrite mapi_length, Hl in Hi.
    rewrite N by assumption. now apply Hg; [|apply W].
  - apply coeff_ext. intros i Hi. unfold rhsE. rewrite !coeff_mkE, (proj2 (Nat.ltb_lt _ _)) by assumption.
    rewrite N by assumption. now apply Hg; [|apply W].
  - intros w. apply coeff_ext. intros i Hi. unfold lhsE. rewrite coeff_eadd, !coeff_mkE, (proj2 (Nat.ltb_lt _ _)) by assumption.
    rewrite N by assumption. now apply Hg; [|apply W].
  - intros i k Hi. rewrite N by assumption. now apply Hg; [|apply W].
Qed.
Lemma block_adds_trans b b' b'' f f' ks ks' : block_adds b b' f ks -> block_adds b' b'' f' ks' ->
  block_adds b b'' (fun w => eadd (f w) (f' w)) (fun k => ks k \/ ks' k).
Proof.
  intros (A1 & A2 & A3 & A4) (B1 & B2 & B3 & B4). split; [exact B1|]. split; [congruence|]. split.
  - intros w. rewrite B3, A3. now rewrite eadd_assoc.
  - intros i k Hi. rewrite B4, A4 by assumption. tauto.
Qed.
Lemma expand1_spec b idx a : wf_block b ->
  block_adds b (expand1 b idx a) (fun w => emul a (readE w idx)) (fun k => idx <= k < idx + Z.of_nat ell).
Proof. intros Hb. unfold expand1. apply block_mapi; [assumption|]. intros i c Hi Hc. now apply expand_row_spec. Qed.

Lemma sumE_0 (f : nat -> E) : sumE 0 f = e0.
Proof. reflexivity. Qed.
Lemma sumE_S n (f : nat -> E) : sumE (S n) f = eadd (f 0%nat) (sumE n (fun i => f (S i))).
Proof. unfold sumE. cbn [seq map esum fold_right]. f_equal. rewrite <- seq_shift, map_map. reflexivity. Qed.
Lemma sumE_ext n (f g : nat -> E) : (forall i, (i < n)%nat -> f i = g i) -> sumE n f = sumE n g.
Proof. intros H. apply esum_map_ext. intros i Hi. apply in_seq in Hi. apply H. lia. Qed.
Lemma sumE_add n (f g : nat -> E) : sumE n (fun i => eadd (f i) (g i)) = eadd (sumE n f) (sumE n g).
Proof. apply esum_map_add. Qed.
Lemma sumE_mul_l n a (f : nat -> E) : sumE n (fun i => emul a (f i)) = emul a (sumE n f).
Proof. unfold sumE. rewrite emul_esum_r, map_map. reflexivity. Qed.
Lemma sumE_mul_r n a (f : nat -> E) : sumE n (fun i => emul (f i) a) = emul (sumE n f) a.
Proof. unfold sumE. rewrite emul_esum_l, map_map. reflexivity. Qed.
Lemma sumE_scale n a (f : nat -> E) : sumE n (fun i => escale a (f i)) = escale a (sumE n f).
Proof. apply esum_map_scale. Qed.
Lemma sumE_swap n m (f : nat -> nat -> E) : sumE n (fun i => sumE m (fun j => f i j)) = sumE m (fun j => sumE n (fun i => f i j)).
Proof. apply esum_swap. Qed.

Lemma expand_loop_spec es : forall b idx, wf_block b -> block_adds b (expand_loop b idx es)
  (fun w => sumE (length es) (fun i => emul (nth i es e0) (readV w idx i)))
  (fun k => idx <= k < idx + Z.of_nat (length es) * Z.of_nat ell).
Proof.
  induction es as [|e es IH]; intros b idx Hb.
  - cbn [expand_loop length]. split; [exact Hb|]. split; [reflexivity|]. split; [intros; now rewrite sumE_0, eadd_0_r|].
    intros i k _. assert (~ (idx <= k < idx + Z.of_nat 0 * Z.of_nat ell)) by lia. tauto.
  - cbn [expand_loop]. pose proof (expand1_spec b idx e Hb) as A. pose proof (IH _ (idx + Z.of_nat ell) (proj1 A)) as B.
    destruct (block_adds_trans _ _ _ _ _ _ _ A B) as (C1 & C2 & C3 & C4).
    split; [exact C1|]. split; [exact C2|]. split.
    + intros w. rewrite C3. f_equal. cbn [length]. rewrite sumE_S. cbn [nth]. f_equal.
      * unfold readV. cbn. now rewrite Z.add_0_r.
      * apply sumE_ext. intros i _. f_equal. unfold readV. f_equal. lia.
    + intros i k Hi. rewrite C4 by assumption. apply or_iff_compat_l. cbn [length]. rewrite Nat2Z.inj_succ. nia.
Qed.
Lemma omapM_oget {A} (l : list A) (d : A) from to es : omapM (oget l) (seq from (to - from)) = Ret es ->
  (to <= from \/ to <= length l)%nat /\ length es = (to - from)%nat /\ (forall i, (i < to - from)%nat -> nth_error l (from + i) = Some (nth i es d)).
Proof.
  remember (to - from)%nat as n eqn:En. intros H.
  enough (G : length es = n /\ forall i, (i < n)%nat -> nth_error l (from + i) = Some (nth i es d)).
  { split; [|exact G]. destruct G as [_ G]. destruct n as [|n]; [left; lia|right].
    pose proof (G n ltac:(lia)) as X. assert (from + n < length l)%nat by (apply nth_error_Some; congruence). lia. }
  clear En to. revert from es H. induction n as [|n IH]; intros from es H; cbn [seq omapM] in H.
  - injection H as <-. split; [reflexivity|intros; lia].
  - apply obind_ret_inv in H as [a [H1 H]]. apply obind_ret_inv in H as [es' [H2 H]]. injection H as <-.
    apply oget_ret in H1. destruct (IH _ _ H2) as [L1 L2]. split; [cbn; lia|].
    intros [|i] Hi; cbn [nth]; [now rewrite Nat.add_0_r|]. rewrite <- L2 by lia. f_equal. lia.
Qed.
Lemma oget_all {A} (l : list A) : omapM (oget l) (seq 0 (length l - 0)) = Ret l.
Proof.
  rewrite Nat.sub_0_r. assert (G : forall pre, omapM (oget (pre ++ l)) (seq (length pre) (length l)) = Ret l).
  { induction l as [|a l IH]; intros pre; [reflexivity|]. cbn [length seq omapM].
    unfold oget at 1. rewrite nth_error_app2 by lia. rewrite Nat.sub_diag. cbn [nth_error obind].
    specialize (IH (pre ++ [a])). rewrite <- app_assoc in IH. cbn [app] in IH. rewrite app_length in IH. cbn [length] in IH.
    rewrite Nat.add_1_r in IH. now rewrite IH. }
  apply (G []).
Qed.
Lemma expandConstraints_spec b idx v from to b' : wf_block b -> expandConstraints b idx v from to = Ret b' ->
  let n := (match to with Some t => t | None => length v end - from)%nat in
  block_adds b b' (fun w => sumE n (fun i => emul (nth (from + i) v e0) (readV w idx i)))
    (fun k => idx <= k < idx + Z.of_nat n * Z.of_nat ell).
Proof.
  intros Hb H n. unfold expandConstraints in H. cbv zeta in H. apply obind_ret_inv in H as [es [H1 H]]. injection H as <-.
  apply (omapM_oget _ e0) in H1 as (_ & L & H1). fold n in L, H1. rewrite <- L in H1 |- *.
  destruct (expand_loop_spec es b idx Hb) as (A1 & A2 & A3 & A4).
  split; [exact A1|]. split; [exact A2|]. split; [|exact A4]. intros w. rewrite A3. f_equal. apply sumE_ext. intros i Hi.
  f_equal. symmetry. apply nth_error_nth. now apply H1.
Qed.
Lemma expandConstraints_all b idx (v : list E) : expandConstraints b idx v 0 None = Ret (expand_loop b idx v).
Proof. unfold expandConstraints. rewrite oget_all. reflexivity. Qed.
Lemma expand_all_spec b idx (v : list E) : wf_block b -> block_adds b (expand_loop b idx v)
  (fun w => sumE (length v) (fun i => emul (nth i v e0) (readV w idx i))) (fun k => idx <= k < idx + Z.of_nat (length v) * Z.of_nat ell).
Proof. apply expand_loop_spec. Qed.

(** makeConstraints *)
Definition mrow_terms (j : nat) (idx : Z) (es : list E) : list (Z * F) :=
  map (fun e => (idx + Z.of_nat (fst e), coeff (snd e) j)) (combine (seq 0 (length es)) es).
Lemma make_row_spec j idx (es : list E) (c : lincon p) : (j < ell)%nat -> wf_lin c ->
  wf_lin (make_row j idx es c) /\ leq (make_row j idx es c) = leq c /\
  (forall w, lin_val (lterms (make_row j idx es c)) w = (lin_val (lterms c) w +
     coeff (sumE (length es) (fun i => escale (w (idx + Z.of_nat i)%Z) (nth i es e0))) j)%F) /\
  (forall k, In k (keys (lterms (make_row j idx es c))) <-> In k (keys (lterms c)) \/ idx <= k < idx + Z.of_nat (length es)).
Proof.
  intros Hj Hc. unfold make_row.
  replace (fold_left _ _ c) with (fold_left (fun c e => addTerm c (fst e) (snd e)) (mrow_terms j idx es) c)
    by (unfold mrow_terms; rewrite <- fold_map_terms; reflexivity).
  destruct (addTerms_spec (mrow_terms j idx es) c Hc) as (A1 & A2 & A3 & A4).
  assert (C : combine (seq 0 (length es)) es = map (fun i => (i, nth i es e0)) (seq 0 (length es))) by apply combine_seq_nth.
  split; [exact A1|]. split; [exact A2|]. split.
  - intros w. rewrite addTerms_val by assumption. f_equal. unfold sumE. rewrite coeff_esum, map_map.
    unfold lin_val, mrow_terms. rewrite C, !map_map. apply fsum_map_ext. intros i _. cbn [fst snd]. rewrite coeff_escale. ring.
  - intros k. rewrite A4. apply or_iff_compat_l. unfold keys, mrow_terms. rewrite C, !map_map. cbn [fst]. rewrite in_map_iff. split.
    + intros [i [<- Hi]]. apply in_seq in Hi. lia.
    + intros Hk. exists (Z.to_nat (k - idx)). split; [lia|]. apply in_seq. lia.
Qed.
Definition make_all (b : list (lincon p)) (idx : Z) (es : list E) := mapi (fun j c => make_row j idx es c) b.
Lemma make_all_spec b idx es : wf_block b ->
  block_adds b (make_all b idx es)
   (fun w => sumE (length es) (fun i => escale (w (idx + Z.of_nat i)) (nth i es e0))) (fun k => idx <= k < idx + Z.of_nat (length es)).
Proof. intros Hb. apply block_mapi; [assumption|]. intros i c Hi Hc. now apply make_row_spec. Qed.
Lemma makeConstraints_spec b idx v from to b' : wf_block b -> makeConstraints b idx v from to = Ret b' ->
  let n := (match to with Some t => t | None => length v end - from)%nat in
  block_adds b b' (fun w => sumE n (fun i => escale (w (idx + Z.of_nat i)) (nth (from + i) v e0)))
   (fun k => idx <= k < idx + Z.of_nat n).
Proof.
  intros Hb H n. unfold makeConstraints in H. cbv zeta in H. apply obind_ret_inv in H as [es [H1 H]]. injection H as <-.
  apply (omapM_oget _ e0) in H1 as (_ & L & H1). fold n in L, H1. rewrite <- L in H1 |- *.
  destruct (make_all_spec b idx es Hb) as (A1 & A2 & A3 & A4).
  split; [exact A1|]. split; [exact A2|]. split; [|exact A4]. intros w. etransitivity; [apply A3|]. f_equal. apply sumE_ext. intros i Hi.
  f_equal. symmetry. apply nth_error_nth. now apply H1.
Qed.
Lemma makeConstraints_all b idx (v : list E) : makeConstraints b idx v 0 None = Ret (make_all b idx v).
Proof. unfold makeConstraints. rewrite oget_all. reflexivity. Qed.

(** setEqsTo, clearing *)
Lemma setEqsTo_spec b (e : E) : wf_block b ->
  wf_block (setEqsTo b e) /\ rhsE (ell := ell) (setEqsTo b e) = e /\ (forall w, lhsE (ell := ell) (setEqsTo b e) w = lhsE b w) /\
  (forall i, (i < ell)%nat -> lterms (nth i (setEqsTo b e) (LinCon [] 0%F)) = lterms (nth i b (LinCon [] 0%F))).
Proof.
  intros Hb. pose proof Hb as [Hl Hf].
  assert (N : forall i, (i < ell)%nat -> nth i (setEqsTo b e) (LinCon [] 0%F) = LinCon (lterms (nth i b (LinCon [] 0%F))) (coeff e i)).
  { intros i Hi. unfold setEqsTo. rewrite (mapi_nth _ _ _ (LinCon [] 0%F)) by lia. reflexivity. }
  split; [split|split; [|split]].
  - unfold setEqsTo. now rewrite mapi_length.
  - apply Forall_forall. intros c Hc. apply (In_nth _ _ (LinCon [] 0%F)) in Hc as [i [Hi <-]].
    unfold setEqsTo in Hi. rewrite mapi_length, Hl in Hi. rewrite N by assumption. now apply (wf_block_nth b i).
  - apply coeff_ext. intros i Hi. unfold rhsE. rewrite coeff_mkE, (proj2 (Nat.ltb_lt _ _)) by assumption. now rewrite N.
  - intros w. apply coeff_ext. intros i Hi. unfold lhsE. rewrite !coeff_mkE, (proj2 (Nat.ltb_lt _ _)) by assumption. now rewrite N.
  - intros i Hi. now rewrite N.
Qed.
Lemma clear_spec b : length b = ell -> wf_block (clearBlock b) /\ (forall w, lhsE (ell := ell) (clearBlock b) w = e0) /\
  (forall i, (i < ell)%nat -> lterms (nth i (clearBlock b) (LinCon [] 0%F)) = []).
Proof.
  intros Hl. unfold clearBlock.
  assert (N : forall i, nth i (map (fun _ => emptyLin) b) (LinCon [] 0%F) = @emptyLin p).
  { clear Hl. induction b as [|x b IH]; intros [|i]; cbn [map nth]; try reflexivity. apply IH. }
  split; [split|split].
  - now rewrite map_length.
  - apply Forall_forall. intros c Hc. apply in_map_iff in Hc as [x [<- _]]. exact I.
  - intros w. apply coeff_ext. intros i Hi. unfold lhsE. rewrite coeff_mkE, (proj2 (Nat.ltb_lt _ _)), coeff_e0 by assumption. now rewrite N.
  - intros i _. now rewrite N.
Qed.
Lemma block_sat_iff cs off (b : list (lincon p)) w : length b = ell -> (forall i, (i < ell)%nat -> nth_error cs (off + i) = nth_error b i) ->
  (block_sat (ell := ell) cs off w <-> lhsE (ell := ell) b w = rhsE b).
Proof.
  intros Hl Hn. split.
  - intros H. apply coeff_ext. intros i Hi. unfold lhsE, rhsE. rewrite !coeff_mkE, (proj2 (Nat.ltb_lt _ _)) by assumption.
    destruct (H i Hi) as [c [H1 H2]]. rewrite Hn in H1 by assumption. now rewrite (nth_error_nth _ _ _ H1).
  - intros H i Hi. rewrite Hn by assumption. exists (nth i b (LinCon [] 0%F)). split; [apply nth_error_nth'; lia|].
    apply (f_equal (fun e => coeff e i)) in H. unfold lhsE, rhsE in H. now rewrite !coeff_mkE, (proj2 (Nat.ltb_lt _ _)) in H by assumption.
Qed.
Lemma nth_error_skipn {A} (l : list A) : forall n i, nth_error (skipn n l) i = nth_error l (n + i).
Proof. induction l as [|a l IH]; intros [|n] i; cbn [skipn Nat.add]; try reflexivity; [now destruct i|apply IH]. Qed.
Lemma on_block_inv (cs : list (lincon p)) off f cs' : on_block (ell := ell) cs off f = Ret cs' ->
  (off + ell <= length cs)%nat /\ exists b b', length b = ell /\ f b = Ret b' /\
  b = firstn ell (skipn off cs) /\ (forall i, (i < ell)%nat -> nth_error cs (off + i) = nth_error b i) /\
  (length b' = ell -> length cs' = length cs /\
    (forall i, (i < ell)%nat -> nth_error cs' (off + i) = nth_error b' i) /\
    (forall i, ~ (off <= i < off + ell)%nat -> nth_error cs' i = nth_error cs i)).
Proof.
  unfold on_block. intros H. apply obind_ret_inv in H as [b [Hb H]]. apply obind_ret_inv in H as [b' [Hf H]]. injection H as <-.
  unfold sub in Hb. destruct (Nat.leb_spec (off + ell) (length cs)) as [Hl|]; [|discriminate]. injection Hb as <-.
  assert (L : length (firstn ell (skipn off cs)) = ell) by (rewrite firstn_length, skipn_length; lia).
  split; [exact Hl|]. exists (firstn ell (skipn off cs)), b'. split; [exact L|]. split; [exact Hf|]. split; [reflexivity|]. split.
  - intros i Hi. rewrite TernaryProofs.nth_error_firstn by assumption. now rewrite nth_error_skipn.
  - intros L'. rewrite L. split; [|split].
    + rewrite !app_length, firstn_length, skipn_length, L'. lia.
    + intros i Hi. rewrite nth_error_app2 by (rewrite firstn_length; lia). rewrite firstn_length, Nat.min_l by lia.
      rewrite nth_error_app1 by lia. f_equal. lia.
    + intros i Hi. destruct (Nat.lt_ge_cases i off).
      * rewrite nth_error_app1 by (rewrite firstn_length; lia). apply TernaryProofs.nth_error_firstn. lia.
      * rewrite nth_error_app2 by (rewrite firstn_length; lia). rewrite firstn_length, Nat.min_l by lia.
        rewrite nth_error_app2 by lia. rewrite nth_error_skipn. f_equal. lia.
Qed.

(** *** powers *)
Lemma pow_loop_E k : forall (cur x : E), length (pow_loop emul k cur x) = k /\
  forall j, (j < k)%nat -> (0 < ell)%nat -> nth j (pow_loop emul k cur x) e0 = emul cur (epow x j).
Proof.
  induction k as [|k IH]; intros cur x; cbn [pow_loop length]; [split; [reflexivity|intros; lia]|].
  destruct (IH (emul cur x) x) as [L H]. split; [now rewrite L|]. intros [|j] Hj He; cbn [nth epow].
  - now rewrite emul_1_r.
  - rewrite H by lia. now rewrite <- emul_assoc.
Qed.
Lemma powerVectorE_inv (x : E) n v : (0 < ell)%nat -> powerVectorE x n = Ret v ->
  length v = n /\ forall j, (j < n)%nat -> nth j v e0 = epow x j.
Proof.
  intros He. unfold powerVectorE. destruct (n =? 0)%nat; [discriminate|]. intros H. injection H as <-.
  destruct (pow_loop_E n e1 x) as [L H]. split; [exact L|]. intros j Hj. rewrite H by assumption. now apply emul_1_l.
Qed.
End L.
