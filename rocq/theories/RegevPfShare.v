(** proveReShare. *)
From Coq Require Import String.
From Coq Require Import ZArith Znumtheory List Bool Lia Ring.
From Verif Require Import Outcome Fp FSum GroupMod Ring ConstraintsModel ConstraintsSpec ConstraintsProofs ConstraintsOther ShamirModel ShamirSpec ShamirProofs
  TernaryModel BulletproofModel AlgebraModel RegevModel RegevPfModel RegevPfSpec RegevPfLin RegevStSpec RegevDecrypt RegevPfState.
Import ListNotations.
Open Scope Z_scope.

Section Share.
Context {p : Z} {ell : nat} {G : gmod p}.
Notation F := (Fp p).
Notation E := (elt p ell).
Variable R : rmerlin G.
Variable c : cfg ell G.
Notation pstate := (@pstate p ell G R).
Add Ring Fsh : (@Fp_ring p).

Lemma addTerms_fold cs : forall (con : lincon p) idx,
  addTerms con idx cs = fold_left (fun c e => addTerm c (fst e) (snd e)) (combine (map (fun j => idx + Z.of_nat j) (seq 0 (length cs))) cs) con.
Proof.
  induction cs as [|a cs IH]; intros con idx; cbn [addTerms length seq map combine fold_left]; [reflexivity|].
  rewrite IH. cbn [fst snd]. rewrite Z.add_0_r. f_equal. f_equal. rewrite <- seq_shift, map_map. apply map_ext. intros j. lia.
Qed.
Lemma lin_val_terms idx cs (w : Z -> F) :
  lin_val (combine (map (fun j => idx + Z.of_nat j) (seq 0 (length cs))) cs) w =
  fsum (map (fun j => (nth j cs 0 * w (idx + Z.of_nat j)%Z)%F) (seq 0 (length cs))).
Proof.
  revert idx. induction cs as [|a cs IH]; intros idx; cbn [length seq map combine]; [reflexivity|].
  unfold lin_val in *. cbn [map fsum fst snd]. rewrite Z.add_0_r. cbn [nth]. f_equal.
  rewrite <- seq_shift, !map_map. cbn [nth].
  rewrite (map_ext (fun x => idx + Z.of_nat (S x)) (fun x => (idx + 1) + Z.of_nat x)) by (intros; lia).
  rewrite IH. apply fsum_map_ext. intros j _. f_equal. f_equal. lia.
Qed.
Lemma addTerms_val_range (con : lincon p) idx cs w : wf_lin con ->
  wf_lin (addTerms con idx cs) /\ leq (addTerms con idx cs) = leq con /\
  lin_val (lterms (addTerms con idx cs)) w = (lin_val (lterms con) w + fsum (map (fun j => (nth j cs 0 * w (idx + Z.of_nat j)%Z)%F) (seq 0 (length cs))))%F /\
  forall k, In k (keys (lterms (addTerms con idx cs))) <-> In k (keys (lterms con)) \/ idx <= k < idx + Z.of_nat (length cs).
Proof.
  intros H. rewrite addTerms_fold. set (ts := combine _ cs).
  destruct (addTerms_spec ts con H) as (A1 & A2 & _ & A4). split; [exact A1|]. split; [exact A2|]. split.
  - rewrite addTerms_val by assumption. unfold ts. now rewrite lin_val_terms.
  - intros k. rewrite A4. apply or_iff_compat_l. unfold ts, keys.
    assert (Q : forall (a : list Z) (b : list F), length a = length b -> map fst (combine a b) = a).
    { induction a as [|x a IH]; intros [|y b] L; cbn in *; try reflexivity; try discriminate. now rewrite IH by congruence. }
    rewrite Q by (now rewrite map_length, seq_length). rewrite in_map_iff. split.
    + intros [j [<- Hj]]. apply in_seq in Hj. lia.
    + intros Hk. exists (Z.to_nat (k - idx)). split; [lia|]. apply in_seq. lia.
Qed.
Lemma wf_emptyLin : wf_lin (emptyLin (p := p)).
Proof. constructor. Qed.
Lemma omapM_inv {A B} (f : A -> outcome B) l : forall r, omapM f l = Ret r ->
  length r = length l /\ forall i a, nth_error l i = Some a -> exists b, nth_error r i = Some b /\ f a = Ret b.
Proof.
  induction l as [|a l IH]; intros r H; cbn [omapM] in H.
  - injection H as <-. split; [reflexivity|]. intros [|i] a' Ha; discriminate.
  - apply obind_ret_inv in H as [b [Hb H]]. apply obind_ret_inv in H as [bs [Hbs H]]. injection H as <-.
    destruct (IH _ Hbs) as [L I]. split; [cbn; congruence|]. intros [|i] a' Ha; cbn in Ha.
    + injection Ha as <-. exists b. split; [reflexivity|assumption].
    + now apply I.
Qed.
(** The shares, secret first, that an assignment of the variables describes. *)
Lemma omapM_total {A B} (f : A -> outcome B) l : (forall a, In a l -> exists b, f a = Ret b) -> exists r, omapM f l = Ret r.
Proof.
  induction l as [|a l IH]; intros H; [now exists []|]. destruct (H a (or_introl eq_refl)) as [b Hb].
  destruct IH as [r Hr]; [intros x Hx; apply H; now right|]. exists (b :: r). cbn [omapM]. rewrite Hb. cbn [obind]. rewrite Hr. reflexivity.
Qed.
Lemma omapM_seq {B} (f : nat -> outcome B) a n r d : omapM f (seq a n) = Ret r ->
  length r = n /\ forall i, (i < n)%nat -> f (a + i)%nat = Ret (nth i r d).
Proof.
  intros H. destruct (omapM_inv _ _ _ H) as [L I]. rewrite seq_length in L. split; [exact L|].
  intros i Hi. destruct (I i (a + i)%nat) as (b & B1 & B2).
  - rewrite (nth_error_nth' (seq a n) 0%nat) by (now rewrite seq_length). now rewrite seq_nth.
  - rewrite B2. f_equal. symmetry. now apply nth_error_nth.
Qed.

Variables (st st' : pstate) (lagrange pt1 pt2 : list F).
Hypothesis Hrun : proveReShare R c st lagrange pt1 pt2 = Ret st'.
Hypothesis Hrows : Forall (fun r => length r = S (Z.to_nat (enn (cgk c)))) (cHm c).
Notation off := (reShrLin (ell := ell)).
Notation tee' := (Z.to_nat (tee (cgk c))).
Notation enn' := (Z.to_nat (enn (cgk c))).

Lemma reshare_row row con w : In row (cHm c) -> reshare_con R c st lagrange row = Ret con ->
  wf_lin con /\ (lin_sat con w <-> row_times row (reshared c st lagrange w) = 0%F) /\
  forall k, In k (keys (lterms con)) <-> in_range (pidx st Pt1) tee' k \/ in_range (pidx st Pt2) enn' k.
Proof.
  intros Hin H. unfold reshare_con in H. apply obind_ret_inv in H as [h0 [H0 H]]. apply obind_ret_inv in H as [ls [Hls H]].
  apply obind_ret_inv in H as [hs [Hhs H]]. injection H as <-.
  rewrite Forall_forall in Hrows. pose proof (Hrows _ Hin) as Lr.
  assert (og : forall (l : list F) i v, oget l i = Ret v -> nth i l 0%F = v /\ (i < length l)%nat).
  { intros l i v Hv. unfold oget in Hv. destruct (nth_error l i) eqn:Q; [|discriminate]. injection Hv as ->.
    split; [now apply nth_error_nth|]. apply nth_error_Some. congruence. }
  destruct (og _ _ _ H0) as [E0 _].
  destruct (omapM_seq _ _ _ _ 0%F Hls) as [Ll El]. destruct (omapM_seq _ _ _ _ 0%F Hhs) as [Lh Eh].
  destruct (addTerms_val_range (emptyLin (p := p)) (pidx st Pt1) ls w wf_emptyLin) as (A1 & A2 & A3 & A4).
  destruct (addTerms_val_range _ (pidx st Pt2) hs w A1) as (B1 & B2 & B3 & B4).
  split; [exact B1|]. split.
  - unfold lin_sat. rewrite B3, A3, B2, A2. cbn [emptyLin lterms leq].
    assert (Q : row_times row (reshared c st lagrange w) =
      (lin_val [] w + fsum (map (fun j => (nth j ls 0 * w (pidx st Pt1 + Z.of_nat j)%Z)%F) (seq 0 (length ls)))
       + fsum (map (fun j => (nth j hs 0 * w (pidx st Pt2 + Z.of_nat j)%Z)%F) (seq 0 (length hs))))%F).
    { unfold row_times. rewrite Lr. cbn [seq map fsum]. rewrite E0. unfold reshared at 1. cbn [nth].
      unfold lin_val. cbn [map fsum]. rewrite Ll, Lh.
      rewrite <- seq_shift, map_map.
      rewrite (fsum_map_ext (fun x => (nth (S x) row 0 * nth (S x) (reshared c st lagrange w) 0)%F) (fun j => (nth j hs 0 * w (pidx st Pt2 + Z.of_nat j)%Z)%F)).
      2:{ intros j Hj. apply in_seq in Hj. destruct (og _ _ _ (Eh j ltac:(lia))) as [Q _]. cbn [Nat.add] in Q. rewrite Q. f_equal.
          unfold reshared. cbn [nth]. rewrite (nth_map_lt _ _ _ _ 0%nat) by (rewrite seq_length; lia). rewrite seq_nth by lia. reflexivity. }
      rewrite <- fsum_map_scale.
      rewrite (fsum_map_ext (fun j => (nth j ls 0 * w (pidx st Pt1 + Z.of_nat j)%Z)%F) (fun x => (h0 * (nth x lagrange 0 * w (pidx st Pt1 + Z.of_nat x)%Z))%F)); [ring|].
      intros j Hj. apply in_seq in Hj. pose proof (El j ltac:(lia)) as Q. cbn [Nat.add] in Q. apply obind_ret_inv in Q as [l [Ql Q]].
      injection Q as Q. rewrite <- Q. destruct (og _ _ _ Ql) as [-> _]. ring. }
    rewrite Q. reflexivity.
  - intros k. rewrite B4, A4. cbn [emptyLin lterms keys map In]. rewrite Ll, Lh. unfold in_range. tauto.
Qed.
Lemma reshare_inv : exists cs, length cs = length (cHm c) /\
  plin st' = firstn off (plin st) ++ cs ++ skipn (off + length (cHm c)) (plin st) /\
  st' = set_lin R st (plin st') /\ (off + length (cHm c) <= length (plin st))%nat /\
  (forall i row, nth_error (cHm c) i = Some row -> exists con, nth_error cs i = Some con /\ reshare_con R c st lagrange row = Ret con).
Proof.
  unfold proveReShare in Hrun. destruct (negb _ || _ || _ || _); [discriminate|]. 
  destruct (Nat.leb_spec (off + length (cHm c)) (length (plin st))) as [L|L]; cbn [negb] in Hrun; [|discriminate].
  apply obind_ret_inv in Hrun as [cs [Hcs H]]. injection H as <-. destruct (omapM_inv _ _ _ Hcs) as [L1 I]. exists cs.
  split; [exact L1|]. split; [reflexivity|]. split; [reflexivity|]. split; [exact L|exact I].
Qed.
Lemma reshare_nth i : nth_error (plin st') i =
  if ((off <=? i) && (i <? off + length (cHm c)))%nat then
    match nth_error (cHm c) (i - off) with Some row => match reshare_con R c st lagrange row with Ret con => Some con | _ => None end | None => None end
  else nth_error (plin st) i.
Proof.
  destruct reshare_inv as (cs & L & E & _ & Hle & I). rewrite E.
  assert (Lf : length (firstn off (plin st)) = off) by (apply firstn_length_le; lia).
  destruct (Nat.leb_spec off i) as [H1|H1]; cbn [andb].
  - rewrite nth_error_app2 by lia. rewrite Lf. destruct (Nat.ltb_spec i (off + length (cHm c))) as [H2|H2].
    + rewrite nth_error_app1 by lia. destruct (nth_error (cHm c) (i - off)) as [row|] eqn:Q.
      * destruct (I _ _ Q) as (con & C1 & C2). now rewrite C1, C2.
      * apply nth_error_None in Q. lia.
    + rewrite nth_error_app2 by lia. rewrite L.
      assert (nsk : forall {A} n (l : list A) k, nth_error (skipn n l) k = nth_error l (n + k)).
      { intros A n. induction n as [|n IHn]; intros [|a l] k; cbn; try reflexivity; [now destruct k|apply IHn]. }
      rewrite nsk. f_equal. lia.
  - rewrite nth_error_app1 by lia.
    assert (nfi : forall {A} n (l : list A) k, (k < n)%nat -> nth_error (firstn n l) k = nth_error l k).
    { intros A n. induction n as [|n IHn]; intros [|a l] [|k] Hk; cbn; try reflexivity; try lia. apply IHn. lia. }
    now apply nfi.
Qed.
Lemma reshare_meaning w : rows_sat (plin st') off (length (cHm c)) w <-> Forall (fun row => row_times row (reshared c st lagrange w) = 0%F) (cHm c).
Proof.
  destruct reshare_inv as (cs & L & E & _ & Hle & I). rewrite Forall_forall. split.
  - intros H row Hin. apply In_nth_error in Hin as Hin'. destruct Hin' as [i Hi]. assert (Hi' : (i < length (cHm c))%nat) by (apply nth_error_Some; congruence).
    destruct (H i Hi') as (con & C1 & C2). rewrite reshare_nth in C1.
    rewrite (proj2 (Nat.leb_le _ _)), (proj2 (Nat.ltb_lt _ _)) in C1 by lia. cbn [andb] in C1.
    replace (off + i - off)%nat with i in C1 by lia. rewrite Hi in C1. destruct (I _ _ Hi) as (con' & _ & C3). rewrite C3 in C1. injection C1 as ->.
    now apply (reshare_row row con w Hin C3).
  - intros H i Hi. destruct (nth_error (cHm c) i) as [row|] eqn:Q; [|apply nth_error_None in Q; lia].
    destruct (I _ _ Q) as (con & _ & C3). exists con. split.
    + rewrite reshare_nth, (proj2 (Nat.leb_le _ _)), (proj2 (Nat.ltb_lt _ _)) by lia. cbn [andb].
      replace (off + i - off)%nat with i by lia. now rewrite Q, C3.
    + pose proof (nth_error_In _ _ Q) as Hin. apply (reshare_row row con w Hin C3). now apply H.
Qed.
Lemma reshare_valid : prime p -> forall evs thr M, good_points (p := p) evs -> genMatrix thr evs = Ret M ->
  kernel_basis (cHm c) M (Z.to_nat thr) -> length evs = enn' ->
  forall w, rows_sat (plin st') off (length (cHm c)) w <-> valid_sharing (Z.to_nat thr) evs (reshared c st lagrange w).
Proof.
  intros Hp evs thr M Hg HM Hk Hl w. rewrite reshare_meaning. apply (parity_check Hp thr evs M (cHm c) Hg HM Hk).
  unfold reshared. cbn [length]. rewrite map_length, seq_length. now rewrite Hl.
Qed.
(** For the recorded witness. *)
Lemma reshare_witness : prime p -> forall evs thr M, good_points (p := p) evs -> genMatrix thr evs = Ret M ->
  kernel_basis (cHm c) M (Z.to_nat thr) -> length evs = enn' ->
  stores (plinW st) (pidx st Pt1) pt1 -> stores (plinW st) (pidx st Pt2) pt2 ->
  (rows_sat (plin st') off (length (cHm c)) (coef (plinW st')) <->
   valid_sharing (Z.to_nat thr) evs (fsum (map (fun j => (nth j lagrange 0 * nth j pt1 0)%F) (seq 0 tee')) :: pt2)).
Proof.
  intros Hp evs thr M Hg HM Hk Hl S1 S2. rewrite (reshare_valid Hp evs thr M Hg HM Hk Hl).
  destruct reshare_inv as (cs & _ & _ & E & _). rewrite E. cbn [plinW set_lin].
  assert (Ls : length pt1 = tee' /\ length pt2 = enn').
  { unfold proveReShare in Hrun. destruct (Z.eqb_spec (Z.of_nat (length pt1)) (tee (cgk c))) as [A|A]; cbn [negb orb] in Hrun; [|discriminate].
    destruct (length lagrange =? length pt1)%nat; cbn [negb orb] in Hrun; [|discriminate].
    destruct (Z.eqb_spec (Z.of_nat (length pt2)) (enn (cgk c))) as [B|B]; cbn [negb orb] in Hrun; [|discriminate]. lia. }
  destruct Ls as [L1 L2]. unfold reshared.
  assert (Q1 : fsum (map (fun j => (nth j lagrange 0 * coef (plinW st) (pidx st Pt1 + Z.of_nat j)%Z)%F) (seq 0 tee')) =
               fsum (map (fun j => (nth j lagrange 0 * nth j pt1 0)%F) (seq 0 tee'))).
  { apply fsum_map_ext. intros j Hj. apply in_seq in Hj. destruct (S1 j) as [_ ->]; [lia|reflexivity]. }
  assert (Q2 : map (fun j => coef (plinW st) (pidx st Pt2 + Z.of_nat j)) (seq 0 enn') = pt2).
  { apply nth_ext with (d := 0%F) (d' := 0%F); [now rewrite map_length, seq_length|].
    intros j Hj. rewrite map_length, seq_length in Hj. rewrite (nth_map_lt _ _ _ _ 0%nat) by (now rewrite seq_length).
    rewrite seq_nth by assumption. cbn [Nat.add]. destruct (S2 j) as [_ ->]; [lia|reflexivity]. }
  rewrite <- Q1, Q2. reflexivity.
Qed.
Lemma reshare_wf : Forall wf_lin (plin st) -> Forall wf_lin (plin st').
Proof.
  intros H. rewrite Forall_forall. rewrite Forall_forall in H. intros con Hin. apply In_nth_error in Hin as [i Hi]. rewrite reshare_nth in Hi.
  destruct ((off <=? i) && (i <? off + length (cHm c)))%nat.
  - destruct (nth_error (cHm c) (i - off)) as [row|] eqn:Q; [|discriminate].
    destruct (reshare_con R c st lagrange row) eqn:Q2; try discriminate. injection Hi as <-.
    apply (reshare_row row _ (fun _ => 0%F)); [now apply nth_error_In in Q|exact Q2].
  - apply H. now apply nth_error_In in Hi.
Qed.
End Share.
