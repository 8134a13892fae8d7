(** Proofs about complete proofs: the five steps establish [ready]; a round
    ends in a state from which the next can start. *)
From Coq Require Import String.
From Coq Require Import ZArith Znumtheory List Bool Lia.
From Verif Require Import NumTheory Outcome Fp FSum GroupMod Ring ConstraintsModel ConstraintsSpec FourSquaresModel FourSquaresSpec BulletproofModel
  AlgebraModel AlgebraSpec TernaryModel TernarySpec RegevModel ShamirModel ShamirSpec RegevPfModel RegevPfSpec RegevStSpec
  ConstraintsOther RegevPfBase RegevPfState RegevPfPost RegevPfShare RegevAggModel RegevAggSpec RegevAggOpen RegevAggAccept RegevRunModel RegevRunSpec PropRegevSt.
Import ListNotations.
Open Scope Z_scope.

Section Fr.
Context {p : Z} {ell : nat} {G : gmod p} {R : rmerlin G}.
Variable c : cfg ell G.
Hypothesis Hc : wf_cfg c.
Notation pstate := (@pstate p ell G R).
Notation F := (Fp p).

Lemma in_var_uniq (st : pstate) x y k : layout_of c (pidx st) -> in_var c st x k -> in_var c st y k -> x = y.
Proof.
  intros Hl A B. destruct (var_eq_dec x y) as [|N]; [assumption|].
  pose proof (lay_disj c Hc _ Hl x y N). unfold in_var in *. lia.
Qed.
Lemma frame_trans (s1 s2 s3 : pstate) ws cs ns os ws' cs' ns' os' :
  step_frame c s1 s2 ws cs ns os -> step_frame c s2 s3 ws' cs' ns' os' ->
  step_frame c s1 s3 (ws ++ ws') (cs ++ cs') (ns ++ ns') (os ++ os').
Proof.
  intros (A1 & A2 & A3 & A4 & A5 & A6 & A7 & A8 & A9 & A10 & A11 & A12 & A13) (B1 & B2 & B3 & B4 & B5 & B6 & B7 & B8 & B9 & B10 & B11 & B12 & B13).
  assert (V : forall x k, in_var c s2 x k <-> in_var c s1 x k) by (intros x k; unfold in_var; now rewrite A1).
  repeat apply conj; try congruence.
  - intros k H. rewrite B3, A3; [reflexivity| |].
    + intros x Hx. apply H, in_app_iff. now left.
    + intros x Hx. rewrite V. apply H, in_app_iff. now right.
  - intros k. rewrite B4, A4. split.
    + intros [[H|(x & Hx & K)]|(x & Hx & K)]; [now left|right; exists x; split; [apply in_app_iff; now left|exact K]|].
      right. exists x. split; [apply in_app_iff; now right|now apply V].
    + intros [H|(x & Hx & K)]; [auto|]. apply in_app_iff in Hx as [Hx|Hx]; [left; right; now exists x|right; exists x; split; [exact Hx|now apply V]].
  - intros x Hx. destruct (B5 x) as [P1 P2]; [intros H; apply Hx, in_app_iff; now right|].
    destruct (A5 x) as [Q1 Q2]; [intros H; apply Hx, in_app_iff; now left|]. split; congruence.
  - intros i Hi. rewrite B6, A6; [reflexivity| |]; intros H; apply Hi, in_app_iff; auto.
  - intros i Hi. rewrite B7, A7; [reflexivity| |]; intros o Ho; apply Hi, in_app_iff; auto.
  - intros x Hx Hn H. apply B11; [exact Hx|intros K; apply Hn, in_app_iff; now right|].
    apply A11; [exact Hx|intros K; apply Hn, in_app_iff; now left|exact H].
  - intros k H. rewrite B12, A12; [reflexivity| |].
    + intros x Hx. apply H, in_app_iff. now left.
    + intros x Hx. rewrite V. apply H, in_app_iff. now right.
  - intros k. rewrite B13, A13. split.
    + intros [[H|(x & Hx & K)]|(x & Hx & N & K)]; [now left|right; exists x; split; [apply in_app_iff; now left|exact K]|].
      right. exists x. split; [apply in_app_iff; now right|]. split; [exact N|now apply V].
    + intros [H|(x & Hx & N & K)]; [auto|]. apply in_app_iff in Hx as [Hx|Hx]; [left; right; now exists x|right; exists x; split; [exact Hx|split; [exact N|now apply V]]].
Qed.

(** Constraint i holds, and its variables are among vs. *)
Definition con_ok (st : pstate) (vs : list var) (i : nat) : Prop :=
  exists con, nth_error (plin st) i = Some con /\ lin_sat con (coef (plinW st)) /\
    forall k, In k (keys (lterms con)) -> exists x, In x vs /\ in_var c st x k.
(** Norm constraint i is that of x and xp, and holds. *)
Definition norm_ok (st : pstate) (i : nat) (x xp : var) : Prop :=
  exists q, nth_error (pnorm st) i = Some q /\ (forall k, In k (qidx q) <-> in_var c st x k \/ in_var c st xp k) /\
    quad_sat q (coef (pqG st)) (coef (pqG st)).

Section Keep.
Variables (s s' : pstate) (ws cs : list var) (ns os : list nat).
Hypothesis Hl : layout_of c (pidx s).
Hypothesis Hf : step_frame c s s' ws cs ns os.
Lemma keep_var x k : in_var c s' x k <-> in_var c s x k.
Proof. unfold in_var. now rewrite (proj1 Hf). Qed.
Lemma keep_lin x k : ~ In x ws -> in_var c s x k -> coef (plinW s') k = coef (plinW s) k.
Proof. intros Hx Hk. apply Hf. intros y Hy K. apply Hx. now rewrite (in_var_uniq s x y k Hl Hk K). Qed.
Lemma keep_quad x k : ~ In x ws -> in_var c s x k -> coef (pqG s') k = coef (pqG s) k.
Proof.
  intros Hx Hk. destruct Hf as (_ & _ & _ & _ & _ & _ & _ & _ & _ & _ & _ & H & _). apply H.
  intros y Hy _ K. apply Hx. now rewrite (in_var_uniq s x y k Hl Hk K).
Qed.
Lemma keep_stores x v : ~ In x ws -> Z.of_nat (length v) = clen c x -> stores (plinW s) (pidx s x) v -> stores (plinW s') (pidx s' x) v.
Proof.
  intros Hx L H j Hj. destruct (H j Hj) as [A B]. rewrite (proj1 Hf). split.
  - apply Hf. now left.
  - rewrite <- B. apply (keep_lin x); [exact Hx|]. unfold in_var. lia.
Qed.
Lemma keep_storesG x v : ~ In x ws -> Z.of_nat (length v) = clen c x -> stores (pqG s) (pidx s x) v -> stores (pqG s') (pidx s' x) v.
Proof.
  intros Hx L H j Hj. destruct (H j Hj) as [A B]. rewrite (proj1 Hf). split.
  - destruct Hf as (_ & _ & _ & _ & _ & _ & _ & _ & _ & _ & _ & _ & K). apply K. now left.
  - rewrite <- B. apply (keep_quad x); [exact Hx|]. unfold in_var. lia.
Qed.
Lemma keep_com1 x r : ~ In x ws -> ~ In x cs -> committed1 c s x r -> committed1 c s' x r.
Proof.
  intros Hw Hcs (v & L & O & S & P). destruct Hf as (A1 & _ & _ & _ & A5 & _). destruct (A5 x Hcs) as [P1 P2].
  exists v. split; [exact L|]. split; [unfold opens1; rewrite A1, P1, P2; exact O|]. split; [now apply keep_stores|congruence].
Qed.
Lemma keep_com2 x r : ~ In x ws -> ~ In x cs -> committed2 c s x r -> committed2 c s' x r.
Proof.
  intros Hw Hcs (v & L & O & S & S2 & P). destruct Hf as (A1 & _ & _ & _ & A5 & _). destruct (A5 x Hcs) as [P1 P2].
  exists v. split; [exact L|]. split; [unfold opens2; rewrite A1, P1, P2; exact O|].
  split; [now apply keep_stores|]. split; [now apply keep_storesG|congruence].
Qed.
Lemma keep_con vs i : (forall x, In x vs -> ~ In x ws) -> (forall o, In o os -> ~ (o <= i < o + ell)%nat) -> con_ok s vs i -> con_ok s' vs i.
Proof.
  intros Hv Ho (con & A & B & K). exists con. split; [destruct Hf as (_ & _ & _ & _ & _ & _ & H & _); now rewrite H|]. split.
  - unfold lin_sat in *. rewrite <- B. apply lin_val_ext. intros k Hk. apply K in Hk as (x & Hx & Hk). apply (keep_lin x); auto.
  - intros k Hk. destruct (K k Hk) as (x & Hx & Hk'). exists x. split; [exact Hx|now apply keep_var].
Qed.
Lemma keep_norm i x xp : ~ In x ws -> ~ In xp ws -> ~ In i ns -> norm_ok s i x xp -> norm_ok s' i x xp.
Proof.
  intros H1 H2 Hi (q & A & B & K). exists q. split; [destruct Hf as (_ & _ & _ & _ & _ & H & _); now rewrite H|]. split.
  - intros k. now rewrite !keep_var.
  - unfold quad_sat in *. rewrite <- K. apply quad_val_ext. intros k Hk.
    assert (E : coef (pqG s') k = coef (pqG s) k) by (apply B in Hk as [Hk|Hk]; [now apply (keep_quad x)|now apply (keep_quad xp)]). now rewrite E.
Qed.
Lemma keep_held x : is_comp x = true -> ~ In x ws -> held c (plinW s') (pidx s' x) = held c (plinW s) (pidx s x).
Proof.
  intros Hx Hw. unfold held. apply map_ext_in. intros i Hi. apply in_seq in Hi. rewrite (proj1 Hf). apply readV_ext. intros j Hj.
  apply (keep_lin x); [exact Hw|]. unfold in_var. assert (clen c x = Z.of_nat (JLDIM c)) by (unfold clen, vlen; now rewrite Hx).
  destruct Hc as (_ & _ & [b Hb] & _). rewrite Hb, Nat.div_mul in Hi by lia. nia.
Qed.
End Keep.
(** A step that only touches rows of constraints in [o, o+n). *)
Lemma rows_frame (st st' : pstate) (o n : nat) : st' = set_lin R st (plin st') -> length (plin st') = length (plin st) ->
  (forall i, (i < o)%nat \/ (o + n <= i)%nat -> nth_error (plin st') i = nth_error (plin st) i) ->
  (0 < ell)%nat -> step_frame c st st' [] [] [] (map (fun j => (o + j)%nat) (seq 0 n)).
Proof.
  intros E L H Pl. rewrite E. unfold set_lin. cbn [pidx pqH plinW pcom prnd pnorm plin pcomp pqG].
  split; [reflexivity|]. split; [reflexivity|]. split; [reflexivity|]. split; [intros k; split; [now left|intros [K|(x & [] & _)]; exact K]|].
  split; [now split|]. split; [reflexivity|]. split.
  - intros i Hi. apply H. destruct (Nat.lt_ge_cases i o) as [|A]; [now left|]. destruct (Nat.lt_ge_cases i (o + n)) as [B|]; [|now right].
    exfalso. apply (Hi i); [|lia]. apply in_map_iff. exists (i - o)%nat. split; [lia|apply in_seq; lia].
  - split; [exact L|]. split; [reflexivity|]. split; [reflexivity|]. split; [intros x _ _ K; exact K|]. split; [reflexivity|].
    intros k; split; [now left|intros [K|(x & [] & _)]; exact K].
Qed.
End Fr.

Ltac vnot := let v := fresh "v" in let Hv := fresh "Hv" in intros v Hv; clear - Hv; cbn in Hv |- *;
  repeat (destruct Hv as [<-|Hv]; [intuition discriminate|]); destruct Hv.
Ltac voff Hr := let o := fresh "o" in let Ho := fresh "Ho" in let j := fresh "j" in
  intros o Ho; rewrite ?in_app_iff in Ho; rewrite ?in_map_iff in Ho; cbn [In] in Ho;
  unfold dLin, eLin1, eLin2, rLin, kLin, sk2Lin, smlnsLin, reShrLin in *;
  clear - Hr Ho; repeat match goal with H : _ \/ _ |- _ => destruct H | H : False |- _ => destruct H | H : exists _, _ |- _ => destruct H as (j & H & _) end; lia.
Section Range.
Context {p : Z} {ell : nat} {G : gmod p} {R : rmerlin G}.
Variable c : cfg ell G.
Hypothesis Hc : wf_cfg c.
(** The variables under norm constraints cover the first indexes. *)
Lemma norm_range (st : @pstate p ell G R) : layout_of c (pidx st) -> forall k, 0 <= k < 10 * (Z.of_nat (JLDIM c) + 4) ->
  exists x, is_norm x = true /\ in_var c st x k.
Proof.
  intros Hl k Hk.
  destruct (lay_good c Hc _ Hl) as (_ & A2 & _ & _ & _ & _ & A7).
  pose proof (A2 WW eq_refl) as HW. cbn [npos] in HW. destruct (A7 k ltac:(lia)) as (x & Hx). exists x. split; [|exact Hx].
  destruct (is_norm x) eqn:N; [reflexivity|]. specialize (A2 x N). cbn [npos] in A2. lia.
Qed.
End Range.

Section Steps.
Context {p : Z} {ell : nat} {G : gmod p} {R : rmerlin G}.
Hypothesis Hp : prime p.
Variable c : cfg ell G.
Variables (evs : list Z) (thr : Z).
Hypothesis Hs : good_setup R c evs thr.
Variable i : round p ell.
Hypothesis Hd : round_dims c i.
Hypothesis Ht : round_true c evs thr i.
Notation pstate := (@pstate p ell G R).
Notation F := (Fp p).
Notation dvars := [DCompHi; DPadHi; DCompLo; DPadLo].
Notation evars := [RComp; RPad; EComp1Hi; EPad1Hi; EComp1Lo; EPad1Lo; EComp2Hi; EPad2Hi; EComp2Lo; EPad2Lo].
Notation kvars := [Sk2Comp; Sk2Pad; KCompHi; KPadHi; KCompLo; KPadLo].
Notation roff := (map (fun j => (7 * ell + j)%nat) (seq 0 (length (cHm c)))).

Lemma norm_ok_of (st : pstate) n b x xp : norm_done c st n b x xp -> ~ pad_fails c (held c (plinW st) (pidx st x)) b -> norm_ok c st n x xp.
Proof. intros (q & A & _ & _ & B & [K|K]) N; [exists q; auto|contradiction]. Qed.

(** What has happened after the five steps. *)
Record done (st st5 : pstate) : Prop := Done {
  dn_frame : exists ws cs ns os, step_frame c st st5 ws cs ns os;
  dn_keysG : forall k, In k (keys (pqG st5)) <-> In k (keys (pqG st)) \/ exists x, is_norm x = true /\ in_var c st x k;
  dn_wf : wf_state c st5;
  dn_com2 : forall x, is_norm x = true -> committed2 c st5 x (i_rnd i x);
  dn_com1 : forall x, In x [Pt1; Pt2; RR; Sk2] -> committed1 c st5 x (i_rnd i x);
  dn_y : exists t, committed1 c st5 YY (i_rs i t);
  dn_sk1 : opens1 c st5 Sk1 (coeffs_of (i_sk1 i)) /\ stores (plinW st5) (pidx st5 Sk1) (coeffs_of (i_sk1 i));
  dn_sk2 : opens1 c st5 Sk2 (coeffs_of (i_sk2 i)) ;
  dn_norm : pads_found c st5 -> forall n x xp, norm_of n = Some (x, xp) -> norm_ok c st5 n x xp;
  dn_lin : forall n, (n < 7 * ell + length (cHm c))%nat -> exists vs, ~ In WW vs /\ con_ok c st5 vs n }.

Lemma cfg_parts : wf_cfg c /\ byte_transcript R /\ jacobi_ok (cjac c) /\ prime_test_sound (cpp c) /\ key_dims c.
Proof. destruct Hs as (A & B & C & D & E & _). auto. Qed.
Lemma block_row (n : nat) : (n < 7 * ell + length (cHm c))%nat ->
  (exists o r, In o [0; 1; 2; 3; 4; 5; 6]%nat /\ (r < ell)%nat /\ n = (o * ell + r)%nat) \/
  (exists r, (r < length (cHm c))%nat /\ n = (7 * ell + r)%nat).
Proof.
  intros H. destruct (Nat.lt_ge_cases n (7 * ell)) as [A|A]; [left|right; exists (n - 7 * ell)%nat; lia].
  assert (K : forall o, (o * ell <= n < o * ell + ell)%nat -> exists r, (r < ell)%nat /\ n = (o * ell + r)%nat)
    by (intros o Ho; exists (n - o * ell)%nat; lia).
  destruct (Nat.lt_ge_cases n (1 * ell)); [destruct (K 0%nat ltac:(lia)) as (r & K1 & K2); exists 0%nat, r; cbn [In]; auto 10|].
  destruct (Nat.lt_ge_cases n (2 * ell)); [destruct (K 1%nat ltac:(lia)) as (r & K1 & K2); exists 1%nat, r; cbn [In]; auto 10|].
  destruct (Nat.lt_ge_cases n (3 * ell)); [destruct (K 2%nat ltac:(lia)) as (r & K1 & K2); exists 2%nat, r; cbn [In]; auto 10|].
  destruct (Nat.lt_ge_cases n (4 * ell)); [destruct (K 3%nat ltac:(lia)) as (r & K1 & K2); exists 3%nat, r; cbn [In]; auto 10|].
  destruct (Nat.lt_ge_cases n (5 * ell)); [destruct (K 4%nat ltac:(lia)) as (r & K1 & K2); exists 4%nat, r; cbn [In]; auto 10|].
  destruct (Nat.lt_ge_cases n (6 * ell)); [destruct (K 5%nat ltac:(lia)) as (r & K1 & K2); exists 5%nat, r; cbn [In]; auto 10|].
  destruct (K 6%nat ltac:(lia)) as (r & K1 & K2); exists 6%nat, r; cbn [In]; auto 10.
Qed.
(** A block of ell constraints that hold, with variables among vs. *)
Lemma block_con (st : pstate) o vs (w : Z -> F) : w = coef (plinW st) ->
  block_sat (ell := ell) (plin st) o w ->
  (forall r, (r < ell)%nat -> exists con, nth_error (plin st) (o + r) = Some con /\
     forall k, In k (keys (lterms con)) -> exists x, In x vs /\ in_var c st x k) ->
  forall r, (r < ell)%nat -> con_ok c st vs (o + r).
Proof.
  intros -> A B r Hr. destruct (A r Hr) as (con & A1 & A2). destruct (B r Hr) as (con' & B1 & B2).
  rewrite A1 in B1. injection B1 as <-. exists con. auto.
Qed.
Lemma committed_is (st : pstate) x r v : clen c x = Z.of_nat (length v) -> committed1 c st x r -> stores (plinW st) (pidx st x) v -> opens1 c st x v.
Proof.
  intros L (u & Lu & O & S & _) S'. replace v with u; [exact O|]. apply nth_ext with (d := 0%F) (d' := 0%F); [lia|].
  intros j Hj. destruct (S j Hj) as [_ A]. destruct (S' j ltac:(lia)) as [_ B]. congruence.
Qed.
Lemma steps_done st st5 : fresh c st -> opens1 c st Sk1 (coeffs_of (i_sk1 i)) ->
  proofSteps R c st i = Ret st5 -> done st st5.
Proof.
  intros (Fl & FL & FN & FW & FG & FH & FGs) Op Run.
  destruct cfg_parts as (Hc & Hb & Hj & Hpp & Hk).
  destruct Hs as (_ & _ & _ & _ & _ & Gp & Lev & Hrows & M & GM & Kb).
  destruct Hd as (Dd & De & Dk1 & Dk2 & Dy). destruct Ht as (T1 & T2 & T3 & T4 & T5).
  unfold proofSteps in Run.
  apply obind_ret_inv in Run as (s1 & R1 & Run). apply obind_ret_inv in Run as (s2 & R2 & Run).
  apply obind_ret_inv in Run as (s3 & R3 & Run). apply obind_ret_inv in Run as (s4 & R4 & R5).
  assert (Pl : (0 < ell)%nat) by apply Hc.
  (* before *)
  assert (W0 : wf_state c st).
  { split; [exact Fl|]. rewrite FW, FG, FL, FN. split; [exact Logic.I|]. split; [exact Logic.I|].
    split; apply Forall_forall; intros a Ha; apply repeat_spec in Ha as ->; exact Logic.I. }
  assert (NF : forall n x y, (n < 10)%nat -> norm_fresh c st n x y).
  { intros n x y Hn. exists emptyQuad. split; [rewrite FN; now apply nth_error_repeat|intros k []]. }
  (* decryption *)
  destruct (C47_state R c _ _ _ _ _ _ _ _ Hc Hb W0 Hj Hpp Dd R1) as (A1 & A2 & A3 & A4 & F1 & W1).
  pose proof (C47_linear R c _ _ _ _ _ _ _ _ Hc Hb W0 Hj Hpp Dd R1 T1) as L1.
  destruct (C47_norms R c _ _ _ _ _ _ _ _ Hc Hb W0 Hj Hpp Dd R1 (NF 0%nat _ _ ltac:(lia)) (NF 1%nat _ _ ltac:(lia))) as (hb1 & HB1 & N0 & N1).
  destruct (C47_meaning R c _ _ _ _ _ _ _ _ Hc Hb Dd R1) as (jk12 & jk1 & _ & _ & K1).
  (* encryption *)
  assert (BE : block_empty (ell := ell) (plin s1) (rLin (ell := ell))).
  { intros r Hr. exists 0%F. destruct F1 as (_ & _ & _ & _ & _ & _ & H & _). rewrite H.
    - rewrite FL. apply nth_error_repeat. unfold rLin. lia.
    - intros o [<-|[]]. unfold dLin, rLin. lia. }
  destruct (C48_state R c _ _ _ _ _ _ _ _ _ Hc Hb W1 Hj Hpp Hk De BE R2) as (B1 & B2 & B3 & B4 & B5 & F2 & W2).
  destruct (C48_linear R c _ _ _ _ _ _ _ _ _ Hc Hb W1 Hj Hpp Hk De BE R2) as (L2 & L3 & L4).
  assert (NF1 : forall n x y, (n < 10)%nat -> ~ In n [0; 1]%nat -> norm_fresh c s1 n x y).
  { intros n v1 v2 Hn Hi. destruct (NF n v1 v2 Hn) as (q & Q1 & Q2). exists q. destruct F1 as (E & _ & _ & _ & _ & H & _).
    rewrite H by exact Hi. split; [exact Q1|]. unfold in_var. now rewrite E. }
  destruct (C48_norms R c _ _ _ _ _ _ _ _ _ Hc Hb W1 Hj Hpp Hk De BE R2) as (hb2 & hb3 & HB2 & HB3 & N2 & N3 & N4 & N5 & N6);
    [apply NF1; cbn; intuition lia..|].
  destruct (C48_meaning R c _ _ _ _ _ _ _ _ _ Hc Hb Hk De BE R2) as (jk13 & jk2 & jk3 & jk4 & jk5 & jk6 & _ & _ & _ & _ & K2 & K3 & K4).
  (* key generation *)
  destruct (C49_state R c _ _ _ _ _ _ Hc Hb W2 Hj Hpp Hk Dk1 Dk2 R3) as (C1 & C2 & C3 & F3 & W3).
  destruct (C49_linear R c _ _ _ _ _ _ Hc Hb W2 Hj Hpp Hk Dk1 Dk2 R3) as (L5 & L6).
  pose proof (frame_trans c _ _ _ _ _ _ _ _ _ _ _ F1 F2) as F02.
  assert (NF2 : forall n x y, (n < 10)%nat -> ~ In n ([0; 1] ++ [2; 3; 4; 5; 6])%nat -> norm_fresh c s2 n x y).
  { intros n v1 v2 Hn Hi. destruct (NF n v1 v2 Hn) as (q & Q1 & Q2). exists q. destruct F02 as (E & _ & _ & _ & _ & H & _).
    rewrite H by exact Hi. split; [exact Q1|]. unfold in_var. now rewrite E. }
  destruct (C49_norms R c _ _ _ _ _ _ Hc Hb W2 Hj Hpp Hk Dk1 Dk2 R3) as (hb4 & HB4 & N7 & N8 & N9);
    [apply NF2; cbn; intuition lia..|].
  destruct (C49_meaning R c _ _ _ _ _ _ Hc Hb Hk Dk1 Dk2 R3) as (_ & jk7 & jk8 & jk9 & jk10 & _ & _ & _ & K5 & K6).
  (* re-sharing *)
  destruct (C50_state R c _ _ _ _ _ R4) as (E4 & E4' & E4l).
  assert (F4 : step_frame c s3 s4 [] [] [] roff) by (apply rows_frame; assumption).
  assert (W4 : wf_state c s4).
  { destruct W3 as (V1 & V2 & V3 & V4 & V5). rewrite E4. split; [exact V1|]. split; [exact V2|]. split; [exact V3|].
    split; [|exact V5]. cbn [plin set_lin]. eapply reshare_wf; eassumption. }
  pose proof (frame_trans c _ _ _ _ _ _ _ _ _ _ _ F3 F4) as F24.
  pose proof (frame_trans c _ _ _ _ _ _ _ _ _ _ _ F2 F24) as F14.
  (* smallness *)
  assert (SY : forall x, is_norm x = true -> synced c s4 x).
  { intros x Nx.
    assert (D : In x dvars \/ In x evars \/ In x kvars) by (clear - Nx; destruct x; try discriminate; cbn; tauto).
    destruct D as [D|[D|D]].
    - destruct F14 as (_ & _ & _ & _ & _ & _ & _ & _ & _ & _ & H & _). apply H; [exact Nx| |now apply A4].
      intros N. cbn in N, D. clear - N D. repeat (destruct D as [<-|D]; [intuition discriminate|]). exact D.
    - destruct F24 as (_ & _ & _ & _ & _ & _ & _ & _ & _ & _ & H & _). apply H; [exact Nx| |now apply B5].
      intros N. cbn in N, D. clear - N D. repeat (destruct D as [<-|D]; [intuition discriminate|]). exact D.
    - destruct F4 as (_ & _ & _ & _ & _ & _ & _ & _ & _ & _ & H & _). apply H; [exact Nx|intros []|now apply C3]. }
  destruct (C51_honest R c _ _ _ _ Hc Hb W4 Dy R5) as (L7 & _ & (ty & Y1 & _) & F5 & _ & W5). specialize (L7 SY).
  destruct (C51_meaning R c _ _ _ _ Hc Hb Dy R5) as (jk14 & jk11 & _ & _ & K7).
  pose proof (frame_trans c _ _ _ _ _ _ _ _ _ _ _ F4 F5) as F35.
  pose proof (frame_trans c _ _ _ _ _ _ _ _ _ _ _ F3 F35) as F25.
  pose proof (frame_trans c _ _ _ _ _ _ _ _ _ _ _ F2 F25) as F15.
  pose proof (frame_trans c _ _ _ _ _ _ _ _ _ _ _ F1 F15) as F05.
  pose proof (proj1 W1) as Y_1. pose proof (proj1 W2) as Y_2. pose proof (proj1 W3) as Y_3. pose proof (proj1 W4) as Y_4. pose proof (proj1 W5) as Y_5.
  constructor.
  - do 4 eexists. exact F05.
  - intros k. destruct F05 as (_ & _ & _ & _ & _ & _ & _ & _ & _ & _ & _ & _ & H). rewrite H. split; (intros [K|(v & V)]; [now left|right]).
    + exists v. tauto.
    + exists v. split; [|exact V]. destruct V as [Nv _]. clear - Nv. destruct v; try discriminate Nv; cbn; tauto.
  - exact W5.
  - intros v Nv.
    assert (D : In v dvars \/ In v evars \/ In v kvars) by (clear - Nv; destruct v; try discriminate; cbn; tauto).
    destruct D as [D|[D|D]].
    + apply (keep_com2 c Hc _ _ _ _ _ _ Y_1 F15); [| |now apply A4]; clear - D; cbn in *; repeat (destruct D as [<-|D]; [intuition discriminate|]); destruct D.
    + apply (keep_com2 c Hc _ _ _ _ _ _ Y_2 F25); [| |now apply B5]; clear - D; cbn in *; repeat (destruct D as [<-|D]; [intuition discriminate|]); destruct D.
    + apply (keep_com2 c Hc _ _ _ _ _ _ Y_3 F35); [| |now apply C3]; clear - D; cbn in *; repeat (destruct D as [<-|D]; [intuition discriminate|]); destruct D.
  - intros v [<-|[<-|[<-|[<-|[]]]]].
    + apply (keep_com1 c Hc _ _ _ _ _ _ Y_1 F15); [clear; cbn; intuition discriminate..|exact A1].
    + apply (keep_com1 c Hc _ _ _ _ _ _ Y_2 F25); [clear; cbn; intuition discriminate..|exact B1].
    + apply (keep_com1 c Hc _ _ _ _ _ _ Y_2 F25); [clear; cbn; intuition discriminate..|exact B2].
    + apply (keep_com1 c Hc _ _ _ _ _ _ Y_3 F35); [clear; cbn; intuition discriminate..|exact C1].
  - exists ty. exact Y1.
  - assert (LK : clen c Sk1 = Z.of_nat (length (coeffs_of (i_sk1 i)))).
    { destruct Dd as (_ & _ & _ & D4 & _). rewrite coeffs_length, D4. destruct Hc as (_ & _ & _ & _ & _ & _ & P1 & _). unfold clen, vlen. cbn. lia. }
    split.
    + destruct F05 as (E & _ & _ & _ & H & _). destruct (H Sk1) as [H1 H2]; [clear; cbn; intuition discriminate|].
      unfold opens1 in *. now rewrite E, H1, H2.
    + apply (keep_stores c Hc _ _ _ _ _ _ Y_1 F15); [clear; cbn; intuition discriminate|now symmetry|exact A3].
  - assert (LK : clen c Sk2 = Z.of_nat (length (coeffs_of (i_sk2 i)))).
    { rewrite coeffs_length, Dk2. destruct Hc as (_ & _ & _ & _ & _ & _ & P1 & _). unfold clen, vlen. cbn. lia. }
    apply (committed_is _ _ (i_rnd i Sk2)); [exact LK| |].
    + apply (keep_com1 c Hc _ _ _ _ _ _ Y_3 F35); [clear; cbn; intuition discriminate..|exact C1].
    + apply (keep_stores c Hc _ _ _ _ _ _ Y_3 F35); [clear; cbn; intuition discriminate|now symmetry|exact C2].
  - intros PF n v vp Hn.
    assert (NN : forall s ws cs ns os b, layout_of c (pidx s) -> step_frame c s st5 ws cs ns os -> norm_done c s n b v vp -> norm_bound c n = Ret b ->
       ~ In v ws -> ~ In vp ws -> ~ In n ns -> norm_ok c st5 n v vp).
    { intros s ws cs ns os b Hl Fr Nd Nb V1 V2 V3. apply (keep_norm c Hc _ _ _ _ _ _ Hl Fr); try assumption.
      apply norm_ok_of with (b := b); [exact Nd|]. rewrite <- (keep_held c Hc _ _ _ _ _ _ Hl Fr v); [|exact (proj1 (proj2 (norm_of_lt _ _ _ Hn)))|exact V1].
      exact (PF n v vp b Hn Nb). }
    do 10 (destruct n as [|n]; [injection Hn as <- <-;
      first [ apply (NN _ _ _ _ _ _ Y_1 F15 N0) | apply (NN _ _ _ _ _ _ Y_1 F15 N1)
            | apply (NN _ _ _ _ _ _ Y_2 F25 N2) | apply (NN _ _ _ _ _ _ Y_2 F25 N3) | apply (NN _ _ _ _ _ _ Y_2 F25 N4)
            | apply (NN _ _ _ _ _ _ Y_2 F25 N5) | apply (NN _ _ _ _ _ _ Y_2 F25 N6)
            | apply (NN _ _ _ _ _ _ Y_3 F35 N7) | apply (NN _ _ _ _ _ _ Y_3 F35 N8) | apply (NN _ _ _ _ _ _ Y_3 F35 N9) ];
      first [ assumption | reflexivity | clear; cbn; intuition discriminate ]|]).
    destruct n; discriminate Hn.
  - assert (KC : forall (s : pstate) ws cs ns os vs r, layout_of c (pidx s) -> step_frame c s st5 ws cs ns os -> con_ok c s vs r ->
       (forall v, In v vs -> ~ In v ws) -> (forall o, In o os -> ~ (o <= r < o + ell)%nat) -> ~ In WW vs -> exists vs, ~ In WW vs /\ con_ok c st5 vs r).
    { intros s ws cs ns os vs r Hl Fr Cn V1 V2 V3. exists vs. split; [exact V3|]. now apply (keep_con c Hc _ _ _ _ _ _ Hl Fr). }
    assert (BC : forall (s0 s : pstate) o vs ws cs ns os, step_frame c s0 s ws cs ns os -> block_sat (ell := ell) (plin s) o (coef (plinW s)) ->
      (forall r, (r < ell)%nat -> exists con, nth_error (plin s) (o + r)%nat = Some con /\
         forall k, In k (keys (lterms con)) -> exists v, In v vs /\ in_var c s0 v k) -> forall r, (r < ell)%nat -> con_ok c s vs (o + r)%nat).
    { intros s0 s o vs ws cs ns os Fr B K r Hr. apply (block_con s o vs (coef (plinW s)) eq_refl B); [clear r Hr|exact Hr].
      intros r' Hr'. destruct (K r' Hr') as (con & Q1 & Q2). exists con. split; [exact Q1|]. intros k Hq. destruct (Q2 k Hq) as (v & V1 & V2).
      exists v. split; [exact V1|]. now apply (keep_var c _ _ _ _ _ _ Fr). }
    intros n Hn. destruct (block_row n Hn) as [(o & r & Ho & Hr & ->)|(r & Hr & ->)].
    + destruct Ho as [<-|[<-|[<-|[<-|[<-|[<-|[<-|[]]]]]]]].
      * apply (KC s1 _ _ _ _ [DCompLo; DCompHi; Sk1; Pt1] _ Y_1 F15);
          [apply (BC _ _ (0 * ell)%nat _ _ _ _ _ F1 L1); [|exact Hr]; intros r' Hr'; destruct (K1 r' Hr') as (con & Q1 & Q2); exists con; split; [exact Q1|];
           intros k Hq; apply Q2 in Hq; cbn [In]; clear - Hq; intuition eauto 12|vnot|voff Hr|clear; cbn; intuition discriminate].
      * apply (KC s2 _ _ _ _ [RR; EComp1Lo; EComp1Hi] _ Y_2 F25);
          [rewrite Nat.mul_1_l; apply (BC _ _ _ _ _ _ _ _ F2 (L2 T2)); [|exact Hr]; intros r' Hr'; destruct (K2 r' Hr') as (con & Q1 & Q2); exists con; split; [exact Q1|];
           intros k Hq; apply Q2 in Hq; cbn [In]; clear - Hq; intuition eauto 12|vnot|voff Hr|clear; cbn; intuition discriminate].
      * apply (KC s2 _ _ _ _ [RR; EComp2Lo; EComp2Hi; Pt2] _ Y_2 F25);
          [apply (BC _ _ _ _ _ _ _ _ F2 (L3 T3)); [|exact Hr]; intros r' Hr'; destruct (K3 r' Hr') as (con & Q1 & Q2); exists con; split; [exact Q1|];
           intros k Hq; apply Q2 in Hq; cbn [In]; clear - Hq; intuition eauto 12|vnot|voff Hr|clear; cbn; intuition discriminate].
      * apply (KC s2 _ _ _ _ [RComp; RR] _ Y_2 F25);
          [apply (BC _ _ _ _ _ _ _ _ F2 L4); [|exact Hr]; intros r' Hr'; destruct (K4 r' Hr') as (con & Q1 & Q2); exists con; split; [exact Q1|];
           intros k Hq; apply Q2 in Hq; cbn [In]; clear - Hq; intuition eauto 12|vnot|voff Hr|clear; cbn; intuition discriminate].
      * apply (KC s3 _ _ _ _ [Sk2; KCompLo; KCompHi] _ Y_3 F35);
          [apply (BC _ _ _ _ _ _ _ _ F3 (L5 T4)); [|exact Hr]; intros r' Hr'; destruct (K5 r' Hr') as (con & Q1 & Q2); exists con; split; [exact Q1|];
           intros k Hq; apply Q2 in Hq; cbn [In]; clear - Hq; intuition eauto 12|vnot|voff Hr|clear; cbn; intuition discriminate].
      * apply (KC s3 _ _ _ _ [Sk2Comp; Sk2] _ Y_3 F35);
          [apply (BC _ _ _ _ _ _ _ _ F3 L6); [|exact Hr]; intros r' Hr'; destruct (K6 r' Hr') as (con & Q1 & Q2); exists con; split; [exact Q1|];
           intros k Hq; apply Q2 in Hq; cbn [In]; clear - Hq; intuition eauto 12|vnot|voff Hr|clear; cbn; intuition discriminate].
      * exists (YY :: dvars ++ evars ++ kvars). split; [clear; cbn; intuition discriminate|].
        apply (BC _ _ _ _ _ _ _ _ F5 L7); [|exact Hr]. intros r' Hr'. destruct (K7 r' Hr') as (con & Q1 & Q2). exists con. split; [exact Q1|].
        intros k Hq. apply Q2 in Hq as [Hq|Hq]; [|exists YY; split; [now left|exact Hq]].
        destruct (norm_range c Hc _ Y_4 k Hq) as (v & Nv & V). exists v. split; [|exact V]. right. clear - Nv. destruct v; try discriminate Nv; cbn; tauto.
    + apply (KC s4 _ _ _ _ [Pt1; Pt2] _ Y_4 F5); [|vnot|voff Hr|clear; cbn; intuition discriminate].
      assert (F13 := frame_trans c _ _ _ _ _ _ _ _ _ _ _ F2 F3).
      assert (P_1 : stores (plinW s3) (pidx s3 Pt1) (i_pt1 i)).
      { apply (keep_stores c Hc _ _ _ _ _ _ Y_1 F13); [clear; cbn; intuition discriminate| |exact A2].
        destruct Dd as (_ & _ & D3 & _). rewrite D3. destruct Hc as (_ & _ & _ & _ & _ & _ & _ & _ & P9 & _). change (clen c Pt1) with (tee (cgk c)). lia. }
      assert (P_2 : stores (plinW s3) (pidx s3 Pt2) (i_pt2 i)).
      { apply (keep_stores c Hc _ _ _ _ _ _ Y_2 F3); [clear; cbn; intuition discriminate| |exact B3].
        destruct De as (_ & _ & _ & _ & _ & D3). rewrite D3. destruct Hc as (_ & _ & _ & _ & _ & _ & _ & P9 & _). change (clen c Pt2) with (enn (cgk c)). lia. }
      pose proof (proj2 (C50_witness R c _ _ _ _ _ evs thr M Hp Gp GM Kb Lev Hrows R4 P_1 P_2) T5) as RS.
      destruct (RS r Hr) as (con & Q1 & Q2). exists con. split; [exact Q1|]. split; [exact Q2|].
      rewrite (reshare_nth R c _ _ _ _ _ R4) in Q1.
      destruct ((reShrLin (ell := ell) <=? reShrLin (ell := ell) + r) && (reShrLin (ell := ell) + r <? reShrLin (ell := ell) + length (cHm c)))%nat eqn:Bt.
      2: { apply andb_false_iff in Bt as [Bt|Bt]; [apply Nat.leb_gt in Bt|apply Nat.ltb_ge in Bt]; lia. }
      destruct (nth_error (cHm c) (reShrLin (ell := ell) + r - reShrLin (ell := ell))) as [row|] eqn:Er; [|discriminate].
      destruct (reshare_con R c s3 (i_lag i) row) as [con'| | |] eqn:Ec; try discriminate. injection Q1 as ->.
      destruct (reshare_row R c s3 (i_lag i) Hrows row con (coef (plinW s4)) (nth_error_In _ _ Er) Ec) as (_ & _ & Kk).
      intros k Hq. apply Kk in Hq. unfold in_range in Hq. destruct Hc as (_ & _ & _ & _ & _ & _ & _ & P8 & P9 & _).
      rewrite !Z2Nat.id in Hq by lia. destruct Hq as [Hq|Hq].
      * exists Pt1. split; [now left|]. apply (keep_var c _ _ _ _ _ _ F4). exact Hq.
      * exists Pt2. split; [right; now left|]. apply (keep_var c _ _ _ _ _ _ F4). exact Hq.
Qed.
Lemma steps_ready st st5 : fresh c st -> opens1 c st Sk1 (coeffs_of (i_sk1 i)) -> proofSteps R c st i = Ret st5 ->
  pads_found c st5 -> ready c st5.
Proof.
  intros Hf Op Run PF. destruct (steps_done st st5 Hf Op Run) as [(ws & cs & ns & os & Fr) KG W5 C2 C1 (ty & Y) (S1 & S1') S2 NO LO].
  destruct cfg_parts as (Hc & _). destruct Hf as (Fl & FL & FN & FW & FG & FH & FGs).
  pose proof (proj1 W5) as Ll.
  assert (Lp : length (plin st5) = (7 * ell + length (cHm c))%nat).
  { destruct Fr as (_ & _ & _ & _ & _ & _ & _ & H & _). now rewrite H, FL, repeat_length. }
  assert (Ei : pidx st5 = pidx st) by apply Fr.
  assert (IN : forall con, In con (plin st5) -> lin_sat con (coef (plinW st5)) /\ forall k, In k (keys (lterms con)) -> 0 <= k < pidx st5 WW).
  { intros con Hin. apply In_nth_error in Hin as (n & Hn).
    assert (L : (n < 7 * ell + length (cHm c))%nat) by (rewrite <- Lp; apply nth_error_Some; congruence).
    destruct (LO n L) as (vs & V & con' & Q1 & Q2 & Q3). rewrite Hn in Q1. injection Q1 as <-. split; [exact Q2|].
    intros k Hk. destruct (Q3 k Hk) as (x & Hx & K). pose proof (lay_pos c Hc _ Ll x).
    destruct (lay_good c Hc _ Ll) as (_ & _ & A3 & _). specialize (A3 x ltac:(intros ->; contradiction)). fold (clen c x) in A3.
    unfold in_var in K. lia. }
  assert (L10 : length (pnorm st5) = 10%nat) by (destruct Fr as (_ & _ & _ & _ & _ & _ & _ & _ & H & _); now rewrite H, FN, repeat_length).
  split; cycle 1.
  { split; apply Forall_forall; [intros con Hin; now apply IN|]. intros q Hq. apply In_nth_error in Hq as (n & Hn).
    assert (Ln : (n < 10)%nat) by (rewrite <- L10; apply nth_error_Some; congruence).
    destruct (norm_of_some n Ln) as (x & xp & Ex). destruct (NO PF n x xp Ex) as (q' & Q1 & _ & Q2). rewrite Hn in Q1. injection Q1 as <-. exact Q2. }
  split; [exact W5|]. split; [rewrite Lp; pose proof (proj1 Hc); lia|]. split; [intros con k Hin; now apply IN|].
  split; [exact L10|].
  split; [intros n x xp Hn; destruct (NO PF n x xp Hn) as (q & Q1 & Q2 & _); exists q; auto|].
  split; [intros k; rewrite KG, FG; unfold in_var; rewrite Ei; split; [intros [[]|K]; exact K|now right]|].
  split; [intros x Hx; destruct (C2 x Hx) as (v & V1 & V2 & V3 & V4 & V5); exists v; auto|].
  split.
  - assert (K : forall x r, committed1 c st5 x r -> committed1 c st5 x (prnd st5 x)) by (intros x r (v & V1 & V2 & V3 & V4); exists v; auto).
    intros x Nx NW. destruct x; try discriminate Nx; try contradiction;
      try (eapply K, C1; cbn; tauto); [|exact (K _ _ Y)].
    exists (coeffs_of (i_sk1 i)). split; [|auto].
    destruct Hd as ((_ & _ & _ & D4 & _) & _). rewrite coeffs_length, D4. destruct Hc as (_ & _ & _ & _ & _ & _ & P1 & _). unfold clen, vlen. cbn. lia.
  - now rewrite Ei.
Qed.
End Steps.

Section Run.
Context {p : Z} {ell : nat} {G : gmod p} {R : rmerlin G}.
Notation pstate := (@pstate p ell G R).
Notation F := (Fp p).
(** What the aggregation and flattening leave behind. *)
Lemma run_state (c : cfg ell G) pick (st st' : pstate) w b oks : runProofs R c pick st w b = Ret (st', oks) ->
  pidx st' = pidx st /\ (forall x, is_comp x = false -> x <> WW -> pcom st' x = pcom st x /\ prnd st' x = prnd st x) /\
  plinW st' = [] /\ pqG st' = [] /\ pqH st' = [] /\ plin st' = map (fun _ => emptyLin) (plin st) /\ pnorm st' = map (fun _ => emptyQuad) (pnorm st) /\
  pcomp st' = pcomp st.
Proof.
  unfold runProofs. intros H. apply obind_ret_inv in H as ([s1 d] & H & H1). apply obind_ret_inv in H1 as (ok & _ & H1). injection H1 as <- _.
  unfold prepareProofs in H. apply obind_ret_inv in H as ([s2 ap] & A & H). apply obind_ret_inv in H as ([[s3 a3] [[lgs lst] lw]] & B & H).
  apply obind_ret_inv in H as ([[s4 [[[qgs qhs] og] oh]] [wg wh]] & C & H). injection H as <- _.
  unfold flattenQuadPrv in C. apply obind_ret_inv in C as (q & _ & C). apply obind_ret_inv in C as (ws & _ & C). injection C as <- _ _.
  unfold flattenLinPrv in B. destruct (negb _); [discriminate|]. apply obind_ret_inv in B as ([gs stm] & _ & B). injection B as <- _ _ _ _.
  cbn [pidx pcom prnd plinW pqG pqH plin pnorm pcomp].
  unfold aggregateProver in A. apply obind_ret_inv in A as ([s5 a] & V & A).
  apply obind_ret_inv in A as (rnd & Sr & A). destruct (negb _); [discriminate|]. apply obind_ret_inv in A as (wG & _ & A).
  apply obind_ret_inv in A as ([m a2] & _ & A). apply obind_ret_inv in A as (qG & _ & A). apply obind_ret_inv in A as (qH & _ & A). injection A as <- _.
  cbn [pidx pcom prnd plinW pqG pqH plin pnorm pcomp].
  unfold aggregateVerifier1 in V. destruct (m_chal R (pmer st) "aggregateLinear") as [r m1]. apply obind_ret_inv in V as (rv1 & _ & V).
  apply obind_ret_inv in V as (lin & _ & V). destruct (m_chal R m1 "aggregateNorms") as [r2 m2]. apply obind_ret_inv in V as (rv2 & _ & V).
  apply obind_ret_inv in V as (quad & _ & V). apply obind_ret_inv in V as (terms & _ & V).
  destruct (splitPtxtVec terms (qidx quad)) as [[as_ bs] wI]. destruct (negb _); [discriminate|].
  apply obind_ret_inv in V as (com & Sc & V). injection V as <- <-. cbn [pidx pcom prnd plinW pqG pqH plin pnorm pcomp rrVec] in *.
  destruct (scale_spec gadd gmul _ _ _ Sc) as [_ Q1]. destruct (scale_spec fadd fmul _ _ _ Sr) as [_ Q2].
  repeat (split; [reflexivity|]). split; [|now repeat split].
  intros x Hx NW. rewrite !upd_other by exact NW. split; [now apply Q1|now apply Q2].
Qed.
Lemma map_repeat {A B} (f : A -> B) a n : map f (repeat a n) = repeat (f a) n.
Proof. induction n; cbn; congruence. Qed.
Hypothesis Hp : prime p.
Variable c : cfg ell G.
Variables (evs : list Z) (thr : Z).
Hypothesis Hs : good_setup R c evs thr.
Variable pick : list (cursor p) -> nat.
Hypothesis Hpick : queue_order pick.
Lemma round_next i (st st5 st' : pstate) oks : round_dims c i -> round_true c evs thr i ->
  fresh c st -> opens1 c st Sk1 (coeffs_of (i_sk1 i)) -> proofSteps R c st i = Ret st5 ->
  runProofs R c pick st5 (i_wRnd i) (i_bl i) = Ret (st', oks) ->
  fresh c (prepareForNextProof R st') /\ opens1 c (prepareForNextProof R st') Sk1 (coeffs_of (i_sk2 i)).
Proof.
  intros Hd Ht Hf Op Run H. destruct (run_state c pick _ _ _ _ _ H) as (E & Q & W1 & W2 & W3 & W4 & W5 & _).
  destruct (steps_done Hp c evs thr Hs i Hd Ht st st5 Hf Op Run) as [(ws & cs & ns & os & Fr) _ _ _ _ _ _ S2 _ _].
  destruct Hf as (Fl & FL & FN & FW & FG & FH & FGs).
  assert (Ei : pidx st5 = pidx st) by apply Fr.
  split.
  - split; [|split; [|split]].
    + eapply layout_swap; [exact Fl|]. intros x. cbn [prepareForNextProof pidx]. rewrite E, Ei. unfold upd, swap_sk.
      destruct x; reflexivity.
    + cbn [prepareForNextProof plin]. rewrite W4, map_map.
      assert (L : length (plin st5) = (7 * ell + length (cHm c))%nat).
      { destruct Fr as (_ & _ & _ & _ & _ & _ & _ & L & _). now rewrite L, FL, repeat_length. }
      rewrite <- L. clear. induction (plin st5); cbn; congruence.
    + cbn [prepareForNextProof pnorm]. rewrite W5, map_map.
      assert (L : length (pnorm st5) = 10%nat).
      { destruct Fr as (_ & _ & _ & _ & _ & _ & _ & _ & L & _). now rewrite L, FN, repeat_length. }
      rewrite <- L. clear. induction (pnorm st5); cbn; congruence.
    + cbn [prepareForNextProof plinW pqG pqH pidx]. repeat (split; [assumption|]). rewrite FGs. unfold upd. cbn. now rewrite E, Ei.
  - unfold opens1 in *. cbn [prepareForNextProof pidx pcom prnd]. destruct (Q Sk2 eq_refl ltac:(discriminate)) as [Q1 Q2].
    unfold upd. cbn. rewrite Q1, Q2, E. exact S2.
Qed.
Lemma round_accept i (st st5 : pstate) : round_dims c i -> round_true c evs thr i ->
  fresh c st -> opens1 c st Sk1 (coeffs_of (i_sk1 i)) -> proofSteps R c st i = Ret st5 -> pads_found c st5 -> all_mentioned c st5 ->
  (exists st', proofRound R c pick st i = Ret (st', (true, true))) \/
  (proofRound R c pick st i = Throw /\ ~ (forall m l, fst (m_chal R m l) <> 0%F)).
Proof.
  intros Hd Ht Hf Op Run PF AM. unfold proofRound. rewrite Run. cbn [obind]. destruct Hs as (Hc & _).
  assert (RD : ready c st5) by (eapply steps_ready; eassumption).
  exact (run_accept Hp c pick Hpick Hc st5 (proj1 RD) AM (i_wRnd i) (i_bl i) (proj2 RD)).
Qed.
Lemma rounds_accept is : forall sk (st st' : pstate) oks, Forall (round_dims c) is -> Forall (round_true c evs thr) is ->
  chained sk is -> fresh c st -> opens1 c st Sk1 (coeffs_of sk) -> lucky c pick st is ->
  proofRounds R c pick st is = Ret (st', oks) -> oks = repeat (true, true) (length is).
Proof.
  induction is as [|i is IH]; intros sk st st' oks Hd Ht Ch Hf Op Lu H; cbn [proofRounds] in H.
  - injection H as _ <-. reflexivity.
  - inversion Hd as [|? ? Hd1 Hd2]; subst. inversion Ht as [|? ? Ht1 Ht2]; subst. destruct Ch as [<- Ch].
    apply obind_ret_inv in H as ([s1 ok] & H1 & H). apply obind_ret_inv in H as ([s2 oks'] & H2 & H). injection H as _ <-.
    unfold proofRound in H1. apply obind_ret_inv in H1 as (st5 & Run & H1). destruct (Lu st5 Run) as (PF & AM & Lu').
    destruct (round_next i st st5 s1 ok Hd1 Ht1 Hf Op Run H1) as [Hf' Op'].
    destruct (round_accept i st st5 Hd1 Ht1 Hf Op Run PF AM) as [(s & A)|[A _]]; unfold proofRound in A; rewrite Run in A; cbn [obind] in A; rewrite H1 in A; [|discriminate].
    injection A as _ ->. cbn [repeat length]. f_equal. exact (IH (i_sk2 i) (prepareForNextProof R s1) s2 oks' Hd2 Ht2 Ch Hf' Op' (Lu' _ _ H1) H2).
Qed.
Lemma rounds_keep is : forall sk (st st' : pstate) oks, Forall (round_dims c) is -> Forall (round_true c evs thr) is ->
  chained sk is -> fresh c st -> opens1 c st Sk1 (coeffs_of sk) -> proofRounds R c pick st is = Ret (st', oks) ->
  fresh c st' /\ opens1 c st' Sk1 (coeffs_of (last_key sk is)).
Proof.
  induction is as [|i is IH]; intros sk st st' oks Hd Ht Ch Hf Op H; cbn [proofRounds] in H.
  - injection H as <- _. now split.
  - inversion Hd as [|? ? Hd1 Hd2]; subst. inversion Ht as [|? ? Ht1 Ht2]; subst. destruct Ch as [<- Ch].
    apply obind_ret_inv in H as ([s1 ok] & H1 & H). apply obind_ret_inv in H as ([s2 oks'] & H2 & H). injection H as <- _.
    unfold proofRound in H1. apply obind_ret_inv in H1 as (st5 & Run & H1).
    destruct (round_next i st st5 s1 ok Hd1 Ht1 Hf Op Run H1) as [Hf' Op'].
    exact (IH (i_sk2 i) (prepareForNextProof R s1) s2 oks' Hd2 Ht2 Ch Hf' Op' H2).
Qed.
End Run.

Lemma commitKey_opens {p ell} {G : gmod p} (R : rmerlin G) (c : cfg ell G) (st st' : @pstate p ell G R) sk r :
  fresh c st -> commitKey R c st sk r = Ret st' -> fresh c st' /\ opens1 c st' Sk1 (coeffs_of sk).
Proof.
  intros Hf H. assert (H' : comE R c st Sk1 sk r = Ret st') by exact H. apply comE_inv in H' as (C & -> & K).
  split; [exact Hf|]. unfold opens1, set_com. cbn [pidx prnd pcom]. now rewrite !upd_same.
Qed.
