(** When proveSmallness returns. *)
From Coq Require Import String.
From Coq Require Import ZArith List Bool Lia Ring.
From Verif Require Import Outcome Fp FSum GroupMod Ring ConstraintsModel ConstraintsSpec PedersenModel BulletproofModel FourSquaresSpec AlgebraModel AlgebraSpec AlgebraProofs
  TernaryModel TernarySpec TernaryProofs RegevModel RegevPfModel RegevPfSpec RegevStSpec RegevPfState RegevPfSat CountTrans CountTernary StepSpec StepSound StepMain ProgressSpec ProgressBase ProgressTac PropRegevSt.
Import ListNotations.
Open Scope Z_scope.

Section D.
Context {p : Z} {ell : nat} {G : gmod p}.
Notation F := (Fp p).
Notation E := (elt p ell).
Variable R : rmerlin G.
Variable c : cfg ell G.
Notation pstate := (@pstate p ell G R).
Hypothesis Hc : wf_cfg c.
Hypothesis Hlib : good_libs R c.
Let He : (0 < ell)%nat := proj1 Hc.
Let Hp : 2 <= p.
Proof. pose proof Hc as (_ & _ & _ & _ & _ & _ & _ & _ & _ & H & _). lia. Qed.
Notation nRows := (10 * (JLDIM c + 4) / ell)%nat.
Notation nCols := (LINYDIM c / ell)%nat.
Hypothesis H4 : Nat.divide 4 nCols.
Variable st : pstate.
Hypothesis Hroom : room c st.

Lemma zip_nth : forall (u v : list E) j, length u = length v -> (j < length u)%nat -> nth j (zipWith eadd u v) e0 = eadd (nth j u e0) (nth j v e0).
Proof.
  induction u as [|a u IH]; intros [|b v] j H Hj; cbn in H, Hj; try lia. destruct j as [|j]; [reflexivity|]. cbn [zipWith nth]. apply IH; lia.
Qed.
Lemma zip_len : forall (u v : list E), length u = length v -> length (zipWith eadd u v) = length u.
Proof. induction u as [|a u IH]; intros [|b v] H; cbn in *; try lia. f_equal. apply IH. lia. Qed.
Lemma linf_iff B (v : list E) n : (0 < n)%nat -> length v = n -> (lInftyNorm v <=? B) = true <-> within B n (fun j => nth j v e0).
Proof.
  intros Hn L. rewrite Z.leb_le, (linf_le Hp He), (within_iff Hp). split.
  - intros [_ H] i k Hi Hk. apply H; [apply nth_In; lia|assumption].
  - intros H. split; [pose proof (H 0%nat 0%nat ltac:(lia) ltac:(lia)); lia|]. intros e k Hin Hk.
    apply In_nth with (d := e0) in Hin as (i & Hi & <-). apply H; lia.
Qed.
Lemma within_ext B n (u v : nat -> E) : (forall i, (i < n)%nat -> u i = v i) -> within B n u <-> within B n v.
Proof.
  intros H. unfold within. split; intros W i k z Hi Hk Hz; apply (W i k z Hi Hk); [rewrite H by assumption|rewrite <- H by assumption]; exact Hz.
Qed.
Lemma nrows_pos : (0 < nRows)%nat.
Proof.
  pose proof Hc as (_ & [q Hq] & _). apply Nat.div_str_pos. split; [exact He|]. destruct q; nia.
Qed.
Lemma ncols_pos : (0 < nCols)%nat.
Proof. pose proof Hc as (_ & _ & _ & [q Hq] & _ & HL & _). rewrite Hq in *. rewrite Nat.div_mul by lia. destruct q; nia. Qed.
Lemma ncols_eq : (nCols * ell = LINYDIM c)%nat.
Proof. pose proof Hc as (_ & _ & _ & [q Hq] & _). rewrite Hq. now rewrite Nat.div_mul by lia. Qed.

Lemma loop_ok ys rs n : (forall t, length (ys t) = nCols) -> forall t s,
  shape R s = shape R st -> pmer s = pmer st -> pcomp s = pcomp st ->
  (exists t', (t <= t' < t + n)%nat /\ trial_ok c st (ys t') (rs t')) /\
    (exists s' y X f, smallness_loop R c n t s ys rs = Ret (s', y, X) /\ shape R s' = shape R st /\ is_temat ell X nRows nCols f) \/
  ~ (exists t', (t <= t' < t + n)%nat /\ trial_ok c st (ys t') (rs t')) /\ smallness_loop R c n t s ys rs = Throw.
Proof.
  intros Hy. induction n as [|n IH]; intros t s Hs Hm Hcp; cbn [smallness_loop].
  { right. split; [intros (t' & H & _); lia|reflexivity]. }
  pose proof ncols_eq as Hce. pose proof nrows_pos as Hrp. pose proof ncols_pos as Hcpos.
  assert (Hlen : length (pcomp st) = nRows) by apply Hroom.
  destruct (comE_ok R c Hc st Hroom s YY (ys t) (rs t) Hs ltac:(discriminate) ltac:(rewrite Hy; lens)) as (s1 & E1 & Sh1 & Pm1 & Pc1 & _).
  assert (Ec1 : pcomp s1 = pcomp st).
  { apply comE_inv in E1 as (C & -> & _). exact Hcp. }
  bnd E1. cbv zeta. rewrite Pc1, Pm1, Hm.
  destruct (ternaryE_ok R c Hc Hlib (m_point R (pmer st) "smallnessPf" (com_point c (pidx st YY) (coeffs_of (ys t)) (rs t))) "Smallness" nRows nCols Hrp H4)
    as (X & m1 & f & EX & Hf).
  change (PAD_SIZE) with 4%nat. bnd EX. rewrite Ec1, (left_ok c Hc _ X _ _ f Hf Hlen). cbn [obind].
  unfold vecAdd. rewrite vec_len, Hy, Nat.eqb_refl. cbn [negb obind].
  match goal with |- context [if ?b then _ else _] => destruct b eqn:Q end.
  - left. apply andb_prop in Q as [Q1 Q2]. split.
    + exists t. split; [lia|]. unfold trial_ok. exists X, m1, f. split; [exact EX|]. split; [exact Hf|]. split.
      * apply (linf_iff _ _ nCols Hcpos (vec_len _ _)) in Q1. revert Q1. apply within_ext. intros i Hi. symmetry. now apply vec_nth.
      * apply (linf_iff _ _ nCols Hcpos) in Q2; [|now rewrite zip_len, vec_len by (now rewrite vec_len, Hy)]. revert Q2. apply within_ext. intros i Hi.
        rewrite zip_nth by (rewrite vec_len; rewrite ?Hy; auto). now rewrite vec_nth.
    + do 4 eexists. split; [reflexivity|]. split; [|exact Hf]. exact Sh1.
  - assert (NT : ~ trial_ok c st (ys t) (rs t)).
    { intros (X' & m' & f' & EX' & Hf' & W1 & W2). rewrite EX in EX'. injection EX' as <- <-.
      assert (Ev : vec nCols (compL nRows (pcomp st) f') = vec nCols (compL nRows (pcomp st) f)).
      { pose proof (left_ok c Hc _ X _ _ f Hf Hlen) as A1. rewrite (left_ok c Hc _ X _ _ f' Hf' Hlen) in A1. exact (f_equal (fun o => match o with Ret v => v | _ => [] end) A1). }
      assert (Ec : forall j, (j < nCols)%nat -> compL nRows (pcomp st) f' j = compL nRows (pcomp st) f j).
      { intros j Hj. rewrite <- (vec_nth He nCols (compL nRows (pcomp st) f') j Hj), Ev. now apply vec_nth. }
      assert (Q' : true = false); [|discriminate]. rewrite <- Q. symmetry. apply andb_true_intro. split.
      - apply (linf_iff _ _ nCols Hcpos (vec_len _ _)). revert W1. apply within_ext. intros i Hi. rewrite (vec_nth He nCols) by assumption. symmetry. now apply Ec.
      - apply (linf_iff _ _ nCols Hcpos); [now rewrite zip_len, vec_len by (now rewrite vec_len, Hy)|]. revert W2. apply within_ext. intros i Hi.
        rewrite zip_nth by (rewrite vec_len; rewrite ?Hy; auto). rewrite vec_nth by assumption. f_equal. symmetry. now apply Ec. }
    destruct (IH (S t) (set_z R s1 (zipWith eadd (vec nCols (compL nRows (pcomp st) f)) (ys t)))) as [[(t' & Ht & T) H]|[N H]];
      [exact Sh1|exact (eq_trans Pm1 Hm)|exact Ec1| |].
    + left. split; [exists t'; split; [lia|exact T]|exact H].
    + right. split; [|exact H]. intros (t' & Ht & T). destruct (Nat.eq_dec t' t) as [->|D]; [exact (NT T)|]. apply N. exists t'. split; [lia|exact T].
Qed.

Lemma sml_ret ys rs : (forall t, length (ys t) = nCols) ->
  ((exists t, (t < 100)%nat /\ trial_ok c st (ys t) (rs t)) -> exists st', proveSmallness R c st ys rs = Ret st' /\ shape R st' = shape R st) /\
  (~ (exists t, (t < 100)%nat /\ trial_ok c st (ys t) (rs t)) -> proveSmallness R c st ys rs = Throw).
Proof.
  intros Hy. unfold proveSmallness. change PAD_SIZE with 4%nat. rewrite (proj2 (Nat.eqb_eq _ _)) by apply Hroom. cbn [negb].
  destruct (loop_ok ys rs 100 Hy 0%nat st eq_refl eq_refl eq_refl) as [[(t & Ht & T) (s & y & X & f & H & Sh & Hf)]|[N H]]; rewrite H; cbn [obind].
  - split; [intros _|intros N; exfalso; apply N; exists t; split; [lia|exact T]].
    cbv zeta. newEl R c Hc Hlib x m Ex.
    destruct (powers_ok c Hc x nCols ncols_pos) as (xv & Exv & Lxv). bnd Exv.
    rewrite (right_ok c Hc xv X _ _ f Hf Lxv). cbn [obind].
    match goal with |- context [block R ?s ?o ?ff] => destruct (block_ok R c Hc st Hroom s o ff) as (sb & Eb & Sb & Pb) end.
    + exact Sh.
    + unfold smlnsLin. lia.
    + intros b Hb. cbv beta.
      match goal with |- context [expandConstraints ?b0 ?i ?v 0 None] => destruct (expand0_ok c Hc v i b0) as (b1 & Eb1 & Lb1) end.
      * now apply (clear_len c Hc).
      * bnd Eb1. now apply (expand_ok R c Hc).
    + bnd Eb. eexists. split; [reflexivity|exact Sb].
  - split; [|reflexivity]. intros (t & Ht & T). exfalso. apply N. exists t. split; [lia|exact T].
Qed.
End D.
