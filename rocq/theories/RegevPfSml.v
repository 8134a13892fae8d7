(** proveSmallness. *)
From Coq Require Import String.
From Coq Require Import ZArith List Bool Lia Ring.
From Verif Require Import Outcome Fp FSum GroupMod Ring ConstraintsModel ConstraintsSpec ConstraintsProofs ConstraintsOther
  PedersenModel PedersenProofs BulletproofModel FourSquaresModel FourSquaresSpec AlgebraModel AlgebraSpec AlgebraProofs AlgebraMore TernaryModel TernarySpec TernaryProofs
  RegevModel RegevSpec RegevPfModel RegevPfSpec RegevPfBase RegevPfLin RegevPfCom RegevStSpec RegevPfState RegevDecrypt RegevPfEff RegevPfPost RegevPfSat.
Import ListNotations.
Open Scope Z_scope.

Section Sml.
Context {p : Z} {ell : nat} {G : gmod p}.
Notation F := (Fp p).
Notation E := (elt p ell).
Variable R : rmerlin G.
Variable c : cfg ell G.
Notation pstate := (@pstate p ell G R).
Notation nCols := (LINYDIM c / ell)%nat.
Notation nRows := (10 * (JLDIM c + PAD_SIZE) / ell)%nat.
Notation sum_elts v f := (sumE (length v) (fun i => emul (nth i v e0) (f i))).

(** Two states that differ in the commitment to y, z and the transcript only. *)
Definition same_but (st st' : pstate) : Prop :=
  pidx st' = pidx st /\ plin st' = plin st /\ pnorm st' = pnorm st /\ plinW st' = plinW st /\ pqG st' = pqG st /\ pqH st' = pqH st /\
  pcomp st' = pcomp st /\ forall x, x <> YY -> pcom st' x = pcom st x /\ prnd st' x = prnd st x.
Lemma loop_inv ys rs n : forall t st st1 y X, smallness_loop R c n t st ys rs = Ret (st1, y, X) ->
  exists t' u, (t <= t')%nat /\ y = ys t' /\ prnd st1 YY = rs t' /\ is_com1 c (pidx st YY) (coeffs_of y) (rs t') (pcom st1 YY) /\
    ternaryE (ell := ell) R (m_point R (pmer st) "smallnessPf" (pcom st1 YY)) "Smallness" nRows nCols = Ret (X, pmer st1) /\
    leftVecMultTE (pcomp st) X = Ret u /\ vecAdd u y = Ret (pz st1) /\
    lInftyNorm u <= B_smallness c / Z.of_nat (LINYDIM c) /\ lInftyNorm (pz st1) <= B_smallness c /\ same_but st st1.
Proof.
  induction n as [|n IH]; intros t st st1 y X H; cbn [smallness_loop] in H; [discriminate|].
  cbv zeta in H. apply obind_ret_inv in H as [s [Es H]]. apply comE_inv in Es as (C & -> & K).
  apply obind_ret_inv in H as [[X' m'] [EX H]]. apply obind_ret_inv in H as [u [Eu H]]. apply obind_ret_inv in H as [z [Ez H]].
  match type of H with (if ?b then _ else _) = _ => destruct b eqn:Q end.
  - injection H as <- <- <-. apply andb_prop in Q as [Q1 Q2]. apply Z.leb_le in Q1, Q2.
    exists t, u. cbn [set_mer set_z set_com prnd pcom pmer pz pidx pcomp plin pnorm plinW pqG pqH] in *. rewrite !upd_same in *.
    split; [lia|]. split; [reflexivity|]. split; [reflexivity|]. split; [exact K|]. split; [exact EX|]. split; [exact Eu|]. split; [exact Ez|].
    split; [exact Q1|]. split; [exact Q2|]. repeat (split; [reflexivity|]).
    intros x Hx. cbn. rewrite !upd_other by assumption. split; reflexivity.
  - apply IH in H as (t' & u' & H1 & H2 & H3 & H4 & H5 & H6 & H7 & H8 & H9 & S1 & S2 & S3 & S4 & S5 & S6 & S7 & S8).
    cbn [set_mer set_z set_com prnd pcom pmer pz pidx pcomp plin pnorm plinW pqG pqH] in *.
    exists t', u'. split; [lia|]. repeat (split; [assumption|]). intros x Hx. destruct (S8 x Hx) as [-> ->].
    rewrite !upd_other by assumption. split; reflexivity.
Qed.

Lemma sml_inv (st st' : pstate) ys rs : proveSmallness R c st ys rs = Ret st' ->
  exists t X m1 u x xvec Rx,
    length (pcomp st) = nRows /\
    ternaryE (ell := ell) R (m_point R (pmer st) "smallnessPf" (pcom st' YY)) "Smallness" nRows nCols = Ret (X, m1) /\
    leftVecMultTE (pcomp st) X = Ret u /\ vecAdd u (ys t) = Ret (pz st') /\
    lInftyNorm u <= B_smallness c / Z.of_nat (LINYDIM c) /\ lInftyNorm (pz st') <= B_smallness c /\
    newElement R (processVector R m1 "masked reply" (pz st')) "SmallnessChallenge" = Ret (x, pmer st') /\
    powerVectorE x nCols = Ret xvec /\ rightVecMultTE X xvec = Ret Rx /\
    built (plin st) (plin st') (smlnsLin (ell := ell)) (innerProductEE (pz st') xvec)
      (fun w => eadd (sum_elts Rx (readV w 0)) (sum_elts xvec (readV w (pidx st YY))))
      (fun k => (0 <= k < 0 + Z.of_nat (length Rx) * Z.of_nat ell) \/
                (pidx st YY <= k < pidx st YY + Z.of_nat (length xvec) * Z.of_nat ell)) /\
    eff R c (set_z R st (pz st')) st' (fun _ => rs t) [(YY, coeffs_of (ys t))] [] [(YY, coeffs_of (ys t))] [] [] [] [smlnsLin (ell := ell)].
Proof.
  intros H. unfold proveSmallness in H. cbv zeta in H.
  destruct (Nat.eqb_spec (length (pcomp st)) nRows) as [L|L]; cbn [negb] in H; [|discriminate].
  apply obind_ret_inv in H as [[[st1 y] X] [H1 H]]. apply loop_inv in H1 as (t & u & _ & -> & A2 & A3 & A4 & A5 & A6 & A7 & A8 & S1 & S2 & S3 & S4 & S5 & S6 & S7 & S8).
  apply obind_ret_inv in H as [[x m] [Ex H]]. apply obind_ret_inv in H as [xvec [Exv H]]. apply obind_ret_inv in H as [Rx [ER H]].
  destruct st1 as [i1 co1 rd1 li1 qn1 lw1 qg1 qh1 cp1 z1 mm1]. rewrite ?set_mer_PS, ?pmer_PS, ?pz_PS in *.
  apply obind_ret_inv in H as [s2 [H2 H]]. apply block_inv in H2 as (lin & -> & Hl). rewrite set_lin_PS, wit_PS in H. injection H as <-.
  rewrite plin_PS in Hl.
  cbn [pidx pcom prnd plin pnorm plinW pqG pqH pcomp pz pmer] in *.
  match type of Hl with on_block _ _ ?f = _ => set (ff := f) in Hl end.
  assert (HB : built (plin st) lin (smlnsLin (ell := ell)) (innerProductEE z1 xvec)
      (fun w => eadd (sum_elts Rx (readV w 0)) (sum_elts xvec (readV w (pidx st YY))))
      (fun k => (0 <= k < 0 + Z.of_nat (length Rx) * Z.of_nat ell) \/
                (pidx st YY <= k < pidx st YY + Z.of_nat (length xvec) * Z.of_nat ell))).
  { rewrite <- S2. eapply built_intro; [exact Hl|]. intros b b' _ Hb Hf. exists (setEqsTo (clearBlock b) (innerProductEE z1 xvec)).
    split; [now apply cleared_clear|]. unfold ff in Hf. rewrite expandConstraints_all in Hf. cbn [obind] in Hf.
    rewrite expand_PS, expandConstraints_all in Hf. injection Hf as <-. rewrite <- S1.
    assert (W : wf_block (ell := ell) (setEqsTo (clearBlock b) (innerProductEE z1 xvec))) by (apply cleared_clear; assumption).
    pose proof (expand_all_spec _ 0 Rx W) as B1.
    pose proof (expand_all_spec _ (i1 YY) xvec (proj1 B1)) as B2.
    exact (block_adds_trans _ _ _ _ _ _ _ B1 B2). }
  exists t, X, mm1, u, x, xvec, Rx. split; [exact L|]. repeat (split; [assumption|]).
  constructor; cbn [set_z pidx pcom prnd plin pnorm plinW pqG pqH pcomp pz pmer]; try assumption; try congruence; try reflexivity.
  - rewrite S1, S4. reflexivity.
  - intros x0 v [K|[]]. injection K as <- <-. split; [|exact A2]. unfold opens1. cbn [pidx pcom prnd]. rewrite S1, A2. exact A3.
  - intros x0 v [].
  - intros x0 Hx. apply S8. intros ->. apply Hx. now left.
  - apply (built_len _ _ _ _ _ _ HB).
  - intros i Hi. apply (built_other _ _ _ _ _ _ HB). apply Hi. now left.
  - apply (built_wf _ _ _ _ _ _ HB).
Qed.

Section Post.
Hypothesis Hc : wf_cfg c.
Hypothesis Hb : byte_transcript R.
Let He : (0 < ell)%nat := proj1 Hc.
Add Ring Esml : (elt_ring (p := p) He).
Lemma lin_eq : (nCols * ell = LINYDIM c)%nat.
Proof. pose proof Hc as (H0 & _ & _ & [b Hb'] & _). rewrite Hb', Nat.div_mul by lia. reflexivity. Qed.
Lemma rows_eq : (nRows * ell = 10 * (JLDIM c + PAD_SIZE))%nat.
Proof.
  pose proof Hc as (H0 & [a Ha] & [b Hb'] & _). assert (H1 : (10 * (JLDIM c + PAD_SIZE))%nat = ((10 * (b + a)) * ell)%nat) by (change PAD_SIZE with 4%nat; lia). rewrite H1. now rewrite Nat.div_mul by lia.
Qed.
Lemma rows_pos : (0 < nRows)%nat.
Proof. pose proof rows_eq as H. destruct nRows; [|lia]. change PAD_SIZE with 4%nat in H. lia. Qed.
(** All the compressed vectors are those of the witness. *)
Lemma all_synced (st : pstate) : layout_of c (pidx st) -> (forall x, is_norm x = true -> synced c st x) ->
  forall i, (i < nRows)%nat -> nth_error (pcomp st) i = Some (readV (coef (plinW st)) 0 i).
Proof.
  intros Hl Hs i Hi. pose proof rows_eq as Hr. change PAD_SIZE with 4%nat in Hr.
  destruct (lay_good c Hc _ Hl) as (A1 & A2 & A3 & A4 & A5 & A6 & A7).
  change PAD_SIZE with 4%nat in Hi. revert Hr Hi. generalize (10 * (JLDIM c + 4) / ell)%nat. intros nr Hr Hi.
  assert (Hk : (i * ell + ell <= 10 * (JLDIM c + 4))%nat) by nia.
  assert (Hw : npos (Z.of_nat (JLDIM c)) Sk1 <= pidx st WW) by now apply A2.
  cbn [npos] in Hw. destruct (A7 (Z.of_nat (i * ell))) as [x Hx]; [lia|]. fold (clen c x) in Hx.
  assert (Nx : is_norm x = true).
  { destruct (is_norm x) eqn:N; [reflexivity|]. pose proof (A2 x N) as Q. cbn [npos] in Q. lia. }
  destruct (lay_aligned c Hc _ Hl x Nx) as [q Hq]. destruct (clen_aligned c Hc x Nx) as [n Hn].
  rewrite Hq, Hn in Hx. assert (Hqi : (q <= i < q + n)%nat) by nia.
  pose proof (Hs x Nx (i - q)%nat) as S. rewrite Hn, Hq in S. rewrite (Z.mul_comm (Z.of_nat ell)), Z.div_mul, Nat2Z.id in S by lia.
  replace (q + (i - q))%nat with i in S by lia. rewrite S by nia. f_equal.
  unfold readV. f_equal. nia.
Qed.

Variables (st st' : pstate) (ys : nat -> list E) (rs : nat -> F).
Hypothesis Hrun : proveSmallness R c st ys rs = Ret st'.
Hypothesis Hys : forall t, length (ys t) = nCols.
Notation off := (smlnsLin (ell := ell)).

Lemma sml_main : exists t f x u,
    sml_challenges c st st' f x /\
    (forall w, block_sat (ell := ell) (plin st') off w <->
       compressed_eq nCols nRows x (Xent f) (fun j => esub (nth j (pz st') e0) (readV w (pidx st YY) j)) (readV w 0)) /\
    (forall i, (i < ell)%nat -> exists con, nth_error (plin st') (off + i) = Some con /\
       forall k, In k (keys (lterms con)) <-> (0 <= k < 10 * (Z.of_nat (JLDIM c) + 4)) \/ in_var c st YY k) /\
    length (pcomp st) = nRows /\ length (pz st') = nCols /\ length u = nCols /\
    (forall j, (j < nCols)%nat -> nth j (pz st') e0 = eadd (nth j u e0) (nth j (ys t) e0)) /\
    (forall j, (j < nCols)%nat -> nth j u e0 = sumE nRows (fun i => emul (nth i (pcomp st) e0) (Xent f i j))) /\
    lInftyNorm u <= B_smallness c / Z.of_nat (LINYDIM c) /\ lInftyNorm (pz st') <= B_smallness c /\
    eff R c (set_z R st (pz st')) st' (fun _ => rs t) [(YY, coeffs_of (ys t))] [] [(YY, coeffs_of (ys t))] [] [] [] [off].
Proof.
  destruct (sml_inv _ _ _ _ Hrun) as (t & X & m1 & u & x & xvec & Rx & L & T & C1 & Z1 & U1 & U2 & N & V & W & B & Ef).
  destruct (ternaryE_inv R Hb _ _ _ _ _ _ He rows_pos T) as [f HX].
  destruct (left_inv c Hc _ _ _ _ _ _ HX L C1) as [Lc Ec].
  destruct (powerVectorE_inv _ _ _ He V) as [Lx Ex].
  destruct (right_inv c Hc _ _ _ _ _ _ HX Lx W) as [LR ER].
  unfold vecAdd in Z1. rewrite Lc, Hys, Nat.eqb_refl in Z1. cbn [negb] in Z1. injection Z1 as Z1.
  assert (Lz : length (pz st') = nCols). { rewrite <- Z1, zipWith_length; [exact Lc|]. now rewrite Lc, Hys. }
  assert (Ez : forall j, (j < nCols)%nat -> nth j (pz st') e0 = eadd (nth j u e0) (nth j (ys t) e0)).
  { intros j Hj. rewrite <- Z1. apply zipWith_nth; [now rewrite Lc, Hys|lia]. }
  exists t, f, x, u. split; [|split; [|split]].
  - exists X, m1. split; [exact T|]. split; [exact HX|exact N].
  - intros w. rewrite (built_sat _ _ _ _ _ _ B). rewrite innerProduct_sumE by congruence. rewrite Lz, LR, Lx.
    rewrite <- (plain_meaning c Hc nCols nRows x (Xent f) (fun j => esub (nth j (pz st') e0) (readV w (pidx st YY) j)) (readV w 0) (fun i => nth i Rx e0)).
    + rewrite (sumE_ext nCols (fun j => emul (epow x j) (esub _ _)) (fun j => esub (emul (nth j (pz st') e0) (nth j xvec e0)) (emul (nth j xvec e0) (readV w (pidx st YY) j)))).
      2:{ intros j Hj. rewrite Ex by assumption. ring. }
      rewrite sumE_sub by exact He.
      rewrite (sumE_ext nRows (fun i => emul (eopp _) _) (fun i => emul (eopp e1) (emul (nth i Rx e0) (readV w 0 i)))) by (intros; ring).
      rewrite sumE_mul_l. rewrite <- esub_0_iff by exact Hc.
      set (a := sumE nRows _). set (b := sumE nCols _). set (d := sumE nCols _). 
      split; intros Q; [replace (eadd (esub d b) (emul (eopp e1) a)) with (eopp (esub (eadd a b) d)) by ring; rewrite Q; ring|].
      replace (esub (eadd a b) d) with (eopp (eadd (esub d b) (emul (eopp e1) a))) by ring. rewrite Q. ring.
    + intros i Hi. rewrite ER by assumption. apply sumE_ext. intros j Hj. now rewrite Ex.
  - intros i Hi. destruct (built_keys _ _ _ _ _ _ B i Hi) as (con & K1 & K2). exists con. split; [exact K1|]. intros k. rewrite K2.
    rewrite LR, Lx. unfold in_var. change (clen c YY) with (Z.of_nat (LINYDIM c)).
    rewrite <- !Nat2Z.inj_mul, rows_eq, lin_eq. change PAD_SIZE with 4%nat. 
    replace (0 + Z.of_nat (10 * (JLDIM c + 4))) with (10 * (Z.of_nat (JLDIM c) + 4)) by lia. reflexivity.
  - split; [exact L|]. split; [exact Lz|]. split; [exact Lc|]. split; [exact Ez|]. split; [exact Ec|]. auto.
Qed.

Hypothesis Hst : wf_state c st.
Lemma sml_post : exists t,
  ((forall x, is_norm x = true -> synced c st x) -> block_sat (ell := ell) (plin st') off (coef (plinW st'))) /\
  lInftyNorm (pz st') <= B_smallness c /\
  committed1 c st' YY (rs t) /\ stores (plinW st') (pidx st' YY) (coeffs_of (ys t)) /\
  step_frame c st st' [YY] [YY] [] [off] /\ pcomp st' = pcomp st /\
  wf_state c st'.
Proof.
  destruct sml_main as (t & f & x & u & Ch & Sat & _ & L & Lz & _ & Ez & Eu & U1 & U2 & Ef). exists t.
  assert (Hst0 : wf_state c (set_z R st (pz st'))) by exact Hst.
  set (ws := [(YY, coeffs_of (ys t))]) in *.
  assert (Fw : fits (clen c) ws).
  { unfold ws, fits. repeat constructor. cbn [fst snd]. rewrite coeffs_length, Hys, lin_eq. reflexivity. }
  assert (Fq : fits (clen c) ([] : list (var * list F))) by constructor.
  assert (Nw : NoDup (map fst ws)) by (cbn; repeat constructor; cbn; intuition discriminate).
  assert (Nq : NoDup (map fst ([] : list (var * list F)))) by constructor.
  assert (Nc : NoDup (map fst ([] : list (var * list E)))) by constructor.
  assert (Nn : NoDup (map fst ([] : list (nat * (Z * var * var))))) by constructor.
  assert (Cf : cfits c ([] : list (var * list E))) by constructor.
  destruct (eff_W_spec R c Hc _ _ _ _ _ _ _ _ _ _ Ef Hst0 Fw Nw) as (_ & W & _).
  pose proof (eff_idx _ _ _ _ _ _ _ _ _ _ _ _ Ef) as Eidx. cbn [pidx set_z] in Eidx.
  assert (Iy : In (YY, coeffs_of (ys t)) ws) by now left.
  split; [|split; [|split; [|split; [|split; [|split]]]]].
  - intros Hs. apply Sat.
    apply (compressed_ext nCols nRows x (Xent f) _ _ (fun j => nth j u e0) (fun i => nth i (pcomp st) e0)).
    + intros j Hj. rewrite <- Eidx. rewrite (stores_readV _ _ _ _ (W _ _ Iy)) by (now rewrite Hys). rewrite Ez by assumption. ring.
    + intros i Hi. pose proof (all_synced st (proj1 Hst) Hs i Hi) as Q. rewrite (nth_error_nth _ _ _ Q).
      apply readV_ext. intros j Hj.
      destruct (lay_good c Hc _ (proj1 Hst)) as (A1 & A2 & A3 & A4 & A5 & A6 & A7).
      destruct (eff_W_spec R c Hc _ _ _ _ _ _ _ _ _ _ Ef Hst0 Fw Nw) as (_ & _ & Wf & _). apply Wf.
      intros x0 [<-|[]] Hk. unfold in_var in Hk. cbn [pidx set_z fst] in Hk. pose proof (A2 YY eq_refl) as Q2. cbn [npos] in Q2.
      pose proof rows_eq as Hr. change PAD_SIZE with 4%nat in Hr, Hi. revert Hr Hi Hk Q2. clear - Hj.
      generalize (10 * (JLDIM c + 4) / ell)%nat. intros nr Hr Hi Hk Q2. nia.
    + apply compressed_honest; [exact He|]. intros j Hj. now apply Eu.
  - exact U2.
  - eapply (eff_committed1 R c Hc _ _ _ ws []); try exact Ef; try eassumption; reflexivity.
  - now apply W.
  - change (step_frame c (set_z R st (pz st')) st' [YY] [YY] [] [off]).
    eapply (eff_step_frame R c Hc _ _ _ ws []); try exact Ef; try eassumption; try (intros ?; cbn; tauto).
    intros x'; destruct x'; cbn; intuition discriminate.
  - exact (eff_cp _ _ _ _ _ _ _ _ _ _ _ _ Ef).
  - eapply (eff_wfst R c Hc _ _ _ ws []); try exact Ef; try eassumption. constructor.
Qed.
End Post.
End Sml.
