(** proveDecryption: meaning of the constraints, honest witness, state. *)
From Coq Require Import String.
From Coq Require Import ZArith List Bool Lia Ring.
From Verif Require Import Outcome Fp FSum GroupMod Ring ConstraintsModel ConstraintsSpec ConstraintsProofs ConstraintsOther
  PedersenModel PedersenProofs BulletproofModel FourSquaresModel FourSquaresSpec AlgebraModel AlgebraSpec AlgebraProofs AlgebraMore TernaryModel TernarySpec TernaryProofs
  RegevModel RegevSpec RegevPfModel RegevPfSpec RegevPfBase RegevPfLin RegevPfCom RegevStSpec RegevPfState RegevDecrypt RegevPfEff RegevPfPost RegevPfDec RegevPfSat.
Import ListNotations.
Open Scope Z_scope.

Section D.
Context {p : Z} {ell : nat} {G : gmod p}.
Notation F := (Fp p).
Notation E := (elt p ell).
Variable R : rmerlin G.
Variable c : cfg ell G.
Notation pstate := (@pstate p ell G R).
Hypothesis Hc : wf_cfg c.
Hypothesis Hb : byte_transcript R.
Let He : (0 < ell)%nat := proj1 Hc.
Add Ring Edec : (elt_ring (p := p) He).
Notation tee' := (Z.to_nat (tee (cgk c))).
Notation kay' := (Z.to_nat (kay (cgk c))).
Variables (st st' : pstate) (rnd : var -> F) (ctMat : mat E) (ctVec : list E) (ptxt : list F) (skey noise : list E).
Hypothesis Hrun : proveDecryption R c st rnd ctMat ctVec ptxt skey noise = Ret st'.
Hypothesis Hmat : mat_dims ctMat kay' tee'.
Hypothesis Hvec : length ctVec = tee'.
Lemma tee_pos : (0 < tee')%nat.
Proof. pose proof Hc as HH; destruct HH as (_ & _ & _ & _ & _ & _ & _ & _ & H & _). lia. Qed.

Lemma dec_main : length noise = tee' -> length skey = kay' -> length ptxt = tee' ->
  exists f x comp hi lo hib padHi padLo,
    dec_challenges c st st' f x /\
    (forall w, block_sat (ell := ell) (plin st') dLin w <->
       compressed_eq (jl c) tee' x (Xent f) (two_dig c w (pidx st DCompLo) (pidx st DCompHi)) (dec_noise c st ctMat ctVec w)) /\
    (forall i, (i < ell)%nat -> exists con, nth_error (plin st') (dLin + i) = Some con /\
       forall k, In k (keys (lterms con)) <-> in_var c st DCompLo k \/ in_var c st DCompHi k \/ in_var c st Sk1 k \/ in_var c st Pt1 k) /\
    length comp = jl c /\ (forall j, (j < jl c)%nat -> nth j comp e0 = sumE tee' (fun i => emul (nth i noise e0) (Xent f i j))) /\
    length hi = jl c /\ length lo = jl c /\
    (forall j, (j < jl c)%nat -> nth j comp e0 = eadd (nth j lo e0) (escale (toF p (radix c)) (nth j hi e0))) /\
    hiBound c (B_dNoise c) (kk c) = Ret hib /\ pad c hi hib = Ret padHi /\ pad c lo (loBound c) = Ret padLo /\
    eff R c st st' rnd
      (flat (dwits hi padHi lo padLo) ++ [(Sk1, coeffs_of skey); (Pt1, ptxt)])
      (flat (dwits hi padHi lo padLo)) [(Pt1, ptxt)] (flat (dwits hi padHi lo padLo)) (dwits hi padHi lo padLo)
      [(0%nat, (hib, DCompHi, DPadHi)); (1%nat, (loBound c, DCompLo, DPadLo))] [dLin].
Proof.
  intros Hn Hs Hp. destruct (dec_inv R c _ _ _ _ _ _ _ _ Hrun) as
    (X & m1 & comp & hi & lo & hib & padHi & padLo & x & xvec & Rx & ctRx & E1 & E2 & E3 & E4 & E5 & E6 & E7 & E8 & E9 & E10 & B & Ef).
  destruct (ternaryE_inv R Hb _ _ _ _ _ _ He tee_pos E1) as [f HX].
  destruct (left_inv c Hc _ _ _ _ _ _ HX Hn E2) as [Lc Ec].
  destruct (digits_inv c Hc _ _ _ E3) as (Lh & Ll & Ed). rewrite Lc in *.
  destruct (powerVectorE_inv _ _ _ He E8) as [Lx Ex].
  destruct (right_inv c Hc _ _ _ _ _ _ HX Lx E9) as [LR ER].
  destruct (matVec_inv He _ _ _ _ _ Hmat E10) as [Lk Ek].
  exists f, x, comp, hi, lo, hib, padHi, padLo. split; [|split; [|split]].
  - exists X, m1. auto.
  - intros w. rewrite (built_sat _ _ _ _ _ _ B). rewrite (digits_sum c Hc x xvec _ _ Lx Ex).
    rewrite innerProduct_sumE by congruence. rewrite map_length, Lk, LR, Hvec.
    unfold dec_noise. rewrite <- (block_meaning c Hc (jl c) tee' kay' x (Xent f) _ (fun i => nth i ctVec e0) (readV w (pidx st Sk1))
       (fun i => escale (w (pidx st Pt1 + Z.of_nat i)) (cg c)) (fun i => nth i Rx e0) (fun k i => mget e0 ctMat k i) (fun k => nth k ctRx e0)).
    + unfold two_dig. rewrite (sumE_ext tee' (fun i => escale _ _) (fun i => emul (nth i Rx e0) (escale (w (pidx st Pt1 + Z.of_nat i)) (cg c)))); [reflexivity|].
      intros i Hi. rewrite nth_map_E by (ring). rewrite emul_scale_r. reflexivity.
    + intros i Hi. rewrite ER by assumption. apply sumE_ext. intros j Hj. now rewrite Ex.
    + intros k Hk. now apply Ek.
  - intros i Hi. destruct (built_keys _ _ _ _ _ _ B i Hi) as (con & C1 & C2). exists con. split; [exact C1|]. intros k. rewrite C2.
    rewrite !map_length, Lx, Lk, LR. unfold in_var. rewrite !clen_comp by reflexivity.
    change (clen c Sk1) with (kay (cgk c) * Z.of_nat ell). change (clen c Pt1) with (tee (cgk c)).
    pose proof Hc as HH; destruct HH as (_ & _ & _ & _ & _ & _ & Hk1 & _ & Ht1 & _). rewrite !Z2Nat.id by lia. rewrite <- (jl_eq c Hc), Nat2Z.inj_mul. tauto.
  - split; [exact Lc|]. split; [exact Ec|]. split; [exact Lh|]. split; [exact Ll|]. split; [exact Ed|]. auto.
Qed.

Section Post.
Hypothesis Hst : wf_state c st.
Hypothesis Hj : jacobi_ok (cjac c).
Hypothesis Hpp : prime_test_sound (cpp c).
Hypothesis Hn : length noise = tee'.
Hypothesis Hs : length skey = kay'.
Hypothesis Hp : length ptxt = tee'.
Lemma dec_post :
  ((forall i, (i < tee')%nat -> nth i noise e0 =
      esub (esub (nth i ctVec e0) (sumE kay' (fun k => emul (mget e0 ctMat k i) (nth k skey e0)))) (escale (nth i ptxt 0%F) (cg c))) ->
   block_sat (ell := ell) (plin st') dLin (coef (plinW st'))) /\
  (exists hib, hiBound c (B_dNoise c) (kk c) = Ret hib /\
    (norm_fresh c st 0 DCompHi DPadHi -> norm_done c st' 0 hib DCompHi DPadHi) /\
    (norm_fresh c st 1 DCompLo DPadLo -> norm_done c st' 1 (loBound c) DCompLo DPadLo)) /\
  committed1 c st' Pt1 (rnd Pt1) /\ stores (plinW st') (pidx st' Pt1) ptxt /\ stores (plinW st') (pidx st' Sk1) (coeffs_of skey) /\
  (forall x, In x [DCompHi; DPadHi; DCompLo; DPadLo] -> committed2 c st' x (rnd x) /\ synced c st' x) /\
  step_frame c st st' [DCompHi; DPadHi; DCompLo; DPadLo; Sk1; Pt1] [DCompHi; DPadHi; DCompLo; DPadLo; Pt1] [0%nat; 1%nat] [dLin] /\
  wf_state c st'.
Proof.
  destruct (dec_main Hn Hs Hp) as (f & x & comp & hi & lo & hib & padHi & padLo & Ch & Sat & _ & Lc & Ec & Lh & Ll & Ed & E4 & E5 & E6 & Ef).
  destruct (pad_inv c hi hib padHi Hj Hpp Hc E5) as [L1 _]. destruct (pad_inv c lo _ padLo Hj Hpp Hc E6) as [L2 _].
  set (ws := flat (dwits hi padHi lo padLo) ++ [(Sk1, coeffs_of skey); (Pt1, ptxt)]) in *.
  set (qs := flat (dwits hi padHi lo padLo)) in *.
  pose proof Hc as (_ & _ & _ & _ & _ & _ & Hk1 & _ & Ht1 & _).
  assert (Fq : fits (clen c) qs).
  { unfold qs, dwits, flat, fits. cbn [map]. repeat constructor; cbn [fst snd].
    - now apply comp_fits. - now apply pad_fits. - now apply comp_fits. - now apply pad_fits. }
  assert (Fw : fits (clen c) ws).
  { unfold ws, fits. apply Forall_app. split; [exact Fq|]. repeat constructor; cbn [fst snd].
    - rewrite coeffs_length, Hs. change (clen c Sk1) with (kay (cgk c) * Z.of_nat ell). lia.
    - rewrite Hp. change (clen c Pt1) with (tee (cgk c)). lia. }
  assert (Nq : NoDup (map fst qs)) by (cbn; repeat constructor; cbn; intuition discriminate).
  assert (Nw : NoDup (map fst ws)) by (cbn; repeat constructor; cbn; intuition discriminate).
  assert (Nn : NoDup (map fst [(0%nat, (hib, DCompHi, DPadHi)); (1%nat, (loBound c, DCompLo, DPadLo))])) by (cbn; repeat constructor; cbn; intuition discriminate).
  assert (Nc : cfits c (dwits hi padHi lo padLo)).
  { unfold cfits, dwits. repeat constructor; cbn [fst snd].
    all: first [now apply cf_comp|now apply cf_pad]. }
  assert (Np : NoDup (map fst (dwits hi padHi lo padLo))) by (cbn; repeat constructor; cbn; intuition discriminate).
  destruct (eff_W_spec R c Hc _ _ _ _ _ _ _ _ _ _ Ef Hst Fw Nw) as (_ & W & _).
  assert (I1 : In (DCompHi, coeffs_of hi) ws) by (cbn; auto 10).
  assert (I2 : In (DPadHi, coeffs_of padHi) ws) by (cbn; auto 10).
  assert (I3 : In (DCompLo, coeffs_of lo) ws) by (cbn; auto 10).
  assert (I4 : In (DPadLo, coeffs_of padLo) ws) by (cbn; auto 10).
  assert (I5 : In (Sk1, coeffs_of skey) ws) by (cbn; auto 10).
  assert (I6 : In (Pt1, ptxt) ws) by (cbn; auto 10).
  split; [|split; [|split; [|split; [|split; [|split; [|split]]]]]].
  - intros Hh. apply Sat.
    apply (compressed_ext (jl c) tee' x (Xent f) _ _ (fun j => nth j comp e0) (fun i => nth i noise e0)).
    + intros j Hj'. unfold two_dig. rewrite <- !(eff_idx _ _ _ _ _ _ _ _ _ _ _ _ Ef).
      rewrite (stores_readV _ _ _ _ (W _ _ I3)) by lia. rewrite (stores_readV _ _ _ _ (W _ _ I1)) by lia. symmetry. now apply Ed.
    + intros i Hi. unfold dec_noise. rewrite <- !(eff_idx _ _ _ _ _ _ _ _ _ _ _ _ Ef). rewrite Hh by assumption.
      assert (Hi' : (i < length ptxt)%nat) by lia. destruct (W _ _ I6 i Hi') as [_ ->]. do 2 f_equal.
      apply sumE_ext. intros k Hk. rewrite (stores_readV _ _ _ _ (W _ _ I5)) by lia. reflexivity.
    + apply compressed_honest; [exact He|]. intros j Hj'. now apply Ec.
  - exists hib. split; [exact E4|]. split; intros Hf.
    + eapply (eff_norm_done R c Hc _ _ _ ws qs); try exact Ef; try eassumption; try reflexivity; cbn; auto 10.
    + eapply (eff_norm_done R c Hc _ _ _ ws qs); try exact Ef; try eassumption; try reflexivity; cbn; auto 10.
  - eapply (eff_committed1 R c Hc _ _ _ ws qs); try exact Ef; try eassumption; try reflexivity; cbn; auto 10.
  - now apply W.
  - now apply W.
  - intros y Hy. cbn in Hy.
    assert (K : exists v, In (y, v) (dwits hi padHi lo padLo)).
    { unfold dwits. destruct Hy as [<-|[<-|[<-|[<-|[]]]]]; eexists; cbn; eauto 10. }
    destruct K as [v K]. assert (Kf : In (y, coeffs_of v) qs) by (apply in_map_iff; exists (y, v); auto).
    assert (Kw : In (y, coeffs_of v) ws) by (apply in_or_app; now left).
    split.
    + eapply (eff_committed2 R c Hc _ _ _ ws qs); try exact Ef; try eassumption. reflexivity.
    + eapply (eff_synced R c Hc _ _ _ ws qs); try exact Ef; try eassumption.
  - eapply (eff_step_frame R c Hc _ _ _ ws qs); try exact Ef; try eassumption; try (intros ?; cbn; tauto).
    intros x'; destruct x'; cbn; intuition discriminate.
  - eapply (eff_wfst R c Hc _ _ _ ws qs); try exact Ef; try eassumption. repeat constructor.
Qed.
End Post.
End D.
