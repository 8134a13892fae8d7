(** proveKeyGen: meaning of the constraints, honest witness, state. *)
From Coq Require Import String.
From Coq Require Import ZArith List Bool Lia Ring.
From Verif Require Import Outcome Fp FSum GroupMod Ring ConstraintsModel ConstraintsSpec ConstraintsProofs ConstraintsOther
  PedersenModel PedersenProofs BulletproofModel FourSquaresModel FourSquaresSpec AlgebraModel AlgebraSpec AlgebraProofs AlgebraMore TernaryModel TernarySpec TernaryProofs
  RegevModel RegevSpec RegevPfModel RegevPfSpec RegevPfBase RegevPfLin RegevPfCom RegevStSpec RegevPfState RegevDecrypt RegevPfEff RegevPfPost RegevPfKey RegevPfSat.
Import ListNotations.
Open Scope Z_scope.

Section Ky.
Context {p : Z} {ell : nat} {G : gmod p}.
Notation F := (Fp p).
Notation E := (elt p ell).
Variable R : rmerlin G.
Variable c : cfg ell G.
Notation pstate := (@pstate p ell G R).
Hypothesis Hc : wf_cfg c.
Hypothesis Hb : byte_transcript R.
Let He : (0 < ell)%nat := proj1 Hc.
Add Ring Ekey : (elt_ring (p := p) He).
Notation enn' := (Z.to_nat (enn (cgk c))).
Notation kay' := (Z.to_nat (kay (cgk c))).
Notation o1 := (kLin (ell := ell)).
Notation o2 := (sk2Lin (ell := ell)).
Variables (st st' : pstate) (rnd : var -> F) (pkNum : nat) (skey noise : list E).
Hypothesis Hrun : proveKeyGen R c st rnd pkNum skey noise = Ret st'.
Hypothesis HA : mat_dims (gkA (cgk c)) kay' kay'.
Hypothesis HB : mat_dims (gkB (cgk c)) enn' kay'.
Hypothesis Hn : length noise = kay'.
Hypothesis Hs : length skey = kay'.
Lemma kay_pos : (0 < kay')%nat.
Proof. pose proof Hc as HH; destruct HH as (_ & _ & _ & _ & _ & _ & H & _). lia. Qed.

Lemma key_main :
  exists f1 f2 x1 x2 comp s h l hib sp hp lp,
    key_challenges c st st' f1 f2 x1 x2 /\
    (forall w, block_sat (ell := ell) (plin st') o1 w <->
       compressed_eq (jl c) kay' x1 (Xent f1) (two_dig c w (pidx st KCompLo) (pidx st KCompHi)) (key_noise c st pkNum w)) /\
    (forall w, block_sat (ell := ell) (plin st') o2 w <->
       compressed_eq (jl c) kay' x2 (Xent f2) (readV w (pidx st Sk2Comp)) (readV w (pidx st Sk2))) /\
    (forall i, (i < ell)%nat -> exists con, nth_error (plin st') (o1 + i) = Some con /\
       forall k, In k (keys (lterms con)) <-> in_var c st Sk2 k \/ in_var c st KCompLo k \/ in_var c st KCompHi k) /\
    (forall i, (i < ell)%nat -> exists con, nth_error (plin st') (o2 + i) = Some con /\
       forall k, In k (keys (lterms con)) <-> in_var c st Sk2Comp k \/ in_var c st Sk2 k) /\
    (forall j, (j < jl c)%nat -> nth j comp e0 = sumE kay' (fun i => emul (nth i noise e0) (Xent f1 i j))) /\
    (forall j, (j < jl c)%nat -> nth j s e0 = sumE kay' (fun i => emul (nth i skey e0) (Xent f2 i j))) /\
    length s = jl c /\ length h = jl c /\ length l = jl c /\
    (forall j, (j < jl c)%nat -> nth j comp e0 = eadd (nth j l e0) (escale (toF p (radix c)) (nth j h e0))) /\
    hiBound c (B_kNoise c) (kk c) = Ret hib /\
    pad c s (B_sk c) = Ret sp /\ pad c h hib = Ret hp /\ pad c l (loBound c) = Ret lp /\
    (pkNum < enn')%nat /\
    eff R c st st' rnd
      ((Sk2, coeffs_of skey) :: flat (kwits s sp h hp l lp))
      (flat (kwits s sp h hp l lp)) [(Sk2, coeffs_of skey)] (flat (kwits s sp h hp l lp))
      (kwits s sp h hp l lp)
      [(7%nat, (B_sk c, Sk2Comp, Sk2Pad)); (8%nat, (hib, KCompHi, KPadHi)); (9%nat, (loBound c, KCompLo, KPadLo))]
      [o1; o2].
Proof.
  destruct (key_inv R c _ _ _ _ _ _ He Hrun) as
    (X1 & m1 & X2 & m2 & comp & s & h & l & hib & sp & hp & lp & x1 & m3 & xvec1 & R1x & bRow & AR1x & x2 & xvec2 & R2x & lin1 &
     T1 & T2 & C1 & C2 & D1 & U1 & P1 & P2 & P3 & N1 & V1 & W1 & Br & A1 & N2 & V2 & W2 & B1 & B2 & Ef).
  destruct (ternaryE_inv R Hb _ _ _ _ _ _ He kay_pos T1) as [f1 HX1].
  destruct (ternaryE_inv R Hb _ _ _ _ _ _ He kay_pos T2) as [f2 HX2].
  destruct (left_inv c Hc _ _ _ _ _ _ HX1 Hn C1) as [Lc1 Ec1].
  destruct (left_inv c Hc _ _ _ _ _ _ HX2 Hs C2) as [Lc2 Ec2].
  destruct (digits_inv c Hc _ _ _ D1) as (Lh1 & Ll1 & Ed1). rewrite Lc1 in *.
  destruct (powerVectorE_inv _ _ _ He V1) as [Lx1 Ex1].
  destruct (powerVectorE_inv _ _ _ He V2) as [Lx2 Ex2].
  destruct (right_inv c Hc _ _ _ _ _ _ HX1 Lx1 W1) as [LR1 ER1].
  destruct (right_inv c Hc _ _ _ _ _ _ HX2 Lx2 W2) as [LR2 ER2].
  destruct (matVec_inv He _ _ _ _ _ HA A1) as [Lk1 Ek1].
  assert (Br' : nth_error (mrows (gkB (cgk c))) pkNum = Some bRow).
  { unfold oget in Br. destruct (nth_error (mrows (gkB (cgk c))) pkNum); congruence. }
  pose proof HB as (Q1 & Q2 & Q3).
  assert (Lb : length bRow = kay'). { rewrite Forall_forall in Q3. apply Q3. now apply nth_error_In in Br'. }
  assert (Eb : forall i, nth i bRow e0 = mget e0 (gkB (cgk c)) pkNum i).
  { intros i. unfold mget. now rewrite (nth_error_nth _ _ _ Br'). }
  assert (Pk : (pkNum < enn')%nat). { rewrite <- Q1. apply nth_error_Some. congruence. }
  assert (O12 : forall i, (i < ell)%nat -> nth_error (plin st') (o1 + i) = nth_error lin1 (o1 + i)).
  { intros i Hi. apply (built_other _ _ _ _ _ _ B2). unfold kLin, sk2Lin; lia. }
  assert (bs_ext : forall (a b : list (lincon p)) off w, (forall i, (i < ell)%nat -> nth_error a (off + i) = nth_error b (off + i)) ->
     (block_sat (ell := ell) a off w <-> block_sat (ell := ell) b off w)).
  { intros a b off w H. unfold block_sat. split; intros K i Hi; specialize (K i Hi); specialize (H i Hi); [rewrite <- H|rewrite H]; exact K. }
  pose proof Hc as (_ & _ & _ & _ & _ & _ & Hk1 & He1 & _).
  exists f1, f2, x1, x2, comp, s, h, l, hib, sp, hp, lp.
  split; [|split; [|split; [|split; [|split]]]].
  - exists X1, m1, X2, m2, m3. repeat (split; [assumption|]). assumption.
  - intros w. rewrite (bs_ext _ _ _ _ O12), (built_sat _ _ _ _ _ _ B1).
    rewrite innerProduct_sumE by congruence. rewrite LR1, Lk1.
    unfold key_noise. rewrite <- (block_meaning0 c Hc (jl c) kay' kay' x1 (Xent f1) _ (fun i => mget e0 (gkB (cgk c)) pkNum i) (readV w (pidx st Sk2))
       (fun i => nth i R1x e0) (fun k i => mget e0 (gkA (cgk c)) k i) (fun k => nth k AR1x e0)).
    + unfold two_dig. rewrite <- (digits_sum c Hc x1 xvec1 _ _ Lx1 Ex1).
      rewrite (sumE_ext kay' (fun i => emul (mget e0 (gkB (cgk c)) pkNum i) (nth i R1x e0)) (fun i => emul (nth i R1x e0) (nth i bRow e0))).
      2:{ intros i Hi. rewrite Eb. ring. }
      match goal with |- (?a = ?b) <-> (?a' = ?b) => replace a' with a by ring end. reflexivity.
    + intros i Hi. rewrite ER1 by assumption. apply sumE_ext. intros j Hj. rewrite Ex1 by assumption. ring.
    + intros k Hk. rewrite Ek1 by assumption. reflexivity.
  - intros w. rewrite (built_sat _ _ _ _ _ _ B2). rewrite Lx2, map_length, LR2.
    rewrite <- (plain_meaning c Hc (jl c) kay' x2 (Xent f2) (readV w (pidx st Sk2Comp)) (readV w (pidx st Sk2)) (fun i => nth i R2x e0)).
    + rewrite (sumE_ext (jl c) (fun i => emul (nth i xvec2 e0) _) (fun j => emul (epow x2 j) (readV w (pidx st Sk2Comp) j))).
      2:{ intros j Hj. now rewrite Ex2. }
      rewrite (sumE_ext kay' (fun i => emul (nth i (map eopp R2x) e0) _) (fun i => emul (eopp (nth i R2x e0)) (readV w (pidx st Sk2) i))); [reflexivity|].
      intros i Hi. rewrite nth_map_E by ring. reflexivity.
    + intros i Hi. rewrite ER2 by assumption. apply sumE_ext. intros j Hj. now rewrite Ex2.
  - intros i Hi. destruct (built_keys _ _ _ _ _ _ B1 i Hi) as (con & K1 & K2). exists con. split; [now rewrite O12|]. intros k. rewrite K2.
    rewrite !map_length, Lx1, Lk1. unfold in_var.
    change (clen c Sk2) with (kay (cgk c) * Z.of_nat ell). rewrite !clen_comp by reflexivity.
    rewrite !Z2Nat.id by lia. rewrite <- (jl_eq c Hc), Nat2Z.inj_mul. tauto.
  - intros i Hi. destruct (built_keys _ _ _ _ _ _ B2 i Hi) as (con & K1 & K2). exists con. split; [exact K1|]. intros k. rewrite K2.
    rewrite map_length, Lx2, LR2. unfold in_var.
    change (clen c Sk2) with (kay (cgk c) * Z.of_nat ell). rewrite !clen_comp by reflexivity.
    rewrite !Z2Nat.id by lia. rewrite <- (jl_eq c Hc), Nat2Z.inj_mul. tauto.
  - split; [exact Ec1|]. split; [exact Ec2|].
    do 3 (split; [congruence|]). split; [exact Ed1|]. do 4 (split; [assumption|]). split; [exact Pk|]. exact Ef.
Qed.

Section Post.
Hypothesis Hst : wf_state c st.
Hypothesis Hj : jacobi_ok (cjac c).
Hypothesis Hpp : prime_test_sound (cpp c).
Notation kvars := [Sk2Comp; Sk2Pad; KCompHi; KPadHi; KCompLo; KPadLo].
Lemma key_post :
  ((forall i, (i < kay')%nat -> nth i noise e0 =
      esub (mget e0 (gkB (cgk c)) pkNum i) (sumE kay' (fun k => emul (mget e0 (gkA (cgk c)) k i) (nth k skey e0)))) ->
   block_sat (ell := ell) (plin st') o1 (coef (plinW st'))) /\
  block_sat (ell := ell) (plin st') o2 (coef (plinW st')) /\
  (exists hib, hiBound c (B_kNoise c) (kk c) = Ret hib /\
    (norm_fresh c st 7 Sk2Comp Sk2Pad -> norm_done c st' 7 (B_sk c) Sk2Comp Sk2Pad) /\
    (norm_fresh c st 8 KCompHi KPadHi -> norm_done c st' 8 hib KCompHi KPadHi) /\
    (norm_fresh c st 9 KCompLo KPadLo -> norm_done c st' 9 (loBound c) KCompLo KPadLo)) /\
  committed1 c st' Sk2 (rnd Sk2) /\ stores (plinW st') (pidx st' Sk2) (coeffs_of skey) /\
  (forall x, In x kvars -> committed2 c st' x (rnd x) /\ synced c st' x) /\
  step_frame c st st' (Sk2 :: kvars) (Sk2 :: kvars) [7; 8; 9]%nat [o1; o2] /\
  wf_state c st'.
Proof.
  destruct key_main as (f1 & f2 & x1 & x2 & comp & s & h & l & hib & sp & hp & lp & 
    Ch & S1 & S2 & _ & _ & Ec1 & Ec2 & Ls & Lh & Ll & Ed & U1 & P1 & P2 & P3 & Pk & Ef).
  destruct (pad_inv c _ _ _ Hj Hpp Hc P1) as [Q1 _]. destruct (pad_inv c _ _ _ Hj Hpp Hc P2) as [Q2 _].
  destruct (pad_inv c _ _ _ Hj Hpp Hc P3) as [Q3 _].
  set (cs := kwits s sp h hp l lp) in *. set (qs := flat cs) in *.
  set (ws := (Sk2, coeffs_of skey) :: qs) in *.
  pose proof Hc as (_ & _ & _ & _ & _ & _ & Hk1 & He1 & _).
  assert (Fq : fits (clen c) qs).
  { unfold qs, cs, kwits, flat, fits. cbn [map]. repeat constructor; cbn [fst snd]; first [now apply comp_fits|now apply pad_fits]. }
  assert (Fw : fits (clen c) ws).
  { unfold ws, fits. constructor; [|exact Fq]. cbn [fst snd].
    rewrite coeffs_length, Hs. change (clen c Sk2) with (kay (cgk c) * Z.of_nat ell). lia. }
  assert (Nq : NoDup (map fst qs)) by (cbn; repeat constructor; cbn; intuition discriminate).
  assert (Nw : NoDup (map fst ws)) by (cbn; repeat constructor; cbn; intuition discriminate).
  match type of Ef with eff _ _ _ _ _ _ _ _ _ _ ?n _ => set (nms := n) in *; assert (Nn : NoDup (map fst nms)) by (cbn; repeat constructor; cbn; intuition discriminate) end.
  assert (Nc : cfits c cs).
  { unfold cfits, cs, kwits. repeat constructor; cbn [fst snd]; first [now apply cf_comp|now apply cf_pad]. }
  assert (Np : NoDup (map fst cs)) by (cbn; repeat constructor; cbn; intuition discriminate).
  destruct (eff_W_spec R c Hc _ _ _ _ _ _ _ _ _ _ Ef Hst Fw Nw) as (_ & W & _).
  pose proof (eff_idx _ _ _ _ _ _ _ _ _ _ _ _ Ef) as Eidx.
  assert (I1 : In (KCompHi, coeffs_of h) ws) by (cbn; auto 20).
  assert (I2 : In (KCompLo, coeffs_of l) ws) by (cbn; auto 20).
  assert (I5 : In (Sk2, coeffs_of skey) ws) by (cbn; auto 20).
  assert (I7 : In (Sk2Comp, coeffs_of s) ws) by (cbn; auto 20).
  split; [|split; [|split; [|split; [|split; [|split; [|split]]]]]].
  - intros Hh. apply S1.
    apply (compressed_ext (jl c) kay' x1 (Xent f1) _ _ (fun j => nth j comp e0) (fun i => nth i noise e0)).
    + intros j Hj'. unfold two_dig. rewrite <- !Eidx.
      rewrite (stores_readV _ _ _ _ (W _ _ I2)) by lia. rewrite (stores_readV _ _ _ _ (W _ _ I1)) by lia. symmetry. now apply Ed.
    + intros i Hi. unfold key_noise. rewrite <- !Eidx. rewrite Hh by assumption. f_equal.
      apply sumE_ext. intros k Hk. rewrite (stores_readV _ _ _ _ (W _ _ I5)) by lia. reflexivity.
    + apply compressed_honest; [exact He|]. intros j Hj'. now apply Ec1.
  - apply S2.
    apply (compressed_ext (jl c) kay' x2 (Xent f2) _ _ (fun j => nth j s e0) (fun i => nth i skey e0)).
    + intros j Hj'. rewrite <- !Eidx. apply stores_readV; [now apply W|lia].
    + intros i Hi. rewrite <- !Eidx. apply stores_readV; [now apply W|lia].
    + apply compressed_honest; [exact He|]. intros j Hj'. now apply Ec2.
  - exists hib. split; [exact U1|].
    split; [|split]; intros Hf;
      (eapply (eff_norm_done R c Hc _ _ _ ws qs); try exact Ef; try eassumption; try reflexivity; cbn; auto 20).
  - eapply (eff_committed1 R c Hc _ _ _ ws qs); try exact Ef; try eassumption; try reflexivity; cbn; auto 20.
  - now apply W.
  - intros y Hy.
    assert (K : exists v, In (y, v) cs).
    { change kvars with (map fst cs) in Hy. apply in_map_iff in Hy as [[y' v] [<- Hy]]. exists v. exact Hy. }
    destruct K as [v K]. assert (Kf : In (y, coeffs_of v) qs) by (apply in_map_iff; exists (y, v); auto).
    assert (Kw : In (y, coeffs_of v) ws) by (now right).
    split.
    + eapply (eff_committed2 R c Hc _ _ _ ws qs); try exact Ef; try eassumption. reflexivity.
    + eapply (eff_synced R c Hc _ _ _ ws qs); try exact Ef; try eassumption.
  - eapply (eff_step_frame R c Hc _ _ _ ws qs); try exact Ef; try eassumption; try (intros ?; cbn; tauto).
    intros x'; destruct x'; cbn; intuition discriminate.
  - eapply (eff_wfst R c Hc _ _ _ ws qs); try exact Ef; try eassumption. repeat constructor.
Qed.
End Post.
End Ky.
