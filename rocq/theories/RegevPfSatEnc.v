(** proveEncryption: meaning of the constraints, honest witness, state. *)
From Coq Require Import String.
From Coq Require Import ZArith List Bool Lia Ring.
From Verif Require Import Outcome Fp FSum GroupMod Ring ConstraintsModel ConstraintsSpec ConstraintsProofs ConstraintsOther
  PedersenModel PedersenProofs BulletproofModel FourSquaresModel FourSquaresSpec AlgebraModel AlgebraSpec AlgebraProofs AlgebraMore TernaryModel TernarySpec TernaryProofs
  RegevModel RegevSpec RegevPfModel RegevPfSpec RegevPfBase RegevPfLin RegevPfCom RegevStSpec RegevPfState RegevDecrypt RegevPfEff RegevPfPost RegevPfEnc RegevPfSat.
Import ListNotations.
Open Scope Z_scope.

Section En.
Context {p : Z} {ell : nat} {G : gmod p}.
Notation F := (Fp p).
Notation E := (elt p ell).
Variable R : rmerlin G.
Variable c : cfg ell G.
Notation pstate := (@pstate p ell G R).
Hypothesis Hc : wf_cfg c.
Hypothesis Hb : byte_transcript R.
Let He : (0 < ell)%nat := proj1 Hc.
Add Ring Eenc : (elt_ring (p := p) He).
Notation enn' := (Z.to_nat (enn (cgk c))).
Notation kay' := (Z.to_nat (kay (cgk c))).
Notation o1 := (eLin1 (ell := ell)).
Notation o2 := (eLin2 (ell := ell)).
Notation o3 := (rLin (ell := ell)).
Variables (st st' : pstate) (rnd : var -> F) (ct1 ct2 : list E) (ptxt : list F) (er noise1 noise2 : list E).
Hypothesis Hrun : proveEncryption R c st rnd ct1 ct2 ptxt er noise1 noise2 = Ret st'.
Hypothesis Hempty : block_empty (ell := ell) (plin st) o3.
Hypothesis HA : mat_dims (gkA (cgk c)) kay' kay'.
Hypothesis HB : mat_dims (gkB (cgk c)) enn' kay'.
Hypothesis Hct1 : length ct1 = kay'.
Hypothesis Hct2 : length ct2 = enn'.
Hypothesis Hn1 : length noise1 = kay'.
Hypothesis Hn2 : length noise2 = enn'.
Hypothesis Hr : length er = kay'.
Hypothesis Hp : length ptxt = enn'.
Lemma jl_pos : (0 < jl c)%nat.
Proof. pose proof (jl_eq c Hc). pose proof Hc as HH; destruct HH as (_ & _ & _ & _ & H1 & _). destruct (jl c); lia. Qed.
Notation tr f := (fun i j => Xent f j i).

Lemma enc_main :
  exists f1 f2 f3 x1 x2 x3 comp1 comp2 r h1 l1 h2 l2 hib1 hib2 rp h1p l1p h2p l2p,
    enc_challenges c st st' f1 f2 f3 x1 x2 x3 /\
    (forall w, block_sat (ell := ell) (plin st') o1 w <->
       compressed_eq (jl c) kay' x1 (tr f1) (two_dig c w (pidx st EComp1Lo) (pidx st EComp1Hi)) (enc_noise1 c st ct1 w)) /\
    (forall w, block_sat (ell := ell) (plin st') o2 w <->
       compressed_eq (jl c) enn' x2 (tr f2) (two_dig c w (pidx st EComp2Lo) (pidx st EComp2Hi)) (enc_noise2 c st ct2 w)) /\
    (forall w, block_sat (ell := ell) (plin st') o3 w <->
       compressed_eq (jl c) kay' x3 (tr f3) (readV w (pidx st RComp)) (readV w (pidx st RR))) /\
    (forall i, (i < ell)%nat -> exists con, nth_error (plin st') (o1 + i) = Some con /\
       forall k, In k (keys (lterms con)) <-> in_var c st RR k \/ in_var c st EComp1Lo k \/ in_var c st EComp1Hi k) /\
    (forall i, (i < ell)%nat -> exists con, nth_error (plin st') (o2 + i) = Some con /\
       forall k, In k (keys (lterms con)) <-> in_var c st RR k \/ in_var c st EComp2Lo k \/ in_var c st EComp2Hi k \/ in_var c st Pt2 k) /\
    (forall i, (i < ell)%nat -> exists con, nth_error (plin st') (o3 + i) = Some con /\
       forall k, In k (keys (lterms con)) <-> in_var c st RComp k \/ in_var c st RR k) /\
    (forall j, (j < jl c)%nat -> nth j comp1 e0 = sumE kay' (fun i => emul (nth i noise1 e0) (Xent f1 j i))) /\
    (forall j, (j < jl c)%nat -> nth j comp2 e0 = sumE enn' (fun i => emul (nth i noise2 e0) (Xent f2 j i))) /\
    (forall j, (j < jl c)%nat -> nth j r e0 = sumE kay' (fun i => emul (nth i er e0) (Xent f3 j i))) /\
    length r = jl c /\ length h1 = jl c /\ length l1 = jl c /\ length h2 = jl c /\ length l2 = jl c /\
    (forall j, (j < jl c)%nat -> nth j comp1 e0 = eadd (nth j l1 e0) (escale (toF p (radix c)) (nth j h1 e0))) /\
    (forall j, (j < jl c)%nat -> nth j comp2 e0 = eadd (nth j l2 e0) (escale (toF p (radix c)) (nth j h2 e0))) /\
    hiBound c (B_eNoise1 c) (kk c) = Ret hib1 /\ hiBound c (B_eNoise2 c) (nn c) = Ret hib2 /\
    pad c r (B_r c) = Ret rp /\ pad c h1 hib1 = Ret h1p /\ pad c l1 (loBound c) = Ret l1p /\
    pad c h2 hib2 = Ret h2p /\ pad c l2 (loBound c) = Ret l2p /\
    eff R c st st' rnd
      (flat (ewits r rp h1 h1p l1 l1p h2 h2p l2 l2p) ++ [(RR, coeffs_of er); (Pt2, ptxt)])
      (flat (ewits r rp h1 h1p l1 l1p h2 h2p l2 l2p)) [(Pt2, ptxt); (RR, coeffs_of er)] (flat (ewits r rp h1 h1p l1 l1p h2 h2p l2 l2p))
      (ewits r rp h1 h1p l1 l1p h2 h2p l2 l2p)
      [(2%nat, (B_r c, RComp, RPad)); (3%nat, (hib1, EComp1Hi, EPad1Hi)); (4%nat, (loBound c, EComp1Lo, EPad1Lo));
       (5%nat, (hib2, EComp2Hi, EPad2Hi)); (6%nat, (loBound c, EComp2Lo, EPad2Lo))]
      [o1; o2; o3].
Proof.
  destruct (enc_inv R c _ _ _ _ _ _ _ _ _ Hempty He Hrun) as
    (X1 & m1 & X2 & m2 & X3 & m3 & comp1 & comp2 & r & h1 & l1 & h2 & l2 & hib1 & hib2 & rp & h1p & l1p & h2p & l2p &
     x1 & m4 & xvec1 & xR1 & xR1A & x2 & m5 & xvec2 & xR2 & xR2B & x3 & xvec3 & mxR3 & lin1 & lin2 &
     T1 & T2 & T3 & C1 & C2 & C3 & D1 & D2 & U1 & U2 & P1 & P2 & P3 & P4 & P5 &
     N1 & V1 & W1 & A1 & N2 & V2 & W2 & A2 & N3 & V3 & W3 & B1 & B2 & B3 & Ef).
  destruct (ternaryE_inv R Hb _ _ _ _ _ _ He jl_pos T1) as [f1 HX1].
  destruct (ternaryE_inv R Hb _ _ _ _ _ _ He jl_pos T2) as [f2 HX2].
  destruct (ternaryE_inv R Hb _ _ _ _ _ _ He jl_pos T3) as [f3 HX3].
  destruct (right_inv c Hc _ _ _ _ _ _ HX1 Hn1 C1) as [Lc1 Ec1].
  destruct (right_inv c Hc _ _ _ _ _ _ HX2 Hn2 C2) as [Lc2 Ec2].
  destruct (right_inv c Hc _ _ _ _ _ _ HX3 Hr C3) as [Lc3 Ec3].
  destruct (digits_inv c Hc _ _ _ D1) as (Lh1 & Ll1 & Ed1). rewrite Lc1 in *.
  destruct (digits_inv c Hc _ _ _ D2) as (Lh2 & Ll2 & Ed2). rewrite Lc2 in *.
  destruct (powerVectorE_inv _ _ _ He V1) as [Lx1 Ex1].
  destruct (powerVectorE_inv _ _ _ He V2) as [Lx2 Ex2].
  destruct (powerVectorE_inv _ _ _ He V3) as [Lx3 Ex3].
  destruct (left_inv c Hc _ _ _ _ _ _ HX1 Lx1 W1) as [LR1 ER1].
  destruct (left_inv c Hc _ _ _ _ _ _ HX2 Lx2 W2) as [LR2 ER2].
  assert (Lmx3 : length (map eopp xvec3) = jl c) by now rewrite map_length.
  destruct (left_inv c Hc _ _ _ _ _ _ HX3 Lmx3 W3) as [LR3 ER3].
  destruct (vecMat_inv He _ _ _ _ _ HA A1 LR1) as [Lk1 Ek1].
  destruct (vecMat_inv He _ _ _ _ _ HB A2 LR2) as [Lk2 Ek2].
  assert (O12 : forall i, (i < ell)%nat -> nth_error (plin st') (o1 + i) = nth_error lin1 (o1 + i)).
  { intros i Hi. rewrite (built_other _ _ _ _ _ _ B3) by (unfold eLin1, rLin; lia). apply (built_other _ _ _ _ _ _ B2). unfold eLin1, eLin2; lia. }
  assert (O23 : forall i, (i < ell)%nat -> nth_error (plin st') (o2 + i) = nth_error lin2 (o2 + i)).
  { intros i Hi. apply (built_other _ _ _ _ _ _ B3). unfold eLin2, rLin; lia. }
  assert (bs_ext : forall (a b : list (lincon p)) off w, (forall i, (i < ell)%nat -> nth_error a (off + i) = nth_error b (off + i)) ->
     (block_sat (ell := ell) a off w <-> block_sat (ell := ell) b off w)).
  { intros a b off w H. unfold block_sat. split; intros K i Hi; specialize (K i Hi); specialize (H i Hi); [rewrite <- H|rewrite H]; exact K. }
  pose proof Hc as (_ & _ & _ & _ & _ & _ & Hk1 & He1 & _).
  exists f1, f2, f3, x1, x2, x3, comp1, comp2, r, h1, l1, h2, l2, hib1, hib2, rp, h1p, l1p, h2p, l2p.
  split; [|split; [|split; [|split; [|split; [|split; [|split]]]]]].
  - exists X1, m1, X2, m2, X3, m3, m4, m5. repeat (split; [assumption|]). assumption.
  - intros w. rewrite (bs_ext _ _ _ _ O12), (built_sat _ _ _ _ _ _ B1).
    rewrite innerProduct_sumE by congruence. rewrite LR1, Lk1.
    unfold enc_noise1. rewrite <- (block_meaning0 c Hc (jl c) kay' kay' x1 (tr f1) _ (fun i => nth i ct1 e0) (readV w (pidx st RR))
       (fun i => nth i xR1 e0) (fun k i => mget e0 (gkA (cgk c)) i k) (fun k => nth k xR1A e0)).
    + unfold two_dig. rewrite <- (digits_sum c Hc x1 xvec1 _ _ Lx1 Ex1).
      rewrite (sumE_ext kay' (fun i => emul (nth i ct1 e0) (nth i xR1 e0)) (fun i => emul (nth i xR1 e0) (nth i ct1 e0))) by (intros; ring).
      match goal with |- (?a = ?b) <-> (?a' = ?b) => replace a' with a by ring end. reflexivity.
    + intros i Hi. rewrite ER1 by assumption. apply sumE_ext. intros j Hj. rewrite Ex1 by assumption. ring.
    + intros k Hk. rewrite Ek1 by assumption. apply sumE_ext. intros i Hi. ring.
  - intros w. rewrite (bs_ext _ _ _ _ O23), (built_sat _ _ _ _ _ _ B2).
    rewrite innerProduct_sumE by congruence. rewrite (map_length (fun e => emul (cg c) e)), LR2, Lk2.
    unfold enc_noise2. rewrite <- (block_meaning c Hc (jl c) enn' kay' x2 (tr f2) _ (fun i => nth i ct2 e0) (readV w (pidx st RR))
       (fun i => escale (w (pidx st Pt2 + Z.of_nat i)) (cg c))
       (fun i => nth i xR2 e0) (fun k i => mget e0 (gkB (cgk c)) i k) (fun k => nth k xR2B e0)).
    + unfold two_dig. rewrite <- (digits_sum c Hc x2 xvec2 _ _ Lx2 Ex2).
      rewrite (sumE_ext enn' (fun i => emul (nth i ct2 e0) (nth i xR2 e0)) (fun i => emul (nth i xR2 e0) (nth i ct2 e0))) by (intros; ring).
      rewrite (sumE_ext enn' (fun i => escale _ _) (fun i => emul (nth i xR2 e0) (escale (w (pidx st Pt2 + Z.of_nat i)) (cg c)))).
      2:{ intros i Hi. rewrite nth_map_E by ring. rewrite emul_scale_r. f_equal. ring. }
      match goal with |- (?a = ?b) <-> (?a' = ?b) => replace a' with a by ring end. reflexivity.
    + intros i Hi. rewrite ER2 by assumption. apply sumE_ext. intros j Hj. rewrite Ex2 by assumption. ring.
    + intros k Hk. rewrite Ek2 by assumption. apply sumE_ext. intros i Hi. ring.
  - intros w. rewrite (built_sat _ _ _ _ _ _ B3). rewrite Lx3, LR3.
    rewrite <- (plain_meaning c Hc (jl c) kay' x3 (tr f3) (readV w (pidx st RComp)) (readV w (pidx st RR)) (fun i => eopp (nth i mxR3 e0))).
    + rewrite (sumE_ext (jl c) (fun i => emul (nth i xvec3 e0) _) (fun j => emul (epow x3 j) (readV w (pidx st RComp) j))).
      2:{ intros j Hj. now rewrite Ex3. }
      rewrite (sumE_ext kay' (fun i => emul (eopp _) _) (fun i => emul (nth i mxR3 e0) (readV w (pidx st RR) i))) by (intros; ring). reflexivity.
    + intros i Hi. rewrite ER3 by assumption.
      rewrite (sumE_ext (jl c) (fun j => emul (nth j (map eopp xvec3) e0) (Xent f3 j i)) (fun j => emul (eopp e1) (emul (Xent f3 j i) (epow x3 j)))).
      2:{ intros j Hj. rewrite nth_map_E by ring. rewrite Ex3 by assumption. ring. }
      rewrite sumE_mul_l. ring.
  - intros i Hi. destruct (built_keys _ _ _ _ _ _ B1 i Hi) as (con & K1 & K2). exists con. split; [now rewrite O12|]. intros k. rewrite K2.
    rewrite !map_length, Lx1, Lk1. unfold in_var.
    change (clen c RR) with (kay (cgk c) * Z.of_nat ell). rewrite !clen_comp by reflexivity.
    rewrite !Z2Nat.id by lia. rewrite <- (jl_eq c Hc), Nat2Z.inj_mul. tauto.
  - intros i Hi. destruct (built_keys _ _ _ _ _ _ B2 i Hi) as (con & K1 & K2). exists con. split; [now rewrite O23|]. intros k. rewrite K2.
    rewrite !map_length, Lx2, Lk2, LR2. unfold in_var.
    change (clen c RR) with (kay (cgk c) * Z.of_nat ell). change (clen c Pt2) with (enn (cgk c)). rewrite !clen_comp by reflexivity.
    rewrite !Z2Nat.id by lia. rewrite <- (jl_eq c Hc), Nat2Z.inj_mul. tauto.
  - intros i Hi. destruct (built_keys _ _ _ _ _ _ B3 i Hi) as (con & K1 & K2). exists con. split; [exact K1|]. intros k. rewrite K2.
    rewrite Lx3, LR3. unfold in_var.
    change (clen c RR) with (kay (cgk c) * Z.of_nat ell). rewrite !clen_comp by reflexivity.
    rewrite !Z2Nat.id by lia. rewrite <- (jl_eq c Hc), Nat2Z.inj_mul. tauto.
  - split; [intros j Hj; rewrite Ec1 by assumption; apply sumE_ext; intros; ring|].
    split; [intros j Hj; rewrite Ec2 by assumption; apply sumE_ext; intros; ring|].
    split; [intros j Hj; rewrite Ec3 by assumption; apply sumE_ext; intros; ring|].
    do 5 (split; [congruence|]). split; [exact Ed1|]. split; [exact Ed2|]. do 7 (split; [assumption|]). exact Ef.
Qed.

Section Post.
Hypothesis Hst : wf_state c st.
Hypothesis Hj : jacobi_ok (cjac c).
Hypothesis Hpp : prime_test_sound (cpp c).
Notation evars := [RComp; RPad; EComp1Hi; EPad1Hi; EComp1Lo; EPad1Lo; EComp2Hi; EPad2Hi; EComp2Lo; EPad2Lo].
Lemma enc_post :
  ((forall i, (i < kay')%nat -> nth i noise1 e0 =
      esub (nth i ct1 e0) (sumE kay' (fun k => emul (mget e0 (gkA (cgk c)) i k) (nth k er e0)))) ->
   block_sat (ell := ell) (plin st') o1 (coef (plinW st'))) /\
  ((forall i, (i < enn')%nat -> nth i noise2 e0 =
      esub (esub (nth i ct2 e0) (sumE kay' (fun k => emul (mget e0 (gkB (cgk c)) i k) (nth k er e0)))) (escale (nth i ptxt 0%F) (cg c))) ->
   block_sat (ell := ell) (plin st') o2 (coef (plinW st'))) /\
  block_sat (ell := ell) (plin st') o3 (coef (plinW st')) /\
  (exists hib1 hib2, hiBound c (B_eNoise1 c) (kk c) = Ret hib1 /\ hiBound c (B_eNoise2 c) (nn c) = Ret hib2 /\
    (norm_fresh c st 2 RComp RPad -> norm_done c st' 2 (B_r c) RComp RPad) /\
    (norm_fresh c st 3 EComp1Hi EPad1Hi -> norm_done c st' 3 hib1 EComp1Hi EPad1Hi) /\
    (norm_fresh c st 4 EComp1Lo EPad1Lo -> norm_done c st' 4 (loBound c) EComp1Lo EPad1Lo) /\
    (norm_fresh c st 5 EComp2Hi EPad2Hi -> norm_done c st' 5 hib2 EComp2Hi EPad2Hi) /\
    (norm_fresh c st 6 EComp2Lo EPad2Lo -> norm_done c st' 6 (loBound c) EComp2Lo EPad2Lo)) /\
  committed1 c st' Pt2 (rnd Pt2) /\ committed1 c st' RR (rnd RR) /\
  stores (plinW st') (pidx st' Pt2) ptxt /\ stores (plinW st') (pidx st' RR) (coeffs_of er) /\
  (forall x, In x evars -> committed2 c st' x (rnd x) /\ synced c st' x) /\
  step_frame c st st' (evars ++ [RR; Pt2]) (evars ++ [RR; Pt2]) [2; 3; 4; 5; 6]%nat [o1; o2; o3] /\
  wf_state c st'.
Proof.
  destruct enc_main as (f1 & f2 & f3 & x1 & x2 & x3 & comp1 & comp2 & r & h1 & l1 & h2 & l2 & hib1 & hib2 & rp & h1p & l1p & h2p & l2p &
    Ch & S1 & S2 & S3 & _ & _ & _ & Ec1 & Ec2 & Ec3 & Lr & Lh1 & Ll1 & Lh2 & Ll2 & Ed1 & Ed2 & U1 & U2 & P1 & P2 & P3 & P4 & P5 & Ef).
  destruct (pad_inv c _ _ _ Hj Hpp Hc P1) as [Q1 _]. destruct (pad_inv c _ _ _ Hj Hpp Hc P2) as [Q2 _].
  destruct (pad_inv c _ _ _ Hj Hpp Hc P3) as [Q3 _]. destruct (pad_inv c _ _ _ Hj Hpp Hc P4) as [Q4 _].
  destruct (pad_inv c _ _ _ Hj Hpp Hc P5) as [Q5 _].
  set (cs := ewits r rp h1 h1p l1 l1p h2 h2p l2 l2p) in *. set (qs := flat cs) in *.
  set (ws := qs ++ [(RR, coeffs_of er); (Pt2, ptxt)]) in *.
  pose proof Hc as (_ & _ & _ & _ & _ & _ & Hk1 & He1 & _).
  assert (Fq : fits (clen c) qs).
  { unfold qs, cs, ewits, flat, fits. cbn [map]. repeat constructor; cbn [fst snd]; first [now apply comp_fits|now apply pad_fits]. }
  assert (Fw : fits (clen c) ws).
  { unfold ws, fits. apply Forall_app. split; [exact Fq|]. repeat constructor; cbn [fst snd].
    - rewrite coeffs_length, Hr. change (clen c RR) with (kay (cgk c) * Z.of_nat ell). lia.
    - rewrite Hp. change (clen c Pt2) with (enn (cgk c)). lia. }
  assert (Nq : NoDup (map fst qs)) by (cbn; repeat constructor; cbn; intuition discriminate).
  assert (Nw : NoDup (map fst ws)) by (cbn; repeat constructor; cbn; intuition discriminate).
  match type of Ef with eff _ _ _ _ _ _ _ _ _ _ ?n _ => set (nms := n) in *; assert (Nn : NoDup (map fst nms)) by (cbn; repeat constructor; cbn; intuition discriminate) end.
  assert (Nc : cfits c cs).
  { unfold cfits, cs, ewits. repeat constructor; cbn [fst snd]; first [now apply cf_comp|now apply cf_pad]. }
  assert (Np : NoDup (map fst cs)) by (cbn; repeat constructor; cbn; intuition discriminate).
  destruct (eff_W_spec R c Hc _ _ _ _ _ _ _ _ _ _ Ef Hst Fw Nw) as (_ & W & _).
  pose proof (eff_idx _ _ _ _ _ _ _ _ _ _ _ _ Ef) as Eidx.
  assert (I1 : In (EComp1Hi, coeffs_of h1) ws) by (cbn; auto 20).
  assert (I2 : In (EComp1Lo, coeffs_of l1) ws) by (cbn; auto 20).
  assert (I3 : In (EComp2Hi, coeffs_of h2) ws) by (cbn; auto 20).
  assert (I4 : In (EComp2Lo, coeffs_of l2) ws) by (cbn; auto 20).
  assert (I5 : In (RR, coeffs_of er) ws) by (cbn; auto 20).
  assert (I6 : In (Pt2, ptxt) ws) by (cbn; auto 20).
  assert (I7 : In (RComp, coeffs_of r) ws) by (cbn; auto 20).
  split; [|split; [|split; [|split; [|split; [|split; [|split; [|split; [|split; [|split]]]]]]]]].
  - intros Hh. apply S1.
    apply (compressed_ext (jl c) kay' x1 (tr f1) _ _ (fun j => nth j comp1 e0) (fun i => nth i noise1 e0)).
    + intros j Hj'. unfold two_dig. rewrite <- !Eidx.
      rewrite (stores_readV _ _ _ _ (W _ _ I2)) by lia. rewrite (stores_readV _ _ _ _ (W _ _ I1)) by lia. symmetry. now apply Ed1.
    + intros i Hi. unfold enc_noise1. rewrite <- !Eidx. rewrite Hh by assumption. f_equal.
      apply sumE_ext. intros k Hk. rewrite (stores_readV _ _ _ _ (W _ _ I5)) by lia. reflexivity.
    + apply compressed_honest; [exact He|]. intros j Hj'. now apply Ec1.
  - intros Hh. apply S2.
    apply (compressed_ext (jl c) enn' x2 (tr f2) _ _ (fun j => nth j comp2 e0) (fun i => nth i noise2 e0)).
    + intros j Hj'. unfold two_dig. rewrite <- !Eidx.
      rewrite (stores_readV _ _ _ _ (W _ _ I4)) by lia. rewrite (stores_readV _ _ _ _ (W _ _ I3)) by lia. symmetry. now apply Ed2.
    + intros i Hi. unfold enc_noise2. rewrite <- !Eidx. rewrite Hh by assumption.
      assert (Hi' : (i < length ptxt)%nat) by lia. destruct (W _ _ I6 i Hi') as [_ ->]. do 2 f_equal.
      apply sumE_ext. intros k Hk. rewrite (stores_readV _ _ _ _ (W _ _ I5)) by lia. reflexivity.
    + apply compressed_honest; [exact He|]. intros j Hj'. now apply Ec2.
  - apply S3.
    apply (compressed_ext (jl c) kay' x3 (tr f3) _ _ (fun j => nth j r e0) (fun i => nth i er e0)).
    + intros j Hj'. rewrite <- !Eidx. apply stores_readV; [now apply W|lia].
    + intros i Hi. rewrite <- !Eidx. apply stores_readV; [now apply W|lia].
    + apply compressed_honest; [exact He|]. intros j Hj'. now apply Ec3.
  - exists hib1, hib2. split; [exact U1|]. split; [exact U2|].
    split; [|split; [|split; [|split]]]; intros Hf;
      (eapply (eff_norm_done R c Hc _ _ _ ws qs); try exact Ef; try eassumption; try reflexivity; cbn; auto 20).
  - eapply (eff_committed1 R c Hc _ _ _ ws qs); try exact Ef; try eassumption; try reflexivity; cbn; auto 20.
  - eapply (eff_committed1 R c Hc _ _ _ ws qs); try exact Ef; try eassumption; try reflexivity; cbn; auto 20.
  - now apply W.
  - now apply W.
  - intros y Hy.
    assert (K : exists v, In (y, v) cs).
    { change evars with (map fst cs) in Hy. apply in_map_iff in Hy as [[y' v] [<- Hy]]. exists v. exact Hy. }
    destruct K as [v K]. assert (Kf : In (y, coeffs_of v) qs) by (apply in_map_iff; exists (y, v); auto).
    assert (Kw : In (y, coeffs_of v) ws) by (apply in_or_app; now left).
    split.
    + eapply (eff_committed2 R c Hc _ _ _ ws qs); try exact Ef; try eassumption. reflexivity.
    + eapply (eff_synced R c Hc _ _ _ ws qs); try exact Ef; try eassumption.
  - eapply (eff_step_frame R c Hc _ _ _ ws qs); try exact Ef; try eassumption; try (intros ?; cbn; tauto).
    intros x'; destruct x'; cbn; intuition discriminate.
  - eapply (eff_wfst R c Hc _ _ _ ws qs); try exact Ef; try eassumption. repeat constructor.
Qed.
End Post.
End En.
