(** The proof steps one operation at a time, with the public part of the resulting
    state as a function of the commitments. *)
From Coq Require Import String.
From Coq Require Import ZArith List Bool Lia.
From Verif Require Import Outcome Fp FSum GroupMod Ring ConstraintsModel ConstraintsSpec
  PedersenModel BulletproofModel AlgebraModel AlgebraSpec TernaryModel TernarySpec
  RegevModel RegevSpec RegevPfModel RegevPfSpec RegevStSpec RegevPfState RegevPfSml HideSpec.
Import ListNotations.
Open Scope Z_scope.

Section D.
Context {p : Z} {ell : nat} {G : gmod p}.
Notation F := (Fp p).
Notation E := (elt p ell).
Variable R : rmerlin G.
Variable c : cfg ell G.
Notation pstate := (@pstate p ell G R).

(** Statement and commitments of a state. *)
Definition view (st : pstate) := (statement st, pcom st).
(** An operation on a block of constraints, without the state. *)
Definition xp (i : var -> Z) (x : var) (v : list E) (b : list (lincon p)) := expandConstraints b (i x) v 0 None.
Definition mk (i : var -> Z) (x : var) (v : list E) (b : list (lincon p)) := makeConstraints b (i x) v 0 None.
Definition nrm (i : var -> Z) (qs : list (quadcon p)) (n : nat) (b : Z) (x xp : var) :=
  set_norm qs n (toF p (b * b)) [(i x, Z.of_nat (JLDIM c)); (i xp, Z.of_nat PAD_SIZE)].
Definition scl (v : list E) := map (escale (toF p (radix c))) v.

Tactic Notation "ob" ident(H) simple_intropattern(v) simple_intropattern(E) := apply obind_ret_inv in H as [v [E H]].
Ltac com2 H C Q := let s := fresh in let K := fresh in apply obind_ret_inv in H as [s [K H]]; apply com2_inv in K as (C & -> & Q); cbn [pidx set_com absorb set_mer] in Q.
Ltac comS H C Q := let s := fresh in let K := fresh in apply obind_ret_inv in H as [s [K H]]; apply comS_inv in K as (C & -> & Q); cbn [pidx set_com absorb set_mer] in Q.
Ltac comE H C Q := let s := fresh in let K := fresh in apply obind_ret_inv in H as [s [K H]]; apply comE_inv in K as (C & -> & Q); cbn [pidx set_com absorb set_mer] in Q.
Ltac blk H C Q := let s := fresh in let K := fresh in apply obind_ret_inv in H as [s [K H]]; apply block_inv in K as (C & -> & Q).
Ltac nm H C Q := let s := fresh in let K := fresh in apply obind_ret_inv in H as [s [K H]]; apply norm_inv in K as (C & -> & Q).
Ltac cpy H := let s := fresh in let K := fresh in let l := fresh in apply obind_ret_inv in H as [s [K H]]; apply copy_inv in K as (l & -> & _).
Ltac cpl H := let l := fresh in apply copy_inv in H as (l & -> & _).

Lemma dec_run (st st' : pstate) rnd ctMat ctVec ptxt skey noise :
  proveDecryption R c st rnd ctMat ctVec ptxt skey noise = Ret st' ->
  exists C1 C2 C3 C4 C5 X m1 comp hi lo hib padHi padLo x m2 xvec Rx ctRx lin q1 q2,
    is_com1 c (pidx st Pt1) ptxt (rnd Pt1) C1 /\
    ternaryE (ell := ell) R (m_point R (pmer st) "RegevDecPtxt" C1) "RegevDecX" (Z.to_nat (tee (cgk c))) (jl c) = Ret (X, m1) /\
    leftVecMultTE noise X = Ret comp /\ breakTwoDigits [] [] comp (radix c) = Ret (hi, lo) /\
    hiBound c (B_dNoise c) (kk c) = Ret hib /\ pad c hi hib = Ret padHi /\ pad c lo (loBound c) = Ret padLo /\
    is_com2 c (pidx st DCompHi) (coeffs_of hi) (rnd DCompHi) C2 /\ is_com2 c (pidx st DPadHi) (coeffs_of padHi) (rnd DPadHi) C3 /\
    is_com2 c (pidx st DCompLo) (coeffs_of lo) (rnd DCompLo) C4 /\ is_com2 c (pidx st DPadLo) (coeffs_of padLo) (rnd DPadLo) C5 /\
    newElement (ell := ell) R (m_point R (m_point R (m_point R (m_point R m1 "RegevDecCompHi" C2) "RegevDecPadHi" C3) "RegevDecCompLo" C4) "RegevDecPadLo" C5) "RegevDec" = Ret (x, m2) /\
    powerVectorE x (jl c) = Ret xvec /\ rightVecMultTE X xvec = Ret Rx /\ matVec ctMat Rx = Ret ctRx /\
    on_block (ell := ell) (plin st) dLin (fun b =>
      let! b := xp (pidx st) DCompLo xvec (setEqsTo (clearBlock b) (innerProductEE ctVec Rx)) in
      let! b := xp (pidx st) DCompHi (scl xvec) b in
      let! b := xp (pidx st) Sk1 ctRx b in
      mk (pidx st) Pt1 (map (fun e => emul e (cg c)) Rx) b) = Ret lin /\
    nrm (pidx st) (pnorm st) 0 hib DCompHi DPadHi = Ret q1 /\ nrm (pidx st) q1 1 (loBound c) DCompLo DPadLo = Ret q2 /\
    view st' = ((pidx st, lin, q2, pz st, m2), upd (upd (upd (upd (upd (pcom st) Pt1 C1) DCompHi C2) DPadHi C3) DCompLo C4) DPadLo C5).
Proof.
  intros H. unfold proveDecryption in H. comS H C1 Q1. cbv zeta in H.
  ob H [X m1] EX. ob H comp Ec. ob H [hi lo] Eb. ob H hib Eh. ob H padHi EpH. ob H padLo EpL.
  com2 H C2 Q2. com2 H C3 Q3. com2 H C4 Q4. com2 H C5 Q5.
  ob H [x m2] Ex. ob H xvec Exv. ob H Rx ER. ob H ctRx Et. blk H lin Hl. nm H q1 N1. nm H q2 N2. cpy H. cpy H. cpy H. cpl H.
  exists C1, C2, C3, C4, C5, X, m1, comp, hi, lo, hib, padHi, padLo, x, m2, xvec, Rx, ctRx, lin, q1, q2.
  repeat (split; [assumption|]). reflexivity.
Qed.
Lemma enc_run (st st' : pstate) rnd ct1 ct2 ptxt er noise1 noise2 :
  proveEncryption R c st rnd ct1 ct2 ptxt er noise1 noise2 = Ret st' ->
  exists C1 C2 D1 D2 D3 D4 D5 D6 D7 D8 D9 D10 X1 m1 X2 m2 X3 m3 k1 k2 kR h1 l1 h2 l2 hib1 hib2 padR pd1h pd1l pd2h pd2l
    x1 n1 xv1 y1 y1A lin1 x2 n2 xv2 y2 y2B lin2 x3 n3 xv3 y3 lin3 q1 q2 q3 q4 q5,
    (is_com1 c (pidx st Pt2) ptxt (rnd Pt2) C1 /\ is_com1 c (pidx st RR) (coeffs_of er) (rnd RR) C2 /\
    ternaryE (ell := ell) R (m_point R (m_point R (pmer st) "RegevEncPtxt" C1) "RegevEncRnd" C2) "RegevEncR1" (jl c) (Z.to_nat (kay (cgk c))) = Ret (X1, m1) /\
    ternaryE (ell := ell) R m1 "RegevEncR2" (jl c) (Z.to_nat (enn (cgk c))) = Ret (X2, m2) /\
    ternaryE (ell := ell) R m2 "RegevEncR3" (jl c) (Z.to_nat (kay (cgk c))) = Ret (X3, m3)) /\
    (rightVecMultTE X1 noise1 = Ret k1 /\ rightVecMultTE X2 noise2 = Ret k2 /\ rightVecMultTE X3 er = Ret kR /\
    breakTwoDigits [] [] k1 (radix c) = Ret (h1, l1) /\ breakTwoDigits [] [] k2 (radix c) = Ret (h2, l2) /\
    hiBound c (B_eNoise1 c) (kk c) = Ret hib1 /\ hiBound c (B_eNoise2 c) (nn c) = Ret hib2 /\
    pad c kR (B_r c) = Ret padR /\ pad c h1 hib1 = Ret pd1h /\ pad c l1 (loBound c) = Ret pd1l /\
    pad c h2 hib2 = Ret pd2h /\ pad c l2 (loBound c) = Ret pd2l) /\
    (is_com2 c (pidx st RComp) (coeffs_of kR) (rnd RComp) D1 /\ is_com2 c (pidx st RPad) (coeffs_of padR) (rnd RPad) D2 /\
    is_com2 c (pidx st EComp1Hi) (coeffs_of h1) (rnd EComp1Hi) D3 /\ is_com2 c (pidx st EPad1Hi) (coeffs_of pd1h) (rnd EPad1Hi) D4 /\
    is_com2 c (pidx st EComp1Lo) (coeffs_of l1) (rnd EComp1Lo) D5 /\ is_com2 c (pidx st EPad1Lo) (coeffs_of pd1l) (rnd EPad1Lo) D6 /\
    is_com2 c (pidx st EComp2Hi) (coeffs_of h2) (rnd EComp2Hi) D7 /\ is_com2 c (pidx st EPad2Hi) (coeffs_of pd2h) (rnd EPad2Hi) D8 /\
    is_com2 c (pidx st EComp2Lo) (coeffs_of l2) (rnd EComp2Lo) D9 /\ is_com2 c (pidx st EPad2Lo) (coeffs_of pd2l) (rnd EPad2Lo) D10) /\
    (newElement (ell := ell) R (m_point R (m_point R (m_point R (m_point R (m_point R (m_point R (m_point R (m_point R (m_point R (m_point R m3
      "RegevEncR" D1) "" D2) "RegevEnc1Hi" D3) "" D4) "RegevEnc1Lo" D5) "" D6) "RegevEnc2Hi" D7) "" D8) "RegevEnc2Lo" D9) "" D10) "RegevEncChallenge1" = Ret (x1, n1) /\
    powerVectorE x1 (jl c) = Ret xv1 /\ leftVecMultTE xv1 X1 = Ret y1 /\ vecMat y1 (gkA (cgk c)) = Ret y1A /\
    on_block (ell := ell) (plin st) (eLin1 (ell := ell)) (fun b =>
      let! b := xp (pidx st) RR y1A (setEqsTo (clearBlock b) (innerProductEE y1 ct1)) in
      let! b := xp (pidx st) EComp1Lo xv1 b in
      xp (pidx st) EComp1Hi (scl xv1) b) = Ret lin1 /\
    newElement (ell := ell) R n1 "RegevEncChallenge2" = Ret (x2, n2) /\
    powerVectorE x2 (jl c) = Ret xv2 /\ leftVecMultTE xv2 X2 = Ret y2 /\ vecMat y2 (gkB (cgk c)) = Ret y2B /\
    on_block (ell := ell) lin1 (eLin2 (ell := ell)) (fun b =>
      let! b := xp (pidx st) RR y2B (setEqsTo (clearBlock b) (innerProductEE y2 ct2)) in
      let! b := xp (pidx st) EComp2Lo xv2 b in
      let! b := xp (pidx st) EComp2Hi (scl xv2) b in
      mk (pidx st) Pt2 (map (fun e => emul (cg c) e) y2) b) = Ret lin2 /\
    newElement (ell := ell) R n2 "RegevEncChallenge3" = Ret (x3, n3) /\
    powerVectorE x3 (jl c) = Ret xv3 /\ leftVecMultTE (map eopp xv3) X3 = Ret y3 /\
    on_block (ell := ell) lin2 (rLin (ell := ell)) (fun b =>
      let! b := xp (pidx st) RComp xv3 (setEqsTo (ell := ell) b e0) in
      xp (pidx st) RR y3 b) = Ret lin3) /\
    (nrm (pidx st) (pnorm st) 2 (B_r c) RComp RPad = Ret q1 /\ nrm (pidx st) q1 3 hib1 EComp1Hi EPad1Hi = Ret q2 /\
    nrm (pidx st) q2 4 (loBound c) EComp1Lo EPad1Lo = Ret q3 /\ nrm (pidx st) q3 5 hib2 EComp2Hi EPad2Hi = Ret q4 /\
    nrm (pidx st) q4 6 (loBound c) EComp2Lo EPad2Lo = Ret q5) /\
    view st' = ((pidx st, lin3, q5, pz st, n3),
      upd (upd (upd (upd (upd (upd (upd (upd (upd (upd (upd (upd (pcom st) Pt2 C1) RR C2) RComp D1) RPad D2) EComp1Hi D3) EPad1Hi D4) EComp1Lo D5) EPad1Lo D6)
        EComp2Hi D7) EPad2Hi D8) EComp2Lo D9) EPad2Lo D10).
Proof.
  intros H. unfold proveEncryption in H. comS H C1 Q1. comE H C2 Q2. cbv zeta in H.
  ob H [X1 m1] EX1. ob H [X2 m2] EX2. ob H [X3 m3] EX3. ob H k1 Ek1. ob H k2 Ek2. ob H kR EkR. ob H [h1 l1] Eb1. ob H [h2 l2] Eb2.
  ob H hib1 Eh1. ob H hib2 Eh2. ob H padR EpR. ob H pd1h Ep1. ob H pd1l Ep2. ob H pd2h Ep3. ob H pd2l Ep4.
  com2 H D1 P1. com2 H D2 P2. com2 H D3 P3. com2 H D4 P4. com2 H D5 P5. com2 H D6 P6. com2 H D7 P7. com2 H D8 P8. com2 H D9 P9. com2 H D10 P10.
  ob H [x1 n1] Ex1. ob H xv1 Exv1. ob H y1 Ey1. ob H y1A EyA. blk H lin1 L1.
  ob H [x2 n2] Ex2. ob H xv2 Exv2. ob H y2 Ey2. ob H y2B EyB. blk H lin2 L2.
  ob H [x3 n3] Ex3. ob H xv3 Exv3. ob H y3 Ey3. blk H lin3 L3.
  nm H q1 N1. nm H q2 N2. nm H q3 N3. nm H q4 N4. nm H q5 N5. do 9 cpy H. cpl H.
  exists C1, C2, D1, D2, D3, D4, D5, D6, D7, D8, D9, D10, X1, m1, X2, m2, X3, m3, k1, k2, kR, h1, l1, h2, l2, hib1, hib2, padR, pd1h, pd1l, pd2h, pd2l.
  exists x1, n1, xv1, y1, y1A, lin1, x2, n2, xv2, y2, y2B, lin2, x3, n3, xv3, y3, lin3, q1, q2, q3, q4, q5.
  split; [repeat (split; [assumption|]); assumption|]. split; [repeat (split; [assumption|]); assumption|].
  split; [repeat (split; [assumption|]); assumption|]. split; [repeat (split; [assumption|]); assumption|].
  split; [repeat (split; [assumption|]); assumption|]. reflexivity.
Qed.

Lemma key_run (st st' : pstate) rnd pkNum skey noise :
  proveKeyGen R c st rnd pkNum skey noise = Ret st' ->
  exists C D1 D2 D3 D4 D5 D6 X1 m1 X2 m2 ek sk hi lo hib skPad pH pL x1 n1 xv1 R1x bRow AR lin1 x2 n2 xv2 R2x lin2 q1 q2 q3,
    (is_com1 c (pidx st Sk2) (coeffs_of skey) (rnd Sk2) C /\
    ternaryE (ell := ell) R (m_point R (pmer st) "RegevSK" C) "RegevKeyGenR1" (Z.to_nat (kay (cgk c))) (jl c) = Ret (X1, m1) /\
    ternaryE (ell := ell) R m1 "RegevKeyGenR2" (Z.to_nat (kay (cgk c))) (jl c) = Ret (X2, m2)) /\
    (leftVecMultTE noise X1 = Ret ek /\ leftVecMultTE skey X2 = Ret sk /\ breakTwoDigits [] [] ek (radix c) = Ret (hi, lo) /\
    hiBound c (B_kNoise c) (kk c) = Ret hib /\ pad c sk (B_sk c) = Ret skPad /\ pad c hi hib = Ret pH /\ pad c lo (loBound c) = Ret pL) /\
    (is_com2 c (pidx st Sk2Comp) (coeffs_of sk) (rnd Sk2Comp) D1 /\ is_com2 c (pidx st Sk2Pad) (coeffs_of skPad) (rnd Sk2Pad) D2 /\
    is_com2 c (pidx st KCompHi) (coeffs_of hi) (rnd KCompHi) D3 /\ is_com2 c (pidx st KPadHi) (coeffs_of pH) (rnd KPadHi) D4 /\
    is_com2 c (pidx st KCompLo) (coeffs_of lo) (rnd KCompLo) D5 /\ is_com2 c (pidx st KPadLo) (coeffs_of pL) (rnd KPadLo) D6) /\
    (newElement (ell := ell) R (m_point R (m_point R (m_point R (m_point R (m_point R (m_point R m2
      "RegevKeyGenSK" D1) "" D2) "RegevKGHi" D3) "" D4) "RegevKGHi" D5) "" D6) "RegevKGChallenge1" = Ret (x1, n1) /\
    powerVectorE x1 (jl c) = Ret xv1 /\ rightVecMultTE X1 xv1 = Ret R1x /\ oget (mrows (gkB (cgk c))) pkNum = Ret bRow /\
    matVec (gkA (cgk c)) R1x = Ret AR /\
    on_block (ell := ell) (plin st) (kLin (ell := ell)) (fun b =>
      let! b := xp (pidx st) Sk2 AR (setEqsTo (clearBlock b) (innerProductEE R1x bRow)) in
      let! b := xp (pidx st) KCompLo xv1 b in
      xp (pidx st) KCompHi (scl xv1) b) = Ret lin1 /\
    newElement (ell := ell) R n1 "RegevKGChallenge2" = Ret (x2, n2) /\
    powerVectorE x2 (jl c) = Ret xv2 /\ rightVecMultTE X2 xv2 = Ret R2x /\
    on_block (ell := ell) lin1 (sk2Lin (ell := ell)) (fun b =>
      let! b := xp (pidx st) Sk2Comp xv2 (setEqsTo (ell := ell) (clearBlock b) e0) in
      xp (pidx st) Sk2 (map eopp R2x) b) = Ret lin2) /\
    (nrm (pidx st) (pnorm st) 7 (B_sk c) Sk2Comp Sk2Pad = Ret q1 /\ nrm (pidx st) q1 8 hib KCompHi KPadHi = Ret q2 /\
    nrm (pidx st) q2 9 (loBound c) KCompLo KPadLo = Ret q3) /\
    view st' = ((pidx st, lin2, q3, pz st, n2),
      upd (upd (upd (upd (upd (upd (upd (pcom st) Sk2 C) Sk2Comp D1) Sk2Pad D2) KCompHi D3) KPadHi D4) KCompLo D5) KPadLo D6).
Proof.
  intros H. unfold proveKeyGen in H. comE H C Q. cbv zeta in H.
  ob H [X1 m1] EX1. ob H [X2 m2] EX2. ob H ek Eek. ob H sk Esk. ob H [hi lo] Eb. ob H hib Eh. ob H skPad EpS. ob H pH EpH. ob H pL EpL.
  com2 H D1 P1. com2 H D2 P2. com2 H D3 P3. com2 H D4 P4. com2 H D5 P5. com2 H D6 P6.
  ob H [x1 n1] Ex1. ob H xv1 Exv1. ob H R1x ER1. ob H bRow Ebr. ob H AR EA. blk H lin1 L1.
  ob H [x2 n2] Ex2. ob H xv2 Exv2. ob H R2x ER2. blk H lin2 L2.
  nm H q1 N1. nm H q2 N2. nm H q3 N3. do 5 cpy H. cpl H.
  exists C, D1, D2, D3, D4, D5, D6, X1, m1, X2, m2, ek, sk, hi, lo, hib, skPad, pH, pL.
  exists x1, n1, xv1, R1x, bRow, AR, lin1, x2, n2, xv2, R2x, lin2, q1, q2, q3.
  split; [repeat (split; [assumption|]); assumption|]. split; [repeat (split; [assumption|]); assumption|].
  split; [repeat (split; [assumption|]); assumption|]. split; [repeat (split; [assumption|]); assumption|].
  split; [repeat (split; [assumption|]); assumption|]. reflexivity.
Qed.

Lemma share_run (st st' : pstate) lag pt1 pt2 : proveReShare R c st lag pt1 pt2 = Ret st' ->
  exists cs, omapM (reshare_con R c st lag) (cHm c) = Ret cs /\
    view st' = ((pidx st, firstn (reShrLin (ell := ell)) (plin st) ++ cs ++ skipn (reShrLin (ell := ell) + length (cHm c)) (plin st), pnorm st, pz st, pmer st), pcom st).
Proof.
  unfold proveReShare. intros H. destruct (_ || _); [discriminate|]. destruct (negb _); [discriminate|].
  ob H cs Ec. injection H as <-. exists cs. split; [exact Ec|reflexivity].
Qed.
Lemma sml_run (st st' : pstate) ys rs : proveSmallness R c st ys rs = Ret st' ->
  exists t X m1 u x m2 xvec Rx lin,
    length (pcomp st) = (10 * (JLDIM c + PAD_SIZE) / ell)%nat /\
    is_com1 c (pidx st YY) (coeffs_of (ys t)) (rs t) (pcom st' YY) /\ prnd st' YY = rs t /\
    ternaryE (ell := ell) R (m_point R (pmer st) "smallnessPf" (pcom st' YY)) "Smallness" (10 * (JLDIM c + PAD_SIZE) / ell) (LINYDIM c / ell) = Ret (X, m1) /\
    leftVecMultTE (pcomp st) X = Ret u /\ vecAdd u (ys t) = Ret (pz st') /\
    lInftyNorm u <= B_smallness c / Z.of_nat (LINYDIM c) /\ lInftyNorm (pz st') <= B_smallness c /\
    newElement R (processVector R m1 "masked reply" (pz st')) "SmallnessChallenge" = Ret (x, m2) /\
    powerVectorE x (LINYDIM c / ell) = Ret xvec /\ rightVecMultTE X xvec = Ret Rx /\
    on_block (ell := ell) (plin st) (smlnsLin (ell := ell)) (fun b =>
      let! b := expandConstraints (setEqsTo (clearBlock b) (innerProductEE (pz st') xvec)) 0 Rx 0 None in
      xp (pidx st) YY xvec b) = Ret lin /\
    statement st' = (pidx st, lin, pnorm st, pz st', m2) /\ (forall x, x <> YY -> pcom st' x = pcom st x).
Proof.
  intros H. unfold proveSmallness in H. cbv zeta in H.
  destruct (Nat.eqb_spec (length (pcomp st)) (10 * (JLDIM c + PAD_SIZE) / ell)) as [L|L]; cbn [negb] in H; [|discriminate].
  ob H [[st1 y] X] H1. apply loop_inv in H1 as (t & u & _ & -> & A2 & A3 & A4 & A5 & A6 & A7 & A8 & S1 & S2 & S3 & S4 & S5 & S6 & S7 & S8).
  ob H [x m] Ex. ob H xvec Exv. ob H Rx ER. blk H lin Hl. injection H as <-.
  exists t, X, (pmer st1), u, x, m, xvec, Rx, lin. cbn [wit set_wit set_lin set_mer pidx pcom prnd plin pnorm pz pmer pcomp] in *.
  split; [exact L|]. split; [exact A3|]. split; [exact A2|]. repeat (split; [assumption|]).
  split; [rewrite <- S1, <- S2; exact Hl|]. split; [unfold statement; cbn; rewrite S1, S3; reflexivity|]. intros x0 Hx. now apply S8.
Qed.
End D.
