(** proveEncryption. *)
From Coq Require Import String.
From Coq Require Import ZArith List Bool Lia Ring.
From Verif Require Import Outcome Fp FSum GroupMod Ring ConstraintsModel ConstraintsSpec ConstraintsProofs ConstraintsOther
  PedersenModel PedersenProofs BulletproofModel AlgebraModel AlgebraSpec AlgebraProofs AlgebraMore TernaryModel TernarySpec TernaryProofs
  RegevModel RegevSpec RegevPfModel RegevPfSpec RegevPfBase RegevPfLin RegevPfCom RegevStSpec RegevPfState RegevPfEff.
Import ListNotations.
Open Scope Z_scope.

Section Enc.
Context {p : Z} {ell : nat} {G : gmod p}.
Notation F := (Fp p).
Notation E := (elt p ell).
Variable R : rmerlin G.
Variable c : cfg ell G.
Notation pstate := (@pstate p ell G R).

Definition ewits (r rp h1 h1p l1 l1p h2 h2p l2 l2p : list E) : list (var * list E) :=
  [(RComp, r); (RPad, rp); (EComp1Hi, h1); (EPad1Hi, h1p); (EComp1Lo, l1); (EPad1Lo, l1p);
   (EComp2Hi, h2); (EPad2Hi, h2p); (EComp2Lo, l2); (EPad2Lo, l2p)].
Notation sum_elts v f := (sumE (length v) (fun i => emul (nth i v e0) (f i))).
Notation scaled v := (map (escale (toF p (radix c))) v).

Lemma enc_inv (st st' : pstate) rnd ct1 ct2 ptxt er noise1 noise2 :
  block_empty (ell := ell) (plin st) (rLin (ell := ell)) -> (0 < ell)%nat ->
  proveEncryption R c st rnd ct1 ct2 ptxt er noise1 noise2 = Ret st' ->
  exists X1 m1 X2 m2 X3 m3 comp1 comp2 r h1 l1 h2 l2 hib1 hib2 rp h1p l1p h2p l2p
    x1 m4 xvec1 xR1 xR1A x2 m5 xvec2 xR2 xR2B x3 xvec3 mxR3 lin1 lin2,
    ternaryE (ell := ell) R (m_point R (m_point R (pmer st) "RegevEncPtxt" (pcom st' Pt2)) "RegevEncRnd" (pcom st' RR))
      "RegevEncR1" (jl c) (Z.to_nat (kay (cgk c))) = Ret (X1, m1) /\
    ternaryE (ell := ell) R m1 "RegevEncR2" (jl c) (Z.to_nat (enn (cgk c))) = Ret (X2, m2) /\
    ternaryE (ell := ell) R m2 "RegevEncR3" (jl c) (Z.to_nat (kay (cgk c))) = Ret (X3, m3) /\
    rightVecMultTE X1 noise1 = Ret comp1 /\ rightVecMultTE X2 noise2 = Ret comp2 /\ rightVecMultTE X3 er = Ret r /\
    breakTwoDigits [] [] comp1 (radix c) = Ret (h1, l1) /\ breakTwoDigits [] [] comp2 (radix c) = Ret (h2, l2) /\
    hiBound c (B_eNoise1 c) (kk c) = Ret hib1 /\ hiBound c (B_eNoise2 c) (nn c) = Ret hib2 /\
    pad c r (B_r c) = Ret rp /\ pad c h1 hib1 = Ret h1p /\ pad c l1 (loBound c) = Ret l1p /\
    pad c h2 hib2 = Ret h2p /\ pad c l2 (loBound c) = Ret l2p /\
    newElement R (enc_absorbed st' m3) "RegevEncChallenge1" = Ret (x1, m4) /\
    powerVectorE x1 (jl c) = Ret xvec1 /\ leftVecMultTE xvec1 X1 = Ret xR1 /\ vecMat xR1 (gkA (cgk c)) = Ret xR1A /\
    newElement R m4 "RegevEncChallenge2" = Ret (x2, m5) /\
    powerVectorE x2 (jl c) = Ret xvec2 /\ leftVecMultTE xvec2 X2 = Ret xR2 /\ vecMat xR2 (gkB (cgk c)) = Ret xR2B /\
    newElement R m5 "RegevEncChallenge3" = Ret (x3, pmer st') /\
    powerVectorE x3 (jl c) = Ret xvec3 /\ leftVecMultTE (map eopp xvec3) X3 = Ret mxR3 /\
    built (plin st) lin1 (eLin1 (ell := ell)) (innerProductEE xR1 ct1)
      (fun w => eadd (eadd (sum_elts xR1A (readV w (pidx st RR))) (sum_elts xvec1 (readV w (pidx st EComp1Lo))))
                     (sum_elts (scaled xvec1) (readV w (pidx st EComp1Hi))))
      (fun k => ((pidx st RR <= k < pidx st RR + Z.of_nat (length xR1A) * Z.of_nat ell) \/
                 (pidx st EComp1Lo <= k < pidx st EComp1Lo + Z.of_nat (length xvec1) * Z.of_nat ell)) \/
                 (pidx st EComp1Hi <= k < pidx st EComp1Hi + Z.of_nat (length (scaled xvec1)) * Z.of_nat ell)) /\
    built lin1 lin2 (eLin2 (ell := ell)) (innerProductEE xR2 ct2)
      (fun w => eadd (eadd (eadd (sum_elts xR2B (readV w (pidx st RR))) (sum_elts xvec2 (readV w (pidx st EComp2Lo))))
                     (sum_elts (scaled xvec2) (readV w (pidx st EComp2Hi))))
                     (sumE (length (map (fun e => emul (cg c) e) xR2)) (fun i => escale (w (pidx st Pt2 + Z.of_nat i)) (nth i (map (fun e => emul (cg c) e) xR2) e0))))
      (fun k => (((pidx st RR <= k < pidx st RR + Z.of_nat (length xR2B) * Z.of_nat ell) \/
                 (pidx st EComp2Lo <= k < pidx st EComp2Lo + Z.of_nat (length xvec2) * Z.of_nat ell)) \/
                 (pidx st EComp2Hi <= k < pidx st EComp2Hi + Z.of_nat (length (scaled xvec2)) * Z.of_nat ell)) \/
                 (pidx st Pt2 <= k < pidx st Pt2 + Z.of_nat (length (map (fun e => emul (cg c) e) xR2)))) /\
    built lin2 (plin st') (rLin (ell := ell)) (e0 : E)
      (fun w => eadd (sum_elts xvec3 (readV w (pidx st RComp))) (sum_elts mxR3 (readV w (pidx st RR))))
      (fun k => (pidx st RComp <= k < pidx st RComp + Z.of_nat (length xvec3) * Z.of_nat ell) \/
                (pidx st RR <= k < pidx st RR + Z.of_nat (length mxR3) * Z.of_nat ell)) /\
    eff R c st st' rnd
      (flat (ewits r rp h1 h1p l1 l1p h2 h2p l2 l2p) ++ [(RR, coeffs_of er); (Pt2, ptxt)])
      (flat (ewits r rp h1 h1p l1 l1p h2 h2p l2 l2p)) [(Pt2, ptxt); (RR, coeffs_of er)] (flat (ewits r rp h1 h1p l1 l1p h2 h2p l2 l2p))
      (ewits r rp h1 h1p l1 l1p h2 h2p l2 l2p)
      [(2%nat, (B_r c, RComp, RPad)); (3%nat, (hib1, EComp1Hi, EPad1Hi)); (4%nat, (loBound c, EComp1Lo, EPad1Lo));
       (5%nat, (hib2, EComp2Hi, EPad2Hi)); (6%nat, (loBound c, EComp2Lo, EPad2Lo))]
      [eLin1 (ell := ell); eLin2 (ell := ell); rLin (ell := ell)].
Proof.
  intros Hempty He H. unfold proveEncryption in H. destruct st as [i0 co rd li qn lw qg qh cp zz mm]. proj. rewrite plin_PS in Hempty.
  ocomS H C1 K1. ocomE H C2 K2. cbv zeta in H. nf H.
  ob H as [X1 m1] EX1. ob H as [X2 m2] EX2. ob H as [X3 m3] EX3.
  ob H as comp1 Ec1. ob H as comp2 Ec2. ob H as r Er. ob H as [h1 l1] Eb1. ob H as [h2 l2] Eb2.
  ob H as hib1 Eh1. ob H as hib2 Eh2. ob H as rp Erp. ob H as h1p Eh1p. ob H as l1p El1p. ob H as h2p Eh2p. ob H as l2p El2p.
  ocom2 H C3 K3. ocom2 H C4 K4. ocom2 H C5 K5. ocom2 H C6 K6. ocom2 H C7 K7. ocom2 H C8 K8. ocom2 H C9 K9. ocom2 H C10 K10.
  ocom2 H C11 K11. ocom2 H C12 K12.
  ob H as [x1 m4] Ex1. ob H as xvec1 Exv1. ob H as xR1 ExR1. ob H as xR1A ExR1A.
  oblock H lin1 Hlin1.
  ob H as [x2 m5] Ex2. ob H as xvec2 Exv2. ob H as xR2 ExR2. ob H as xR2B ExR2B.
  oblock H lin2 Hlin2.
  ob H as [x3 m6] Ex3. ob H as xvec3 Exv3. ob H as mxR3 ExR3.
  oblock H lin3 Hlin3.
  onorm H q1 Hq1. onorm H q2 Hq2. onorm H q3 Hq3. onorm H q4 Hq4. onorm H q5 Hq5.
  ocopy H a1 Ha1. ocopy H a2 Ha2. ocopy H a3 Ha3. ocopy H a4 Ha4. ocopy H a5 Ha5. ocopy H a6 Ha6. ocopy H a7 Ha7. ocopy H a8 Ha8. ocopy H a9 Ha9.
  apply copy_inv in H as (a10 & -> & Ha10). projin Ha10. rewrite set_comp_PS.
  match type of Hlin1 with on_block _ _ ?f = _ => set (ff1 := f) in Hlin1 end.
  match type of Hlin2 with on_block _ _ ?f = _ => set (ff2 := f) in Hlin2 end.
  match type of Hlin3 with on_block _ _ ?f = _ => set (ff3 := f) in Hlin3 end.
  exists X1, m1, X2, m2, X3, m3, comp1, comp2, r, h1, l1, h2, l2, hib1, hib2, rp, h1p, l1p, h2p, l2p.
  exists x1, m4, xvec1, xR1, xR1A, x2, m5, xvec2, xR2, xR2B, x3, xvec3, mxR3, lin1, lin2.
  eassert (HB1 : built li lin1 (eLin1 (ell := ell)) (innerProductEE xR1 ct1) _ _).
  { eapply built_intro; [exact Hlin1|]. intros b b' _ Hb Hf. exists (setEqsTo (clearBlock b) (innerProductEE xR1 ct1)).
    split; [now apply cleared_clear|]. unfold ff1 in Hf. do 2 (rewrite expand_PS, expandConstraints_all in Hf; cbn [obind] in Hf).
    rewrite expand_PS, expandConstraints_all in Hf. injection Hf as <-.
    assert (W : wf_block (ell := ell) (setEqsTo (clearBlock b) (innerProductEE xR1 ct1))) by (apply cleared_clear; assumption).
    pose proof (expand_all_spec _ (i0 RR) xR1A W) as A1.
    pose proof (expand_all_spec _ (i0 EComp1Lo) xvec1 (proj1 A1)) as A2.
    pose proof (expand_all_spec _ (i0 EComp1Hi) (scaled xvec1) (proj1 A2)) as A3.
    exact (block_adds_trans _ _ _ _ _ _ _ (block_adds_trans _ _ _ _ _ _ _ A1 A2) A3). }
  eassert (HB2 : built lin1 lin2 (eLin2 (ell := ell)) (innerProductEE xR2 ct2) _ _).
  { eapply built_intro; [exact Hlin2|]. intros b b' _ Hb Hf. exists (setEqsTo (clearBlock b) (innerProductEE xR2 ct2)).
    split; [now apply cleared_clear|]. unfold ff2 in Hf. do 3 (rewrite expand_PS, expandConstraints_all in Hf; cbn [obind] in Hf).
    rewrite make_PS, makeConstraints_all in Hf. injection Hf as <-.
    assert (W : wf_block (ell := ell) (setEqsTo (clearBlock b) (innerProductEE xR2 ct2))) by (apply cleared_clear; assumption).
    pose proof (expand_all_spec _ (i0 RR) xR2B W) as A1.
    pose proof (expand_all_spec _ (i0 EComp2Lo) xvec2 (proj1 A1)) as A2.
    pose proof (expand_all_spec _ (i0 EComp2Hi) (scaled xvec2) (proj1 A2)) as A3.
    pose proof (make_all_spec _ (i0 Pt2) (map (fun e => emul (cg c) e) xR2) (proj1 A3)) as A4.
    exact (block_adds_trans _ _ _ _ _ _ _ (block_adds_trans _ _ _ _ _ _ _ (block_adds_trans _ _ _ _ _ _ _ A1 A2) A3) A4). }
  assert (Hempty2 : block_empty (ell := ell) lin2 (rLin (ell := ell))).
  { intros i Hi. rewrite (built_other _ _ _ _ _ _ HB2), (built_other _ _ _ _ _ _ HB1) by (unfold eLin1, eLin2, rLin; lia). now apply Hempty. }
  eassert (HB3 : built lin2 lin3 (rLin (ell := ell)) (e0 : E) _ _).
  { eapply built_intro; [exact Hlin3|]. intros b b' Hb0 Hb Hf. exists (setEqsTo b (e0 : E)).
    assert (CL : cleared (setEqsTo b (e0 : E)) e0) by (apply cleared_set; [assumption|]; subst b; now apply block_empty_forall).
    split; [exact CL|]. unfold ff3 in Hf. rewrite expand_PS, expandConstraints_all in Hf. cbn [obind] in Hf.
    rewrite expand_PS, expandConstraints_all in Hf. injection Hf as <-.
    pose proof (expand_all_spec _ (i0 RComp) xvec3 (proj1 CL)) as A1.
    pose proof (expand_all_spec _ (i0 RR) mxR3 (proj1 A1)) as A2.
    exact (block_adds_trans _ _ _ _ _ _ _ A1 A2). }
  proj. split; [exact EX1|]. do 14 (split; [assumption|]). split; [exact Ex1|]. do 3 (split; [assumption|]). split; [exact Ex2|].
  do 3 (split; [assumption|]). split; [exact Ex3|]. do 2 (split; [assumption|]).
  split; [exact HB1|]. split; [exact HB2|]. split; [exact HB3|].
  constructor; proj; try reflexivity.
  - intros y v Hy. in_cases Hy; (split; [eassumption|reflexivity]).
  - intros y v Hy. in_cases Hy; (split; [eassumption|reflexivity]).
  - intros y Hy. cbn in Hy. rewrite !upd_other by (intros ->; tauto). split; reflexivity.
  - cbn [copies ewits]. eauto 30.
  - cbn [norms]. eauto 20.
  - rewrite (built_len _ _ _ _ _ _ HB3), (built_len _ _ _ _ _ _ HB2). apply (built_len _ _ _ _ _ _ HB1).
  - intros i Hi. rewrite (built_other _ _ _ _ _ _ HB3), (built_other _ _ _ _ _ _ HB2), (built_other _ _ _ _ _ _ HB1); [reflexivity| | |];
      apply Hi; cbn; tauto.
  - intros W. apply (built_wf _ _ _ _ _ _ HB3), (built_wf _ _ _ _ _ _ HB2), (built_wf _ _ _ _ _ _ HB1), W.
Qed.
End Enc.
