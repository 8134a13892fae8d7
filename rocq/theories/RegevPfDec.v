(** proveDecryption. *)
From Coq Require Import String.
From Coq Require Import ZArith List Bool Lia Ring.
From Verif Require Import Outcome Fp FSum GroupMod Ring ConstraintsModel ConstraintsSpec ConstraintsProofs ConstraintsOther
  PedersenModel PedersenProofs BulletproofModel AlgebraModel AlgebraSpec AlgebraProofs AlgebraMore TernaryModel TernarySpec TernaryProofs
  RegevModel RegevSpec RegevPfModel RegevPfSpec RegevPfBase RegevPfLin RegevPfCom RegevStSpec RegevPfState RegevPfEff.
Import ListNotations.
Open Scope Z_scope.

Section Dec.
Context {p : Z} {ell : nat} {G : gmod p}.
Notation F := (Fp p).
Notation E := (elt p ell).
Variable R : rmerlin G.
Variable c : cfg ell G.
Notation pstate := (@pstate p ell G R).

Definition dwits (hi padHi lo padLo : list E) : list (var * list E) :=
  [(DCompHi, hi); (DPadHi, padHi); (DCompLo, lo); (DPadLo, padLo)].

Lemma dec_inv (st st' : pstate) rnd ctMat ctVec ptxt skey noise :
  proveDecryption R c st rnd ctMat ctVec ptxt skey noise = Ret st' ->
  exists X m1 comp hi lo hib padHi padLo x xvec Rx ctRx,
    ternaryE (ell := ell) R (m_point R (pmer st) "RegevDecPtxt" (pcom st' Pt1)) "RegevDecX" (Z.to_nat (tee (cgk c))) (jl c) = Ret (X, m1) /\
    leftVecMultTE noise X = Ret comp /\ breakTwoDigits [] [] comp (radix c) = Ret (hi, lo) /\
    hiBound c (B_dNoise c) (kk c) = Ret hib /\ pad c hi hib = Ret padHi /\ pad c lo (loBound c) = Ret padLo /\
    newElement R (m_point R (m_point R (m_point R (m_point R m1 "RegevDecCompHi" (pcom st' DCompHi))
       "RegevDecPadHi" (pcom st' DPadHi)) "RegevDecCompLo" (pcom st' DCompLo)) "RegevDecPadLo" (pcom st' DPadLo)) "RegevDec"
     = Ret (x, pmer st') /\
    powerVectorE x (jl c) = Ret xvec /\ rightVecMultTE X xvec = Ret Rx /\ matVec ctMat Rx = Ret ctRx /\
    built (plin st) (plin st') dLin (innerProductEE ctVec Rx)
      (fun w => eadd (eadd (eadd
         (sumE (length xvec) (fun i => emul (nth i xvec e0) (readV w (pidx st DCompLo) i)))
         (sumE (length (map (escale (toF p (radix c))) xvec)) (fun i => emul (nth i (map (escale (toF p (radix c))) xvec) e0) (readV w (pidx st DCompHi) i))))
         (sumE (length ctRx) (fun i => emul (nth i ctRx e0) (readV w (pidx st Sk1) i))))
         (sumE (length (map (fun e => emul e (cg c)) Rx)) (fun i => escale (w (pidx st Pt1 + Z.of_nat i)) (nth i (map (fun e => emul e (cg c)) Rx) e0))))
      (fun k => (((pidx st DCompLo <= k < pidx st DCompLo + Z.of_nat (length xvec) * Z.of_nat ell) \/
                 (pidx st DCompHi <= k < pidx st DCompHi + Z.of_nat (length (map (escale (toF p (radix c))) xvec)) * Z.of_nat ell)) \/
                 (pidx st Sk1 <= k < pidx st Sk1 + Z.of_nat (length ctRx) * Z.of_nat ell)) \/
                 (pidx st Pt1 <= k < pidx st Pt1 + Z.of_nat (length (map (fun e => emul e (cg c)) Rx)))) /\
    eff R c st st' rnd
      (flat (dwits hi padHi lo padLo) ++ [(Sk1, coeffs_of skey); (Pt1, ptxt)])
      (flat (dwits hi padHi lo padLo)) [(Pt1, ptxt)] (flat (dwits hi padHi lo padLo)) (dwits hi padHi lo padLo)
      [(0%nat, (hib, DCompHi, DPadHi)); (1%nat, (loBound c, DCompLo, DPadLo))] [dLin].
Proof.
  intros H. unfold proveDecryption in H. destruct st as [i0 co rd li qn lw qg qh cp zz mm]. proj.
  ocomS H C1 K1. cbv zeta in H. nf H.
  ob H as [X m1] EX. ob H as comp Ecomp. ob H as [hi lo] Ebr. ob H as hib Ehib. ob H as padHi EpH. ob H as padLo EpL.
  ocom2 H C2 K2. ocom2 H C3 K3. ocom2 H C4 K4. ocom2 H C5 K5.
  ob H as [x m2] Ex. ob H as xvec Exv. ob H as Rx ERx. ob H as ctRx Ect.
  oblock H lin Hlin. onorm H q1 Hq1. onorm H q2 Hq2. ocopy H l1 Hl1. ocopy H l2 Hl2. ocopy H l3 Hl3.
  apply copy_inv in H as (l4 & -> & Hl4). projin Hl4. rewrite set_comp_PS.
  match type of Hlin with on_block _ _ ?f = _ => set (ff := f) in Hlin end.
  exists X, m1, comp, hi, lo, hib, padHi, padLo, x, xvec, Rx, ctRx.
  eassert (HB : built li lin dLin (innerProductEE ctVec Rx) _ _).
  { eapply built_intro; [exact Hlin|]. intros b b' _ Hb Hf. exists (setEqsTo (clearBlock b) (innerProductEE ctVec Rx)).
    split; [now apply cleared_clear|]. unfold ff in Hf. do 3 (rewrite expand_PS, expandConstraints_all in Hf; cbn [obind] in Hf).
    rewrite make_PS, makeConstraints_all in Hf. injection Hf as <-.
    assert (W : wf_block (ell := ell) (setEqsTo (clearBlock b) (innerProductEE ctVec Rx))) by (apply cleared_clear; assumption).
    pose proof (expand_all_spec _ (i0 DCompLo) xvec W) as A1.
    pose proof (expand_all_spec _ (i0 DCompHi) (map (escale (toF p (radix c))) xvec) (proj1 A1)) as A2.
    pose proof (expand_all_spec _ (i0 Sk1) ctRx (proj1 A2)) as A3.
    pose proof (make_all_spec _ (i0 Pt1) (map (fun e => emul e (cg c)) Rx) (proj1 A3)) as A4.
    exact (block_adds_trans _ _ _ _ _ _ _ (block_adds_trans _ _ _ _ _ _ _ (block_adds_trans _ _ _ _ _ _ _ A1 A2) A3) A4). }
  proj. split; [exact EX|]. do 5 (split; [assumption|]). split; [exact Ex|]. do 3 (split; [assumption|]).
  split; [exact HB|].
  constructor; proj; try reflexivity.
  - intros y v Hy. in_cases Hy. split; [eassumption|reflexivity].
  - intros y v Hy. in_cases Hy; (split; [eassumption|reflexivity]).
  - intros y Hy. cbn in Hy. rewrite !upd_other by (intros ->; tauto). split; reflexivity.
  - cbn [copies dwits]. eauto 10.
  - cbn [norms]. eauto 10.
  - apply (built_len _ _ _ _ _ _ HB).
  - intros i Hi. apply (built_other _ _ _ _ _ _ HB). apply Hi. now left.
  - apply (built_wf _ _ _ _ _ _ HB).
Qed.
End Dec.
