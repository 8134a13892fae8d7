(** proveKeyGen. *)
From Coq Require Import String.
From Coq Require Import ZArith List Bool Lia Ring.
From Verif Require Import Outcome Fp FSum GroupMod Ring ConstraintsModel ConstraintsSpec ConstraintsProofs ConstraintsOther
  PedersenModel PedersenProofs BulletproofModel AlgebraModel AlgebraSpec AlgebraProofs AlgebraMore TernaryModel TernarySpec TernaryProofs
  RegevModel RegevSpec RegevPfModel RegevPfSpec RegevPfBase RegevPfLin RegevPfCom RegevStSpec RegevPfState RegevPfEff.
Import ListNotations.
Open Scope Z_scope.

Section Key.
Context {p : Z} {ell : nat} {G : gmod p}.
Notation F := (Fp p).
Notation E := (elt p ell).
Variable R : rmerlin G.
Variable c : cfg ell G.
Notation pstate := (@pstate p ell G R).

Definition kwits (s sp h hp l lp : list E) : list (var * list E) :=
  [(Sk2Comp, s); (Sk2Pad, sp); (KCompHi, h); (KPadHi, hp); (KCompLo, l); (KPadLo, lp)].
Notation sum_elts v f := (sumE (length v) (fun i => emul (nth i v e0) (f i))).
Notation scaled v := (map (escale (toF p (radix c))) v).

Lemma key_inv (st st' : pstate) rnd pkNum skey noise : (0 < ell)%nat ->
  proveKeyGen R c st rnd pkNum skey noise = Ret st' ->
  exists X1 m1 X2 m2 comp s h l hib sp hp lp x1 m3 xvec1 R1x bRow AR1x x2 xvec2 R2x lin1,
    ternaryE (ell := ell) R (m_point R (pmer st) "RegevSK" (pcom st' Sk2)) "RegevKeyGenR1" (Z.to_nat (kay (cgk c))) (jl c) = Ret (X1, m1) /\
    ternaryE (ell := ell) R m1 "RegevKeyGenR2" (Z.to_nat (kay (cgk c))) (jl c) = Ret (X2, m2) /\
    leftVecMultTE noise X1 = Ret comp /\ leftVecMultTE skey X2 = Ret s /\
    breakTwoDigits [] [] comp (radix c) = Ret (h, l) /\
    hiBound c (B_kNoise c) (kk c) = Ret hib /\
    pad c s (B_sk c) = Ret sp /\ pad c h hib = Ret hp /\ pad c l (loBound c) = Ret lp /\
    newElement R (key_absorbed st' m2) "RegevKGChallenge1" = Ret (x1, m3) /\
    powerVectorE x1 (jl c) = Ret xvec1 /\ rightVecMultTE X1 xvec1 = Ret R1x /\
    oget (mrows (gkB (cgk c))) pkNum = Ret bRow /\ matVec (gkA (cgk c)) R1x = Ret AR1x /\
    newElement R m3 "RegevKGChallenge2" = Ret (x2, pmer st') /\
    powerVectorE x2 (jl c) = Ret xvec2 /\ rightVecMultTE X2 xvec2 = Ret R2x /\
    built (plin st) lin1 (kLin (ell := ell)) (innerProductEE R1x bRow)
      (fun w => eadd (eadd (sum_elts AR1x (readV w (pidx st Sk2))) (sum_elts xvec1 (readV w (pidx st KCompLo))))
                     (sum_elts (scaled xvec1) (readV w (pidx st KCompHi))))
      (fun k => ((pidx st Sk2 <= k < pidx st Sk2 + Z.of_nat (length AR1x) * Z.of_nat ell) \/
                 (pidx st KCompLo <= k < pidx st KCompLo + Z.of_nat (length xvec1) * Z.of_nat ell)) \/
                 (pidx st KCompHi <= k < pidx st KCompHi + Z.of_nat (length (scaled xvec1)) * Z.of_nat ell)) /\
    built lin1 (plin st') (sk2Lin (ell := ell)) (e0 : E)
      (fun w => eadd (sum_elts xvec2 (readV w (pidx st Sk2Comp))) (sum_elts (map eopp R2x) (readV w (pidx st Sk2))))
      (fun k => (pidx st Sk2Comp <= k < pidx st Sk2Comp + Z.of_nat (length xvec2) * Z.of_nat ell) \/
                (pidx st Sk2 <= k < pidx st Sk2 + Z.of_nat (length (map eopp R2x)) * Z.of_nat ell)) /\
    eff R c st st' rnd
      ((Sk2, coeffs_of skey) :: flat (kwits s sp h hp l lp))
      (flat (kwits s sp h hp l lp)) [(Sk2, coeffs_of skey)] (flat (kwits s sp h hp l lp))
      (kwits s sp h hp l lp)
      [(7%nat, (B_sk c, Sk2Comp, Sk2Pad)); (8%nat, (hib, KCompHi, KPadHi)); (9%nat, (loBound c, KCompLo, KPadLo))]
      [kLin (ell := ell); sk2Lin (ell := ell)].
Proof.
  intros He H. unfold proveKeyGen in H. destruct st as [i0 co rd li qn lw qg qh cp zz mm]. proj.
  ocomE H C1 K1. cbv zeta in H. nf H.
  ob H as [X1 m1] EX1. ob H as [X2 m2] EX2. ob H as comp Ec. ob H as s Es. ob H as [h l] Eb. ob H as hib Eh.
  ob H as sp Esp. ob H as hp Ehp. ob H as lp Elp.
  ocom2 H C2 K2. ocom2 H C3 K3. ocom2 H C4 K4. ocom2 H C5 K5. ocom2 H C6 K6. ocom2 H C7 K7.
  ob H as [x1 m3] Ex1. ob H as xvec1 Exv1. ob H as R1x ER1. ob H as bRow Ebr. ob H as AR1x EA.
  oblock H lin1 Hlin1.
  ob H as [x2 m4] Ex2. ob H as xvec2 Exv2. ob H as R2x ER2.
  oblock H lin2 Hlin2.
  onorm H q1 Hq1. onorm H q2 Hq2. onorm H q3 Hq3.
  ocopy H a1 Ha1. ocopy H a2 Ha2. ocopy H a3 Ha3. ocopy H a4 Ha4. ocopy H a5 Ha5.
  apply copy_inv in H as (a6 & -> & Ha6). projin Ha6. rewrite set_comp_PS.
  match type of Hlin1 with on_block _ _ ?f = _ => set (ff1 := f) in Hlin1 end.
  match type of Hlin2 with on_block _ _ ?f = _ => set (ff2 := f) in Hlin2 end.
  exists X1, m1, X2, m2, comp, s, h, l, hib, sp, hp, lp, x1, m3, xvec1, R1x, bRow, AR1x, x2, xvec2, R2x, lin1.
  eassert (HB1 : built li lin1 (kLin (ell := ell)) (innerProductEE R1x bRow) _ _).
  { eapply built_intro; [exact Hlin1|]. intros b b' _ Hb Hf. exists (setEqsTo (clearBlock b) (innerProductEE R1x bRow)).
    split; [now apply cleared_clear|]. unfold ff1 in Hf. do 2 (rewrite expand_PS, expandConstraints_all in Hf; cbn [obind] in Hf).
    rewrite expand_PS, expandConstraints_all in Hf. injection Hf as <-.
    assert (W : wf_block (ell := ell) (setEqsTo (clearBlock b) (innerProductEE R1x bRow))) by (apply cleared_clear; assumption).
    pose proof (expand_all_spec _ (i0 Sk2) AR1x W) as A1.
    pose proof (expand_all_spec _ (i0 KCompLo) xvec1 (proj1 A1)) as A2.
    pose proof (expand_all_spec _ (i0 KCompHi) (scaled xvec1) (proj1 A2)) as A3.
    exact (block_adds_trans _ _ _ _ _ _ _ (block_adds_trans _ _ _ _ _ _ _ A1 A2) A3). }
  eassert (HB2 : built lin1 lin2 (sk2Lin (ell := ell)) (e0 : E) _ _).
  { eapply built_intro; [exact Hlin2|]. intros b b' _ Hb Hf. exists (setEqsTo (clearBlock b) (e0 : E)).
    split; [now apply cleared_clear|]. unfold ff2 in Hf. rewrite expand_PS, expandConstraints_all in Hf; cbn [obind] in Hf.
    rewrite expand_PS, expandConstraints_all in Hf. injection Hf as <-.
    assert (W : wf_block (ell := ell) (setEqsTo (clearBlock b) (e0 : E))) by (apply cleared_clear; assumption).
    pose proof (expand_all_spec _ (i0 Sk2Comp) xvec2 W) as A1.
    pose proof (expand_all_spec _ (i0 Sk2) (map eopp R2x) (proj1 A1)) as A2.
    exact (block_adds_trans _ _ _ _ _ _ _ A1 A2). }
  proj. split; [exact EX1|]. do 8 (split; [assumption|]). split; [exact Ex1|]. do 4 (split; [assumption|]). split; [exact Ex2|].
  do 2 (split; [assumption|]).
  split; [exact HB1|]. split; [exact HB2|].
  constructor; proj; try reflexivity.
  - intros y v Hy. in_cases Hy; (split; [eassumption|reflexivity]).
  - intros y v Hy. in_cases Hy; (split; [eassumption|reflexivity]).
  - intros y Hy. cbn in Hy. rewrite !upd_other by (intros ->; tauto). split; reflexivity.
  - cbn [copies kwits]. eauto 30.
  - cbn [norms]. eauto 20.
  - rewrite (built_len _ _ _ _ _ _ HB2). apply (built_len _ _ _ _ _ _ HB1).
  - intros i Hi. rewrite (built_other _ _ _ _ _ _ HB2), (built_other _ _ _ _ _ _ HB1); [reflexivity| |];
      apply Hi; cbn; tauto.
  - intros W. apply (built_wf _ _ _ _ _ _ HB2), (built_wf _ _ _ _ _ _ HB1), W.
Qed.
End Key.
