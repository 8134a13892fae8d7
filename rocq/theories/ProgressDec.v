(** When proveDecryption and proveKeyGen return. *)
From Coq Require Import String.
From Coq Require Import ZArith List Bool Lia Ring.
From Verif Require Import Outcome Fp FSum GroupMod Ring ConstraintsModel ConstraintsSpec PedersenModel BulletproofModel FourSquaresSpec AlgebraModel AlgebraSpec
  TernaryModel TernarySpec RegevModel RegevPfModel RegevPfSpec RegevStSpec RegevPfSat StepSpec ProgressSpec ProgressBase ProgressTac PropRegevSt.
Import ListNotations.
Open Scope Z_scope.

Section D.
Context {p : Z} {ell : nat} {G : gmod p}.
Notation F := (Fp p).
Notation E := (elt p ell).
Variable R : rmerlin G.
Variable c : cfg ell G.
Notation pstate := (@pstate p ell G R).
Hypothesis Hc : wf_cfg c.
Hypothesis Hlib : good_libs R c.
Hypothesis Hsq : jl_sqrt c.
Let He : (0 < ell)%nat := proj1 Hc.
Variable st : pstate.
Hypothesis Hroom : room c st.

Ltac cm := com2s R c Hc st Hroom.
Ltac nm := norms R c Hc st Hroom.
Ltac cp := copys R c Hc st Hroom.

Lemma dec_ret rnd ctMat ctVec ptxt skey noise : Nat.divide 4 (jl c) -> dec_dims c ctMat ctVec ptxt skey noise ->
  exists X m1 f,
    ternaryE (ell := ell) R (m_point R (pmer st) "RegevDecPtxt" (com_point c (pidx st Pt1) ptxt (rnd Pt1))) "RegevDecX" (Tee c) (jl c) = Ret (X, m1) /\
    is_temat ell X (Tee c) (jl c) f /\
    (hi_fits c (B_dNoise c) (kk c) (compL (Tee c) noise f) ->
       exists st', proveDecryption R c st rnd ctMat ctVec ptxt skey noise = Ret st' /\ shape R st' = shape R st) /\
    (~ hi_fits c (B_dNoise c) (kk c) (compL (Tee c) noise f) -> proveDecryption R c st rnd ctMat ctVec ptxt skey noise = Throw).
Proof.
  intros H4 (D1 & D2 & D3 & D4 & D5).
  assert (Ht : 0 < tee (cgk c)) by apply Hc. assert (Hk : 0 < kay (cgk c)) by apply Hc.
  pose proof (jl_eq c Hc) as Hjl. pose proof (jl_pos c Hc) as Hj0.
  assert (S0 : shape R st = shape R st) by reflexivity.
  destruct (ternaryE_ok R c Hc Hlib (m_point R (pmer st) "RegevDecPtxt" (com_point c (pidx st Pt1) ptxt (rnd Pt1))) "RegevDecX" (Tee c) (jl c) ltac:(lia) H4)
    as (X & m1 & f & EX & Hf).
  exists X, m1, f. split; [exact EX|]. split; [exact Hf|].
  destruct (digits_ok c Hc (vec (jl c) (compL (Tee c) noise f))) as (hi & lo & Ed & L1 & L2 & Hhi & Hlo). rewrite vec_len in L1, L2.
  assert (Q : hi_fits c (B_dNoise c) (kk c) (compL (Tee c) noise f) <->
    sum_sq (map balanced (coeffs_of hi)) <= (B_dNoise c / radix c + Z.sqrt_up (kk c)) * (B_dNoise c / radix c + Z.sqrt_up (kk c))).
  { rewrite Hhi. reflexivity. }
  destruct (pad_ok R c Hc Hlib lo (loBound c) (lo_fits c Hc lo Hsq L2 Hlo)) as (padLo & EpL & LpL).
  unfold proveDecryption. destruct (comS_ok R c Hc st Hroom st Pt1 ptxt (rnd Pt1) S0 ltac:(discriminate) ltac:(lens)) as (s & E1 & Sh & Pm & Pc). bnd E1. cbv zeta.
  replace (pmer (absorb R s "RegevDecPtxt" Pt1)) with (m_point R (pmer st) "RegevDecPtxt" (com_point c (pidx st Pt1) ptxt (rnd Pt1)))
    by (unfold absorb; cbn [pmer set_mer]; now rewrite Pm, Pc).
  bnd EX. rewrite (left_ok c Hc noise X _ _ f Hf D5). cbn [obind]. bnd Ed. rewrite (hib_ok c Hc). cbn [obind].
  split; intros HQ; apply Q in HQ || (rewrite Q in HQ).
  2:{ rewrite (pad_no c Hc _ _ HQ). reflexivity. }
  destruct (pad_ok R c Hc Hlib hi _ HQ) as (padHi & EpH & LpH). bnd EpH. bnd EpL.
  assert (S1 : shape R (set_mer R (absorb R s "RegevDecPtxt" Pt1) m1) = shape R st) by exact Sh.
  do 4 cm.
  newEl R c Hc Hlib x m2 Ex.
  destruct (powers_ok c Hc x (jl c) Hj0) as (xv & Exv & Lxv). bnd Exv.
  rewrite (right_ok c Hc xv X _ _ f Hf Lxv). cbn [obind].
  destruct (matVec_ok ctMat (vec (Tee c) (compR (jl c) xv f)) _ _ D1 (vec_len _ _)) as (ctRx & Ect & Lct). bnd Ect.
  match goal with |- context [block R ?s ?o ?ff] => destruct (block_ok R c Hc st Hroom s o ff) as (sb & Eb & Sb & Pb) end.
  { assumption. }
  { unfold dLin. lia. }
  { intros b Hb. cbv beta.
    match goal with |- context [expand R _ _ _ ?b0] => expnd R c Hc b0 b1 Lb1 end. expnd R c Hc b1 b2 Lb2. expnd R c Hc b2 b3 Lb3.
    apply (make_ok R c Hc). exact Lb3. }
  bnd Eb.
  assert (S2 : shape R (witS R (wit R (wit R (wit R (wit R (wit R sb DCompHi hi) DPadHi padHi) DCompLo lo) DPadLo padLo) Sk1 skey) Pt1 ptxt) = shape R st) by exact Sb.
  do 2 nm.
  match goal with |- context [copy R ?q DCompHi hi] => assert (S3 : shape R q = shape R st) by assumption end.
  do 3 cp. match goal with |- context [copy R ?s ?x ?v] => apply (copy_ok R c Hc st Hroom s x v); [assumption|reflexivity|lens] end.
Qed.
End D.
