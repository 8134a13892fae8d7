(** When proveEncryption and proveKeyGen return. *)
From Coq Require Import String.
From Coq Require Import ZArith List Bool Lia Ring.
From Verif Require Import Outcome Fp FSum GroupMod Ring ConstraintsModel ConstraintsSpec PedersenModel BulletproofModel FourSquaresSpec AlgebraModel AlgebraSpec
  TernaryModel TernarySpec RegevModel RegevPfModel RegevPfSpec RegevStSpec RegevPfSat StepSpec ProgressSpec ProgressBase ProgressTac PropRegevSt.
Import ListNotations.
Open Scope Z_scope.

Section D.
Context {p : Z} {ell : nat} {G : gmod p}.
Notation F := (Fp p).
Notation E := (elt p ell).
Variable R : rmerlin G.
Variable c : cfg ell G.
Notation pstate := (@pstate p ell G R).
Hypothesis Hc : wf_cfg c.
Hypothesis Hlib : good_libs R c.
Hypothesis Hsq : jl_sqrt c.
Let He : (0 < ell)%nat := proj1 Hc.
Variable st : pstate.
Hypothesis Hroom : room c st.
Ltac cm := com2s R c Hc st Hroom.
Ltac nm := norms R c Hc st Hroom.
Ltac cp := copys R c Hc st Hroom.
Ltac first_expand b1 L1 := match goal with |- context [expand R _ _ _ ?b0] => expnd R c Hc b0 b1 L1 end.

Lemma fits_dec b v : fits c b v \/ ~ fits c b v.
Proof. unfold fits. destruct (Z_le_gt_dec (sum_sq (ints (JLDIM c / ell) v)) (b * b)); [now left|right; lia]. Qed.
Lemma hi_fits_dec B n v : hi_fits c B n v \/ ~ hi_fits c B n v.
Proof.
  unfold hi_fits. set (b := B / radix c + Z.sqrt_up n). cbv zeta.
  destruct (Z_le_gt_dec (sum_sq (map (hi_digit (radix c)) (ints (JLDIM c / ell) v))) (b * b)); [now left|right; lia].
Qed.

Lemma enc_ret rnd ct1 ct2 ptxt er noise1 noise2 : Nat.divide 4 (Kay c) -> Nat.divide 4 (Enn c) -> key_dims c -> enc_dims c ct1 ct2 ptxt er noise1 noise2 ->
  exists X1 m1 f1 X2 m2 f2 X3 m3 f3,
    ternaryE (ell := ell) R (m_point R (m_point R (pmer st) "RegevEncPtxt" (com_point c (pidx st Pt2) ptxt (rnd Pt2))) "RegevEncRnd"
      (com_point c (pidx st RR) (coeffs_of er) (rnd RR))) "RegevEncR1" (jl c) (Kay c) = Ret (X1, m1) /\ is_temat ell X1 (jl c) (Kay c) f1 /\
    ternaryE (ell := ell) R m1 "RegevEncR2" (jl c) (Enn c) = Ret (X2, m2) /\ is_temat ell X2 (jl c) (Enn c) f2 /\
    ternaryE (ell := ell) R m2 "RegevEncR3" (jl c) (Kay c) = Ret (X3, m3) /\ is_temat ell X3 (jl c) (Kay c) f3 /\
    let ok := fits c (B_r c) (compR (Kay c) er f3) /\ hi_fits c (B_eNoise1 c) (kk c) (compR (Kay c) noise1 f1) /\
              hi_fits c (B_eNoise2 c) (nn c) (compR (Enn c) noise2 f2) in
    (ok -> exists st', proveEncryption R c st rnd ct1 ct2 ptxt er noise1 noise2 = Ret st' /\ shape R st' = shape R st) /\
    (~ ok -> proveEncryption R c st rnd ct1 ct2 ptxt er noise1 noise2 = Throw).
Proof.
  intros H4 H4' (K1 & K2) (D1 & D2 & D3 & D4 & D5 & D6).
  assert (Ht : 0 < enn (cgk c)) by apply Hc. assert (Hk : 0 < kay (cgk c)) by apply Hc.
  pose proof (jl_eq c Hc) as Hjl. pose proof (jl_pos c Hc) as Hj0.
  assert (S0 : shape R st = shape R st) by reflexivity.
  destruct (ternaryE_ok R c Hc Hlib (m_point R (m_point R (pmer st) "RegevEncPtxt" (com_point c (pidx st Pt2) ptxt (rnd Pt2))) "RegevEncRnd"
      (com_point c (pidx st RR) (coeffs_of er) (rnd RR))) "RegevEncR1" (jl c) (Kay c) Hj0 H4) as (X1 & m1 & f1 & EX1 & Hf1).
  destruct (ternaryE_ok R c Hc Hlib m1 "RegevEncR2" (jl c) (Enn c) Hj0 H4') as (X2 & m2 & f2 & EX2 & Hf2).
  destruct (ternaryE_ok R c Hc Hlib m2 "RegevEncR3" (jl c) (Kay c) Hj0 H4) as (X3 & m3 & f3 & EX3 & Hf3).
  exists X1, m1, f1, X2, m2, f2, X3, m3, f3. do 6 (split; [assumption|]).
  destruct (digits_ok c Hc (vec (jl c) (compR (Kay c) noise1 f1))) as (hi1 & lo1 & Ed1 & L1 & L2 & Hhi1 & Hlo1). rewrite vec_len in L1, L2.
  destruct (digits_ok c Hc (vec (jl c) (compR (Enn c) noise2 f2))) as (hi2 & lo2 & Ed2 & L3 & L4 & Hhi2 & Hlo2). rewrite vec_len in L3, L4.
  assert (Q1 : hi_fits c (B_eNoise1 c) (kk c) (compR (Kay c) noise1 f1) <->
    sum_sq (map balanced (coeffs_of hi1)) <= (B_eNoise1 c / radix c + Z.sqrt_up (kk c)) * (B_eNoise1 c / radix c + Z.sqrt_up (kk c)))
    by (rewrite Hhi1; reflexivity).
  assert (Q2 : hi_fits c (B_eNoise2 c) (nn c) (compR (Enn c) noise2 f2) <->
    sum_sq (map balanced (coeffs_of hi2)) <= (B_eNoise2 c / radix c + Z.sqrt_up (nn c)) * (B_eNoise2 c / radix c + Z.sqrt_up (nn c)))
    by (rewrite Hhi2; reflexivity).
  destruct (pad_ok R c Hc Hlib lo1 (loBound c) (lo_fits c Hc lo1 Hsq L2 Hlo1)) as (pL1 & EpL1 & LpL1).
  destruct (pad_ok R c Hc Hlib lo2 (loBound c) (lo_fits c Hc lo2 Hsq L4 Hlo2)) as (pL2 & EpL2 & LpL2).
  unfold proveEncryption.
  destruct (comS_ok R c Hc st Hroom st Pt2 ptxt (rnd Pt2) S0 ltac:(discriminate) ltac:(lens)) as (s & E1 & Sh & Pm & Pc). bnd E1.
  destruct (comE_ok R c Hc st Hroom s RR er (rnd RR) Sh ltac:(discriminate) ltac:(lens)) as (s1 & E2 & Sh1 & Pm1 & Pc1 & Po1). bnd E2. cbv zeta.
  replace (pmer (absorb R (absorb R s1 "RegevEncPtxt" Pt2) "RegevEncRnd" RR)) with
    (m_point R (m_point R (pmer st) "RegevEncPtxt" (com_point c (pidx st Pt2) ptxt (rnd Pt2))) "RegevEncRnd" (com_point c (pidx st RR) (coeffs_of er) (rnd RR)))
    by (unfold absorb; cbn [pmer set_mer pcom]; rewrite Pm1, Pc1, Pm, (Po1 Pt2) by discriminate; now rewrite Pc).
  bnd EX1. bnd EX2. bnd EX3.
  rewrite (right_ok c Hc noise1 X1 _ _ f1 Hf1 D3), (right_ok c Hc noise2 X2 _ _ f2 Hf2 D4), (right_ok c Hc er X3 _ _ f3 Hf3 D5). cbn [obind].
  bnd Ed1. bnd Ed2. rewrite !(hib_ok c Hc). cbn [obind].
  destruct (fits_dec (B_r c) (compR (Kay c) er f3)) as [F0|F0].
  2:{ split; [tauto|]. intros _. rewrite (pad_no c Hc (vec (jl c) (compR (Kay c) er f3)) _ F0). reflexivity. }
  destruct (pad_ok R c Hc Hlib (vec (jl c) (compR (Kay c) er f3)) _ F0) as (pR & EpR & LpR). bnd EpR.
  destruct (hi_fits_dec (B_eNoise1 c) (kk c) (compR (Kay c) noise1 f1)) as [F1|F1].
  2:{ split; [tauto|]. intros _. rewrite Q1 in F1. rewrite (pad_no c Hc _ _ F1). reflexivity. }
  destruct (pad_ok R c Hc Hlib hi1 _ (proj1 Q1 F1)) as (pH1 & EpH1 & LpH1). bnd EpH1. bnd EpL1.
  destruct (hi_fits_dec (B_eNoise2 c) (nn c) (compR (Enn c) noise2 f2)) as [F2|F2].
  2:{ split; [tauto|]. intros _. rewrite Q2 in F2. rewrite (pad_no c Hc _ _ F2). reflexivity. }
  destruct (pad_ok R c Hc Hlib hi2 _ (proj1 Q2 F2)) as (pH2 & EpH2 & LpH2). bnd EpH2. bnd EpL2.
  split; [intros _|tauto].
  assert (S1 : shape R (set_mer R (absorb R (absorb R s1 "RegevEncPtxt" Pt2) "RegevEncRnd" RR) m3) = shape R st) by exact Sh1.
  do 10 cm.
  newEl R c Hc Hlib x1 m4 Ex1.
  destruct (powers_ok c Hc x1 (jl c) Hj0) as (xv1 & Exv1 & Lxv1). bnd Exv1.
  rewrite (left_ok c Hc xv1 X1 _ _ f1 Hf1 Lxv1). cbn [obind].
  destruct (vecMat_ok (gkA (cgk c)) (vec (Kay c) (compL (jl c) xv1 f1)) _ _ K1 (vec_len _ _)) as (xA & ExA & LxA). bnd ExA.
  match goal with |- context [block R ?s ?o ?ff] => destruct (block_ok R c Hc st Hroom s o ff) as (sb1 & Eb1 & Sb1 & Pb1) end.
  { assumption. }
  { unfold eLin1. lia. }
  { intros b Hb. cbv beta. first_expand b1 Lb1. expnd R c Hc b1 b2 Lb2. now apply (expand_ok R c Hc). }
  bnd Eb1. newEl R c Hc Hlib x2 m5 Ex2.
  destruct (powers_ok c Hc x2 (jl c) Hj0) as (xv2 & Exv2 & Lxv2). bnd Exv2.
  rewrite (left_ok c Hc xv2 X2 _ _ f2 Hf2 Lxv2). cbn [obind].
  destruct (vecMat_ok (gkB (cgk c)) (vec (Enn c) (compL (jl c) xv2 f2)) _ _ K2 (vec_len _ _)) as (xB & ExB & LxB). bnd ExB.
  match goal with |- context [block R ?s ?o ?ff] => destruct (block_ok R c Hc st Hroom s o ff) as (sb2 & Eb2 & Sb2 & Pb2) end.
  { assumption. }
  { unfold eLin2. lia. }
  { intros b Hb. cbv beta. first_expand b1 Lb1. expnd R c Hc b1 b2 Lb2. expnd R c Hc b2 b3 Lb3. now apply (make_ok R c Hc). }
  bnd Eb2. newEl R c Hc Hlib x3 m6 Ex3.
  destruct (powers_ok c Hc x3 (jl c) Hj0) as (xv3 & Exv3 & Lxv3). bnd Exv3.
  rewrite (left_ok c Hc (map eopp xv3) X3 _ _ f3 Hf3) by (rewrite map_length; exact Lxv3). cbn [obind].
  match goal with |- context [block R ?s ?o ?ff] => destruct (block_ok R c Hc st Hroom s o ff) as (sb3 & Eb3 & Sb3 & Pb3) end.
  { assumption. }
  { unfold rLin. lia. }
  { intros b Hb. cbv beta. first_expand b1 Lb1. now apply (expand_ok R c Hc). }
  bnd Eb3.
  do 5 nm. do 9 cp.
  match goal with |- context [copy R ?s ?x ?v] => apply (copy_ok R c Hc st Hroom s x v); [assumption|reflexivity|lens] end.
Qed.

Lemma key_ret rnd pkNum skey noise : Nat.divide 4 (jl c) -> key_dims c -> (pkNum < Enn c)%nat -> length skey = Kay c -> length noise = Kay c ->
  exists X1 m1 f1 X2 m2 f2,
    ternaryE (ell := ell) R (m_point R (pmer st) "RegevSK" (com_point c (pidx st Sk2) (coeffs_of skey) (rnd Sk2))) "RegevKeyGenR1" (Kay c) (jl c) = Ret (X1, m1) /\
    is_temat ell X1 (Kay c) (jl c) f1 /\
    ternaryE (ell := ell) R m1 "RegevKeyGenR2" (Kay c) (jl c) = Ret (X2, m2) /\ is_temat ell X2 (Kay c) (jl c) f2 /\
    let ok := fits c (B_sk c) (compL (Kay c) skey f2) /\ hi_fits c (B_kNoise c) (kk c) (compL (Kay c) noise f1) in
    (ok -> exists st', proveKeyGen R c st rnd pkNum skey noise = Ret st' /\ shape R st' = shape R st) /\
    (~ ok -> proveKeyGen R c st rnd pkNum skey noise = Throw).
Proof.
  intros H4 (K1 & K2) Hpk D1 D2. pose proof K2 as (K2r & _ & _).
  assert (Hk : 0 < kay (cgk c)) by apply Hc.
  pose proof (jl_eq c Hc) as Hjl. pose proof (jl_pos c Hc) as Hj0.
  assert (S0 : shape R st = shape R st) by reflexivity.
  destruct (ternaryE_ok R c Hc Hlib (m_point R (pmer st) "RegevSK" (com_point c (pidx st Sk2) (coeffs_of skey) (rnd Sk2)))
     "RegevKeyGenR1" (Kay c) (jl c) ltac:(lia) H4) as (X1 & m1 & f1 & EX1 & Hf1).
  destruct (ternaryE_ok R c Hc Hlib m1 "RegevKeyGenR2" (Kay c) (jl c) ltac:(lia) H4) as (X2 & m2 & f2 & EX2 & Hf2).
  exists X1, m1, f1, X2, m2, f2. do 4 (split; [assumption|]).
  destruct (digits_ok c Hc (vec (jl c) (compL (Kay c) noise f1))) as (hi & lo & Ed & L1 & L2 & Hhi & Hlo). rewrite vec_len in L1, L2.
  assert (Q1 : hi_fits c (B_kNoise c) (kk c) (compL (Kay c) noise f1) <->
    sum_sq (map balanced (coeffs_of hi)) <= (B_kNoise c / radix c + Z.sqrt_up (kk c)) * (B_kNoise c / radix c + Z.sqrt_up (kk c)))
    by (rewrite Hhi; reflexivity).
  destruct (pad_ok R c Hc Hlib lo (loBound c) (lo_fits c Hc lo Hsq L2 Hlo)) as (pL & EpL & LpL).
  unfold proveKeyGen.
  destruct (comE_ok R c Hc st Hroom st Sk2 skey (rnd Sk2) S0 ltac:(discriminate) ltac:(lens)) as (s1 & E2 & Sh1 & Pm1 & Pc1 & _). bnd E2. cbv zeta.
  replace (pmer (absorb R s1 "RegevSK" Sk2)) with (m_point R (pmer st) "RegevSK" (com_point c (pidx st Sk2) (coeffs_of skey) (rnd Sk2)))
    by (unfold absorb; cbn [pmer set_mer pcom]; now rewrite Pm1, Pc1).
  bnd EX1. bnd EX2.
  rewrite (left_ok c Hc noise X1 _ _ f1 Hf1 D2), (left_ok c Hc skey X2 _ _ f2 Hf2 D1). cbn [obind].
  bnd Ed. rewrite !(hib_ok c Hc). cbn [obind].
  destruct (fits_dec (B_sk c) (compL (Kay c) skey f2)) as [F0|F0].
  2:{ split; [tauto|]. intros _. rewrite (pad_no c Hc (vec (jl c) (compL (Kay c) skey f2)) _ F0). reflexivity. }
  destruct (pad_ok R c Hc Hlib (vec (jl c) (compL (Kay c) skey f2)) _ F0) as (pS & EpS & LpS). bnd EpS.
  destruct (hi_fits_dec (B_kNoise c) (kk c) (compL (Kay c) noise f1)) as [F1|F1].
  2:{ split; [tauto|]. intros _. rewrite Q1 in F1. rewrite (pad_no c Hc _ _ F1). reflexivity. }
  destruct (pad_ok R c Hc Hlib hi _ (proj1 Q1 F1)) as (pH & EpH & LpH). bnd EpH. bnd EpL.
  split; [intros _|tauto].
  assert (S1 : shape R (set_mer R (absorb R s1 "RegevSK" Sk2) m2) = shape R st) by exact Sh1.
  do 6 cm.
  newEl R c Hc Hlib x1 m4 Ex1.
  destruct (powers_ok c Hc x1 (jl c) Hj0) as (xv1 & Exv1 & Lxv1). bnd Exv1.
  rewrite (right_ok c Hc xv1 X1 _ _ f1 Hf1 Lxv1). cbn [obind].
  destruct (nth_error (mrows (gkB (cgk c))) pkNum) as [row|] eqn:Er; [|apply nth_error_None in Er; lia].
  unfold oget at 1. rewrite Er. cbn [obind].
  destruct (matVec_ok (gkA (cgk c)) (vec (Kay c) (compR (jl c) xv1 f1)) _ _ K1 (vec_len _ _)) as (xA & ExA & LxA). bnd ExA.
  match goal with |- context [block R ?s ?o ?ff] => destruct (block_ok R c Hc st Hroom s o ff) as (sb1 & Eb1 & Sb1 & Pb1) end.
  { assumption. }
  { unfold kLin. lia. }
  { intros b Hb. cbv beta. first_expand b1 Lb1. expnd R c Hc b1 b2 Lb2. now apply (expand_ok R c Hc). }
  bnd Eb1. newEl R c Hc Hlib x2 m5 Ex2.
  destruct (powers_ok c Hc x2 (jl c) Hj0) as (xv2 & Exv2 & Lxv2). bnd Exv2.
  rewrite (right_ok c Hc xv2 X2 _ _ f2 Hf2 Lxv2). cbn [obind].
  match goal with |- context [block R ?s ?o ?ff] => destruct (block_ok R c Hc st Hroom s o ff) as (sb2 & Eb2 & Sb2 & Pb2) end.
  { assumption. }
  { unfold sk2Lin. lia. }
  { intros b Hb. cbv beta. first_expand b1 Lb1. now apply (expand_ok R c Hc). }
  bnd Eb2.
  do 3 nm. do 5 cp.
  match goal with |- context [copy R ?s ?x ?v] => apply (copy_ok R c Hc st Hroom s x v); [assumption|reflexivity|lens] end.
Qed.
End D.
