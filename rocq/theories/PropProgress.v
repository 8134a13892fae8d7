(** Property C84: the proof steps return unless a compressed vector is too long. *)
From Coq Require Import String.
From Coq Require Import ZArith Znumtheory List Bool Lia.
From Verif Require Import NumTheory Outcome Fp FSum GroupMod Ring ConstraintsModel ConstraintsSpec BulletproofModel FourSquaresModel FourSquaresSpec AlgebraModel AlgebraSpec
  TernaryModel TernarySpec RegevModel RegevPfModel RegevPfSpec RegevStSpec RegevAggModel RegevAggSpec RegevRunModel RegevRunSpec StepSpec StepToy
  ProgressSpec ProgressBase ProgressDec ProgressEnc ProgressSml ProgressAll PropFourSquares PropRegevSt PropRegevAgg.
Import ListNotations.
Open Scope Z_scope.
Open Scope string_scope.

Section C84.
Context {p : Z} {ell : nat} {G : gmod p} {R : rmerlin G}.
Notation pstate := (@pstate p ell G R).
Notation jl c := (JLDIM c / ell)%nat.

(** Decryption: the matrix X is drawn after the commitment to the plaintext; the
    step returns if the high digits of noise*X have a norm within the bound, and
    throws if not.  The low digits always fit. *)
Theorem C84_decryption (c : cfg ell G) (st : pstate) rnd ctMat ctVec ptxt skey noise :
  wf_cfg c -> good_libs R c -> jl_sqrt c -> room c st -> Nat.divide 4 (jl c) -> dec_dims c ctMat ctVec ptxt skey noise ->
  exists X m f,
    ternaryE (ell := ell) R (m_point R (pmer st) "RegevDecPtxt" (com_point c (pidx st Pt1) ptxt (rnd Pt1))) "RegevDecX" (Tee c) (jl c) = Ret (X, m) /\
    is_temat ell X (Tee c) (jl c) f /\
    (hi_fits c (B_dNoise c) (kk c) (compL (Tee c) noise f) ->
       exists st', proveDecryption R c st rnd ctMat ctVec ptxt skey noise = Ret st' /\ room c st' /\ length (plin st') = length (plin st)) /\
    (~ hi_fits c (B_dNoise c) (kk c) (compL (Tee c) noise f) -> proveDecryption R c st rnd ctMat ctVec ptxt skey noise = Throw).
Proof.
  intros Hc Hl Hs Hr H4 HD. destruct (dec_ret R c Hc Hl Hs st Hr rnd _ _ _ _ _ H4 HD) as (X & m & f & A & B & C & D).
  exists X, m, f. split; [exact A|]. split; [exact B|]. split; [|exact D]. intros H. destruct (C H) as (s & E1 & E2). exists s. split; [exact E1|]. now apply room_shape.
Qed.
(** Encryption: three matrices. *)
Theorem C84_encryption (c : cfg ell G) (st : pstate) rnd ct1 ct2 ptxt er noise1 noise2 :
  wf_cfg c -> good_libs R c -> jl_sqrt c -> room c st -> Nat.divide 4 (Kay c) -> Nat.divide 4 (Enn c) -> key_dims c -> enc_dims c ct1 ct2 ptxt er noise1 noise2 ->
  exists X1 m1 f1 X2 m2 f2 X3 m3 f3,
    ternaryE (ell := ell) R (m_point R (m_point R (pmer st) "RegevEncPtxt" (com_point c (pidx st Pt2) ptxt (rnd Pt2))) "RegevEncRnd"
      (com_point c (pidx st RR) (coeffs_of er) (rnd RR))) "RegevEncR1" (jl c) (Kay c) = Ret (X1, m1) /\ is_temat ell X1 (jl c) (Kay c) f1 /\
    ternaryE (ell := ell) R m1 "RegevEncR2" (jl c) (Enn c) = Ret (X2, m2) /\ is_temat ell X2 (jl c) (Enn c) f2 /\
    ternaryE (ell := ell) R m2 "RegevEncR3" (jl c) (Kay c) = Ret (X3, m3) /\ is_temat ell X3 (jl c) (Kay c) f3 /\
    let ok := fits c (B_r c) (compR (Kay c) er f3) /\ hi_fits c (B_eNoise1 c) (kk c) (compR (Kay c) noise1 f1) /\
              hi_fits c (B_eNoise2 c) (nn c) (compR (Enn c) noise2 f2) in
    (ok -> exists st', proveEncryption R c st rnd ct1 ct2 ptxt er noise1 noise2 = Ret st' /\ room c st' /\ length (plin st') = length (plin st)) /\
    (~ ok -> proveEncryption R c st rnd ct1 ct2 ptxt er noise1 noise2 = Throw).
Proof.
  intros Hc Hl Hs Hr H4 H4' HK HD. destruct (enc_ret R c Hc Hl Hs st Hr rnd _ _ _ _ _ _ H4 H4' HK HD) as (X1 & m1 & f1 & X2 & m2 & f2 & X3 & m3 & f3 & A1 & A2 & A3 & A4 & A5 & A6 & C & D).
  exists X1, m1, f1, X2, m2, f2, X3, m3, f3. do 6 (split; [assumption|]). split; [|exact D]. intros H. destruct (C H) as (s & E1 & E2). exists s. split; [exact E1|]. now apply room_shape.
Qed.
(** Key generation: two matrices. *)
Theorem C84_keygen (c : cfg ell G) (st : pstate) rnd pkNum skey noise :
  wf_cfg c -> good_libs R c -> jl_sqrt c -> room c st -> Nat.divide 4 (jl c) -> key_dims c -> (pkNum < Enn c)%nat -> length skey = Kay c -> length noise = Kay c ->
  exists X1 m1 f1 X2 m2 f2,
    ternaryE (ell := ell) R (m_point R (pmer st) "RegevSK" (com_point c (pidx st Sk2) (coeffs_of skey) (rnd Sk2))) "RegevKeyGenR1" (Kay c) (jl c) = Ret (X1, m1) /\
    is_temat ell X1 (Kay c) (jl c) f1 /\
    ternaryE (ell := ell) R m1 "RegevKeyGenR2" (Kay c) (jl c) = Ret (X2, m2) /\ is_temat ell X2 (Kay c) (jl c) f2 /\
    let ok := fits c (B_sk c) (compL (Kay c) skey f2) /\ hi_fits c (B_kNoise c) (kk c) (compL (Kay c) noise f1) in
    (ok -> exists st', proveKeyGen R c st rnd pkNum skey noise = Ret st' /\ room c st' /\ length (plin st') = length (plin st)) /\
    (~ ok -> proveKeyGen R c st rnd pkNum skey noise = Throw).
Proof.
  intros Hc Hl Hs Hr H4 HK HP HD1 HD2. destruct (key_ret R c Hc Hl Hs st Hr rnd _ _ _ H4 HK HP HD1 HD2) as (X1 & m1 & f1 & X2 & m2 & f2 & A1 & A2 & A3 & A4 & C & D).
  exists X1, m1, f1, X2, m2, f2. do 4 (split; [assumption|]). split; [|exact D]. intros H. destruct (C H) as (s & E1 & E2). exists s. split; [exact E1|]. now apply room_shape.
Qed.
(** Smallness: returns iff one of the 100 trials is accepted. *)
Theorem C84_smallness (c : cfg ell G) (st : pstate) ys rs :
  wf_cfg c -> good_libs R c -> room c st -> Nat.divide 4 (LINYDIM c / ell) -> (forall t, length (ys t) = (LINYDIM c / ell)%nat) ->
  ((exists t, (t < 100)%nat /\ trial_ok c st (ys t) (rs t)) ->
     exists st', proveSmallness R c st ys rs = Ret st' /\ room c st' /\ length (plin st') = length (plin st)) /\
  (~ (exists t, (t < 100)%nat /\ trial_ok c st (ys t) (rs t)) -> proveSmallness R c st ys rs = Throw).
Proof.
  intros Hc Hl Hr H4 Hy. destruct (sml_ret R c Hc Hl H4 st Hr ys rs Hy) as [C D]. split; [|exact D].
  intros H. destruct (C H) as (s & E1 & E2). exists s. split; [exact E1|]. now apply room_shape.
Qed.
(** A vector whose norm is at most B before it is split into digits is not
    rejected: the bound for the high digits is generous enough. *)
Theorem C84_digits (c : cfg ell G) B n (v : nat -> elt p ell) : wf_cfg c -> 0 <= B -> 1 <= Z.sqrt_up n ->
  Z.of_nat (JLDIM c) <= 4 * ((Z.sqrt_up n - 1) * (Z.sqrt_up n - 1)) -> fits c B v -> hi_fits c B n v.
Proof. intros Hc HB H1 HJ. exact (hi_of_norm c Hc B n v HB HJ H1). Qed.
(** All five steps: Ret or Throw, never UB or Abort. *)
Theorem C84_steps (c : cfg ell G) (st : pstate) i :
  wf_cfg c -> good_libs R c -> jl_sqrt c -> room c st -> (7 * ell + length (cHm c) <= length (plin st))%nat ->
  Nat.divide 4 (jl c) -> Nat.divide 4 (LINYDIM c / ell) -> Nat.divide 4 (Kay c) -> Nat.divide 4 (Enn c) ->
  key_dims c -> round_dims c i -> (i_pk i < Enn c)%nat -> length (i_lag i) = Tee c -> cHm c <> [] ->
  Forall (fun r => length r = S (Enn c)) (cHm c) ->
  (exists st', proofSteps R c st i = Ret st' /\ room c st' /\ length (plin st') = length (plin st)) \/ proofSteps R c st i = Throw.
Proof. intros Hc Hl Hs. exact (steps_total R c Hc Hl Hs st i). Qed.
(** The complete proof of a true statement: both proofs are accepted or an
    exception is thrown. *)
Theorem C84_complete (c : cfg ell G) pick evs thr i (st : pstate) : prime p -> queue_order pick -> good_setup R c evs thr ->
  good_libs R c -> jl_sqrt c -> room c st ->
  Nat.divide 4 (jl c) -> Nat.divide 4 (LINYDIM c / ell) -> Nat.divide 4 (Kay c) -> Nat.divide 4 (Enn c) ->
  round_dims c i -> round_true c evs thr i -> (i_pk i < Enn c)%nat -> length (i_lag i) = Tee c -> cHm c <> [] ->
  fresh c st -> opens1 c st Sk1 (coeffs_of (i_sk1 i)) ->
  (forall st5, proofSteps R c st i = Ret st5 -> pads_found c st5 /\ all_mentioned c st5) ->
  (exists st', proofRound R c pick st i = Ret (st', (true, true))) \/ proofRound R c pick st i = Throw.
Proof.
  intros Hp Hpick Hs Hl Hsq Hr D1 D2 D3 D4 RD RT Hpk Hlag Hm Hf Ho Hpads.
  pose proof Hs as (Hc & _ & _ & _ & HK & _ & _ & HR & _).
  assert (L : (7 * ell + length (cHm c) <= length (plin st))%nat).
  { destruct Hf as (_ & -> & _). rewrite repeat_length. lia. }
  destruct (C84_steps c st i Hc Hl Hsq Hr L D1 D2 D3 D4 HK RD Hpk Hlag Hm HR) as [(st5 & E & _)|E].
  - destruct (Hpads st5 E) as [P1 P2].
    destruct (C70_complete c pick evs thr i st st5 Hp Hpick Hs RD RT Hf Ho E P1 P2) as [H|[H _]]; [now left|now right].
  - right. unfold proofRound. rewrite E. reflexivity.
Qed.
(** If the dimensions are not multiples of four, proveEncryption reads outside the
    challenge buffer (C34), whatever the arguments are. *)
Theorem C84_overrun (c : cfg ell G) (st : pstate) rnd ct1 ct2 ptxt er noise1 noise2 :
  wf_cfg c -> good_libs R c -> room c st -> (4 <= jl c)%nat -> ~ (Nat.divide 4 (Kay c) /\ Nat.divide 4 (Enn c)) ->
  length ptxt = Enn c -> length er = Kay c -> proveEncryption R c st rnd ct1 ct2 ptxt er noise1 noise2 = UB.
Proof. intros Hc Hl Hr. exact (enc_ub R c Hc Hl st rnd ct1 ct2 ptxt er noise1 noise2 Hr). Qed.
End C84.
Print Assumptions C84_decryption.
Print Assumptions C84_encryption.
Print Assumptions C84_keygen.
Print Assumptions C84_smallness.
Print Assumptions C84_digits.
Print Assumptions C84_steps.
Print Assumptions C84_complete.
Print Assumptions C84_overrun.

(** *** Example *)
(** qC with a parity-check row of the right length. *)
Definition qC2 : cfg 2 GQ :=
  Cfg PQ 2%nat GQ 8%nat 8%nat 4 jac_ex pp_ex sp_ex (fq 3) (GK 4 4 1 2 3 2 qA qB) (q2 1000 0) [[fq 1; fq (-2); fq 1; fq 0; fq 0]]
    (map (fun i => fq (Z.of_nat i * 5 + 2)) (seq 0 300)) (map (fun i => fq (Z.of_nat i * 3 + 1)) (seq 0 300)) 3 30 30 30 30 30 30 9000.
(** The noise of the decryption is (d, -1). *)
Definition q_round (d : Z) : round PQ 2 :=
  Round qRnd q_ctMat q_ctVec q_pt1 q_sk [q2 d (-1)] q_ct1 q_ct2 q_pt2 q_r q_n1 q_n2 0 q_sk q_kn [fq 1]
    (fun _ => [q2 3 4; q2 5 6; q2 0 1; q2 2 2]) (fun _ => fq 5) (fq 2) (Bl (fun _ => (fq 2, fq 3)) (fq 4, fq 5) (fun _ => (fq 6, fq 7)) (fq 8, fq 9) (fq 1, fq 2)).
Example C84_example :
  wf_cfg qC2 /\ good_libs qR qC2 /\ jl_sqrt qC2 /\ room qC2 qS /\ (7 * 2 + length (cHm qC2) <= length (plin qS))%nat /\
  Nat.divide 4 (8 / 2) /\ Nat.divide 4 (Kay qC2) /\ Nat.divide 4 (Enn qC2) /\ key_dims qC2 /\ cHm qC2 <> [] /\
  Forall (fun r => length r = S (Enn qC2)) (cHm qC2) /\
  (forall d, round_dims qC2 (q_round d) /\ (i_pk (q_round d) < Enn qC2)%nat /\ length (i_lag (q_round d)) = Tee qC2) /\
  (exists st', proofSteps qR qC2 qS (q_round 2) = Ret st') /\ proofSteps qR qC2 qS (q_round 200) = Throw.
Proof.
  split; [exact q_cfg|].
  split; [split; [exact q_bytes|]; split; [exact q_exact|]; split; [exact jac_ex_ok|exact pp_ex_sound]|].
  split; [unfold jl_sqrt; cbn; lia|].
  split. { split; [apply layout_set; vm_compute; reflexivity|]. repeat split; try (vm_compute; reflexivity); apply Nat.leb_le; vm_compute; reflexivity. }
  split; [apply Nat.leb_le; vm_compute; reflexivity|].
  split; [exists 1%nat; reflexivity|]. split; [exists 1%nat; reflexivity|]. split; [exists 1%nat; reflexivity|].
  split; [repeat split; repeat constructor; reflexivity|]. split; [discriminate|]. split; [repeat constructor|].
  split; [intros d; repeat split; try (repeat constructor; reflexivity); cbn; lia|].
  split.
  - assert (H : match proofSteps qR qC2 qS (q_round 2) with Ret _ => true | _ => false end = true) by (vm_compute; reflexivity).
    destruct (proofSteps qR qC2 qS (q_round 2)); try discriminate H. eauto.
  - assert (H : match proofSteps qR qC2 qS (q_round 200) with Throw => true | _ => false end = true) by (vm_compute; reflexivity).
    destruct (proofSteps qR qC2 qS (q_round 200)); try discriminate H. reflexivity.
Qed.
