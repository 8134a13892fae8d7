(** Properties C82-C83: what the constraints say about the noise. *)
From Coq Require Import String.
From Coq Require Import ZArith Znumtheory List Lia Bool.
From Verif Require Import NumTheory FourSquaresModel FourSquaresSpec CountTernary Outcome Fp FSum GroupMod Ring TernarySpec ConstraintsModel ConstraintsSpec BulletproofModel
  AlgebraModel AlgebraSpec RegevModel RegevPfModel RegevPfSpec RegevStSpec RegevPfSml CountSpec StepSpec StepSound NormInt StepMain StepToy PropFourSquares PropRegevSt.
Import ListNotations.
Open Scope Z_scope.
Open Scope string_scope.

(** ** C82: every step bounds its noise unless the challenges were lucky *)
(** Few challenges are lucky for given noise and mask (C79); the vanishing
    polynomial is the business of C80. *)
Theorem C82_few_left : forall p ell B n q (noise mask : nat -> elt p ell) (bufs : list (list Z)), 2 <= p -> (0 < ell)%nat -> NoDup bufs ->
  (forall b, In b bufs -> bytes b /\ length b = (ell * ((n * (4 * q) + 3) / 4))%nat /\ lucky_left B n (4 * q) noise mask b) ->
  2 ^ Z.of_nat (4 * q) * Z.of_nat (length bufs) <= 256 ^ Z.of_nat (ell * ((n * (4 * q) + 3) / 4)).
Proof. intros p ell B n q noise mask bufs Hp He. exact (lucky_left_few Hp He B n q noise mask bufs). Qed.
Print Assumptions C82_few_left.
Theorem C82_few_right : forall p ell B m q (noise mask : nat -> elt p ell) (bufs : list (list Z)), 2 <= p -> (0 < ell)%nat -> (0 < m)%nat -> NoDup bufs ->
  (forall b, In b bufs -> bytes b /\ length b = (ell * ((m * (4 * q) + 3) / 4))%nat /\ lucky_right B (4 * q) m noise mask b) ->
  2 ^ Z.of_nat m * Z.of_nat (length bufs) <= 256 ^ Z.of_nat (ell * ((m * (4 * q) + 3) / 4)).
Proof. intros p ell B m q noise mask bufs Hp He. exact (lucky_right_few Hp He B m q noise mask bufs). Qed.
Print Assumptions C82_few_right.
Lemma ternaryE_next {p ell} {G : gmod p} (R : rmerlin G) m l n k X m' : ternaryE (ell := ell) R m l n k = Ret (X, m') ->
  m' = snd (rm_bytes R m l (ell * ((n * k + 3) / 4))%nat).
Proof. unfold ternaryE. intros H. apply obind_ret_inv in H as (Y & _ & H). now injection H. Qed.
Section C82.
Context {p : Z} {ell : nat} {G : gmod p}.
Notation F := (Fp p).
Notation E := (elt p ell).
Notation nCols c := (LINYDIM c / ell)%nat.
Notation nRows c := (10 * (JLDIM c + 4) / ell)%nat.

Theorem C82_decryption (R : rmerlin G) (c : cfg ell G) st st' rnd ctMat ctVec ptxt skey noise :
  wf_cfg c -> byte_transcript R -> exact_transcript R -> Nat.divide 4 (Jl c ell) ->
  dec_dims c ctMat ctVec ptxt skey noise ->
  proveDecryption R c st rnd ctMat ctVec ptxt skey noise = Ret st' ->
  exists f x, dec_challenges c st st' f x /\
    forall B w, 0 <= B -> block_sat (ell := ell) (plin st') dLin w ->
      let digits := two_dig (ell := ell) c w (pidx st DCompLo) (pidx st DCompHi) in
      within B (Jl c ell) digits ->
      caught_left R (m_point R (pmer st) "RegevDecPtxt" (pcom st' Pt1)) "RegevDecX" B (Tee c) (Jl c ell)
        (dec_noise c st ctMat ctVec w) nomask digits f x.
Proof.
  intros Hc Hb Hx H4 Hd H. destruct (C47_meaning R c st st' rnd ctMat ctVec ptxt skey noise Hc Hb Hd H) as (f & x & Hch & M & _).
  pose proof (cfg_p c Hc) as Hp. pose proof (cfg_ell c Hc) as He.
  exists f, x. split; [exact Hch|]. intros B w HB Hw digits Ht. destruct Hch as (Ms & m1 & T1 & T2 & _).
  eapply (caught_left_intro Hp He Hb Hx); try eassumption.
  - destruct Hc as (_ & _ & _ & _ & _ & _ & _ & _ & K & _). lia.
  - apply (compressed_mask He). now apply M.
Qed.
Print Assumptions C82_decryption.
Theorem C82_encryption (R : rmerlin G) (c : cfg ell G) st st' rnd ct1 ct2 ptxt er noise1 noise2 :
  wf_cfg c -> byte_transcript R -> exact_transcript R -> Nat.divide 4 (Kay c) -> Nat.divide 4 (Enn c) ->
  key_dims c -> enc_dims c ct1 ct2 ptxt er noise1 noise2 -> block_empty (ell := ell) (plin st) (rLin (ell := ell)) ->
  proveEncryption R c st rnd ct1 ct2 ptxt er noise1 noise2 = Ret st' ->
  exists f1 f2 f3 x1 x2 x3, enc_challenges c st st' f1 f2 f3 x1 x2 x3 /\
    (forall B w, 0 <= B -> block_sat (ell := ell) (plin st') (eLin1 (ell := ell)) w ->
      let digits := two_dig (ell := ell) c w (pidx st EComp1Lo) (pidx st EComp1Hi) in
      within B (Jl c ell) digits ->
      caught_right R (enc_mer0 st st') "RegevEncR1" B (Kay c) (Jl c ell)
        (enc_noise1 c st ct1 w) nomask digits f1 x1) /\
    (forall B w, 0 <= B -> block_sat (ell := ell) (plin st') (eLin2 (ell := ell)) w ->
      let digits := two_dig (ell := ell) c w (pidx st EComp2Lo) (pidx st EComp2Hi) in
      within B (Jl c ell) digits ->
      caught_right R (enc_mer1 c st st') "RegevEncR2" B (Enn c) (Jl c ell) (enc_noise2 c st ct2 w) nomask digits f2 x2) /\
    (forall B w, 0 <= B -> block_sat (ell := ell) (plin st') (rLin (ell := ell)) w ->
      within (ell := ell) B (Jl c ell) (readV w (pidx st RComp)) ->
      caught_right R (enc_mer2 c st st') "RegevEncR3" B (Kay c) (Jl c ell) (readV w (pidx st RR)) nomask (readV w (pidx st RComp)) f3 x3).
Proof.
  intros Hc Hb Hx H4 H4' Hk Hd He0 H.
  destruct (C48_meaning R c st st' rnd ct1 ct2 ptxt er noise1 noise2 Hc Hb Hk Hd He0 H) as (f1 & f2 & f3 & x1 & x2 & x3 & Hch & M1 & M2 & M3 & _).
  pose proof (cfg_p c Hc) as Hp. pose proof (cfg_ell c Hc) as He. pose proof Hch as (X1 & m1 & X2 & m2 & X3 & m3 & m4 & m5 & T1 & T2 & T3 & V1 & V2 & V3 & _).
  assert (J : (0 < Jl c ell)%nat) by (destruct Hc as (_ & _ & (d & D) & _ & J0 & _); rewrite D in *; rewrite Nat.div_mul by lia; nia).
  pose proof (ternaryE_next R _ _ _ _ _ _ T1) as E1. pose proof (ternaryE_next R _ _ _ _ _ _ T2) as E2.
  fold (enc_mer0 st st') in T1, E1. fold (enc_mer1 c st st') in E1. rewrite E1 in T2, E2. fold (enc_mer2 c st st') in E2. rewrite E2 in T3.
  exists f1, f2, f3, x1, x2, x3. split; [exact Hch|].
  split; [|split]; intros B w HB Hw; [intros digits|intros digits|]; intros Ht; eapply (caught_right_intro Hp He Hb Hx); try eassumption;
    apply (compressed_mask He); [now apply M1|now apply M2|now apply M3].
Qed.
Print Assumptions C82_encryption.
Theorem C82_keygen (R : rmerlin G) (c : cfg ell G) st st' rnd pkNum skey noise :
  wf_cfg c -> byte_transcript R -> exact_transcript R -> Nat.divide 4 (Jl c ell) ->
  key_dims c -> length noise = Kay c -> length skey = Kay c ->
  proveKeyGen R c st rnd pkNum skey noise = Ret st' ->
  exists f1 f2 x1 x2, key_challenges c st st' f1 f2 x1 x2 /\
    (forall B w, 0 <= B -> block_sat (ell := ell) (plin st') (kLin (ell := ell)) w ->
      let digits := two_dig (ell := ell) c w (pidx st KCompLo) (pidx st KCompHi) in
      within B (Jl c ell) digits ->
      caught_left R (key_mer0 st st') "RegevKeyGenR1" B (Kay c) (Jl c ell) (key_noise c st pkNum w) nomask digits f1 x1) /\
    (forall B w, 0 <= B -> block_sat (ell := ell) (plin st') (sk2Lin (ell := ell)) w ->
      within (ell := ell) B (Jl c ell) (readV w (pidx st Sk2Comp)) ->
      caught_left R (key_mer1 c st st') "RegevKeyGenR2" B (Kay c) (Jl c ell) (readV w (pidx st Sk2)) nomask (readV w (pidx st Sk2Comp)) f2 x2).
Proof.
  intros Hc Hb Hx H4 Hk D1 D2 H. destruct (C49_meaning R c st st' rnd pkNum skey noise Hc Hb Hk D1 D2 H) as (_ & f1 & f2 & x1 & x2 & Hch & M1 & M2 & _).
  pose proof (cfg_p c Hc) as Hp. pose proof (cfg_ell c Hc) as He. pose proof Hch as (X1 & m1 & X2 & m2 & m3 & T1 & T2 & V1 & V2 & _).
  assert (K : (0 < Kay c)%nat) by (destruct Hc as (_ & _ & _ & _ & _ & _ & K & _); lia).
  pose proof (ternaryE_next R _ _ _ _ _ _ T1) as E1. fold (key_mer0 st st') in T1, E1. fold (key_mer1 c st st') in E1. rewrite E1 in T2.
  exists f1, f2, x1, x2. split; [exact Hch|].
  split; intros B w HB Hw; [intros digits|]; intros Ht; eapply (caught_left_intro Hp He Hb Hx); try eassumption;
    apply (compressed_mask He); [now apply M1|now apply M2].
Qed.
Print Assumptions C82_keygen.
(** Smallness: here the bound is enforced by the verifier, on the reply z. *)
Theorem C82_smallness (R : rmerlin G) (c : cfg ell G) st st' ys rs :
  wf_cfg c -> byte_transcript R -> exact_transcript R -> Nat.divide 4 (nCols c) -> (forall t, length (ys t) = nCols c) ->
  proveSmallness R c st ys rs = Ret st' ->
  exists f x, sml_challenges c st st' f x /\
    forall w, block_sat (ell := ell) (plin st') (smlnsLin (ell := ell)) w ->
      scalars_within (2 * B_smallness c) (fun k => 0 <= k < 10 * (Z.of_nat (JLDIM c) + 4)) w \/ sml_escape c st st' f x w.
Proof.
  intros Hc Hb Hx H4 Hy H. destruct (sml_main R c Hc Hb _ _ _ _ H Hy) as (t & f & x & u & Hch & M & _ & L & Lz & Lu & D1 & D2 & D3 & D4 & _).
  pose proof (cfg_p c Hc) as Hp. pose proof (cfg_ell c Hc) as He.
  exists f, x. split; [exact Hch|]. intros w Hw. destruct Hch as (X & m1 & T1 & T2 & _).
  assert (C : caught_left R (m_point R (pmer st) "smallnessPf" (pcom st' YY)) "Smallness" (B_smallness c) (nRows c) (nCols c)
    (readV w 0) (readV w (pidx st YY)) (fun j => nth j (pz st') e0) f x).
  { eapply (caught_left_intro Hp He Hb Hx); try eassumption.
    - destruct Hc as (_ & (d4 & D4') & (d & D) & _). rewrite D in *.
      replace (10 * (d * ell + 4))%nat with (10 * (d + d4) * ell)%nat by lia. rewrite Nat.div_mul by lia. nia.
    - apply (linf_le Hp He) in D4. tauto.
    - apply (linf_within Hp He); assumption.
    - now apply M. }
  destruct C as [C|C]; [left|right; exact C]. apply (readV_scalars c Hc) in C. rewrite (rows_mul c Hc) in C.
  intros k z Hk. apply C. lia.
Qed.
Print Assumptions C82_smallness.
End C82.

(** ** C83: the steps together *)
Section C83.
Context {p : Z} {ell : nat} {G : gmod p}.
Notation F := (Fp p).
Notation E := (elt p ell).
Notation nCols c := (LINYDIM c / ell)%nat.

Theorem C83_decryption (R : rmerlin G) (c : cfg ell G) st st1 rnd ctMat ctVec ptxt skey noise st2 st3 ys rs :
  wf_cfg c -> byte_transcript R -> exact_transcript R -> jacobi_ok (cjac c) -> prime_test_sound (cpp c) -> wf_state c st ->
  Nat.divide 4 (Jl c ell) -> Nat.divide 4 (nCols c) ->
  dec_dims c ctMat ctVec ptxt skey noise -> norm_fresh c st 0 DCompHi DPadHi -> norm_fresh c st 1 DCompLo DPadLo ->
  proveDecryption R c st rnd ctMat ctVec ptxt skey noise = Ret st1 ->
  (forall t, length (ys t) = nCols c) -> proveSmallness R c st2 ys rs = Ret st3 ->
  exists hib f x f' x', hiBound c (B_dNoise c) (kk c) = Ret hib /\ dec_challenges c st st1 f x /\ sml_challenges c st2 st3 f' x' /\
    (no_wrap c [hib; loBound c] -> forall w,
     block_sat (ell := ell) (plin st1) dLin w -> norm_sat st1 0 w -> norm_sat st1 1 w -> block_sat (ell := ell) (plin st3) (smlnsLin (ell := ell)) w ->
     caught_left R (m_point R (pmer st) "RegevDecPtxt" (pcom st1 Pt1)) "RegevDecX" (loBound c + radix c * hib) (Tee c) (Jl c ell)
        (dec_noise c st ctMat ctVec w) nomask (two_dig (ell := ell) c w (pidx st DCompLo) (pidx st DCompHi)) f x \/
     sml_escape c st2 st3 f' x' w).
Proof.
  intros Hc Hb Hx Hj Hpp Hs H4 H4' Hd N0 N1 H Hy Hsm.
  destruct (C82_decryption R c st st1 rnd ctMat ctVec ptxt skey noise Hc Hb Hx H4 Hd H) as (f & x & Hch & M).
  destruct (C82_smallness R c st2 st3 ys rs Hc Hb Hx H4' Hy Hsm) as (f' & x' & Hch' & M').
  destruct (C47_norms R c st st1 rnd ctMat ctVec ptxt skey noise Hc Hb Hs Hj Hpp Hd H N0 N1) as (hib & Eh & D0 & D1).
  destruct (C47_state R c st st1 rnd ctMat ctVec ptxt skey noise Hc Hb Hs Hj Hpp Hd H) as (_ & _ & _ & _ & (Ei & _) & (Hl & _)).
  exists hib, f, x, f', x'. split; [exact Eh|]. split; [exact Hch|]. split; [exact Hch'|].
  intros HW w Hw S0 S1 Hw'. destruct (M' w Hw') as [Sm|Sm]; [left|right; exact Sm].
  destruct (two_within c Hc st1 0 1 (loBound c) hib (pidx st DCompLo) (pidx st DCompHi) DCompLo DPadLo DCompHi DPadHi w _ Hl
    eq_refl eq_refl eq_refl eq_refl D0 D1 S0 S1 HW) as [B0 W]; [cbn; auto|cbn; auto|congruence|congruence|exact Sm|].
  now apply M.
Qed.
Print Assumptions C83_decryption.
Theorem C83_encryption (R : rmerlin G) (c : cfg ell G) st st1 rnd ct1 ct2 ptxt er noise1 noise2 st2 st3 ys rs :
  wf_cfg c -> byte_transcript R -> exact_transcript R -> jacobi_ok (cjac c) -> prime_test_sound (cpp c) -> wf_state c st ->
  Nat.divide 4 (Kay c) -> Nat.divide 4 (Enn c) -> Nat.divide 4 (nCols c) ->
  key_dims c -> enc_dims c ct1 ct2 ptxt er noise1 noise2 -> block_empty (ell := ell) (plin st) (rLin (ell := ell)) ->
  norm_fresh c st 2 RComp RPad -> norm_fresh c st 3 EComp1Hi EPad1Hi -> norm_fresh c st 4 EComp1Lo EPad1Lo ->
  norm_fresh c st 5 EComp2Hi EPad2Hi -> norm_fresh c st 6 EComp2Lo EPad2Lo ->
  proveEncryption R c st rnd ct1 ct2 ptxt er noise1 noise2 = Ret st1 ->
  (forall t, length (ys t) = nCols c) -> proveSmallness R c st2 ys rs = Ret st3 ->
  exists hib1 hib2 f1 f2 f3 x1 x2 x3 f' x', hiBound c (B_eNoise1 c) (kk c) = Ret hib1 /\ hiBound c (B_eNoise2 c) (nn c) = Ret hib2 /\
    enc_challenges c st st1 f1 f2 f3 x1 x2 x3 /\ sml_challenges c st2 st3 f' x' /\
    (no_wrap c [hib1; hib2; loBound c; B_r c] -> forall w,
     block_sat (ell := ell) (plin st1) (eLin1 (ell := ell)) w -> block_sat (ell := ell) (plin st1) (eLin2 (ell := ell)) w -> block_sat (ell := ell) (plin st1) (rLin (ell := ell)) w ->
     (forall i, (2 <= i <= 6)%nat -> norm_sat st1 i w) -> block_sat (ell := ell) (plin st3) (smlnsLin (ell := ell)) w ->
     (caught_right R (enc_mer0 st st1) "RegevEncR1" (loBound c + radix c * hib1)
        (Kay c) (Jl c ell) (enc_noise1 c st ct1 w) nomask (two_dig (ell := ell) c w (pidx st EComp1Lo) (pidx st EComp1Hi)) f1 x1 /\
      caught_right R (enc_mer1 c st st1) "RegevEncR2" (loBound c + radix c * hib2) (Enn c) (Jl c ell) (enc_noise2 c st ct2 w) nomask
        (two_dig (ell := ell) c w (pidx st EComp2Lo) (pidx st EComp2Hi)) f2 x2 /\
      caught_right R (enc_mer2 c st st1) "RegevEncR3" (B_r c) (Kay c) (Jl c ell) (readV w (pidx st RR)) nomask (readV w (pidx st RComp)) f3 x3) \/
     sml_escape c st2 st3 f' x' w).
Proof.
  intros Hc Hb Hx Hj Hpp Hs H4 H4n H4' Hk Hd He N2 N3 N4 N5 N6 H Hy Hsm.
  destruct (C82_encryption R c st st1 rnd ct1 ct2 ptxt er noise1 noise2 Hc Hb Hx H4 H4n Hk Hd He H) as (f1 & f2 & f3 & x1 & x2 & x3 & Hch & M1 & M2 & M3).
  destruct (C82_smallness R c st2 st3 ys rs Hc Hb Hx H4' Hy Hsm) as (f' & x' & Hch' & M').
  destruct (C48_norms R c st st1 rnd ct1 ct2 ptxt er noise1 noise2 Hc Hb Hs Hj Hpp Hk Hd He H N2 N3 N4 N5 N6) as (hib1 & hib2 & Eh1 & Eh2 & D2 & D3 & D4 & D5 & D6).
  destruct (C48_state R c st st1 rnd ct1 ct2 ptxt er noise1 noise2 Hc Hb Hs Hj Hpp Hk Hd He H) as (_ & _ & _ & _ & _ & (Ei & _) & (Hl & _)).
  exists hib1, hib2, f1, f2, f3, x1, x2, x3, f', x'. split; [exact Eh1|]. split; [exact Eh2|]. split; [exact Hch|]. split; [exact Hch'|].
  intros HW w Hw1 Hw2 Hw3 S Hw'. destruct (M' w Hw') as [Sm|Sm]; [left|right; exact Sm].
  destruct (two_within c Hc st1 3 4 (loBound c) hib1 (pidx st EComp1Lo) (pidx st EComp1Hi) EComp1Lo EPad1Lo EComp1Hi EPad1Hi w _ Hl
    eq_refl eq_refl eq_refl eq_refl D3 D4 (S 3%nat ltac:(lia)) (S 4%nat ltac:(lia)) HW) as [B1 W1]; [cbn; auto|cbn; auto|congruence|congruence|exact Sm|].
  destruct (two_within c Hc st1 5 6 (loBound c) hib2 (pidx st EComp2Lo) (pidx st EComp2Hi) EComp2Lo EPad2Lo EComp2Hi EPad2Hi w _ Hl
    eq_refl eq_refl eq_refl eq_refl D5 D6 (S 5%nat ltac:(lia)) (S 6%nat ltac:(lia)) HW) as [B2 W2]; [cbn; auto|cbn; auto|congruence|congruence|exact Sm|].
  pose proof (one_within c Hc st1 2 (B_r c) RComp RPad w _ Hl eq_refl eq_refl D2 (S 2%nat ltac:(lia)) HW ltac:(cbn; auto) Sm) as W3.
  assert (B3 : 0 <= B_r c) by (destruct HW as (_ & _ & HF); rewrite Forall_forall in HF; apply (HF (B_r c)); cbn; auto).
  rewrite Ei in W3. split; [now apply M1|]. split; [now apply M2|now apply M3].
Qed.
Print Assumptions C83_encryption.
Theorem C83_keygen (R : rmerlin G) (c : cfg ell G) st st1 rnd pkNum skey noise st2 st3 ys rs :
  wf_cfg c -> byte_transcript R -> exact_transcript R -> jacobi_ok (cjac c) -> prime_test_sound (cpp c) -> wf_state c st ->
  Nat.divide 4 (Jl c ell) -> Nat.divide 4 (nCols c) ->
  key_dims c -> length noise = Kay c -> length skey = Kay c ->
  norm_fresh c st 7 Sk2Comp Sk2Pad -> norm_fresh c st 8 KCompHi KPadHi -> norm_fresh c st 9 KCompLo KPadLo ->
  proveKeyGen R c st rnd pkNum skey noise = Ret st1 ->
  (forall t, length (ys t) = nCols c) -> proveSmallness R c st2 ys rs = Ret st3 ->
  exists hib f1 f2 x1 x2 f' x', hiBound c (B_kNoise c) (kk c) = Ret hib /\ key_challenges c st st1 f1 f2 x1 x2 /\ sml_challenges c st2 st3 f' x' /\
    (no_wrap c [hib; loBound c; B_sk c] -> forall w,
     block_sat (ell := ell) (plin st1) (kLin (ell := ell)) w -> block_sat (ell := ell) (plin st1) (sk2Lin (ell := ell)) w ->
     norm_sat st1 7 w -> norm_sat st1 8 w -> norm_sat st1 9 w -> block_sat (ell := ell) (plin st3) (smlnsLin (ell := ell)) w ->
     (caught_left R (key_mer0 st st1) "RegevKeyGenR1" (loBound c + radix c * hib) (Kay c) (Jl c ell)
        (key_noise c st pkNum w) nomask (two_dig (ell := ell) c w (pidx st KCompLo) (pidx st KCompHi)) f1 x1 /\
      caught_left R (key_mer1 c st st1) "RegevKeyGenR2" (B_sk c) (Kay c) (Jl c ell) (readV w (pidx st Sk2)) nomask (readV w (pidx st Sk2Comp)) f2 x2) \/
     sml_escape c st2 st3 f' x' w).
Proof.
  intros Hc Hb Hx Hj Hpp Hs H4 H4' Hk L1 L2 N7 N8 N9 H Hy Hsm.
  destruct (C82_keygen R c st st1 rnd pkNum skey noise Hc Hb Hx H4 Hk L1 L2 H) as (f1 & f2 & x1 & x2 & Hch & M1 & M2).
  destruct (C82_smallness R c st2 st3 ys rs Hc Hb Hx H4' Hy Hsm) as (f' & x' & Hch' & M').
  destruct (C49_norms R c st st1 rnd pkNum skey noise Hc Hb Hs Hj Hpp Hk L1 L2 H N7 N8 N9) as (hib & Eh & D7 & D8 & D9).
  destruct (C49_state R c st st1 rnd pkNum skey noise Hc Hb Hs Hj Hpp Hk L1 L2 H) as (_ & _ & _ & (Ei & _) & (Hl & _)).
  exists hib, f1, f2, x1, x2, f', x'. split; [exact Eh|]. split; [exact Hch|]. split; [exact Hch'|].
  intros HW w Hw1 Hw2 S7 S8 S9 Hw'. destruct (M' w Hw') as [Sm|Sm]; [left|right; exact Sm].
  destruct (two_within c Hc st1 8 9 (loBound c) hib (pidx st KCompLo) (pidx st KCompHi) KCompLo KPadLo KCompHi KPadHi w _ Hl
    eq_refl eq_refl eq_refl eq_refl D8 D9 S8 S9 HW) as [B1 W1]; [cbn; auto|cbn; auto|congruence|congruence|exact Sm|].
  pose proof (one_within c Hc st1 7 (B_sk c) Sk2Comp Sk2Pad w _ Hl eq_refl eq_refl D7 S7 HW ltac:(cbn; auto) Sm) as W3.
  assert (B3 : 0 <= B_sk c) by (destruct HW as (_ & _ & HF); rewrite Forall_forall in HF; apply (HF (B_sk c)); cbn; auto).
  rewrite Ei in W3. split; [now apply M1|now apply M2].
Qed.
Print Assumptions C83_keygen.
End C83.

Lemma q_ddims : dec_dims qC q_ctMat q_ctVec q_pt1 q_sk q_dn.
Proof. repeat split; repeat constructor. Qed.
Lemma q_kdims : key_dims qC.
Proof. repeat split; repeat constructor. Qed.
Lemma q_edims : enc_dims qC q_ct1 q_ct2 q_pt2 q_r q_n1 q_n2.
Proof. repeat split. Qed.
Lemma q_nowrap : no_wrap qC [13; 13; 12; 30].
Proof. split; [vm_compute; discriminate|]. split; [vm_compute; reflexivity|]. repeat constructor; vm_compute; solve [reflexivity|discriminate]. Qed.
(** The hypotheses of C82 and C83 for the three steps, each followed by the
    smallness step; the witness recorded at the end satisfies all constraints. *)
Example C83_example : exists s1 s1' s2 s2' s3 s3',
  q_dec qS = Ret s1 /\ q_sml s1 = Ret s1' /\ q_enc qS = Ret s2 /\ q_sml s2 = Ret s2' /\ q_key qS = Ret s3 /\ q_sml s3 = Ret s3' /\
  wf_cfg qC /\ byte_transcript qR /\ exact_transcript qR /\ jacobi_ok (cjac qC) /\ prime_test_sound (cpp qC) /\ wf_state qC qS /\
  Nat.divide 4 (Jl qC 2) /\ Nat.divide 4 (LINYDIM qC / 2) /\ Nat.divide 4 (Kay qC) /\ Nat.divide 4 (Enn qC) /\
  dec_dims qC q_ctMat q_ctVec q_pt1 q_sk q_dn /\ key_dims qC /\ enc_dims qC q_ct1 q_ct2 q_pt2 q_r q_n1 q_n2 /\
  block_empty (ell := 2) (plin qS) (rLin (ell := 2)) /\ (forall i x y, (i < 10)%nat -> norm_fresh qC qS i x y) /\
  hiBound qC 30 (kk qC) = Ret 13 /\ loBound qC = 12 /\ no_wrap qC [13; 13; 12; 30] /\
  (forall s s', In (s, s') [(s1, s1'); (s2, s2'); (s3, s3')] ->
    (forall off, (off <= 13)%nat -> block_sat (ell := 2) (plin s) off (coef (plinW s')) /\ block_sat (ell := 2) (plin s') off (coef (plinW s'))) /\
    (forall i, (i < 10)%nat -> norm_sat s i (coef (plinW s')))).
Proof.
  destruct q_runs as (s1 & s1' & s2 & s2' & s3 & s3' & A1 & A2 & A3 & B1 & B2 & B3 & C1 & C2 & C3).
  exists s1, s1', s2, s2', s3, s3'. repeat (split; [assumption|]).
  split; [exact q_cfg|]. split; [exact q_bytes|]. split; [exact q_exact|]. split; [exact jac_ex_ok|]. split; [exact pp_ex_sound|]. split; [exact q_state|].
  split; [now exists 1%nat|]. split; [now exists 1%nat|]. split; [now exists 1%nat|]. split; [now exists 1%nat|].
  split; [exact q_ddims|]. split; [exact q_kdims|]. split; [exact q_edims|]. split; [apply q_empty; cbn; lia|]. split; [exact q_fresh|].
  split; [vm_compute; reflexivity|]. split; [vm_compute; reflexivity|]. split; [exact q_nowrap|].
  intros s s' [H|[H|[H|[]]]]; injection H as <- <-; now apply q_ok_sound.
Qed.
