(** Properties C47-C51: the proof steps for decryption, encryption, key
    generation, re-sharing and smallness. *)
From Coq Require Import String.
From Coq Require Import ZArith Znumtheory List Lia Bool Ring.
From Verif Require Import NumTheory Outcome Fp FSum GroupMod Ring ConstraintsModel ConstraintsSpec FourSquaresModel FourSquaresSpec BulletproofModel
  AlgebraModel AlgebraSpec TernaryModel TernarySpec RegevModel ShamirModel ShamirSpec RegevPfModel RegevPfSpec RegevStSpec
  RegevPfSat RegevPfSatDec RegevPfSatEnc RegevPfSatKey RegevPfShare RegevPfSml RegevPfToy PropFourSquares.
Import ListNotations.
Open Scope Z_scope.
Add Ring F101p : (@Fp_ring 101).
Notation Kay c := (Z.to_nat (kay (cgk c))).
Notation Enn c := (Z.to_nat (enn (cgk c))).
Notation Tee c := (Z.to_nat (tee (cgk c))).
Notation Jl c ell := (JLDIM c / ell)%nat.

(** ** C47: proof of decryption *)
Section Dec.
Context {p : Z} {ell : nat} {G : gmod p}.
Notation F := (Fp p).
Notation E := (elt p ell).

(** The run is a correct decryption: noise = ctVec - sk*ctMat - ptxt*g. *)
Definition decrypts (c : cfg ell G) (ctMat : mat E) (ctVec : list E) (ptxt : list F) (skey noise : list E) : Prop :=
  forall i, (i < Tee c)%nat -> nth i noise e0 =
    esub (esub (nth i ctVec e0) (sumE (Kay c) (fun k => emul (mget e0 ctMat k i) (nth k skey e0)))) (escale (nth i ptxt 0%F) (cg c)).
(** The vectors have the dimensions that the parameters prescribe. *)
Definition dec_dims (c : cfg ell G) (ctMat : mat E) (ctVec : list E) (ptxt : list F) (skey noise : list E) : Prop :=
  mat_dims ctMat (Kay c) (Tee c) /\ length ctVec = Tee c /\ length ptxt = Tee c /\ length skey = Kay c /\ length noise = Tee c.

(** The ell linear constraints hold for w iff w solves the equation compressed
    with the challenges, which depend on the commitments made before. *)
Theorem C47_meaning (R : rmerlin G) (c : cfg ell G) st st' rnd ctMat ctVec ptxt skey noise :
  wf_cfg c -> byte_transcript R -> dec_dims c ctMat ctVec ptxt skey noise ->
  proveDecryption R c st rnd ctMat ctVec ptxt skey noise = Ret st' ->
  exists f x, dec_challenges c st st' f x /\
    (forall w, block_sat (ell := ell) (plin st') dLin w <->
       compressed_eq (Jl c ell) (Tee c) x (Xent f) (two_dig c w (pidx st DCompLo) (pidx st DCompHi)) (dec_noise c st ctMat ctVec w)) /\
    (forall i, (i < ell)%nat -> exists con, nth_error (plin st') (dLin + i) = Some con /\
       forall k, In k (keys (lterms con)) <-> in_var c st DCompLo k \/ in_var c st DCompHi k \/ in_var c st Sk1 k \/ in_var c st Pt1 k).
Proof.
  intros Hc Hb (D1 & D2 & D3 & D4 & D5) H.
  destruct (dec_main R c Hc Hb _ _ _ _ _ _ _ _ H D1 D2 D5 D4 D3) as (f & x & _ & _ & _ & _ & _ & _ & A & B & C & _). eauto.
Qed.
Print Assumptions C47_meaning.
Theorem C47_linear (R : rmerlin G) (c : cfg ell G) st st' rnd ctMat ctVec ptxt skey noise :
  wf_cfg c -> byte_transcript R -> wf_state c st -> jacobi_ok (cjac c) -> prime_test_sound (cpp c) ->
  dec_dims c ctMat ctVec ptxt skey noise ->
  proveDecryption R c st rnd ctMat ctVec ptxt skey noise = Ret st' ->
  decrypts c ctMat ctVec ptxt skey noise ->
  block_sat (ell := ell) (plin st') dLin (coef (plinW st')).
Proof.
  intros Hc Hb Hs Hj Hp (D1 & D2 & D3 & D4 & D5) H.
  apply (dec_post R c Hc Hb _ _ _ _ _ _ _ _ H D1 D2 Hs Hj Hp D5 D4 D3).
Qed.
Print Assumptions C47_linear.
(** Each norm constraint is |compressed|^2 + |padding|^2 = bound^2 and holds,
    unless the four-squares search reported a failure. *)
Theorem C47_norms (R : rmerlin G) (c : cfg ell G) st st' rnd ctMat ctVec ptxt skey noise :
  wf_cfg c -> byte_transcript R -> wf_state c st -> jacobi_ok (cjac c) -> prime_test_sound (cpp c) ->
  dec_dims c ctMat ctVec ptxt skey noise ->
  proveDecryption R c st rnd ctMat ctVec ptxt skey noise = Ret st' ->
  norm_fresh c st 0 DCompHi DPadHi -> norm_fresh c st 1 DCompLo DPadLo ->
  exists hib, hiBound c (B_dNoise c) (kk c) = Ret hib /\
    norm_done c st' 0 hib DCompHi DPadHi /\ norm_done c st' 1 (loBound c) DCompLo DPadLo.
Proof.
  intros Hc Hb Hs Hj Hp (D1 & D2 & D3 & D4 & D5) H N1 N2.
  destruct (dec_post R c Hc Hb _ _ _ _ _ _ _ _ H D1 D2 Hs Hj Hp D5 D4 D3) as (_ & (hib & A & B & C) & _). exists hib. auto.
Qed.
Print Assumptions C47_norms.
(** What is committed to, what the witness holds, and that nothing else changes. *)
Theorem C47_state (R : rmerlin G) (c : cfg ell G) st st' rnd ctMat ctVec ptxt skey noise :
  wf_cfg c -> byte_transcript R -> wf_state c st -> jacobi_ok (cjac c) -> prime_test_sound (cpp c) ->
  dec_dims c ctMat ctVec ptxt skey noise ->
  proveDecryption R c st rnd ctMat ctVec ptxt skey noise = Ret st' ->
  committed1 c st' Pt1 (rnd Pt1) /\ stores (plinW st') (pidx st' Pt1) ptxt /\ stores (plinW st') (pidx st' Sk1) (coeffs_of skey) /\
  (forall x, In x [DCompHi; DPadHi; DCompLo; DPadLo] -> committed2 c st' x (rnd x) /\ synced c st' x) /\
  step_frame c st st' [DCompHi; DPadHi; DCompLo; DPadLo; Sk1; Pt1] [DCompHi; DPadHi; DCompLo; DPadLo; Pt1] [0%nat; 1%nat] [dLin] /\
  wf_state c st'.
Proof.
  intros Hc Hb Hs Hj Hp (D1 & D2 & D3 & D4 & D5) H.
  destruct (dec_post R c Hc Hb _ _ _ _ _ _ _ _ H D1 D2 Hs Hj Hp D5 D4 D3) as (_ & _ & A & B & C & D & K & L). auto 10.
Qed.
Print Assumptions C47_state.
End Dec.

Ltac fpeq := apply coeff_ext; intros [|[|?]] ?; try lia; apply Fp_eq; vm_compute; reflexivity.
Lemma toy_decrypts : decrypts toyC t_ctMat t_ctVec t_pt1 t_sk t_dn.
Proof. intros [|i] Hi; [fpeq|exfalso; cbn in Hi; lia]. Qed.
Example C47_example : exists st', t_dec toyS = Ret st' /\
  wf_cfg toyC /\ byte_transcript toyR /\ wf_state toyC toyS /\ jacobi_ok (cjac toyC) /\ prime_test_sound (cpp toyC) /\
  dec_dims toyC t_ctMat t_ctVec t_pt1 t_sk t_dn /\ decrypts toyC t_ctMat t_ctVec t_pt1 t_sk t_dn /\
  norm_fresh toyC toyS 0 DCompHi DPadHi /\ norm_fresh toyC toyS 1 DCompLo DPadLo /\
  Forall (fun q => quad_sat q (coef (pqG st')) (coef (pqG st'))) (pnorm st') /\
  block_sat (ell := 2) (plin st') dLin (coef (plinW st')).
Proof.
  destruct (run_ok (t_dec toyS) all_ok) as (st' & H & K); [vm_compute; reflexivity|]. exists st'.
  assert (D : dec_dims toyC t_ctMat t_ctVec t_pt1 t_sk t_dn) by (repeat split; repeat constructor; reflexivity).
  split; [exact H|]. split; [exact toy_cfg|]. split; [exact toy_bytes|]. split; [exact toy_state|]. split; [exact jac_ex_ok|].
  split; [exact pp_ex_sound|]. split; [exact D|]. split; [exact toy_decrypts|]. split; [now apply toy_fresh; lia|]. split; [now apply toy_fresh; lia|].
  split; [apply (all_ok_sound st' K)|].

  exact (C47_linear toyR toyC toyS st' toyRnd t_ctMat t_ctVec t_pt1 t_sk t_dn toy_cfg toy_bytes toy_state jac_ex_ok pp_ex_sound D H toy_decrypts).
Qed.

(** ** C48: proof of encryption *)
Section Enc.
Context {p : Z} {ell : nat} {G : gmod p}.
Notation F := (Fp p).
Notation E := (elt p ell).

(** noise1 = ct1 - A r *)
Definition encrypts1 (c : cfg ell G) (ct1 er noise1 : list E) : Prop :=
  forall i, (i < Kay c)%nat -> nth i noise1 e0 =
    esub (nth i ct1 e0) (sumE (Kay c) (fun k => emul (mget e0 (gkA (cgk c)) i k) (nth k er e0))).
(** noise2 = ct2 - B r - ptxt g *)
Definition encrypts2 (c : cfg ell G) (ct2 : list E) (ptxt : list F) (er noise2 : list E) : Prop :=
  forall i, (i < Enn c)%nat -> nth i noise2 e0 =
    esub (esub (nth i ct2 e0) (sumE (Kay c) (fun k => emul (mget e0 (gkB (cgk c)) i k) (nth k er e0)))) (escale (nth i ptxt 0%F) (cg c)).
Definition key_dims (c : cfg ell G) : Prop :=
  mat_dims (gkA (cgk c)) (Kay c) (Kay c) /\ mat_dims (gkB (cgk c)) (Enn c) (Kay c).
Definition enc_dims (c : cfg ell G) (ct1 ct2 : list E) (ptxt : list F) (er noise1 noise2 : list E) : Prop :=
  length ct1 = Kay c /\ length ct2 = Enn c /\ length noise1 = Kay c /\ length noise2 = Enn c /\ length er = Kay c /\ length ptxt = Enn c.
Notation evars := [RComp; RPad; EComp1Hi; EPad1Hi; EComp1Lo; EPad1Lo; EComp2Hi; EPad2Hi; EComp2Lo; EPad2Lo].

Theorem C48_meaning (R : rmerlin G) (c : cfg ell G) st st' rnd ct1 ct2 ptxt er noise1 noise2 :
  wf_cfg c -> byte_transcript R -> key_dims c -> enc_dims c ct1 ct2 ptxt er noise1 noise2 ->
  block_empty (ell := ell) (plin st) (rLin (ell := ell)) ->
  proveEncryption R c st rnd ct1 ct2 ptxt er noise1 noise2 = Ret st' ->
  exists f1 f2 f3 x1 x2 x3, enc_challenges c st st' f1 f2 f3 x1 x2 x3 /\
    (forall w, block_sat (ell := ell) (plin st') (eLin1 (ell := ell)) w <->
       compressed_eq (Jl c ell) (Kay c) x1 (fun i j => Xent f1 j i) (two_dig c w (pidx st EComp1Lo) (pidx st EComp1Hi)) (enc_noise1 c st ct1 w)) /\
    (forall w, block_sat (ell := ell) (plin st') (eLin2 (ell := ell)) w <->
       compressed_eq (Jl c ell) (Enn c) x2 (fun i j => Xent f2 j i) (two_dig c w (pidx st EComp2Lo) (pidx st EComp2Hi)) (enc_noise2 c st ct2 w)) /\
    (forall w, block_sat (ell := ell) (plin st') (rLin (ell := ell)) w <->
       compressed_eq (Jl c ell) (Kay c) x3 (fun i j => Xent f3 j i) (readV w (pidx st RComp)) (readV w (pidx st RR))) /\
    (forall i, (i < ell)%nat -> exists con, nth_error (plin st') (eLin1 (ell := ell) + i) = Some con /\
       forall k, In k (keys (lterms con)) <-> in_var c st RR k \/ in_var c st EComp1Lo k \/ in_var c st EComp1Hi k) /\
    (forall i, (i < ell)%nat -> exists con, nth_error (plin st') (eLin2 (ell := ell) + i) = Some con /\
       forall k, In k (keys (lterms con)) <-> in_var c st RR k \/ in_var c st EComp2Lo k \/ in_var c st EComp2Hi k \/ in_var c st Pt2 k) /\
    (forall i, (i < ell)%nat -> exists con, nth_error (plin st') (rLin (ell := ell) + i) = Some con /\
       forall k, In k (keys (lterms con)) <-> in_var c st RComp k \/ in_var c st RR k).
Proof.
  intros Hc Hb (A & B) (D1 & D2 & D3 & D4 & D5 & D6) He H.
  destruct (enc_main R c Hc Hb _ _ _ _ _ _ _ _ _ H He A B D1 D2 D3 D4 D5 D6)
    as (f1 & f2 & f3 & x1 & x2 & x3 & _ & _ & _ & _ & _ & _ & _ & _ & _ & _ & _ & _ & _ & _ & Q1 & Q2 & Q3 & Q4 & Q5 & Q6 & Q7 & _).
  exists f1, f2, f3, x1, x2, x3. auto 10.
Qed.
Print Assumptions C48_meaning.
Theorem C48_linear (R : rmerlin G) (c : cfg ell G) st st' rnd ct1 ct2 ptxt er noise1 noise2 :
  wf_cfg c -> byte_transcript R -> wf_state c st -> jacobi_ok (cjac c) -> prime_test_sound (cpp c) ->
  key_dims c -> enc_dims c ct1 ct2 ptxt er noise1 noise2 -> block_empty (ell := ell) (plin st) (rLin (ell := ell)) ->
  proveEncryption R c st rnd ct1 ct2 ptxt er noise1 noise2 = Ret st' ->
  (encrypts1 c ct1 er noise1 -> block_sat (ell := ell) (plin st') (eLin1 (ell := ell)) (coef (plinW st'))) /\
  (encrypts2 c ct2 ptxt er noise2 -> block_sat (ell := ell) (plin st') (eLin2 (ell := ell)) (coef (plinW st'))) /\
  block_sat (ell := ell) (plin st') (rLin (ell := ell)) (coef (plinW st')).
Proof.
  intros Hc Hb Hs Hj Hp (A & B) (D1 & D2 & D3 & D4 & D5 & D6) He H.
  destruct (enc_post R c Hc Hb _ _ _ _ _ _ _ _ _ H He A B D1 D2 D3 D4 D5 D6 Hs Hj Hp) as (Q1 & Q2 & Q3 & _). auto.
Qed.
Print Assumptions C48_linear.
Theorem C48_norms (R : rmerlin G) (c : cfg ell G) st st' rnd ct1 ct2 ptxt er noise1 noise2 :
  wf_cfg c -> byte_transcript R -> wf_state c st -> jacobi_ok (cjac c) -> prime_test_sound (cpp c) ->
  key_dims c -> enc_dims c ct1 ct2 ptxt er noise1 noise2 -> block_empty (ell := ell) (plin st) (rLin (ell := ell)) ->
  proveEncryption R c st rnd ct1 ct2 ptxt er noise1 noise2 = Ret st' ->
  norm_fresh c st 2 RComp RPad -> norm_fresh c st 3 EComp1Hi EPad1Hi -> norm_fresh c st 4 EComp1Lo EPad1Lo ->
  norm_fresh c st 5 EComp2Hi EPad2Hi -> norm_fresh c st 6 EComp2Lo EPad2Lo ->
  exists hib1 hib2, hiBound c (B_eNoise1 c) (kk c) = Ret hib1 /\ hiBound c (B_eNoise2 c) (nn c) = Ret hib2 /\
    norm_done c st' 2 (B_r c) RComp RPad /\ norm_done c st' 3 hib1 EComp1Hi EPad1Hi /\ norm_done c st' 4 (loBound c) EComp1Lo EPad1Lo /\
    norm_done c st' 5 hib2 EComp2Hi EPad2Hi /\ norm_done c st' 6 (loBound c) EComp2Lo EPad2Lo.
Proof.
  intros Hc Hb Hs Hj Hp (A & B) (D1 & D2 & D3 & D4 & D5 & D6) He H N1 N2 N3 N4 N5.
  destruct (enc_post R c Hc Hb _ _ _ _ _ _ _ _ _ H He A B D1 D2 D3 D4 D5 D6 Hs Hj Hp) as (_ & _ & _ & (h1 & h2 & U1 & U2 & V1 & V2 & V3 & V4 & V5) & _).
  exists h1, h2. auto 10.
Qed.
Print Assumptions C48_norms.
Theorem C48_state (R : rmerlin G) (c : cfg ell G) st st' rnd ct1 ct2 ptxt er noise1 noise2 :
  wf_cfg c -> byte_transcript R -> wf_state c st -> jacobi_ok (cjac c) -> prime_test_sound (cpp c) ->
  key_dims c -> enc_dims c ct1 ct2 ptxt er noise1 noise2 -> block_empty (ell := ell) (plin st) (rLin (ell := ell)) ->
  proveEncryption R c st rnd ct1 ct2 ptxt er noise1 noise2 = Ret st' ->
  committed1 c st' Pt2 (rnd Pt2) /\ committed1 c st' RR (rnd RR) /\
  stores (plinW st') (pidx st' Pt2) ptxt /\ stores (plinW st') (pidx st' RR) (coeffs_of er) /\
  (forall x, In x evars -> committed2 c st' x (rnd x) /\ synced c st' x) /\
  step_frame c st st' (evars ++ [RR; Pt2]) (evars ++ [RR; Pt2]) [2; 3; 4; 5; 6]%nat
    [eLin1 (ell := ell); eLin2 (ell := ell); rLin (ell := ell)] /\
  wf_state c st'.
Proof.
  intros Hc Hb Hs Hj Hp (A & B) (D1 & D2 & D3 & D4 & D5 & D6) He H.
  destruct (enc_post R c Hc Hb _ _ _ _ _ _ _ _ _ H He A B D1 D2 D3 D4 D5 D6 Hs Hj Hp) as (_ & _ & _ & _ & Q). exact Q.
Qed.
Print Assumptions C48_state.
(** prepareForNextProof empties all constraints, so the hypotheses about empty
    blocks and norm constraints hold again. *)
Theorem C48_prepare (R : rmerlin G) (c : cfg ell G) (st : @pstate p ell G R) :
  (forall off, (off + ell <= length (plin st))%nat -> block_empty (ell := ell) (plin (prepareForNextProof R st)) off) /\
  (forall i x y, (i < length (pnorm st))%nat -> norm_fresh c (prepareForNextProof R st) i x y).
Proof.
  split.
  - intros off Ho i Hi. exists 0%F. cbn [prepareForNextProof plin]. rewrite nth_error_map.
    destruct (nth_error (plin st) (off + i)) eqn:Q; [reflexivity|]. apply nth_error_None in Q. lia.
  - intros i x y Hi. exists emptyQuad. split; [|intros k []]. cbn [prepareForNextProof pnorm]. rewrite nth_error_map.
    destruct (nth_error (pnorm st) i) eqn:Q; [reflexivity|]. apply nth_error_None in Q. lia.
Qed.
Print Assumptions C48_prepare.
End Enc.

Lemma toy_encrypts1 : encrypts1 toyC t_ct1 t_r t_n1.
Proof. intros [|i] Hi; [fpeq|exfalso; cbn in Hi; lia]. Qed.
Lemma toy_encrypts2 : encrypts2 toyC t_ct2 t_pt2 t_r t_n2.
Proof. intros [|[|i]] Hi; [fpeq|fpeq|exfalso; cbn in Hi; lia]. Qed.
Lemma toy_kdims : key_dims toyC.
Proof. repeat split; repeat constructor. Qed.
Lemma toy_edims : enc_dims toyC t_ct1 t_ct2 t_pt2 t_r t_n1 t_n2.
Proof. repeat split. Qed.
Example C48_example : exists st', t_enc toyS = Ret st' /\
  wf_cfg toyC /\ byte_transcript toyR /\ wf_state toyC toyS /\ jacobi_ok (cjac toyC) /\ prime_test_sound (cpp toyC) /\
  key_dims toyC /\ enc_dims toyC t_ct1 t_ct2 t_pt2 t_r t_n1 t_n2 /\ encrypts1 toyC t_ct1 t_r t_n1 /\ encrypts2 toyC t_ct2 t_pt2 t_r t_n2 /\
  block_empty (ell := 2) (plin toyS) (rLin (ell := 2)) /\ (forall i x y, (i < 10)%nat -> norm_fresh toyC toyS i x y) /\
  Forall (fun q => quad_sat q (coef (pqG st')) (coef (pqG st'))) (pnorm st') /\
  Forall (fun l => lin_sat l (coef (plinW st'))) (plin st').
Proof.
  destruct (run_ok (t_enc toyS) all_ok) as (st' & H & K); [vm_compute; reflexivity|]. exists st'.
  pose proof (all_ok_sound st' K) as [K1 K2].
  assert (B : block_empty (ell := 2) (plin toyS) (rLin (ell := 2))) by (apply toy_empty; cbn; lia).
  pose proof toy_cfg. pose proof toy_bytes. pose proof toy_state. pose proof toy_kdims. pose proof toy_edims.
  pose proof toy_encrypts1. pose proof toy_encrypts2. pose proof toy_fresh. pose proof jac_ex_ok. pose proof pp_ex_sound.
  repeat (split; [assumption|]). assumption.
Qed.
(** Without prepareForNextProof in between, a second proof of the same correct
    encryption adds its terms to the constraints left by the first (lCnstr3 is
    not emptied): the honest witness does not satisfy them. *)
Theorem C48_refuted : exists st' st'', t_enc toyS = Ret st' /\ wf_state toyC st' /\ t_enc st' = Ret st'' /\
  encrypts1 toyC t_ct1 t_r t_n1 /\ encrypts2 toyC t_ct2 t_pt2 t_r t_n2 /\
  ~ block_sat (ell := 2) (plin st'') (rLin (ell := 2)) (coef (plinW st'')).
Proof.
  destruct (run2_ok (t_enc toyS) (fun s => t_enc s)
      (fun s' => negb (match nth_error (plin s') (rLin (ell := 2)) with Some c => lin_ok c (plinW s') | None => true end)))
    as (st' & st'' & H & H2 & K); [vm_compute; reflexivity|]. exists st', st''.
  split; [exact H|]. split.
  { apply (C48_state toyR toyC toyS st' toyRnd t_ct1 t_ct2 t_pt2 t_r t_n1 t_n2 toy_cfg toy_bytes toy_state jac_ex_ok pp_ex_sound toy_kdims toy_edims); [|exact H].
    apply toy_empty; cbn; lia. }
  split; [exact H2|]. split; [exact toy_encrypts1|]. split; [exact toy_encrypts2|].
  intros B. destruct (B 0%nat) as (con & C1 & C2); [lia|]. rewrite Nat.add_0_r in C1. rewrite C1 in K. unfold lin_ok in K.
  unfold lin_sat in C2. rewrite C2 in K. rewrite (proj2 (feqb_eq _ _) eq_refl) in K. discriminate.
Qed.
Print Assumptions C48_refuted.

(** ** C49: proof of key generation *)
Section Key.
Context {p : Z} {ell : nat} {G : gmod p}.
Notation F := (Fp p).
Notation E := (elt p ell).
Notation kvars := [Sk2Comp; Sk2Pad; KCompHi; KPadHi; KCompLo; KPadLo].

(** noise = B_pkNum - sk A *)
Definition is_keypair (c : cfg ell G) (pkNum : nat) (skey noise : list E) : Prop :=
  forall i, (i < Kay c)%nat -> nth i noise e0 =
    esub (mget e0 (gkB (cgk c)) pkNum i) (sumE (Kay c) (fun k => emul (mget e0 (gkA (cgk c)) k i) (nth k skey e0))).

Theorem C49_meaning (R : rmerlin G) (c : cfg ell G) st st' rnd pkNum skey noise :
  wf_cfg c -> byte_transcript R -> key_dims c -> length noise = Kay c -> length skey = Kay c ->
  proveKeyGen R c st rnd pkNum skey noise = Ret st' ->
  (pkNum < Enn c)%nat /\
  exists f1 f2 x1 x2, key_challenges c st st' f1 f2 x1 x2 /\
    (forall w, block_sat (ell := ell) (plin st') (kLin (ell := ell)) w <->
       compressed_eq (Jl c ell) (Kay c) x1 (Xent f1) (two_dig c w (pidx st KCompLo) (pidx st KCompHi)) (key_noise c st pkNum w)) /\
    (forall w, block_sat (ell := ell) (plin st') (sk2Lin (ell := ell)) w <->
       compressed_eq (Jl c ell) (Kay c) x2 (Xent f2) (readV w (pidx st Sk2Comp)) (readV w (pidx st Sk2))) /\
    (forall i, (i < ell)%nat -> exists con, nth_error (plin st') (kLin (ell := ell) + i) = Some con /\
       forall k, In k (keys (lterms con)) <-> in_var c st Sk2 k \/ in_var c st KCompLo k \/ in_var c st KCompHi k) /\
    (forall i, (i < ell)%nat -> exists con, nth_error (plin st') (sk2Lin (ell := ell) + i) = Some con /\
       forall k, In k (keys (lterms con)) <-> in_var c st Sk2Comp k \/ in_var c st Sk2 k).
Proof.
  intros Hc Hb (A & B) D1 D2 H.
  destruct (key_main R c Hc Hb _ _ _ _ _ _ H A B D1 D2)
    as (f1 & f2 & x1 & x2 & _ & _ & _ & _ & _ & _ & _ & _ & Q1 & Q2 & Q3 & Q4 & Q5 & _ & _ & _ & _ & _ & _ & _ & _ & _ & _ & Q6 & _).
  split; [exact Q6|]. exists f1, f2, x1, x2. auto 10.
Qed.
Print Assumptions C49_meaning.
Theorem C49_linear (R : rmerlin G) (c : cfg ell G) st st' rnd pkNum skey noise :
  wf_cfg c -> byte_transcript R -> wf_state c st -> jacobi_ok (cjac c) -> prime_test_sound (cpp c) ->
  key_dims c -> length noise = Kay c -> length skey = Kay c ->
  proveKeyGen R c st rnd pkNum skey noise = Ret st' ->
  (is_keypair c pkNum skey noise -> block_sat (ell := ell) (plin st') (kLin (ell := ell)) (coef (plinW st'))) /\
  block_sat (ell := ell) (plin st') (sk2Lin (ell := ell)) (coef (plinW st')).
Proof.
  intros Hc Hb Hs Hj Hp (A & B) D1 D2 H.
  destruct (key_post R c Hc Hb _ _ _ _ _ _ H A B D1 D2 Hs Hj Hp) as (Q1 & Q2 & _). auto.
Qed.
Print Assumptions C49_linear.
Theorem C49_norms (R : rmerlin G) (c : cfg ell G) st st' rnd pkNum skey noise :
  wf_cfg c -> byte_transcript R -> wf_state c st -> jacobi_ok (cjac c) -> prime_test_sound (cpp c) ->
  key_dims c -> length noise = Kay c -> length skey = Kay c ->
  proveKeyGen R c st rnd pkNum skey noise = Ret st' ->
  norm_fresh c st 7 Sk2Comp Sk2Pad -> norm_fresh c st 8 KCompHi KPadHi -> norm_fresh c st 9 KCompLo KPadLo ->
  exists hib, hiBound c (B_kNoise c) (kk c) = Ret hib /\
    norm_done c st' 7 (B_sk c) Sk2Comp Sk2Pad /\ norm_done c st' 8 hib KCompHi KPadHi /\ norm_done c st' 9 (loBound c) KCompLo KPadLo.
Proof.
  intros Hc Hb Hs Hj Hp (A & B) D1 D2 H N1 N2 N3.
  destruct (key_post R c Hc Hb _ _ _ _ _ _ H A B D1 D2 Hs Hj Hp) as (_ & _ & (hib & U & V1 & V2 & V3) & _). exists hib. auto.
Qed.
Print Assumptions C49_norms.
Theorem C49_state (R : rmerlin G) (c : cfg ell G) st st' rnd pkNum skey noise :
  wf_cfg c -> byte_transcript R -> wf_state c st -> jacobi_ok (cjac c) -> prime_test_sound (cpp c) ->
  key_dims c -> length noise = Kay c -> length skey = Kay c ->
  proveKeyGen R c st rnd pkNum skey noise = Ret st' ->
  committed1 c st' Sk2 (rnd Sk2) /\ stores (plinW st') (pidx st' Sk2) (coeffs_of skey) /\
  (forall x, In x kvars -> committed2 c st' x (rnd x) /\ synced c st' x) /\
  step_frame c st st' (Sk2 :: kvars) (Sk2 :: kvars) [7; 8; 9]%nat [kLin (ell := ell); sk2Lin (ell := ell)] /\
  wf_state c st'.
Proof.
  intros Hc Hb Hs Hj Hp (A & B) D1 D2 H.
  destruct (key_post R c Hc Hb _ _ _ _ _ _ H A B D1 D2 Hs Hj Hp) as (_ & _ & _ & Q). exact Q.
Qed.
Print Assumptions C49_state.
End Key.
Lemma toy_keypair : is_keypair toyC 0 t_sk2 t_kn.
Proof. intros [|i] Hi; [fpeq|exfalso; cbn in Hi; lia]. Qed.
Example C49_example : exists st', t_key toyS = Ret st' /\
  wf_cfg toyC /\ byte_transcript toyR /\ wf_state toyC toyS /\ jacobi_ok (cjac toyC) /\ prime_test_sound (cpp toyC) /\
  key_dims toyC /\ length t_kn = Kay toyC /\ length t_sk2 = Kay toyC /\ is_keypair toyC 0 t_sk2 t_kn /\
  (forall i x y, (i < 10)%nat -> norm_fresh toyC toyS i x y) /\
  Forall (fun q => quad_sat q (coef (pqG st')) (coef (pqG st'))) (pnorm st') /\
  Forall (fun l => lin_sat l (coef (plinW st'))) (plin st').
Proof.
  destruct (run_ok (t_key toyS) all_ok) as (st' & H & K); [vm_compute; reflexivity|]. exists st'.
  pose proof (all_ok_sound st' K) as [K1 K2].
  pose proof toy_cfg. pose proof toy_bytes. pose proof toy_state. pose proof toy_kdims.
  pose proof toy_keypair. pose proof toy_fresh. pose proof jac_ex_ok. pose proof pp_ex_sound.
  repeat (split; [first [assumption|reflexivity]|]). assumption.
Qed.

(** ** C50: proof of re-sharing *)
Section Share.
Context {p : Z} {ell : nat} {G : gmod p}.
Notation F := (Fp p).
Notation off := (reShrLin (ell := ell)).
(** The constraints hold for an assignment iff it describes a valid sharing of
    the Lagrange combination of the decrypted values. *)
Theorem C50_valid (R : rmerlin G) (c : cfg ell G) st st' lagrange pt1 pt2 evs thr M : prime p ->
  good_points (p := p) evs -> genMatrix thr evs = Ret M -> kernel_basis (cHm c) M (Z.to_nat thr) -> length evs = Enn c ->
  Forall (fun r => length r = S (Enn c)) (cHm c) ->
  proveReShare R c st lagrange pt1 pt2 = Ret st' ->
  forall w, rows_sat (plin st') off (length (cHm c)) w <-> valid_sharing (Z.to_nat thr) evs (reshared c st lagrange w).
Proof. intros Hp H1 H2 H3 H4 H5 H. eapply reshare_valid; eassumption. Qed.
Print Assumptions C50_valid.
(** For the recorded witness: iff pt2 is a sharing of sum_j lagrange_j pt1_j. *)
Theorem C50_witness (R : rmerlin G) (c : cfg ell G) st st' lagrange pt1 pt2 evs thr M : prime p ->
  good_points (p := p) evs -> genMatrix thr evs = Ret M -> kernel_basis (cHm c) M (Z.to_nat thr) -> length evs = Enn c ->
  Forall (fun r => length r = S (Enn c)) (cHm c) ->
  proveReShare R c st lagrange pt1 pt2 = Ret st' ->
  stores (plinW st) (pidx st Pt1) pt1 -> stores (plinW st) (pidx st Pt2) pt2 ->
  (rows_sat (plin st') off (length (cHm c)) (coef (plinW st')) <->
   valid_sharing (Z.to_nat thr) evs (fsum (map (fun j => (nth j lagrange 0 * nth j pt1 0)%F) (seq 0 (Tee c))) :: pt2)).
Proof. intros Hp H1 H2 H3 H4 H5 H. eapply reshare_witness; eassumption. Qed.
Print Assumptions C50_witness.
(** It succeeds whenever the dimensions fit, and changes nothing else. *)
Theorem C50_state (R : rmerlin G) (c : cfg ell G) st st' lagrange pt1 pt2 :
  proveReShare R c st lagrange pt1 pt2 = Ret st' ->
  st' = set_lin R st (plin st') /\
  (forall i, (i < off)%nat \/ (off + length (cHm c) <= i)%nat -> nth_error (plin st') i = nth_error (plin st) i) /\
  length (plin st') = length (plin st).
Proof.
  intros H. destruct (reshare_inv R c _ _ _ _ _ H) as (cs & L & Q & A & B & _). split; [exact A|]. split.
  - intros i Hi. rewrite (reshare_nth R c _ _ _ _ _ H).
    destruct (Nat.leb_spec off i), (Nat.ltb_spec i (off + length (cHm c))); cbn [andb]; try reflexivity. lia.
  - rewrite Q, !app_length, firstn_length_le, skipn_length, L by lia. lia.
Qed.
Print Assumptions C50_state.
Theorem C50_succeeds (R : rmerlin G) (c : cfg ell G) (st : @pstate p ell G R) lagrange pt1 pt2 :
  0 < tee (cgk c) -> 0 < enn (cgk c) ->
  length pt1 = Tee c -> length lagrange = Tee c -> length pt2 = Enn c -> cHm c <> [] ->
  Forall (fun r => length r = S (Enn c)) (cHm c) -> (off + length (cHm c) <= length (plin st))%nat ->
  exists st', proveReShare R c st lagrange pt1 pt2 = Ret st'.
Proof.
  intros T N L1 L2 L3 Hne Hr Hle. unfold proveReShare, Hcols. destruct (cHm c) as [|r rs] eqn:Q; [congruence|].
  inversion Hr as [|? ? Hr1 Hr2]. subst. rewrite L1, L2, L3, Hr1, !Z2Nat.id, !Z.eqb_refl, Nat.eqb_refl by lia.
  replace (S (Enn c) =? 1 + Enn c)%nat with true by (symmetry; apply Nat.eqb_eq; lia). cbn [negb orb].
  rewrite (proj2 (Nat.leb_le _ _) Hle). cbn [negb].
  assert (K : exists cs, omapM (reshare_con R c st lagrange) (r :: rs) = Ret cs).
  { clear Q Hne Hle Hr1 Hr2. induction Hr as [|row rows Hrow _ IH]; [now exists []|]. destruct IH as [cs IH].
    assert (S1 : exists ls, omapM (fun j => let! l := oget lagrange j in Ret (nth 0 row 0 * l)%F) (seq 0 (Tee c)) = Ret ls).
    { apply omapM_total. intros j Hj. apply in_seq in Hj. unfold oget. destruct (nth_error lagrange j) eqn:Q; [eexists; reflexivity|].
      apply nth_error_None in Q. lia. }
    assert (S2 : exists hs, omapM (oget row) (seq 1 (Enn c)) = Ret hs).
    { apply omapM_total. intros j Hj. apply in_seq in Hj. unfold oget. destruct (nth_error row j) eqn:Q; [eexists; reflexivity|].
      apply nth_error_None in Q. lia. }
    destruct S1 as [ls S1]. destruct S2 as [hs S2].
    assert (S3 : exists con, reshare_con R c st lagrange row = Ret con).
    { unfold reshare_con. destruct row as [|h0 row]; [discriminate|]. cbn [oget nth_error obind]. cbn [nth] in S1. rewrite S1. cbn [obind]. rewrite S2. cbn [obind]. eauto. }
    destruct S3 as [con S3]. exists (con :: cs). cbn [omapM]. rewrite S3. cbn [obind]. rewrite IH. reflexivity. }
  destruct K as [cs K]. rewrite K. cbn [obind]. eauto.
Qed.
Print Assumptions C50_succeeds.
End Share.
Lemma toy_genMatrix : genMatrix 2 [1; 2] = Ret [[f101 1; f101 0]; [f101 1; f101 1]; [f101 1; f101 2]].
Proof. vm_compute. repeat f_equal; now apply Fp_eq. Qed.
Lemma toy_sharing : valid_sharing 2 [1; 2] [f101 3; f101 4; f101 5].
Proof. exists [f101 3; f101 1]. split; [reflexivity|]. cbn [map]. repeat (apply f_equal2; [apply Fp_eq; vm_compute; reflexivity|]). reflexivity. Qed.
Lemma toy_no_sharing : ~ valid_sharing 2 [1; 2] [f101 3; f101 4; f101 6].
Proof.
  intros (l & Lc & Q). destruct l as [|c0 [|c1 [|]]]; cbn [length] in Lc; try lia. cbn [map] in Q.
  assert (Q1 := f_equal (fun l => nth 0 l 0%F) Q). assert (Q2 := f_equal (fun l => nth 1 l 0%F) Q). assert (Q3 := f_equal (fun l => nth 2 l 0%F) Q).
  clear Q. cbn [nth] in Q1, Q2, Q3. unfold poly_at in Q1, Q2, Q3. cbn [map seq length nth fsum fpow] in Q1, Q2, Q3.
  assert (A : (f101 6 - f101 4 - (f101 4 - f101 3) = 0)%F).
  { rewrite Q1, Q2, Q3. change (toF 101 1) with (1%F : Fp 101). replace (toF 101 2) with ((1 + 1)%F : Fp 101) by (apply Fp_eq; vm_compute; reflexivity). ring. }
  apply (f_equal fval) in A. vm_compute in A. discriminate.
Qed.
(** 3 = 26 * 4 mod 101 is shared as (4, 5); (4, 6) is not a sharing of it. *)
Example C50_example : exists st st' st'', (let! s := t_dec toyS in t_enc s) = Ret st /\ t_shr st = Ret st' /\
  stores (plinW st) (pidx st Pt1) t_pt1 /\ stores (plinW st) (pidx st Pt2) t_pt2 /\
  rows_sat (plin st') (reShrLin (ell := 2)) 1 (coef (plinW st')) /\
  valid_sharing 2 [1; 2] [f101 3; f101 4; f101 5] /\ ~ valid_sharing 2 [1; 2] [f101 3; f101 4; f101 6] /\
  proveReShare toyR toyC st t_lag t_pt1 [f101 4; f101 6] = Ret st'' /\
  good_points (p := 101) [1; 2] /\ genMatrix 2 [1; 2] = Ret [[f101 1; f101 0]; [f101 1; f101 1]; [f101 1; f101 2]] /\
  kernel_basis (cHm toyC) [[f101 1; f101 0]; [f101 1; f101 1]; [f101 1; f101 2]] 2 /\
  Forall (fun r => length r = S (Enn toyC)) (cHm toyC).
Proof.
  destruct (run2_ok (let! s := t_dec toyS in t_enc s) (fun s => t_shr s) all_ok) as (st & st' & H & H2 & K); [vm_compute; reflexivity|].
  pose proof H as H0. apply obind_ret_inv in H0 as (s1 & R1 & R2).
  pose proof (all_ok_sound st' K) as [K1 K2].
  assert (D : dec_dims toyC t_ctMat t_ctVec t_pt1 t_sk t_dn) by (repeat split; repeat constructor; reflexivity).
  pose proof (C47_state toyR toyC toyS s1 toyRnd t_ctMat t_ctVec t_pt1 t_sk t_dn toy_cfg toy_bytes toy_state jac_ex_ok pp_ex_sound D R1) as (_ & P1 & _ & _ & Fr & Ws).
  assert (Be : block_empty (ell := 2) (plin s1) (rLin (ell := 2))).
  { intros i Hi. destruct Fr as (_ & _ & _ & _ & _ & _ & Fl & _). rewrite Fl; [apply toy_empty; [cbn; lia|exact Hi]|].
    intros o [<-|[]]. unfold dLin, rLin. lia. }
  pose proof (C48_state toyR toyC s1 st toyRnd t_ct1 t_ct2 t_pt2 t_r t_n1 t_n2 toy_cfg toy_bytes Ws jac_ex_ok pp_ex_sound toy_kdims toy_edims Be R2) as (_ & _ & P2 & _ & _ & Fr2 & Ws2).
  assert (G0 : good_points (p := 101) [1; 2]) by (split; [repeat constructor; cbn; intuition lia|repeat constructor; lia]).
  assert (Hr : Forall (fun r => length r = S (Enn toyC)) (cHm toyC)) by (repeat constructor).
  destruct Fr2 as (Ei & _ & Fw & Fk & _ & _ & _ & Fln & _).
  assert (P1' : stores (plinW st) (pidx st Pt1) t_pt1).
  { intros j Hj. destruct (P1 j Hj) as [A B]. destruct Fr as (Ei1 & _). rewrite Ei. split.
    - apply Fk. left. exact A.
    - rewrite Fw; [exact B|]. destruct j; [|cbn in Hj; lia]. rewrite Z.add_0_r. intros x Hx. unfold in_var. rewrite Ei1.
      revert x Hx. rewrite <- Forall_forall. repeat constructor; vm_compute; intuition discriminate. }
  exists st, st'.
  assert (Ln : (reShrLin (ell := 2) + length (cHm toyC) <= length (plin st))%nat).
  { rewrite Fln. destruct Fr as (_ & _ & _ & _ & _ & _ & _ & Fl & _). rewrite Fl. cbn. lia. }
  destruct (C50_succeeds toyR toyC st t_lag t_pt1 [f101 4; f101 6] ltac:(reflexivity) ltac:(reflexivity) eq_refl eq_refl eq_refl ltac:(discriminate) Hr Ln) as (st'' & H3).
  exists st''. split; [exact H|]. split; [exact H2|]. split; [exact P1'|]. split; [exact P2|]. split; [|split; [|split]].
  - intros i Hi. destruct (nth_error (plin st') (reShrLin (ell := 2) + i)) as [con|] eqn:Q.
    + exists con. split; [reflexivity|]. rewrite Forall_forall in K1. apply K1. eapply nth_error_In. exact Q.
    + apply nth_error_None in Q. destruct (C50_state toyR toyC _ _ _ _ _ H2) as (_ & _ & L). rewrite L, Fln in Q.
      destruct Fr as (_ & _ & _ & _ & _ & _ & _ & Fl & _). rewrite Fl in Q. cbn in Q. lia.
  - exact toy_sharing.
  - exact toy_no_sharing.
  - split; [exact H3|]. split; [exact G0|]. split; [exact toy_genMatrix|]. split; [exact toy_kernel|exact Hr].
Qed.

(** ** C51: proof of smallness *)
Section Sml.
Context {p : Z} {ell : nat} {G : gmod p}.
Notation F := (Fp p).
Notation E := (elt p ell).
Notation off := (smlnsLin (ell := ell)).
Notation nCols c := (LINYDIM c / ell)%nat.
Notation nRows c := (10 * (JLDIM c + 4) / ell)%nat.
Theorem C51_meaning (R : rmerlin G) (c : cfg ell G) st st' ys rs :
  wf_cfg c -> byte_transcript R -> (forall t, length (ys t) = nCols c) ->
  proveSmallness R c st ys rs = Ret st' ->
  exists f x, sml_challenges c st st' f x /\
    (forall w, block_sat (ell := ell) (plin st') off w <->
       compressed_eq (nCols c) (nRows c) x (Xent f) (fun j => esub (nth j (pz st') e0) (readV w (pidx st YY) j)) (readV w 0)) /\
    (forall i, (i < ell)%nat -> exists con, nth_error (plin st') (off + i) = Some con /\
       forall k, In k (keys (lterms con)) <-> (0 <= k < 10 * (Z.of_nat (JLDIM c) + 4)) \/ in_var c st YY k).
Proof.
  intros Hc Hb Hy H. destruct (sml_main R c Hc Hb _ _ _ _ H Hy) as (t & f & x & u & A & B & C & _). eauto.
Qed.
Print Assumptions C51_meaning.
(** When the compressed vectors agree with the witness (C47_state, C48_state,
    C49_state establish it) the constraints hold; the masked reply is small. *)
Theorem C51_honest (R : rmerlin G) (c : cfg ell G) st st' ys rs :
  wf_cfg c -> byte_transcript R -> wf_state c st -> (forall t, length (ys t) = nCols c) ->
  proveSmallness R c st ys rs = Ret st' ->
  ((forall x, is_norm x = true -> synced c st x) -> block_sat (ell := ell) (plin st') off (coef (plinW st'))) /\
  lInftyNorm (pz st') <= B_smallness c /\
  (exists t, committed1 c st' YY (rs t) /\ stores (plinW st') (pidx st' YY) (coeffs_of (ys t))) /\
  step_frame c st st' [YY] [YY] [] [off] /\ pcomp st' = pcomp st /\ wf_state c st'.
Proof.
  intros Hc Hb Hs Hy H. destruct (sml_post R c Hc Hb _ _ _ _ H Hy Hs) as (t & A & B & C & D & Q & S & T).
  split; [exact A|]. split; [exact B|]. split; [exists t; auto|]. auto.
Qed.
Print Assumptions C51_honest.
(** The reply z is y plus the compression of all the compressed vectors, the
    latter within the bound of uBound. *)
Theorem C51_reply (R : rmerlin G) (c : cfg ell G) st st' ys rs :
  wf_cfg c -> byte_transcript R -> (forall t, length (ys t) = nCols c) ->
  proveSmallness R c st ys rs = Ret st' ->
  exists t f x u, sml_challenges c st st' f x /\ length u = nCols c /\
    (forall j, (j < nCols c)%nat -> nth j (pz st') e0 = eadd (nth j u e0) (nth j (ys t) e0)) /\
    (forall j, (j < nCols c)%nat -> nth j u e0 = sumE (nRows c) (fun i => emul (nth i (pcomp st) e0) (Xent f i j))) /\
    lInftyNorm u <= B_smallness c / Z.of_nat (LINYDIM c) /\ lInftyNorm (pz st') <= B_smallness c.
Proof.
  intros Hc Hb Hy H. destruct (sml_main R c Hc Hb _ _ _ _ H Hy) as (t & f & x & u & A & B & C & L & Lz & Lu & D1 & D2 & D3 & D4 & _).
  exists t, f, x, u. auto 10.
Qed.
Print Assumptions C51_reply.
End Sml.
(** Decryption, encryption, key generation, re-sharing and smallness one after
    the other: everything holds at the end. *)
Example C51_example : exists st', toy_run = Ret st' /\
  Forall (fun l => lin_sat l (coef (plinW st'))) (plin st') /\
  Forall (fun q => quad_sat q (coef (pqG st')) (coef (pqG st'))) (pnorm st') /\
  (length (plin st') = 15)%nat /\ Forall (fun l => lterms l <> []) (plin st') /\ Forall (fun q => qidx q <> []) (pnorm st').
Proof.
  destruct (run_ok toy_run (fun s => all_ok s && ((length (plin s) =? 15)%nat &&
     (forallb (fun l => negb (length (lterms l) =? 0)%nat) (plin s) && forallb (fun q => negb (length (qidx q) =? 0)%nat) (pnorm s)))))
    as (st' & H & K); [vm_compute; reflexivity|].
  apply andb_prop in K as [K1 K]. apply andb_prop in K as [K2 K]. apply andb_prop in K as [K3 K4]. rewrite forallb_forall in K3, K4.
  exists st'. split; [exact H|]. pose proof (all_ok_sound _ K1) as [A B]. split; [exact A|]. split; [exact B|]. split; [now apply Nat.eqb_eq|].
  split; apply Forall_forall; intros l Hl E.
  - specialize (K3 _ Hl). rewrite E in K3. discriminate.
  - specialize (K4 _ Hl). rewrite E in K4. discriminate.
Qed.
