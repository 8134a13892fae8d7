(** Properties C98 and C100: what a complete proof shows about the secrets. *)
From Coq Require Import String.
From Coq Require Import ZArith Znumtheory List Bool Lia.
From Verif Require Import NumTheory Outcome Fp FSum GroupMod Ring ConstraintsModel ConstraintsSpec BulletproofModel FourSquaresModel FourSquaresSpec AlgebraModel AlgebraMore AlgebraSpec
  TernaryModel TernarySpec ConstraintsMerge RegevModel RegevPfModel RegevPfSpec RegevStSpec RegevPfToy ShamirModel ShamirSpec RegevAggModel RegevAggSpec RegevRunModel RegevRunSpec RegevRunProofs RegevRunToy
  StepSpec StepToy ProgressSpec ZkSpec HideSpec HideSteps HideExist HideAgg HideRun HideMore HideToy HideToy2 MainSpec PropFourSquares PropRegevSt PropRegevAgg PropProgress.
Import ListNotations.
Open Scope Z_scope.

(** ** C98: the statement depends on the secrets only through the commitments and the masked reply *)
Section C98.
Context {p : Z} {ell : nat} {G : gmod p} {R : rmerlin G}.
Notation pstate := (@pstate p ell G R).

(** Two provers with any secrets and any randomness who are in states with the same
    statement and arrive at the same commitments arrive at the same statement. *)
Theorem C98_decryption (c : cfg ell G) (s1 s2 s1' s2' : pstate) rnd1 rnd2 ctMat ctVec pt1 pt2 sk1 sk2 n1 n2 :
  proveDecryption R c s1 rnd1 ctMat ctVec pt1 sk1 n1 = Ret s1' -> proveDecryption R c s2 rnd2 ctMat ctVec pt2 sk2 n2 = Ret s2' ->
  statement s1 = statement s2 -> same_coms s1' s2' -> statement s1' = statement s2'.
Proof. exact (dec_pub R c s1 s2 s1' s2' rnd1 rnd2 ctMat ctVec pt1 pt2 sk1 sk2 n1 n2). Qed.
Theorem C98_encryption (c : cfg ell G) (s1 s2 s1' s2' : pstate) rnd1 rnd2 ct1 ct2 pt1 pt2 er1 er2 a1 a2 b1 b2 :
  proveEncryption R c s1 rnd1 ct1 ct2 pt1 er1 a1 b1 = Ret s1' -> proveEncryption R c s2 rnd2 ct1 ct2 pt2 er2 a2 b2 = Ret s2' ->
  statement s1 = statement s2 -> same_coms s1' s2' -> statement s1' = statement s2'.
Proof. exact (enc_pub R c s1 s2 s1' s2' rnd1 rnd2 ct1 ct2 pt1 pt2 er1 er2 a1 a2 b1 b2). Qed.
Theorem C98_keygen (c : cfg ell G) (s1 s2 s1' s2' : pstate) rnd1 rnd2 pk sk1 sk2 n1 n2 :
  proveKeyGen R c s1 rnd1 pk sk1 n1 = Ret s1' -> proveKeyGen R c s2 rnd2 pk sk2 n2 = Ret s2' ->
  statement s1 = statement s2 -> same_coms s1' s2' -> statement s1' = statement s2'.
Proof. exact (key_pub R c s1 s2 s1' s2' rnd1 rnd2 pk sk1 sk2 n1 n2). Qed.
(** Re-sharing makes no commitments at all. *)
Theorem C98_reshare (c : cfg ell G) (s1 s2 s1' s2' : pstate) lag pt1 pt1' pt2 pt2' :
  proveReShare R c s1 lag pt1 pt2 = Ret s1' -> proveReShare R c s2 lag pt1' pt2' = Ret s2' ->
  statement s1 = statement s2 -> statement s1' = statement s2' /\ pcom s1' = pcom s1.
Proof. intros A B C. split; [exact (share_pub R c s1 s2 s1' s2' lag pt1 pt1' pt2 pt2' A B C)|exact (share_coms R c _ _ _ _ _ A)]. Qed.
(** However many masks each of them rejected. *)
Theorem C98_smallness (c : cfg ell G) (s1 s2 s1' s2' : pstate) ys1 ys2 rs1 rs2 :
  proveSmallness R c s1 ys1 rs1 = Ret s1' -> proveSmallness R c s2 ys2 rs2 = Ret s2' ->
  statement s1 = statement s2 -> pcom s1' YY = pcom s2' YY -> pz s1' = pz s2' -> statement s1' = statement s2'.
Proof. exact (sml_pub R c s1 s2 s1' s2' ys1 ys2 rs1 rs2). Qed.
(** All five steps. *)
Theorem C98_steps (c : cfg ell G) (s1 s2 t1 t2 : pstate) i1 i2 :
  proofSteps R c s1 i1 = Ret t1 -> proofSteps R c s2 i2 = Ret t2 -> same_public i1 i2 ->
  same_view s1 s2 -> same_coms t1 t2 -> pz t1 = pz t2 -> statement t1 = statement t2.
Proof. exact (steps_pub R c s1 s2 t1 t2 i1 i2). Qed.
(** And everything that the verifiers of the two final proofs get. *)
Theorem C98_proofs (c : cfg ell G) pick (s1 s2 t1 t2 : pstate) w1 w2 d1 d2 : same_view s1 s2 ->
  prepareProofs R c pick s1 w1 = Ret (t1, d1) -> prepareProofs R c pick s2 w2 = Ret (t2, d2) -> pcom t1 WW = pcom t2 WW ->
  public d1 = public d2 /\ same_view t1 t2.
Proof. exact (prep_pub c pick s1 s2 t1 t2 w1 w2 d1 d2). Qed.
End C98.

(** Two provers with different old keys, noise, shares and randomness. *)
Example C98_example : exists s1 s2 t1 t2, proofSteps toyR toyC s1 t_round = Ret t1 /\ proofSteps toyR toyC s2 h_round = Ret t2 /\
  same_public t_round h_round /\ i_sk1 t_round <> i_sk1 h_round /\ i_dn t_round <> i_dn h_round /\ i_pt2 t_round <> i_pt2 h_round /\
  same_view s1 s2 /\ same_coms t1 t2 /\ pz t1 = pz t2 /\ statement t1 = statement t2.
Proof.
  destruct two_runs as (s1 & t1 & s2 & t2 & _ & A & _ & B & C & D & E & _). exists s1, s2, t1, t2. split; [exact A|]. split; [exact B|].
  assert (SP : same_public t_round h_round) by (repeat split). split; [exact SP|].
  split; [intros H; apply (f_equal (fun l => fval (coeff (nth 0 l e0) 0))) in H; vm_compute in H; discriminate|].
  split; [intros H; apply (f_equal (fun l => fval (coeff (nth 0 l e0) 0))) in H; vm_compute in H; discriminate|].
  split; [intros H; apply (f_equal (fun l => fval (nth 0 l 0%F))) in H; vm_compute in H; discriminate|].
  split; [exact C|]. split; [exact D|]. split; [exact E|]. exact (C98_steps toyC s1 s2 t1 t2 t_round h_round A B SP C D E).
Qed.

(** ** C100: another prover could have sent the same *)
Section C100.
Context {p : Z} {ell : nat} {G : gmod p} {R : rmerlin G}.
Notation pstate := (@pstate p ell G R).
Notation jl c := (JLDIM c / ell)%nat.

(** A second prover with any secrets that fit has randomness with which it shows the
    same after the step as the first. *)
Theorem C100_decryption (c : cfg ell G) (s1 s1' s2 : pstate) rnd1 ctMat ctVec pt1 pt2 sk1 sk2 n1 n2 :
  generates (cbase c) -> wf_cfg c -> good_libs R c -> jl_sqrt c ->
  proveDecryption R c s1 rnd1 ctMat ctVec pt1 sk1 n1 = Ret s1' -> same_view s1 s2 ->
  room c s2 -> Nat.divide 4 (jl c) -> dec_dims c ctMat ctVec pt2 sk2 n2 -> dec_fits c s1 s1' n2 ->
  exists rnd2 s2', proveDecryption R c s2 rnd2 ctMat ctVec pt2 sk2 n2 = Ret s2' /\ same_view s1' s2'.
Proof. intros Hb Hc Hl Hs A B C D E F. destruct (dec_can R c Hb Hc Hl Hs s1 s1' s2 rnd1 ctMat ctVec pt1 pt2 sk1 sk2 n1 n2 A B C D E F) as (r & s & H1 & H2 & _). eauto. Qed.
Theorem C100_encryption (c : cfg ell G) (s1 s1' s2 : pstate) rnd1 ct1 ct2 pt1 pt2 er1 er2 a1 a2 b1 b2 :
  generates (cbase c) -> wf_cfg c -> good_libs R c -> jl_sqrt c ->
  proveEncryption R c s1 rnd1 ct1 ct2 pt1 er1 a1 b1 = Ret s1' -> same_view s1 s2 ->
  room c s2 -> Nat.divide 4 (Kay c) -> Nat.divide 4 (Enn c) -> key_dims c -> enc_dims c ct1 ct2 pt2 er2 a2 b2 -> enc_fits c s1 s1' er2 a2 b2 ->
  exists rnd2 s2', proveEncryption R c s2 rnd2 ct1 ct2 pt2 er2 a2 b2 = Ret s2' /\ same_view s1' s2'.
Proof. intros Hb Hc Hl Hs A B C D E F H I. destruct (enc_can R c Hb Hc Hl Hs s1 s1' s2 rnd1 ct1 ct2 pt1 pt2 er1 er2 a1 a2 b1 b2 A B C D E F H I) as (r & s & H1 & H2 & _). eauto. Qed.
Theorem C100_keygen (c : cfg ell G) (s1 s1' s2 : pstate) rnd1 pk sk1 sk2 n1 n2 :
  generates (cbase c) -> wf_cfg c -> good_libs R c -> jl_sqrt c ->
  proveKeyGen R c s1 rnd1 pk sk1 n1 = Ret s1' -> same_view s1 s2 ->
  room c s2 -> Nat.divide 4 (jl c) -> key_dims c -> (pk < Enn c)%nat -> length sk2 = Kay c -> length n2 = Kay c -> key_fits c s1 s1' sk2 n2 ->
  exists rnd2 s2', proveKeyGen R c s2 rnd2 pk sk2 n2 = Ret s2' /\ same_view s1' s2'.
Proof. intros Hb Hc Hl Hs A B C D E F H I J. destruct (key_can R c Hb Hc Hl Hs s1 s1' s2 rnd1 pk sk1 sk2 n1 n2 A B C D E F H I J) as (r & s & H1 & H2 & _). eauto. Qed.
(** In the proof of smallness the mask is determined as well: it is the difference of
    the reply and the second prover's compressed vector. *)
Theorem C100_smallness (c : cfg ell G) (s1 s1' s2 : pstate) ys1 rs1 :
  generates (cbase c) -> wf_cfg c -> good_libs R c ->
  proveSmallness R c s1 ys1 rs1 = Ret s1' -> same_view s1 s2 -> room c s2 -> Nat.divide 4 (LINYDIM c / ell) -> sml_fits c s1 s1' (pcomp s2) ->
  exists y2 r2 s2', proveSmallness R c s2 (fun _ => y2) (fun _ => r2) = Ret s2' /\ same_view s1' s2' /\ mask_for c s1 s1' (pcomp s2) y2.
Proof. intros Hb Hc Hl A B C D E. destruct (sml_can R c Hb Hc Hl s1 s1' s2 ys1 rs1 A B C D E) as (y & r & s & H1 & H2 & _ & H3). eauto 6. Qed.
(** The randomness of the commitments is the only one. *)
Theorem C100_unique (c : cfg ell G) (s t t' : pstate) : generates (cbase c) -> same_coms t t' ->
  (forall rnd rnd' a b d e n, proveDecryption R c s rnd a b d e n = Ret t -> proveDecryption R c s rnd' a b d e n = Ret t' -> forall v, In v dec_vars -> rnd v = rnd' v) /\
  (forall rnd rnd' a b d e n n', proveEncryption R c s rnd a b d e n n' = Ret t -> proveEncryption R c s rnd' a b d e n n' = Ret t' -> forall v, In v enc_vars -> rnd v = rnd' v) /\
  (forall rnd rnd' a b d, proveKeyGen R c s rnd a b d = Ret t -> proveKeyGen R c s rnd' a b d = Ret t' -> forall v, In v key_vars -> rnd v = rnd' v).
Proof.
  intros Hb HC. split; [|split].
  - intros rnd rnd' a b d e n A B. exact (dec_once R c Hb s t t' rnd rnd' a b d e n A B HC).
  - intros rnd rnd' a b d e n n' A B. exact (enc_once R c Hb s t t' rnd rnd' a b d e n n' A B HC).
  - intros rnd rnd' a b d A B. exact (key_once R c Hb s t t' rnd rnd' a b d A B HC).
Qed.
(** The secrets of the first prover itself fit. *)
Theorem C100_own (c : cfg ell G) (s d e k : pstate) i :
  wf_cfg c -> good_libs R c -> jl_sqrt c -> room c s ->
  Nat.divide 4 (jl c) -> Nat.divide 4 (Kay c) -> Nat.divide 4 (Enn c) -> key_dims c -> round_dims c i -> (i_pk i < Enn c)%nat ->
  proveDecryption R c s (i_rnd i) (i_ctMat i) (i_ctVec i) (i_pt1 i) (i_sk1 i) (i_dn i) = Ret d ->
  proveEncryption R c d (i_rnd i) (i_ct1 i) (i_ct2 i) (i_pt2 i) (i_er i) (i_n1 i) (i_n2 i) = Ret e ->
  proveKeyGen R c e (i_rnd i) (i_pk i) (i_sk2 i) (i_kn i) = Ret k -> all_fit c s d e k i.
Proof.
  intros Hc Hl Hs R1 H4 HK HN Kd (D1 & D2 & D3 & D4 & _) Hpk A B C.
  pose proof (dec_room R c Hc Hl Hs s d _ _ _ _ _ _ A R1 H4 D1) as R2. pose proof (enc_room R c Hc Hl Hs d e _ _ _ _ _ _ _ B R2 HK HN Kd D2) as R3. split; [|split].
  - exact (dec_own R c Hc Hl Hs s d _ _ _ _ _ _ A R1 H4 D1).
  - exact (enc_own R c Hc Hl Hs d e _ _ _ _ _ _ _ B R2 HK HN Kd D2).
  - exact (key_own R c Hc Hl Hs e k _ _ _ _ C R3 H4 Kd Hpk D4 D3).
Qed.
(** All five steps: one choice of the randomness of the first four, and then a mask. *)
Theorem C100_steps (c : cfg ell G) (s1 s2 d e k h t1 : pstate) i1 i2 :
  generates (cbase c) -> wf_cfg c -> good_libs R c -> jl_sqrt c ->
  proveDecryption R c s1 (i_rnd i1) (i_ctMat i1) (i_ctVec i1) (i_pt1 i1) (i_sk1 i1) (i_dn i1) = Ret d ->
  proveEncryption R c d (i_rnd i1) (i_ct1 i1) (i_ct2 i1) (i_pt2 i1) (i_er i1) (i_n1 i1) (i_n2 i1) = Ret e ->
  proveKeyGen R c e (i_rnd i1) (i_pk i1) (i_sk2 i1) (i_kn i1) = Ret k -> proveReShare R c k (i_lag i1) (i_pt1 i1) (i_pt2 i1) = Ret h ->
  proveSmallness R c h (i_ys i1) (i_rs i1) = Ret t1 ->
  same_view s1 s2 -> same_public i1 i2 -> room c s2 -> (7 * ell + length (cHm c) <= length (plin s2))%nat ->
  Nat.divide 4 (jl c) -> Nat.divide 4 (Kay c) -> Nat.divide 4 (Enn c) -> Nat.divide 4 (LINYDIM c / ell) -> key_dims c -> round_dims c i2 -> (i_pk i2 < Enn c)%nat ->
  length (i_lag i2) = Tee c -> cHm c <> [] -> Forall (fun r => length r = S (Enn c)) (cHm c) -> all_fit c s1 d e k i2 ->
  exists rnd h2, (forall ys rs, fourSteps c s2 (with_rnd i2 rnd ys rs) = Ret h2) /\ same_view h h2 /\
    (sml_fits c h t1 (pcomp h2) -> exists y r t2, proofSteps R c s2 (with_rnd i2 rnd (fun _ => y) (fun _ => r)) = Ret t2 /\ same_view t1 t2 /\ mask_for c h t1 (pcomp h2) y).
Proof.
  intros Hb Hc Hl Hs D1 E1 K1 H1 S1 HV SP Hr HL J4 JK JN JL HK RD Hpk Hlag Hm Hm2 AF.
  destruct (four_can R c Hb Hc Hl Hs s1 s2 d e k h i1 i2 D1 E1 K1 H1 HV SP Hr HL J4 JK JN HK RD Hpk Hlag Hm Hm2 AF) as (rnd & h2 & F & V & Hr2).
  exists rnd, h2. split; [exact F|]. split; [exact V|]. intros SF.
  destruct (sml_can R c Hb Hc Hl h t1 h2 _ _ S1 V Hr2 JL SF) as (y & r & t2 & E2 & V2 & _ & M).
  exists y, r, t2. split; [|auto]. rewrite four_five, F. exact E2.
Qed.
(** The final proofs: whatever pair of proofs the verifiers accept, the second prover
    can send it, too. *)
Theorem C100_proofs (c : cfg ell G) pick (s1 s2 t1 : pstate) w1 d1 pfs :
  prime p -> queue_order pick -> generates (cbase c) -> wf_cfg c -> (forall m l, fst (m_chal R m l) <> 0%F) ->
  same_view s1 s2 -> ready c s2 -> all_mentioned c s2 ->
  prepareProofs R c pick s1 w1 = Ret (t1, d1) -> accepted c d1 pfs ->
  exists w2 t2 d2 b2, prepareProofs R c pick s2 w2 = Ret (t2, d2) /\ public d1 = public d2 /\ same_view t1 t2 /\ makeProofs c d2 b2 = Ret pfs.
Proof. intros Hp Hk Hb Hc Hz. exact (final_hide Hp c pick Hk Hb Hc Hz s1 s2 t1 w1 d1 pfs). Qed.
(** Honest proofs are accepted, and accepted ones are honest for some blinding. *)
Theorem C100_accepted (c : cfg ell G) pick (s t : pstate) w d pfs :
  prime p -> queue_order pick -> generates (cbase c) -> wf_cfg c -> (forall m l, fst (m_chal R m l) <> 0%F) ->
  ready c s -> all_mentioned c s -> prepareProofs R c pick s w = Ret (t, d) ->
  (exists b, makeProofs c d b = Ret pfs) <-> accepted c d pfs.
Proof.
  intros Hp Hk Hb Hc Hz [Hr Hh] Hm E. destruct (flat_valid Hp c pick Hk Hc s Hr Hm w t d E Hh) as [VL VQ]. exact (proofs_hide Hp c Hb Hz d pfs VL VQ).
Qed.
End C100.

(** From the key to the last proof. *)
Theorem C100_complete {p ell} {G : gmod p} {R : rmerlin G} (c : cfg ell G) evs thr pick (s1 s2 d e k h t1 : @pstate p ell G R) i1 i2 :
  prime p -> generates (cbase c) -> good_setup R c evs thr -> good_libs R c -> jl_sqrt c -> queue_order pick -> (forall m l, fst (m_chal R m l) <> 0%F) ->
  proveDecryption R c s1 (i_rnd i1) (i_ctMat i1) (i_ctVec i1) (i_pt1 i1) (i_sk1 i1) (i_dn i1) = Ret d ->
  proveEncryption R c d (i_rnd i1) (i_ct1 i1) (i_ct2 i1) (i_pt2 i1) (i_er i1) (i_n1 i1) (i_n2 i1) = Ret e ->
  proveKeyGen R c e (i_rnd i1) (i_pk i1) (i_sk2 i1) (i_kn i1) = Ret k -> proveReShare R c k (i_lag i1) (i_pt1 i1) (i_pt2 i1) = Ret h ->
  proveSmallness R c h (i_ys i1) (i_rs i1) = Ret t1 ->
  same_view s1 s2 -> same_public i1 i2 -> room c s2 -> fresh c s2 -> opens1 c s2 Sk1 (coeffs_of (i_sk1 i2)) ->
  Nat.divide 4 (JLDIM c / ell) -> Nat.divide 4 (Kay c) -> Nat.divide 4 (Enn c) -> Nat.divide 4 (LINYDIM c / ell) ->
  round_dims c i2 -> round_true c evs thr i2 -> (i_pk i2 < Enn c)%nat -> length (i_lag i2) = Tee c -> cHm c <> [] -> all_fit c s1 d e k i2 ->
  exists rnd h2, (forall ys rs, fourSteps c s2 (with_rnd i2 rnd ys rs) = Ret h2) /\ same_view h h2 /\
    (sml_fits c h t1 (pcomp h2) -> exists y r t2, proofSteps R c s2 (with_rnd i2 rnd (fun _ => y) (fun _ => r)) = Ret t2 /\ same_view t1 t2 /\
      (pads_found c t2 -> all_mentioned c t1 -> forall w1 u1 d1 pfs, prepareProofs R c pick t1 w1 = Ret (u1, d1) -> accepted c d1 pfs ->
         exists w2 u2 d2 b2, prepareProofs R c pick t2 w2 = Ret (u2, d2) /\ public d1 = public d2 /\ same_view u1 u2 /\ makeProofs c d2 b2 = Ret pfs)).
Proof.
  intros Hp Hb GS Hl Hs Hk Hz D1 E1 K1 H1 S1 HV SP Hr Hf Op J4 JK JN JL RD RT Hpk Hlag Hm AF. pose proof GS as (Hc & _ & _ & _ & Kd & _ & _ & Hm2 & _).
  assert (HL : (7 * ell + length (cHm c) <= length (plin s2))%nat) by (destruct Hf as (_ & -> & _); rewrite repeat_length; lia).
  destruct (four_can R c Hb Hc Hl Hs s1 s2 d e k h i1 i2 D1 E1 K1 H1 HV SP Hr HL J4 JK JN Kd RD Hpk Hlag Hm Hm2 AF) as (rnd & h2 & F & V & Hr2).
  exists rnd, h2. split; [exact F|]. split; [exact V|]. intros SF.
  destruct (sml_can R c Hb Hc Hl h t1 h2 _ _ S1 V Hr2 JL SF) as (y & r & t2 & E2 & V2 & Ly & M).
  assert (RUN : proofSteps R c s2 (with_rnd i2 rnd (fun _ => y) (fun _ => r)) = Ret t2) by (rewrite four_five, F; exact E2).
  exists y, r, t2. split; [exact RUN|]. split; [exact V2|]. intros PF AM w1 u1 d1 pfs P1 A1.
  destruct RD as (RD1 & RD2 & RD3 & RD4 & _).
  assert (RDS : round_dims c (with_rnd i2 rnd (fun _ => y) (fun _ => r))) by exact (conj RD1 (conj RD2 (conj RD3 (conj RD4 (fun _ => Ly))))).
  pose proof (steps_ready Hp c evs thr GS _ RDS RT s2 t2 Hf Op RUN PF) as RY.
  exact (final_hide Hp c pick Hk Hb Hc Hz t1 t2 u1 w1 d1 pfs V2 RY (mentioned_pub c t1 t2 (proj1 V2) AM) P1 A1).
Qed.

(** *** Examples *)
Lemma gen_field (q : Z) (a b : Fp q) : (a * b)%F = 1%F -> generates (a : Fp_gmod q).
Proof.
  intros E. split.
  - intros g. exists (@fmul q b g). cbn [gmul Fp_gmod gcar]. rewrite fmul_assoc, E. apply fmul_1_l.
  - intros x y H. cbn [gmul Fp_gmod gcar] in H. assert (Q : forall z : Fp q, (b * (a * z))%F = z) by (intros z; rewrite fmul_assoc, (fmul_comm b a), E; apply fmul_1_l).
    rewrite <- (Q x), <- (Q y). now rewrite H.
Qed.
(** The second prover of C98_example can send the proofs of the first. *)
Example C100_proofs_example : exists t1 t2 u1 d1 pfs, same_view t1 t2 /\ ready toyC t2 /\ all_mentioned toyC t2 /\ generates (cbase toyC) /\
  prepareProofs toyR toyC min_index t1 (i_wRnd t_round) = Ret (u1, d1) /\ makeProofs toyC d1 t_bl = Ret pfs /\ accepted toyC d1 pfs /\
  exists w2 u2 d2 b2, prepareProofs toyR toyC min_index t2 w2 = Ret (u2, d2) /\ public d1 = public d2 /\ makeProofs toyC d2 b2 = Ret pfs.
Proof.
  destruct two_runs as (s1 & t1 & s2 & t2 & S1 & A & _ & B & C & D & E & _ & AM & RY). 
  assert (HV : same_view t1 t2) by (split; [exact (C98_steps toyC s1 s2 t1 t2 t_round h_round A B ltac:(repeat split) C D E)|exact D]).
  assert (GB : generates (cbase toyC)) by (apply (gen_field 101 (f101 3) (f101 34)); apply Fp_eq; vm_compute; reflexivity).
  destruct (run_ok (let! s := toyK 1 in let! t := proofSteps toyR toyC s t_round in let! (u, d) := prepareProofs toyR toyC min_index t (i_wRnd t_round) in
    let! pfs := makeProofs toyC d t_bl in Ret (s, t, u, d, pfs)) (fun _ => true)) as ([[[[s t] u1] d1] pfs] & H & _); [vm_compute; reflexivity|].
  apply obind_ret_inv in H as (s' & Q1 & H). assert (s' = s1) as -> by (pose proof (eq_trans (eq_sym Q1) S1) as T; now injection T).
  apply obind_ret_inv in H as (t' & Q2 & H). assert (t' = t1) as -> by (pose proof (eq_trans (eq_sym Q2) A) as T; now injection T).
  apply obind_ret_inv in H as ([u1' d1'] & Q3 & H). apply obind_ret_inv in H as (pf' & Q4 & H).
  assert (d1' = d1) as -> by exact (f_equal (fun o => match o with Ret q => snd (fst q) | _ => d1 end) H).
  assert (pf' = pfs) as -> by exact (f_equal (fun o => match o with Ret q => snd q | _ => pfs end) H). clear H.
  assert (AC : accepted toyC d1 pfs).
  { assert (RY1 : ready toyC t1 /\ all_mentioned toyC t1) by (destruct toy_five as (s0 & t0 & T1 & _ & _ & T2 & _ & T3 & T4);
      assert (s0 = s1) as -> by (pose proof (eq_trans (eq_sym T1) S1) as T; now injection T); assert (t0 = t1) as -> by (pose proof (eq_trans (eq_sym T2) A) as T; now injection T); auto).
    apply (C100_accepted toyC min_index t1 u1' (i_wRnd t_round) d1 pfs prime_101 (min_index_order 101) GB toy_cfg toyR_chal (proj1 RY1) (proj2 RY1) Q3). exists t_bl. exact Q4. }
  exists t1, t2, u1', d1, pfs. split; [exact HV|]. split; [exact RY|]. split; [exact AM|]. split; [exact GB|]. split; [exact Q3|]. split; [exact Q4|]. split; [exact AC|].
  destruct (C100_proofs toyC min_index t1 t2 u1' (i_wRnd t_round) d1 pfs prime_101 (min_index_order 101) GB toy_cfg toyR_chal HV RY AM Q3 AC) as (w2 & u2 & d2 & b2 & X1 & X2 & _ & X3).
  exists w2, u2, d2, b2. auto.
Qed.
(** The same two provers in the proof of smallness. *)
Example C100_smallness_example : exists h1 h2 t1, generates (cbase toyC) /\ wf_cfg toyC /\ good_libs toyR toyC /\
  proveSmallness toyR toyC h1 (i_ys t_round) (i_rs t_round) = Ret t1 /\ same_view h1 h2 /\ pcomp h1 <> pcomp h2 /\ room toyC h2 /\ Nat.divide 4 (8 / 2) /\ sml_fits toyC h1 t1 (pcomp h2).
Proof.
  assert (GL : good_libs toyR toyC) by (split; [exact toy_bytes|]; split; [intros m l n; cbn; now rewrite map_length, seq_length|]; split; [exact jac_ex_ok|exact pp_ex_sound]).
  destruct two_runs as (s1 & t1 & s2 & t2 & S1 & A & S2 & B & C & D & E & _). rewrite four_five in A, B.
  apply obind_ret_inv in A as (h1 & F1 & M1). apply obind_ret_inv in B as (h2 & F2 & M2). exists h1, h2, t1.
  pose proof (four_view toyR toyC _ _ _ _ _ _ _ _ F1 F2 ltac:(repeat split) M1 M2 C D) as HV.
  destruct (run_ok (let! s1 := toyK 1 in let! t1 := fourSteps toyC s1 t_round in let! s2 := h_start in let! t2 := fourSteps toyC s2 h_round in Ret (t1, t2))
     (fun '(a, b) => negb (elts_chk (pcomp a) (pcomp b)) && (length (plin b) =? 15)%nat && (length (pnorm b) =? 10)%nat && (length (pcomp b) =? 30)%nat && forallb (fun v => pidx b v =? toyIdx v) all_vars)) as ([a b] & H & K); [vm_compute; reflexivity|].
  apply obind_ret_inv in H as (x1 & Q & H). assert (x1 = s1) as -> by (pose proof (eq_trans (eq_sym Q) S1) as T; now injection T).
  apply obind_ret_inv in H as (y1 & Q1 & H). assert (y1 = h1) as -> by (pose proof (eq_trans (eq_sym Q1) F1) as T; now injection T).
  apply obind_ret_inv in H as (x2 & Q2 & H). assert (x2 = s2) as -> by (pose proof (eq_trans (eq_sym Q2) S2) as T; now injection T).
  apply obind_ret_inv in H as (y2 & Q3 & H). assert (y2 = h2) as -> by (pose proof (eq_trans (eq_sym Q3) F2) as T; now injection T).
  assert (Z1 : h1 = a) by exact (f_equal (fun o => match o with Ret q => fst q | _ => a end) H). assert (Z2 : h2 = b) by exact (f_equal (fun o => match o with Ret q => snd q | _ => a end) H).
  rewrite <- Z1, <- Z2 in K. clear H Z1 Z2 Q Q1 Q2 Q3.
  apply andb_prop in K as [K K5]. apply andb_prop in K as [K K4]. apply andb_prop in K as [K K3]. apply andb_prop in K as [K1 K2]. apply Nat.eqb_eq in K2, K3, K4.
  assert (RM : room toyC h2).
  { rewrite forallb_forall in K5. assert (Ei : forall v, pidx h2 v = toyIdx v) by (intros v; apply Z.eqb_eq, K5, all_vars_all).
    split; [|split; [rewrite Ei; vm_compute; reflexivity|split; [apply Nat.leb_le; vm_compute; reflexivity|rewrite K2, K3, K4; split; [apply Nat.leb_le; reflexivity|split; [lia|reflexivity]]]]].
    apply (layout_swap toyC (swap_sk toyIdx)); [|intros x; rewrite Ei; destruct x; reflexivity].
    apply (layout_swap toyC toyIdx); [apply layout_set; vm_compute; reflexivity|reflexivity]. }
  split; [apply (gen_field 101 (f101 3) (f101 34)); apply Fp_eq; vm_compute; reflexivity|]. split; [exact toy_cfg|]. split; [exact GL|].
  split; [exact M1|]. split; [exact HV|]. split.
  { intros Z. rewrite Z in K1. assert (T : forall l, elts_chk l l = true) by (induction l as [|e l IH]; [reflexivity|]; cbn; rewrite IH, !(proj2 (feqb_eq _ _) eq_refl); reflexivity).
    rewrite T in K1. discriminate. }
  split; [exact RM|]. split; [exists 1%nat; reflexivity|].
  pose proof (sml_own toyR toyC toy_cfg h2 t2 _ _ M2 ltac:(exists 1%nat; reflexivity)) as F. unfold sml_fits in *.
  replace (pmer h1) with (pmer h2) by exact (eq_sym (f_equal snd (proj1 HV))). replace (pcom t1 YY) with (pcom t2 YY) by exact (eq_sym (D YY)). exact F.
Qed.
(** All the hypotheses of C100_steps and C100_complete for two provers with different
    keys. *)
Example C100_complete_example : exists s1 s2 d e k h t1, let c := qC3 in let i1 := q3_one in let i2 := q3_two in
  i_sk1 i1 <> i_sk1 i2 /\ i_dn i1 <> i_dn i2 /\
  prime PQ /\ generates (cbase c) /\ good_setup qR c (points 4) 2 /\ good_libs qR c /\ jl_sqrt c /\ queue_order (@min_index PQ) /\ (forall m l, fst (m_chal qR m l) <> 0%F) /\
  proveDecryption qR c s1 (i_rnd i1) (i_ctMat i1) (i_ctVec i1) (i_pt1 i1) (i_sk1 i1) (i_dn i1) = Ret d /\
  proveEncryption qR c d (i_rnd i1) (i_ct1 i1) (i_ct2 i1) (i_pt2 i1) (i_er i1) (i_n1 i1) (i_n2 i1) = Ret e /\
  proveKeyGen qR c e (i_rnd i1) (i_pk i1) (i_sk2 i1) (i_kn i1) = Ret k /\ proveReShare qR c k (i_lag i1) (i_pt1 i1) (i_pt2 i1) = Ret h /\
  proveSmallness qR c h (i_ys i1) (i_rs i1) = Ret t1 /\
  same_view s1 s2 /\ same_public i1 i2 /\ room c s2 /\ fresh c s2 /\ opens1 c s2 Sk1 (coeffs_of (i_sk1 i2)) /\
  Nat.divide 4 (JLDIM c / 2) /\ Nat.divide 4 (Kay c) /\ Nat.divide 4 (Enn c) /\ Nat.divide 4 (LINYDIM c / 2) /\
  round_dims c i2 /\ round_true c (points 4) 2 i2 /\ (i_pk i2 < Enn c)%nat /\ length (i_lag i2) = Tee c /\ cHm c <> [] /\ all_fit c s1 d e k i2.
Proof.
  destruct q3_runs as (s1 & s2 & d & e & k & h & t1 & S1 & S2 & D & E & K & H & T & V & F). exists s1, s2, d, e, k, h, t1. cbv zeta.
  destruct (commitKey_opens qR qC3 q3At s2 q3_sk q3_r q3_fresh S2) as [A B].
  split; [intros Q; apply (f_equal (fun l => fval (coeff (nth 3 l e0) 0))) in Q; vm_compute in Q; discriminate|].
  split; [intros Q; apply (f_equal (fun l => fval (coeff (nth 0 l e0) 0))) in Q; vm_compute in Q; discriminate|].
  split; [exact PQ_prime|]. split; [apply (gen_field PQ (fq 3) (fq 2666880005)); apply Fp_eq; vm_compute; reflexivity|].
  split; [exact q3_good|]. split; [exact q3_libs|]. split; [unfold jl_sqrt; cbn; lia|]. split; [exact (min_index_order PQ)|]. split; [exact q3_chal|].
  split; [exact D|]. split; [exact E|]. split; [exact K|]. split; [exact H|]. split; [exact T|]. split; [exact V|]. split; [repeat split|].
  split; [exact (q3_room' s2 S2)|]. split; [exact A|]. split; [exact B|].
  split; [exists 1%nat; reflexivity|]. split; [exists 1%nat; reflexivity|]. split; [exists 1%nat; reflexivity|]. split; [exists 1%nat; reflexivity|].
  split; [apply q3_dims; reflexivity|]. split; [exact (q3_true _ _ q3_dec_two)|]. split; [apply Nat.ltb_lt; reflexivity|]. split; [reflexivity|]. split; [discriminate|exact F].
Qed.
Print Assumptions C98_decryption.
Print Assumptions C98_encryption.
Print Assumptions C98_keygen.
Print Assumptions C98_reshare.
Print Assumptions C98_smallness.
Print Assumptions C98_steps.
Print Assumptions C98_proofs.
Print Assumptions C100_decryption.
Print Assumptions C100_encryption.
Print Assumptions C100_keygen.
Print Assumptions C100_smallness.
Print Assumptions C100_unique.
Print Assumptions C100_own.
Print Assumptions C100_steps.
Print Assumptions C100_proofs.
Print Assumptions C100_accepted.
Print Assumptions C100_complete.
