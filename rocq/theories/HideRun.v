(** A second prover with other secrets can show exactly the same in all five steps. *)
From Coq Require Import String.
From Coq Require Import ZArith Znumtheory List Bool Lia.
From Verif Require Import NumTheory Outcome Fp FSum GroupMod Ring ConstraintsModel ConstraintsSpec BulletproofModel AlgebraModel AlgebraSpec
  TernaryModel TernarySpec RegevModel RegevPfModel RegevPfSpec RegevStSpec RegevAggModel RegevAggSpec RegevRunModel RegevRunSpec StepSpec
  ProgressSpec ProgressBase ProgressDec ProgressEnc ProgressSml ProgressAll PropRegevSt RegevPfSml StepSound ZkSpec HideSpec HideRuns HideSteps HideExist.
Import ListNotations.
Open Scope Z_scope.

Section D.
Context {p : Z} {ell : nat} {G : gmod p}.
Notation F := (Fp p).
Notation E := (elt p ell).
Variable R : rmerlin G.
Variable c : cfg ell G.
Notation pstate := (@pstate p ell G R).
Hypothesis Hb : generates (cbase c).
Hypothesis Hc : wf_cfg c.
Hypothesis Hlib : good_libs R c.
Hypothesis Hsq : jl_sqrt c.
Notation jl c := (JLDIM c / ell)%nat.

Lemma mer_eq (s1 s2 : pstate) : same_view s1 s2 -> pmer s1 = pmer s2.
Proof. intros [H _]. now apply stmt_inv in H. Qed.
Lemma dec_can (s1 s1' s2 : pstate) rnd1 ctMat ctVec pt1 pt2 sk1 sk2 n1 n2 :
  proveDecryption R c s1 rnd1 ctMat ctVec pt1 sk1 n1 = Ret s1' -> same_view s1 s2 ->
  room c s2 -> Nat.divide 4 (jl c) -> dec_dims c ctMat ctVec pt2 sk2 n2 -> dec_fits c s1 s1' n2 ->
  exists rnd2 s2', proveDecryption R c s2 rnd2 ctMat ctVec pt2 sk2 n2 = Ret s2' /\ same_view s1' s2' /\ room c s2' /\ length (plin s2') = length (plin s2).
Proof.
  intros H HV Hr H4 HD HF. destruct (dec_hide R c Hb s1 s1' s2 rnd1 ctMat ctVec pt1 pt2 sk1 sk2 n1 n2 H HV) as (rnd2 & EC & K).
  destruct (dec_ret R c Hc Hlib Hsq s2 Hr rnd2 ctMat ctVec pt2 sk2 n2 H4 HD) as (X & m & f & A & B & C & _).
  rewrite EC, <- (mer_eq _ _ HV) in A. destruct (C (HF X m f A B)) as (s2' & E2 & Sh). exists rnd2, s2'. split; [exact E2|].
  split; [exact (K _ E2)|]. exact (room_shape R c s2 s2' Hr Sh).
Qed.
Lemma enc_can (s1 s1' s2 : pstate) rnd1 ct1 ct2 pt1 pt2 er1 er2 a1 a2 b1 b2 :
  proveEncryption R c s1 rnd1 ct1 ct2 pt1 er1 a1 b1 = Ret s1' -> same_view s1 s2 ->
  room c s2 -> Nat.divide 4 (Kay c) -> Nat.divide 4 (Enn c) -> key_dims c -> enc_dims c ct1 ct2 pt2 er2 a2 b2 -> enc_fits c s1 s1' er2 a2 b2 ->
  exists rnd2 s2', proveEncryption R c s2 rnd2 ct1 ct2 pt2 er2 a2 b2 = Ret s2' /\ same_view s1' s2' /\ room c s2' /\ length (plin s2') = length (plin s2).
Proof.
  intros H HV Hr H4 H5 HK HD HF. destruct (enc_hide R c Hb s1 s1' s2 rnd1 ct1 ct2 pt1 pt2 er1 er2 a1 a2 b1 b2 H HV) as (rnd2 & EC & EC2 & K).
  destruct (enc_ret R c Hc Hlib Hsq s2 Hr rnd2 ct1 ct2 pt2 er2 a2 b2 H4 H5 HK HD) as (X1 & m1 & f1 & X2 & m2 & f2 & X3 & m3 & f3 & A1 & B1 & A2 & B2 & A3 & B3 & C & _).
  rewrite EC, EC2, <- (mer_eq _ _ HV) in A1. destruct (C (HF X1 m1 f1 X2 m2 f2 X3 m3 f3 A1 A2 A3 B1 B2 B3)) as (s2' & E2 & Sh). exists rnd2, s2'. split; [exact E2|].
  split; [exact (K _ E2)|]. exact (room_shape R c s2 s2' Hr Sh).
Qed.
Lemma key_can (s1 s1' s2 : pstate) rnd1 pk sk1 sk2 n1 n2 :
  proveKeyGen R c s1 rnd1 pk sk1 n1 = Ret s1' -> same_view s1 s2 ->
  room c s2 -> Nat.divide 4 (jl c) -> key_dims c -> (pk < Enn c)%nat -> length sk2 = Kay c -> length n2 = Kay c -> key_fits c s1 s1' sk2 n2 ->
  exists rnd2 s2', proveKeyGen R c s2 rnd2 pk sk2 n2 = Ret s2' /\ same_view s1' s2' /\ room c s2' /\ length (plin s2') = length (plin s2).
Proof.
  intros H HV Hr H4 HK HP HD1 HD2 HF. destruct (key_hide R c Hb s1 s1' s2 rnd1 pk sk1 sk2 n1 n2 H HV) as (rnd2 & EC & K).
  destruct (key_ret R c Hc Hlib Hsq s2 Hr rnd2 pk sk2 n2 H4 HK HP HD1 HD2) as (X1 & m1 & f1 & X2 & m2 & f2 & A1 & B1 & A2 & B2 & C & _).
  rewrite EC, <- (mer_eq _ _ HV) in A1. destruct (C (HF X1 m1 f1 X2 m2 f2 A1 A2 B1 B2)) as (s2' & E2 & Sh). exists rnd2, s2'. split; [exact E2|].
  split; [exact (K _ E2)|]. exact (room_shape R c s2 s2' Hr Sh).
Qed.
Lemma share_can (s1 s1' s2 : pstate) lag pt1 pt2 pt1' pt2' : proveReShare R c s1 lag pt1 pt2 = Ret s1' -> same_view s1 s2 ->
  room c s2 -> length pt1' = Tee c -> length lag = Tee c -> length pt2' = Enn c -> cHm c <> [] -> Forall (fun r => length r = S (Enn c)) (cHm c) ->
  (7 * ell + length (cHm c) <= length (plin s2))%nat ->
  exists s2', proveReShare R c s2 lag pt1' pt2' = Ret s2' /\ same_view s1' s2' /\ room c s2'.
Proof.
  intros H [HS HC] Hr L1 L2 L3 Hm Hm2 Hl. assert (Ht : 0 < tee (cgk c)) by apply Hc. assert (He : 0 < enn (cgk c)) by apply Hc.
  destruct (C50_succeeds R c s2 lag pt1' pt2' Ht He L1 L2 L3 Hm Hm2) as (s2' & E2); [unfold reShrLin; lia|].
  exists s2'. split; [exact E2|]. split; [|now apply (room_share R c s2 s2' _ _ _ Hr E2)].
  split; [exact (share_pub R c _ _ _ _ _ _ _ _ _ H E2 HS)|]. unfold same_coms. now rewrite (share_coms R c _ _ _ _ _ H), (share_coms R c _ _ _ _ _ E2).
Qed.
Lemma zip_nth2 : forall (u v : list E) j, length u = length v -> (j < length u)%nat -> nth j (zipWith eadd u v) e0 = eadd (nth j u e0) (nth j v e0).
Proof. induction u as [|a u IH]; intros [|b v] [|j] L Hj; cbn in *; try lia; [reflexivity|]. apply IH; lia. Qed.
Lemma sml_can (s1 s1' s2 : pstate) ys1 rs1 :
  proveSmallness R c s1 ys1 rs1 = Ret s1' -> same_view s1 s2 -> room c s2 -> Nat.divide 4 (LINYDIM c / ell) -> sml_fits c s1 s1' (pcomp s2) ->
  exists y2 r2 s2', proveSmallness R c s2 (fun _ => y2) (fun _ => r2) = Ret s2' /\ same_view s1' s2' /\ length y2 = (LINYDIM c / ell)%nat /\ mask_for c s1 s1' (pcomp s2) y2.
Proof.
  intros H HV Hr H4 HF. pose proof Hr as (_ & _ & _ & _ & _ & Lp).
  destruct (sml_hide R c Hb Hc (proj1 Hlib) s1 s1' s2 ys1 rs1 H HV Lp) as (X & m & f & u2 & y2 & r2 & EX & Hf & Eu & Ly & Eb & _ & Hz & EC & K).
  rewrite <- (mer_eq _ _ HV) in EX. change PAD_SIZE with 4%nat in *.
  assert (He : (0 < ell)%nat) by apply Hc.
  assert (Hn : (0 < LINYDIM c / ell)%nat) by exact (ncols_pos c Hc H4).
  assert (Lu : length u2 = (LINYDIM c / ell)%nat) by (rewrite Eu; apply vec_len).
  assert (Nz : forall j, (j < LINYDIM c / ell)%nat -> eadd (compL (10 * (JLDIM c + 4) / ell) (pcomp s2) f j) (nth j y2 e0) = nth j (pz s1') e0).
  { intros j Hj. rewrite <- Eb, zip_nth2 by lia. rewrite Eu, (vec_nth He) by exact Hj. reflexivity. }
  destruct (sml_ret R c Hc Hlib H4 s2 Hr (fun _ => y2) (fun _ => r2) (fun _ => Ly)) as [C _].
  destruct C as (s2' & E2 & _).
  { exists 0%nat. split; [lia|]. unfold trial_ok. cbv zeta. exists X, m, f. rewrite EC, <- (mer_eq _ _ HV). split; [exact EX|]. split; [exact Hf|]. split; [exact (HF X m f EX Hf)|].
    refine (proj2 (ProgressSml.within_ext _ _ _ (fun j => nth j (pz s1') e0) Nz) _). apply (linf_iff c Hc); [exact Hn| |now apply Z.leb_le]. rewrite <- Eb, zipadd_len; congruence. }
  exists y2, r2, s2'. split; [exact E2|]. split; [exact (K _ E2)|]. split; [exact Ly|]. intros X' m' f' nR nC EX' Hf'. unfold nR, nC in *.
  assert (X' = X /\ m' = m) as [-> ->] by (rewrite EX in EX'; now injection EX'). split; [exact Ly|]. intros j Hj. rewrite <- Nz by exact Hj. f_equal.
  assert (Q : vec (LINYDIM c / ell) (compL (10 * (JLDIM c + 4) / ell) (pcomp s2) f') = vec (LINYDIM c / ell) (compL (10 * (JLDIM c + 4) / ell) (pcomp s2) f)).
  { pose proof (ProgressBase.left_ok c Hc (pcomp s2) X _ _ f' Hf' Lp) as Q1. pose proof (ProgressBase.left_ok c Hc (pcomp s2) X _ _ f Hf Lp) as Q2. rewrite Q1 in Q2. injection Q2 as Q2. exact Q2. }
  apply (f_equal (fun l => nth j l e0)) in Q. now rewrite !(vec_nth He) in Q by exact Hj.
Qed.
(** The randomness of the three steps together. *)
Definition mix (rd re rk : var -> F) (v : var) : F :=
  match v with
  | Pt1 | DCompHi | DPadHi | DCompLo | DPadLo => rd v
  | Pt2 | RR | RComp | RPad | EComp1Hi | EPad1Hi | EComp1Lo | EPad1Lo | EComp2Hi | EPad2Hi | EComp2Lo | EPad2Lo => re v
  | _ => rk v
  end.
Lemma mix_dec rd re rk s a b d e n : proveDecryption R c s (mix rd re rk) a b d e n = proveDecryption R c s rd a b d e n.
Proof. reflexivity. Qed.
Lemma mix_enc rd re rk s a b d e n n' : proveEncryption R c s (mix rd re rk) a b d e n n' = proveEncryption R c s re a b d e n n'.
Proof. reflexivity. Qed.
Lemma mix_key rd re rk s a b d : proveKeyGen R c s (mix rd re rk) a b d = proveKeyGen R c s rk a b d.
Proof. reflexivity. Qed.
Lemma four_five s i : proofSteps R c s i = (let! t := fourSteps c s i in proveSmallness R c t (i_ys i) (i_rs i)).
Proof.
  unfold proofSteps, fourSteps. destruct (proveDecryption _ _ _ _ _ _ _ _ _); cbn [obind]; try reflexivity.
  destruct (proveEncryption _ _ _ _ _ _ _ _ _ _); cbn [obind]; try reflexivity. now destruct (proveKeyGen _ _ _ _ _ _ _).
Qed.
Lemma four_inv s i t : fourSteps c s i = Ret t -> exists d e k : pstate,
  proveDecryption R c s (i_rnd i) (i_ctMat i) (i_ctVec i) (i_pt1 i) (i_sk1 i) (i_dn i) = Ret d /\
  proveEncryption R c d (i_rnd i) (i_ct1 i) (i_ct2 i) (i_pt2 i) (i_er i) (i_n1 i) (i_n2 i) = Ret e /\
  proveKeyGen R c e (i_rnd i) (i_pk i) (i_sk2 i) (i_kn i) = Ret k /\ proveReShare R c k (i_lag i) (i_pt1 i) (i_pt2 i) = Ret t.
Proof.
  unfold fourSteps. intros H. apply obind_ret_inv in H as (d & D & H). apply obind_ret_inv in H as (e & Ee & H). apply obind_ret_inv in H as (k & K & H). exists d, e, k. auto.
Qed.
Lemma four_can (s1 s2 d e k h : pstate) i1 i2 :
  proveDecryption R c s1 (i_rnd i1) (i_ctMat i1) (i_ctVec i1) (i_pt1 i1) (i_sk1 i1) (i_dn i1) = Ret d ->
  proveEncryption R c d (i_rnd i1) (i_ct1 i1) (i_ct2 i1) (i_pt2 i1) (i_er i1) (i_n1 i1) (i_n2 i1) = Ret e ->
  proveKeyGen R c e (i_rnd i1) (i_pk i1) (i_sk2 i1) (i_kn i1) = Ret k -> proveReShare R c k (i_lag i1) (i_pt1 i1) (i_pt2 i1) = Ret h ->
  same_view s1 s2 -> same_public i1 i2 -> room c s2 -> (7 * ell + length (cHm c) <= length (plin s2))%nat ->
  Nat.divide 4 (jl c) -> Nat.divide 4 (Kay c) -> Nat.divide 4 (Enn c) -> key_dims c -> round_dims c i2 -> (i_pk i2 < Enn c)%nat ->
  length (i_lag i2) = Tee c -> cHm c <> [] -> Forall (fun r => length r = S (Enn c)) (cHm c) -> all_fit c s1 d e k i2 ->
  exists rnd h2, (forall ys rs, fourSteps c s2 (with_rnd i2 rnd ys rs) = Ret h2) /\ same_view h h2 /\ room c h2.
Proof.
  intros D1 E1 K1 H1 HV (P1 & P2 & P3 & P4 & P5 & P6) Hr HL J4 JK JN HK (R1 & R2 & R3 & R4 & R5) Hpk Hlag Hm Hm2 (F1 & F2 & F3).
  rewrite P1, P2 in D1. rewrite P3, P4 in E1. rewrite P5 in K1. rewrite P6 in H1.
  destruct (dec_can _ _ s2 _ _ _ _ (i_pt1 i2) _ (i_sk1 i2) _ (i_dn i2) D1 HV Hr J4 R1 F1) as (rd & d2 & D2 & HV1 & Hr1 & L1).
  destruct (enc_can _ _ d2 _ _ _ _ (i_pt2 i2) _ (i_er i2) _ (i_n1 i2) _ (i_n2 i2) E1 HV1 Hr1 JK JN HK R2 F2) as (re & e2 & E2 & HV2 & Hr2 & L2).
  destruct (key_can _ _ e2 _ _ _ (i_sk2 i2) _ (i_kn i2) K1 HV2 Hr2 J4 HK Hpk R4 R3 F3) as (rk & k2 & K2 & HV3 & Hr3 & L3).
  destruct (share_can _ _ k2 _ _ _ (i_pt1 i2) (i_pt2 i2) H1 HV3 Hr3 ltac:(apply R1) Hlag ltac:(apply R2) Hm Hm2 ltac:(lia)) as (h2 & H2 & HV4 & Hr4).
  exists (mix rd re rk), h2. split; [|now split]. intros ys rs. unfold fourSteps, with_rnd.
  cbn [i_rnd i_ctMat i_ctVec i_pt1 i_sk1 i_dn i_ct1 i_ct2 i_pt2 i_er i_n1 i_n2 i_pk i_sk2 i_kn i_lag].
  rewrite mix_dec, D2. cbn [obind]. rewrite mix_enc, E2. cbn [obind]. rewrite mix_key, K2. exact H2.
Qed.
(** The secrets of a run that returned do fit. *)
Lemma dec_own (s t : pstate) rnd a b d e n : proveDecryption R c s rnd a b d e n = Ret t -> room c s -> Nat.divide 4 (jl c) -> dec_dims c a b d e n -> dec_fits c s t n.
Proof.
  intros H Hr H4 HD X m f EX Hf. destruct (dec_ret R c Hc Hlib Hsq s Hr rnd a b d e n H4 HD) as (X' & m' & f' & EX' & Hf' & _ & N).
  pose proof H as H'. apply dec_run in H' as (C1 & C2 & C3 & C4 & C5 & X1 & m1 & comp & hi & lo & hib & padHi & padLo & x & m2 & xvec & Rx & ctRx & lin & q1 & q2 &
    [_ Q1] & _ & _ & _ & _ & _ & _ & _ & _ & _ & _ & _ & _ & _ & _ & _ & _ & _ & V). apply view_inv in V as [_ V].
  assert (K : pcom t Pt1 = com_point c (pidx s Pt1) d (rnd Pt1)) by (rewrite V; exact Q1).
  rewrite K in EX. assert (X' = X) as -> by (pose proof (eq_trans (eq_sym EX') EX) as T; now injection T).
  pose proof (ProgressBase.left_ok c Hc n X _ _ f Hf ltac:(apply HD)) as Q2. rewrite (ProgressBase.left_ok c Hc n X _ _ f' Hf' ltac:(apply HD)) in Q2. injection Q2 as Q2.
  destruct (hi_fits_dec c Hc (B_dNoise c) (kk c) (compL (Tee c) n f)) as [Y|Y]; [exact Y|].
  exfalso. rewrite N in H; [discriminate|]. intros Z. apply Y. unfold hi_fits, ints in *. rewrite <- Q2. exact Z.
Qed.
Lemma enc_own (s t : pstate) rnd a b d er n1 n2 : proveEncryption R c s rnd a b d er n1 n2 = Ret t -> room c s -> Nat.divide 4 (Kay c) -> Nat.divide 4 (Enn c) -> key_dims c ->
  enc_dims c a b d er n1 n2 -> enc_fits c s t er n1 n2.
Proof.
  intros H Hr H4 H5 HK HD X1 m1 f1 X2 m2 f2 X3 m3 f3 EX1 EX2 EX3 Hf1 Hf2 Hf3.
  destruct (enc_ret R c Hc Hlib Hsq s Hr rnd a b d er n1 n2 H4 H5 HK HD) as (Y1 & k1 & g1 & Y2 & k2 & g2 & Y3 & k3 & g3 & EY1 & Hg1 & EY2 & Hg2 & EY3 & Hg3 & _ & N).
  assert (K : pcom t Pt2 = com_point c (pidx s Pt2) d (rnd Pt2) /\ pcom t RR = com_point c (pidx s RR) (coeffs_of er) (rnd RR)).
  { pose proof H as H'. apply enc_run in H'. do 54 destruct H' as [? H']. destruct H' as (([_ Q1] & [_ Q2] & _) & _ & _ & _ & _ & V). apply view_inv in V as [_ V]. rewrite V. split; assumption. }
  destruct K as [K1 K2]. rewrite K1, K2 in EX1.
  assert (Y1 = X1 /\ k1 = m1) as [-> ->] by (pose proof (eq_trans (eq_sym EY1) EX1) as T; now injection T).
  assert (Y2 = X2 /\ k2 = m2) as [-> ->] by (pose proof (eq_trans (eq_sym EY2) EX2) as T; now injection T).
  assert (Y3 = X3) as -> by (pose proof (eq_trans (eq_sym EY3) EX3) as T; now injection T).
  assert (L1 : length n1 = Kay c) by apply HD. assert (L2 : length n2 = Enn c) by apply HD. assert (L3 : length er = Kay c) by apply HD.
  pose proof (eq_trans (eq_sym (ProgressBase.right_ok c Hc n1 X1 _ _ f1 Hf1 L1)) (ProgressBase.right_ok c Hc n1 X1 _ _ g1 Hg1 L1)) as Q1. injection Q1 as Q1.
  pose proof (eq_trans (eq_sym (ProgressBase.right_ok c Hc n2 X2 _ _ f2 Hf2 L2)) (ProgressBase.right_ok c Hc n2 X2 _ _ g2 Hg2 L2)) as Q2. injection Q2 as Q2.
  pose proof (eq_trans (eq_sym (ProgressBase.right_ok c Hc er X3 _ _ f3 Hf3 L3)) (ProgressBase.right_ok c Hc er X3 _ _ g3 Hg3 L3)) as Q3. injection Q3 as Q3.
  assert (Z : (fits c (B_r c) (compR (Kay c) er g3) /\ hi_fits c (B_eNoise1 c) (kk c) (compR (Kay c) n1 g1) /\ hi_fits c (B_eNoise2 c) (nn c) (compR (Enn c) n2 g2))).
  { destruct (fits_dec c Hc (B_r c) (compR (Kay c) er g3)) as [Z1|Z1]; [|exfalso; rewrite N in H; [discriminate|tauto]].
    destruct (hi_fits_dec c Hc (B_eNoise1 c) (kk c) (compR (Kay c) n1 g1)) as [Z2|Z2]; [|exfalso; rewrite N in H; [discriminate|tauto]].
    destruct (hi_fits_dec c Hc (B_eNoise2 c) (nn c) (compR (Enn c) n2 g2)) as [Z3|Z3]; [|exfalso; rewrite N in H; [discriminate|tauto]]. auto. }
  unfold fits, hi_fits, ints in *. change (RegevPfModel.jl c) with (JLDIM c / ell)%nat in *. rewrite Q1, Q2, Q3. exact Z.
Qed.
Lemma key_own (s t : pstate) rnd pk sk n : proveKeyGen R c s rnd pk sk n = Ret t -> room c s -> Nat.divide 4 (jl c) -> key_dims c -> (pk < Enn c)%nat ->
  length sk = Kay c -> length n = Kay c -> key_fits c s t sk n.
Proof.
  intros H Hr H4 HK HP L1 L2 X1 m1 f1 X2 m2 f2 EX1 EX2 Hf1 Hf2.
  destruct (key_ret R c Hc Hlib Hsq s Hr rnd pk sk n H4 HK HP L1 L2) as (Y1 & k1 & g1 & Y2 & k2 & g2 & EY1 & Hg1 & EY2 & Hg2 & _ & N).
  assert (K : pcom t Sk2 = com_point c (pidx s Sk2) (coeffs_of sk) (rnd Sk2)).
  { pose proof H as H'. apply key_run in H'. do 34 destruct H' as [? H']. destruct H' as (([_ Q1] & _) & _ & _ & _ & _ & V). apply view_inv in V as [_ V]. rewrite V. assumption. }
  rewrite K in EX1.
  assert (Y1 = X1 /\ k1 = m1) as [-> ->] by (pose proof (eq_trans (eq_sym EY1) EX1) as T; now injection T).
  assert (Y2 = X2) as -> by (pose proof (eq_trans (eq_sym EY2) EX2) as T; now injection T).
  pose proof (eq_trans (eq_sym (ProgressBase.left_ok c Hc n X1 _ _ f1 Hf1 L2)) (ProgressBase.left_ok c Hc n X1 _ _ g1 Hg1 L2)) as Q1. injection Q1 as Q1.
  pose proof (eq_trans (eq_sym (ProgressBase.left_ok c Hc sk X2 _ _ f2 Hf2 L1)) (ProgressBase.left_ok c Hc sk X2 _ _ g2 Hg2 L1)) as Q2. injection Q2 as Q2.
  assert (Z : fits c (B_sk c) (compL (Kay c) sk g2) /\ hi_fits c (B_kNoise c) (kk c) (compL (Kay c) n g1)).
  { destruct (fits_dec c Hc (B_sk c) (compL (Kay c) sk g2)) as [Z1|Z1]; [|exfalso; rewrite N in H; [discriminate|tauto]].
    destruct (hi_fits_dec c Hc (B_kNoise c) (kk c) (compL (Kay c) n g1)) as [Z2|Z2]; [|exfalso; rewrite N in H; [discriminate|tauto]]. auto. }
  unfold fits, hi_fits, ints in *. change (RegevPfModel.jl c) with (JLDIM c / ell)%nat in *. rewrite Q1, Q2. exact Z.
Qed.
Lemma sml_own (s t : pstate) ys rs : proveSmallness R c s ys rs = Ret t -> Nat.divide 4 (LINYDIM c / ell) -> sml_fits c s t (pcomp s).
Proof.
  intros H H4 X m f nRows nCols EX Hf. apply sml_run in H as (k & X' & m1 & u & x & m2 & xvec & Rx & lin & L1 & _ & _ & EX' & Eu & _ & Hu & _). change PAD_SIZE with 4%nat in *.
  assert (X' = X) as -> by (pose proof (eq_trans (eq_sym EX') EX) as T; now injection T).
  pose proof (eq_trans (eq_sym (ProgressBase.left_ok c Hc (pcomp s) X _ _ f Hf L1)) Eu) as Q. injection Q as <-.
  assert (He : (0 < ell)%nat) by apply Hc. assert (Hn : (0 < nCols)%nat) by exact (ncols_pos c Hc H4).
  apply Z.leb_le, (ProgressSml.linf_iff c Hc _ _ nCols Hn (vec_len _ _)) in Hu. revert Hu. apply ProgressSml.within_ext. intros i Hi. symmetry. now apply (vec_nth He).
Qed.
Lemma dec_room (s t : pstate) rnd a b d e n : proveDecryption R c s rnd a b d e n = Ret t -> room c s -> Nat.divide 4 (jl c) -> dec_dims c a b d e n -> room c t.
Proof.
  intros H Hr H4 HD. destruct (dec_ret R c Hc Hlib Hsq s Hr rnd a b d e n H4 HD) as (X & m & f & _ & _ & C & N).
  destruct (hi_fits_dec c Hc (B_dNoise c) (kk c) (compL (Tee c) n f)) as [Y|Y]; [|rewrite (N Y) in H; discriminate].
  destruct (C Y) as (t' & E & Sh). rewrite E in H. injection H as <-. now apply (room_shape R c s).
Qed.
Lemma enc_room (s t : pstate) rnd a b d er n1 n2 : proveEncryption R c s rnd a b d er n1 n2 = Ret t -> room c s -> Nat.divide 4 (Kay c) -> Nat.divide 4 (Enn c) -> key_dims c ->
  enc_dims c a b d er n1 n2 -> room c t.
Proof.
  intros H Hr H4 H5 HK HD. destruct (enc_ret R c Hc Hlib Hsq s Hr rnd a b d er n1 n2 H4 H5 HK HD) as (Y1 & k1 & g1 & Y2 & k2 & g2 & Y3 & k3 & g3 & _ & _ & _ & _ & _ & _ & C & N).
  destruct (fits_dec c Hc (B_r c) (compR (Kay c) er g3)) as [Z1|Z1]; [|exfalso; rewrite N in H; [discriminate|tauto]].
  destruct (hi_fits_dec c Hc (B_eNoise1 c) (kk c) (compR (Kay c) n1 g1)) as [Z2|Z2]; [|exfalso; rewrite N in H; [discriminate|tauto]].
  destruct (hi_fits_dec c Hc (B_eNoise2 c) (nn c) (compR (Enn c) n2 g2)) as [Z3|Z3]; [|exfalso; rewrite N in H; [discriminate|tauto]].
  destruct C as (t' & E & Sh); [auto|]. rewrite E in H. injection H as <-. now apply (room_shape R c s).
Qed.
End D.
