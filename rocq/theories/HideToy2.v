(** Two provers in a configuration with p = 4000320007 and true statements: the second
    has another old key and other noise for the same ciphertext and commitment. *)
From Coq Require Import String.
From Coq Require Import ZArith Znumtheory List Bool Lia.
From Verif Require Import NumTheory Outcome Fp FSum GroupMod Ring ConstraintsModel ConstraintsSpec BulletproofModel FourSquaresModel FourSquaresSpec AlgebraModel AlgebraSpec
  TernaryModel TernarySpec RegevModel RegevPfModel RegevPfSpec RegevStSpec ShamirModel ShamirSpec ShamirProofs PropRegevSt RegevAggModel RegevAggSpec RegevRunModel RegevRunSpec RegevRunProofs
  StepSpec StepToy ProgressSpec PropFourSquares MainSpec MainProofs ZkSpec HideSpec HideRun.
From Verif Require RegevPfToy HideToy.
Import ListNotations.
Open Scope Z_scope.

Definition qC3 : cfg 2 GQ :=
  Cfg PQ 2%nat GQ 8%nat 8%nat 4 jac_ex pp_ex sp_ex (fq 3) (GK 4 4 1 2 3 2 qA qB) (q2 1000 0) (map (check (p := PQ) 2 (points 4)) (seq 0 3))
    (map (fun i => fq (Z.of_nat i * 5 + 2)) (seq 0 158)) (map (fun i => fq (Z.of_nat i * 3 + 1)) (seq 0 120)) 3 30 30 30 30 30 30 9000.
Definition q3At : @pstate PQ 2 GQ qR :=
  PS qIdx (fun _ => gzero) (fun _ => fq 0) (repeat (emptyLin) 17) (repeat emptyQuad 10) [] [] [] (repeat e0 60) [] (1 : mst qR).
Definition q3_ctMat : mat (elt PQ 2) := Mat [[q2 33 44]; [q2 5 6]; [q2 2 9]; [q2 1 0]] 1.
Definition q3_ctVec := [eadd (eadd (sumE 4 (fun k => emul (mget e0 q3_ctMat k 0) (nth k q_sk e0))) (q2 2 (-1))) (escale (fq 4) (q2 1000 0))].
(** 3000240006 = 3/4: the re-shared value is 3. *)
Definition q3_round (sk dn : list (elt PQ 2)) : round PQ 2 :=
  Round qRnd q3_ctMat q3_ctVec q_pt1 sk dn q_ct1 q_ct2 q_pt2 q_r q_n1 q_n2 0 q_sk q_kn [fq 3000240006]
    (fun _ => [q2 3 4; q2 5 6; q2 0 1; q2 2 2]) (fun _ => fq 5) (fq 2) (Bl (fun _ => (fq 2, fq 3)) (fq 4, fq 5) (fun _ => (fq 6, fq 7)) (fq 8, fq 9) (fq 1, fq 2)).
Definition q3_one := q3_round q_sk q_dn.
Definition q3_sk := [q2 1 0; q2 0 1; q2 (-1) 0; q2 2 1].
Definition q3_two := q3_round q3_sk [q2 1 (-1)].

Lemma q3_good : good_setup qR qC3 (points 4) 2.
Proof.
  split; [exact q_cfg|]. split; [exact q_bytes|]. split; [exact jac_ex_ok|]. split; [exact pp_ex_sound|].
  split; [repeat split; repeat constructor; reflexivity|].
  pose proof (points_good PQ 4 ltac:(lia) ltac:(reflexivity) ltac:(lia)) as HG.
  split; [exact HG|]. split; [reflexivity|]. split; [repeat constructor|].
  assert (E : exists M, genMatrix (p := PQ) 2 (points 4) = Ret M) by (eexists; reflexivity).
  destruct E as [M E]. exists M. split; [exact E|]. exact (kernel_check PQ_prime 2 (points 4) M HG E).
Qed.
Lemma q3_libs : good_libs qR qC3.
Proof. split; [exact q_bytes|]. split; [exact q_exact|]. split; [exact jac_ex_ok|exact pp_ex_sound]. Qed.
Lemma q3_fresh : fresh qC3 q3At.
Proof. split; [apply layout_set; vm_compute; reflexivity|]. repeat (split; [reflexivity|]). vm_compute. reflexivity. Qed.
Lemma q3_room : room qC3 q3At.
Proof. split; [apply layout_set; vm_compute; reflexivity|]. repeat split; try (vm_compute; reflexivity); apply Nat.leb_le; vm_compute; reflexivity. Qed.
Lemma q3_dims sk dn : length sk = 4%nat -> length dn = 1%nat -> round_dims qC3 (q3_round sk dn).
Proof. intros A B. split; [repeat split; try assumption; repeat constructor; reflexivity|]. split; [repeat split; repeat constructor; reflexivity|]. repeat (split; [reflexivity|]). reflexivity. Qed.
Ltac two := apply coeff_ext; intros [|[|?k]] ?Hk; first [apply Fp_eq; vm_compute; reflexivity|lia].
Lemma q3_true sk dn : decrypts qC3 q3_ctMat q3_ctVec q_pt1 sk dn -> round_true qC3 (points 4) 2 (q3_round sk dn).
Proof.
  intros D. split; [exact D|].
  split; [intros i Hi; change (i < 4)%nat in Hi; do 4 (destruct i as [|i]; [two|]); lia|].
  split; [intros i Hi; change (i < 4)%nat in Hi; do 4 (destruct i as [|i]; [two|]); lia|].
  split; [intros i Hi; change (i < 4)%nat in Hi; do 4 (destruct i as [|i]; [two|]); lia|].
  exists [fq 3; fq 1]. split; [reflexivity|]. cbn [map points]. repeat (apply f_equal2; [apply Fp_eq; vm_compute; reflexivity|]). reflexivity.
Qed.
Lemma q3_dec_one : decrypts qC3 q3_ctMat q3_ctVec q_pt1 q_sk q_dn.
Proof. intros i Hi. change (i < 1)%nat in Hi. assert (i = 0%nat) as -> by lia. two. Qed.
Lemma q3_dec_two : decrypts qC3 q3_ctMat q3_ctVec q_pt1 q3_sk [q2 1 (-1)].
Proof. intros i Hi. change (i < 1)%nat in Hi. assert (i = 0%nat) as -> by lia. two. Qed.
(** 632 is the generator of the coordinate in which the keys differ. *)
Definition q3_r : Fp PQ := (fq 6 - fq 632 * finv (fq 3))%F.
Definition qcoms (s t : @pstate PQ 2 GQ qR) : bool := forallb (fun v => feqb (pcom s v : Fp PQ) (pcom t v : Fp PQ)) HideToy.all_vars.
Lemma qcoms_sound s t : qcoms s t = true -> same_coms s t.
Proof. intros H v. unfold qcoms in H. rewrite forallb_forall in H. specialize (H v (HideToy.all_vars_all v)). now apply feqb_eq. Qed.
Lemma q3_room' s2 : commitKey qR qC3 q3At q3_sk q3_r = Ret s2 -> room qC3 s2.
Proof.
  intros S2. unfold commitKey in S2. apply obind_ret_inv in S2 as (g2 & _ & S2).
  assert (Q := f_equal (fun o => match o with Ret q => q | _ => q3At end) S2). cbv beta in Q. clear S2. rewrite <- Q. exact q3_room.
Qed.
Lemma q3_runs : exists s1 s2 d e k h t1,
  commitKey qR qC3 q3At q_sk (fq 6) = Ret s1 /\ commitKey qR qC3 q3At q3_sk q3_r = Ret s2 /\
  proveDecryption qR qC3 s1 qRnd q3_ctMat q3_ctVec q_pt1 q_sk q_dn = Ret d /\
  proveEncryption qR qC3 d qRnd q_ct1 q_ct2 q_pt2 q_r q_n1 q_n2 = Ret e /\
  proveKeyGen qR qC3 e qRnd 0 q_sk q_kn = Ret k /\ proveReShare qR qC3 k [fq 3000240006] q_pt1 q_pt2 = Ret h /\
  proveSmallness qR qC3 h (i_ys q3_one) (i_rs q3_one) = Ret t1 /\
  same_view s1 s2 /\ all_fit qC3 s1 d e k q3_two.
Proof.
  destruct (RegevPfToy.run_ok (
    let! s1 := commitKey qR qC3 q3At q_sk (fq 6) in let! s2 := commitKey qR qC3 q3At q3_sk q3_r in
    let! d := proveDecryption qR qC3 s1 qRnd q3_ctMat q3_ctVec q_pt1 q_sk q_dn in
    let! d2 := proveDecryption qR qC3 s2 qRnd q3_ctMat q3_ctVec q_pt1 q3_sk [q2 1 (-1)] in
    let! e := proveEncryption qR qC3 d qRnd q_ct1 q_ct2 q_pt2 q_r q_n1 q_n2 in
    let! k := proveKeyGen qR qC3 e qRnd 0 q_sk q_kn in let! h := proveReShare qR qC3 k [fq 3000240006] q_pt1 q_pt2 in
    let! t1 := proveSmallness qR qC3 h (i_ys q3_one) (i_rs q3_one) in Ret (s1, s2, d, d2)) 
    (fun '(s1, s2, d, d2) => qcoms s1 s2 && feqb (pcom d Pt1 : Fp PQ) (pcom d2 Pt1 : Fp PQ))) as ([[[s1 s2] d] d2] & H & K); [vm_compute; reflexivity|].
  apply andb_prop in K as [K1 K2]. apply qcoms_sound in K1. apply feqb_eq in K2.
  apply obind_ret_inv in H as (s1' & S1 & H). apply obind_ret_inv in H as (s2' & S2 & H). apply obind_ret_inv in H as (d' & D1 & H). apply obind_ret_inv in H as (d2' & D2 & H).
  apply obind_ret_inv in H as (e & E1 & H). apply obind_ret_inv in H as (k & G1 & H). apply obind_ret_inv in H as (h & H1 & H). apply obind_ret_inv in H as (t1 & T1 & H).
  assert (Q1 : s1' = s1) by exact (f_equal (fun o => match o with Ret q => fst (fst (fst q)) | _ => s1 end) H).
  assert (Q2 : s2' = s2) by exact (f_equal (fun o => match o with Ret q => snd (fst (fst q)) | _ => s1 end) H).
  assert (Q3 : d' = d) by exact (f_equal (fun o => match o with Ret q => snd (fst q) | _ => s1 end) H).
  assert (Q4 : d2' = d2) by exact (f_equal (fun o => match o with Ret q => snd q | _ => s1 end) H). clear H. subst s1' s2' d' d2'.
  exists s1, s2, d, e, k, h, t1. repeat (split; [assumption|]).
  assert (St : statement s1 = statement q3At /\ statement s2 = statement q3At /\ pcomp s1 = pcomp q3At /\ pcomp s2 = pcomp q3At).
  { unfold commitKey in S1, S2. apply obind_ret_inv in S1 as (g1 & _ & S1). apply obind_ret_inv in S2 as (g2 & _ & S2).
    assert (A1 := f_equal (fun o => match o with Ret q => (statement q, pcomp q) | _ => (statement q3At, pcomp q3At) end) S1).
    assert (A2 := f_equal (fun o => match o with Ret q => (statement q, pcomp q) | _ => (statement q3At, pcomp q3At) end) S2).
    split; [exact (eq_sym (f_equal fst A1))|]. split; [exact (eq_sym (f_equal fst A2))|]. split; [exact (eq_sym (f_equal snd A1))|exact (eq_sym (f_equal snd A2))]. }
  destruct St as (St1 & St2 & P1 & P2).
  assert (RM : forall s, statement s = statement q3At -> pcomp s = pcomp q3At -> room qC3 s).
  { intros s A B. unfold room. replace (pidx s) with (pidx q3At) by exact (eq_sym (f_equal (fun x => fst (fst (fst (fst x)))) A)).
    replace (plin s) with (plin q3At) by exact (eq_sym (f_equal (fun x => snd (fst (fst (fst x)))) A)). replace (pnorm s) with (pnorm q3At) by exact (eq_sym (f_equal (fun x => snd (fst (fst x))) A)).
    rewrite B. exact q3_room. }
  pose proof (RM _ St1 P1) as R1. pose proof (RM _ St2 P2) as R2.
  assert (W : wf_cfg qC3) by exact q_cfg. assert (J : jl_sqrt qC3) by (unfold jl_sqrt; cbn; lia).
  assert (J4 : Nat.divide 4 (8 / 2)) by (exists 1%nat; reflexivity). assert (K4 : Nat.divide 4 4) by (exists 1%nat; reflexivity).
  assert (KD : key_dims qC3) by (repeat split; repeat constructor; reflexivity).
  destruct (q3_dims q_sk q_dn eq_refl eq_refl) as (DD & DE & _ & _ & _). destruct (q3_dims q3_sk [q2 1 (-1)] eq_refl eq_refl) as (DD2 & _).
  split; [split; [exact (eq_trans St1 (eq_sym St2))|exact K1]|].
  pose proof (dec_room qR qC3 W q3_libs J s1 d _ _ _ _ _ _ D1 R1 J4 DD) as R3.
  pose proof (enc_room qR qC3 W q3_libs J d e _ _ _ _ _ _ _ E1 R3 K4 K4 KD DE) as R4.
  split; [|split].
  - pose proof (dec_own qR qC3 W q3_libs J s2 d2 _ _ _ _ _ _ D2 R2 J4 DD2) as F. unfold dec_fits in *.
    replace (pmer s1) with (pmer s2) by exact (f_equal snd (eq_trans St2 (eq_sym St1))).
    replace (pcom d Pt1) with (pcom d2 Pt1) by exact (eq_sym K2). exact F.
  - exact (enc_own qR qC3 W q3_libs J d e _ _ _ _ _ _ _ E1 R3 K4 K4 KD DE).
  - exact (key_own qR qC3 W q3_libs J e k _ _ _ _ G1 R4 J4 KD ltac:(apply Nat.ltb_lt; reflexivity) eq_refl eq_refl).
Qed.
Lemma q3_chal (m : mst qR) l : fst (m_chal qR m l) <> 0%F.
Proof.
  assert (E : fval (fst (m_chal qR m l)) = (m mod 100 + 1) mod PQ) by reflexivity. intros H. rewrite H in E. change (fval (0%F : Fp PQ)) with 0 in E.
  pose proof (Z.mod_pos_bound m 100 ltac:(lia)). rewrite Z.mod_small in E by (unfold PQ; lia). lia.
Qed.
