(** A small configuration (p = 101, ell = 2, tiny dimensions) on which the proof
    steps run, for the examples. *)
From Coq Require Import String.
From Coq Require Import ZArith Znumtheory List Bool Lia Ring.
From Verif Require Import NumTheory Outcome Fp FSum GroupMod Ring ConstraintsModel ConstraintsSpec BulletproofModel FourSquaresModel FourSquaresSpec
  AlgebraModel TernaryModel TernarySpec RegevModel ShamirModel ShamirSpec RegevPfModel RegevPfSpec RegevStSpec PropFourSquares.
Import ListNotations.
Open Scope Z_scope.

Definition G101 : gmod 101 := Fp_gmod 101.
Definition f101 (z : Z) : Fp 101 := toF 101 z.
Definition toyMer : merlin G101 :=
  Merlin 101 G101 Z (fun m _ g => (m * 3 + fval (g : Fp 101) + 1) mod 256) (fun m _ => (f101 (m mod 100 + 1), (m + 1) mod 256))
    (fun m _ => (f101 1, m)) (fun m _ _ => (m + 1) mod 256) (fun m _ _ => (m + 1) mod 256).
Definition toyR : rmerlin G101 :=
  RM toyMer (fun m _ n => (map (fun i => (m * 5 + Z.of_nat i * 7) mod 256) (seq 0 n), (m + 1) mod 256))
     (fun m _ b => fold_left Z.add b m mod 256).
Definition e2 (a b : Z) : elt 101 2 := mkE 2 (fun i => if Nat.eqb i 0 then f101 a else f101 b).
Definition toyC : cfg 2 G101 :=
  Cfg 101 2%nat G101 2%nat 8%nat 2 jac_ex pp_ex sp_ex (f101 3)
    (GK 1 2 1 2 3 2 (Mat [[e2 7 9]] 1) (Mat [[e2 8 9]; [e2 1 2]] 1)) (e2 10 0) [[f101 1; f101 (-2); f101 1]]
    (map (fun i => f101 (Z.of_nat i * 5 + 2)) (seq 0 78)) (map (fun i => f101 (Z.of_nat i * 3 + 1)) (seq 0 61))
    3 6 6 6 6 6 6 1000.
Definition toyIdx : var -> Z := match setIndexes 2 8 2 1 2 1 with Ret i => i | _ => fun _ => 0 end.
Definition toyS : @pstate 101 2 G101 toyR :=
  PS toyIdx (fun _ => gzero) (fun _ => f101 0) (repeat (emptyLin) 15) (repeat emptyQuad 10)
     [] [] [] (repeat e0 30) [] (1 : mst toyR).
Definition toyRnd : var -> Fp 101 := fun _ => f101 4.
(** a decryption, an encryption, a key pair, a re-sharing *)
Definition t_sk := [e2 1 0].
Definition t_ctMat : mat (elt 101 2) := Mat [[e2 33 44]] 1.
Definition t_ctVec := [eadd (eadd (emul (e2 33 44) (e2 1 0)) (e2 0 1)) (escale (f101 4) (e2 10 0))].
Definition t_dn := [e2 0 1].
Definition t_pt1 := [f101 4].
Definition t_pt2 := [f101 4; f101 5].
Definition t_r := [e2 1 0].
Definition t_n1 := [e2 1 0].
Definition t_n2 := [e2 1 1; e2 0 1].
Definition t_ct1 := [eadd (emul (e2 7 9) (e2 1 0)) (e2 1 0)].
Definition t_ct2 := [eadd (eadd (emul (e2 8 9) (e2 1 0)) (e2 1 1)) (escale (f101 4) (e2 10 0));
                     eadd (eadd (emul (e2 1 2) (e2 1 0)) (e2 0 1)) (escale (f101 5) (e2 10 0))].
Definition t_sk2 := [e2 1 0].
Definition t_kn := [e2 1 0].
Definition t_lag := [f101 26].
Notation t_dec st := (proveDecryption toyR toyC st toyRnd t_ctMat t_ctVec t_pt1 t_sk t_dn) (only parsing).
Notation t_enc st := (proveEncryption toyR toyC st toyRnd t_ct1 t_ct2 t_pt2 t_r t_n1 t_n2) (only parsing).
Notation t_key st := (proveKeyGen toyR toyC st toyRnd 0 t_sk2 t_kn) (only parsing).
Notation t_shr st := (proveReShare toyR toyC st t_lag t_pt1 t_pt2) (only parsing).
Notation t_sml st := (proveSmallness toyR toyC st (fun _ => [e2 3 4; e2 5 6; e2 0 1; e2 2 2]) (fun _ => f101 5)) (only parsing).
Definition toy_run : outcome (@pstate 101 2 G101 toyR) :=
  let! st := t_dec toyS in let! st := t_enc st in let! st := t_key st in let! st := t_shr st in t_sml st.

(** Boolean checks. *)
Definition lin_ok (c : lincon 101) (w : pvec 101) : bool := feqb (lin_val (lterms c) (coef w)) (leq c).
Definition quad_ok (q : quadcon 101) (w : pvec 101) : bool := feqb (quad_val (qidx q) (coef w) (coef w)) (qeq q).
Definition all_ok (st : @pstate 101 2 G101 toyR) : bool :=
  forallb (fun c => lin_ok c (plinW st)) (plin st) && forallb (fun q => quad_ok q (pqG st)) (pnorm st).
Add Ring F101 : (@Fp_ring 101).
Lemma run_ok {A} (o : outcome A) (chk : A -> bool) :
  match o with Ret s => chk s | _ => false end = true -> exists s, o = Ret s /\ chk s = true.
Proof. destruct o; try discriminate. intros H. eexists. split; [reflexivity|exact H]. Qed.
Lemma run2_ok {A B} (o : outcome A) (k : A -> outcome B) (chk : B -> bool) :
  match o with Ret s => match k s with Ret s' => chk s' | _ => false end | _ => false end = true ->
  exists s s', o = Ret s /\ k s = Ret s' /\ chk s' = true.
Proof. destruct o as [s| | |]; try discriminate. destruct (k s) as [s'| | |] eqn:E; try discriminate. intros H. exists s, s'. auto. Qed.
Lemma feqb_sound (a b : Fp 101) : feqb a b = true -> a = b.
Proof. intros H. now apply feqb_eq. Qed.
Lemma all_ok_sound st : all_ok st = true ->
  Forall (fun c => lin_sat c (coef (plinW st))) (plin st) /\ Forall (fun q => quad_sat q (coef (pqG st)) (coef (pqG st))) (pnorm st).
Proof.
  intros H. apply andb_prop in H as [H1 H2]. rewrite forallb_forall in H1, H2. split; apply Forall_forall.
  - intros c Hc. apply feqb_sound. now apply H1.
  - intros q Hq. apply feqb_sound. now apply H2.
Qed.

Lemma toy_cfg : wf_cfg toyC.
Proof. repeat split; cbn; try lia; [exists 2%nat; lia|exists 1%nat; lia|exists 4%nat; lia]. Qed.
Lemma toy_bytes : byte_transcript toyR.
Proof.
  intros m l n. cbn [toyR rm_bytes fst]. unfold bytes. apply Forall_forall. intros b Hb. apply in_map_iff in Hb as (i & <- & _).
  cbv beta. pose proof (Z.mod_pos_bound (m * 5 + Z.of_nat i * 7) 256). lia.
Qed.
Lemma toy_state : wf_state toyC toyS.
Proof.
  repeat split; try exact I.
  - apply layout_set. vm_compute. reflexivity.
  - apply Forall_forall. intros c Hc. apply repeat_spec in Hc as ->. exact I.
  - apply Forall_forall. intros c Hc. apply repeat_spec in Hc as ->. exact I.
Qed.
Lemma toy_empty off : (off <= 13)%nat -> block_empty (ell := 2) (plin toyS) off.
Proof.
  intros H i Hi. exists 0%F. cbn [toyS plin]. change (LinCon [] 0%F) with (emptyLin (p := 101)).
  apply nth_error_repeat. lia.
Qed.
Lemma toy_fresh i x y : (i < 10)%nat -> norm_fresh toyC toyS i x y.
Proof.
  intros H. exists emptyQuad. split; [cbn [toyS pnorm]; now apply nth_error_repeat|]. intros k [].
Qed.
Lemma toy_kernel : kernel_basis (cHm toyC) [[f101 1; f101 0]; [f101 1; f101 1]; [f101 1; f101 2]] 2.
Proof.
  split; [|split].
  - repeat constructor; intros [|[|j]] Hj; try lia; apply Fp_eq; vm_compute; reflexivity.
  - intros [|a [|b [|c [|]]]] L; try discriminate. intros H. exists [c]. split; [reflexivity|].
    pose proof (H 0%nat ltac:(lia)) as H0. pose proof (H 1%nat ltac:(lia)) as H1. revert H0 H1.
    unfold times_col, entry. cbn [map seq length nth fsum cHm toyC].
    change (f101 0) with (0%F : Fp 101). change (f101 1) with (1%F : Fp 101).
    assert (T : f101 2 = (1 + 1)%F) by (apply Fp_eq; vm_compute; reflexivity).
    assert (T' : f101 (-2) = (- (1 + 1))%F) by (apply Fp_eq; vm_compute; reflexivity). rewrite T, T'. intros H0 H1.
    assert (Eb : b = (- (1 + 1) * c)%F).
    { transitivity ((a * 0 + (b * 1 + (c * (1 + 1) + 0))) - (1 + 1) * c)%F; [ring|]. rewrite H1. ring. }
    assert (Ea : a = c).
    { transitivity ((a * 1 + (b * 1 + (c * 1 + 0))) - b - c)%F; [ring|]. rewrite H0, Eb. ring. }
    intros [|[|[|k]]] Hk; try lia; cbn [nth map seq length fsum]; rewrite ?Ea, ?Eb; ring.
  - intros [|a [|]] L; try discriminate. intros H. pose proof (H 0%nat ltac:(cbn; lia)) as H0. revert H0.
    unfold times_col, entry. cbn [map seq length nth fsum cHm toyC repeat]. change (f101 1) with (1%F : Fp 101).
    intros H0. f_equal. rewrite <- H0. ring.
Qed.
