(** A configuration with p = 4000320007, ell = 2 and dimensions that are multiples of
    4, on which the proof steps run, for the examples. *)
From Coq Require Import String.
From Coq Require Import ZArith Znumtheory List Bool Lia Ring.
From Verif Require Import NumTheory Outcome Fp FSum GroupMod Ring ConstraintsModel ConstraintsSpec BulletproofModel FourSquaresModel FourSquaresSpec
  AlgebraModel AlgebraMore Prime25519 TernaryModel TernarySpec RegevModel ShamirModel ShamirSpec RegevPfModel RegevPfSpec RegevStSpec PropFourSquares StepSpec.
Import ListNotations.
Open Scope Z_scope.

Definition PQ : Z := 4000320007.
Lemma prime_100003 : prime 100003.
Proof. apply prime_by_trial; vm_compute; reflexivity. Qed.
Lemma PQ_prime : prime PQ.
Proof. apply (pocklington1 _ 100003 2); [vm_compute; reflexivity|exact prime_100003|vm_compute; reflexivity]. Qed.
Definition GQ : gmod PQ := Fp_gmod PQ.
Definition fq (z : Z) : Fp PQ := toF PQ z.
Definition qMer : merlin GQ :=
  Merlin PQ GQ Z (fun m _ g => (m * 3 + fval (g : Fp PQ) + 1) mod 256) (fun m _ => (fq (m mod 100 + 1), (m + 1) mod 256))
    (fun m _ => (fq 1, m)) (fun m _ _ => (m + 1) mod 256) (fun m _ _ => (m + 1) mod 256).
Definition qR : rmerlin GQ :=
  RM qMer (fun m _ n => (map (fun i => (m * 5 + Z.of_nat i * 7) mod 256) (seq 0 n), (m + 1) mod 256))
     (fun m _ b => fold_left Z.add b m mod 256).
Definition q2 (a b : Z) : elt PQ 2 := mkE 2 (fun i => if Nat.eqb i 0 then fq a else fq b).
Definition qA : mat (elt PQ 2) := Mat (map (fun i => map (fun j => q2 (7 + i * j) (9 + i + 3 * j)) [0; 1; 2; 3]) [1; 5; 8; 2]) 4.
Definition q_sk := [q2 1 0; q2 0 1; q2 (-1) 0; q2 1 1].
Definition mulv (M : mat (elt PQ 2)) (v : list (elt PQ 2)) : list (elt PQ 2) :=
  map (fun i => sumE 4 (fun k => emul (mget e0 M i k) (nth k v e0))) (seq 0 4).
Definition vmul (M : mat (elt PQ 2)) (v : list (elt PQ 2)) : list (elt PQ 2) :=
  map (fun i => sumE 4 (fun k => emul (mget e0 M k i) (nth k v e0))) (seq 0 4).
Definition addv (u v : list (elt PQ 2)) : list (elt PQ 2) := map (fun '(a, b) => eadd a b) (combine u v).
Definition q_kn := [q2 1 0; q2 (-1) 1; q2 0 0; q2 2 (-1)].
(** Row 0 is the public key for q_sk. *)
Definition qB : mat (elt PQ 2) :=
  Mat (addv (vmul qA q_sk) q_kn :: map (fun i => map (fun j => q2 (3 + i * j) (1 + i + 5 * j)) [0; 1; 2; 3]) [1; 6; 2]) 4.
Definition qC : cfg 2 GQ :=
  Cfg PQ 2%nat GQ 8%nat 8%nat 4 jac_ex pp_ex sp_ex (fq 3)
    (GK 4 4 1 2 3 2 qA qB) (q2 1000 0) [[fq 1; fq (-2); fq 1]]
    (map (fun i => fq (Z.of_nat i * 5 + 2)) (seq 0 300)) (map (fun i => fq (Z.of_nat i * 3 + 1)) (seq 0 300))
    3 30 30 30 30 30 30 9000.
Definition qIdx : var -> Z := match setIndexes 8 8 2 4 4 1 with Ret i => i | _ => fun _ => 0 end.
Definition qS : @pstate PQ 2 GQ qR :=
  PS qIdx (fun _ => gzero) (fun _ => fq 0) (repeat (emptyLin) 15) (repeat emptyQuad 10)
     [] [] [] (repeat e0 60) [] (1 : mst qR).
Definition qRnd : var -> Fp PQ := fun _ => fq 4.
Definition q_ctMat : mat (elt PQ 2) := Mat [[q2 33 44]; [q2 5 6]; [q2 2 9]; [q2 1 1]] 1.
Definition q_dn := [q2 2 (-1)].
Definition q_pt1 := [fq 4].
Definition q_ctVec := [eadd (eadd (sumE 4 (fun k => emul (mget e0 q_ctMat k 0) (nth k q_sk e0))) (q2 2 (-1))) (escale (fq 4) (q2 1000 0))].
Definition q_r := [q2 1 0; q2 1 1; q2 0 0; q2 0 (-1)].
Definition q_n1 := [q2 1 0; q2 0 1; q2 1 1; q2 0 (-1)].
Definition q_n2 := [q2 1 1; q2 0 1; q2 0 0; q2 2 0].
Definition q_pt2 := [fq 4; fq 5; fq 6; fq 7].
Definition q_ct1 := addv (mulv qA q_r) q_n1.
Definition q_ct2 := map (fun '(a, (b, m)) => eadd (eadd a b) (escale m (q2 1000 0))) (combine (mulv qB q_r) (combine q_n2 q_pt2)).
Notation q_dec st := (proveDecryption qR qC st qRnd q_ctMat q_ctVec q_pt1 q_sk q_dn) (only parsing).
Notation q_enc st := (proveEncryption qR qC st qRnd q_ct1 q_ct2 q_pt2 q_r q_n1 q_n2) (only parsing).
Notation q_key st := (proveKeyGen qR qC st qRnd 0 q_sk q_kn) (only parsing).
Notation q_sml st := (proveSmallness qR qC st (fun _ => [q2 3 4; q2 5 6; q2 0 1; q2 2 2]) (fun _ => fq 5)) (only parsing).

(** Boolean checks. *)
Definition qlin_ok (w : pvec PQ) (c : lincon PQ) : bool := feqb (lin_val (lterms c) (coef w)) (leq c).
Definition qquad_ok (w : pvec PQ) (q : quadcon PQ) : bool := feqb (quad_val (qidx q) (coef w) (coef w)) (qeq q).
Definition q_ok (s s' : @pstate PQ 2 GQ qR) : bool :=
  let w := plinW s' in
  forallb (qlin_ok w) (plin s) && forallb (qlin_ok w) (plin s') && forallb (qquad_ok w) (pnorm s) &&
  (length (plin s) =? 15)%nat && (length (plin s') =? 15)%nat && (length (pnorm s) =? 10)%nat.
Lemma q_ok_sound s s' : q_ok s s' = true ->
  (forall off, (off <= 13)%nat -> block_sat (ell := 2) (plin s) off (coef (plinW s')) /\ block_sat (ell := 2) (plin s') off (coef (plinW s'))) /\
  (forall i, (i < 10)%nat -> norm_sat s i (coef (plinW s'))).
Proof.
  unfold q_ok. cbv zeta. intros H. repeat apply andb_prop in H as [H ?]. rename H0 into L3, H1 into L2, H2 into L1, H3 into A3, H4 into A2. rename H into A1.
  apply Nat.eqb_eq in L1, L2, L3. rewrite forallb_forall in A1, A2, A3.
  assert (X : forall cs, length cs = 15%nat -> (forall c, In c cs -> qlin_ok (plinW s') c = true) -> forall off, (off <= 13)%nat -> block_sat (ell := 2) cs off (coef (plinW s'))).
  { intros cs L A off Ho i Hi. destruct (nth_error cs (off + i)) as [con|] eqn:Q; [|apply nth_error_None in Q; lia].
    exists con. split; [reflexivity|]. apply feqb_eq. apply (A con). eapply nth_error_In. exact Q. }
  split; [intros off Ho; split; now apply X|].
  intros i Hi. destruct (nth_error (pnorm s) i) as [q|] eqn:Q; [|apply nth_error_None in Q; lia].
  exists q. split; [exact Q|]. apply feqb_eq. apply (A3 q). eapply nth_error_In. exact Q.
Qed.
Lemma run3_ok {A} (o : outcome A) (k : A -> outcome A) (chk : A -> A -> bool) :
  match o with Ret s => match k s with Ret s' => chk s s' | _ => false end | _ => false end = true ->
  exists s s', o = Ret s /\ k s = Ret s' /\ chk s s' = true.
Proof. destruct o as [s| | |]; try discriminate. destruct (k s) as [s'| | |] eqn:E; try discriminate. intros H. exists s, s'. auto. Qed.

Lemma q_cfg : wf_cfg qC.
Proof. repeat split; cbn; try lia; try (vm_compute; reflexivity); try (vm_compute; discriminate); [exists 2%nat; lia|exists 4%nat; lia|exists 4%nat; lia]. Qed.
Lemma q_bytes : byte_transcript qR.
Proof.
  intros m l n. cbn [qR rm_bytes fst]. unfold bytes. apply Forall_forall. intros b Hb. apply in_map_iff in Hb as (i & <- & _).
  cbv beta. pose proof (Z.mod_pos_bound (m * 5 + Z.of_nat i * 7) 256). lia.
Qed.
Lemma q_exact : exact_transcript qR.
Proof. intros m l n. cbn [qR rm_bytes fst]. now rewrite map_length, seq_length. Qed.
Lemma q_state : wf_state qC qS.
Proof.
  repeat split; try exact I.
  - apply layout_set. vm_compute. reflexivity.
  - apply Forall_forall. intros c Hc. apply repeat_spec in Hc as ->. exact I.
  - apply Forall_forall. intros c Hc. apply repeat_spec in Hc as ->. exact I.
Qed.
Lemma q_empty off : (off <= 13)%nat -> block_empty (ell := 2) (plin qS) off.
Proof.
  intros H i Hi. exists 0%F. cbn [qS plin]. change (LinCon [] 0%F) with (emptyLin (p := PQ)).
  apply nth_error_repeat. lia.
Qed.
Lemma q_fresh i x y : (i < 10)%nat -> norm_fresh qC qS i x y.
Proof.
  intros H. exists emptyQuad. split; [cbn [qS pnorm]; now apply nth_error_repeat|]. intros k [].
Qed.
Lemma q_runs : exists s1 s1' s2 s2' s3 s3',
  q_dec qS = Ret s1 /\ q_sml s1 = Ret s1' /\ q_ok s1 s1' = true /\
  q_enc qS = Ret s2 /\ q_sml s2 = Ret s2' /\ q_ok s2 s2' = true /\
  q_key qS = Ret s3 /\ q_sml s3 = Ret s3' /\ q_ok s3 s3' = true.
Proof.
  destruct (run3_ok (q_dec qS) (fun s => q_sml s) q_ok) as (s1 & s1' & A1 & A2 & A3); [vm_compute; reflexivity|].
  destruct (run3_ok (q_enc qS) (fun s => q_sml s) q_ok) as (s2 & s2' & B1 & B2 & B3); [vm_compute; reflexivity|].
  destruct (run3_ok (q_key qS) (fun s => q_sml s) q_ok) as (s3 & s3' & C1 & C2 & C3); [vm_compute; reflexivity|].
  exists s1, s1', s2, s2', s3, s3'. auto 10.
Qed.
