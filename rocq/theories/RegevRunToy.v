(** The small configuration of RegevPfToy runs complete proofs. *)
From Coq Require Import String.
From Coq Require Import ZArith Znumtheory List Bool Lia.
From Verif Require Import NumTheory Outcome Fp FSum GroupMod Ring ConstraintsModel ConstraintsSpec ConstraintsMerge BulletproofModel FourSquaresModel FourSquaresSpec
  AlgebraModel AlgebraSpec AlgebraMore TernaryModel TernarySpec RegevModel ShamirModel ShamirSpec RegevPfModel RegevPfSpec RegevStSpec PropFourSquares RegevPfToy PropRegevSt
  RegevAggModel RegevAggSpec RegevRunModel RegevRunSpec RegevRunProofs.
Import ListNotations.
Open Scope Z_scope.

Definition t_bl : @blinders 101 :=
  Bl (fun _ => (f101 3, f101 5)) (f101 1, f101 2) (fun _ => (f101 7, f101 9)) (f101 4, f101 6) (f101 8, f101 2).
(** One round. *)
Definition t_round : round 101 2 :=
  Round toyRnd t_ctMat t_ctVec t_pt1 t_sk t_dn t_ct1 t_ct2 t_pt2 t_r t_n1 t_n2 0 t_sk2 t_kn t_lag
    (fun _ => [e2 3 4; e2 5 6; e2 0 1; e2 2 2]) (fun _ => f101 5) (f101 9) t_bl.
(** The initial state with m as the state of the transcript. *)
Definition toyAt (m : Z) : @pstate 101 2 G101 toyR :=
  PS toyIdx (fun _ => gzero) (fun _ => f101 0) (repeat (emptyLin) 15) (repeat emptyQuad 10)
     [] [] [] (repeat e0 30) [] (m : mst toyR).
Definition toyK (m : Z) : outcome (@pstate 101 2 G101 toyR) := commitKey toyR toyC (toyAt m) t_sk (f101 6).
Lemma toyAt_fresh m : fresh toyC (toyAt m).
Proof. split; [apply layout_set; vm_compute; reflexivity|]. repeat (split; [reflexivity|]). reflexivity. Qed.
Lemma toy_good : good_setup toyR toyC [1; 2] 2.
Proof.
  split; [exact toy_cfg|]. split; [exact toy_bytes|]. split; [exact jac_ex_ok|]. split; [exact pp_ex_sound|]. split; [exact toy_kdims|].
  split.
  { split; [repeat constructor; cbn; intuition lia|]. repeat constructor; cbn; lia. }
  split; [reflexivity|]. split; [repeat constructor|]. eexists. split; [exact toy_genMatrix|exact toy_kernel].
Qed.
Lemma toy_rdims : round_dims toyC t_round.
Proof.
  split; [repeat split; repeat constructor; reflexivity|]. split; [exact toy_edims|]. repeat (split; [reflexivity|]). reflexivity.
Qed.
Lemma toy_rtrue : round_true toyC [1; 2] 2 t_round.
Proof.
  split; [exact toy_decrypts|]. split; [exact toy_encrypts1|]. split; [exact toy_encrypts2|]. split; [exact toy_keypair|].
  assert (E : fsum (map (fun j => (nth j (i_lag t_round) 0 * nth j (i_pt1 t_round) 0)%F) (seq 0 (Z.to_nat (tee (cgk toyC))))) = f101 3) by (apply Fp_eq; vm_compute; reflexivity).
  rewrite E. exact toy_sharing.
Qed.

(** Boolean checks. *)
Definition pads_chk (st : @pstate 101 2 G101 toyR) : bool :=
  forallb (fun i => match norm_of i, norm_bound toyC i with
    | Some (x, _), Ret b =>
        match decompose4 (cjac toyC) (cpp toyC) (csp toyC) (b * b - sum_sq (map balanced (coeffs_of (held toyC (plinW st) (pidx st x))))) with
        | Ret (d :: _) => negb (d =? -1) | _ => false end
    | _, _ => false end) (seq 0 10).
Lemma pads_chk_sound st : pads_chk st = true -> pads_found toyC st.
Proof.
  intros H i x xp b Hn Hb K. unfold pads_chk in H. rewrite forallb_forall in H.
  assert (Hi : (i < 10)%nat) by (unfold norm_of in Hn; apply (nth_error_Some [(DCompHi, DPadHi); (DCompLo, DPadLo); (RComp, RPad); (EComp1Hi, EPad1Hi); (EComp1Lo, EPad1Lo);
             (EComp2Hi, EPad2Hi); (EComp2Lo, EPad2Lo); (Sk2Comp, Sk2Pad); (KCompHi, KPadHi); (KCompLo, KPadLo)] i); congruence).
  specialize (H i ltac:(apply in_seq; lia)). rewrite Hn, Hb in H. unfold pad_fails in K. rewrite K in H. discriminate.
Qed.
Definition ment_chk (st : @pstate 101 2 G101 toyR) : bool :=
  forallb (fun x => is_norm x || forallb (fun j => negb (feqb (comb_coef (plin st) (powers (chal_lin st) (length (plin st))) (pidx st x + Z.of_nat j)) 0%F))
             (seq 0 (Z.to_nat (clen toyC x)))) [Pt1; Sk1; Pt2; RR; Sk2; YY].
Lemma ment_chk_sound st : ment_chk st = true -> all_mentioned toyC st.
Proof.
  intros H x k Hx Nx Hk. unfold ment_chk in H. rewrite forallb_forall in H.
  assert (Ix : In x [Pt1; Sk1; Pt2; RR; Sk2; YY]) by (destruct x; cbn in Hx; try discriminate; cbn; auto 10; contradiction).
  specialize (H x Ix). rewrite Hx in H. cbn [orb] in H. rewrite forallb_forall in H.
  unfold in_var in Hk. specialize (H (Z.to_nat (k - pidx st x)) ltac:(apply in_seq; lia)).
  replace (pidx st x + Z.of_nat (Z.to_nat (k - pidx st x))) with k in H by lia.
  intros E. rewrite E in H. vm_compute in H. discriminate.
Qed.

(** The start, five steps, the checks. *)
Lemma toy_start m st5 : (let! s := toyK m in proofSteps toyR toyC s t_round) = Ret st5 ->
  exists s, toyK m = Ret s /\ fresh toyC s /\ opens1 toyC s Sk1 (coeffs_of t_sk) /\ proofSteps toyR toyC s t_round = Ret st5.
Proof.
  intros H. apply obind_ret_inv in H as (s & H1 & H2). exists s.
  destruct (commitKey_opens toyR toyC (toyAt m) s t_sk (f101 6) (toyAt_fresh m) H1) as [A B]. auto.
Qed.
Lemma toy_five : exists s st5, toyK 1 = Ret s /\ fresh toyC s /\ opens1 toyC s Sk1 (coeffs_of t_sk) /\ proofSteps toyR toyC s t_round = Ret st5 /\
  pads_found toyC st5 /\ all_mentioned toyC st5 /\ ready toyC st5.
Proof.
  destruct (run_ok (let! s := toyK 1 in proofSteps toyR toyC s t_round) (fun s => pads_chk s && ment_chk s)) as (st5 & H & K); [vm_compute; reflexivity|].
  apply andb_prop in K as [K1 K2]. apply toy_start in H as (s & E & A & B & C). exists s, st5.
  pose proof (pads_chk_sound st5 K1) as PF. pose proof (ment_chk_sound st5 K2).
  repeat (split; [assumption|]). exact (steps_ready prime_101 toyC [1; 2] 2 toy_good t_round toy_rdims toy_rtrue s st5 A B C PF).
Qed.

(** A false statement: 5 in place of 4 as the decrypted value; 41 = 3/5 keeps the
    re-sharing constraint satisfied. *)
Definition t_false : round 101 2 :=
  Round toyRnd t_ctMat t_ctVec [f101 5] t_sk t_dn t_ct1 t_ct2 t_pt2 t_r t_n1 t_n2 0 t_sk2 t_kn [f101 41]
    (fun _ => [e2 3 4; e2 5 6; e2 0 1; e2 2 2]) (fun _ => f101 5) (f101 9) t_bl.
(** The forged values for the H generators: the last two are changed. *)
Definition t_forge (d : flatdata toyR) : list (Fp 101) :=
  let n := (length (fqwG d) - 2)%nat in
  let x := nth n (fqwG d) 0%F in let y := nth (S n) (fqwG d) 0%F in
  let t := ((fquadEq d - dot (fqwG d) (fqwH d)) * finv (x - y))%F in
  firstn n (fqwH d) ++ [(nth n (fqwH d) 0 + t)%F; (nth (S n) (fqwH d) 0 - t)%F].
Definition t_try (m : Z) (i : round 101 2) : outcome (bool * bool * bool * bool) :=
  let! s := toyK m in
  let! s := proofSteps toyR toyC s i in
  let! (_, d) := prepareProofs toyR toyC min_index s (i_wRnd i) in
  let! (a, b) := proveVerify toyR toyC d (i_bl i) in
  let! (a', b') := proveVerify toyR toyC (with_wH d (t_forge d)) (i_bl i) in
  Ret (a, b, a', b').
