(** A small configuration in which main runs: p = 4000320007, ell = 2, k = 4, 8
    parties, threshold 2. *)
From Coq Require Import String.
From Coq Require Import ZArith Znumtheory List Bool Lia.
From Verif Require Import NumTheory Outcome Fp FSum GroupMod Ring ConstraintsModel ConstraintsSpec ConstraintsMerge BulletproofModel
  FourSquaresModel FourSquaresSpec AlgebraModel AlgebraSpec TernaryModel TernarySpec RegevModel RegevSpec ShamirModel ShamirSpec ShamirProofs
  RegevPfModel RegevPfSpec RegevStSpec RegevAggModel RegevAggSpec RegevRunModel RegevRunSpec StepSpec ProgressSpec ParamsModel
  PropFourSquares StepToy MainModel MainSpec MainProofs.
Import ListNotations.
Open Scope Z_scope.

Definition ker8 : list (list (Fp PQ)) -> list (list (Fp PQ)) := fun _ => map (check (p := PQ) 2 (points 8)) (seq 0 7).
Definition lbQ : libs qR :=
  Libs (R := qR) jac_ex pp_ex sp_ex ker8 (fq 3 : GQ) (fun i => fq (i * 5 + 2) : GQ) (fun i => fq (i * 3 + 1) : GQ) (1 : mst qR) min_index (fun _ => gzero) (fun _ => fq 0).
Definition fQ : fpu := FPU (fun _ _ => 0) (fun _ => 6) (fun a _ _ => if a =? 2696 then 105 else if a =? 5392 then 106 else 54) (fun _ _ _ => 13) (fun y => y).
Definition rn (s : Z) (j : nat) : Z * Z := ((s + 3 * Z.of_nat j) mod 2, Z.of_nat j mod 3).
Definition tpQ : tape PQ 2 :=
  Tape (fun i j => q2 (7 + Z.of_nat (i * j)) (9 + Z.of_nat (i + 3 * j))) (fun i => rn (Z.of_nat i)) (fq 77) [fq 12345]
    (fun i => rn (Z.of_nat i + 2)) (rn 5) (fq 6) (fun _ => fq 4) (fun _ => [q2 3 4; q2 5 6; q2 0 1; q2 2 2]) (fun _ => fq 5) (fq 2)
    (Bl (fun _ => (fq 2, fq 3)) (fq 4, fq 5) (fun _ => (fq 6, fq 7)) (fq 8, fq 9) (fq 1, fq 2)).
Definition prepQ : outcome (list nat * cfg 2 GQ * @pstate PQ 2 GQ qR * round PQ 2) := mainPrepare qR lbQ fQ 16 8 8 2 4 8 2 3 tpQ.

Section Chk.
Variable c : cfg 2 GQ.
Definition pads_chk (st : @pstate PQ 2 GQ qR) : bool :=
  forallb (fun i => match norm_of i, norm_bound c i with
    | Some (x, _), Ret b =>
        match decompose4 (cjac c) (cpp c) (csp c) (b * b - sum_sq (map balanced (coeffs_of (held c (plinW st) (pidx st x))))) with
        | Ret (d :: _) => negb (d =? -1) | _ => false end
    | _, _ => false end) (seq 0 10).
Lemma pads_chk_sound st : pads_chk st = true -> pads_found c st.
Proof.
  intros H i x xp b Hn Hb K. unfold pads_chk in H. rewrite forallb_forall in H.
  assert (Hi : (i < 10)%nat) by (unfold norm_of in Hn; apply (nth_error_Some [(DCompHi, DPadHi); (DCompLo, DPadLo); (RComp, RPad); (EComp1Hi, EPad1Hi); (EComp1Lo, EPad1Lo);
             (EComp2Hi, EPad2Hi); (EComp2Lo, EPad2Lo); (Sk2Comp, Sk2Pad); (KCompHi, KPadHi); (KCompLo, KPadLo)] i); congruence).
  specialize (H i ltac:(apply in_seq; lia)). rewrite Hn, Hb in H. unfold pad_fails in K. rewrite K in H. discriminate.
Qed.
Definition ment_chk (st : @pstate PQ 2 GQ qR) : bool :=
  let pw := powers (chal_lin st) (length (plin st)) in
  forallb (fun x => is_norm x || forallb (fun j => negb (feqb (comb_coef (plin st) pw (pidx st x + Z.of_nat j)) 0%F))
             (seq 0 (Z.to_nat (clen c x)))) [Pt1; Sk1; Pt2; RR; Sk2; YY].
Lemma ment_chk_sound st : ment_chk st = true -> all_mentioned c st.
Proof.
  intros H x k Hx Nx Hk. unfold ment_chk in H. rewrite forallb_forall in H.
  assert (Ix : In x [Pt1; Sk1; Pt2; RR; Sk2; YY]) by (destruct x; cbn in Hx; try discriminate; cbn; auto 10; contradiction).
  specialize (H x Ix). rewrite Hx in H. cbn [orb] in H. rewrite forallb_forall in H.
  unfold in_var in Hk. specialize (H (Z.to_nat (k - pidx st x)) ltac:(apply in_seq; lia)).
  replace (pidx st x + Z.of_nat (Z.to_nat (k - pidx st x))) with k in H by lia.
  intros E. rewrite E in H. vm_compute in H. discriminate.
Qed.
End Chk.

Lemma q_libs : libs_ok qR lbQ 2 8.
Proof.
  split; [exact q_bytes|]. split; [exact q_exact|]. split; [exact jac_ex_ok|]. split; [exact pp_ex_sound|]. split; [exact (min_index_order PQ)|].
  assert (E : exists M, genMatrix (p := PQ) 2 (points 8) = Ret M) by (eexists; reflexivity).
  destruct E as [M E]. exists M. split; [exact E|].
  exact (kernel_check PQ_prime 2 (points 8) M (points_good PQ 8 ltac:(lia) ltac:(reflexivity) ltac:(lia)) E).
Qed.
Definition run_chk (prep : outcome (list nat * cfg 2 GQ * @pstate PQ 2 GQ qR * round PQ 2)) : bool :=
  match prep with
  | Ret (errs, c, st, i) => match proofSteps qR c st i with Ret st5 => pads_chk c st5 && ment_chk c st5 | _ => false end
  | _ => false
  end.
Lemma run_chk_sound prep : run_chk prep = true ->
  lucky_run qR prep /\ exists errs c st i st5, prep = Ret (errs, c, st, i) /\ proofSteps qR c st i = Ret st5.
Proof.
  unfold run_chk. intros H. destruct prep as [[[[errs c] st] i]| | |]; try discriminate H.
  destruct (proofSteps qR c st i) as [st5| | |] eqn:E; try discriminate H. apply andb_prop in H as [K1 K2]. split.
  - intros e' c' s' i' s5 X Y. injection X as <- <- <- <-. rewrite E in Y. injection Y as <-. split; [now apply pads_chk_sound|now apply ment_chk_sound].
  - do 5 eexists. split; [reflexivity|exact E].
Qed.
Lemma q_run_ok : run_chk prepQ = true.
Proof. vm_compute. reflexivity. Qed.
