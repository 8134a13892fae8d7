(** Property C106, continued: main on the actual transcript. *)
From Coq Require Import String.
From Coq Require Import ZArith Znumtheory List Bool Lia.
From Verif Require Import NumTheory Outcome Fp FSum GroupMod Ring Prime25519 ConstraintsModel ConstraintsSpec ConstraintsMerge BulletproofModel
  FourSquaresModel FourSquaresSpec AlgebraModel AlgebraSpec TernaryModel TernarySpec RegevModel RegevSpec RegevMore ShamirModel ShamirSpec ShamirProofs
  RegevPfModel RegevPfSpec RegevStSpec RegevAggModel RegevAggSpec RegevRunModel RegevRunSpec StepSpec ProgressSpec ParamsModel ParamsSpec ParamsProofs
  ParamsBounds PropFourSquares PropRegevSt PropProgress PropParams StepToy PropShamir MainModel MainSpec MainProofs MainToy
  Bytes MerlinModel MerlinSpec KeccakModel PropMerlin SpongeModel PropFs PropMain.
Import ListNotations.
Open Scope Z_scope.

(** C90_main and C91_partial with the STROBE transcript over Keccak-f, the bytes of
    a point and the map from bytes to points arbitrary: of the hypotheses about
    libraries those about the transcript are gone. *)
Section C106.
Context {G : gmod P25519}.
Variable pbytes : G -> list Z.
Hypothesis Hpb : forall g, bytes_ok (pbytes g).
Variable uniform : list Z -> G.
Definition program_transcript : rmerlin G := real_regev keccakf keccakf_perm_ok pbytes Hpb uniform.
Notation R := program_transcript.
Variable lb : libs R.
Variable f : fpu.
Variable arg : option Z.
Variable tp : tape P25519 2.
Notation n := (parties arg).
Notation L := (fp_logn f (2 * n) (n - 1)).
(** The other libraries: NTL's Jacobi symbol and primality test, the aggregation's
    priority queue, and the kernel of the sharing's matrix. *)
Definition other_libs : Prop :=
  jacobi_ok (l_jac lb) /\ prime_test_sound (l_pp lb) /\ queue_order (l_pick lb) /\
  exists M, genMatrix (p := P25519) (threshold 2 n) (points n) = Ret M /\ kernel_basis (l_ker lb M) M (Z.to_nat (threshold 2 n)).
Lemma program_libs : other_libs -> libs_ok R lb (threshold 2 n) n.
Proof. intros (A & B & C & D). destruct (C106_interface keccakf keccakf_perm_ok pbytes Hpb uniform) as [X Y]. repeat (split; [assumption|]). exact D. Qed.

Theorem C106_main : fpu_ok f n -> other_libs -> tape_ok tp (threshold 2 n) 64 ->
  (4 | n) -> L mod 16 = 6 \/ L mod 16 = 9 \/ L mod 16 = 12 \/ L mod 16 = 15 ->
  (forall k s1 s2, setParams f 252 2 n = Ret (k, s1, s2) -> lucky_run R (mainPrepare R lb f 252 256 128 16 k n s1 s2 tp)) ->
  main R lb f arg tp = Throw \/ main R lb f arg tp = Ret ([], (true, true)).
Proof. intros Hf HL. exact (C90_main R lb f arg tp Hf (program_libs HL)). Qed.
Theorem C106_main_undefined : fpu_ok f n -> other_libs -> tape_ok tp (threshold 2 n) 64 ->
  ~ ((4 | n) /\ (L mod 16 = 6 \/ L mod 16 = 9 \/ L mod 16 = 12 \/ L mod 16 = 15)) ->
  main R lb f arg tp = Throw \/ main R lb f arg tp = UB.
Proof. intros Hf HL. exact (C91_partial R lb f arg tp Hf (program_libs HL)). Qed.
End C106.
Print Assumptions C106_main.
Print Assumptions C106_main_undefined.

(** The hypotheses can be met: scalars in the place of points. *)
Definition bytes25 (g : G25) : list Z := le_bytes 32 (fval g).
Lemma bytes25_ok g : bytes_ok (bytes25 g). Proof. apply le_bytes_ok. Qed.
Definition uni25 (d : list Z) : G25 := toF P25519 (le_val d).
Notation T25 := (program_transcript bytes25 bytes25_ok uni25).
Lemma program_world arg : exists (lb : libs T25) (tp : tape P25519 2),
  other_libs bytes25 bytes25_ok uni25 lb arg /\ tape_ok tp (threshold 2 (parties arg)) 64.
Proof.
  assert (Hn := parties_range arg). unfold other_libs. set (n := parties arg) in *. clearbody n.
  assert (T : 0 < threshold 2 n) by (unfold threshold; change (Z.of_nat 2) with 2; Z.to_euclidean_division_equations; lia).
  assert (GP : good_points (p := P25519) (points n)) by (apply points_good; unfold P25519; lia).
  destruct (proj1 (C02_matrix_exists P25519 P25519_is_prime (threshold 2 n) (points n) GP) T) as (M & H & E1 & E2).
  exists (Libs (R := T25) jac_ex pp_ex sp_ex (fun _ => H) (toF P25519 3 : G25) (fun i => toF P25519 (i + 7) : G25) (fun i => toF P25519 (i + 11) : G25)
            (real_init keccakf keccakf_perm_ok "proofs" : mst T25) min_index (fun _ => gzero) (fun _ => toF P25519 0)).
  exists (Tape (fun _ _ => e0) (fun _ j => (Z.of_nat j, 0)) (toF P25519 5) (repeat (toF P25519 1) (Z.to_nat (threshold 2 n - 1))) (fun _ j => (Z.of_nat j, 0)) (fun j => (Z.of_nat j, 0))
            (toF P25519 2) (fun _ => toF P25519 3) (fun _ => repeat e0 64) (fun _ => toF P25519 4) (toF P25519 5)
            (Bl (fun _ => (toF P25519 2, toF P25519 3)) (toF P25519 1, toF P25519 4) (fun _ => (toF P25519 2, toF P25519 3)) (toF P25519 1, toF P25519 4) (toF P25519 1, toF P25519 4))).
  split.
  - split; [exact jac_ex_ok|]. split; [exact pp_ex_sound|]. split; [exact (min_index_order P25519)|]. exists M. split; assumption.
  - split; [cbn [t_rs]; rewrite repeat_length; lia|intros t; cbn [t_ys]; now rewrite repeat_length].
Qed.
(** 256 parties for C106_main, the default of 512 for C106_main_undefined. *)
Example C106_main_example : fpu_ok (exact_fpu 12) 256 /\ (4 | 256) /\ fp_logn (exact_fpu 12) (2 * 256) (256 - 1) mod 16 = 12 /\
  (exists lb (tp : tape P25519 2), other_libs bytes25 bytes25_ok uni25 lb (Some 256) /\ tape_ok tp (threshold 2 256) 64) /\
  fpu_ok (exact_fpu 14) 512 /\
  (exists lb (tp : tape P25519 2), other_libs bytes25 bytes25_ok uni25 lb None /\ tape_ok tp (threshold 2 512) 64 /\
     (main T25 lb (exact_fpu 14) None tp = Throw \/ main T25 lb (exact_fpu 14) None tp = UB)).
Proof.
  split; [apply exact_fpu_ok; apply log_table|]. split; [exists 64; reflexivity|]. split; [reflexivity|]. split; [exact (program_world (Some 256))|].
  assert (F : fpu_ok (exact_fpu 14) 512) by (apply exact_fpu_ok; apply log_table). split; [exact F|].
  destruct (program_world None) as (lb & tp & A & B). exists lb, tp. split; [exact A|]. split; [exact B|].
  apply (C106_main_undefined bytes25 bytes25_ok uni25 lb (exact_fpu 14) None tp F A B). intros [_ H]. revert H. vm_compute. intuition discriminate.
Qed.
