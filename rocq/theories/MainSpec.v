(** Vocabulary for complete runs of main. *)
From Coq Require Import String.
From Coq Require Import ZArith List Bool.
From Verif Require Import Outcome Fp FSum GroupMod Ring ConstraintsModel ConstraintsSpec FourSquaresModel FourSquaresSpec BulletproofModel
  AlgebraModel AlgebraSpec TernaryModel TernarySpec RegevModel RegevSpec ShamirModel ShamirSpec RegevPfModel RegevPfSpec RegevStSpec
  RegevAggModel RegevAggSpec RegevRunModel RegevRunSpec StepSpec ParamsModel MainModel.
Import ListNotations.
Open Scope Z_scope.

(** The parties' evaluation points 1, .., n. *)
Definition points (n : Z) : list Z := map Z.of_nat (seq 1 (Z.to_nat n)).

Section S.
Context {p : Z} {ell : nat} {G : gmod p}.

(** The libraries do what they should; the kernel is needed for the matrix of the
    sharing only. *)
Definition libs_ok (R : rmerlin G) (lb : libs R) (thr n : Z) : Prop :=
  byte_transcript R /\ exact_transcript R /\ jacobi_ok (l_jac lb) /\ prime_test_sound (l_pp lb) /\ queue_order (l_pick lb) /\
  exists M, genMatrix thr (points n) = Ret M /\ kernel_basis (l_ker lb M) M (Z.to_nat thr).
(** As many numbers as are drawn: thr-1 coefficients, and masks for nCols elements. *)
Definition tape_ok (tp : tape p ell) (thr : Z) (nCols : nat) : Prop :=
  Z.of_nat (length (t_rs tp)) = thr - 1 /\ forall t, length (t_ys tp t) = nCols.
(** The parameters leave room for decryption (W bounds the products of noise and
    key) and all indices are of type int. *)
Definition params_ok (bits k n s1 s2 W : Z) : Prop :=
  let D := 2 ^ (bits / Z.of_nat ell) in let l := Z.of_nat ell in
  0 < k < 2 ^ 27 /\ 2 * l < n < 2 ^ 31 - 1 /\ n < p /\ 1 < s1 < 2 ^ 30 /\ 2 < s2 < 2 ^ 30 /\
  l <= bits /\ 8 <= p /\ 8 <= D /\
  0 <= W /\ (2 ^ (2 * s1) * k * l / 2) * (4 * k * l) <= W * W /\
  2 * ((2 * W + 2 ^ s2) * (D + 1)) < p /\ 2 * (2 * W + 2 ^ s2) <= D ^ (l - 1) /\ 2 * 2 ^ s1 <= p.
(** ell, JLDIM, LINYDIM, SQRT_JL are compatible. *)
Definition consts_ok (JL LY : nat) (SJ : Z) : Prop :=
  (2 <= ell)%nat /\ Nat.divide ell 4 /\ Nat.divide (4 * ell) JL /\ Nat.divide (4 * ell) LY /\ (0 < JL)%nat /\ (0 < LY)%nat /\
  Z.of_nat JL <= 4 * (SJ * SJ).
(** Whenever all five proof steps return, the four-squares searches have succeeded
    and no coefficient vanishes in the aggregation. *)
Definition lucky_run (R : rmerlin G) (prep : outcome (list nat * cfg ell G * @pstate p ell G R * round p ell)) : Prop :=
  forall errs c st i st5, prep = Ret (errs, c, st, i) -> proofSteps R c st i = Ret st5 -> pads_found c st5 /\ all_mentioned c st5.
End S.
Arguments params_ok p ell bits k n s1 s2 W : clear implicits.
Arguments consts_ok ell JL LY SJ : clear implicits.
(** The threshold for n parties: the largest multiple of ell below n/2. *)
Definition threshold (ell : nat) (n : Z) : Z := (n - 1) / (2 * Z.of_nat ell) * Z.of_nat ell.
