(** Properties C90 and C91: complete runs of main. *)
From Coq Require Import String.
From Coq Require Import ZArith Znumtheory List Bool Lia.
From Verif Require Import NumTheory Outcome Fp FSum GroupMod Ring Prime25519 ConstraintsModel ConstraintsSpec ConstraintsMerge BulletproofModel
  FourSquaresModel FourSquaresSpec AlgebraModel AlgebraSpec TernaryModel TernarySpec RegevModel RegevSpec RegevMore ShamirModel ShamirSpec ShamirProofs
  RegevPfModel RegevPfSpec RegevStSpec RegevAggModel RegevAggSpec RegevRunModel RegevRunSpec StepSpec ProgressSpec ParamsModel ParamsSpec ParamsProofs
  ParamsBounds PropFourSquares PropRegevSt PropProgress PropParams StepToy PropShamir MainModel MainSpec MainProofs MainToy.
Import ListNotations.
Open Scope Z_scope.

Section C90.
Context {p : Z} {ell : nat} {G : gmod p}.
Variable R : rmerlin G.
Variable lb : libs R.
Variable f : fpu.

(** Any parameters that leave room for decryption: the run throws an exception, or
    no decryption error is reported and both verifications succeed. *)
Theorem C90_run bits JL LY SJ k n s1 s2 W (tp : tape p ell) b :
  prime p -> consts_ok ell JL LY SJ -> params_ok p ell bits k n s1 s2 W -> libs_ok R lb (threshold ell n) n -> tape_ok tp (threshold ell n) (LY / ell) ->
  verifierBounds f (Z.of_nat ell) (Z.of_nat JL) 4 k n s1 s2 = Ret b -> 2 <= v_radix b < p ->
  10 * Z.of_nat JL + 40 + 3 * (k * Z.of_nat ell) + threshold ell n + n + Z.of_nat LY < 2 ^ 31 ->
  (4 | k) -> (4 | n) -> lucky_run R (mainPrepare R lb f bits JL LY SJ k n s1 s2 tp) ->
  mainRun R lb f bits JL LY SJ k n s1 s2 tp = Throw \/ mainRun R lb f bits JL LY SJ k n s1 s2 tp = Ret ([], (true, true)).
Proof.
  intros Hp HC HP HL HT HV HR HI K4 N4 HLu. unfold mainRun.
  destruct (prepare_cases R lb f bits k n s1 s2 W SJ JL LY tp b Hp HC HP HL HT HV HR HI) as [([[[errs c] st] i] & E & RD)|E]; [|left; now rewrite E].
  rewrite E. cbn [obind]. destruct RD as (-> & GS & GL & JS & RM & DI & TR & IP & IL & HM & FR & OP & KK & NN & JJ & LL).
  destruct HC as (He & _ & EJ & EL & _). destruct HL as (_ & _ & _ & _ & LQ & _). destruct HP as (Hk & Hn & _).
  assert (D : forall m, Nat.divide (4 * ell) m -> Nat.divide 4 (m / ell)).
  { intros m [q ->]. exists q. rewrite (Nat.mul_comm 4 ell), Nat.mul_assoc, (Nat.mul_comm q ell), <- Nat.mul_assoc, Nat.mul_comm. apply Nat.div_mul. lia. }
  assert (D4 : forall z, 0 <= z -> (4 | z) -> Nat.divide 4 (Z.to_nat z)) by (intros z Hz [q ->]; exists (Z.to_nat q); lia).
  destruct (C84_complete c (l_pick lb) (points n) (threshold ell n) i st Hp LQ GS GL JS RM) as [(st' & X)|X]; try assumption.
  - rewrite JJ. now apply D.
  - rewrite LL. now apply D.
  - rewrite KK. apply D4; [lia|exact K4].
  - rewrite NN. apply D4; [lia|exact N4].
  - intros st5 H5. exact (HLu [] c st i st5 E H5).
  - right. rewrite X. reflexivity.
  - left. rewrite X. reflexivity.
Qed.
(** The part before the proofs, for all dimensions: nobody's share is decrypted wrongly. *)
Theorem C90_decryption bits JL LY SJ k n s1 s2 W (tp : tape p ell) b :
  prime p -> consts_ok ell JL LY SJ -> params_ok p ell bits k n s1 s2 W -> libs_ok R lb (threshold ell n) n -> tape_ok tp (threshold ell n) (LY / ell) ->
  verifierBounds f (Z.of_nat ell) (Z.of_nat JL) 4 k n s1 s2 = Ret b -> 2 <= v_radix b < p ->
  10 * Z.of_nat JL + 40 + 3 * (k * Z.of_nat ell) + threshold ell n + n + Z.of_nat LY < 2 ^ 31 ->
  mainPrepare R lb f bits JL LY SJ k n s1 s2 tp = Throw \/ exists c st i, mainPrepare R lb f bits JL LY SJ k n s1 s2 tp = Ret ([], c, st, i).
Proof.
  intros Hp HC HP HL HT HV HR HI.
  destruct (prepare_cases R lb f bits k n s1 s2 W SJ JL LY tp b Hp HC HP HL HT HV HR HI) as [([[[errs c] st] i] & E & RD)|E]; [|now left].
  right. destruct RD as (-> & _). eauto.
Qed.
(** k or n is not a multiple of four: no randomness makes the run return. *)
Theorem C91_run bits JL LY SJ k n s1 s2 W (tp : tape p ell) b :
  prime p -> consts_ok ell JL LY SJ -> params_ok p ell bits k n s1 s2 W -> libs_ok R lb (threshold ell n) n -> tape_ok tp (threshold ell n) (LY / ell) ->
  verifierBounds f (Z.of_nat ell) (Z.of_nat JL) 4 k n s1 s2 = Ret b -> 2 <= v_radix b < p ->
  10 * Z.of_nat JL + 40 + 3 * (k * Z.of_nat ell) + threshold ell n + n + Z.of_nat LY < 2 ^ 31 ->
  ~ ((4 | k) /\ (4 | n)) ->
  mainRun R lb f bits JL LY SJ k n s1 s2 tp = Throw \/ mainRun R lb f bits JL LY SJ k n s1 s2 tp = UB.
Proof.
  intros Hp HC HP HL HT HV HR HI H4. unfold mainRun.
  destruct (prepare_cases R lb f bits k n s1 s2 W SJ JL LY tp b Hp HC HP HL HT HV HR HI) as [([[[errs c] st] i] & E & RD)|E]; [|left; now rewrite E].
  rewrite E. cbn [obind]. destruct RD as (-> & GS & GL & JS & RM & DI & TR & IP & IL & HM & FR & OP & KK & NN & JJ & LL).
  destruct HC as (He & _ & EJ & EL & HJ & _). destruct HP as (Hk & Hn & _). pose proof GS as (Wc & _).
  assert (D : Nat.divide 4 (JL / ell)).
  { destruct EJ as [q ->]. exists q. rewrite (Nat.mul_comm 4 ell), Nat.mul_assoc, (Nat.mul_comm q ell), <- Nat.mul_assoc, Nat.mul_comm. apply Nat.div_mul. lia. }
  assert (D0 : (0 < JL / ell)%nat).
  { destruct EJ as [q ->]. apply Nat.div_str_pos. split; [lia|]. destruct q; [cbn in HJ; lia|]. nia. }
  unfold proofRound, proofSteps.
  destruct DI as (DD & (E1 & E2 & E3 & E4 & E5 & E6) & _).
  destruct (C84_decryption c st (i_rnd i) _ _ _ _ _ Wc GL JS RM ltac:(rewrite JJ; exact D) DD) as (X & m & g & _ & _ & Y1 & Y2).
  assert (DEC : hi_fits c (B_dNoise c) (kk c) (compL (Tee c) (i_dn i) g) \/ ~ hi_fits c (B_dNoise c) (kk c) (compL (Tee c) (i_dn i) g)).
  { unfold hi_fits. cbv zeta. apply Z.le_decidable. }
  destruct DEC as [Fi|Fi]; [|left; rewrite (Y2 Fi); reflexivity].
  destruct (Y1 Fi) as (st1 & S1 & RM1 & _). rewrite S1. cbn [obind]. right.
  rewrite (C84_overrun c st1); [reflexivity|exact Wc|exact GL|exact RM1| | |exact E6|exact E5].
  - rewrite JJ. apply Nat.divide_pos_le; assumption.
  - rewrite KK, NN. intros [[a Ha] [d Hd]]. apply H4. split; [exists (Z.of_nat a)|exists (Z.of_nat d)]; lia.
Qed.
End C90.
Print Assumptions C90_run.
Print Assumptions C90_decryption.
Print Assumptions C91_run.

(** *** The parameters of the code *)
Lemma main_params f n : 32 <= n <= 4096 -> fpu_ok f n ->
  exists k s1 s2 b, setParams f 252 2 n = Ret (k, s1, s2) /\ params_ok P25519 2 252 k n s1 s2 (2 ^ (s1 + 14)) /\
    verifierBounds f 2 256 4 k n s1 s2 = Ret b /\ 2 <= v_radix b < P25519 /\ 10 * 256 + 40 + 3 * (k * 2) + threshold 2 n + n + 128 < 2 ^ 31 /\
    ((4 | k) <-> let L := fp_logn f (2 * n) (n - 1) in L mod 16 = 6 \/ L mod 16 = 9 \/ L mod 16 = 12 \/ L mod 16 = 15).
Proof.
  intros Hn Hf. assert (Hn1 : 5 <= n < 2 ^ 30) by lia. assert (Hn2 : 5 <= n <= 2 ^ 20) by lia.
  destruct (C86_params f n Hn1 Hf) as (k & s1 & s2 & HS & Hk & Hs1 & Hs2 & _).
  destruct (C87_bounds f n Hn2 Hf) as (k' & s1' & s2' & b & HS' & HV & _ & _ & HB). rewrite HS in HS'. injection HS' as <- <- <-.
  destruct (C89_partial f n Hn1 Hf) as (k' & s1' & s2' & HS' & _ & H4). rewrite HS in HS'. injection HS' as <- <- <-.
  exists k, s1, s2, b. split; [exact HS|]. split; [|split; [exact HV|split; [|split; [|exact H4]]]].
  - unfold params_ok. cbv zeta. change (Z.of_nat 2) with 2. change (252 / 2) with 126.
    assert (KB : 8 * (k * k) <= 2 ^ 28) by nia.
    assert (P1 : 2 ^ (s1 + 14) * 2 ^ (s1 + 14) = 2 ^ (2 * s1) * 2 ^ 28) by (rewrite <- !Z.pow_add_r by lia; f_equal; lia).
    assert (P2 : 2 ^ (s1 + 14) <= 2 ^ 119) by (apply Z.pow_le_mono_r; lia).
    assert (P3 : 2 ^ s2 <= 2 ^ 122) by (apply Z.pow_le_mono_r; lia).
    assert (P4 : 2 ^ s1 <= 2 ^ 105) by (apply Z.pow_le_mono_r; lia).
    pose proof (Z.pow_pos_nonneg 2 (s1 + 14) ltac:(lia) ltac:(lia)). pose proof (Z.pow_pos_nonneg 2 (2 * s1) ltac:(lia) ltac:(lia)).
    split; [lia|]. split; [lia|]. split; [unfold P25519; lia|]. split; [lia|]. split; [lia|]. split; [lia|]. split; [unfold P25519; lia|]. split; [vm_compute; discriminate|].
    split; [lia|]. split; [|split; [unfold P25519; lia|split; [change ((2 ^ 126) ^ (2 - 1)) with (2 ^ 126); lia|unfold P25519; lia]]].
    rewrite P1, Z.div_mul by lia. replace (2 ^ (2 * s1) * k * (4 * k * 2)) with (2 ^ (2 * s1) * (8 * (k * k))) by ring. apply Z.mul_le_mono_nonneg_l; lia.
  - apply (HB G25 (Cfg P25519 2%nat G25 256%nat 128%nat 16 jac_ex pp_ex sp_ex (toF P25519 3) (GK k n 0 0 0 0 (Mat [] 0) (Mat [] 0)) (gadget (2 ^ 126)) [] [] []
      (v_radix b) (v_dNoise b) (v_sk b) (v_r b) (v_eNoise1 b) (v_eNoise2 b) (v_kNoise b) (v_smallness b))).
    unfold built. repeat split.
  - unfold threshold. change (Z.of_nat 2) with 2. Z.to_euclidean_division_equations. lia.
Qed.
Lemma parties_range arg : 32 <= parties arg <= 4096.
Proof. unfold parties. destruct arg as [z|]; [|vm_compute; split; discriminate]. destruct (Z.ltb_spec z 32); [cbn; lia|]. destruct (Z.ltb_spec 4096 z); cbn [orb]; lia. Qed.
Lemma main_consts : consts_ok 2 256 128 16.
Proof. repeat split; try lia; [exists 2%nat|exists 32%nat|exists 16%nat]; reflexivity. Qed.

Section Whole.
Context {G : gmod P25519}.
Variable R : rmerlin G.
Variable lb : libs R.
Variable f : fpu.
Variable arg : option Z.
Variable tp : tape P25519 2.
Notation n := (parties arg).
Notation L := (fp_logn f (2 * n) (n - 1)).

(** Which numbers of parties the program works for. *)
Theorem C90_main : fpu_ok f n -> libs_ok R lb (threshold 2 n) n -> tape_ok tp (threshold 2 n) 64 ->
  (4 | n) -> L mod 16 = 6 \/ L mod 16 = 9 \/ L mod 16 = 12 \/ L mod 16 = 15 ->
  (forall k s1 s2, setParams f 252 2 n = Ret (k, s1, s2) -> lucky_run R (mainPrepare R lb f 252 256 128 16 k n s1 s2 tp)) ->
  main R lb f arg tp = Throw \/ main R lb f arg tp = Ret ([], (true, true)).
Proof.
  intros Hf HL HT N4 HK Hlu. destruct (main_params f n (parties_range arg) Hf) as (k & s1 & s2 & b & HS & HP & HV & HR & HI & K4).
  unfold main. rewrite HS. cbn [obind]. apply (C90_run R lb f 252 256 128 16 k n s1 s2 _ tp b P25519_is_prime main_consts HP HL HT HV HR HI); [now apply K4|exact N4|].
  now apply Hlu.
Qed.
(** And which not; in particular whenever the run returns, k and n are multiples of
    four. *)
Theorem C91_partial : fpu_ok f n -> libs_ok R lb (threshold 2 n) n -> tape_ok tp (threshold 2 n) 64 ->
  ~ ((4 | n) /\ (L mod 16 = 6 \/ L mod 16 = 9 \/ L mod 16 = 12 \/ L mod 16 = 15)) ->
  main R lb f arg tp = Throw \/ main R lb f arg tp = UB.
Proof.
  intros Hf HL HT H4. destruct (main_params f n (parties_range arg) Hf) as (k & s1 & s2 & b & HS & HP & HV & HR & HI & K4).
  unfold main. rewrite HS. cbn [obind]. apply (C91_run R lb f 252 256 128 16 k n s1 s2 _ tp b P25519_is_prime main_consts HP HL HT HV HR HI).
  intros [A B]. apply H4. split; [exact B|]. now apply K4.
Qed.
End Whole.
Print Assumptions C90_main.
Print Assumptions C91_partial.

(** Without an argument (512 parties) the program never finishes. *)
Theorem C91_refuted : exists arg, forall f (G : gmod P25519) (R : rmerlin G) (lb : libs R) tp,
  fpu_ok f (parties arg) -> libs_ok R lb (threshold 2 (parties arg)) (parties arg) -> tape_ok tp (threshold 2 (parties arg)) 64 ->
  main R lb f arg tp = Throw \/ main R lb f arg tp = UB.
Proof.
  exists None. intros f G R lb tp Hf HL HT. apply C91_partial; [exact Hf|exact HL|exact HT|]. intros [_ H]. revert H.
  destruct log_table as (_ & _ & _ & T512 & _). destruct Hf as (HL' & _). change (parties None) with 512 in *.
  rewrite (ceil_log_unique (2 * 512) (512 - 1) _ 14 ltac:(lia) ltac:(lia) HL' T512). vm_compute. intuition discriminate.
Qed.
Print Assumptions C91_refuted.

(** *** Examples *)
(** 8 parties: the hypotheses hold and all five proof steps return. *)
Example C90_example : prime PQ /\ consts_ok 2 8 8 2 /\ params_ok PQ 2 16 4 8 2 3 46 /\ libs_ok qR lbQ (threshold 2 8) 8 /\ tape_ok tpQ (threshold 2 8) 4 /\
  (exists b, verifierBounds fQ 2 8 4 4 8 2 3 = Ret b /\ v_radix b = 8) /\ lucky_run qR (mainPrepare qR lbQ fQ 16 8 8 2 4 8 2 3 tpQ) /\
  (exists c st i st5, mainPrepare qR lbQ fQ 16 8 8 2 4 8 2 3 tpQ = Ret ([], c, st, i) /\ proofSteps qR c st i = Ret st5).
Proof.
  assert (C : consts_ok 2 8 8 2) by (repeat split; try lia; [exists 2%nat|exists 1%nat|exists 1%nat]; reflexivity).
  assert (Q : params_ok PQ 2 16 4 8 2 3 46) by (vm_compute; repeat split; reflexivity || discriminate).
  assert (T : tape_ok tpQ (threshold 2 8) 4) by (split; [reflexivity|intros t; reflexivity]).
  split; [exact PQ_prime|]. split; [exact C|]. split; [exact Q|]. split; [exact q_libs|]. split; [exact T|].
  split; [eexists; split; vm_compute; reflexivity|].
  destruct (run_chk_sound _ q_run_ok) as [L (errs & c & st & i & st5 & E1 & E2)]. split; [exact L|]. exists c, st, i, st5. split; [|exact E2].
  assert (B : exists b, verifierBounds fQ (Z.of_nat 2) (Z.of_nat 8) 4 4 8 2 3 = Ret b /\ v_radix b = 8) by (eexists; split; vm_compute; reflexivity).
  destruct B as (b & B1 & B2).
  destruct (C90_decryption qR lbQ fQ 16 8 8 2 4 8 2 3 46 tpQ b PQ_prime C Q q_libs T B1 ltac:(rewrite B2; unfold PQ; lia) ltac:(vm_compute; reflexivity)) as [X|(c' & st' & i' & X)];
    fold prepQ in X; rewrite X in E1; [discriminate E1|]. injection E1 as <- <- <- <-. exact X.
Qed.
(** The hypotheses about libraries, randomness and floating point can be met for
    every number of parties; 256 and 512 are an instance for C90_main and C91_refuted. *)
Lemma main_world n : 32 <= n <= 4096 -> exists (lb : libs R25) (tp : tape P25519 2), libs_ok R25 lb (threshold 2 n) n /\ tape_ok tp (threshold 2 n) 64.
Proof.
  intros Hn. assert (T : 0 < threshold 2 n) by (unfold threshold; change (Z.of_nat 2) with 2; Z.to_euclidean_division_equations; lia).
  assert (GP : good_points (p := P25519) (points n)) by (apply points_good; unfold P25519; lia).
  destruct (proj1 (C02_matrix_exists P25519 P25519_is_prime (threshold 2 n) (points n) GP) T) as (M & H & E1 & E2).
  exists (Libs (R := R25) jac_ex pp_ex sp_ex (fun _ => H) (toF P25519 3 : G25) (fun i => toF P25519 (i + 7) : G25) (fun i => toF P25519 (i + 11) : G25) (1 : mst R25)
            min_index (fun _ => gzero) (fun _ => toF P25519 0)).
  exists (Tape (fun _ _ => e0) (fun _ j => (Z.of_nat j, 0)) (toF P25519 5) (repeat (toF P25519 1) (Z.to_nat (threshold 2 n - 1))) (fun _ j => (Z.of_nat j, 0)) (fun j => (Z.of_nat j, 0))
            (toF P25519 2) (fun _ => toF P25519 3) (fun _ => repeat e0 64) (fun _ => toF P25519 4) (toF P25519 5)
            (Bl (fun _ => (toF P25519 2, toF P25519 3)) (toF P25519 1, toF P25519 4) (fun _ => (toF P25519 2, toF P25519 3)) (toF P25519 1, toF P25519 4) (toF P25519 1, toF P25519 4))).
  split.
  - split; [|split; [|split; [exact jac_ex_ok|split; [exact pp_ex_sound|split; [exact (min_index_order P25519)|exists M; split; assumption]]]]].
    + intros m l k. cbn [R25 rm_bytes fst]. unfold bytes. apply Forall_forall. intros b Hb. apply in_map_iff in Hb as (i & <- & _). apply Z.mod_pos_bound. lia.
    + intros m l k. cbn [R25 rm_bytes fst]. now rewrite map_length, seq_length.
  - split; [cbn [t_rs]; rewrite repeat_length; lia|intros t; cbn [t_ys]; now rewrite repeat_length].
Qed.
Example C90_main_example : parties (Some 256) = 256 /\ fpu_ok (exact_fpu 12) 256 /\ (4 | 256) /\ fp_logn (exact_fpu 12) (2 * 256) (256 - 1) mod 16 = 12 /\
  setParams (exact_fpu 12) 252 2 256 = Ret (2944, 97, 116) /\
  (exists (lb : libs R25) (tp : tape P25519 2), libs_ok R25 lb (threshold 2 256) 256 /\ tape_ok tp (threshold 2 256) 64) /\ threshold 2 256 = 126.
Proof.
  split; [reflexivity|]. split; [apply exact_fpu_ok; apply log_table|]. split; [exists 64; reflexivity|]. split; [reflexivity|]. split; [vm_compute; reflexivity|].
  split; [apply main_world; lia|reflexivity].
Qed.
Example C91_example : parties None = 512 /\ fpu_ok (exact_fpu 14) 512 /\ setParams (exact_fpu 14) 252 2 512 = Ret (2982, 95, 115) /\
  (exists (lb : libs R25) (tp : tape P25519 2), libs_ok R25 lb (threshold 2 512) 512 /\ tape_ok tp (threshold 2 512) 64 /\
     (main R25 lb (exact_fpu 14) None tp = Throw \/ main R25 lb (exact_fpu 14) None tp = UB)) /\ threshold 2 512 = 254.
Proof.
  split; [reflexivity|]. assert (F : fpu_ok (exact_fpu 14) 512) by (apply exact_fpu_ok; apply log_table). split; [exact F|]. split; [vm_compute; reflexivity|].
  split; [|reflexivity]. destruct (main_world 512 ltac:(lia)) as (lb & tp & A & B). exists lb, tp. split; [exact A|]. split; [exact B|].
  apply C91_partial; [exact F|exact A|exact B|]. intros [_ H]. revert H. vm_compute. intuition discriminate.
Qed.
