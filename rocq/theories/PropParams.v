(** Properties C86-C89: the parameters chosen by setParams and the bounds derived
    from them; C85 for the bounds of the code. *)
From Coq Require Import String.
From Coq Require Import ZArith Znumtheory List Bool Lia.
From Verif Require Import NumTheory Outcome Fp FSum GroupMod Ring Prime25519 ConstraintsModel ConstraintsSpec BulletproofModel FourSquaresModel FourSquaresSpec
  AlgebraModel AlgebraSpec TernaryModel TernarySpec RegevModel RegevSpec RegevMore RegevDecrypt RegevPfModel RegevPfSpec RegevStSpec CountSpec StepSpec
  ProgressSpec WrongSpec ParamsModel ParamsSpec ParamsProofs ParamsBounds PropFourSquares PropRegev PropRegevSt PropProgress PropWrong.
Import ListNotations.
Open Scope Z_scope.

(** ** C86 *)
Theorem C86_params f n : 5 <= n < 2 ^ 30 -> fpu_ok f n ->
  exists k s1 s2, setParams f 252 2 n = Ret (k, s1, s2) /\
    2794 <= k <= 3582 /\ 63 <= s1 <= 105 /\ s1 + 8 <= s2 <= 122 /\
    (forall rndA, exists gk0 : globalKey P25519 2, newGlobalKey k n s1 s2 None rndA = Ret gk0) /\
    (forall crs rndA (gk0 gk : globalKey P25519 2) rs sks pks ptxt rndE posE ct1 ct2 r e1 e2 pos2 old,
       newGlobalKey k n s1 s2 crs rndA = Ret gk0 ->
       (forall i, (i < length pks)%nat -> exists rnd pos no pos',
          internalKeyGen gk0 rnd pos = Ret (nth i sks [], nth i pks [], no, pos')) ->
       (length pks <= Z.to_nat n)%nat -> addPKs gk0 pks = (gk, rs) ->
       internalEncrypt 252 gk ptxt rndE posE = Ret (ct1, ct2, r, e1, e2, pos2) ->
       forall i, (i < length pks)%nat ->
       exists noise, internalDecrypt 252 gk (nth i sks []) (Z.of_nat i) ct1 ct2 old = Ret (nth i ptxt 0%F, noise)).
Proof.
  intros Hn Hf. destruct (L_facts f n Hn Hf) as [LL LN]. pose proof (setParams_ok f n Hn Hf) as HS. destruct (gap_facts f n Hn Hf) as (G1 & _ & _).
  pose proof (s2_le f n Hn Hf) as S2. set (L := fp_logn f (2 * n) (n - 1)) in *. pose proof (kdim_bounds (109 - L)) as K.
  set (k := kdim (109 - L)) in *. set (gap := fp_hlog f (124080 * (2 * k) * (n - 1))) in *.
  exists k, (109 - L), (109 - L + gap). split; [exact HS|]. split; [lia|]. split; [lia|]. split; [lia|]. split.
  - intros rndA. unfold newGlobalKey. destruct (Z.leb_spec k 0); [lia|]. destruct (Z.leb_spec n 0); [lia|]. destruct (Z.leb_spec (109 - L) 1); [lia|].
    destruct (Z.leb_spec (109 - L + gap) 2); [lia|]. cbn [orb]. change (2 * Z.of_nat 2) with 4. change (Z.of_nat 2) with 2.
    assert (T : 0 < Z.quot (n - 1) 4 * 2) by (rewrite Z.quot_div_nonneg by lia; Z.to_euclidean_division_equations; lia).
    destruct (Z.ltb_spec 0 (Z.quot (n - 1) 4 * 2)); [|lia]. cbn [negb obind]. eauto.
  - clear HS. intros crs rndA gk0 gk rs sks pks ptxt rndE posE ct1 ct2 r e1 e2 pos2 old H1 H2 H3 H4 H5.
    assert (KB : 8 * (k * k) <= 2 ^ 28) by nia.
    assert (P1 : 2 ^ (109 - L + 14) * 2 ^ (109 - L + 14) = 2 ^ (2 * (109 - L)) * 2 ^ 28) by (rewrite <- !Z.pow_add_r by lia; f_equal; lia).
    assert (P2 : 2 ^ (109 - L + 14) <= 2 ^ 119) by (apply Z.pow_le_mono_r; lia).
    assert (P3 : 2 ^ (109 - L + gap) <= 2 ^ 122) by (apply Z.pow_le_mono_r; lia).
    assert (P4 : 2 ^ (109 - L) <= 2 ^ 105) by (apply Z.pow_le_mono_r; lia).
    pose proof (Z.pow_pos_nonneg 2 (109 - L + 14) ltac:(lia) ltac:(lia)). pose proof (Z.pow_pos_nonneg 2 (2 * (109 - L)) ltac:(lia) ltac:(lia)).
    apply (C39_system P25519 2 252 k n (109 - L) (109 - L + gap) crs rndA gk0 gk rs sks pks ptxt rndE posE ct1 ct2 r e1 e2 pos2 (2 ^ (109 - L + 14)) old);
      try assumption; try lia; change (Z.of_nat 2) with 2.
    + vm_compute. discriminate.
    + vm_compute. discriminate.
    + rewrite P1. rewrite Z.div_mul by lia. replace (2 ^ (2 * (109 - L)) * k * (4 * k * 2)) with (2 ^ (2 * (109 - L)) * (8 * (k * k))) by ring.
      apply Z.mul_le_mono_nonneg_l; lia.
    + change (252 / 2) with 126. unfold P25519. lia.
    + change ((2 ^ (252 / 2)) ^ (2 - 1)) with (2 ^ 126). lia.
    + unfold P25519. lia.
Qed.
Print Assumptions C86_params.
(** n = 512, the default of main. *)
Example C86_example : fpu_ok (exact_fpu 14) 512 /\ setParams (exact_fpu 14) 252 2 512 = Ret (2982, 95, 115) /\
  fpu_ok (exact_fpu 12) 256 /\ setParams (exact_fpu 12) 252 2 256 = Ret (2944, 97, 116).
Proof.
  destruct log_table as (_ & _ & T256 & T512 & _). split; [exact (exact_fpu_ok 14 512 T512)|]. split; [vm_compute; reflexivity|].
  split; [exact (exact_fpu_ok 12 256 T256)|vm_compute; reflexivity].
Qed.

(** ** C87 *)
Theorem C87_bounds f n : 5 <= n <= 2 ^ 20 -> fpu_ok f n ->
  exists k s1 s2 b, setParams f 252 2 n = Ret (k, s1, s2) /\ verifierBounds f 2 256 4 k n s1 s2 = Ret b /\
    v_sk b < v_kNoise b < v_eNoise2 b /\ v_eNoise2 b < v_dNoise b /\
    forall (G : gmod P25519) (c : cfg 2 G), built c k n b ->
      2 <= radix c < P25519 /\ jl_sqrt c /\ Z.of_nat (JLDIM c) <= 4 * ((Z.sqrt_up (kk c) - 1) * (Z.sqrt_up (kk c) - 1)) /\
      (33 <= n -> Z.of_nat (JLDIM c) <= 4 * ((Z.sqrt_up (nn c) - 1) * (Z.sqrt_up (nn c) - 1))) /\
      exists hd h1 h2 hk, hiBound c (B_dNoise c) (kk c) = Ret hd /\ hiBound c (B_eNoise1 c) (kk c) = Ret h1 /\
        hiBound c (B_eNoise2 c) (nn c) = Ret h2 /\ hiBound c (B_kNoise c) (kk c) = Ret hk /\
        no_wrap c [hd; h1; h2; hk; loBound c; B_sk c; B_r c] /\
        Forall (fun h => 4 * (loBound c + radix c * h) < P25519) [hd; h1; h2; hk].
Proof.
  intros Hn Hf. assert (Hn' : 5 <= n < 2 ^ 30) by lia. pose proof (setParams_ok f n Hn' Hf) as HS. pose proof (verifierBounds_ok f n Hn Hf) as HV.
  destruct (k_small f n Hn Hf) as [K S]. destruct (order f n Hn Hf) as (O1 & O2 & O3). pose proof (FG_upper f n Hn Hf) as U.
  pose proof (radix_range f n Hn Hf) as RR. destruct (sml_range f n Hn Hf) as [SR1 SR2].
  destruct (Bk_near f n Hn Hf) as [Bk0 _].
  set (L := fp_logn f (2 * n) (n - 1)) in *. set (k := kdim (109 - L)) in *. set (s2 := 109 - L + fp_hlog f (124080 * (2 * k) * (n - 1))) in *.
  set (F := fp_mulsqrt f 97393 100 (2 ^ s2 * (2 * n))) in *. set (G0 := fp_mulsqrt f (2 * k * (2 * n) * 377) 1 (24 * 2 ^ (109 - L))) in *.
  set (Bk := fp_mulsqrt f (337 * (2 * k)) 2 (2 ^ (109 - L))) in *. set (Be := fp_mulsqrt f (337 * (2 * n)) 2 (2 ^ s2)) in *.
  set (r := fp_hlog f Bk - 3) in *. set (sml := fp_smlns f 2600 (F + G0) r) in *. set (Bs := Z.sqrt_up (4 * (337 * (2 * k)))) in *.
  exists k, (109 - L), s2. eexists. split; [exact HS|]. split; [exact HV|]. cbn [v_sk v_kNoise v_eNoise2 v_dNoise]. split; [lia|]. split; [exact O3|].
  clear HS HV. intros G c (E1 & E2 & E3 & E4 & E5 & E6 & E7 & E8 & E9 & E10 & E11 & E12). cbn [v_r v_sk v_eNoise1 v_kNoise v_eNoise2 v_dNoise v_radix v_smallness] in *.
  assert (R : 2 ^ 40 <= 2 ^ r <= 2 ^ 56) by (split; apply Z.pow_le_mono_r; lia).
  assert (Bs0 : 0 <= Bs) by apply Z.sqrt_up_nonneg.
  assert (KK : kk c = 2 * k) by (unfold kk; rewrite E1; lia). assert (NN : nn c = 2 * n) by (unfold nn; rewrite E2; lia).
  assert (Q1 : 9 <= Z.sqrt_up (2 * k) <= 2 ^ 7).
  { split; [change 9 with (Z.sqrt_up 81)|change (2 ^ 7) with (Z.sqrt_up (2 ^ 14))]; apply Z.sqrt_up_le_mono; lia. }
  assert (Q2 : 0 <= Z.sqrt_up (2 * n) <= 2 ^ 11).
  { split; [apply Z.sqrt_up_nonneg|]. change (2 ^ 11) with (Z.sqrt_up (2 ^ 22)). apply Z.sqrt_up_le_mono. lia. }
  split; [rewrite E5; unfold P25519; lia|]. split; [unfold jl_sqrt; rewrite E3, E4; reflexivity || discriminate|].
  split; [rewrite E3, KK; nia|]. split.
  { intros H33. rewrite E3, NN. assert (9 <= Z.sqrt_up (2 * n)); [|nia]. change 9 with (Z.sqrt_up 65). apply Z.sqrt_up_le_mono. lia. }
  assert (RZ : forall B x, hiBound c B x = Ret (B / 2 ^ r + Z.sqrt_up x)).
  { intros B x. unfold hiBound, ceil_sqrt. rewrite E5. destruct (Z.eqb_spec (2 ^ r) 0); [lia|reflexivity]. }
  assert (DB : forall B, 0 <= B <= 2 ^ 141 -> 0 <= B / 2 ^ r /\ B / 2 ^ r <= 2 ^ 101 /\ 2 ^ r * (B / 2 ^ r) <= 2 ^ 141).
  { intros B HB. split; [apply Z.div_pos; lia|]. split; [|pose proof (Z.mul_div_le B (2 ^ r) ltac:(lia)); lia].
    apply Z.le_trans with (B / 2 ^ 40); [apply Z.div_le_compat_l; lia|]. change (2 ^ 101) with (2 ^ 141 / 2 ^ 40). apply Z.div_le_mono; lia. }
  exists (B_dNoise c / 2 ^ r + Z.sqrt_up (kk c)), (B_eNoise1 c / 2 ^ r + Z.sqrt_up (kk c)), (B_eNoise2 c / 2 ^ r + Z.sqrt_up (nn c)), (B_kNoise c / 2 ^ r + Z.sqrt_up (kk c)).
  split; [apply RZ|]. split; [apply RZ|]. split; [apply RZ|]. split; [apply RZ|].
  rewrite KK, NN, E6, E9, E10, E11, E7, E8. unfold loBound, no_wrap. rewrite E12, E3, E4, E5.
  destruct (DB (F + G0) ltac:(lia)) as (A1 & A2 & A3). destruct (DB Bk ltac:(lia)) as (A4 & A5 & A6). destruct (DB Be ltac:(lia)) as (A7 & A8 & A9).
  assert (SM : 0 <= fp_most f (2 ^ sml) <= 2 ^ 118).
  { destruct Hf as (_ & _ & _ & _ & H). assert (0 < 2 ^ sml <= 2 ^ 118) by (split; [apply Z.pow_pos_nonneg; lia|apply Z.pow_le_mono_r; lia]). specialize (H (2 ^ sml) ltac:(lia)). lia. }
  assert (Bs1 : Bs <= 2 ^ 12) by (change (2 ^ 12) with (Z.sqrt_up (2 ^ 24)); apply Z.sqrt_up_le_mono; lia).
  set (x := fp_most f (2 ^ sml)) in *. set (rr := 2 ^ r) in *.
  assert (SQ : forall y, 0 <= y <= 2 ^ 102 -> 0 <= y /\ y * y < P25519) by (intros y Hy; assert (y * y <= 2 ^ 102 * 2 ^ 102) by nia; unfold P25519; lia).
  split; [split; [lia|split]|].
  - assert (x * x <= 2 ^ 118 * 2 ^ 118) by nia. unfold P25519. lia.
  - repeat (apply Forall_cons; [apply SQ; lia|]). constructor.
  - assert (M1 : rr * Z.sqrt_up (2 * k) <= 2 ^ 56 * 2 ^ 7) by (apply Z.mul_le_mono_nonneg; lia).
    assert (M2 : rr * Z.sqrt_up (2 * n) <= 2 ^ 56 * 2 ^ 11) by (apply Z.mul_le_mono_nonneg; lia).
    unfold P25519. repeat (apply Forall_cons; [rewrite Z.mul_add_distr_l; lia|]). constructor.
Qed.
Print Assumptions C87_bounds.
Example C87_example : exists b, verifierBounds (exact_fpu 14) 2 256 4 2982 512 95 115 = Ret b /\
  v_sk b = 2836 /\ v_radix b = 2 ^ 50 /\ v_smlnsBits b = 96 /\ 31 * 2 ^ 125 < v_dNoise b < 32 * 2 ^ 125 /\ v_smallness b < 2 ^ 96.
Proof. eexists. split; [vm_compute; reflexivity|]. vm_compute. repeat split; reflexivity. Qed.

(** ** C88: the natural logarithm is too small by up to tt^0.307. *)
Theorem C88_refuted : exists n f k s1 s2, 32 <= n <= 4096 /\ fpu_ok f n /\ setParams f 252 2 n = Ret (k, s1, s2) /\ ~ margin n k s1.
Proof.
  exists 2048, (exact_fpu 16), 3019, 93, 114. split; [lia|]. split; [apply exact_fpu_ok; apply log_table|]. split; [vm_compute; reflexivity|].
  unfold margin. vm_compute. intros H. now apply H.
Qed.
Print Assumptions C88_refuted.
(** Any correct floating point: no choice for 2048 parties. *)
Theorem C88_all f : fpu_ok f 2048 -> setParams f 252 2 2048 = Ret (3019, 93, 114) /\ ~ margin 2048 3019 93.
Proof.
  intros Hf. split; [|unfold margin; vm_compute; intros H; now apply H].
  apply (setParams_val f 2048 16 3019 21); try assumption; try lia; try reflexivity; try apply log_table; try (vm_compute; reflexivity || discriminate).
Qed.
Print Assumptions C88_all.
(** It holds if nn*sqrt(tt) <= sqrt(7)*2^L, and up to 344 parties. *)
Theorem C88_partial f n : 5 <= n <= 2 ^ 20 -> fpu_ok f n ->
  (2 * n) * (2 * n) * (n - 1) <= 7 * 4 ^ fp_logn f (2 * n) (n - 1) \/ n <= 344 ->
  exists k s1 s2, setParams f 252 2 n = Ret (k, s1, s2) /\ margin n k s1.
Proof.
  intros Hb Hf Hc. assert (Hn : 5 <= n < 2 ^ 30) by lia. assert (H : (2 * n) * (2 * n) * (n - 1) <= 7 * 4 ^ fp_logn f (2 * n) (n - 1)).
  { destruct Hc as [H|H]; [exact H|]. pose proof Hf as (HL & _). pose proof (ceil_log_23 (2 * n) (n - 1) _ ltac:(lia) ltac:(lia) HL) as Q.
    destruct (L_facts f n Hn Hf) as [LL _].
    set (L := fp_logn f (2 * n) (n - 1)) in *. replace (4 ^ (3 * L)) with (4 ^ L * (4 ^ L * 4 ^ L)) in Q by (rewrite <- !Z.pow_add_r by lia; f_equal; lia).
    replace ((2 * n) ^ 6 * (n - 1) ^ 2) with ((2 * n * (2 * n)) * (2 * n * (2 * n)) * (2 * n * (2 * n)) * ((n - 1) * (n - 1))) in Q by ring.
    pose proof (Z.pow_pos_nonneg 4 L ltac:(lia) ltac:(lia)). set (X := 4 ^ L) in *. set (N := 2 * n * (2 * n)) in *. set (t := n - 1) in *.
    assert (N0 : 0 < N) by nia. assert (t0 : 0 < t <= 343) by lia.
    destruct (Z.le_gt_cases (N * t) (7 * X)) as [|G]; [assumption|exfalso].
    assert (C1 : (7 * X) * (7 * X) * (7 * X) <= (N * t) * (N * t) * (N * t)) by (apply Z.mul_le_mono_nonneg; [nia|apply Z.mul_le_mono_nonneg; nia|nia|nia]).
    assert (C2 : (N * t) * (N * t) * (N * t) = (N * N * N * (t * t)) * t) by ring.
    assert (C3 : (N * N * N * (t * t)) * t <= (N * N * N * (t * t)) * 343) by (apply Z.mul_le_mono_nonneg_l; [|lia]; repeat apply Z.mul_nonneg_nonneg; lia). lia. }
  destruct (L_facts f n Hn Hf) as [LL LN]. pose proof (setParams_ok f n Hn Hf) as HS. set (L := fp_logn f (2 * n) (n - 1)) in *.
  destruct (k_small f n Hb Hf) as [K _]. fold L in K. do 3 eexists. split; [exact HS|]. clear HS. set (k := kdim (109 - L)) in *. unfold margin.
  assert (E : 4 ^ (109 - L) * 4 ^ L = 4 ^ 109) by (rewrite <- Z.pow_add_r by lia; f_equal; lia).
  assert (P : 0 < 4 ^ (109 - L)) by (apply Z.pow_pos_nonneg; lia). pose proof (Z.pow_pos_nonneg 4 L ltac:(lia) ltac:(lia)).
  replace (4 ^ (109 - L) * (600 * 600) * (2 * n * (2 * n)) * (2 * k) * (n - 1)) with (360000 * (2 * k) * (4 ^ (109 - L) * (2 * n * (2 * n) * (n - 1)))) by ring.
  apply Z.le_trans with (360000 * 6642 * (7 * 4 ^ 109)); [|vm_compute; discriminate].
  apply Z.mul_le_mono_nonneg; [lia|lia|nia|]. rewrite <- E. replace (7 * (4 ^ (109 - L) * 4 ^ L)) with (4 ^ (109 - L) * (7 * 4 ^ L)) by ring.
  apply Z.mul_le_mono_nonneg_l; lia.
Qed.
Print Assumptions C88_partial.
Example C88_example : fpu_ok (exact_fpu 14) 512 /\ (2 * 512) * (2 * 512) * (512 - 1) <= 7 * 4 ^ fp_logn (exact_fpu 14) (2 * 512) (512 - 1) /\ margin 512 2982 95.
Proof. split; [apply exact_fpu_ok; apply log_table|]. split; vm_compute; discriminate. Qed.

(** ** C89: dimensions that are multiples of four *)
Theorem C89_refuted : exists n f k s1 s2, 32 <= n <= 4096 /\ fpu_ok f n /\ setParams f 252 2 n = Ret (k, s1, s2) /\
  forall (G : gmod P25519) (R : rmerlin G) (c : cfg 2 G) (st : @pstate P25519 2 G R) rnd ct1 ct2 ptxt er noise1 noise2,
    kay (cgk c) = k -> JLDIM c = 256%nat -> wf_cfg c -> good_libs R c -> room c st ->
    length ptxt = Enn c -> length er = Kay c -> proveEncryption R c st rnd ct1 ct2 ptxt er noise1 noise2 = UB.
Proof.
  exists 512, (exact_fpu 14), 2982, 95, 115. split; [lia|]. split; [apply exact_fpu_ok; apply log_table|]. split; [vm_compute; reflexivity|].
  intros G R c st rnd ct1 ct2 ptxt er noise1 noise2 Hk HJ Hc Hl Hr. apply (C84_overrun c st); try assumption.
  - unfold jl. rewrite HJ. apply Nat.leb_le. reflexivity.
  - intros [[q Hq] _]. rewrite Hk in Hq. assert (E : Z.of_nat (Z.to_nat 2982) = 4 * Z.of_nat q) by (rewrite Hq; lia). rewrite Z2Nat.id in E by lia. lia.
Qed.
Print Assumptions C89_refuted.
(** The dimension and when it is a multiple of four. *)
Theorem C89_partial f n : 5 <= n < 2 ^ 30 -> fpu_ok f n -> exists k s1 s2, setParams f 252 2 n = Ret (k, s1, s2) /\
  let L := fp_logn f (2 * n) (n - 1) in 4 * k - 3 <= 75 * (145 + L) <= 4 * k /\
  ((4 | k) <-> L mod 16 = 6 \/ L mod 16 = 9 \/ L mod 16 = 12 \/ L mod 16 = 15).
Proof.
  intros Hn Hf. pose proof (setParams_ok f n Hn Hf) as HS. do 3 eexists. split; [exact HS|]. clear HS. cbv zeta. set (L := fp_logn f (2 * n) (n - 1)).
  pose proof (kdim_bounds (109 - L)) as K. set (k := kdim (109 - L)) in *. clearbody k L. split; [lia|].
  split; [intros [q Hq]|intros H; apply Z.mod_divide; [lia|]]; Z.to_euclidean_division_equations; lia.
Qed.
Print Assumptions C89_partial.

(** ** C85 for the bounds of the code: they are never tight enough for C85_partial,
    and large enough for C85_code for these numbers of parties. *)
Theorem C85_loose f n : 5 <= n <= 2 ^ 20 -> fpu_ok f n ->
  exists k s1 s2 b, setParams f 252 2 n = Ret (k, s1, s2) /\ verifierBounds f 2 256 4 k n s1 s2 = Ret b /\
    31 * (2 ^ s2 * (2 * n)) <= v_dNoise b /\ 31 * 2 ^ 122 <= v_dNoise b /\
    forall (G : gmod P25519) (c : cfg 2 G) hib, built c k n b -> hiBound c (B_dNoise c) (kk c) = Ret hib -> ~ 4 * (loBound c + radix c * hib) < 2 ^ 126.
Proof.
  intros Hn Hf. assert (Hn' : 5 <= n < 2 ^ 30) by lia. pose proof (setParams_ok f n Hn' Hf) as HS. pose proof (verifierBounds_ok f n Hn Hf) as HV.
  pose proof (F_lower f n Hn Hf) as FL. pose proof (gap_lower f n Hn Hf) as GL. destruct (G_near f n Hn Hf) as [G0 _]. pose proof (radix_range f n Hn Hf) as RR.
  destruct (k_small f n Hn Hf) as [K S].
  set (L := fp_logn f (2 * n) (n - 1)) in *. set (k := kdim (109 - L)) in *. set (s2 := 109 - L + fp_hlog f (124080 * (2 * k) * (n - 1))) in *.
  set (F := fp_mulsqrt f 97393 100 (2 ^ s2 * (2 * n))) in *. set (G1 := fp_mulsqrt f (2 * k * (2 * n) * 377) 1 (24 * 2 ^ (109 - L))) in *.
  set (Bk := fp_mulsqrt f (337 * (2 * k)) 2 (2 ^ (109 - L))) in *. set (r := fp_hlog f Bk - 3) in *.
  exists k, (109 - L), s2. eexists. split; [exact HS|]. split; [exact HV|]. cbn [v_dNoise]. split; [lia|]. split; [lia|]. clear HS HV.
  intros G c hib (E1 & E2 & E3 & E4 & E5 & E6 & _) Hh. cbn [v_radix v_dNoise] in *. assert (R : 0 < 2 ^ r) by (apply Z.pow_pos_nonneg; lia).
  unfold hiBound, ceil_sqrt in Hh. rewrite E5 in Hh. destruct (Z.eqb_spec (2 ^ r) 0); [lia|]. injection Hh as <-. unfold loBound. rewrite E4, E5, E6.
  assert (9 <= Z.sqrt_up (kk c)). { change 9 with (Z.sqrt_up 81). apply Z.sqrt_up_le_mono. unfold kk. rewrite E1. lia. }
  pose proof (Z.mul_succ_div_gt (F + G1) (2 ^ r) R). nia.
Qed.
Print Assumptions C85_loose.
Theorem C85_params f n : In n [32; 128; 256; 512; 1024; 2048; 4096] -> fpu_ok f n ->
  exists k s1 s2 b, setParams f 252 2 n = Ret (k, s1, s2) /\ verifierBounds f 2 256 4 k n s1 s2 = Ret b /\ 31 * 2 ^ 125 <= v_dNoise b /\ 81 <= 2 * k.
Proof.
  intros Hin Hf. assert (Hn : 5 <= n <= 2 ^ 20) by (destruct Hin as [<-|[<-|[<-|[<-|[<-|[<-|[<-|[]]]]]]]]; lia).
  destruct (C85_loose f n Hn Hf) as (k & s1 & s2 & b & HS & HV & H1 & _). exists k, s1, s2, b. split; [exact HS|]. split; [exact HV|].
  assert (Q : 2 ^ 125 <= 2 ^ s2 * (2 * n) /\ 81 <= 2 * k).
  { clear H1 HV. destruct log_table as (T32 & T128 & T256 & T512 & T1024 & T2048 & T4096).
    assert (V : exists L k' g, ceil_log (2 * n) (n - 1) L /\ kdim (109 - L) = k' /\ 0 < k' /\ 0 < g /\
      (eps + 1) * 4 ^ (g - 1) < eps * (124080 * (2 * k') * (n - 1)) /\ (eps + 1) * (124080 * (2 * k') * (n - 1)) <= eps * 4 ^ g /\
      2 ^ 125 <= 2 ^ (109 - L + g) * (2 * n) /\ 81 <= 2 * k').
    { destruct Hin as [<-|[<-|[<-|[<-|[<-|[<-|[<-|[]]]]]]]].
      - exists 8, 2869, 18. split; [exact T32|]. vm_compute. repeat split; discriminate.
      - exists 11, 2925, 19. split; [exact T128|]. vm_compute. repeat split; discriminate.
      - exists 12, 2944, 19. split; [exact T256|]. vm_compute. repeat split; discriminate.
      - exists 14, 2982, 20. split; [exact T512|]. vm_compute. repeat split; discriminate.
      - exists 15, 3000, 20. split; [exact T1024|]. vm_compute. repeat split; discriminate.
      - exists 16, 3019, 21. split; [exact T2048|]. vm_compute. repeat split; discriminate.
      - exists 18, 3057, 21. split; [exact T4096|]. vm_compute. repeat split; discriminate. }
    destruct V as (L & k' & g & V1 & V2 & V3 & V4 & V5 & V6 & V7 & V8).
    assert (Hn2 : 5 <= n < 2 ^ 30) by lia. destruct (setParams_val f n L k' g Hn2 Hf V1 V2 V3 V4 V5 V6) as [_ E].
    rewrite HS in E. injection E as -> -> ->. split; [exact V7|exact V8]. }
  lia.
Qed.
Print Assumptions C85_params.

(** *** A configuration for 512 parties, with the bounds above. *)
Definition G25 : gmod P25519 := Fp_gmod P25519.
Definition b512 : vbounds := match verifierBounds (exact_fpu 14) 2 256 4 2982 512 95 115 with Ret b => b | _ => VB 0 0 0 0 0 0 0 0 0 end.
Definition mer25 : merlin G25 := Merlin P25519 G25 Z (fun m _ g => m + fval (g : Fp P25519)) (fun m _ => (toF P25519 m, m)) (fun m _ => (toF P25519 1, m)) (fun m _ _ => m) (fun m _ _ => m).
Definition R25 : rmerlin G25 := RM mer25 (fun m _ n => (map (fun i => (m + Z.of_nat i) mod 256) (seq 0 n), m + 1)) (fun m _ b => fold_left Z.add b m).
Definition c512 : cfg 2 G25 :=
  Cfg P25519 2%nat G25 256%nat 128%nat 16 jac_ex pp_ex sp_ex (toF P25519 3)
    (GK 2982 512 254 95 115 0 (Mat (repeat (repeat e0 (Z.to_nat 2982)) (Z.to_nat 2982)) (Z.to_nat 2982)) (Mat (repeat (repeat e0 (Z.to_nat 2982)) (Z.to_nat 512)) (Z.to_nat 2982)))
    (gadget (2 ^ 126)) [repeat (toF P25519 1) 513] (repeat (toF P25519 5) (Z.to_nat 100000)) (repeat (toF P25519 7) 2600)
    (v_radix b512) (v_dNoise b512) (v_sk b512) (v_r b512) (v_eNoise1 b512) (v_eNoise2 b512) (v_kNoise b512) (v_smallness b512).
Definition idx512 : var -> Z := match setIndexes 256 128 2 2982 512 254 with Ret i => i | _ => fun _ => 0 end.
Definition st512 : @pstate P25519 2 G25 R25 :=
  PS idx512 (fun _ => gzero) (fun _ => toF P25519 0) (repeat emptyLin 15) (repeat emptyQuad 10) [] [] [] (repeat e0 1300) [] (1 : mst R25).
Example C89_example : built c512 2982 512 b512 /\ verifierBounds (exact_fpu 14) 2 256 4 2982 512 95 115 = Ret b512 /\ wf_cfg c512 /\ good_libs R25 c512 /\ room c512 st512 /\
  (exists ptxt er, length ptxt = Enn c512 /\ length er = Kay c512 /\ forall rnd ct1 ct2 noise1 noise2, proveEncryption R25 c512 st512 rnd ct1 ct2 ptxt er noise1 noise2 = UB).
Proof.
  assert (W : wf_cfg c512).
  { split; [lia|]. split; [exists 2%nat; lia|]. split; [exists 128%nat; reflexivity|]. split; [exists 64%nat; reflexivity|].
    split; [cbn; lia|]. split; [cbn; lia|]. cbn [c512 cgk kay enn tee radix]. split; [lia|]. split; [lia|]. split; [lia|]. split; [unfold P25519; lia|].
    assert (E : v_radix b512 = 2 ^ 50) by (vm_compute; reflexivity). rewrite E. unfold P25519. lia. }
  assert (Lb : good_libs R25 c512).
  { split; [|split; [|split; [exact jac_ex_ok|exact pp_ex_sound]]].
    - intros m l n. cbn [R25 rm_bytes fst]. unfold bytes. apply Forall_forall. intros b Hb. apply in_map_iff in Hb as (i & <- & _). apply Z.mod_pos_bound. lia.
    - intros m l n. cbn [R25 rm_bytes fst]. now rewrite map_length, seq_length. }
  assert (Rm : room c512 st512).
  { split; [apply layout_set; cbn [c512 cgk kay enn tee JLDIM LINYDIM st512 pidx]; vm_compute; reflexivity|]. split.
    - cbn [c512 cGs st512 pidx]. rewrite repeat_length, Z2Nat.id by lia. vm_compute. reflexivity.
    - cbn [c512 cHs st512 plin pnorm pcomp JLDIM]. rewrite !repeat_length. repeat split; apply Nat.leb_le || apply Nat.eqb_eq; vm_compute; reflexivity. }
  split; [unfold built; repeat split; reflexivity|]. split; [vm_compute; reflexivity|]. split; [exact W|]. split; [exact Lb|]. split; [exact Rm|].
  exists (repeat (toF P25519 1) (Z.to_nat 512)), (repeat e0 (Z.to_nat 2982)). rewrite !repeat_length. split; [reflexivity|]. split; [reflexivity|].
  intros rnd ct1 ct2 noise1 noise2. apply (C84_overrun c512 st512); try assumption.
  - apply Nat.leb_le. reflexivity.
  - intros [[q Hq] _]. change (Kay c512) with (Z.to_nat 2982) in Hq. assert (E : Z.of_nat (Z.to_nat 2982) = 4 * Z.of_nat q) by (rewrite Hq; lia). rewrite Z2Nat.id in E by lia. lia.
  - now rewrite repeat_length.
  - now rewrite repeat_length.
Qed.
