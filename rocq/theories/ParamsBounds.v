(** The bounds computed by VerifierData for the parameters of setParams. *)
From Coq Require Import ZArith Bool Lia List.
From Verif Require Import Outcome ParamsModel ParamsSpec ParamsProofs.
Open Scope Z_scope.

Lemma near_coarse a b y B : 0 <= a -> 0 <= b -> near_sqrt a b y B -> 99 * (a * (y * y)) <= 100 * (b * (B * B)) <= 101 * (a * (y * y)).
Proof. intros Ha Hb (H0 & H1 & H2). unfold eps in *. assert (0 <= a * (y * y)) by nia. assert (0 <= b * (B * B)) by nia. lia. Qed.
Lemma sq_lt x y : 0 <= y -> x * x < y * y -> x < y.
Proof. nia. Qed.
Lemma sq_le_inv x y : 0 <= y -> x * x <= y * y -> x <= y.
Proof. nia. Qed.
Lemma p2s a : 0 <= a -> 2 ^ a * 2 ^ a = 4 ^ a.
Proof. intros H. rewrite <- Z.pow_mul_l. reflexivity. Qed.
Lemma p4 a : 0 <= a -> 4 ^ a = 2 ^ (2 * a).
Proof. intros H. rewrite Z.pow_mul_r by lia. reflexivity. Qed.
Lemma p2_le_inv a b : 0 <= b -> 2 ^ a < 2 ^ b -> a < b.
Proof. intros Hb H. apply (Z.pow_lt_mono_r_iff 2); lia. Qed.

Section B.
Variable f : fpu.
Variable n : Z.
Hypothesis Hn : 5 <= n <= 2 ^ 20.
Hypothesis Hf : fpu_ok f n.
Let L := fp_logn f (2 * n) (n - 1).
Let s1 := 109 - L.
Let k := kdim s1.
Let gap := fp_hlog f (124080 * (2 * k) * (n - 1)).
Let s2 := s1 + gap.
Let Hn' : 5 <= n < 2 ^ 30. Proof. lia. Qed.

Lemma L_small : 4 <= L <= 31 /\ 2 * n <= 2 ^ L.
Proof.
  destruct (L_facts f n Hn' Hf) as [A B]. fold L in A, B. split; [|exact B]. split; [lia|].
  destruct Hf as (H & _). fold L in H. destruct (ceil_log_bounds (2 * n) (n - 1) L ltac:(lia) ltac:(lia) H) as (_ & _ & L2).
  destruct (Z.le_gt_cases L 31) as [|Q]; [assumption|exfalso]. assert (4 ^ 31 <= 4 ^ (L - 1)) by (apply Z.pow_le_mono_r; lia).
  assert (2 * n * (2 * n) * (n - 1) < 2 ^ 21 * 2 ^ 21 * 2 ^ 20) by nia. lia.
Qed.
Lemma k_small : 2668 <= k <= 3321 /\ 78 <= s1 <= 105.
Proof. destruct L_small as [A _]. pose proof (kdim_bounds s1) as K. fold k in K. unfold s1 in *. lia. Qed.
Lemma gap_small : 8 <= gap <= 26 /\ 124080 * (2 * k) * (n - 1) <= 2 * 4 ^ gap.
Proof.
  destruct (gap_facts f n Hn' Hf) as (A & B & C). fold L in A, B, C. fold s1 k gap in A, B, C. split; [|exact C]. split; [exact A|].
  destruct (Z.le_gt_cases gap 26) as [|Q]; [assumption|exfalso]. assert (4 ^ 27 <= 4 ^ gap) by (apply Z.pow_le_mono_r; lia). lia.
Qed.

Let Bk := fp_mulsqrt f (337 * (2 * k)) 2 (2 ^ s1).
Let Be2 := fp_mulsqrt f (337 * (2 * n)) 2 (2 ^ s2).
Let F := fp_mulsqrt f 97393 100 (2 ^ s2 * (2 * n)).
Let G := fp_mulsqrt f (2 * k * (2 * n) * 377) 1 (24 * 2 ^ s1).
Let E1 := 4 ^ s1.
Lemma E1_big : 2 ^ 156 <= E1 /\ 2 ^ s1 * 2 ^ s1 = E1 /\ 2 ^ s2 * 2 ^ s2 = E1 * 4 ^ gap /\ 0 < 2 ^ s1 /\ 0 < 2 ^ s2.
Proof.
  destruct k_small as [_ S]. destruct gap_small as [[G1 G2] _]. unfold E1. split; [rewrite p4 by lia; apply Z.pow_le_mono_r; lia|].
  split; [apply p2s; lia|]. split; [unfold s2; rewrite p2s by lia; now rewrite Z.pow_add_r by lia|].
  split; apply Z.pow_pos_nonneg; unfold s2; lia.
Qed.
Lemma Bk_near : 0 <= Bk /\ 99 * (337 * (2 * k) * E1) <= 200 * (Bk * Bk) <= 101 * (337 * (2 * k) * E1).
Proof.
  destruct E1_big as (A & B & C & D1 & D2). destruct k_small as [K _]. destruct Hf as (_ & _ & H & _).
  specialize (H (337 * (2 * k)) 2 (2 ^ s1) ltac:(lia) ltac:(lia) D1 ltac:(rewrite B; nia)). fold Bk in H. split; [apply H|].
  apply near_coarse in H; [|lia|lia]. rewrite B in H. lia.
Qed.
Lemma Be2_near : 0 <= Be2 /\ 99 * (337 * (2 * n) * (E1 * 4 ^ gap)) <= 200 * (Be2 * Be2) <= 101 * (337 * (2 * n) * (E1 * 4 ^ gap)).
Proof.
  destruct E1_big as (A & B & C & D1 & D2). destruct gap_small as [[G1 G2] _]. destruct Hf as (_ & _ & H & _).
  assert (1 <= 4 ^ gap) by (pose proof (Z.pow_pos_nonneg 4 gap ltac:(lia) ltac:(lia)); lia).
  specialize (H (337 * (2 * n)) 2 (2 ^ s2) ltac:(lia) ltac:(lia) D2 ltac:(rewrite C; nia)). fold Be2 in H. split; [apply H|].
  apply near_coarse in H; [|lia|lia]. rewrite C in H. lia.
Qed.
Lemma F_near : 0 <= F /\ near_sqrt 97393 100 (2 ^ s2 * (2 * n)) F /\ 99 * (97393 * (E1 * 4 ^ gap * (4 * (n * n)))) <= 10000 * (F * F) <= 101 * (97393 * (E1 * 4 ^ gap * (4 * (n * n)))).
Proof.
  destruct E1_big as (A & B & C & D1 & D2). destruct gap_small as [[G1 G2] _]. destruct Hf as (_ & _ & H & _).
  assert (1 <= 4 ^ gap) by (pose proof (Z.pow_pos_nonneg 4 gap ltac:(lia) ltac:(lia)); lia).
  assert (Q : 2 ^ s2 * (2 * n) * (2 ^ s2 * (2 * n)) = E1 * 4 ^ gap * (4 * (n * n))) by (rewrite <- C; ring).
  specialize (H 97393 100 (2 ^ s2 * (2 * n)) ltac:(lia) ltac:(lia) ltac:(nia) ltac:(rewrite Q; nia)). fold F in H. split; [apply H|]. split; [exact H|].
  apply near_coarse in H; [|lia|lia]. rewrite Q in H. lia.
Qed.
Lemma G_near : 0 <= G /\ 100 * (G * G) <= 101 * (2 * k * (2 * n) * 377 * (576 * E1)).
Proof.
  destruct E1_big as (A & B & C & D1 & D2). destruct k_small as [K _]. destruct Hf as (_ & _ & H & _).
  assert (Q : 24 * 2 ^ s1 * (24 * 2 ^ s1) = 576 * E1) by (rewrite <- B; ring).
  assert (Q1 : 0 < 2 * k * (2 * n) * 377) by nia.
  specialize (H (2 * k * (2 * n) * 377) 1 (24 * 2 ^ s1) Q1 ltac:(lia) ltac:(lia) ltac:(rewrite Q; nia)). fold G in H. split; [apply H|].
  apply near_coarse in H; [|lia|lia]. rewrite Q in H. lia.
Qed.
Lemma Bk_range : 2 ^ (s1 + 9) <= Bk < 2 ^ (s1 + 11).
Proof.
  destruct E1_big as (A & B & C & D1 & D2). destruct k_small as [K S]. destruct Bk_near as (B0 & B1 & B2).
  rewrite !Z.pow_add_r by lia. change (2 ^ 9) with 512. change (2 ^ 11) with 2048. split.
  - apply sq_le_inv; [exact B0|]. replace (2 ^ s1 * 512 * (2 ^ s1 * 512)) with (262144 * (2 ^ s1 * 2 ^ s1)) by ring. rewrite B. nia.
  - apply sq_lt; [lia|]. replace (2 ^ s1 * 2048 * (2 ^ s1 * 2048)) with (4194304 * (2 ^ s1 * 2 ^ s1)) by ring. rewrite B. nia.
Qed.
Lemma order : Z.sqrt_up (4 * (337 * (2 * k))) < Bk /\ Bk < Be2 /\ Be2 < F + G.
Proof.
  destruct E1_big as (A & B & C & D1 & D2). destruct k_small as [K S]. destruct Bk_near as (B0 & B1 & B2). destruct Be2_near as (C0 & C1 & C2).
  destruct F_near as (F0 & _ & F1 & F2). destruct G_near as (G0 & _). destruct gap_small as [[G1 G2] G3].
  assert (P4 : 0 < 4 ^ gap) by (apply Z.pow_pos_nonneg; lia).
  split; [|split].
  - apply Z.le_lt_trans with 3000.
    + change 3000 with (Z.sqrt_up 9000000). apply Z.sqrt_up_le_mono. lia.
    + pose proof Bk_range as [R _]. assert (2 ^ 78 <= 2 ^ (s1 + 9)) by (apply Z.pow_le_mono_r; lia). lia.
  - apply sq_lt; [exact C0|]. assert (X : E1 * (4 * k) <= E1 * 4 ^ gap) by nia. nia.
  - apply Z.lt_le_trans with F; [|lia]. apply sq_lt; [exact F0|]. set (Y := E1 * 4 ^ gap) in *. assert (0 < Y) by nia. nia.
Qed.
Lemma FG_upper : F + G <= 2 ^ 141.
Proof.
  destruct E1_big as (A & B & C & D1 & D2). destruct k_small as [K S]. destruct F_near as (F0 & _ & F1 & F2). destruct G_near as (G0 & G1'). destruct gap_small as [[G1 G2] G3].
  destruct L_small as [LL LN].
  assert (X1 : F <= 2 ^ 140).
  { assert (Y : E1 * 4 ^ gap * (4 * (n * n)) <= 4 ^ 135).
    { assert (4 * (n * n) <= 4 ^ L) by (rewrite <- p2s by lia; nia).
      apply Z.le_trans with (4 ^ s1 * 4 ^ gap * 4 ^ L); [unfold E1; apply Z.mul_le_mono_nonneg_l; [apply Z.mul_nonneg_nonneg; apply Z.pow_nonneg; lia|assumption]|].
      rewrite <- !Z.pow_add_r by lia. apply Z.pow_le_mono_r; [lia|unfold s1; lia]. }
    apply sq_le_inv; [apply Z.pow_nonneg; lia|]. lia. }
  assert (X2 : G <= 2 ^ 140).
  { apply sq_le_inv; [apply Z.pow_nonneg; lia|]. assert (E1 <= 4 ^ 105) by (unfold E1; apply Z.pow_le_mono_r; lia).
    assert (2 * k * (2 * n) * 377 <= 2 * 3321 * (2 * 2 ^ 20) * 377) by nia.
    assert (2 * k * (2 * n) * 377 * (576 * E1) <= 2 * 3321 * (2 * 2 ^ 20) * 377 * (576 * 4 ^ 105)) by (apply Z.mul_le_mono_nonneg; nia). lia. }
  lia.
Qed.
(** B_dNoise >= 31*2^s2*nn >= 31*2^122. *)
Lemma F_lower : 31 * (2 ^ s2 * (2 * n)) <= F.
Proof.
  destruct F_near as (F0 & (_ & H & _) & _). apply sq_le_inv; [exact F0|]. unfold eps in H. destruct E1_big as (_ & _ & _ & _ & D2). set (y := 2 ^ s2 * (2 * n)) in *. assert (0 <= y * y) by nia. lia.
Qed.
Lemma gap_lower : 2 ^ 122 <= 2 ^ s2 * (2 * n).
Proof.
  destruct E1_big as (A & B & C & D1 & D2). destruct k_small as [K S]. destruct gap_small as [[G1 G2] G3]. destruct L_small as [LL LN].
  destruct Hf as (H & _). fold L in H. destruct (ceil_log_bounds (2 * n) (n - 1) L ltac:(lia) ltac:(lia) H) as (_ & _ & L2).
  apply sq_le_inv; [nia|]. replace (2 ^ s2 * (2 * n) * (2 ^ s2 * (2 * n))) with (2 ^ s2 * 2 ^ s2 * (4 * (n * n))) by ring. rewrite C.
  change (2 ^ 122 * 2 ^ 122) with (4 ^ 122). unfold E1.
  assert (Q1 : 2 ^ 28 * (n - 1) <= 4 ^ gap).
  { assert (124080 * (2 * 2668) * (n - 1) <= 2 * 4 ^ gap) by nia. lia. }
  assert (E : 4 ^ s1 * 4 ^ (L - 1) = 4 ^ 108) by (rewrite <- Z.pow_add_r by (unfold s1 in *; lia); f_equal; unfold s1; lia).
  assert (P1 : 0 < 4 ^ s1) by (apply Z.pow_pos_nonneg; lia). assert (P2 : 0 < 4 ^ gap) by (apply Z.pow_pos_nonneg; lia).
  apply Z.le_trans with (4 ^ s1 * (2 ^ 28 * (n - 1)) * (4 * (n * n))).
  - replace (4 ^ s1 * (2 ^ 28 * (n - 1)) * (4 * (n * n))) with (2 ^ 28 * (4 ^ s1 * (2 * n * (2 * n) * (n - 1)))) by ring.
    assert (4 ^ 108 <= 4 ^ s1 * (2 * n * (2 * n) * (n - 1))) by (rewrite <- E; apply Z.mul_le_mono_nonneg_l; lia). lia.
  - apply Z.mul_le_mono_nonneg_r; [nia|]. apply Z.mul_le_mono_nonneg_l; lia.
Qed.
Let r := fp_hlog f Bk - 3.
Lemma radix_range : s1 + 2 <= 2 * r <= s1 + 7.
Proof.
  destruct k_small as [K S]. pose proof Bk_range as [R1 R2]. destruct Hf as (_ & H & _).
  assert (B1 : 1 <= Bk) by (pose proof (Z.pow_pos_nonneg 2 (s1 + 9) ltac:(lia) ltac:(lia)); lia).
  specialize (H Bk B1). unfold r. set (h := fp_hlog f Bk) in *. destruct H as (H0 & H1 & H2). unfold eps in *.
  assert (X1 : s1 + 8 <= 2 * h).
  { destruct (Z.le_gt_cases (s1 + 8) (2 * h)) as [|Q]; [assumption|exfalso]. assert (4 ^ h <= 2 ^ (s1 + 7)) by (rewrite p4 by lia; apply Z.pow_le_mono_r; lia).
    assert (2 ^ (s1 + 9) = 4 * 2 ^ (s1 + 7)) by (replace (s1 + 9) with (s1 + 7 + 2) by lia; rewrite Z.pow_add_r by lia; lia). lia. }
  specialize (H2 ltac:(lia)).
  assert (X2 : 2 * h <= s1 + 13).
  { destruct (Z.le_gt_cases (2 * h) (s1 + 13)) as [|Q]; [assumption|exfalso]. assert (2 ^ (s1 + 12) <= 4 ^ (h - 1)) by (rewrite p4 by lia; apply Z.pow_le_mono_r; lia).
    assert (2 ^ (s1 + 12) = 2 * 2 ^ (s1 + 11)) by (replace (s1 + 12) with (s1 + 11 + 1) by lia; rewrite Z.pow_add_r by lia; lia). lia. }
  lia.
Qed.
Let sml := fp_smlns f 2600 (F + G) r.
Lemma sml_range : 0 <= sml /\ sml + r <= 158.
Proof.
  destruct k_small as [K S]. pose proof Bk_range as [R1 R2]. pose proof radix_range as RR. destruct order as (O1 & O2 & O3). pose proof FG_upper as U.
  destruct Hf as (_ & _ & _ & H & _).
  assert (Q1 : 2 ^ r <= F + G). { apply Z.le_trans with (2 ^ (s1 + 9)); [apply Z.pow_le_mono_r; lia|lia]. }
  assert (0 < 2 ^ r) by (apply Z.pow_pos_nonneg; lia).
  specialize (H 2600 (F + G) r ltac:(lia) ltac:(lia) ltac:(lia) Q1). fold sml in H. cbv zeta in H. destruct H as (HS0 & HS1 & H2). split; [exact HS0|].
  destruct (Z.le_gt_cases (sml + r) 158) as [|Q]; [assumption|exfalso]. assert (4 ^ 158 <= 4 ^ (sml + r - 1)) by (apply Z.pow_le_mono_r; lia).
  assert ((F + G) * (F + G) <= 2 ^ 141 * 2 ^ 141) by nia. unfold eps in H2. lia.
Qed.
Lemma verifierBounds_ok : verifierBounds f 2 256 4 k n s1 s2 =
  Ret (VB (Z.sqrt_up (4 * (337 * (2 * k)))) (Z.sqrt_up (4 * (337 * (2 * k)))) Bk Bk Be2 (F + G) (2 ^ r) sml (fp_most f (2 ^ sml))).
Proof.
  destruct k_small as [K S]. destruct gap_small as [[G1 G2] _]. destruct order as (O1 & O2 & O3). pose proof radix_range as RR. destruct sml_range as [SR _].
  unfold verifierBounds, int32, shl1. replace (k * 2) with (2 * k) by lia. replace (n * 2) with (2 * n) by lia.
  destruct (Z.leb_spec (- 2 ^ 31) (2 * k)); [|lia]. destruct (Z.ltb_spec (2 * k) (2 ^ 31)); [|lia]. cbn [andb obind].
  destruct (Z.leb_spec (- 2 ^ 31) (2 * n)); [|lia]. destruct (Z.ltb_spec (2 * n) (2 ^ 31)); [|lia]. cbn [andb obind].
  destruct (Z.leb_spec (- 2 ^ 31) (337 * (2 * k))); [|lia]. destruct (Z.ltb_spec (337 * (2 * k)) (2 ^ 31)); [|lia]. cbn [andb obind].
  destruct (Z.ltb_spec s1 0); [lia|]. destruct (Z.ltb_spec s2 0); [unfold s2 in *; lia|]. cbv zeta. fold Bk Be2 F G.
  destruct (Z.geb_spec (Z.sqrt_up (4 * (337 * (2 * k)))) Bk); [lia|]. destruct (Z.geb_spec Bk Be2); [lia|]. destruct (Z.geb_spec Be2 (F + G)); [lia|]. cbn [orb].
  fold r. destruct (Z.ltb_spec r 0); [lia|]. change (10 * (256 + 4)) with 2600. fold sml. destruct (Z.ltb_spec sml 0); [lia|]. reflexivity.
Qed.
End B.

(** ** Exact values *)
Lemma hlog_exact x : 1 <= x -> let h := (Z.log2_up x + 1) / 2 in 0 <= h /\ x <= 4 ^ h /\ (0 < h -> 4 ^ (h - 1) < x).
Proof.
  intros Hx h. pose proof (Z.log2_up_nonneg x) as H0. assert (E : Z.log2_up x <= 2 * h <= Z.log2_up x + 1) by (unfold h; Z.to_euclidean_division_equations; lia).
  assert (h0 : 0 <= h) by lia. split; [exact h0|]. split.
  - rewrite p4 by exact h0. apply Z.le_trans with (2 ^ Z.log2_up x); [apply Z.log2_log2_up_spec; lia|apply Z.pow_le_mono_r; lia].
  - intros Hp. assert (1 < x). { destruct (Z.eq_dec x 1) as [->|]; [|lia]. change (Z.log2_up 1) with 0 in E. lia. }
    rewrite p4 by lia. apply Z.le_lt_trans with (2 ^ Z.pred (Z.log2_up x)); [apply Z.pow_le_mono_r; lia|]. now apply Z.log2_up_spec.
Qed.
Lemma exact_fpu_ok L n : ceil_log (2 * n) (n - 1) L -> fpu_ok (exact_fpu L) n.
Proof.
  intros HL. split; [exact HL|]. split; [|split; [|split]]; cbn [exact_fpu fp_hlog fp_mulsqrt fp_smlns fp_most].
  - intros x Hx. destruct (hlog_exact x Hx) as (A & B & C). cbv zeta in *. split; [exact A|]. unfold eps. split; [lia|]. intros H. specialize (C H). lia.
  - intros a b y Ha Hb Hy Hbig. set (q := a * (y * y) / b). set (B := Z.sqrt q).
    assert (Q : b * q <= a * (y * y) < b * (q + 1)) by (unfold q; Z.to_euclidean_division_equations; nia).
    assert (q0 : 2 ^ 80 <= q) by (unfold q; apply Z.div_le_lower_bound; lia).
    pose proof (Z.sqrt_spec q ltac:(lia)) as [S1 S2]. fold B in S1, S2. assert (B0 : 0 <= B) by apply Z.sqrt_nonneg.
    assert (B1 : 2 ^ 39 <= B) by (apply Z.sqrt_le_square; lia).
    assert (U : b * (B * B) <= a * (y * y)) by nia. assert (V : a * (y * y) <= b * ((B + 1) * (B + 1))) by nia.
    split; [exact B0|]. unfold eps. split; [|nia].
    assert (W : (2 ^ 30 - 1) * (B + 1) <= 2 ^ 30 * B) by lia.
    assert (W2 : ((2 ^ 30 - 1) * (B + 1)) * ((2 ^ 30 - 1) * (B + 1)) <= (2 ^ 30 * B) * (2 ^ 30 * B)) by (apply Z.mul_le_mono_nonneg; lia).
    apply Z.le_trans with ((2 ^ 30 - 1) * (2 ^ 30 - 1) * (b * ((B + 1) * (B + 1)))); [apply Z.mul_le_mono_nonneg_l; lia|].
    replace ((2 ^ 30 - 1) * (2 ^ 30 - 1) * (b * ((B + 1) * (B + 1)))) with (b * (((2 ^ 30 - 1) * (B + 1)) * ((2 ^ 30 - 1) * (B + 1)))) by ring.
    replace (2 ^ 30 * 2 ^ 30 * (b * (B * B))) with (b * ((2 ^ 30 * B) * (2 ^ 30 * B))) by ring. apply Z.mul_le_mono_nonneg_l; lia.
  - intros d B r Hd HB Hr Hrb. cbv zeta. set (X := 1521 * (129 * 129) * d * (B * B)).
    assert (R0 : 0 < 2 ^ r) by (apply Z.pow_pos_nonneg; lia). assert (E4 : 2 ^ r * 2 ^ r = 4 ^ r) by (apply p2s; lia).
    assert (BB : 4 ^ r <= B * B) by nia. assert (X1 : 16 * 4 ^ r * 1000 <= X) by (unfold X; nia).
    assert (X2 : 1 <= X) by lia.
    destruct (hlog_exact X X2) as (A & C & D). cbv zeta in *. set (h := (Z.log2_up X + 1) / 2) in *.
    assert (Hh : r + 2 < h).
    { destruct (Z.lt_ge_cases (r + 2) h) as [|Q]; [assumption|exfalso]. assert (4 ^ h <= 4 ^ (r + 2)) by (apply Z.pow_le_mono_r; lia). rewrite Z.pow_add_r in * by lia. lia. }
    split; [lia|]. replace (h - 2 - r + r) with (h - 2) by lia. specialize (D ltac:(lia)). unfold eps.
    assert (E1 : 16 * 4 ^ (h - 2) = 4 ^ h) by (change 16 with (4 ^ 2); rewrite <- Z.pow_add_r by lia; f_equal; lia).
    assert (E2 : 16 * 4 ^ (h - 2 - 1) = 4 ^ (h - 1)) by (change 16 with (4 ^ 2); rewrite <- Z.pow_add_r by lia; f_equal; lia). lia.
  - intros y Hy. Z.to_euclidean_division_equations. lia.
Qed.

(** The logarithm for the numbers of parties used most. *)
Lemma L_pow2 j L m m' : 0 <= j -> 0 < m -> 0 < m' -> j < L - 1 ->
  (m + 1) ^ ((m + 1) * (2 * (L - 1 - j))) < (2 ^ (j - 1) - 1) * m ^ ((m + 1) * (2 * (L - 1 - j))) ->
  (2 ^ (j - 1) - 1) * m' ^ (m' * (2 * (L - j))) < (m' + 1) ^ (m' * (2 * (L - j))) ->
  ceil_log (2 ^ j) (2 ^ (j - 1) - 1) L.
Proof.
  intros Hj Hm Hm' HL H1 H2. split; exists j, 1; rewrite !Z.pow_1_r, ?Z.mul_1_r; (split; [lia|]); (split; [lia|]); (split; [lia|]); (split; [lia|]).
  - exists m. split; [exact Hm|]. rewrite Z.pow_1_r. exact H1.
  - exists m'. split; [exact Hm'|]. rewrite Z.pow_1_r. exact H2.
Qed.
Lemma log_table : ceil_log (2 * 32) (32 - 1) 8 /\ ceil_log (2 * 128) (128 - 1) 11 /\ ceil_log (2 * 256) (256 - 1) 12 /\ ceil_log (2 * 512) (512 - 1) 14 /\
  ceil_log (2 * 1024) (1024 - 1) 15 /\ ceil_log (2 * 2048) (2048 - 1) 16 /\ ceil_log (2 * 4096) (4096 - 1) 18.
Proof.
  split; [apply (L_pow2 6 8 1 3); reflexivity || discriminate|].
  split; [apply (L_pow2 8 11 3 2); reflexivity || discriminate|].
  split; [apply (L_pow2 9 12 2 6); reflexivity || discriminate|].
  split; [apply (L_pow2 10 14 13 2); reflexivity || discriminate|].
  split; [apply (L_pow2 11 15 3 4); reflexivity || discriminate|].
  split; [apply (L_pow2 12 16 2 10); reflexivity || discriminate|].
  apply (L_pow2 13 18 13 3); reflexivity || discriminate.
Qed.
Lemma hlog_val f n x h : fpu_ok f n -> 1 <= x -> 0 < h -> (eps + 1) * 4 ^ (h - 1) < eps * x -> (eps + 1) * x <= eps * 4 ^ h -> fp_hlog f x = h.
Proof.
  intros Hf Hx Hh H1 H2. destruct Hf as (_ & H & _). destruct (H x Hx) as (A & B & C). set (g := fp_hlog f x) in *. unfold eps in *.
  assert (h <= g). { destruct (Z.le_gt_cases h g) as [|Q]; [assumption|exfalso]. assert (4 ^ g <= 4 ^ (h - 1)) by (apply Z.pow_le_mono_r; lia). lia. }
  destruct (Z.le_gt_cases g h) as [|Q]; [lia|exfalso]. specialize (C ltac:(lia)). assert (4 ^ h <= 4 ^ (g - 1)) by (apply Z.pow_le_mono_r; lia). lia.
Qed.
Lemma setParams_val f n L k g : 5 <= n < 2 ^ 30 -> fpu_ok f n -> ceil_log (2 * n) (n - 1) L -> kdim (109 - L) = k -> 0 < k -> 0 < g ->
  (eps + 1) * 4 ^ (g - 1) < eps * (124080 * (2 * k) * (n - 1)) -> (eps + 1) * (124080 * (2 * k) * (n - 1)) <= eps * 4 ^ g ->
  fp_logn f (2 * n) (n - 1) = L /\ setParams f 252 2 n = Ret (k, 109 - L, 109 - L + g).
Proof.
  intros Hn Hf HL Hk Hk0 Hg H1 H2. pose proof (setParams_ok f n Hn Hf) as HS.
  assert (E : fp_logn f (2 * n) (n - 1) = L) by (destruct Hf as (HL' & _); exact (ceil_log_unique (2 * n) (n - 1) _ L ltac:(lia) ltac:(lia) HL' HL)).
  split; [exact E|]. rewrite HS, E, Hk. rewrite (hlog_val f n (124080 * (2 * k) * (n - 1)) g Hf); [reflexivity|nia|exact Hg|exact H1|exact H2].
Qed.

(** e^2 < 8 (with 13): (1+1/m)^(2m) <= 8. *)
Lemma e_sq m : 0 < m -> ((m + 1) ^ m) ^ 2 <= 8 * (m ^ m) ^ 2.
Proof.
  intros Hm. pose proof (e_between m 13 Hm ltac:(lia)) as E. pose proof (Z.pow_pos_nonneg m m ltac:(lia) ltac:(lia)). pose proof (Z.pow_pos_nonneg (m + 1) m ltac:(lia) ltac:(lia)).
  set (a := (m + 1) ^ m) in *. set (b := m ^ m) in *. change (13 + 1) with 14 in E.
  assert (Q : (14 ^ 14) ^ 2 <= 8 * (13 ^ 14) ^ 2) by (vm_compute; discriminate). rewrite !Z.pow_2_r in *. nia.
Qed.
(** nn^2 * tt^(2/3) <= 4^L. *)
Lemma ceil_log_23 nn tt L : 0 < nn -> 0 < tt -> ceil_log nn tt L -> nn ^ 6 * tt ^ 2 < 4 ^ (3 * L).
Proof.
  intros Hn Ht [(a0 & b0 & Ha0 & Hb0 & H10 & H20 & _) (a & b & Ha & Hb & H1 & H2 & m & Hm & H3)].
  set (x := L * b - a) in *. assert (Hx : 0 <= x) by lia. rewrite !(Z.pow_mul_r _ m) in H3 by lia.
  pose proof (e_sq m Hm) as E. pose proof (Z.pow_pos_nonneg m m ltac:(lia) ltac:(lia)). pose proof (Z.pow_pos_nonneg (m + 1) m ltac:(lia) ltac:(lia)).
  set (u := (m + 1) ^ m) in *. set (v := m ^ m) in *.
  assert (E1 : (u ^ 2) ^ x <= (8 * v ^ 2) ^ x) by (apply pow_mono_l; split; [apply Z.pow_nonneg; lia|exact E]).
  rewrite Z.pow_mul_l, <- !Z.pow_mul_r in E1 by lia.
  pose proof (Z.pow_pos_nonneg v (2 * x) ltac:(lia) ltac:(lia)) as V.
  assert (T : tt ^ b < 8 ^ x) by nia.
  assert (T2 : (tt ^ b) * (tt ^ b) < 8 ^ x * 8 ^ x) by (pose proof (Z.pow_nonneg tt b ltac:(lia)); nia).
  assert (N : (nn ^ b) ^ 6 <= (2 ^ a) ^ 6) by (apply pow_mono_l; split; [apply Z.pow_nonneg; lia|exact H1]).
  assert (L0 : 0 <= L) by nia.
  destruct (Z.lt_ge_cases (nn ^ 6 * tt ^ 2) (4 ^ (3 * L))) as [|Q]; [assumption|exfalso].
  assert (Q2 : (4 ^ (3 * L)) ^ b <= (nn ^ 6 * tt ^ 2) ^ b) by (apply pow_mono_l; split; [apply Z.pow_nonneg; lia|lia]).
  rewrite Z.pow_mul_l, <- !Z.pow_mul_r in Q2 by lia. rewrite <- !Z.pow_mul_r in N by lia.
  replace (6 * b) with (b * 6) in Q2 by lia. replace (tt ^ (2 * b)) with (tt ^ b * tt ^ b) in Q2 by (rewrite <- Z.pow_add_r by lia; f_equal; lia).
  assert (R : 4 ^ (3 * L * b) = 2 ^ (a * 6) * (8 ^ x * 8 ^ x)).
  { change 8 with (2 ^ 3). change 4 with (2 ^ 2). rewrite <- !Z.pow_mul_r, <- !Z.pow_add_r by lia. f_equal. unfold x. lia. }
  rewrite R in Q2. pose proof (Z.pow_pos_nonneg nn (b * 6) ltac:(lia) ltac:(lia)). pose proof (Z.pow_pos_nonneg 2 (a * 6) ltac:(lia) ltac:(lia)).
  pose proof (Z.pow_pos_nonneg 8 x ltac:(lia) ltac:(lia)). set (A1 := nn ^ (b * 6)) in *. set (A2 := 2 ^ (a * 6)) in *. set (A3 := 8 ^ x * 8 ^ x) in *. set (A4 := tt ^ b * tt ^ b) in *.
  assert (0 <= A4) by (unfold A4; apply Z.mul_nonneg_nonneg; apply Z.pow_nonneg; lia).
  assert (A1 * A4 <= A2 * A4) by (apply Z.mul_le_mono_nonneg_r; lia). assert (A2 * A4 < A2 * A3) by (apply Z.mul_lt_mono_pos_l; lia). lia.
Qed.
