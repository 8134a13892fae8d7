(** Keccak-f loses nothing: each step of FIPS 202 is injective. *)
From Coq Require Import ZArith List Bool Lia Arith.
From Verif Require Import Bytes KeccakModel KeccakSpec KeccakProofs.
Import ListNotations.
Open Scope nat_scope.

(** *** theta: (1 + X + X^4 Z)^64 = 1 + X + X^4, whose cube is 1. *)
Lemma double (Q : nat -> nat -> bool) a b c : (forall x z, Q x z = xorb (Q (x + a) z) (Q (x + b) (z + c))) ->
  forall x z, Q x z = xorb (Q (x + 2 * a) z) (Q (x + 2 * b) (z + 2 * c)).
Proof.
  intros H x z. rewrite (H x z), (H (x + a) z), (H (x + b) (z + c)).
  replace (x + a + a) with (x + 2 * a) by lia. replace (x + b + a) with (x + a + b) by lia. replace (x + b + b) with (x + 2 * b) by lia. replace (z + c + c) with (z + 2 * c) by lia.
  destruct (Q (x + 2 * a) z), (Q (x + a + b) (z + c)), (Q (x + 2 * b) (z + 2 * c)); reflexivity.
Qed.
Lemma parity_zero (P : nat -> nat -> bool) :
  (forall x z, x < 5 -> z < 64 -> P x z = xorb (P ((x + 4) mod 5) z) (P ((x + 1) mod 5) ((z + 63) mod 64))) ->
  forall x z, x < 5 -> z < 64 -> P x z = false.
Proof.
  intros H. set (Q := fun x z => P (x mod 5) (z mod 64)).
  assert (H1 : forall x z, Q x z = xorb (Q (x + 4) z) (Q (x + 1) (z + 63))).
  { intros x z. unfold Q. rewrite (H (x mod 5) (z mod 64)) by (apply Nat.mod_upper_bound; lia). rewrite !Nat.add_mod_idemp_l by lia. reflexivity. }
  pose proof (double Q _ _ _ (double Q _ _ _ (double Q _ _ _ (double Q _ _ _ (double Q _ _ _ (double Q _ _ _ H1)))))) as H64.
  assert (H2 : forall x z, Q x z = xorb (Q (x + 1) z) (Q (x + 4) z)).
  { intros x z. rewrite (H64 x z). unfold Q.
    replace (x + 2 * (2 * (2 * (2 * (2 * (2 * 4)))))) with (x + 1 + 51 * 5) by lia.
    replace (x + 2 * (2 * (2 * (2 * (2 * (2 * 1)))))) with (x + 4 + 12 * 5) by lia.
    replace (z + 2 * (2 * (2 * (2 * (2 * (2 * 63)))))) with (z + 63 * 64) by lia. now rewrite !Nat.mod_add by lia. }
  intros x z Hx Hz.
  assert (E : forall k, k < 5 -> P k z = xorb (P ((k + 1) mod 5) z) (P ((k + 4) mod 5) z)).
  { intros k Hk. specialize (H2 k z). unfold Q in H2. rewrite (Nat.mod_small k), (Nat.mod_small z) in H2 by lia. exact H2. }
  pose proof (E 0 ltac:(lia)) as E0. pose proof (E 1 ltac:(lia)) as E1. pose proof (E 2 ltac:(lia)) as E2. pose proof (E 3 ltac:(lia)) as E3. pose proof (E 4 ltac:(lia)) as E4.
  cbn in E0, E1, E2, E3, E4.
  destruct (P 0 z) eqn:P0, (P 1 z) eqn:P1, (P 2 z) eqn:P2, (P 3 z) eqn:P3, (P 4 z) eqn:P4; try discriminate;
    do 5 (destruct x as [|x]; [assumption|]); lia.
Qed.
Lemma theta_inj A B : beq (theta_s A) (theta_s B) -> beq A B.
Proof.
  intros H. set (D := fun x y z => xorb (A x y z) (B x y z)). set (P := fun x z => xorb (colpar A x z) (colpar B x z)).
  assert (HP : forall x z, P x z = xorb (D x 0 z) (xorb (D x 1 z) (xorb (D x 2 z) (xorb (D x 3 z) (D x 4 z))))).
  { intros x z. unfold P, D, colpar. destruct (A x 0 z), (A x 1 z), (A x 2 z), (A x 3 z), (A x 4 z), (B x 0 z), (B x 1 z), (B x 2 z), (B x 3 z), (B x 4 z); reflexivity. }
  assert (HD : forall x y z, x < 5 -> y < 5 -> z < 64 -> D x y z = xorb (P ((x + 4) mod 5) z) (P ((x + 1) mod 5) ((z + 63) mod 64))).
  { intros x y z Hx Hy Hz. specialize (H x y z Hx Hy Hz). unfold theta_s in H. change w with 64 in H. replace (z + 64 - 1) with (z + 63) in H by lia. unfold D, P.
    destruct (A x y z), (B x y z), (colpar A ((x + 4) mod 5) z), (colpar B ((x + 4) mod 5) z), (colpar A ((x + 1) mod 5) ((z + 63) mod 64)), (colpar B ((x + 1) mod 5) ((z + 63) mod 64)); try reflexivity; discriminate H. }
  assert (Z0 : forall x z, x < 5 -> z < 64 -> P x z = false).
  { apply parity_zero. intros x z Hx Hz. rewrite HP, !HD by lia. destruct (P ((x + 4) mod 5) z), (P ((x + 1) mod 5) ((z + 63) mod 64)); reflexivity. }
  intros x y z Hx Hy Hz. pose proof (HD x y z Hx Hy Hz) as E.
  rewrite !Z0 in E by (try apply Nat.mod_upper_bound; lia). unfold D in E. destruct (A x y z), (B x y z); try reflexivity; discriminate E.
Qed.
Lemma offset_bound x y : x < 5 -> y < 5 -> offset x y <= 384.
Proof. intros Hx Hy. do 5 (destruct x as [|x]; [do 5 (destruct y as [|y]; [vm_compute; lia|]); lia|]). lia. Qed.
Lemma rho_inj A B : beq (rho_s A) (rho_s B) -> beq A B.
Proof.
  intros H x y z Hx Hy Hz. pose proof (offset_bound x y Hx Hy) as O. specialize (H x y ((z + offset x y) mod 64) Hx Hy ltac:(apply Nat.mod_upper_bound; lia)).
  unfold rho_s in H. change w with 64 in H.
  assert (E : ((z + offset x y) mod 64 + 6 * 64 - offset x y) mod 64 = z).
  { assert (K : exists k, z + offset x y = k * 64 + (z + offset x y) mod 64) by (exists ((z + offset x y) / 64); pose proof (Nat.div_mod (z + offset x y) 64 ltac:(lia)); lia).
    destruct K as (k & K). set (r := (z + offset x y) mod 64) in *.
    assert (M : (r + 6 * 64 - offset x y) + k * 64 = z + 6 * 64) by lia.
    rewrite <- (Nat.mod_add _ k 64), M, Nat.mod_add by lia. now apply Nat.mod_small. }
  now rewrite E in H.
Qed.
Lemma pi_inj A B : beq (pi_s A) (pi_s B) -> beq A B.
Proof.
  intros H x y z Hx Hy Hz. unfold beq, pi_s in H.
  assert (K : exists y', y' < 5 /\ (y + 3 * y') mod 5 = x).
  { do 5 (destruct y as [|y]; [do 5 (destruct x as [|x]; [first [exists 0; split; [lia|reflexivity]|exists 1; split; [lia|reflexivity]|exists 2; split; [lia|reflexivity]|exists 3; split; [lia|reflexivity]|exists 4; split; [lia|reflexivity]]|]); lia|]). lia. }
  destruct K as (y' & K1 & K2). specialize (H y y' z Hy K1 Hz). now rewrite K2 in H.
Qed.
Lemma chi_inj A B : beq (chi_s A) (chi_s B) -> beq A B.
Proof.
  intros H x y z Hx Hy Hz.
  pose proof (H 0 y z ltac:(lia) Hy Hz) as E0. pose proof (H 1 y z ltac:(lia) Hy Hz) as E1. pose proof (H 2 y z ltac:(lia) Hy Hz) as E2.
  pose proof (H 3 y z ltac:(lia) Hy Hz) as E3. pose proof (H 4 y z ltac:(lia) Hy Hz) as E4. unfold chi_s in E0, E1, E2, E3, E4. cbn in E0, E1, E2, E3, E4.
  assert (K : A 0 y z = B 0 y z /\ A 1 y z = B 1 y z /\ A 2 y z = B 2 y z /\ A 3 y z = B 3 y z /\ A 4 y z = B 4 y z).
  { destruct (A 0 y z), (A 1 y z), (A 2 y z), (A 3 y z), (A 4 y z); cbn in E0, E1, E2, E3, E4;
      destruct (B 0 y z), (B 1 y z), (B 2 y z), (B 3 y z), (B 4 y z); first [discriminate|repeat split; reflexivity]. }
  destruct K as (K0 & K1 & K2 & K3 & K4). do 5 (destruct x as [|x]; [assumption|]). lia.
Qed.
Lemma iota_inj i A B : beq (iota_s i A) (iota_s i B) -> beq A B.
Proof.
  intros H x y z Hx Hy Hz. specialize (H x y z Hx Hy Hz). unfold iota_s in H. destruct ((x =? 0) && (y =? 0)); [|exact H].
  destruct (A x y z), (B x y z), (RC_s i z); try reflexivity; discriminate H.
Qed.
Lemma Rnd_inj i A B : beq (Rnd A i) (Rnd B i) -> beq A B.
Proof. intros H. now apply theta_inj, rho_inj, pi_inj, chi_inj, (iota_inj i). Qed.
Lemma f1600_inj A B : beq (keccak_f1600 A) (keccak_f1600 B) -> beq A B.
Proof.
  unfold keccak_f1600. revert A B. generalize (seq 0 24) as l. induction l as [|i l IH]; intros A B H; [exact H|]. cbn [fold_left] in H. apply IH in H. now apply Rnd_inj in H.
Qed.
Lemma bit_of_inj s t : bytes_ok s -> bytes_ok t -> length s = 200 -> length t = 200 -> beq (bit_of s) (bit_of t) -> s = t.
Proof.
  intros Hs Ht Ls Lt H. apply (nth_ext s t 0%Z 0%Z); [lia|]. intros i Hi. rewrite Ls in Hi. apply Z.bits_inj. intros j.
  assert (Bs : is_byte (nth i s 0%Z)) by (apply (proj1 (Forall_forall _ _) Hs), nth_In; lia).
  assert (Bt : is_byte (nth i t 0%Z)) by (apply (proj1 (Forall_forall _ _) Ht), nth_In; lia).
  destruct (Z_lt_le_dec j 0) as [J|J]; [now rewrite !Z.testbit_neg_r by exact J|]. destruct (Z_le_gt_dec 8 j) as [J8|J8].
  { assert (T : forall b, is_byte b -> Z.testbit b j = false).
    { intros b [B0 B1]. destruct (Z.eq_dec b 0) as [->|N]; [apply Z.bits_0|]. apply Z.bits_above_log2; [exact B0|]. apply Z.log2_lt_pow2; [lia|].
      apply (Z.lt_le_trans _ (2 ^ 8)); [exact B1|apply Z.pow_le_mono_r; lia]. }
    now rewrite !T. }
  set (lane := i / 8). set (z := 8 * (i mod 8) + Z.to_nat j).
  assert (I8 : i = 8 * lane + i mod 8) by apply (Nat.div_mod i 8 ltac:(lia)). pose proof (Nat.mod_upper_bound i 8 ltac:(lia)) as M8.
  assert (LL : lane < 25) by (unfold lane; apply Nat.div_lt_upper_bound; lia).
  pose proof (Nat.div_mod lane 5 ltac:(lia)) as L5. pose proof (Nat.mod_upper_bound lane 5 ltac:(lia)) as M5.
  assert (Y5 : lane / 5 < 5) by (apply Nat.div_lt_upper_bound; lia).
  specialize (H (lane mod 5) (lane / 5) z M5 Y5 ltac:(unfold z; lia)). unfold bit_of in H. change w with 64 in H.
  replace (5 * (lane / 5) + lane mod 5) with lane in H by lia.
  assert (E1 : (64 * lane + z) / 8 = i).
  { unfold z. replace (64 * lane + (8 * (i mod 8) + Z.to_nat j)) with (Z.to_nat j + (8 * lane + i mod 8) * 8) by lia. rewrite Nat.div_add by lia. rewrite Nat.div_small by lia. lia. }
  assert (E2 : Z.of_nat (z mod 8) = j).
  { unfold z. rewrite Nat.add_comm, Nat.mul_comm, Nat.mod_add by lia. rewrite Nat.mod_small by lia. lia. }
  now rewrite E1, E2 in H.
Qed.
Lemma keccakf_inj s t : bytes_ok s -> bytes_ok t -> length s = 200 -> length t = 200 -> keccakf s = keccakf t -> s = t.
Proof.
  intros Hs Ht Ls Lt H. apply bit_of_inj; auto. apply f1600_inj.
  destruct (keccakf_ok s Hs Ls) as (_ & _ & Ks). destruct (keccakf_ok t Ht Lt) as (_ & _ & Kt).
  intros x y z Hx Hy Hz. rewrite <- (Ks x y z), <- (Kt x y z), H by assumption. reflexivity.
Qed.
