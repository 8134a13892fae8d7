(** C99: the masked reply of the smallness proof. *)
From Coq Require Import ZArith List Bool Lia.
From Verif Require Import Outcome Fp Ring AlgebraModel AlgebraSpec AlgebraProofs Prime25519 TernaryModel RegevModel ParamsModel ParamsSpec ParamsProofs ParamsBounds MaskSpec MaskProofs.
Import ListNotations.
Open Scope Z_scope.

Section P.
Context {p : Z} {ell : nat}.
Variables b U B : Z.
Hypothesis Hp : 2 <= p.
Hypothesis He : (0 < ell)%nat.
Hypothesis Hb : 0 <= b.
Hypothesis H2 : 2 * 2 ^ b <= p.
Hypothesis HU : U + B < 2 ^ b.
Notation E := (elt p ell).

(** The mask drawn by one trial, given what the random source returns. *)
Notation mask n r := (sample_vec (fun j => nth j r (0, 0)) b 0 n : list E).

(** Partial: the number of draws that give a reply depends on the masked vector where the two agree. *)
Theorem C99_reply_partial (u z : list E) : length u = length z -> small U u -> small B z ->
  exactly (2 ^ Z.of_nat (agree u z)) (fun r => draws b (length u * ell) r /\ vecAdd u (mask (length u) r) = Ret z).
Proof. exact (replies Hp He b U B Hb H2 HU u z). Qed.

Theorem C99_accepted (u : list E) : U <= B -> small U u ->
  exactly ((2 * B + 2) ^ Z.of_nat (length u * ell))
    (fun r => draws b (length u * ell) r /\ exists z, vecAdd u (mask (length u) r) = Ret z /\ small B z).
Proof. exact (accepted_count Hp He b U B Hb H2 HU u). Qed.

Theorem C99_clean (u : list E) : U <= B -> small U u ->
  exactly ((2 * B) ^ Z.of_nat (length u * ell))
    (fun r => draws b (length u * ell) r /\ exists z, vecAdd u (mask (length u) r) = Ret z /\ small B z /\ agree u z = 0%nat).
Proof. exact (clean_count Hp He b U B Hb H2 HU u). Qed.

(** The reply that equals one masked vector everywhere comes from 2^(n*ell) draws, but from a single
    draw for another vector. *)
Theorem C99_refuted n : 1 <= U -> U <= B -> (0 < n)%nat ->
  exists u1 u2 z : list E, (length u1 = n /\ length u2 = n /\ length z = n) /\ (small U u1 /\ small U u2 /\ small B z) /\
    exactly (2 ^ Z.of_nat (n * ell)) (fun r => draws b (n * ell) r /\ vecAdd u1 (mask n r) = Ret z) /\
    exactly 1 (fun r => draws b (n * ell) r /\ vecAdd u2 (mask n r) = Ret z).
Proof. exact (two_counts Hp He b U B Hb H2 HU n). Qed.
End P.
Print Assumptions C99_reply_partial.
Print Assumptions C99_accepted.
Print Assumptions C99_clean.
Print Assumptions C99_refuted.

(** Of the accepted draws for m+1 coefficients, at most a fraction (m+1)/(B+1) gives a reply that agrees
    with the masked vector somewhere. *)
Theorem C99_loss (B : Z) (m : nat) : 0 <= B ->
  (2 * B + 2) ^ Z.of_nat (S m) - Z.of_nat (S m) * 2 * (2 * B + 2) ^ Z.of_nat m <= (2 * B) ^ Z.of_nat (S m).
Proof.
  intros HB. rewrite Nat2Z.inj_succ. pose proof (bern_dec 2 (Z.of_nat m) (2 * B + 2) ltac:(lia) ltac:(lia)) as H.
  replace (2 * B + 2 - 2) with (2 * B) in H by lia. exact H.
Qed.
Print Assumptions C99_loss.

(** The bits of the mask and the bounds of the code meet the hypotheses; LINYDIM is 128. *)
Theorem C99_parameters f n : 5 <= n <= 2 ^ 20 -> fpu_ok f n -> (forall y, 0 <= y -> 129 * fp_most f y <= 128 * y) ->
  exists k s1 s2 v, setParams f 252 2 n = Ret (k, s1, s2) /\ verifierBounds f 2 256 4 k n s1 s2 = Ret v /\
    0 <= v_smlnsBits v /\ 2 * 2 ^ v_smlnsBits v <= P25519 /\ v_smallness v / 128 + v_smallness v < 2 ^ v_smlnsBits v /\
    v_smallness v / 128 <= v_smallness v.
Proof.
  intros Hn Hf Hm. assert (Hn' : 5 <= n < 2 ^ 30) by lia. pose proof (setParams_ok f n Hn' Hf) as HS. pose proof (verifierBounds_ok f n Hn Hf) as HV.
  pose proof (radix_range f n Hn Hf) as RR. destruct (sml_range f n Hn Hf) as [SR1 SR2]. destruct (k_small f n Hn Hf) as [_ KS].
  do 4 eexists. split; [exact HS|]. split; [exact HV|]. clear HS HV. cbn [v_smlnsBits v_smallness].
  match goal with |- 0 <= ?x /\ _ => set (sml := x) in * end. split; [exact SR1|].
  assert (S2 : 0 < 2 ^ sml <= 2 ^ 118) by (split; [apply Z.pow_pos_nonneg; lia|apply Z.pow_le_mono_r; lia]).
  split; [unfold P25519; lia|]. pose proof (Hm (2 ^ sml) ltac:(lia)) as M. destruct Hf as (_ & _ & _ & _ & H0). specialize (H0 (2 ^ sml) ltac:(lia)).
  set (B := fp_most f (2 ^ sml)) in *. assert (N3 : (2 ^ sml) mod 3 <> 0).
  { clear - SR1. revert SR1. generalize sml as s. apply natlike_ind; [discriminate|]. intros s Hs IH. rewrite Z.pow_succ_r by lia.
    intros K. apply IH. Z.to_euclidean_division_equations. lia. }
  assert (129 * B <> 128 * 2 ^ sml) by (intros K; apply N3; Z.to_euclidean_division_equations; lia).
  split; Z.to_euclidean_division_equations; lia.
Qed.
Print Assumptions C99_parameters.

(** Two coefficients, draws of 4 bits, |u| <= 1 and |z| <= 10. *)
Definition u_ex : list (elt 101 2) := [mkE 2 (fun i => toF 101 (Z.of_nat i))].
Definition z_ex : list (elt 101 2) := [mkE 2 (fun i => toF 101 (3 * Z.of_nat i))].
Example C99_example : small 1 u_ex /\ small 10 z_ex /\ agree u_ex z_ex = 1%nat /\
  (forall r, draws 4 2 r /\ vecAdd u_ex (sample_vec (fun j => nth j r (0, 0)) 4 0 1) = Ret z_ex <-> r = [(0, 0); (2, 0)] \/ r = [(0, 1); (2, 0)]) /\
  exactly (22 ^ 2) (fun r => draws 4 2 r /\ exists z, vecAdd u_ex (sample_vec (fun j => nth j r (0, 0)) 4 0 1) = Ret z /\ small 10 z).
Proof.
  assert (Hp : 2 <= 101) by lia. assert (S1 : small 1 u_ex).
  { apply (proj2 (small_nth Hp (Nat.lt_0_succ 1) 4 _ _)). intros [|[|t]] Ht; cbn in Ht; try lia; apply Z.leb_le; vm_compute; reflexivity. }
  assert (S2 : small 10 z_ex).
  { apply (proj2 (small_nth Hp (Nat.lt_0_succ 1) 4 _ _)). intros [|[|t]] Ht; cbn in Ht; try lia; apply Z.leb_le; vm_compute; reflexivity. }
  split; [exact S1|]. split; [exact S2|]. split; [vm_compute; reflexivity|]. split.
  - assert (Ag : agree u_ex z_ex = 1%nat) by (vm_compute; reflexivity).
    destruct (C99_reply_partial (p := 101) (ell := 2) 4 1 10 ltac:(lia) ltac:(lia) ltac:(lia) ltac:(lia) ltac:(lia) u_ex z_ex eq_refl S1 S2) as (l & N & I & C).
    rewrite Ag in C. change (2 ^ Z.of_nat 1) with 2 in C.
    assert (D : forall s, s = 0 \/ s = 1 -> In [(0, s); (2, 0)] l).
    { intros s Hs. apply I. split; [|destruct Hs as [-> | ->]; unfold vecAdd, sample_vec, u_ex, z_ex; cbn [length map seq Nat.eqb zipWith]; apply (f_equal (fun e => Ret [e]));
        apply coeff_ext; intros i Hi; destruct i as [|[|i]]; try lia; apply Fp_eq; vm_compute; reflexivity].
      split; [reflexivity|]. apply Forall_cons; [unfold is_draw; cbn; lia|]. apply Forall_cons; [unfold is_draw; cbn; lia|constructor]. }
    assert (Q : forall r, In r l <-> r = [(0, 0); (2, 0)] \/ r = [(0, 1); (2, 0)]).
    { pose proof (D 0 ltac:(lia)) as D0. pose proof (D 1 ltac:(lia)) as D1. clear - N C D0 D1. destruct l as [|x [|y [|w l]]]; cbn [length] in C; try lia.
      intros r. cbn in *. intuition congruence. }
    intros r. rewrite <- Q. symmetry. apply I.
  - exact (C99_accepted (p := 101) (ell := 2) 4 1 10 ltac:(lia) ltac:(lia) ltac:(lia) ltac:(lia) ltac:(lia) u_ex ltac:(lia) S1).
Qed.
