(** All five proof steps; reads outside the challenge buffer; a bound on the norm
    suffices for the high digits. *)
From Coq Require Import String.
From Coq Require Import ZArith List Bool Lia Ring.
From Verif Require Import Outcome Fp FSum GroupMod Ring ConstraintsModel ConstraintsSpec PedersenModel BulletproofModel FourSquaresSpec AlgebraModel AlgebraSpec AlgebraProofs
  TernaryModel TernarySpec TernaryProofs RegevModel RegevPfModel RegevPfSpec RegevStSpec RegevPfState RegevPfShare RegevPfSat CountTrans StepSpec StepSound StepMain
  RegevAggModel RegevRunModel RegevAggSpec RegevRunSpec ProgressSpec ProgressBase ProgressTac ProgressDec ProgressEnc ProgressSml PropRegevSt.
Import ListNotations.
Open Scope Z_scope.

Lemma sq_cons x l : sum_sq (x :: l) = x * x + sum_sq l.
Proof. reflexivity. Qed.
Lemma sq_nonneg l : 0 <= sum_sq l.
Proof. induction l as [|x l IH]; [cbn; lia|]. rewrite sq_cons. nia. Qed.
Lemma sq_le x y : x * x <= y * y -> 0 <= y -> x <= y.
Proof. nia. Qed.
(** Cauchy and Schwarz. *)
Fixpoint dotZ (u v : list Z) : Z := match u, v with a :: u, b :: v => a * b + dotZ u v | _, _ => 0 end.
Lemma cauchy : forall u v, dotZ u v * dotZ u v <= sum_sq u * sum_sq v.
Proof.
  induction u as [|a u IH]; intros v; [cbn [dotZ]; pose proof (Z.mul_nonneg_nonneg _ _ (sq_nonneg []) (sq_nonneg v)); lia|].
  destruct v as [|b v]; [cbn [dotZ]; pose proof (Z.mul_nonneg_nonneg _ _ (sq_nonneg (a :: u)) (sq_nonneg [])); lia|].
  cbn [dotZ]. rewrite !sq_cons.
  specialize (IH v). pose proof (sq_nonneg u) as HA. pose proof (sq_nonneg v) as HB.
  set (P := dotZ u v) in *. set (A := sum_sq u) in *. set (B := sum_sq v) in *.
  assert (K : 2 * P * (a * b) <= A * (b * b) + B * (a * a)).
  { apply sq_le; [|pose proof (Z.square_nonneg a); pose proof (Z.square_nonneg b); nia].
    pose proof (Z.square_nonneg (A * (b * b) - B * (a * a))).
    assert ((P * P) * ((a * b) * (a * b)) <= (A * B) * ((a * b) * (a * b))) by (apply Z.mul_le_mono_nonneg_r; [apply Z.square_nonneg|exact IH]). lia. }
  lia.
Qed.
Lemma hi_norm r b B : forall xs, 0 < r -> 0 <= B -> 0 <= b - B / r - 1 -> sum_sq xs <= B * B -> Z.of_nat (length xs) <= 4 * ((b - B / r - 1) * (b - B / r - 1)) ->
  sum_sq (map (hi_digit r) xs) <= b * b.
Proof.
  intros xs Hr HB Hs Hx HJ. set (s := b - B / r - 1) in *.
  set (e := fun x => r * hi_digit r x - x).
  assert (He : forall x, 4 * (e x * e x) <= r * r).
  { intros x. unfold e, hi_digit. pose proof (Z.div_mod (r - 2 * x) (2 * r) ltac:(lia)). pose proof (Z.mod_pos_bound (r - 2 * x) (2 * r) ltac:(lia)).
    set (q := (r - 2 * x) / (2 * r)) in *. set (m := (r - 2 * x) mod (2 * r)) in *.
    assert (2 * (r * - q - x) = m - r) by lia. nia. }
  assert (HE : forall l, 4 * sum_sq (map e l) <= Z.of_nat (length l) * (r * r)).
  { induction l as [|x l IH]; [cbn; lia|]. cbn [map length]. rewrite sq_cons. pose proof (He x). lia. }
  assert (HX : forall l, r * r * sum_sq (map (hi_digit r) l) = sum_sq l + 2 * dotZ l (map e l) + sum_sq (map e l)).
  { induction l as [|x l IH]; [cbn; lia|]. cbn [map dotZ]. rewrite !sq_cons. unfold e in *. nia. }
  pose proof (cauchy xs (map e xs)) as C. specialize (HE xs). specialize (HX xs).
  pose proof (sq_nonneg xs). pose proof (sq_nonneg (map e xs)).
  assert (HE2 : sum_sq (map e xs) <= (r * s) * (r * s)) by nia.
  assert (HD : dotZ xs (map e xs) <= B * (r * s)).
  { assert (dotZ xs (map e xs) * dotZ xs (map e xs) <= (B * (r * s)) * (B * (r * s))).
    { etransitivity; [exact C|]. transitivity ((B * B) * ((r * s) * (r * s))); [apply Z.mul_le_mono_nonneg; lia|lia]. }
    apply sq_le; [assumption|]. apply Z.mul_nonneg_nonneg; [lia|]. apply Z.mul_nonneg_nonneg; lia. }
  assert (HT : r * r * sum_sq (map (hi_digit r) xs) <= (B + r * s) * (B + r * s)) by nia.
  assert (Hb : B + r * s <= r * b).
  { subst s. pose proof (Z.div_mod B r ltac:(lia)). pose proof (Z.mod_pos_bound B r Hr). lia. }
  assert (0 <= B + r * s) by nia.
  assert (r * r * sum_sq (map (hi_digit r) xs) <= (r * b) * (r * b)) by nia.
  assert (0 < r * r) by nia. nia.
Qed.

Section A.
Context {p : Z} {ell : nat} {G : gmod p}.
Notation F := (Fp p).
Notation E := (elt p ell).
Variable R : rmerlin G.
Variable c : cfg ell G.
Notation pstate := (@pstate p ell G R).
Hypothesis Hc : wf_cfg c.

Lemma ints_len n (v : nat -> E) : length (ints n v) = (n * ell)%nat.
Proof. unfold ints. now rewrite map_length, coeffs_len, vec_len. Qed.
Lemma hi_of_norm B n (v : nat -> E) : 0 <= B -> Z.of_nat (JLDIM c) <= 4 * ((Z.sqrt_up n - 1) * (Z.sqrt_up n - 1)) -> 1 <= Z.sqrt_up n ->
  fits c B v -> hi_fits c B n v.
Proof.
  intros HB HJ H1 H. unfold hi_fits. cbv zeta. assert (0 < radix c) by (pose proof Hc as (_ & _ & _ & _ & _ & _ & _ & _ & _ & _ & Q); lia).
  apply (hi_norm _ _ B); try assumption; replace (B / radix c + Z.sqrt_up n - B / radix c - 1) with (Z.sqrt_up n - 1) by lia; [lia|].
  rewrite ints_len. change (JLDIM c / ell)%nat with (jl c). rewrite (jl_eq c Hc). exact HJ.
Qed.

Lemma room_shape (st st' : pstate) : room c st -> shape R st' = shape R st -> room c st' /\ length (plin st') = length (plin st).
Proof. intros H S. injection S as E1 E2 E3 E4. unfold room. rewrite E1, E2, E3, E4. split; [exact H|reflexivity]. Qed.
Lemma room_share (st st' : pstate) lag pt1 pt2 : room c st -> proveReShare R c st lag pt1 pt2 = Ret st' -> room c st' /\ length (plin st') = length (plin st).
Proof.
  intros H Q. destruct (C50_state R c _ _ _ _ _ Q) as (E1 & _ & E2). apply room_shape; [exact H|]. rewrite E1. unfold shape. cbn. rewrite E2. reflexivity.
Qed.

Hypothesis Hlib : good_libs R c.
Lemma ternaryE_ub m label n k : (0 < n)%nat -> (4 <= n)%nat -> ~ Nat.divide 4 k -> ternaryE (ell := ell) R m label n k = UB.
Proof.
  intros Hn H4 Hk. destruct Hlib as (Hb & Hx & _). pose proof Hc as (He & _).
  destruct (newTernaryEMatrix_ok (fun b => fst (rm_bytes R m label b)) (fun k => Hx m label k) (fun k => Hb m label k) ell n k He Hn) as [_ [_ H]].
  assert (S : (1 <= slack k)%nat).
  { unfold slack. pose proof (Nat.mod_upper_bound k 4 ltac:(lia)). destruct (Nat.eq_dec (k mod 4) 0) as [Q|Q].
    - exfalso. apply Hk. now apply Nat.mod_divide.
    - rewrite (Nat.mod_small (4 - k mod 4)) by lia. lia. }
  specialize (H ltac:(nia)). unfold ternaryE, newTernaryEMatrix in *. cbv zeta. cbv beta in H. rewrite H. reflexivity.
Qed.
Lemma enc_ub (st : pstate) rnd ct1 ct2 ptxt er noise1 noise2 : room c st -> (4 <= jl c)%nat -> ~ (Nat.divide 4 (Kay c) /\ Nat.divide 4 (Enn c)) ->
  length ptxt = Enn c -> length er = Kay c -> proveEncryption R c st rnd ct1 ct2 ptxt er noise1 noise2 = UB.
Proof.
  intros Hroom HJ H4 L1 L2. assert (S0 : shape R st = shape R st) by reflexivity.
  assert (Ht : 0 < enn (cgk c)) by apply Hc. assert (Hk : 0 < kay (cgk c)) by apply Hc.
  unfold proveEncryption.
  destruct (comS_ok R c Hc st Hroom st Pt2 ptxt (rnd Pt2) S0 ltac:(discriminate) ltac:(lens)) as (s1 & E1 & Sh1 & Pm1 & Pc1). bnd E1.
  destruct (comE_ok R c Hc st Hroom s1 RR er (rnd RR) Sh1 ltac:(discriminate) ltac:(lens)) as (s2 & E2 & Sh2 & Pm2 & Pc2 & Po2). bnd E2.
  cbv zeta.
  assert (D : Nat.divide 4 (Kay c) \/ ~ Nat.divide 4 (Kay c)).
  { destruct (Nat.eq_dec (Kay c mod 4) 0) as [Q|Q]; [left; now apply Nat.mod_divide|right; intros Q'; apply Q; now apply Nat.mod_divide]. }
  destruct D as [D|D].
  - match goal with |- context [ternaryE R ?m ?l ?a (Kay c)] => destruct (ternaryE_ok R c Hc Hlib m l a (Kay c) ltac:(lia) D) as (X1 & m1 & f1 & EX1 & _); bnd EX1 end.
    rewrite ternaryE_ub by (try lia; intros D'; exact (H4 (conj D D'))). reflexivity.
  - rewrite ternaryE_ub by (try lia; assumption). reflexivity.
Qed.

Hypothesis Hsq : jl_sqrt c.
Lemma steps_total (st : pstate) i : room c st -> (7 * ell + length (cHm c) <= length (plin st))%nat ->
  Nat.divide 4 (jl c) -> Nat.divide 4 (LINYDIM c / ell) -> Nat.divide 4 (Kay c) -> Nat.divide 4 (Enn c) ->
  key_dims c -> round_dims c i -> (i_pk i < Enn c)%nat -> length (i_lag i) = Tee c -> cHm c <> [] ->
  Forall (fun r => length r = S (Enn c)) (cHm c) ->
  (exists st', proofSteps R c st i = Ret st' /\ room c st' /\ length (plin st') = length (plin st)) \/ proofSteps R c st i = Throw.
Proof.
  intros Hr Hl HJ HL HK HN Hkd (D1 & D2 & D3 & D4 & D5) Hpk Hlag Hm Hm2. unfold proofSteps.
  assert (Ht : 0 < tee (cgk c)) by apply Hc. assert (He : 0 < enn (cgk c)) by apply Hc.
  destruct (dec_ret R c Hc Hlib Hsq st Hr (i_rnd i) _ _ _ _ _ HJ D1) as (X1 & m1 & f1 & _ & _ & A1 & A2).
  match type of A1 with ?P -> _ => assert (Q : P \/ ~ P) by exact (hi_fits_dec c Hc _ _ _) end. destruct Q as [Q|Q]; [|rewrite (A2 Q); now right].
  destruct (A1 Q) as (s1 & -> & Sh1). cbn [obind]. clear A1 A2 Q X1 m1 f1. destruct (room_shape _ _ Hr Sh1) as [Hr1 Hl1]. clear Sh1.
  destruct (enc_ret R c Hc Hlib Hsq s1 Hr1 (i_rnd i) _ _ _ _ _ _ HK HN Hkd D2) as (X1 & m1 & f1 & X2 & m2 & f2 & X3 & m3 & f3 & _ & _ & _ & _ & _ & _ & A1 & A2).
  match type of A1 with ?P /\ ?P2 /\ ?P3 -> _ => assert (Q : (P /\ P2 /\ P3) \/ ~ (P /\ P2 /\ P3)) by
   (destruct (fits_dec c Hc (B_r c) (compR (Kay c) (i_er i) f3)); destruct (hi_fits_dec c Hc (B_eNoise1 c) (kk c) (compR (Kay c) (i_n1 i) f1)); destruct (hi_fits_dec c Hc (B_eNoise2 c) (nn c) (compR (Enn c) (i_n2 i) f2)); tauto) end.
  destruct Q as [Q|Q]; [|rewrite (A2 Q); now right].
  destruct (A1 Q) as (s2 & -> & Sh1). cbn [obind]. clear A1 A2 Q X1 m1 f1. destruct (room_shape _ _ Hr1 Sh1) as [Hr2 Hl2]. clear Sh1.
  destruct (key_ret R c Hc Hlib Hsq s2 Hr2 (i_rnd i) _ _ _ HJ Hkd Hpk D4 D3) as (X1 & m1 & f1 & X4 & m4 & f4 & _ & _ & _ & _ & A1 & A2).
  match type of A1 with ?P /\ ?P2 -> _ => assert (Q : (P /\ P2) \/ ~ (P /\ P2)) by
   (destruct (fits_dec c Hc (B_sk c) (compL (Kay c) (i_sk2 i) f4)); destruct (hi_fits_dec c Hc (B_kNoise c) (kk c) (compL (Kay c) (i_kn i) f1)); tauto) end.
  destruct Q as [Q|Q]; [|rewrite (A2 Q); now right].
  destruct (A1 Q) as (s3 & -> & Sh1). cbn [obind]. clear A1 A2 Q X1 m1 f1. destruct (room_shape _ _ Hr2 Sh1) as [Hr3 Hl3]. clear Sh1.
  destruct (C50_succeeds R c s3 (i_lag i) (i_pt1 i) (i_pt2 i) Ht He ltac:(apply D1) Hlag ltac:(apply D2) Hm Hm2) as (s4 & Q4).
  { unfold reShrLin. lia. }
  rewrite Q4. cbn [obind]. destruct (room_share _ _ _ _ _ Hr3 Q4) as [Hr4 Hl4].
  pose proof (sml_ret R c Hc Hlib HL s4 Hr4 (i_ys i) (i_rs i) D5) as [A1 A2].
  destruct (loop_ok R c Hc Hlib HL s4 Hr4 (i_ys i) (i_rs i) 100 D5 0%nat s4 eq_refl eq_refl eq_refl) as [[(t & T1 & T2) _]|[N _]].
  - destruct (A1 (ex_intro _ t (conj (proj2 T1) T2))) as (s5 & -> & Sh5). destruct (room_shape _ _ Hr4 Sh5) as [Hr5 Hl5].
    left. exists s5. split; [reflexivity|]. split; [exact Hr5|congruence].
  - right. apply A2. intros (t & T1 & T2). apply N. exists t. split; [lia|exact T2].
Qed.
End A.
