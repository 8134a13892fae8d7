(** Properties C79-C81: how likely are lucky challenges; norms modulo p. *)
From Coq Require Import ZArith Znumtheory List Lia Bool Ring.
From Verif Require Import Outcome Fp FSum GroupMod Ring Prime25519 TernaryModel TernarySpec AlgebraModel AlgebraSpec AlgebraProofs AlgebraProofs AlgebraMore ConstraintsModel ConstraintsSpec BulletproofModel RegevModel
  RegevPfModel RegevPfSpec RegevPfLin RegevStSpec CountSpec CountProofs CountTernary CountTrans CountPow StepSpec StepSound NormInt PropRegev.
Import ListNotations.
Open Scope Z_scope.
Add Ring PCf : (@Fp_ring P25519).

(** ** C79: compression with a ternary matrix *)
(** [strings n] lists every string of n bytes once, so count f (strings n)/256^n
    is the probability of f over a uniform challenge. *)
Theorem C79_uniform n : NoDup (strings n) /\ Z.of_nat (length (strings n)) = 256 ^ Z.of_nat n /\
  forall s, In s (strings n) <-> length s = n /\ Forall (fun b => 0 <= b < 256) s.
Proof. split; [apply strings_NoDup|]. split; [apply strings_length|]. apply in_strings. Qed.
Print Assumptions C79_uniform.
(** The full claim has 2^(ell*m), one factor 1/2 per scalar of the reply. *)
Theorem C79_partial : forall p ell B (v y : list (elt p ell)) q i c z, 2 <= p -> (0 < ell)%nat ->
  (i < length v)%nat -> (c < ell)%nat -> length y = (4 * q)%nat -> is_balanced (coeff (nth i v e0) c) z -> 2 * B < Z.abs z ->
  let n := (ell * ((length v * (4 * q) + 3) / 4))%nat in
  2 ^ Z.of_nat (4 * q) * count (reply_ok B v y (4 * q)) (strings n) <= 256 ^ Z.of_nat n.
Proof. intros p ell B v y q i c z Hp He Hi Hc Hy Hz HB n. exact (reply_fraction Hp He B v y q i c z Hi Hc Hy Hz HB). Qed.
Print Assumptions C79_partial.
Theorem C79_right_partial : forall p ell B (v y : list (elt p ell)) m q i c z, 2 <= p -> (0 < ell)%nat -> (0 < m)%nat ->
  length v = (4 * q)%nat -> (i < length v)%nat -> (c < ell)%nat -> length y = m -> is_balanced (coeff (nth i v e0) c) z -> 2 * B < Z.abs z ->
  let n := (ell * ((m * length v + 3) / 4))%nat in
  2 ^ Z.of_nat m * count (reply_okT B v y m) (strings n) <= 256 ^ Z.of_nat n.
Proof. intros p ell B v y m q i c z Hp He Hm Hv Hi Hc Hy Hz HB n. exact (replyT_fraction Hp He B v y m q i c z Hm Hv Hi Hc Hy Hz HB). Qed.
Print Assumptions C79_right_partial.
(** The full claim is false: with all coefficients (p+1)/2 the two coefficients
    of a column are small for the same challenges. 2m = LINYDIM. *)
Theorem C79_refuted : forall B q, 1 <= B -> 4 * B < P25519 - 1 -> (0 < q)%nat ->
  exists (v y : list (elt P25519 2)) z, length v = 1%nat /\ length y = (4 * q)%nat /\
    is_balanced (coeff (nth 0 v e0) 0) z /\ 2 * B < Z.abs z /\
    let n := (2 * ((1 * (4 * q) + 3) / 4))%nat in
    2 ^ Z.of_nat (4 * q) * count (reply_ok B v y (4 * q)) (strings n) = 256 ^ Z.of_nat n /\
    ~ 2 ^ Z.of_nat (2 * (4 * q)) * count (reply_ok B v y (4 * q)) (strings n) <= 256 ^ Z.of_nat n.
Proof.
  intros B q HB HBp Hq. assert (H3 : 3 <= P25519) by (vm_compute; discriminate). assert (Ho : P25519 mod 2 = 1) by (vm_compute; reflexivity).
  exists [halfX], (repeat e0 (4 * q)), (- ((P25519 - 1) / 2)). split; [reflexivity|]. split; [apply repeat_length|].
  assert (D : (P25519 - 1) / 2 * 2 = P25519 - 1) by (vm_compute; reflexivity).
  split; [|split; [lia|]].
  - unfold halfX. cbn [nth]. rewrite coeff_mkE. change (0 <? 2)%nat with true. cbv iota. unfold half. split; [|lia].
    apply toF_eq_iff. vm_compute. reflexivity.
  - intros n. assert (T : 2 ^ Z.of_nat (4 * q) * count (reply_ok (p := P25519) B [halfX] (repeat e0 (4 * q)) (4 * q)) (strings n) = 256 ^ Z.of_nat n).
    { apply (half_fraction H3 Ho B q); lia. }
    split; [exact T|]. replace (Z.of_nat (2 * (4 * q))) with (Z.of_nat (4 * q) + Z.of_nat (4 * q)) by lia.
    rewrite Z.pow_add_r by lia. rewrite <- Z.mul_assoc, T. assert (0 < 256 ^ Z.of_nat n) by (apply Z.pow_pos_nonneg; lia).
    assert (2 ^ 1 <= 2 ^ Z.of_nat (4 * q)) by (apply Z.pow_le_mono_r; lia). intros K. nia.
Qed.
Print Assumptions C79_refuted.
(** 5 in Z_101[X]/(X+1) with B = 2 and one byte of challenge (m = 4): 16 of the 256
    strings pass, as many as the theorem allows. *)
Example C79_example : let e := mkE (p := 101) 1 (fun _ => toF 101 5) in
  is_balanced (coeff (nth 0 [e] e0) 0) 5 /\
  count (reply_ok 2 [e] (repeat e0 4) 4) (strings (1 * ((1 * 4 + 3) / 4))) = 16.
Proof. split; [split; [apply Fp_eq; vm_compute; reflexivity|lia]|]. vm_compute. reflexivity. Qed.

(** ** C80: compression with the powers of a challenge *)
Lemma im_sq : (toF P25519 im * toF P25519 im = - (1))%F.
Proof. apply Fp_eq. vm_compute. reflexivity. Qed.
Theorem C80_partial : forall m (a : nat -> elt P25519 2) xs, NoDup xs -> (forall x, In x xs -> vanishes m a x) ->
  Z.of_nat (length xs) <= Z.max 0 (Z.of_nat m - 1) * P25519.
Proof.
  intros m a xs ND H. destruct xs as [|x xs]; [change (Z.of_nat (length [])) with 0; assert (0 <= P25519) by (vm_compute; discriminate); nia|]. pose proof (H x (or_introl eq_refl)) as [Hne _]. pose proof Hne as [j [Hj _]].
  rewrite Z.max_r by lia. apply (power_roots P25519_is_prime ltac:(vm_compute; discriminate) _ im_sq m a (x :: xs) ND Hne).
  apply Forall_forall. intros y Hy. apply (H y Hy).
Qed.
Print Assumptions C80_partial.
(** Fewer than m roots is what an integral domain would give; here P of them for
    m = 2, so the bound above is attained. *)
Theorem C80_refuted : exists (a : nat -> elt P25519 2) xs, NoDup xs /\ (forall x, In x xs -> vanishes 2 a x) /\ Z.of_nat (length xs) = P25519.
Proof.
  set (u := esub (eX 1) (econst (toF P25519 im)) : elt P25519 2). set (b := eadd (eX 1) (econst (toF P25519 im)) : elt P25519 2).
  assert (Hu : emul b u = e0) by (apply coeff_ext; intros [|[|i]] Hi; [| |lia]; apply Fp_eq; vm_compute; reflexivity).
  assert (Nu : u <> e0) by (intros H; apply (f_equal (fun z => fval (coeff z 0))) in H; vm_compute in H; discriminate H).
  destruct (multiples (p := P25519) ltac:(vm_compute; discriminate) 2 b 1) as [N L]; [apply Fp_eq; vm_compute; reflexivity|].
  exists (fun j => if Nat.eqb j 0 then e0 else u), (map (fun k => escale (toF P25519 (Z.of_nat k)) b) (seq 0 (Z.to_nat P25519))).
  split; [exact N|]. split; [|exact L]. intros x Hx. apply in_map_iff in Hx as (k & <- & _). split.
  - exists 1%nat. split; [lia|exact Nu].
  - unfold sumE. cbn [seq map esum Nat.eqb epow]. set (s := toF P25519 (Z.of_nat k)).
    assert (E : emul (emul (escale s b) e1) u = e0).
    { rewrite (emul_comm _ e1), emul_1_l by lia. rewrite emul_scale_l, Hu. apply escale_0_r. }
    rewrite E. rewrite emul_1_l by lia. apply coeff_ext. intros i Hi. rewrite !coeff_eadd, !coeff_e0. unfold f0. rewrite <- !toF_add. reflexivity.
Qed.
Print Assumptions C80_refuted.
(** a0 + a1 x = 0 with a0 = -2, a1 = 1 holds at x = 2. *)
Example C80_example : vanishes 2 (fun j => if Nat.eqb j 0 then econst (toF P25519 (-2)) else e1 (ell := 2)) (econst (toF P25519 2)).
Proof.
  split.
  - exists 1%nat. split; [lia|]. intros H. apply (f_equal (fun z => fval (coeff z 0))) in H. vm_compute in H. discriminate H.
  - apply coeff_ext. intros [|[|i]] Hi; [| |lia]; apply Fp_eq; vm_compute; reflexivity.
Qed.

(** ** C81: norm constraints modulo p *)
(** If the entries are known to be small enough that the sum of squares does not
    wrap around, the norm constraint is one over the integers and bounds each entry. *)
Theorem C81_integers : forall p (q : quadcon p) (w : Z -> Fp p) S b, 2 <= p -> 0 <= S -> 0 <= b ->
  scalars_within S (fun k => In k (qidx q)) w -> Z.of_nat (length (qidx q)) * (S * S) < p -> b * b < p ->
  qeq q = toF p (b * b) -> quad_sat q w w ->
  sum_sq (map (fun k => balanced (w k)) (qidx q)) = b * b /\ scalars_within b (fun k => In k (qidx q)) w.
Proof. intros p q w S b Hp. exact (norm_integer Hp q w S b). Qed.
Print Assumptions C81_integers.
(** Without smallness the constraint bounds nothing: 1, a and a*sqrt(-1) satisfy
    the constraint with b = 1 for every a. *)
Theorem C81_needed : forall a, exists (q : quadcon P25519) (w : Z -> Fp P25519),
  NoDup (qidx q) /\ length (qidx q) = 3%nat /\ qeq q = toF P25519 (1 * 1) /\ quad_sat q w w /\ exists k, In k (qidx q) /\ w k = toF P25519 a.
Proof.
  intros a. exists (QuadCon [0; 1; 2] (toF P25519 (1 * 1))), (fun k => if k =? 0 then toF P25519 1 else if k =? 1 then toF P25519 a else (toF P25519 a * toF P25519 im)%F).
  split; [repeat constructor; cbn; intuition lia|]. split; [reflexivity|]. split; [reflexivity|]. split.
  - unfold quad_sat, quad_val. cbn [qidx qeq map fsum Z.eqb Pos.eqb].
    transitivity (toF P25519 1 * toF P25519 1 + toF P25519 a * toF P25519 a * (1 + toF P25519 im * toF P25519 im))%F; [ring|].
    rewrite im_sq. rewrite toF_mul. ring.
  - exists 1. split; [cbn; auto|reflexivity].
Qed.
Print Assumptions C81_needed.
Example C81_example : let q := QuadCon [3; 5; 6] (toF P25519 (7 * 7)) in let w := fun k => toF P25519 (if k =? 3 then 2 else if k =? 5 then -3 else 6) in
  scalars_within 10 (fun k => In k (qidx q)) w /\ Z.of_nat (length (qidx q)) * (10 * 10) < P25519 /\ 7 * 7 < P25519 /\ quad_sat q w w.
Proof.
  split; [|split; [vm_compute; reflexivity|split; [vm_compute; reflexivity|apply Fp_eq; vm_compute; reflexivity]]].
  intros k z Hk Hz. assert (Hp : 2 <= P25519) by (vm_compute; discriminate). rewrite <- (is_balanced_unique Hp _ _ _ (balanced_spec Hp _) Hz).
  destruct Hk as [<-|[<-|[<-|[]]]]; vm_compute; discriminate.
Qed.
