(** Compression by the powers of a challenge ring element. *)
From Coq Require Import ZArith Znumtheory Lia List Bool Arith.
From Verif Require Import Outcome Fp FSum Ring RegevPfSpec RegevPfLin.
Import ListNotations.
Open Scope Z_scope.

Section Pow.
Context {p : Z}.
Hypothesis Hp : prime p.
Hypothesis Hp2 : p <> 2.
Notation F := (Fp p).
Notation E := (elt p 2).
Variable r : F.
Hypothesis Hr : (r * r = - (1))%F.
Add Ring CPf : (@Fp_ring p).

(** Evaluation at a root of X^2 + 1. *)
Definition phi (s : F) (e : E) : F := (coeff e 0 + s * coeff e 1)%F.
Definition is_im (s : F) : Prop := (s * s = - (1))%F.
Lemma phi_add s a b : phi s (eadd a b) = (phi s a + phi s b)%F.
Proof. unfold phi. rewrite !coeff_eadd. ring. Qed.
Lemma phi_0 s : phi s e0 = f0.
Proof. unfold phi. rewrite !coeff_e0. ring. Qed.
Lemma phi_1 s : phi s e1 = f1.
Proof. unfold phi. rewrite !coeff_e1 by lia. cbn [Nat.eqb]. ring. Qed.
Lemma phi_mul s a b : is_im s -> phi s (emul a b) = (phi s a * phi s b)%F.
Proof.
  intros Hs. unfold phi, is_im in *. rewrite !coeff_emul by lia. cbn [seq map fsum fold_right Nat.leb Nat.ltb Nat.sub Nat.add].
  transitivity (coeff a 0 * coeff b 0 + s * (coeff a 0 * coeff b 1 + coeff a 1 * coeff b 0) + (- (1)) * (coeff a 1 * coeff b 1))%F; [ring|].
  rewrite <- Hs. ring.
Qed.
Lemma phi_pow s x k : is_im s -> phi s (epow x k) = fpow (phi s x) k.
Proof. intros Hs. induction k as [|k IH]; cbn [epow fpow]; [apply phi_1|]. now rewrite phi_mul, IH. Qed.
Lemma phi_comb s x m : is_im s -> forall a : nat -> E,
  phi s (sumE m (fun j => emul (epow x j) (a j))) = peval (map (fun j => phi s (a j)) (seq 0 m)) (phi s x).
Proof.
  intros Hs. induction m as [|m IH]; intros a; [apply phi_0|].
  rewrite sumE_S, phi_add. cbn [epow seq map peval]. rewrite emul_1_l by lia. f_equal.
  rewrite (sumE_ext m _ (fun j => emul x (emul (epow x j) (a (S j))))) by (intros; now rewrite emul_assoc).
  rewrite sumE_mul_l, phi_mul by assumption. f_equal. rewrite IH. now rewrite <- seq_shift, map_map.
Qed.
Lemma im_neq0 s : is_im s -> s <> f0.
Proof.
  unfold is_im. intros H ->. assert (H1 : (1 + 0 * 0)%F = f0 (p := p)) by (rewrite H; ring).
  apply (f_equal fval) in H1. pose proof (prime_ge_2 p Hp). unfold fadd, fmul, f1, f0 in H1. rewrite !fval_toF in H1.
  rewrite !Z.mod_0_l, (Z.mod_small 1) in H1 by lia. cbn in H1. rewrite ?Z.mod_0_l, ?Z.mod_small in H1 by lia. discriminate H1.
Qed.
Lemma two_neq0 : (1 + 1)%F <> f0 (p := p).
Proof.
  intros H. apply (f_equal fval) in H. pose proof (prime_ge_2 p Hp). unfold fadd, f1, f0 in H. rewrite !fval_toF in H.
  rewrite (Z.mod_small 1), Z.mod_0_l in H by lia. rewrite Z.mod_small in H by lia. discriminate H.
Qed.
(** An element is zero iff it vanishes at both roots. *)
Lemma phi_both s e : is_im s -> phi s e = f0 -> phi (- s)%F e = f0 -> e = e0.
Proof.
  intros Hs H1 H2. unfold phi in *.
  assert (A : ((1 + 1) * coeff e 0 = 0)%F).
  { transitivity ((coeff e 0 + s * coeff e 1) + (coeff e 0 + - s * coeff e 1))%F; [ring|]. rewrite H1, H2. ring. }
  assert (B : ((1 + 1) * (s * coeff e 1) = 0)%F).
  { transitivity ((coeff e 0 + s * coeff e 1) - (coeff e 0 + - s * coeff e 1))%F; [ring|]. rewrite H1, H2. ring. }
  apply (fmul_eq_0 Hp) in A. apply (fmul_eq_0 Hp) in B.
  destruct A as [A|A]; [destruct (two_neq0 A)|]. destruct B as [B|B]; [destruct (two_neq0 B)|].
  apply (fmul_eq_0 Hp) in B. destruct B as [B|B]; [destruct (im_neq0 s Hs B)|].
  apply coeff_ext. intros [|[|i]] Hi; [| |lia]; now rewrite coeff_e0.
Qed.
Lemma im_opp s : is_im s -> is_im (- s)%F.
Proof. unfold is_im. intros H. rewrite <- H. ring. Qed.

(** All scalars. *)
Definition all_F : list F := map (fun k => toF p (Z.of_nat k)) (seq 0 (Z.to_nat p)).
Lemma in_all_F (s : F) : In s all_F.
Proof.
  unfold all_F. apply in_map_iff. exists (Z.to_nat (fval s)). pose proof (prime_ge_2 p Hp). pose proof (fval_range p s ltac:(lia)).
  rewrite Z2Nat.id by lia. split; [apply toF_fval|]. apply in_seq. lia.
Qed.
Lemma roots_at s m (a : nat -> E) xs : is_im s -> NoDup xs -> (exists j, (j < m)%nat /\ phi s (a j) <> f0) ->
  Forall (fun x => sumE m (fun j => emul (epow x j) (a j)) = e0) xs ->
  Z.of_nat (length xs) <= (Z.of_nat m - 1) * p.
Proof.
  intros Hs ND [j0 [Hj0 Ha]] HX. set (l := map (fun j => phi s (a j)) (seq 0 m)).
  set (rs := nodup fp_dec (map (phi s) xs)).
  assert (Hrs : (length rs < length l)%nat).
  { apply (root_bound Hp).
    - intros Z. apply Ha. unfold pzero, l in Z. rewrite Forall_forall in Z. apply Z. apply in_map_iff. exists j0. split; [reflexivity|]. apply in_seq. lia.
    - apply NoDup_nodup.
    - apply Forall_forall. intros t Ht. unfold rs in Ht. apply nodup_In in Ht. apply in_map_iff in Ht. destruct Ht as [x [<- Hx]].
      rewrite Forall_forall in HX. unfold l. rewrite <- phi_comb by assumption. rewrite (HX x Hx). apply phi_0. }
  unfold l in Hrs. rewrite map_length, seq_length in Hrs.
  set (key := fun x : E => (phi s x, coeff x 1)).
  assert (ND' : NoDup (map key xs)).
  { clear -ND. induction ND as [|x xs Hx ND IH]; cbn; constructor; [|assumption].
    intros H. apply in_map_iff in H. destruct H as [y [E Hy]]. pose proof (f_equal fst E) as E1. pose proof (f_equal snd E) as E2. cbn [fst snd key] in E1, E2. apply Hx.
    replace x with y; [assumption|]. apply coeff_ext. unfold phi in E1. rewrite E2 in E1.
    intros [|[|i]] Hi; [|assumption|lia].
    transitivity (coeff y 0 + s * coeff x 1 - s * coeff x 1)%F; [ring|]. rewrite E1. ring. }
  assert (Hlen : (length (map key xs) <= length (list_prod rs all_F))%nat).
  { apply NoDup_incl_length; [assumption|]. intros [t u] H. apply in_map_iff in H. destruct H as [x [E Hx]]. assert (E1 : t = phi s x) by (symmetry; exact (f_equal fst E)). subst t.
    apply in_prod; [|apply in_all_F]. unfold rs. apply nodup_In. now apply in_map. }
  rewrite map_length, prod_length in Hlen. unfold all_F in Hlen. rewrite map_length, seq_length in Hlen.
  pose proof (prime_ge_2 p Hp). nia.
Qed.
Theorem power_roots m (a : nat -> E) xs : NoDup xs -> (exists j, (j < m)%nat /\ a j <> e0) ->
  Forall (fun x => sumE m (fun j => emul (epow x j) (a j)) = e0) xs ->
  Z.of_nat (length xs) <= (Z.of_nat m - 1) * p.
Proof.
  intros ND [j [Hj Ha]] HX. destruct (fp_dec (phi r (a j)) f0) as [Z1|Z1].
  - destruct (fp_dec (phi (- r)%F (a j)) f0) as [Z2|Z2]; [destruct (Ha (phi_both r _ Hr Z1 Z2))|].
    apply (roots_at (- r)%F m a xs (im_opp r Hr) ND); [eauto|assumption].
  - apply (roots_at r m a xs Hr ND); [eauto|assumption].
Qed.
End Pow.

(** As many roots as p, for a linear polynomial. *)
Section Tight.
Context {p : Z}.
Hypothesis Hp : 2 <= p.
Lemma NoDup_map_on {A B} (f : A -> B) l : NoDup l -> (forall x y, In x l -> In y l -> f x = f y -> x = y) -> NoDup (map f l).
Proof.
  induction l as [|a l IH]; intros ND H; [constructor|]. inversion ND; subst. cbn. constructor.
  - intros K. apply in_map_iff in K as (b & E & Hb). assert (b = a) by (apply H; cbn; auto). congruence.
  - apply IH; [assumption|]. intros x y Hx Hy. apply H; cbn; auto.
Qed.
Lemma multiples ell (b : elt p ell) k0 : coeff b k0 = toF p 1 ->
  let xs := map (fun k => escale (toF p (Z.of_nat k)) b) (seq 0 (Z.to_nat p)) in NoDup xs /\ Z.of_nat (length xs) = p.
Proof.
  intros Hb xs. split.
  - apply NoDup_map_on; [apply seq_NoDup|]. intros x y Hx Hy E. apply in_seq in Hx, Hy. apply (f_equal (fun e => coeff e k0)) in E.
    rewrite !coeff_escale, Hb, <- !toF_mul, !Z.mul_1_r in E. apply (f_equal fval) in E. rewrite !fval_toF, !Z.mod_small in E by lia. lia.
  - unfold xs. rewrite map_length, seq_length. lia.
Qed.
End Tight.
