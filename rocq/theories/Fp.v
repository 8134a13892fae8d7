(** The prime field Z_p with Leibniz equality.  It models the values of
    CRV25519::Scalar (/repo/include/scalar25519.hpp lines 46-144) and of
    ALGEBRA::Scalar = NTL::ZZ_p (/repo/include/algebra.hpp).  Only reduced
    representatives exist in this type; the byte level (where unreduced
    values are possible) is modelled in Scalar25519Model.v. *)
From Coq Require Import ZArith Znumtheory List Lia Bool Eqdep_dec Field Ring.
From Verif Require Import Outcome NumTheory.
Import ListNotations.
Open Scope Z_scope.

Record Fp (p : Z) := mkFp { fval : Z; fcanon : (fval mod p =? fval) = true }.
Arguments fval {p} _.
Arguments fcanon {p} _.

Lemma toF_canon p z : ((z mod p) mod p =? z mod p) = true.
Proof. rewrite Zmod_mod. apply Z.eqb_refl. Qed.

Definition toF (p z : Z) : Fp p := mkFp p (z mod p) (toF_canon p z).

Lemma Fp_eq p (a b : Fp p) : fval a = fval b -> a = b.
Proof.
  destruct a as [a Ha], b as [b Hb]; cbn. intros ->.
  f_equal. apply UIP_dec. apply bool_dec.
Qed.

Lemma Fp_eq_iff p (a b : Fp p) : a = b <-> fval a = fval b.
Proof. split; [now intros ->|apply Fp_eq]. Qed.

Lemma fval_mod p (a : Fp p) : fval a mod p = fval a.
Proof. apply Z.eqb_eq, fcanon. Qed.

Lemma fval_toF p z : fval (toF p z) = z mod p.
Proof. reflexivity. Qed.

Lemma toF_fval p (a : Fp p) : toF p (fval a) = a.
Proof. apply Fp_eq. cbn. apply fval_mod. Qed.

Lemma fval_range p (a : Fp p) : 0 < p -> 0 <= fval a < p.
Proof. intros H. rewrite <- fval_mod. now apply Z.mod_pos_bound. Qed.

Lemma toF_eq_iff p a b : toF p a = toF p b <-> a mod p = b mod p.
Proof. rewrite Fp_eq_iff. reflexivity. Qed.

Section Ops.
Context {p : Z}.
Definition f0 : Fp p := toF p 0.
Definition f1 : Fp p := toF p 1.
Definition fadd (a b : Fp p) : Fp p := toF p (fval a + fval b).
Definition fsub (a b : Fp p) : Fp p := toF p (fval a - fval b).
Definition fmul (a b : Fp p) : Fp p := toF p (fval a * fval b).
Definition fopp (a : Fp p) : Fp p := toF p (- fval a).
(** Inverse by Fermat exponentiation; [finv f0 = f0], the code's exception on
    zero is modelled by [finvert]. *)
Definition finv (a : Fp p) : Fp p := toF p (powmod (fval a) (Z.to_pos (p - 2)) p).
Definition fdiv (a b : Fp p) : Fp p := fmul a (finv b).
Definition feqb (a b : Fp p) : bool := fval a =? fval b.

Fixpoint fpow (a : Fp p) (n : nat) : Fp p :=
  match n with O => f1 | S k => fmul a (fpow a k) end.

(** Scalar::invert, scalar25519.hpp lines 69-75: throws on zero. *)
Definition finvert (a : Fp p) : outcome (Fp p) :=
  if feqb a f0 then Throw else Ret (finv a).
End Ops.

Arguments f0 {p} : simpl never.
Arguments f1 {p} : simpl never.
Arguments fadd {p} _ _ : simpl never.
Arguments fsub {p} _ _ : simpl never.
Arguments fmul {p} _ _ : simpl never.
Arguments fopp {p} _ : simpl never.
Arguments finv {p} _ : simpl never.
Arguments fdiv {p} _ _ : simpl never.
Arguments feqb {p} _ _ : simpl never.
Arguments finvert {p} _ : simpl never.

Declare Scope fp_scope.
Delimit Scope fp_scope with F.
Bind Scope fp_scope with Fp.
Notation "a + b" := (fadd a b) : fp_scope.
Notation "a - b" := (fsub a b) : fp_scope.
Notation "a * b" := (fmul a b) : fp_scope.
Notation "a / b" := (fdiv a b) : fp_scope.
Notation "- a" := (fopp a) : fp_scope.
Notation "a ^ n" := (fpow a n) : fp_scope.
Notation "0" := f0 : fp_scope.
Notation "1" := f1 : fp_scope.

Section Laws.
Context {p : Z}.
Implicit Types a b c : Fp p.
Local Open Scope fp_scope.

Lemma feqb_eq a b : feqb a b = true <-> a = b.
Proof. unfold feqb. rewrite Z.eqb_eq. symmetry. apply Fp_eq_iff. Qed.
Lemma feqb_refl a : feqb a a = true.
Proof. now apply feqb_eq. Qed.
Lemma feqb_neq a b : feqb a b = false <-> a <> b.
Proof. rewrite <- not_true_iff_false, feqb_eq. reflexivity. Qed.
Lemma fp_dec a b : {a = b} + {a <> b}.
Proof.
  destruct (feqb a b) eqn:E; [left; now apply feqb_eq|right; now apply feqb_neq].
Defined.

Ltac fpsolve :=
  intros; apply Fp_eq; unfold fadd, fsub, fmul, fopp, f0, f1; rewrite ?fval_toF;
  rewrite ?Zplus_mod_idemp_l, ?Zplus_mod_idemp_r,
          ?Zminus_mod_idemp_l, ?Zminus_mod_idemp_r,
          ?Zmult_mod_idemp_l, ?Zmult_mod_idemp_r.

Lemma fadd_0_l a : 0 + a = a.
Proof. fpsolve. cbn. apply fval_mod. Qed.
Lemma fadd_comm a b : a + b = b + a.
Proof. fpsolve. apply f_equal2; [ring|reflexivity]. Qed.
Lemma fadd_assoc a b c : a + (b + c) = a + b + c.
Proof. fpsolve. apply f_equal2; [ring|reflexivity]. Qed.
Lemma fmul_1_l a : 1 * a = a.
Proof.
  fpsolve. rewrite Z.mul_1_l. apply fval_mod.
Qed.
Lemma fmul_comm a b : a * b = b * a.
Proof. fpsolve. apply f_equal2; [ring|reflexivity]. Qed.
Lemma fmul_assoc a b c : a * (b * c) = a * b * c.
Proof. fpsolve. apply f_equal2; [ring|reflexivity]. Qed.
Lemma fdistr_l a b c : (a + b) * c = a * c + b * c.
Proof. fpsolve. apply f_equal2; [ring|reflexivity]. Qed.
Lemma fsub_def a b : a - b = a + - b.
Proof. fpsolve. apply f_equal2; [ring|reflexivity]. Qed.
Lemma fopp_def a : a + - a = 0.
Proof. fpsolve. apply f_equal2; [ring|reflexivity]. Qed.

Lemma Fp_ring : ring_theory (@f0 p) f1 fadd fmul fsub fopp (@eq (Fp p)).
Proof.
  constructor.
  - exact fadd_0_l.
  - exact fadd_comm.
  - exact fadd_assoc.
  - exact fmul_1_l.
  - exact fmul_comm.
  - exact fmul_assoc.
  - exact fdistr_l.
  - exact fsub_def.
  - exact fopp_def.
Qed.

Add Ring FpR : Fp_ring.

Lemma fsub_eq_0 a b : a - b = 0 <-> a = b.
Proof.
  split; intros H.
  - transitivity (a - b + b); [ring|]. rewrite H. ring.
  - rewrite H. ring.
Qed.

Lemma fadd_cancel_l a b c : a + b = a + c -> b = c.
Proof.
  intros H. transitivity (a + b - a); [ring|]. rewrite H. ring.
Qed.

Lemma toF_add x y : toF p (x + y)%Z = toF p x + toF p y.
Proof. unfold fadd. apply Fp_eq. cbn. now rewrite <- Zplus_mod. Qed.
Lemma toF_mul x y : toF p (x * y)%Z = toF p x * toF p y.
Proof. unfold fmul. apply Fp_eq. cbn. now rewrite <- Zmult_mod. Qed.
Lemma toF_opp x : toF p (- x)%Z = - toF p x.
Proof.
  unfold fopp. apply Fp_eq. cbn. rewrite <- (Z.sub_0_l (x mod p)), Zminus_mod_idemp_r.
  f_equal.
Qed.
Lemma toF_sub x y : toF p (x - y)%Z = toF p x - toF p y.
Proof. rewrite fsub_def, <- toF_opp, <- toF_add. reflexivity. Qed.
Lemma toF_0_iff x : p <> 0%Z -> (toF p x = 0 <-> (p | x)%Z).
Proof.
  intros Hp. unfold f0. rewrite toF_eq_iff, Zmod_0_l. apply Z.mod_divide. exact Hp.
Qed.
End Laws.

Section Field.
Context {p : Z} (Hp : prime p).
Implicit Types a b c : Fp p.
Local Open Scope fp_scope.

Lemma p_ge_2 : (2 <= p)%Z.
Proof. now apply prime_ge_2. Qed.

Lemma f1_neq_0 : (@f1 p) <> 0.
Proof.
  pose proof p_ge_2. intros H0. apply Fp_eq_iff in H0. unfold f0, f1 in H0. rewrite !fval_toF in H0.
  rewrite Zmod_0_l, Z.mod_small in H0 by lia. lia.
Qed.

Lemma fval_0_iff a : a = 0 <-> fval a = 0%Z.
Proof. rewrite Fp_eq_iff. unfold f0. rewrite fval_toF, Zmod_0_l. reflexivity. Qed.

Lemma finv_l a : a <> 0 -> finv a * a = 1.
Proof.
  pose proof p_ge_2. intros Ha. rewrite fval_0_iff in Ha.
  pose proof (fval_range p a ltac:(lia)).
  apply Fp_eq. unfold fmul, finv, f1. cbn [fval toF].
  rewrite powmod_spec.
  rewrite Zmod_mod, Zmult_mod_idemp_l.
  assert (Hnd : ~ (p | fval a)%Z) by (intros Hd; apply Z.divide_pos_le in Hd; lia).
  rewrite (Z.mod_small 1 p) by lia.
  destruct (Z.eq_dec p 2) as [He|He].
  - assert (fval a = 1)%Z as -> by lia. rewrite He. reflexivity.
  - rewrite <- (fermat_little p (fval a) Hp Hnd). f_equal.
    rewrite Z2Pos.id by lia.
    replace (p - 1)%Z with (Z.succ (p - 2))%Z by lia.
    rewrite Z.pow_succ_r by lia. ring.
Qed.

Lemma Fp_field : field_theory (@f0 p) f1 fadd fmul fsub fopp fdiv finv (@eq (Fp p)).
Proof.
  constructor.
  - exact Fp_ring.
  - exact f1_neq_0.
  - reflexivity.
  - exact finv_l.
Qed.

Add Field FpF : Fp_field.

Lemma fmul_eq_0 a b : a * b = 0 -> a = 0 \/ b = 0.
Proof.
  intros H. destruct (fp_dec a 0) as [|Ha]; [now left|right].
  transitivity (finv a * (a * b)).
  - field. exact Ha.
  - rewrite H. ring.
Qed.

Lemma fmul_neq_0 a b : a <> 0 -> b <> 0 -> a * b <> 0.
Proof. intros Ha Hb H. apply fmul_eq_0 in H. tauto. Qed.

Lemma finv_neq_0 a : a <> 0 -> finv a <> 0.
Proof.
  intros Ha H. apply f1_neq_0. rewrite <- (finv_l a Ha), H. ring.
Qed.

Lemma fmul_cancel_l a b c : a <> 0 -> a * b = a * c -> b = c.
Proof.
  intros Ha H. apply fsub_eq_0. assert (H' : a * (b - c) = 0).
  { transitivity (a * b - a * c); [ring|]. rewrite H. ring. }
  apply fmul_eq_0 in H'. tauto.
Qed.

Lemma fpow_neq_0 a n : a <> 0 -> a ^ n <> 0.
Proof.
  intros Ha. induction n; cbn; [apply f1_neq_0|now apply fmul_neq_0].
Qed.
End Field.

Lemma finvert_ret {p} (Hp : prime p) (a b : Fp p) :
  finvert a = Ret b <-> a <> f0 /\ b = finv a.
Proof.
  unfold finvert. destruct (feqb a f0) eqn:E.
  - apply feqb_eq in E. split; [discriminate|]. intros [H _]. contradiction.
  - apply feqb_neq in E. split; [intros H; injection H as <-; tauto|intros [_ ->]; reflexivity].
Qed.

Lemma finvert_throw {p} (a : Fp p) : finvert a = Throw <-> a = f0.
Proof.
  unfold finvert. destruct (feqb a f0) eqn:E.
  - apply feqb_eq in E. tauto.
  - apply feqb_neq in E. split; [discriminate|contradiction].
Qed.
