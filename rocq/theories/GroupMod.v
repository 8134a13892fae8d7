(** Z_p-modules.  The curve group of /repo/include/point25519.hpp is modelled
    by an arbitrary structure of this kind (trusted: libsodium implements the
    prime-order subgroup of edwards25519, which is such a module for p = P).
    Contains a small reflective decision procedure for module identities. *)
From Coq Require Import ZArith Znumtheory List Lia Bool Ring.
From Verif Require Import Outcome Fp.
Import ListNotations.

Record gmod (p : Z) := GMod {
  gcar :> Type;
  gzero : gcar;
  gadd : gcar -> gcar -> gcar;
  gopp : gcar -> gcar;
  gmul : gcar -> Fp p -> gcar;
  geqb : gcar -> gcar -> bool;
  gadd_comm : forall a b, gadd a b = gadd b a;
  gadd_assoc : forall a b c, gadd a (gadd b c) = gadd (gadd a b) c;
  gadd_0_l : forall a, gadd gzero a = a;
  gopp_r : forall a, gadd a (gopp a) = gzero;
  gmul_add_r : forall g a b, gmul g (a + b)%F = gadd (gmul g a) (gmul g b);
  gmul_add_l : forall g h a, gmul (gadd g h) a = gadd (gmul g a) (gmul h a);
  gmul_mul : forall g a b, gmul (gmul g a) b = gmul g (a * b)%F;
  gmul_1 : forall g, gmul g f1 = g;
  geqb_eq : forall a b, geqb a b = true <-> a = b
}.
Arguments gzero {p g0} : rename.
Arguments gadd {p g0} _ _ : rename.
Arguments gopp {p g0} _ : rename.
Arguments gmul {p g0} _ _ : rename.
Arguments geqb {p g0} _ _ : rename.
Arguments gadd_comm {p g0} _ _ : rename.
Arguments gadd_assoc {p g0} _ _ _ : rename.
Arguments gadd_0_l {p g0} _ : rename.
Arguments gopp_r {p g0} _ : rename.
Arguments gmul_add_r {p g0} _ _ _ : rename.
Arguments gmul_add_l {p g0} _ _ _ : rename.
Arguments gmul_mul {p g0} _ _ _ : rename.
Arguments gmul_1 {p g0} _ : rename.
Arguments geqb_eq {p g0} _ _ : rename.

Declare Scope g_scope.
Delimit Scope g_scope with G.
Bind Scope g_scope with gcar.
Notation "a + b" := (gadd a b) : g_scope.
Notation "- a" := (gopp a) : g_scope.
Notation "a - b" := (gadd a (gopp b)) : g_scope.
Notation "g * a" := (gmul g a%F) : g_scope.
Notation "0" := gzero : g_scope.

Section ModTheory.
Context {p : Z} {G : gmod p}.
Implicit Types g h : G.
Local Open Scope g_scope.
Add Ring FpR : (@Fp_ring p).

Lemma gadd_0_r g : g + 0 = g.
Proof. rewrite gadd_comm. apply gadd_0_l. Qed.
Lemma gopp_l g : - g + g = 0.
Proof. rewrite gadd_comm. apply gopp_r. Qed.
Lemma gadd_cancel_l g h h' : g + h = g + h' -> h = h'.
Proof.
  intros H. rewrite <- (gadd_0_l h), <- (gadd_0_l h'), <- (gopp_l g).
  rewrite <- !gadd_assoc. now rewrite H.
Qed.
Lemma gmul_0_r g : g * f0 = 0.
Proof.
  apply (gadd_cancel_l (g * f0)). rewrite gadd_0_r, <- gmul_add_r.
  apply f_equal. ring.
Qed.
Lemma gmul_0_l a : gzero * a = (0 : G).
Proof.
  apply (gadd_cancel_l (gzero * a)). rewrite gadd_0_r, <- gmul_add_l.
  f_equal. apply gadd_0_l.
Qed.
Lemma gopp_unique g h : g + h = 0 -> h = - g.
Proof. intros H. apply (gadd_cancel_l g). now rewrite H, gopp_r. Qed.
Lemma gopp_mul g : - g = g * (- f1).
Proof.
  symmetry. apply gopp_unique. rewrite <- (gmul_1 g) at 1.
  rewrite <- gmul_add_r. replace (f1 + - f1)%F with (@f0 p) by ring. apply gmul_0_r.
Qed.
Lemma geqb_refl g : geqb g g = true.
Proof. now apply geqb_eq. Qed.
Lemma geqb_neq g h : geqb g h = false <-> g <> h.
Proof. rewrite <- not_true_iff_false, geqb_eq. reflexivity. Qed.
Lemma g_dec g h : {g = h} + {g <> h}.
Proof.
  destruct (geqb g h) eqn:E; [left; now apply geqb_eq|right; now apply geqb_neq].
Defined.

(** ** Reflection *)
Inductive gexp : Type :=
| GV (n : nat)
| GZ
| GA (a b : gexp)
| GO (a : gexp)
| GM (a : gexp) (s : Fp p).

Fixpoint gden (env : list G) (e : gexp) : G :=
  match e with
  | GV n => nth n env 0
  | GZ => 0
  | GA a b => gden env a + gden env b
  | GO a => - gden env a
  | GM a s => gden env a * s
  end.

Fixpoint gcoef (e : gexp) (i : nat) : Fp p :=
  match e with
  | GV n => if Nat.eqb n i then f1 else f0
  | GZ => f0
  | GA a b => (gcoef a i + gcoef b i)%F
  | GO a => (- gcoef a i)%F
  | GM a s => (gcoef a i * s)%F
  end.

Fixpoint glin (env : list G) (f : nat -> Fp p) : G :=
  match env with
  | [] => 0
  | g :: env' => g * f O + glin env' (fun i => f (S i))
  end.

Lemma glin_ext env f f' :
  (forall i, (i < length env)%nat -> f i = f' i) -> glin env f = glin env f'.
Proof.
  revert f f'. induction env as [|g env IH]; intros f f' H; cbn; [reflexivity|].
  rewrite (H O) by (cbn; lia). f_equal. apply IH. intros i Hi. apply H. cbn; lia.
Qed.

Lemma gadd_swap4 (a b c d : G) : (a + b) + (c + d) = (a + c) + (b + d).
Proof.
  rewrite <- !gadd_assoc. f_equal. rewrite !gadd_assoc. f_equal. apply gadd_comm.
Qed.

Lemma glin_add env f f' : glin env f + glin env f' = glin env (fun i => (f i + f' i)%F).
Proof.
  revert f f'. induction env as [|g env IH]; intros f f'; cbn.
  - apply gadd_0_l.
  - rewrite gadd_swap4, IH. now rewrite <- gmul_add_r.
Qed.

Lemma glin_mul env f s : glin env f * s = glin env (fun i => (f i * s)%F).
Proof.
  revert f. induction env as [|g env IH]; intros f; cbn.
  - apply gmul_0_l.
  - now rewrite gmul_add_l, IH, gmul_mul.
Qed.

Lemma glin_0 env : glin env (fun _ => f0) = 0.
Proof.
  induction env as [|g env IH]; cbn; [reflexivity|].
  now rewrite IH, gmul_0_r, gadd_0_l.
Qed.

Lemma glin_var env n :
  glin env (fun i => if Nat.eqb n i then f1 else f0) = nth n env 0.
Proof.
  revert n. induction env as [|g env IH]; intros [|n]; cbn; try reflexivity.
  - rewrite gmul_1, glin_0. apply gadd_0_r.
  - rewrite gmul_0_r, gadd_0_l. apply IH.
Qed.

Lemma gden_lin env e : gden env e = glin env (gcoef e).
Proof.
  induction e as [n| |a IHa b IHb|a IHa|a IHa s]; cbn [gden gcoef].
  - symmetry. apply glin_var.
  - symmetry. apply glin_0.
  - rewrite IHa, IHb. apply glin_add.
  - rewrite IHa, gopp_mul, glin_mul. apply glin_ext. intros. ring.
  - rewrite IHa. apply glin_mul.
Qed.

Fixpoint all_upto (n : nat) (Q : nat -> Prop) : Prop :=
  match n with
  | O => True
  | S k => Q O /\ all_upto k (fun i => Q (S i))
  end.

Lemma all_upto_lt n Q : all_upto n Q -> forall i, (i < n)%nat -> Q i.
Proof.
  revert Q. induction n as [|n IH]; intros Q H i Hi; [lia|].
  destruct H as [H0 H]. destruct i; [assumption|]. apply (IH _ H). lia.
Qed.

Lemma greflect env e1 e2 :
  all_upto (length env) (fun i => gcoef e1 i = gcoef e2 i) ->
  gden env e1 = gden env e2.
Proof.
  intros H. rewrite !gden_lin. apply glin_ext. now apply all_upto_lt.
Qed.
End ModTheory.

Ltac g_in x l :=
  lazymatch l with
  | nil => constr:(false)
  | x :: _ => constr:(true)
  | _ :: ?l' => g_in x l'
  end.
Ltac g_atoms G e l :=
  lazymatch e with
  | gadd ?a ?b => let l' := g_atoms G a l in g_atoms G b l'
  | gopp ?a => g_atoms G a l
  | gmul ?a _ => g_atoms G a l
  | gzero => l
  | _ => let b := g_in e l in
         lazymatch b with true => l | false => constr:(@cons (gcar _ G) e l) end
  end.
Ltac g_idx x l :=
  lazymatch l with
  | x :: _ => constr:(O)
  | _ :: ?l' => let n := g_idx x l' in constr:(S n)
  end.
Ltac g_reify p G e l :=
  lazymatch e with
  | gadd ?a ?b => let a' := g_reify p G a l in let b' := g_reify p G b l in constr:(@GA p a' b')
  | gopp ?a => let a' := g_reify p G a l in constr:(@GO p a')
  | gmul ?a ?s => let a' := g_reify p G a l in constr:(@GM p a' s)
  | gzero => constr:(@GZ p)
  | _ => let n := g_idx e l in constr:(@GV p n)
  end.
(** Reduce a module identity to scalar identities, one per atom. *)
Ltac gred :=
  lazymatch goal with
  | |- @eq (gcar ?p ?G) ?x ?y =>
    let l0 := constr:(@nil (gcar p G)) in
    let l1 := g_atoms G x l0 in
    let l := g_atoms G y l1 in
    let ex := g_reify p G x l in
    let ey := g_reify p G y l in
    change (@gden p G l ex = @gden p G l ey);
    apply greflect; cbn [length all_upto gcoef Nat.eqb]; repeat split
  end.
Ltac gsolve := gred; ring.

Section Instance.
Variable p : Z.
Add Ring FpR2 : (@Fp_ring p).
(** Z_p as a module over itself, used in the concrete examples. *)
Program Definition Fp_gmod : gmod p :=
  {| gcar := Fp p; gzero := f0; gadd := fadd; gopp := fopp; gmul := fmul; geqb := feqb |}.
Next Obligation. ring. Qed.
Next Obligation. ring. Qed.
Next Obligation. ring. Qed.
Next Obligation. ring. Qed.
Next Obligation. ring. Qed.
Next Obligation. ring. Qed.
Next Obligation. ring. Qed.
Next Obligation. ring. Qed.
Next Obligation. apply feqb_eq. Qed.
End Instance.

Section Test.
Context {p : Z} {G : gmod p}.
Add Ring FpR3 : (@Fp_ring p).
Goal forall (g h : G) (a b : Fp p), ((g + h) * a + g * b - h * a = g * (a + b))%G.
Proof. intros. gsolve. Qed.
End Test.
