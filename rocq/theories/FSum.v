(** Finite sums over Z_p and over Z_p-modules, polynomials given by coefficient
    lists, and the bound on the number of roots.  Specification vocabulary and
    supporting lemmas; nothing here models code of /repo. *)
From Coq Require Import ZArith Znumtheory List Lia Bool Permutation Ring Field.
From Verif Require Import Outcome NumTheory Fp GroupMod.
Import ListNotations.

Section Sums.
Context {p : Z}.
Notation F := (Fp p).
Local Open Scope fp_scope.
Add Ring FpRing : (@Fp_ring p).

Fixpoint fsum (l : list F) : F := match l with [] => 0 | x :: l' => x + fsum l' end.

Lemma fsum_nil : fsum [] = 0.
Proof. reflexivity. Qed.
Lemma fsum_cons x l : fsum (x :: l) = x + fsum l.
Proof. reflexivity. Qed.
Lemma fsum_app l l' : fsum (l ++ l') = fsum l + fsum l'.
Proof. induction l as [|x l IH]; cbn; [ring|]. rewrite IH. ring. Qed.
Lemma fsum_perm l l' : Permutation l l' -> fsum l = fsum l'.
Proof.
  induction 1; cbn; try congruence.
  ring.
Qed.
Lemma fsum_map_ext {A} (f g : A -> F) l :
  (forall x, In x l -> f x = g x) -> fsum (map f l) = fsum (map g l).
Proof. intros H. f_equal. now apply map_ext_in. Qed.
Lemma fsum_map_add {A} (f g : A -> F) l :
  fsum (map (fun x => f x + g x) l) = fsum (map f l) + fsum (map g l).
Proof. induction l as [|x l IH]; cbn; [ring|]. rewrite IH. ring. Qed.
Lemma fsum_map_sub {A} (f g : A -> F) l :
  fsum (map (fun x => f x - g x) l) = fsum (map f l) - fsum (map g l).
Proof. induction l as [|x l IH]; cbn; [ring|]. rewrite IH. ring. Qed.
Lemma fsum_map_scale {A} (f : A -> F) c l :
  fsum (map (fun x => c * f x) l) = c * fsum (map f l).
Proof. induction l as [|x l IH]; cbn; [ring|]. rewrite IH. ring. Qed.
Lemma fsum_map_scale_r {A} (f : A -> F) c l :
  fsum (map (fun x => f x * c) l) = fsum (map f l) * c.
Proof. induction l as [|x l IH]; cbn; [ring|]. rewrite IH. ring. Qed.
Lemma fsum_map_opp {A} (f : A -> F) l :
  fsum (map (fun x => - f x) l) = - fsum (map f l).
Proof. induction l as [|x l IH]; cbn; [ring|]. rewrite IH. ring. Qed.
Lemma fsum_map_0 {A} (f : A -> F) l :
  (forall x, In x l -> f x = 0) -> fsum (map f l) = 0.
Proof.
  induction l as [|x l IH]; intros H; cbn; [reflexivity|].
  rewrite (H x) by now left. rewrite IH by (intros; apply H; now right). ring.
Qed.
Lemma fsum_swap {A B} (f : A -> B -> F) la lb :
  fsum (map (fun a => fsum (map (fun b => f a b) lb)) la)
  = fsum (map (fun b => fsum (map (fun a => f a b) la)) lb).
Proof.
  induction la as [|a la IH]; cbn.
  - symmetry. now apply fsum_map_0.
  - rewrite IH. now rewrite <- fsum_map_add.
Qed.
Lemma fsum_rev l : fsum (rev l) = fsum l.
Proof. apply fsum_perm, Permutation_sym, Permutation_rev. Qed.

(** Dot product of lists (shorter length decides). *)
Fixpoint dot (a b : list F) : F :=
  match a, b with
  | x :: a', y :: b' => x * y + dot a' b'
  | _, _ => 0
  end.

Lemma dot_nil_r a : dot a [] = 0.
Proof. now destruct a. Qed.
Lemma dot_comm a b : dot a b = dot b a.
Proof. revert b; induction a as [|x a IH]; intros [|y b]; cbn; try reflexivity. rewrite IH. ring. Qed.
Lemma dot_app a b a' b' :
  length a = length b -> dot (a ++ a') (b ++ b') = dot a b + dot a' b'.
Proof.
  revert b; induction a as [|x a IH]; intros [|y b] H; cbn in *; try discriminate; [ring|].
  rewrite IH by lia. ring.
Qed.
Lemma dot_map_scale_l a b c : dot (map (fun x => c * x) a) b = c * dot a b.
Proof.
  revert b; induction a as [|x a IH]; intros [|y b]; cbn; try ring.
  rewrite IH. ring.
Qed.
Lemma dot_sum a b :
  dot a b = fsum (map (fun e => fst e * snd e) (combine a b)).
Proof. revert b; induction a as [|x a IH]; intros [|y b]; cbn; try reflexivity. now rewrite IH. Qed.

(** ** Polynomials *)
Fixpoint peval (l : list F) (x : F) : F :=
  match l with
  | [] => 0
  | c :: l' => c + x * peval l' x
  end.

Definition pzero (l : list F) : Prop := Forall (fun c => c = 0) l.

Lemma peval_pzero l x : pzero l -> peval l x = 0.
Proof. induction 1 as [|c l Hc _ IH]; cbn; [reflexivity|]. rewrite Hc, IH. ring. Qed.

Lemma fpow_add_exp (x : F) a b : x ^ (a + b)%nat = x ^ a * x ^ b.
Proof. induction a; cbn; [ring|]. rewrite IHa. ring. Qed.

Lemma peval_app l l' x : peval (l ++ l') x = peval l x + x ^ (length l) * peval l' x.
Proof. induction l as [|c l IH]; cbn; [ring|]. rewrite IH. ring. Qed.

Lemma peval_pow_sum l x :
  peval l x = fsum (map (fun e => snd e * x ^ (fst e)) (combine (seq 0 (length l)) l)).
Proof.
  assert (H : forall s, x ^ s * peval l x
     = fsum (map (fun e => snd e * x ^ (fst e)) (combine (seq s (length l)) l))).
  { induction l as [|c l IH]; intros s; cbn [peval length seq combine map].
    - cbn. ring.
    - rewrite fsum_cons. rewrite <- IH. cbn. ring. }
  rewrite <- H. cbn. ring.
Qed.

(** Synthetic division by (X - r): quotient of [l]; remainder is [peval l r]. *)
Fixpoint pquot (l : list F) (r : F) : list F :=
  match l with
  | [] => []
  | c :: l' => peval l' r :: pquot l' r
  end.

Lemma pquot_length l r : length (pquot l r) = length l.
Proof. induction l; cbn; congruence. Qed.

Lemma pquot_spec l r x : peval l x = (x - r) * peval (pquot l r) x + peval l r.
Proof.
  induction l as [|c l IH]; cbn; [ring|].
  rewrite IH at 1. ring.
Qed.

Lemma pquot_last l r : l <> [] -> last (pquot l r) 0 = 0.
Proof.
  induction l as [|c l IH]; intros H; [contradiction|].
  cbn [pquot]. destruct l as [|c' l'].
  - reflexivity.
  - change (last (peval (c' :: l') r :: pquot (c' :: l') r) 0)
      with (match pquot (c' :: l') r with [] => peval (c' :: l') r
            | _ => last (pquot (c' :: l') r) 0 end).
    cbn [pquot]. apply IH. discriminate.
Qed.
(** Coefficient-wise difference. *)
Fixpoint psub (a b : list F) : list F :=
  match a, b with
  | [], b => map (fun x => - x) b
  | a, [] => a
  | x :: a', y :: b' => (x - y) :: psub a' b'
  end.
Lemma peval_map_opp (b : list F) x : peval (map (fun c => - c) b) x = - peval b x.
Proof. induction b as [|c b IH]; cbn; [ring|]. rewrite IH. ring. Qed.
Lemma peval_psub (a b : list F) x : peval (psub a b) x = peval a x - peval b x.
Proof.
  revert b; induction a as [|c a IH]; intros b; cbn [psub].
  - rewrite peval_map_opp. cbn. ring.
  - destruct b as [|d b]; cbn; [ring|]. rewrite IH. ring.
Qed.
Lemma psub_length (a b : list F) : length (psub a b) = Nat.max (length a) (length b).
Proof.
  revert b; induction a as [|c a IH]; intros [|d b]; cbn; try reflexivity.
  - now rewrite map_length.
  - now rewrite IH.
Qed.
Lemma psub_pzero_eq (a b : list F) : length a = length b -> pzero (psub a b) -> a = b.
Proof.
  revert b; induction a as [|c a IH]; intros [|d b] H Hz; cbn in *; try discriminate; [reflexivity|].
  inversion Hz as [|? ? H1 H2]; subst. apply (proj1 (fsub_eq_0 _ _)) in H1. subst. f_equal. apply IH; [lia|assumption].
Qed.
End Sums.

Section Roots.
Context {p : Z} (Hp : prime p).
Notation F := (Fp p).
Local Open Scope fp_scope.
Add Field FpFld : (Fp_field Hp).

Lemma pquot_pzero (l : list F) r : peval l r = 0 -> pzero (pquot l r) -> pzero l.
Proof.
  revert r. induction l as [|c l IH]; intros r H Hz; constructor; cbn in *.
  - inversion Hz as [|? ? Hh Ht]; subst. rewrite Hh in H.
    rewrite <- H. ring.
  - inversion Hz as [|? ? Hh Ht]; subst. now apply (IH r).
Qed.

(** The polynomial given by a list of n coefficients, not all zero, has fewer
    than n roots. *)
Lemma root_bound (l : list F) (rs : list F) :
  ~ pzero l -> NoDup rs -> Forall (fun r => peval l r = 0) rs ->
  (length rs < length l)%nat.
Proof.
  remember (length l) as n eqn:Hn. revert l rs Hn.
  induction n as [|n IH]; intros l rs Hn Hnz Hnd Hrs.
  - destruct l; [|discriminate]. exfalso. apply Hnz. constructor.
  - destruct rs as [|r rs]; [cbn; lia|].
    inversion Hnd as [|? ? Hni Hnd']; subst. inversion Hrs as [|? ? Hr Hrs']; subst.
    assert (Hl : l <> []) by (intros ->; discriminate).
    (* drop the leading zero of the quotient *)
    pose proof (pquot_last l r Hl) as Hlast.
    assert (Hq : pquot l r <> []) by (intros E; apply (f_equal (@length _)) in E;
       rewrite pquot_length in E; cbn in E; lia).
    set (q := removelast (pquot l r)).
    assert (Hqe : pquot l r = q ++ [0]).
    { unfold q. pose proof (app_removelast_last 0 Hq) as H. rewrite Hlast in H. exact H. }
    assert (Hql : length q = n).
    { apply (f_equal (@length _)) in Hqe. rewrite pquot_length, app_length in Hqe. cbn in Hqe. lia. }
    assert (Hev : forall x, peval (pquot l r) x = peval q x).
    { intros x. rewrite Hqe, peval_app. cbn. ring. }
    cbn. apply -> Nat.succ_lt_mono. apply (IH q); try assumption.
    + now rewrite Hql.
    + intros Hz. apply Hnz. apply (pquot_pzero l r Hr). rewrite Hqe.
      apply Forall_app. split; [assumption|repeat constructor].
    + apply Forall_forall. intros x Hx. rewrite Forall_forall in Hrs'.
      specialize (Hrs' x Hx). rewrite (pquot_spec l r x), Hr, Hev in Hrs'.
      assert (Hm : (x - r) * peval q x = 0) by (rewrite <- Hrs'; ring).
      apply (fmul_eq_0 Hp) in Hm. destruct Hm as [Hm|Hm]; [|assumption].
      apply (proj1 (fsub_eq_0 _ _)) in Hm. exfalso. apply Hni. now rewrite <- Hm.
Qed.

Lemma root_bound_zero (l : list F) (rs : list F) :
  NoDup rs -> Forall (fun r => peval l r = 0) rs -> (length l <= length rs)%nat -> pzero l.
Proof.
  intros Hnd Hr Hl. destruct (Forall_dec (fun c => c = 0) (fun c => fp_dec c 0) l) as [H|H].
  - exact H.
  - pose proof (root_bound l rs H Hnd Hr). lia.
Qed.

End Roots.

(** ** Sums in a module *)
Section GSums.
Context {p : Z} {G : gmod p}.
Notation F := (Fp p).
Add Ring FpRing2 : (@Fp_ring p).
Local Open Scope g_scope.

Fixpoint gsum (l : list G) : G := match l with [] => 0 | x :: l' => x + gsum l' end.

(** Multi-exponentiation sum_i gs[i]*xs[i]. *)
Fixpoint gdot (gs : list G) (xs : list F) : G :=
  match gs, xs with
  | g :: gs', x :: xs' => g * x + gdot gs' xs'
  | _, _ => 0
  end.

Lemma gdot_nil_r gs : gdot gs [] = 0.
Proof. now destruct gs. Qed.
Lemma gdot_app gs xs gs' xs' :
  length gs = length xs -> gdot (gs ++ gs') (xs ++ xs') = gdot gs xs + gdot gs' xs'.
Proof.
  revert xs; induction gs as [|g gs IH]; intros [|x xs] H; cbn in *; try discriminate.
  - gsolve.
  - rewrite IH by lia. gsolve.
Qed.
Lemma gdot_scale gs xs c : gdot gs (map (fun x => (x * c)%F) xs) = gdot gs xs * c.
Proof.
  revert xs; induction gs as [|g gs IH]; intros [|x xs]; cbn; try (now rewrite gmul_0_l).
  rewrite IH. gsolve.
Qed.
Lemma gdot_scale_gen gs xs c : gdot (map (fun g => g * c) gs) xs = gdot gs xs * c.
Proof.
  revert xs; induction gs as [|g gs IH]; intros [|x xs]; cbn; try (now rewrite gmul_0_l).
  rewrite IH. gsolve.
Qed.
Fixpoint vadd (a b : list F) : list F :=
  match a, b with
  | x :: a', y :: b' => (x + y)%F :: vadd a' b'
  | _, _ => []
  end.
Lemma gdot_vadd gs xs ys :
  length xs = length ys -> gdot gs (vadd xs ys) = gdot gs xs + gdot gs ys.
Proof.
  revert xs ys; induction gs as [|g gs IH]; intros [|x xs] [|y ys] H; cbn in *;
    try discriminate; try gsolve.
  rewrite IH by lia. gsolve.
Qed.
Lemma gdot_0 gs n : gdot gs (repeat f0 n) = 0.
Proof.
  revert n; induction gs as [|g gs IH]; intros [|n]; cbn; try reflexivity.
  rewrite IH. gsolve.
Qed.
Lemma vadd_length a b : length a = length b -> length (vadd a b) = length a.
Proof. revert b; induction a; intros [|y b] H; cbn in *; try discriminate; auto. Qed.
End GSums.
