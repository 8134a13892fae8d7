(** Polynomials as coefficient lists: products of linear factors, Newton
    interpolation and the Lagrange interpolation formula. *)
From Coq Require Import ZArith Znumtheory List Lia Bool Field.
From Verif Require Import NumTheory Fp FSum.
Import ListNotations.
Local Open Scope fp_scope.

Section Poly.
Context {p : Z}.
Notation F := (Fp p).
Add Ring FpRingP : (@Fp_ring p).

Definition pscale (c : F) (l : list F) : list F := map (fun x => c * x) l.
Lemma pscale_length c l : length (pscale c l) = length l.
Proof. apply map_length. Qed.
Lemma peval_pscale c l x : peval (pscale c l) x = c * peval l x.
Proof. unfold pscale. induction l as [|a l IH]; cbn; [ring|]. rewrite IH. ring. Qed.

Definition padd (a b : list F) : list F := psub a (pscale (- (1)) b).
Lemma padd_length a b : length (padd a b) = Nat.max (length a) (length b).
Proof. unfold padd. now rewrite psub_length, pscale_length. Qed.
Lemma peval_padd a b x : peval (padd a b) x = peval a x + peval b x.
Proof. unfold padd. rewrite peval_psub, peval_pscale. ring. Qed.

(** (a - X) * l *)
Definition pmul_lin (a : F) (l : list F) : list F := psub (pscale a l) (0 :: l).
Lemma pmul_lin_length a l : length (pmul_lin a l) = S (length l).
Proof. unfold pmul_lin. rewrite psub_length, pscale_length. cbn [length]. lia. Qed.
Lemma peval_pmul_lin a l x : peval (pmul_lin a l) x = (a - x) * peval l x.
Proof. unfold pmul_lin. rewrite peval_psub, peval_pscale. cbn. ring. Qed.

(** prod_j (x_j - X) *)
Fixpoint master (xs : list F) : list F :=
  match xs with
  | [] => [1]
  | x :: xs' => pmul_lin x (master xs')
  end.
Fixpoint fprod (l : list F) : F := match l with [] => 1 | x :: l' => x * fprod l' end.
Lemma master_length xs : length (master xs) = S (length xs).
Proof. induction xs as [|x xs IH]; [reflexivity|]. cbn [master]. now rewrite pmul_lin_length, IH. Qed.
Lemma peval_master xs x : peval (master xs) x = fprod (map (fun y => y - x) xs).
Proof.
  induction xs as [|a xs IH]; cbn [master map fprod].
  - cbn. ring.
  - now rewrite peval_pmul_lin, IH.
Qed.
Lemma fprod_0 l : In 0 l -> fprod l = 0.
Proof. induction l as [|a l IH]; intros []; cbn; [subst|rewrite IH by assumption]; ring. Qed.
Lemma peval_repeat0 n (x : F) : peval (repeat (0 : F) n) x = 0.
Proof. induction n as [|n IH]; cbn; [reflexivity|]. rewrite IH. ring. Qed.
Lemma peval_pad (l : list F) n x : peval (l ++ repeat 0 n) x = peval l x.
Proof. rewrite peval_app, peval_repeat0. ring. Qed.
End Poly.

Section Interp.
Context {p : Z} (Hp : prime p).
Notation F := (Fp p).
Add Field FpFieldP : (Fp_field Hp).

Lemma fprod_neq_0 (l : list F) : Forall (fun x => x <> 0) l -> fprod l <> 0.
Proof.
  induction 1 as [|a l Ha _ IH]; cbn; [apply (f1_neq_0 Hp)|].
  now apply (fmul_neq_0 Hp).
Qed.

(** Newton interpolation: the polynomial with given values at given points. *)
Fixpoint interp (pts : list (F * F)) : list F :=
  match pts with
  | [] => []
  | (x, y) :: r =>
      let l := interp r in
      let m := master (map fst r) in
      padd l (pscale ((y - peval l x) / peval m x) m)
  end.
Lemma interp_length pts : length (interp pts) = length pts.
Proof.
  induction pts as [|[x y] r IH]; [reflexivity|].
  cbn [interp length]. rewrite padd_length, pscale_length, master_length, map_length, IH. lia.
Qed.
Lemma master_root (xs : list F) x : In x xs -> peval (master xs) x = 0.
Proof.
  intros H. rewrite peval_master. apply fprod_0. apply in_map_iff. exists x. split; [ring|exact H].
Qed.
Lemma master_nonroot (xs : list F) x : ~ In x xs -> peval (master xs) x <> 0.
Proof.
  intros H. rewrite peval_master. apply fprod_neq_0. apply Forall_forall.
  intros z Hz. apply in_map_iff in Hz. destruct Hz as (y & <- & Hy).
  intros E. apply (proj1 (fsub_eq_0 _ _)) in E. apply H. now rewrite <- E.
Qed.
Lemma interp_spec pts : NoDup (map fst pts) ->
  Forall (fun e => peval (interp pts) (fst e) = snd e) pts.
Proof.
  induction pts as [|[x y] r IH]; intros Hnd; [constructor|].
  cbn [map fst] in Hnd. inversion Hnd as [|? ? Hni Hnd']; subst.
  constructor.
  - cbn [interp fst snd]. rewrite peval_padd, peval_pscale.
    field. now apply master_nonroot.
  - specialize (IH Hnd'). rewrite Forall_forall in IH |- *. intros e He.
    cbn [interp]. rewrite peval_padd, peval_pscale, (master_root (map fst r) (fst e)) by (now apply in_map).
    rewrite (IH e He). ring.
Qed.

(** Two polynomials with at most n coefficients that agree at n points agree
    everywhere. *)
Lemma poly_agree (a b : list F) (xs : list F) x :
  NoDup xs -> (length a <= length xs)%nat -> (length b <= length xs)%nat ->
  Forall (fun r => peval a r = peval b r) xs -> peval a x = peval b x.
Proof.
  intros Hnd Ha Hb H. apply fsub_eq_0. rewrite <- peval_psub. apply peval_pzero.
  apply (root_bound_zero Hp _ xs Hnd).
  - rewrite Forall_forall in H |- *. intros r Hr. rewrite peval_psub. apply fsub_eq_0. auto.
  - rewrite psub_length. lia.
Qed.
Lemma poly_agree_coeffs (a b : list F) (xs : list F) :
  NoDup xs -> (length a <= length xs)%nat -> length a = length b ->
  Forall (fun r => peval a r = peval b r) xs -> a = b.
Proof.
  intros Hnd Ha Hb H. apply psub_pzero_eq; [assumption|].
  apply (root_bound_zero Hp _ xs Hnd).
  - rewrite Forall_forall in H |- *. intros r Hr. rewrite peval_psub. apply fsub_eq_0. auto.
  - rewrite psub_length. lia.
Qed.

(** Lagrange's formula.  The points are indexed by elements of a list [I] with
    value [v i], distinct for distinct indices; [others i] is I without i. *)
Section Lagrange.
Context {A : Type} (eqA : A -> A -> bool) (eqA_spec : forall a b, eqA a b = true <-> a = b).
Variable v : A -> F.
Definition others (I : list A) (i : A) : list A := filter (fun j => negb (eqA i j)) I.

Lemma others_length I i : NoDup I -> In i I -> S (length (others I i)) = length I.
Proof.
  unfold others. induction I as [|a I IH]; intros Hnd Hin; [contradiction|].
  inversion Hnd as [|? ? Hni Hnd']; subst; cbn [filter]. destruct Hin as [->|Hi].
  - replace (eqA i i) with true by (symmetry; now apply eqA_spec). cbn [negb length]. f_equal.
    f_equal. clear -eqA_spec Hni. induction I as [|b I IH]; [reflexivity|]. cbn [filter].
    destruct (eqA i b) eqn:E.
    + apply eqA_spec in E. subst. exfalso. apply Hni. now left.
    + cbn [negb]. f_equal. apply IH. intros H. apply Hni. now right.
  - destruct (eqA i a) eqn:E.
    + apply eqA_spec in E. subst. contradiction.
    + cbn [negb length]. f_equal. now apply IH.
Qed.
Lemma in_others I i j : In j (others I i) <-> In j I /\ j <> i.
Proof.
  unfold others. rewrite filter_In. split; intros [H1 H2]; split; try assumption.
  - intros ->. apply negb_true_iff in H2. assert (eqA i i = true) by now apply eqA_spec. congruence.
  - apply negb_true_iff. destruct (eqA i j) eqn:E; [|reflexivity]. apply eqA_spec in E. congruence.
Qed.

Fixpoint psum_all (ls : list (list F)) : list F :=
  match ls with [] => [] | l :: r => padd l (psum_all r) end.
Lemma peval_psum_all ls x : peval (psum_all ls) x = fsum (map (fun l => peval l x) ls).
Proof. induction ls as [|l r IH]; cbn [psum_all map fsum]; [reflexivity|]. now rewrite peval_padd, IH. Qed.
Lemma psum_all_length ls n : Forall (fun l => (length l <= n)%nat) ls -> (length (psum_all ls) <= n)%nat.
Proof. induction 1; cbn [psum_all]; [cbn; lia|]. rewrite padd_length. lia. Qed.

Lemma fsum_single (I : list A) (f : A -> F) i :
  NoDup I -> In i I -> (forall j, In j I -> j <> i -> f j = 0) -> fsum (map f I) = f i.
Proof.
  induction I as [|a I IH]; intros Hnd Hi H; [contradiction|].
  inversion Hnd as [|? ? Hni Hnd']; subst. cbn [map fsum]. destruct Hi as [->|Hi].
  - rewrite (fsum_map_0 f I); [ring|]. intros j Hj. apply H; [now right|]. intros ->. contradiction.
  - rewrite H; [|now left|intros ->; contradiction]. rewrite IH; [ring|assumption|assumption|].
    intros j Hj. apply H. now right.
Qed.

Lemma lagrange_formula (I : list A) (q : list F) (x0 : F) :
  NoDup (map v I) -> (length q <= length I)%nat ->
  fsum (map (fun i => peval q (v i) *
        (fprod (map (fun j => v j - x0) (others I i)) /
         fprod (map (fun j => v j - v i) (others I i)))) I) = peval q x0.
Proof.
  intros Hnd Hl.
  assert (HI : NoDup I) by (eapply NoDup_map_inv; eassumption).
  assert (Hinj : forall i j, In i I -> In j I -> i <> j -> v i <> v j).
  { clear -Hnd. induction I as [|a I IH]; intros i j Hi Hj Hne E; [contradiction|].
    cbn in Hnd. inversion Hnd as [|? ? Hni Hnd']; subst.
    destruct Hi as [->|Hi], Hj as [->|Hj]; try congruence.
    - apply Hni. rewrite E. now apply in_map.
    - apply Hni. rewrite <- E. now apply in_map.
    - exact (IH Hnd' i j Hi Hj Hne E). }
  set (S := psum_all (map (fun i => pscale (peval q (v i) / fprod (map (fun j => v j - v i) (others I i)))
                                     (master (map v (others I i)))) I)).
  assert (HS : forall x, peval S x = fsum (map (fun i => peval q (v i) *
        (fprod (map (fun j => v j - x) (others I i)) /
         fprod (map (fun j => v j - v i) (others I i)))) I)).
  { intros x. unfold S. rewrite peval_psum_all, map_map. apply fsum_map_ext. intros i Hi.
    rewrite peval_pscale, peval_master, map_map. field.
    apply fprod_neq_0. apply Forall_forall. intros z Hz. apply in_map_iff in Hz.
    destruct Hz as (j & <- & Hj). apply in_others in Hj. intros E. apply (proj1 (fsub_eq_0 _ _)) in E.
    apply (Hinj j i); tauto. }
  rewrite <- HS. apply (poly_agree _ _ (map v I)); [assumption| |now rewrite map_length|].
  - rewrite map_length. apply psum_all_length. apply Forall_forall. intros l Hlx.
    apply in_map_iff in Hlx. destruct Hlx as (i & <- & Hi).
    rewrite pscale_length, master_length, map_length, others_length by assumption. lia.
  - apply Forall_forall. intros r Hr. apply in_map_iff in Hr. destruct Hr as (i & <- & Hi).
    rewrite HS. rewrite (fsum_single I _ i HI Hi).
    + field. apply fprod_neq_0. apply Forall_forall. intros z Hz. apply in_map_iff in Hz.
      destruct Hz as (j & <- & Hj). apply in_others in Hj. intros E. apply (proj1 (fsub_eq_0 _ _)) in E.
      apply (Hinj j i); tauto.
    + intros j Hj Hne.
      replace (fprod (map (fun k => v k - v i) (others I j))) with (0 : F).
      { unfold fdiv. ring. }
      symmetry. apply fprod_0. apply in_map_iff. exists i. split; [ring|].
      apply in_others. split; [assumption|congruence].
Qed.
End Lagrange.
End Interp.
