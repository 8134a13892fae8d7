(** Special soundness of the quadratic proof when the length is a power of two. *)
From Coq Require Import String.
From Coq Require Import ZArith Znumtheory List Bool Lia Ring Field.
From Verif Require Import Outcome Fp GroupMod FSum ConstraintsModel PedersenModel PedersenSpec
  PedersenProofs BulletproofModel BulletproofProofs BulletproofQuad BulletproofSpec BulletproofSound.
Import ListNotations.
Open Scope Z_scope.

Ltac vlen := rewrite ?vscale_length; first [congruence | lia | rewrite vadd_length; vlen].
Section Reps.
Context {p : Z} {G : gmod p}.
Variable Hp : prime p.
Notation F := (Fp p).
Add Field FpFr : (Fp_field Hp).
Implicit Types gs hs : list G.

Record rep := Rep { r_rho : F; r_phi : F; r_al : list F; r_be : list F }.
Definition rlen (v : rep) n : Prop := length (r_al v) = n /\ length (r_be v) = n.
Definition rsc (c : F) (v : rep) : rep :=
  Rep (r_rho v * c)%F (r_phi v * c)%F (vscale c (r_al v)) (vscale c (r_be v)).
Definition radd (v w : rep) : rep :=
  Rep (r_rho v + r_rho w)%F (r_phi v + r_phi w)%F (vadd (r_al v) (r_al w)) (vadd (r_be v) (r_be w)).
Definition rlc3 k1 v1 k2 v2 k3 v3 := radd (radd (rsc k1 v1) (rsc k2 v2)) (rsc k3 v3).
Definition fzerob (c : F) : bool := feqb c 0%F.
Definition rzerob (v : rep) : bool :=
  fzerob (r_rho v) && fzerob (r_phi v) && forallb fzerob (r_al v) && forallb fzerob (r_be v).
Definition rflat (v : rep) : list F := r_rho v :: r_phi v :: r_al v ++ r_be v.

Definition kl (x y z : F) : F := finv ((x - y) * (x - z))%F.
Definition kc (x y z : F) : F := (- (y + z) * finv ((x - y) * (x - z)))%F.
Definition kr (x y z : F) : F := (y * z * finv ((x - y) * (x - z)))%F.
(** coefficients of the quadratic through the first three points, and a check
    of all points *)
Definition resid (q : rep * rep * rep) (e : F * rep) : rep :=
  let '(r, c, l) := q in let '(x, w) := e in
  radd (rlc3 (1%F) r x c (x * x)%F l) (rsc (- (1))%F w).
Definition interp (pts : list (F * rep)) : (rep * rep * rep) + rep :=
  match pts with
  | (x1, w1) :: (x2, w2) :: (x3, w3) :: _ =>
      let q := (rlc3 (kr x1 x2 x3) w1 (kr x2 x1 x3) w2 (kr x3 x1 x2) w3,
                rlc3 (kc x1 x2 x3) w1 (kc x2 x1 x3) w2 (kc x3 x1 x2) w3,
                rlc3 (kl x1 x2 x3) w1 (kl x2 x1 x3) w2 (kl x3 x1 x2) w3) in
      match find (fun e => negb (rzerob (resid q e))) pts with
      | Some e => inr (resid q e)
      | None => inl q
      end
  | _ => inr (Rep 0%F 0%F [] [])
  end.

Variables base Fg : G.
Definition rval gs hs (v : rep) : G :=
  gadd (gadd (gmul base (r_rho v)) (gmul Fg (r_phi v))) (gadd (gdot gs (r_al v)) (gdot hs (r_be v))).

Lemma rval_rsc gs hs c v : rval gs hs (rsc c v) = gmul (rval gs hs v) c.
Proof. unfold rval, rsc, vscale. cbn. rewrite !gdot_scale. gsolve. Qed.
Lemma rval_radd gs hs v w n : rlen v n -> rlen w n -> rval gs hs (radd v w) = gadd (rval gs hs v) (rval gs hs w).
Proof. intros [A B] [C D]. unfold rval, radd. cbn. rewrite !gdot_vadd by congruence. gsolve. Qed.
Lemma rlen_rsc c v n : rlen v n -> rlen (rsc c v) n.
Proof. intros [A B]. split; cbn; rewrite vscale_length; assumption. Qed.
Lemma rlen_radd v w n : rlen v n -> rlen w n -> rlen (radd v w) n.
Proof. intros [A B] [C D]. split; cbn; rewrite vadd_length; congruence. Qed.
Lemma rlen_rlc3 k1 v1 k2 v2 k3 v3 n : rlen v1 n -> rlen v2 n -> rlen v3 n -> rlen (rlc3 k1 v1 k2 v2 k3 v3) n.
Proof. intros. unfold rlc3. repeat apply rlen_radd; apply rlen_rsc; assumption. Qed.
Lemma rval_rlc3 gs hs k1 v1 k2 v2 k3 v3 n : rlen v1 n -> rlen v2 n -> rlen v3 n ->
  rval gs hs (rlc3 k1 v1 k2 v2 k3 v3)
  = gadd (gadd (gmul (rval gs hs v1) k1) (gmul (rval gs hs v2) k2)) (gmul (rval gs hs v3) k3).
Proof.
  intros. unfold rlc3. rewrite (rval_radd _ _ _ _ n), (rval_radd _ _ _ _ n), !rval_rsc; try reflexivity;
  repeat apply rlen_radd; apply rlen_rsc; assumption.
Qed.

Lemma nth_vadd (a b : list F) j : length a = length b -> nth j (vadd a b) 0%F = (nth j a 0 + nth j b 0)%F.
Proof.
  revert b j; induction a as [|x a IH]; intros [|y b] j H; cbn in H; try discriminate.
  - destruct j; cbn; ring.
  - destruct j; cbn; [reflexivity|]. apply IH. lia.
Qed.
Lemma nth_vscale c (a : list F) j : nth j (vscale c a) 0%F = (nth j a 0 * c)%F.
Proof.
  unfold vscale. etransitivity; [|exact (map_nth (fun x => (x * c)%F) a 0%F j)]. f_equal; ring.
Qed.

Definition ceq (q : rep * rep * rep) (e : F * rep) (g : rep -> F) : Prop :=
  let '(r, c, l) := q in (g r + fst e * g c + fst e * fst e * g l)%F = g (snd e).

Lemma forallb_zero l : forallb fzerob l = true -> forall j, nth j l 0%F = 0%F.
Proof.
  intros H j. destruct (Nat.lt_ge_cases j (length l)) as [Hj|Hj]; [|now apply nth_overflow].
  rewrite forallb_forall in H. apply feqb_eq. apply H. now apply nth_In.
Qed.
Lemma rzerob_spec v : rzerob v = true ->
  r_rho v = 0%F /\ r_phi v = 0%F /\ (forall j, nth j (r_al v) 0%F = 0%F) /\ (forall j, nth j (r_be v) 0%F = 0%F).
Proof.
  unfold rzerob. rewrite !andb_true_iff. intros [[[A B] C] D].
  split; [now apply feqb_eq|]. split; [now apply feqb_eq|]. split; now apply forallb_zero.
Qed.
Lemma rzerob_false v : rzerob v = false -> ~ Forall (fun c => c = 0%F) (rflat v).
Proof.
  intros H Hz. unfold rflat in Hz. pose proof (Forall_inv Hz) as A. apply Forall_inv_tail in Hz. pose proof (Forall_inv Hz) as B. apply Forall_inv_tail in Hz. rename Hz into Hz2. apply Forall_app in Hz2. destruct Hz2 as [C D].
  enough (rzerob v = true) by congruence. unfold rzerob. rewrite A, B.
  assert (E : forall l, Forall (fun c : F => c = 0%F) l -> forallb fzerob l = true).
  { intros l Hl. apply forallb_forall. intros y Hy. rewrite Forall_forall in Hl. rewrite (Hl y Hy). apply feqb_refl. }
  unfold fzerob at 1 2. rewrite feqb_refl, !E by assumption. reflexivity.
Qed.

Lemma sub0 (a b : F) : (a + b * - (1))%F = 0%F -> a = b.
Proof. intros H. apply (proj1 (fsub_eq_0 a b)). rewrite <- H. ring. Qed.

Lemma resid_zero r c l e n : rlen r n -> rlen c n -> rlen l n -> rlen (snd e) n ->
  rzerob (resid (r, c, l) e) = true ->
  ceq (r, c, l) e r_rho /\ ceq (r, c, l) e r_phi /\
  (forall j, ceq (r, c, l) e (fun v => nth j (r_al v) 0%F)) /\
  (forall j, ceq (r, c, l) e (fun v => nth j (r_be v) 0%F)).
Proof.
  intros [R1 R2] [C1 C2] [L1 L2] [W1 W2] H. destruct e as [x w]. unfold ceq, resid, rlc3 in *. cbn [fst snd] in *.
  apply rzerob_spec in H. destruct H as (A & B & C & D). cbn [radd rsc r_rho r_phi r_al r_be] in *.
  split. { apply sub0 in A. rewrite <- A. ring. }
  split. { apply sub0 in B. rewrite <- B. ring. }
  split; intros j.
  - specialize (C j). rewrite !nth_vadd in C by vlen.
    rewrite !nth_vscale in C. apply sub0 in C. rewrite <- C. ring.
  - specialize (D j). rewrite !nth_vadd in D by vlen.
    rewrite !nth_vscale in D. apply sub0 in D. rewrite <- D. ring.
Qed.

Lemma interp_ok gs hs n (P0 P1 P2 : G) pts :
  (3 <= length pts)%nat -> NoDup (map fst pts) ->
  Forall (fun e => rlen (snd e) n /\
     rval gs hs (snd e) = gadd (gadd P0 (gmul P1 (fst e))) (gmul P2 (fst e * fst e)%F)) pts ->
  match interp pts with
  | inr v => rlen v n /\ rval gs hs v = gzero /\ rzerob v = false
  | inl (r, c, l) => rlen r n /\ rlen c n /\ rlen l n /\ rval gs hs r = P0 /\ rval gs hs c = P1 /\ rval gs hs l = P2 /\
      Forall (fun e => ceq (r, c, l) e r_rho /\ ceq (r, c, l) e r_phi /\
         (forall j, ceq (r, c, l) e (fun v => nth j (r_al v) 0%F)) /\
         (forall j, ceq (r, c, l) e (fun v => nth j (r_be v) 0%F))) pts
  end.
Proof.
  intros Hlen Hnd Hall.
  destruct pts as [|[x1 w1] [|[x2 w2] [|[x3 w3] pts]]]; cbn [length] in Hlen; try lia.
  unfold interp.
  set (r := rlc3 (kr x1 x2 x3) w1 (kr x2 x1 x3) w2 (kr x3 x1 x2) w3).
  set (c := rlc3 (kc x1 x2 x3) w1 (kc x2 x1 x3) w2 (kc x3 x1 x2) w3).
  set (l := rlc3 (kl x1 x2 x3) w1 (kl x2 x1 x3) w2 (kl x3 x1 x2) w3).
  set (all := (x1, w1) :: (x2, w2) :: (x3, w3) :: pts) in *.
  assert (H1 := Forall_inv Hall). assert (Ht := Forall_inv_tail Hall).
  assert (H2 := Forall_inv Ht). assert (Ht' := Forall_inv_tail Ht).
  assert (H3 := Forall_inv Ht'). cbn [fst snd] in H1, H2, H3.
  destruct H1 as [L1 E1], H2 as [L2 E2], H3 as [L3 E3].
  assert (Lr : rlen r n) by (apply rlen_rlc3; assumption).
  assert (Lc : rlen c n) by (apply rlen_rlc3; assumption).
  assert (Ll : rlen l n) by (apply rlen_rlc3; assumption).
  assert (Nd : ~ In x1 [x2; x3] /\ x2 <> x3).
  { cbn [map fst all] in Hnd. inversion Hnd as [|? ? A B]. inversion B as [|? ? C D]. split.
    - intros [<-|[<-|[]]]; apply A; [now left|right; now left].
    - intros <-. apply C. now left. }
  destruct Nd as [Nd1 Nd2].
  assert (X12 : (x1 - x2)%F <> 0%F) by (intros H; apply (proj1 (fsub_eq_0 _ _)) in H; subst; apply Nd1; now left).
  assert (X13 : (x1 - x3)%F <> 0%F) by (intros H; apply (proj1 (fsub_eq_0 _ _)) in H; subst; apply Nd1; right; now left).
  assert (X23 : (x2 - x3)%F <> 0%F) by (intros H; apply (proj1 (fsub_eq_0 _ _)) in H; now apply Nd2).
  assert (X21 : (x2 - x1)%F <> 0%F) by (intros H; apply X12; replace (x1 - x2)%F with (- (x2 - x1))%F by ring; rewrite H; ring).
  assert (X31 : (x3 - x1)%F <> 0%F) by (intros H; apply X13; replace (x1 - x3)%F with (- (x3 - x1))%F by ring; rewrite H; ring).
  assert (X32 : (x3 - x2)%F <> 0%F) by (intros H; apply X23; replace (x2 - x3)%F with (- (x3 - x2))%F by ring; rewrite H; ring).
  assert (Vr : rval gs hs r = P0).
  { unfold r. rewrite (rval_rlc3 _ _ _ _ _ _ _ _ n), E1, E2, E3 by assumption. unfold kr. gred; field; repeat split; assumption. }
  assert (Vc : rval gs hs c = P1).
  { unfold c. rewrite (rval_rlc3 _ _ _ _ _ _ _ _ n), E1, E2, E3 by assumption. unfold kc. gred; field; repeat split; assumption. }
  assert (Vl : rval gs hs l = P2).
  { unfold l. rewrite (rval_rlc3 _ _ _ _ _ _ _ _ n), E1, E2, E3 by assumption. unfold kl. gred; field; repeat split; assumption. }
  destruct (find (fun e => negb (rzerob (resid (r, c, l) e))) all) as [e|] eqn:Ef.
  - apply find_some in Ef. destruct Ef as [Hin Hz]. apply negb_true_iff in Hz.
    rewrite Forall_forall in Hall. destruct (Hall e Hin) as [Le Ee].
    destruct e as [x w]. cbn [fst snd] in *. split.
    { unfold resid. apply rlen_radd; [now apply rlen_rlc3|now apply rlen_rsc]. }
    split; [|exact Hz]. unfold resid. rewrite (rval_radd _ _ _ _ n); [|now apply rlen_rlc3|now apply rlen_rsc].
    rewrite (rval_rlc3 _ _ _ _ _ _ _ _ n), rval_rsc, Vr, Vc, Vl, Ee by assumption. gsolve.
  - do 6 (split; [assumption|]). apply Forall_forall. intros e Hin.
    pose proof (find_none _ _ Ef e Hin) as Hz. cbn beta in Hz. apply negb_false_iff in Hz.
    rewrite Forall_forall in Hall. apply (resid_zero r c l e n); try assumption. now apply Hall.
Qed.
End Reps.

Section QSound.
Context {p : Z} {G : gmod p}.
Variable Hp : prime p.
Notation F := (Fp p).
Add Field FpFr2 : (Fp_field Hp).
Implicit Types gs hs : list G.
Notation rep := (@rep p).

(** a representation with respect to the folded generators, seen as one with
    respect to the unfolded ones *)
Definition rlift (x : F) (v : rep) : rep :=
  Rep (r_rho v) (r_phi v) (r_al v ++ vscale x (r_al v)) (r_be v ++ vscale (finv x) (r_be v)).
Definition orep (o : F * list F * list F) : rep :=
  let '(r, a, b) := o in Rep r (dot a b) a b.
Definition node_pt (e : F * (F * list F * list F)) : F * rep :=
  (fst e, rsc (fst e) (rlift (fst e) (orep (snd e)))).

Definition combine_children (l : list (F * (F * list F * list F))) : (F * list F * list F) + rep :=
  match interp (map node_pt l) with
  | inl (_, c, _) => inl (r_rho c, r_al c, r_be c)
  | inr v => inr v
  end.
Definition leaf_pt (e : F * (F * F * F)) : F * rep :=
  let '(x, (a, b, r)) := e in (x, Rep r (a * b)%F [a] [b]).
Definition leaf_open (l : list (F * (F * F * F))) : (F * list F * list F) + rep :=
  match interp (map leaf_pt l) with
  | inl (c, _, _) => inl (r_rho c, r_al c, r_be c)
  | inr v => inr v
  end.
Fixpoint qextract (t : qtree G) : (F * list F * list F) + rep :=
  match t with
  | QLeaf _ _ l => leaf_open l
  | QNode _ _ x1 x2 x3 x4 t1 t2 t3 t4 =>
      match qextract t1 with
      | inr v => inr (rlift x1 v)
      | inl o1 =>
          match qextract t2 with
          | inr v => inr (rlift x2 v)
          | inl o2 =>
              match qextract t3 with
              | inr v => inr (rlift x3 v)
              | inl o3 =>
                  match qextract t4 with
                  | inr v => inr (rlift x4 v)
                  | inl o4 => combine_children [(x1, o1); (x2, o2); (x3, o3); (x4, o4)]
                  end
              end
          end
      end
  end.

Variables base Fg : G.

Lemma rlen_rlift x v n : rlen v n -> rlen (rlift x v) (2 * n).
Proof. intros [A B]. split; cbn; rewrite app_length, vscale_length; lia. Qed.

Lemma gdot_lift gs (w : list F) x h : length gs = (2 * h)%nat -> length w = h ->
  gdot gs (w ++ vscale x w) = gdot (fold1 gs h x) w.
Proof.
  intros Hg Hw. rewrite <- (gdot_expand gs w x h) by lia. unfold expand. f_equal. f_equal. f_equal.
  symmetry. apply firstn_all2. lia.
Qed.
Lemma rval_rlift gs hs h x v : length gs = (2 * h)%nat -> length hs = (2 * h)%nat -> rlen v h ->
  rval base Fg gs hs (rlift x v) = rval base Fg (fold1 gs h x) (fold1 hs h (finv x)) v.
Proof.
  intros Hg Hh [A B]. unfold rval, rlift. cbn [r_rho r_phi r_al r_be]. now rewrite !(gdot_lift _ _ _ h) by assumption.
Qed.
Lemma rzerob_rlift x v : rzerob v = false -> rzerob (rlift x v) = false.
Proof.
  intros H. destruct (rzerob (rlift x v)) eqn:E; [|reflexivity].
  unfold rzerob in *. cbn in E. rewrite !forallb_app in E. rewrite !andb_true_iff in E.
  destruct E as [[[A B] [C _]] [D _]]. rewrite A, B, C, D in H. discriminate.
Qed.

Lemma quad4 (q0 q1 q2 q3 : F) (xs : list F) : NoDup xs -> length xs = 4%nat ->
  Forall (fun x => (q0 + x * q1 + x * x * q2 + x * x * x * q3 = 0)%F) xs ->
  q0 = 0%F /\ q1 = 0%F /\ q2 = 0%F /\ q3 = 0%F.
Proof.
  intros Hnd Hl Hx. assert (Hz : pzero [q0; q1; q2; q3]).
  { apply (root_bound_zero Hp) with xs; [assumption| |cbn; lia].
    eapply Forall_impl; [|exact Hx]. intros x H. cbn [peval]. etransitivity; [|exact H]. ring. }
  inversion Hz as [|? ? A Hz1]; inversion Hz1 as [|? ? B Hz2]; inversion Hz2 as [|? ? C Hz3]; inversion Hz3; auto.
Qed.
Lemma quad5 (q0 q1 q2 q3 q4 : F) (xs : list F) : NoDup xs -> length xs = 5%nat ->
  Forall (fun x => (q0 + x * q1 + x * x * q2 + x * x * x * q3 + x * x * x * x * q4 = 0)%F) xs ->
  q0 = 0%F.
Proof.
  intros Hnd Hl Hx. assert (Hz : pzero [q0; q1; q2; q3; q4]).
  { apply (root_bound_zero Hp) with xs; [assumption| |cbn; lia].
    eapply Forall_impl; [|exact Hx]. intros x H. cbn [peval]. etransitivity; [|exact H]. ring. }
  now inversion Hz.
Qed.

Definition qopen gs hs (C : G) (o : F * list F * list F) : Prop :=
  let '(r, a, b) := o in length a = length gs /\ length b = length hs /\ C = qcom base Fg r gs hs a b.
Definition qres gs hs (C : G) (res : (F * list F * list F) + rep) : Prop :=
  match res with
  | inl o => qopen gs hs C o
  | inr v => rlen v (length gs) /\ rval base Fg gs hs v = gzero /\ rzerob v = false
  end.

Lemma rval_orep gs hs o : rval base Fg gs hs (orep o) = let '(r, a, b) := o in qcom base Fg r gs hs a b.
Proof. destruct o as [[r a] b]. unfold rval, orep, qcom. cbn. gsolve. Qed.

Lemma list_nth_ext (a b : list F) : length a = length b ->
  (forall j, (j < length a)%nat -> nth j a 0%F = nth j b 0%F) -> a = b.
Proof. intros H1 H2. apply nth_ext with 0%F 0%F; assumption. Qed.

Lemma combine_ok gs hs h (C L R : G) l :
  length gs = (2 * h)%nat -> length hs = (2 * h)%nat -> length l = 4%nat ->
  NoDup (map fst l) -> Forall (fun e => fst e <> 0%F) l ->
  Forall (fun e => let '(x, (r, a, b)) := e in length a = h /\ length b = h /\
     gadd C (gadd (gmul L x) (gmul R (finv x))) = qcom base Fg r (fold1 gs h x) (fold1 hs h (finv x)) a b) l ->
  qres gs hs C (combine_children l).
Proof.
  intros Hg Hh Hl Hnd Hnz Hop. unfold combine_children.
  pose proof (interp_ok Hp base Fg gs hs (2 * h) R C L (map node_pt l)) as HI.
  rewrite map_length in HI. specialize (HI ltac:(lia)).
  assert (Efst : map fst (map node_pt l) = map fst l) by (rewrite map_map; reflexivity).
  rewrite Efst in HI. specialize (HI Hnd).
  assert (HF : Forall (fun e => rlen (snd e) (2 * h) /\
     rval base Fg gs hs (snd e) = gadd (gadd R (gmul C (fst e))) (gmul L (fst e * fst e)%F)) (map node_pt l)).
  { apply Forall_map. apply Forall_forall. intros [x [[r a] b]] Hin.
    rewrite Forall_forall in Hop, Hnz. specialize (Hop _ Hin). specialize (Hnz _ Hin). cbn [fst snd node_pt] in *.
    destruct Hop as (La & Lb & E). split.
    - apply rlen_rsc, rlen_rlift. now split.
    - rewrite rval_rsc by assumption. rewrite (rval_rlift _ _ h) by (try assumption; now split).
      rewrite (rval_orep _ _ (r, a, b)), <- E. gred; try ring. field. assumption. }
  specialize (HI HF). destruct (interp (map node_pt l)) as [[[r c] ll]|v].
  2:{ cbn [qres]. rewrite Hg. exact HI. }
  destruct HI as (Lr & Lc & Lll & Vr & Vc & Vl & Hall). cbn [qres qopen].
  destruct Lr as [Lra Lrb], Lc as [Lca Lcb], Lll as [Lla Llb].
  split; [congruence|]. split; [congruence|].
  apply Forall_map in Hall. rewrite Forall_forall in Hall, Hop, Hnz.
  (* coordinates *)
  assert (HA : forall j, (j < h)%nat ->
     (nth (h + j) (r_al r) 0 = 0 /\ nth (h + j) (r_al c) 0 = nth j (r_al r) 0 /\
      nth (h + j) (r_al ll) 0 = nth j (r_al c) 0 /\ nth j (r_al ll) 0 = 0)%F).
  { intros j Hj.
    destruct (quad4 (- nth (h + j) (r_al r) 0)%F (nth j (r_al r) 0 - nth (h + j) (r_al c) 0)%F
       (nth j (r_al c) 0 - nth (h + j) (r_al ll) 0)%F (nth j (r_al ll) 0)%F (map fst l) Hnd ltac:(rewrite map_length; assumption)) as (A & B & C0 & D).
    - apply Forall_map, Forall_forall. intros [x [[rr a] b]] Hin.
      destruct (Hall _ Hin) as (_ & _ & Ha & _). destruct (Hop _ Hin) as (La & Lb & _).
      pose proof (Ha j) as E1. pose proof (Ha (h + j)%nat) as E2. unfold ceq, node_pt, rlift, orep in E1, E2. cbn [fst snd r_al rsc] in *.
      rewrite nth_vscale in E1, E2 by assumption.
      rewrite app_nth1 in E1 by lia. rewrite app_nth2 in E2 by lia. rewrite La in E2.
      replace (h + j - h)%nat with j in E2 by lia. rewrite nth_vscale in E2 by assumption.
      match goal with |- ?lhs = _ => replace lhs with
        (x * (nth j (r_al r) 0 + x * nth j (r_al c) 0 + x * x * nth j (r_al ll) 0)
         - (nth (h + j) (r_al r) 0 + x * nth (h + j) (r_al c) 0 + x * x * nth (h + j) (r_al ll) 0))%F by ring end.
      rewrite E1, E2. ring.
    - apply (proj1 (fsub_eq_0 _ _)) in B. apply (proj1 (fsub_eq_0 _ _)) in C0. repeat split; auto.
      + replace (nth (h + j) (r_al r) 0)%F with (- - nth (h + j) (r_al r) 0)%F by ring. rewrite A. ring. }
  assert (HB : forall j, (j < h)%nat ->
     (nth j (r_be r) 0 = 0 /\ nth j (r_be c) 0 = nth (h + j) (r_be r) 0 /\
      nth j (r_be ll) 0 = nth (h + j) (r_be c) 0 /\ nth (h + j) (r_be ll) 0 = 0)%F).
  { intros j Hj.
    destruct (quad4 (- nth j (r_be r) 0)%F (nth (h + j) (r_be r) 0 - nth j (r_be c) 0)%F
       (nth (h + j) (r_be c) 0 - nth j (r_be ll) 0)%F (nth (h + j) (r_be ll) 0)%F (map fst l) Hnd ltac:(rewrite map_length; assumption)) as (A & B & C0 & D).
    - apply Forall_map, Forall_forall. intros [x [[rr a] b]] Hin.
      destruct (Hall _ Hin) as (_ & _ & _ & Hb). destruct (Hop _ Hin) as (La & Lb & _).
      pose proof (Hb j) as E1. pose proof (Hb (h + j)%nat) as E2. unfold ceq, node_pt, rlift, orep in E1, E2. cbn [fst snd r_be rsc] in *.
      rewrite nth_vscale in E1, E2 by assumption.
      rewrite app_nth1 in E1 by lia. rewrite app_nth2 in E2 by lia. rewrite Lb in E2.
      replace (h + j - h)%nat with j in E2 by lia. rewrite nth_vscale in E2 by assumption.
      match goal with |- ?lhs = _ => replace lhs with
        (x * (nth (h + j) (r_be r) 0 + x * nth (h + j) (r_be c) 0 + x * x * nth (h + j) (r_be ll) 0)
         - (nth j (r_be r) 0 + x * nth j (r_be c) 0 + x * x * nth j (r_be ll) 0))%F by ring end.
      rewrite E1, E2. field. exact (Hnz _ Hin).
    - apply (proj1 (fsub_eq_0 _ _)) in B. apply (proj1 (fsub_eq_0 _ _)) in C0. repeat split; auto.
      + replace (nth j (r_be r) 0)%F with (- - nth j (r_be r) 0)%F by ring. rewrite A. ring. }
  set (cl := firstn h (r_al c)). set (ch := skipn h (r_al c)).
  set (dl := firstn h (r_be c)). set (dh := skipn h (r_be c)).
  assert (Lcl : length cl = h) by (unfold cl; rewrite firstn_length; lia).
  assert (Lch : length ch = h) by (unfold ch; rewrite skipn_length; lia).
  assert (Ldl : length dl = h) by (unfold dl; rewrite firstn_length; lia).
  assert (Ldh : length dh = h) by (unfold dh; rewrite skipn_length; lia).
  assert (Nl : forall (v : list F) j, (j < h)%nat -> (h <= length v)%nat -> nth j (firstn h v) 0%F = nth j v 0%F).
  { intros v j Hj Hv. rewrite <- (firstn_skipn h v) at 2. rewrite app_nth1; [reflexivity|rewrite firstn_length; lia]. }
  assert (Nh : forall (v : list F) j, (h <= length v)%nat -> nth j (skipn h v) 0%F = nth (h + j) v 0%F).
  { intros v j Hv. rewrite <- (firstn_skipn h v) at 2. rewrite app_nth2 by (rewrite firstn_length; lia).
    rewrite firstn_length. f_equal. lia. }
  assert (Hphi : r_phi c = dot (r_al c) (r_be c)).
  { destruct (quad4 (r_phi r - dot ch dl)%F (r_phi c - (dot cl dl + dot ch dh))%F (r_phi ll - dot cl dh)%F 0%F
      (map fst l) Hnd ltac:(rewrite map_length; assumption)) as (_ & B & _).
    - apply Forall_map, Forall_forall. intros [x [[rr a] b]] Hin.
      destruct (Hall _ Hin) as (_ & Hf & Ha & Hb). destruct (Hop _ Hin) as (La & Lb & _).
      assert (Hx : x <> 0%F) by exact (Hnz _ Hin).
      unfold ceq, node_pt, rlift, orep in Hf, Ha, Hb. cbn [fst snd r_phi r_al r_be rsc] in *.
      assert (Ea : a = vadd cl (vscale (finv x) ch)).
      { apply list_nth_ext. { rewrite vadd_length; rewrite ?vscale_length; congruence. }
        intros j Hj. rewrite La in Hj. rewrite nth_vadd by (rewrite ?vscale_length; congruence || assumption).
        rewrite nth_vscale by assumption. unfold cl, ch. rewrite Nl, Nh by lia.
        destruct (HA j Hj) as (A1 & A2 & A3 & A4). specialize (Ha j). rewrite A2. rewrite nth_vscale in Ha by assumption.
        rewrite app_nth1 in Ha by lia. rewrite A4 in Ha.
        transitivity ((nth j a 0 * x) * finv x)%F; [field; assumption|]. rewrite <- Ha. field. assumption. }
      assert (Eb : b = vadd dl (vscale x dh)).
      { apply list_nth_ext. { rewrite vadd_length; rewrite ?vscale_length; congruence. }
        intros j Hj. rewrite Lb in Hj. rewrite nth_vadd by (rewrite ?vscale_length; congruence || assumption).
        rewrite nth_vscale by assumption. unfold dl, dh. rewrite Nl, Nh by lia.
        destruct (HB j Hj) as (A1 & A2 & A3 & A4). specialize (Hb j). rewrite A2. rewrite nth_vscale in Hb by assumption.
        rewrite app_nth1 in Hb by lia. rewrite A1, A2, A3 in Hb.
        transitivity ((nth j b 0 * x) * finv x)%F; [field; assumption|]. rewrite <- Hb. field. assumption. }
      rewrite Ea, Eb in Hf.
      rewrite dot_vadd_r' in Hf by (rewrite vscale_length; congruence).
      rewrite (dot_comm (vadd _ _) dl), (dot_comm (vadd _ _) (vscale _ _)) in Hf.
      rewrite !dot_vadd_r' in Hf by (rewrite vscale_length; congruence).
      rewrite (dot_comm (vscale _ _) cl), (dot_comm (vscale _ _) (vscale _ _)), !dot_scale_r' in Hf.
      rewrite (dot_comm (vscale _ _) dh), dot_scale_r' in Hf.
      rewrite (dot_comm dl cl), (dot_comm dl ch), (dot_comm dh ch) in Hf.
      match goal with |- ?lhs = _ => replace lhs with
        ((r_phi r + x * r_phi c + x * x * r_phi ll) - (dot ch dl + x * (dot cl dl + dot ch dh) + x * x * dot cl dh))%F by ring end.
      rewrite Hf. field. assumption.
    - apply (proj1 (fsub_eq_0 _ _)) in B. rewrite B. rewrite (dot_split (r_al c) (r_be c) h) by lia. reflexivity. }
  rewrite <- Vc. unfold rval, qcom. rewrite Hphi. gsolve.
Qed.

Lemma leaf_ok g h (C S1 S2 : G) l :
  length l = 5%nat -> NoDup (map fst l) ->
  Forall (fun e => let '(x, (a, b, r)) := e in
     gadd (gadd C (gmul S1 x)) (gmul S2 (x * x)%F)
     = gadd (gadd (gmul base r) (gmul Fg (a * b)%F)) (gadd (gmul g a) (gmul h b))) l ->
  qres [g] [h] C (leaf_open l).
Proof.
  intros Hl Hnd Hop. unfold leaf_open.
  pose proof (interp_ok Hp base Fg [g] [h] 1 C S1 S2 (map leaf_pt l)) as HI.
  rewrite map_length in HI. specialize (HI ltac:(lia)).
  assert (Efst : map fst (map leaf_pt l) = map fst l).
  { rewrite map_map. apply map_ext. intros [x [[a b] r]]. reflexivity. }
  rewrite Efst in HI. specialize (HI Hnd).
  assert (HF : Forall (fun e => rlen (snd e) 1 /\
     rval base Fg [g] [h] (snd e) = gadd (gadd C (gmul S1 (fst e))) (gmul S2 (fst e * fst e)%F)) (map leaf_pt l)).
  { apply Forall_map. apply Forall_forall. intros [x [[a b] r]] Hin.
    rewrite Forall_forall in Hop. specialize (Hop _ Hin). cbn [leaf_pt fst snd].
    split; [now split|]. rewrite Hop. unfold rval. cbn [r_rho r_phi r_al r_be gdot]. gsolve. }
  specialize (HI HF). destruct (interp (map leaf_pt l)) as [[[c s1] s2]|v].
  2:{ exact HI. }
  destruct HI as (Lc & L1 & L2 & Vc & V1 & V2 & Hall). cbn [qres qopen].
  destruct Lc as [Lca Lcb], L1 as [L1a L1b], L2 as [L2a L2b].
  split; [exact Lca|]. split; [exact Lcb|].
  destruct (list1 _ Lca) as [ca Eca], (list1 _ Lcb) as [cb Ecb], (list1 _ L1a) as [a1 Ea1], (list1 _ L1b) as [b1 Eb1],
    (list1 _ L2a) as [a2 Ea2], (list1 _ L2b) as [b2 Eb2].
  apply Forall_map in Hall. rewrite Forall_forall in Hall.
  assert (Hphi : r_phi c = (ca * cb)%F).
  { apply (proj1 (fsub_eq_0 _ _)).
    apply (quad5 _ (r_phi s1 - (ca * b1 + a1 * cb))%F (r_phi s2 - (ca * b2 + a1 * b1 + a2 * cb))%F
      (- (a1 * b2 + a2 * b1))%F (- (a2 * b2))%F (map fst l) Hnd ltac:(rewrite map_length; assumption)).
    apply Forall_map, Forall_forall. intros [x [[a b] r]] Hin.
    destruct (Hall _ Hin) as (_ & Hf & Ha & Hb). unfold ceq in *. cbn [leaf_pt fst snd r_phi] in *.
    specialize (Ha O). specialize (Hb O). rewrite Eca, Ea1, Ea2 in Ha. rewrite Ecb, Eb1, Eb2 in Hb. cbn [nth r_al r_be] in Ha, Hb.
    match goal with |- ?lhs = _ => replace lhs with
      ((r_phi c + x * r_phi s1 + x * x * r_phi s2) - (ca + x * a1 + x * x * a2) * (cb + x * b1 + x * x * b2))%F by ring end.
    rewrite Hf, Ha, Hb. ring. }
  rewrite <- Vc. unfold rval, qcom. rewrite Hphi, Eca, Ecb. cbn [gdot dot]. gsolve.
Qed.

Fixpoint qdepth (t : qtree G) : nat :=
  match t with QLeaf _ _ _ => O | QNode _ _ _ _ _ _ t1 _ _ _ => S (qdepth t1) end.
Definition qtree_ok gs hs C (t : qtree G) m : Prop :=
  forall q, In q (qpaths t) ->
    length (qt_xs q) = m /\ Forall (fun x => x <> 0%F) (qt_xs q) /\
    quad_eqn base Fg gs hs None None C (qt_Ls q) (qt_Rs q) (qt_xs q) (qt_S1 q) (qt_S2 q) (qt_x q) (qt_a q) (qt_b q) (qt_r q).

Lemma qpaths_nonempty (t : qtree G) : qdistinct t -> exists q, In q (qpaths t).
Proof.
  induction t as [S1 S2 l|L R x1 x2 x3 x4 t1 IH t2 _ t3 _ t4 _]; cbn [qdistinct]; intros H.
  - destruct H as [_ H]. destruct l as [|[x [[a b] r]] l]; [discriminate|]. eexists. left. reflexivity.
  - destruct IH as [q Hq]; [tauto|]. exists (qcons L R x1 q). cbn. apply in_or_app. left. now apply in_map.
Qed.

Lemma quad_eqn_cons gs hs C L R x Ls Rs xs S1 S2 x' a b r :
  length gs = (2 * 2 ^ length xs)%nat -> length hs = (2 * 2 ^ length xs)%nat ->
  quad_eqn base Fg gs hs None None C (L :: Ls) (R :: Rs) (x :: xs) S1 S2 x' a b r ->
  quad_eqn base Fg (fold1 gs (2 ^ length xs) x) (fold1 hs (2 ^ length xs) (finv x)) None None
    (gadd C (gadd (gmul L x) (gmul R (finv x)))) Ls Rs xs S1 S2 x' a b r.
Proof.
  intros Hl Hb. unfold quad_eqn. cbn [map]. rewrite (gdot_zvec_cons Hp) by lia.
  pose proof (gdot_zvec_cons Hp hs (finv x) (map finv xs)) as Eh. rewrite map_length in Eh. rewrite Eh by lia.
  unfold addLR. cbn [map gdot off_val].
  assert (E : gadd C (gadd (gadd (gmul L x) (gdot Ls xs)) (gadd (gmul R (finv x)) (gdot Rs (map finv xs))))
    = gadd (gadd C (gadd (gmul L x) (gmul R (finv x)))) (gadd (gdot Ls xs) (gdot Rs (map finv xs)))) by gsolve.
  rewrite E. auto.
Qed.

Lemma qextract_ok t : forall m gs hs C,
  length gs = (2 ^ m)%nat -> length hs = (2 ^ m)%nat -> qdistinct t -> qtree_ok gs hs C t m ->
  qres gs hs C (qextract t).
Proof.
  induction t as [S1 S2 l|L R x1 x2 x3 x4 t1 IH1 t2 IH2 t3 IH3 t4 IH4]; intros m gs hs C Hg Hh Hd Hok.
  - cbn [qdistinct] in Hd. destruct Hd as [Hnd Hl]. cbn [qextract].
    assert (m = 0)%nat.
    { destruct l as [|[x [[a b] r]] l]; [discriminate|]. destruct (Hok _ (or_introl eq_refl)) as (M1 & _). cbn in M1. lia. }
    subst m. cbn in Hg, Hh. destruct (list1 _ Hg) as [g ->], (list1 _ Hh) as [h ->].
    apply (leaf_ok g h C S1 S2 l); try assumption. apply Forall_forall. intros [x [[a b] r]] Hin.
    destruct (Hok (QPath [] [] [] S1 S2 x a b r)) as (_ & _ & E).
    { cbn [qpaths]. apply in_map_iff. exists (x, (a, b, r)). now split. }
    unfold quad_eqn, addLR in E. cbn [qt_Ls qt_Rs qt_xs qt_S1 qt_S2 qt_x qt_a qt_b qt_r gdot map zvec off_val] in E.
    transitivity (gadd (gadd C (gadd gzero gzero)) (gmul (gadd S1 (gmul S2 x)) x)); [gsolve|]. rewrite E. gsolve.
  - cbn [qdistinct] in Hd. destruct Hd as (Hnd & Hd1 & Hd2 & Hd3 & Hd4).
    assert (Hm : exists m', m = Datatypes.S m').
    { destruct (qpaths_nonempty t1 Hd1) as [q Hq].
      destruct (Hok (qcons L R x1 q)) as (Hl & _ & _).
      - cbn [qpaths]. apply in_or_app. left. now apply in_map.
      - cbn in Hl. eauto. }
    destruct Hm as [m' ->]. set (h := (2 ^ m')%nat).
    assert (Hg' : length gs = (2 * h)%nat) by (rewrite Hg; reflexivity).
    assert (Hh' : length hs = (2 * h)%nat) by (rewrite Hh; reflexivity).
    assert (Hsub : forall x t, qdistinct t -> (forall q, In q (qpaths t) -> In (qcons L R x q) (qpaths (QNode L R x1 x2 x3 x4 t1 t2 t3 t4))) ->
       x <> 0%F /\ qtree_ok (fold1 gs h x) (fold1 hs h (finv x)) (gadd C (gadd (gmul L x) (gmul R (finv x)))) t m').
    { intros x t Hdt Hin. split.
      - destruct (qpaths_nonempty t Hdt) as [q Hq]. destruct (Hok _ (Hin q Hq)) as (_ & Hnz & _). now inversion Hnz.
      - intros q Hq. destruct (Hok _ (Hin q Hq)) as (Hl & Hnz & He).
        cbn [qcons qt_xs qt_Ls qt_Rs qt_S1 qt_S2 qt_x qt_a qt_b qt_r length] in *.
        injection Hl as Hl. apply Forall_inv_tail in Hnz. split; [exact Hl|]. split; [exact Hnz|].
        apply quad_eqn_cons in He; [| rewrite Hl; exact Hg' | rewrite Hl; exact Hh']. rewrite Hl in He. fold h in He. exact He. }
    destruct (Hsub x1 t1 Hd1) as [N1 T1]. { intros q Hq. cbn. rewrite !in_app_iff. left. now apply in_map. }
    destruct (Hsub x2 t2 Hd2) as [N2 T2]. { intros q Hq. cbn. rewrite !in_app_iff. right; left. now apply in_map. }
    destruct (Hsub x3 t3 Hd3) as [N3 T3]. { intros q Hq. cbn. rewrite !in_app_iff. right; right; left. now apply in_map. }
    destruct (Hsub x4 t4 Hd4) as [N4 T4]. { intros q Hq. cbn. rewrite !in_app_iff. right; right; right. now apply in_map. }
    assert (Lg : forall x, length (fold1 gs h x) = h) by (intros; apply fold1_length; lia).
    assert (Lh : forall x, length (fold1 hs h x) = h) by (intros; apply fold1_length; lia).
    specialize (IH1 m' _ _ _ (Lg x1) (Lh (finv x1)) Hd1 T1).
    specialize (IH2 m' _ _ _ (Lg x2) (Lh (finv x2)) Hd2 T2).
    specialize (IH3 m' _ _ _ (Lg x3) (Lh (finv x3)) Hd3 T3).
    specialize (IH4 m' _ _ _ (Lg x4) (Lh (finv x4)) Hd4 T4).
    assert (Hlift : forall x v, qres (fold1 gs h x) (fold1 hs h (finv x)) (gadd C (gadd (gmul L x) (gmul R (finv x)))) (inr v) ->
       qres gs hs C (inr (rlift x v))).
    { intros x v. cbn [qres]. rewrite Lg. intros (A & B & D). split; [rewrite Hg'; now apply rlen_rlift|].
      split; [|now apply rzerob_rlift]. rewrite (rval_rlift gs hs h) by assumption. exact B. }
    cbn [qextract]. destruct (qextract t1) as [o1|v1]; [|now apply Hlift].
    destruct (qextract t2) as [o2|v2]; [|now apply Hlift].
    destruct (qextract t3) as [o3|v3]; [|now apply Hlift].
    destruct (qextract t4) as [o4|v4]; [|now apply Hlift].
    destruct o1 as [[r1 a1] b1], o2 as [[r2 a2] b2], o3 as [[r3 a3] b3], o4 as [[r4 a4] b4].
    cbn [qres qopen] in IH1, IH2, IH3, IH4. rewrite Lg, Lh in IH1, IH2, IH3, IH4.
    apply (combine_ok gs hs h C L R); try assumption; try reflexivity.
    + repeat constructor; assumption.
    + repeat constructor; assumption || tauto.
Qed.

Lemma accept_quad gs hs eq offu offv C (q : qpath G) :
  (1 <= length gs)%nat -> Z.of_nat (length gs) <= 2 ^ 63 -> length hs = length gs ->
  off_ok offu (length gs) -> off_ok offv (length gs) ->
  verifyQuadratic base (script Fg) (QuadPf C (qt_Ls q) (qt_Rs q) (qt_S1 q) (qt_S2 q) (qt_a q) (qt_b q) (qt_r q))
      gs hs (length gs) eq (qt_xs q ++ [qt_x q]) offu offv = Ret true ->
  length (qt_xs q) = length (qt_Ls q) ->
  length (qt_xs q) = log2roundUpN (length gs) /\ Forall (fun x => x <> 0%F) (qt_xs q) /\
  quad_eqn base Fg gs hs None None
    (gadd (gadd C (gmul Fg eq)) (gopp (gadd (gdot gs (offset offu (length gs))) (gdot hs (offset offv (length gs))))))
    (qt_Ls q) (qt_Rs q) (qt_xs q) (qt_S1 q) (qt_S2 q) (qt_x q) (qt_a q) (qt_b q) (qt_r q).
Proof.
  intros H1 H63 Hh Hu Hv' Hv Hlen.
  destruct (Nat.eq_dec (length (qt_Ls q)) (log2roundUpN (length gs))) as [HL|HL].
  2:{ unfold verifyQuadratic in Hv. cbn [script m_gen m_point qpLs qpRs] in Hv.
      apply Nat.eqb_neq in HL. rewrite HL in Hv. discriminate. }
  destruct (Nat.eq_dec (length (qt_Rs q)) (log2roundUpN (length gs))) as [HR|HR].
  2:{ unfold verifyQuadratic in Hv. cbn [script m_gen m_point qpLs qpRs] in Hv.
      apply Nat.eqb_neq in HR. rewrite HR, orb_true_r in Hv. discriminate. }
  destruct (verifyQuadratic_char base (script Fg) (QuadPf C (qt_Ls q) (qt_Rs q) (qt_S1 q) (qt_S2 q) (qt_a q) (qt_b q) (qt_r q)) gs hs (length gs) eq (qt_xs q ++ [qt_x q]) offu offv H1 H63 eq_refl Hh Hu Hv' HL HR)
    as (Fg' & st1 & xs & st2 & x & st3 & V1 & V2 & V3 & V4 & V5 & V6).
  cbn [qpLs qpRs qpS1 qpS2 qpa qpb qpr qpC] in *. cbn [script m_gen m_point] in V1. injection V1 as <- <-.
  rewrite run_script in V2 by congruence. injection V2 as <- <-.
  cbn [script m_chal m_point] in V3. injection V3 as <- <-.
  split; [assumption|].
  destruct (forallb nzb (qt_xs q)) eqn:Enz; [|rewrite V5 in Hv by reflexivity; discriminate].
  destruct (V6 eq_refl) as (b & Eb & Hbb). rewrite Eb in Hv. injection Hv as ->.
  split. { apply Forall_forall. intros y Hy. rewrite forallb_forall in Enz. now apply nzb_true, Enz. }
  assert (He := proj1 Hbb eq_refl). unfold quad_eqn in *. rewrite !off_val_offset in He. rewrite Hh in He. cbn [off_val].
  set (T := gdot gs (offset offu (length gs))) in *. set (T' := gdot hs (offset offv (length gs))) in *. set (A := addLR _ _ _) in *.
  apply (gadd_cancel_l (gadd T T')).
  transitivity (gadd (gadd (gadd C (gmul Fg eq)) A) (gmul (gadd (qt_S1 q) (gmul (qt_S2 q) (qt_x q))) (qt_x q))); [gsolve|].
  rewrite He. gsolve.
Qed.

Lemma qpaths_len (t : qtree G) q : In q (qpaths t) -> length (qt_xs q) = length (qt_Ls q).
Proof.
  revert q. induction t as [S1 S2 l|L R x1 x2 x3 x4 t1 IH1 t2 IH2 t3 IH3 t4 IH4]; intros q Hq; cbn in Hq.
  - apply in_map_iff in Hq. destruct Hq as ([x [[a b] r]] & <- & _). reflexivity.
  - rewrite !in_app_iff, !in_map_iff in Hq.
    destruct Hq as [(q' & <- & Hq)|[(q' & <- & Hq)|[(q' & <- & Hq)|(q' & <- & Hq)]]]; cbn; f_equal; auto.
Qed.

Theorem quadratic_extract k gs hs eq offu offv C t :
  length gs = (2 ^ k)%nat -> Z.of_nat (length gs) <= 2 ^ 63 -> length hs = length gs ->
  off_ok offu (length gs) -> off_ok offv (length gs) ->
  qdistinct t -> qaccepting base Fg gs hs eq offu offv C t ->
  match qextract t with
  | inl (rho, a, b) => length a = length gs /\ length b = length gs /\
      C = gadd (gadd (gadd (gmul base rho) (gdot gs (vadd a (offset offu (length gs)))))
                     (gdot hs (vadd b (offset offv (length gs)))))
               (gmul Fg (dot a b - eq)%F)
  | inr v => relation (base :: Fg :: gs ++ hs) (rflat v)
  end.
Proof.
  intros Hk H63 Hh Hu Hv Hd Hacc.
  assert (H1 : (1 <= length gs)%nat) by (rewrite Hk; pose proof (Nat.pow_nonzero 2 k); lia).
  pose proof (qextract_ok t k gs hs
    (gadd (gadd C (gmul Fg eq)) (gopp (gadd (gdot gs (offset offu (length gs))) (gdot hs (offset offv (length gs))))))
    Hk (eq_trans Hh Hk) Hd) as HR.
  assert (Hlog : log2roundUpN (length gs) = k).
  { destruct (log2N_bounds _ H1 H63) as (B1 & _ & B3). rewrite Hk in B1, B3 |- *.
    apply Nat.pow_le_mono_r_iff in B1; [|lia]. destruct B3 as [B3|B3]; [lia|].
    apply Nat.pow_lt_mono_r_iff in B3; lia. }
  assert (Hok : qtree_ok gs hs
    (gadd (gadd C (gmul Fg eq)) (gopp (gadd (gdot gs (offset offu (length gs))) (gdot hs (offset offv (length gs)))))) t k).
  { intros q Hq. rewrite <- Hlog. apply accept_quad; auto. now apply (qpaths_len t). }
  specialize (HR Hok). destruct (qextract t) as [[[rho a] b]|v]; cbn [qres qopen] in HR.
  - destruct HR as (La & Lb & E). split; [assumption|]. split; [congruence|].
    assert (Lou : forall off, off_ok off (length gs) -> length (@offset p off (length gs)) = length gs).
    { intros [o|] Ho; cbn in *; [assumption|apply repeat_length]. }
    rewrite !gdot_vadd by (rewrite Lou by assumption; congruence).
    set (T := gdot gs (offset offu (length gs))) in *. set (T' := gdot hs (offset offv (length gs))) in *.
    apply (gadd_cancel_l (gadd (gmul Fg eq) (gopp (gadd T T')))).
    transitivity (gadd (gadd C (gmul Fg eq)) (gopp (gadd T T'))); [gsolve|]. rewrite E. unfold qcom. gsolve.
  - destruct HR as ([La Lb] & E & Z0). split; [|split].
    + unfold rflat. cbn [length]. rewrite !app_length. lia.
    + unfold rflat. cbn [gdot]. rewrite gdot_app by lia. rewrite <- E. unfold rval. gsolve.
    + now apply rzerob_false.
Qed.
End QSound.

Section QSound2.
Context {p : Z} {G : gmod p}.
Variable Hp : prime p.
Notation F := (Fp p).
Add Field FpFr3 : (Fp_field Hp).
Implicit Types gs hs : list G.

Definition qextract2 (eq : F) (t1 t2 : qtree G) : (F * list F * list F) + list F :=
  match qextract t1 with
  | inr v => inr (r_rho v :: r_phi v :: 0%F :: r_al v ++ r_be v)
  | inl (r1, a1, b1) =>
      if feqb (dot a1 b1) eq then inl (r1, a1, b1) else
      match qextract t2 with
      | inr v => inr (r_rho v :: 0%F :: r_phi v :: r_al v ++ r_be v)
      | inl (r2, a2, b2) =>
          inr ((r1 - r2)%F :: (dot a1 b1 - eq)%F :: (- (dot a2 b2 - eq))%F ::
               vadd a1 (vscale (- (1))%F a2) ++ vadd b1 (vscale (- (1))%F b2))
      end
  end.

Theorem quadratic_extract2 k base F1 F2 gs hs eq offu offv (C : G) t1 t2 :
  length gs = (2 ^ k)%nat -> Z.of_nat (length gs) <= 2 ^ 63 -> length hs = length gs ->
  off_ok offu (length gs) -> off_ok offv (length gs) ->
  qdistinct t1 -> qdistinct t2 ->
  qaccepting base F1 gs hs eq offu offv C t1 -> qaccepting base F2 gs hs eq offu offv C t2 ->
  match qextract2 eq t1 t2 with
  | inl (rho, a, b) => length a = length gs /\ length b = length gs /\
      C = gadd (gadd (gmul base rho) (gdot gs (vadd a (offset offu (length gs)))))
               (gdot hs (vadd b (offset offv (length gs)))) /\
      dot a b = eq
  | inr cs => relation (base :: F1 :: F2 :: gs ++ hs) cs
  end.
Proof.
  intros Hk H63 Hh Hu Hv Hd1 Hd2 A1 A2. unfold qextract2.
  pose proof (quadratic_extract Hp base F1 k gs hs eq offu offv C t1 Hk H63 Hh Hu Hv Hd1 A1) as E1.
  pose proof (quadratic_extract Hp base F2 k gs hs eq offu offv C t2 Hk H63 Hh Hu Hv Hd2 A2) as E2.
  assert (Lou : forall off, off_ok off (length gs) -> length (@offset p off (length gs)) = length gs).
  { intros [o|] Ho; cbn in *; [assumption|apply repeat_length]. }
  destruct (qextract t1) as [[[r1 a1] b1]|v].
  2:{ destruct E1 as (L & E & Z0). unfold rflat in *. cbn [length gdot] in *. split; [cbn; lia|]. split.
      - cbn [gdot]. transitivity (gadd (gmul base (r_rho v)) (gadd (gmul F1 (r_phi v)) (gdot (gs ++ hs) (r_al v ++ r_be v)))); [gsolve|exact E].
      - intros Hz. apply Z0. inversion Hz as [|? ? B1 Hz1]. inversion Hz1 as [|? ? B2 Hz2]. inversion Hz2. repeat constructor; assumption. }
  destruct E1 as (La & Lb & E1).
  destruct (feqb (dot a1 b1) eq) eqn:E.
  { apply feqb_eq in E. do 2 (split; [assumption|]). split; [|assumption]. rewrite E1, E. gsolve. }
  apply feqb_neq in E.
  destruct (qextract t2) as [[[r2 a2] b2]|v].
  2:{ destruct E2 as (L & E2 & Z0). unfold rflat in *. cbn [length gdot] in *. split; [cbn; lia|]. split.
      - cbn [gdot]. transitivity (gadd (gmul base (r_rho v)) (gadd (gmul F2 (r_phi v)) (gdot (gs ++ hs) (r_al v ++ r_be v)))); [gsolve|exact E2].
      - intros Hz. apply Z0. inversion Hz as [|? ? B1 Hz1]. inversion Hz1 as [|? ? B2 Hz2]. inversion Hz2. repeat constructor; assumption. }
  destruct E2 as (La2 & Lb2 & E2).
  assert (LA : length (vadd a1 (vscale (- (1))%F a2)) = length gs) by (rewrite vadd_length; rewrite ?vscale_length; congruence).
  assert (LB : length (vadd b1 (vscale (- (1))%F b2)) = length hs) by (rewrite vadd_length; rewrite ?vscale_length; congruence).
  split.
  { cbn [length]. rewrite !app_length, LA, LB. reflexivity. }
  split.
  - cbn [gdot]. rewrite gdot_app by congruence. rewrite !gdot_vadd by (rewrite vscale_length; congruence).
    unfold vscale. rewrite !gdot_scale.
    rewrite !gdot_vadd in E1, E2 by (rewrite Lou by assumption; congruence).
    set (T := gdot gs (offset offu (length gs))) in *. set (T' := gdot hs (offset offv (length gs))) in *.
    apply (gadd_cancel_l C). rewrite gadd_0_r. rewrite E2 at 1. rewrite E1. gsolve.
  - intros Hz. inversion Hz as [|? ? _ Hz']. inversion Hz' as [|? ? Hz0 _]. apply E. now apply (proj1 (fsub_eq_0 _ _)).
Qed.
End QSound2.
