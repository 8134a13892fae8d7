(** Norm constraints modulo p and over the integers. *)
From Coq Require Import ZArith Znumtheory Lia List Bool Arith.
From Verif Require Import Outcome Fp FSum GroupMod Ring TernaryModel TernarySpec TernaryProofs
  AlgebraModel AlgebraSpec AlgebraProofs AlgebraMore ConstraintsModel ConstraintsSpec BulletproofModel RegevModel RegevPfModel RegevPfSpec RegevPfBase
  RegevStSpec RegevPfPost ConstraintsProofs RegevAggOpen CountTernary StepSpec StepSound.
Import ListNotations.
Open Scope Z_scope.

Section N.
Context {p : Z}.
Hypothesis Hp : 2 <= p.
Notation F := (Fp p).
Lemma quad_val_int idx (w : Z -> F) : quad_val idx w w = toF p (sum_sq (map (fun k => balanced (w k)) idx)).
Proof.
  unfold quad_val. induction idx as [|k idx IH]; [reflexivity|]. cbn [map fsum fold_right]. unfold sum_sq in *. cbn [fold_right].
  rewrite toF_add, toF_mul. rewrite (proj1 (balanced_spec Hp (w k))). fold (fsum (map (fun k => (w k * w k)%F) idx)). now rewrite IH.
Qed.
Lemma sum_sq_bound S zs : 0 <= S -> (forall z, In z zs -> Z.abs z <= S) -> 0 <= sum_sq zs <= Z.of_nat (length zs) * (S * S).
Proof.
  intros HS. induction zs as [|z zs IH]; intros H; [cbn; lia|]. unfold sum_sq in *. cbn [fold_right length].
  specialize (IH (fun y Hy => H y (or_intror Hy))). specialize (H z (or_introl eq_refl)). nia.
Qed.
Lemma sum_sq_ge z zs : In z zs -> z * z <= sum_sq zs.
Proof.
  assert (P : forall l, 0 <= sum_sq l) by (induction l as [|a l IH]; unfold sum_sq in *; cbn [fold_right]; [lia|nia]).
  induction zs as [|a zs IH]; intros H; [destruct H|]. unfold sum_sq in *. cbn [fold_right]. pose proof (P zs). destruct H as [->|H]; [|specialize (IH H)]; nia.
Qed.
(** The norm is b over the integers, hence each entry is at most b. *)
Lemma norm_integer (q : quadcon p) (w : Z -> F) S b : 0 <= S -> 0 <= b ->
  scalars_within S (fun k => In k (qidx q)) w -> Z.of_nat (length (qidx q)) * (S * S) < p -> b * b < p ->
  qeq q = toF p (b * b) -> quad_sat q w w ->
  sum_sq (map (fun k => balanced (w k)) (qidx q)) = b * b /\ scalars_within b (fun k => In k (qidx q)) w.
Proof.
  intros HS Hb HW HL Hb2 Hq Hs. unfold quad_sat in Hs. rewrite quad_val_int, Hq in Hs.
  set (zs := map (fun k => balanced (w k)) (qidx q)) in *.
  assert (R : 0 <= sum_sq zs <= Z.of_nat (length zs) * (S * S)).
  { apply sum_sq_bound; [assumption|]. intros z Hz. apply in_map_iff in Hz. destruct Hz as (k & <- & Hk). apply (HW k); [assumption|]. now apply balanced_spec. }
  assert (Lz : length zs = length (qidx q)) by (unfold zs; apply map_length). rewrite Lz in R. apply toF_eq_iff in Hs. rewrite !Z.mod_small in Hs by nia.
  split; [exact Hs|]. intros k z Hk Hz.
  assert (Hin : In z zs) by (apply in_map_iff; exists k; split; [apply (is_balanced_unique Hp (w k)); [now apply balanced_spec|assumption]|assumption]).
  pose proof (sum_sq_ge z zs Hin). nia.
Qed.
End N.

Section C.
Context {p : Z} {ell : nat} {G : gmod p} {R : rmerlin G}.
Variable c : cfg ell G.
Hypothesis Hc : wf_cfg c.
Notation F := (Fp p).
Notation E := (elt p ell).
Notation JL := (Z.of_nat (JLDIM c)).

Lemma cfg_p : 2 <= p. Proof. destruct Hc as (_ & _ & _ & _ & _ & _ & _ & _ & _ & H & _). lia. Qed.
Lemma cfg_ell : (0 < ell)%nat. Proof. now destruct Hc. Qed.
Lemma norm_var_range (idx : var -> Z) x : layout_of c idx -> is_norm x = true -> forall k, idx x <= k < idx x + clen c x -> 0 <= k < 10 * (JL + 4).
Proof.
  intros Hl Hx k Hk. destruct (lay_good c Hc _ Hl) as (A1 & A2 & A3 & _). rewrite (A1 x Hx) in Hk.
  destruct x; try discriminate Hx; unfold clen, vlen in Hk; cbn [is_comp is_pad npos] in Hk; lia.
Qed.
Lemma comp_bound (st : @pstate p ell G R) i b x xpad (w : Z -> F) S :
  layout_of c (pidx st) -> is_comp x = true -> is_pad xpad = true -> norm_done c st i b x xpad -> norm_sat st i w ->
  0 <= S -> 0 <= b -> b * b < p -> (JL + 4) * (S * S) < p ->
  scalars_within S (fun k => 0 <= k < 10 * (JL + 4)) w ->
  scalars_within b (fun k => in_var c st x k \/ in_var c st xpad k) w.
Proof.
  intros Hl Hx Hpad (q & E1 & Wq & Eq & Hin & _) (q' & E2 & Hsat) HS Hb Hb2 HSp HW.
  assert (q' = q) by congruence. subst q'.
  assert (Nx : is_norm x = true) by (unfold is_norm; now rewrite Hx).
  assert (Np : is_norm xpad = true) by (unfold is_norm; rewrite Hpad; apply orb_true_r).
  assert (Lx : clen c x = JL) by (unfold clen, vlen; now rewrite Hx).
  assert (Lp : clen c xpad = 4) by (unfold clen, vlen; destruct xpad; try discriminate Hpad; reflexivity).
  assert (Len : (length (qidx q) <= JLDIM c + 4)%nat).
  { assert (I : incl (qidx q) (zrange (pidx st x) (JLDIM c) ++ zrange (pidx st xpad) 4)).
    { intros k Hk. apply Hin in Hk. apply in_app_iff. destruct Hk as [Hk|Hk]; [left|right]; apply in_zrange; unfold in_var in Hk; lia. }
    pose proof (NoDup_incl_length (zsorted_NoDup _ Wq) I) as L. rewrite app_length in L. unfold zrange in L. now rewrite !map_length, !seq_length in L. }
  destruct (norm_integer cfg_p q w S b HS Hb) as [_ H]; try assumption.
  - intros k z Hk Hz. apply (HW k z); [|assumption]. apply Hin in Hk.
    destruct Hk as [Hk|Hk]; [apply (norm_var_range (pidx st) x Hl Nx)|apply (norm_var_range (pidx st) xpad Hl Np)]; exact Hk.
  - nia.
  - intros k z Hk Hz. apply (H k z); [now apply Hin|assumption].
Qed.
Lemma jl_mul : (JLDIM c / ell * ell = JLDIM c)%nat.
Proof. destruct Hc as (H & _ & (d & D) & _). rewrite D, Nat.div_mul by lia. reflexivity. Qed.
Lemma rows_mul : (10 * (JLDIM c + 4) / ell * ell = 10 * (JLDIM c + 4))%nat.
Proof.
  destruct Hc as (H & (d4 & D4) & (d & D) & _). assert (Q : (10 * (JLDIM c + 4) = 10 * (d + d4) * ell)%nat) by (rewrite D; lia).
  rewrite Q, Nat.div_mul by lia. reflexivity.
Qed.
Lemma scalars_readV b i0 n (w : Z -> F) : scalars_within b (fun k => i0 <= k < i0 + Z.of_nat (n * ell)) w -> within (ell := ell) b n (readV w i0).
Proof.
  intros H i k z Hi Hk Hz. unfold readV, readE in Hz. rewrite coeff_mkE in Hz. rewrite (proj2 (Nat.ltb_lt _ _)) in Hz by assumption.
  refine (H _ z _ Hz). nia.
Qed.
Lemma readV_scalars b n (w : Z -> F) : within (ell := ell) b n (readV w 0) -> scalars_within b (fun k => 0 <= k < Z.of_nat (n * ell)) w.
Proof.
  intros H k z Hk Hz. pose proof cfg_ell as He. set (kn := Z.to_nat k). assert (Ek : k = Z.of_nat kn) by (unfold kn; lia).
  pose proof (Nat.div_mod kn ell ltac:(lia)) as D. pose proof (Nat.mod_upper_bound kn ell ltac:(lia)) as U.
  apply (H (kn / ell)%nat (kn mod ell)%nat z); [apply Nat.div_lt_upper_bound; nia|assumption|].
  unfold readV, readE. rewrite coeff_mkE, (proj2 (Nat.ltb_lt _ _)) by assumption.
  replace (0 + Z.of_nat (kn / ell) * Z.of_nat ell + Z.of_nat (kn mod ell)) with k by nia. exact Hz.
Qed.
Lemma comp_readV b x (st : @pstate p ell G R) (w : Z -> F) (I : Z -> Prop) : is_comp x = true -> scalars_within b (fun k => in_var c st x k \/ I k) w ->
  within (ell := ell) b (JLDIM c / ell) (readV w (pidx st x)).
Proof.
  intros Hx H. apply scalars_readV. rewrite jl_mul. intros k z Hk Hz. apply (H k z); [left|assumption]. unfold in_var, clen, vlen. rewrite Hx. exact Hk.
Qed.
End C.
