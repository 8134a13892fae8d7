(** The generator repeated in the flattened quadratic statement, and what a prover
    gains from it. *)
From Coq Require Import String.
From Coq Require Import ZArith Znumtheory List Bool Lia Ring Field Permutation.
From Verif Require Import NumTheory Outcome Fp FSum GroupMod Ring ConstraintsModel ConstraintsSpec ConstraintsProofs ConstraintsMerge
  ConstraintsOther PedersenModel BulletproofModel BulletproofSpec BulletproofProofs BulletproofQuad TernaryModel RegevModel RegevPfModel RegevPfSpec RegevPfBase RegevStSpec
  RegevAggModel RegevAggSpec RegevAggMaps RegevPfPost RegevAggProofs RegevAggTotal RegevAggOpen RegevAggAccept.
Import ListNotations.
Open Scope Z_scope.

Lemma zsorted_same (a b : list Z) : zsorted a -> zsorted b -> (forall k, In k a <-> In k b) -> a = b.
Proof.
  revert b. induction a as [|x a IH]; intros [|y b] Sa Sb H; [reflexivity| | |].
  - destruct (proj2 (H y) (or_introl eq_refl)).
  - destruct (proj1 (H x) (or_introl eq_refl)).
  - cbn in Sa, Sb. destruct Sa as [A1 A2], Sb as [B1 B2].
    assert (x = y).
    { destruct (proj1 (H x) (or_introl eq_refl)) as [E|E]; [auto|]. destruct (proj2 (H y) (or_introl eq_refl)) as [E'|E']; [auto|].
      apply B1 in E. apply A1 in E'. lia. }
    subst y. f_equal. apply IH; [exact A2|exact B2|]. intros k. split; intros K.
    + destruct (proj1 (H k) (or_intror K)) as [<-|E]; [apply A1 in K; lia|exact E].
    + destruct (proj2 (H k) (or_intror K)) as [<-|E]; [apply B1 in K; lia|exact E].
Qed.
Lemma zsorted_zrange n : forall i0, zsorted (zrange i0 n).
Proof.
  induction n as [|n IH]; intros i0; [exact Logic.I|]. unfold zrange. cbn [seq map zsorted]. rewrite <- seq_shift, map_map.
  assert (E : map (fun x => i0 + Z.of_nat (S x)) (seq 0 n) = zrange (i0 + 1) n) by (unfold zrange; apply map_ext; intros; lia).
  rewrite E. split; [|apply IH]. intros k Hk. apply in_zrange in Hk. lia.
Qed.
Lemma zrange_snoc i0 n : zrange i0 (S n) = zrange i0 n ++ [i0 + Z.of_nat n].
Proof. unfold zrange. rewrite seq_S, map_app. reflexivity. Qed.

Section Forge.
Context {p : Z} (Hp : prime p) {ell : nat} {G : gmod p} {R : rmerlin G}.
Notation F := (Fp p).
Add Field FpFldF : (Fp_field Hp).
Variable c : cfg ell G.
Variable pick : list (cursor p) -> nat.
Hypothesis Hpick : queue_order pick.
Notation pstate := (@pstate p ell G R).
Hypothesis Hc : wf_cfg c.
Variable st : pstate.
Hypothesis Hr : set_up c st.
Hypothesis Hm : all_mentioned c st.
Notation W := (pidx st WW).
Variable wRnd : F.
Section F.
Variables (st' : pstate) (ap : rtp G).
Variable f : fin c pick st st' wRnd ap.
Notation I := (fn_I c pick st st' wRnd ap f).
Lemma I_range : exists n, I = zrange 0 (S n) /\ (S n <= length (cHs c))%nat /\ Z.of_nat n < W.
Proof.
  destruct (rd_layout c Hc st Hr) as (_ & L2 & n & L3).
  assert (Hn : 0 < n). { pose proof (L3 DCompHi) as H. change (pidx st DCompHi + clen c DCompHi <= n) in H. pose proof (lay_pos c Hc _ (rd_lay c st Hr) DCompHi). pose proof (clen_pos c Hc DCompHi). lia. }
  assert (E : I = zrange 0 (Z.to_nat n)).
  { apply zsorted_same; [apply I_sorted|apply zsorted_zrange|]. intros k. rewrite (I_spec c pick st Hr wRnd st' ap f k), in_zrange. split.
    - intros (x & Hx & Hk). specialize (L3 x). rewrite Hx in L3. pose proof (lay_pos c Hc _ (rd_lay c st Hr) x). unfold in_var in Hk. lia.
    - intros Hk. pose proof (L3 WW) as HW. change (n <= W) in HW. destruct (proj1 (L2 k) ltac:(lia)) as (x & Hx). exists x. specialize (L3 x).
      destruct (is_norm x); [now split|lia]. }
  pose proof (I_len c pick Hc st Hr wRnd st' ap f) as HL. rewrite E in HL. unfold zrange in HL. rewrite map_length, seq_length in HL.
  exists (Z.to_nat n - 1)%nat. replace (S (Z.to_nat n - 1)) with (Z.to_nat n) by lia. split; [exact E|]. split; [lia|].
  pose proof (L3 WW) as HW. change (n <= W) in HW. lia.
Qed.
(** The shape of the flattened lists. *)
Lemma flat_shape : exists n, (n < length (cHs c))%nat /\ Z.of_nat n < W /\
  fquadGs (the_flat c pick st wRnd st' ap f) = map (gen (cGs c)) (zrange 0 n ++ [Z.of_nat n; W]) /\
  fquadHs (the_flat c pick st wRnd st' ap f) = map (gen (cHs c)) (zrange 0 n ++ [Z.of_nat n; Z.of_nat n]) /\
  fqwG (the_flat c pick st wRnd st' ap f) = map (coef (pqG st')) (zrange 0 n ++ [Z.of_nat n; W]) /\
  fqwH (the_flat c pick st wRnd st' ap f) = map (coef (pqH st')) (zrange 0 n ++ [Z.of_nat n; W]) /\
  I ++ [W] = zrange 0 n ++ [Z.of_nat n; W].
Proof.
  destruct I_range as (n & E & Ln & LW). exists n. split; [lia|]. split; [exact LW|]. unfold the_flat. cbn [fquadGs fquadHs fqwG fqwH].
  assert (EI : I ++ [W] = zrange 0 n ++ [Z.of_nat n; W]) by (rewrite E, zrange_snoc, <- app_assoc; reflexivity).
  rewrite EI. split; [reflexivity|]. split; [|auto].
  rewrite !map_app. f_equal.
  - apply map_ext_in. intros k Hk. apply in_zrange in Hk. unfold hgen. rewrite (proj2 (Z.eqb_neq k W)) by lia. reflexivity.
  - rewrite E. cbn [map]. unfold hgen. rewrite Z.eqb_refl, (proj2 (Z.eqb_neq (Z.of_nat n) W)) by lia.
    unfold zrange, gen. rewrite map_length, seq_length, Nat2Z.id. repeat f_equal. lia.
Qed.
Lemma lin_shape : exists ks, NoDup ks /\ (forall k, In k ks -> 0 <= k <= W) /\ flinGs (the_flat c pick st wRnd st' ap f) = map (gen (cGs c)) ks.
Proof.
  exists (keys (lterms (rlin (rv ap)))). split; [|split; [|reflexivity]].
  - apply zsorted_NoDup, ksorted_keys. exact (proj1 (fin_shape c pick st st' wRnd ap f)).
  - intros k. exact (lin_key_bound c pick Hc st Hr Hm wRnd st' ap f k).
Qed.
Lemma forge b : (forall l x y, fqwG (the_flat c pick st wRnd st' ap f) = l ++ [x; y] -> x <> y) ->
  exists wH, proveVerify R c (with_wH (the_flat c pick st wRnd st' ap f) wH) b = Ret (true, true) \/
  (proveVerify R c (with_wH (the_flat c pick st wRnd st' ap f) wH) b = Throw /\ ~ (forall m l, fst (m_chal R m l) <> 0%F)).
Proof.
  intros Hxy. destruct flat_shape as (n & Ln & LW & _ & EH & EG & _ & EI).
  set (a := coef (pqG st')) in *. set (h := coef (pqH st')) in *.
  rewrite map_app in EG. specialize (Hxy _ _ _ EG).
  set (v := dot (map a (zrange 0 n ++ [Z.of_nat n; W])) (map h (zrange 0 n ++ [Z.of_nat n; W]))).
  set (t := ((qeq (rquad (rv ap)) - v) * finv (a (Z.of_nat n) - a W))%F).
  assert (Hne : (a (Z.of_nat n) - a W)%F <> 0%F).
  { intros H. apply Hxy. transitivity (a (Z.of_nat n) - a W + a W)%F; [ring|]. rewrite H. ring. }
  exists (map h (zrange 0 n) ++ [(h (Z.of_nat n) + t)%F; (h W - t)%F]).
  apply (flat_accept_H Hp c pick Hc st Hr Hm wRnd st' ap f).
  - rewrite EI, !app_length, map_length. reflexivity.
  - assert (Ev : v = (dot (map a (zrange 0 n)) (map h (zrange 0 n)) + (a (Z.of_nat n) * h (Z.of_nat n) + (a W * h W + 0)))%F).
    { unfold v. rewrite !map_app, dot_app by now rewrite !map_length. reflexivity. }
    rewrite EI, map_app, dot_app by now rewrite !map_length. cbn [map dot]. unfold t. rewrite Ev.
    fold a. field. exact Hne.
  - unfold the_flat in EH. cbn [fquadHs] in EH. rewrite EH, EI. fold h. rewrite !map_app, !gdot_app by now rewrite !map_length. cbn [map gdot]. f_equal. gsolve.
Qed.
End F.
(** What prepareProofs returns is [the_flat]. *)
Lemma prep_inv st'' d : prepareProofs R c pick st wRnd = Ret (st'', d) -> exists st' ap (f : fin c pick st st' wRnd ap), d = the_flat c pick st wRnd st' ap f.
Proof.
  intros E. unfold prepareProofs in E. destruct (aggregateProver R c pick st wRnd) as [[st' ap]| | |] eqn:EA; try discriminate.
  destruct (final Hp c pick Hpick st st' wRnd ap (rd_wf c Hc st Hr) (rd_disj c Hc st Hr) EA) as [f]. exists st', ap, f.
  destruct (prep_ok Hp c pick Hc st Hr Hm wRnd st' ap f EA) as (s2 & E2 & _). unfold prepareProofs in E2. rewrite EA in E2. congruence.
Qed.
End Forge.
