(** Proofs without a witness are accepted. *)
From Coq Require Import String.
From Coq Require Import ZArith Znumtheory List Bool Lia Ring Field.
From Verif Require Import NumTheory Outcome Fp FSum GroupMod Ring ConstraintsModel ConstraintsSpec ConstraintsProofs ConstraintsMerge
  ConstraintsOther PedersenModel BulletproofModel BulletproofSpec BulletproofProofs BulletproofQuad BulletproofSound TernaryModel RegevModel RegevPfModel RegevPfSpec RegevPfBase RegevStSpec
  RegevAggModel RegevAggSpec RegevAggMaps RegevPfPost RegevAggProofs RegevAggTotal RegevAggOpen RegevAggAccept RegevAggForge RegevRunModel HideSpec HideAgg CheatSpec RegevAggCheat FreeSpec.
Import ListNotations.
Open Scope Z_scope.

Section V.
Context {p : Z} (Hp : prime p) {ell : nat} {G : gmod p} {R : rmerlin G}.
Notation F := (Fp p).
Add Field FpFldFree : (Fp_field Hp).
Lemma dot_zeros (l : list F) : forall n, dot l (repeat 0%F n) = 0%F.
Proof. induction l as [|a l IH]; intros [|n]; cbn [repeat dot]; try reflexivity. rewrite IH. ring. Qed.
Lemma dot_unit (x : F) n : dot (unit_vec x n) (unit_vec 1%F n) = x.
Proof. unfold unit_vec. cbn [dot]. rewrite dot_zeros. ring. Qed.
Lemma unit_length (x : F) n : (1 <= n)%nat -> length (unit_vec x n) = n.
Proof. intros H. unfold unit_vec. cbn [length]. rewrite repeat_length. lia. Qed.

Variable c : cfg ell G.
Variable pick : list (cursor p) -> nat.
Hypothesis Hpick : queue_order pick.
Notation pstate := (@pstate p ell G R).
Hypothesis Hc : wf_cfg c.
Variable st : pstate.
Hypothesis Hr : set_up c st.
Hypothesis Hm : all_mentioned c st.
Notation W := (pidx st WW).
Variable wRnd : F.
Hypothesis Hz : forall m l, fst (m_chal R m l) <> 0%F.

Lemma free_accepted st'' d rL rQ b : prepareProofs R c pick st wRnd = Ret (st'', d) ->
  exists pfL pfQ, free_linear (cbase c) (public_of d) rL b = Ret pfL /\ free_quadratic (cbase c) (public_of d) rQ b = Ret pfQ /\
    accepted c d pfL pfQ /\ lpC pfL = gmul (cbase c) rL.
Proof.
  intros E. pose proof (cheat_length Hp c pick Hpick Hc st Hr Hm wRnd st'' d E) as Lq.
  destruct (prep_inv Hp c pick Hpick Hc st Hr Hm wRnd st'' d E) as (st' & ap & f & Ed).
  pose proof (flat_lin_valid Hp c pick Hc st Hr Hm wRnd st' ap f) as VL. rewrite <- Ed in VL. destruct VL as (L1 & L2 & _ & L3 & _).
  assert (E0 : flinEq d = 0%F) by (rewrite Ed; reflexivity).
  destruct (linear_complete Hp (cbase c) R (repeat 0%F (length (flinGs d))) (flinStmnt d) (flinGs d) (length (flinGs d)) (flinEq d) (fmL d) None rL (blL b) (blLS b)
    (gmul (cbase c) rL)) as [[_ N]|(pfL & PL & CL & _ & _ & VL)]; auto; try contradiction.
  { apply repeat_length. } { exact I. } { now rewrite dot_zeros, E0. }
  { rewrite gdot_0. cbn [off_val]. now rewrite !gadd_0_r. }
  destruct VL as [VL|[_ N]]; [|contradiction].
  pose proof (rd_W c Hc st Hr) as HW. assert (GW : Z.of_nat (length (cGs c)) = W + 1) by (destruct Hr as (_ & _ & _ & _ & _ & _ & _ & _ & H); exact H).
  assert (Ls : Z.of_nat (length (fquadGs d)) <= 2 ^ 63).
  { rewrite Ed. unfold the_flat. cbn [fquadGs]. rewrite map_length, app_length. cbn [length].
    assert (H : (length (fn_I c pick st st' wRnd ap f) <= length (zrange 0 (Z.to_nat W)))%nat).
    { apply NoDup_incl_length; [apply zsorted_NoDup, I_sorted|]. intros k Hk. apply in_zrange. pose proof (I_lt c pick st wRnd st' ap f k Hk). lia. }
    unfold zrange in H. rewrite map_length, seq_length in H. lia. }
  assert (LH : length (fquadHs d) = length (fquadGs d)) by (rewrite Ed; unfold the_flat; cbn [fquadHs fquadGs]; now rewrite !map_length).
  assert (LoG : length (foffG d) = length (fquadGs d)) by (rewrite Ed; unfold the_flat; cbn [foffG fquadGs]; now rewrite !map_length).
  assert (LoH : length (foffH d) = length (fquadGs d)) by (rewrite Ed; unfold the_flat; cbn [foffH fquadGs]; now rewrite !map_length).
  assert (Q1 : (1 <= length (fquadGs d))%nat) by (rewrite Lq; lia).
  destruct (quadratic_complete Hp (cbase c) R (unit_vec (fquadEq d) (length (fquadGs d))) (unit_vec 1%F (length (fquadGs d))) (fquadGs d) (fquadHs d) (length (fquadGs d)) (fquadEq d) (fmQ d)
    (Some (foffG d)) (Some (foffH d)) rQ (blQ b) (blQST b) (blQUV b)
    (gadd (gadd (gadd (gmul (cbase c) rQ) (gdot (fquadGs d) (unit_vec (fquadEq d) (length (fquadGs d))))) (gdot (fquadHs d) (unit_vec 1%F (length (fquadGs d)))))
      (gadd (gdot (fquadGs d) (foffG d)) (gdot (fquadHs d) (foffH d))))) as [[_ N]|(pfQ & PQ & CQ & _ & _ & VQ)]; auto using unit_length, dot_unit; try contradiction.
  exists pfL, pfQ. split; [exact PL|]. split; [exact PQ|]. split; [split; assumption|exact CL].
Qed.
Lemma honest_bound (d : flatdata R) b pfL pfQ : makeProofs c d b = Ret (pfL, pfQ) -> bound_to d pfL pfQ.
Proof.
  unfold makeProofs. intros E. apply obind_ret_inv in E as (x & EL & E). apply obind_ret_inv in E as (y & EQ & E).
  injection E as -> ->. split.
  - unfold proveLinear in EL. destruct (m_gen R _ _) as [Fg m1]. apply obind_ret_inv in EL as (res & _ & EL). destruct (blLS b) as [s t].
    apply obind_ret_inv in EL as (g0 & _ & EL). apply obind_ret_inv in EL as (b0 & _ & EL). apply obind_ret_inv in EL as (a0 & _ & EL).
    destruct (m_chal R _ _) as [x m2]. apply (f_equal (fun o => match o with Ret q => lpC q | _ => lpC pfL end)) in EL. now symmetry.
  - unfold proveQuadratic in EQ. destruct (m_gen R _ _) as [Fg m1]. apply obind_ret_inv in EQ as (res & _ & EQ).
    unfold proveQuadratic_last in EQ. destruct (blQST b) as [s t], (blQUV b) as [u v].
    apply obind_ret_inv in EQ as (g0 & _ & EQ). apply obind_ret_inv in EQ as (b0 & _ & EQ). apply obind_ret_inv in EQ as (a0 & _ & EQ). apply obind_ret_inv in EQ as (h0 & _ & EQ).
    destruct (m_chal R _ _) as [x m2]. apply (f_equal (fun o => match o with Ret q => qpC q | _ => qpC pfQ end)) in EQ. now symmetry.
Qed.
End V.
