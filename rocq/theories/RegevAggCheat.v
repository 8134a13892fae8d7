(** The number of variables of the aggregated quadratic statement is odd, so that the
    cheating prover of C23 can be used. *)
From Coq Require Import String.
From Coq Require Import ZArith Znumtheory List Bool Lia Ring Field.
From Verif Require Import NumTheory Outcome Fp FSum GroupMod Ring ConstraintsModel ConstraintsSpec ConstraintsProofs ConstraintsMerge
  ConstraintsOther PedersenModel BulletproofModel BulletproofSpec BulletproofProofs BulletproofQuad BulletproofForgery TernaryModel RegevModel RegevPfModel RegevPfSpec RegevPfBase RegevStSpec
  RegevAggModel RegevAggSpec RegevAggMaps RegevPfPost RegevAggProofs RegevAggTotal RegevAggOpen RegevAggAccept RegevAggForge CheatSpec.
Import ListNotations.
Open Scope Z_scope.

Lemma odd_not_pow n : (1 < n)%nat -> Nat.Odd n -> forall k, n <> (2 ^ k)%nat.
Proof.
  intros Hn [m Hm] [|k] E; [cbn in E; lia|]. rewrite Nat.pow_succ_r' in E. lia.
Qed.
Section Cheat.
Context {p : Z} (Hp : prime p) {ell : nat} {G : gmod p} {R : rmerlin G}.
Notation F := (Fp p).
Add Field FpFldC : (Fp_field Hp).
Variable c : cfg ell G.
Variable pick : list (cursor p) -> nat.
Hypothesis Hpick : queue_order pick.
Notation pstate := (@pstate p ell G R).
Hypothesis Hc : wf_cfg c.
Variable st : pstate.
Hypothesis Hr : set_up c st.
Hypothesis Hm : all_mentioned c st.
Notation W := (pidx st WW).
Variable wRnd : F.
Section F.
Variables (st' : pstate) (ap : rtp G).
Variable f : fin c pick st st' wRnd ap.
Notation I := (fn_I c pick st st' wRnd ap f).
Lemma I_count : length I = (10 * (JLDIM c + 4))%nat.
Proof.
  assert (GI : good_idx (Z.of_nat (JLDIM c)) (Z.of_nat (LINYDIM c)) (Z.of_nat ell) (kay (cgk c)) (enn (cgk c)) (tee (cgk c)) (pidx st)).
  { destruct Hc as (A1 & A2 & A3 & A4 & A5 & A6 & A7). apply layout_good; try assumption; try lia. exact (rd_lay c st Hr). }
  destruct GI as (N1 & N2 & _ & _ & WE & _ & N7).
  set (n := (10 * (JLDIM c + 4))%nat). assert (E : I = zrange 0 n); [|rewrite E; unfold zrange; now rewrite map_length, seq_length].
  apply zsorted_same; [apply I_sorted|apply zsorted_zrange|]. intros k. rewrite (I_spec c pick st Hr wRnd st' ap f k), in_zrange, Z.add_0_l.
  assert (Hn : Z.of_nat n = 10 * Z.of_nat (JLDIM c) + 40) by (unfold n; lia). rewrite Hn. split.
  - intros (x & Hx & Hk). unfold in_var, clen, vlen in Hk. rewrite (N1 x Hx) in Hk. destruct x; try discriminate Hx; cbn [npos is_comp is_pad] in Hk; lia.
  - intros Hk. destruct (N7 k) as (x & Hx). { rewrite WE. cbn [pos]. pose proof (N2 WW eq_refl) as Q. rewrite WE in Q. cbn [npos pos] in Q. lia. }
    exists x. split; [|exact Hx]. destruct (is_norm x) eqn:Ex; [reflexivity|]. specialize (N2 x Ex). cbn [npos] in N2. lia.
Qed.
Lemma cheat b : (forall m l, fst (m_chal R m l) <> 0%F) -> let d := the_flat c pick st wRnd st' ap f in
  exists pfL pfQ,
    proveLinear (cbase c) R (flinCom d) (flRnd d) (fmL d) (blL b) (blLS b) (flinWtns d) (flinStmnt d) (flinGs d) (length (flinGs d)) = Ret pfL /\
    cheatQuadratic (cbase c) R (fquadCom d) (fqRnd d) (fmQ d) (blQ b) (blQST b) (blQUV b) (fquadGs d) (fqwG d) (fquadHs d) (fqwH d) (length (fquadGs d))
      (fquadEq d - dot (fqwG d) (fqwH d))%F = Ret pfQ /\ accepted c d pfL pfQ.
Proof.
  intros Hz d. pose proof I_count as HI.
  set (wG := qeq (rquad (rv ap)) :: repeat 0%F (length I)). set (wH := 1%F :: repeat (0%F : F) (length I)).
  assert (LG : length wG = length (I ++ [W])) by (unfold wG; rewrite app_length; cbn [length]; rewrite repeat_length; lia).
  assert (LH : length wH = length (I ++ [W])) by (unfold wH; rewrite app_length; cbn [length]; rewrite repeat_length; lia).
  assert (DQ : dot wG wH = qeq (rquad (rv ap))).
  { unfold wG, wH. cbn [dot]. assert (Z0 : forall n, dot (repeat (0%F : F) n) (repeat 0%F n) = 0%F) by (induction n as [|n IH]; [reflexivity|cbn [repeat dot]; rewrite IH; ring]). rewrite Z0. ring. }
  destruct (flat_accept_C Hp c pick Hc st Hr Hm wRnd st' ap f _ wG wH b LG LH DQ eq_refl) as [E|[_ N]]; [|contradiction].
  unfold proveVerify, with_q in E. cbn [flinGs flinCom flRnd fmL flinWtns flinStmnt flinEq fquadGs fquadCom fqRnd fmQ fqwG fquadHs fqwH fquadEq foffG foffH] in E.
  apply obind_ret_inv in E as (pfL & EL & E). apply obind_ret_inv in E as (okL & EV & E). apply obind_ret_inv in E as (pq & _ & E). apply obind_ret_inv in E as (okQ & _ & E).
  assert (okL = true) by congruence. subst okL. clear E.
  pose proof (flat_shape c pick Hc st Hr wRnd st' ap f) as (n & Ln & LW & SG & SH & SwG & SwH & EI).
  assert (Lq : length (I ++ [W]) = (10 * (JLDIM c + 4) + 1)%nat) by (rewrite app_length, HI; reflexivity).
  assert (Lfs : length (fquadGs d) = (10 * (JLDIM c + 4) + 1)%nat) by (unfold d, the_flat; cbn [fquadGs]; now rewrite map_length).
  pose proof (rd_W c Hc st Hr) as HW. assert (GWl : Z.of_nat (length (cGs c)) = W + 1) by (destruct Hr as (_ & _ & _ & _ & _ & _ & _ & _ & H); exact H).
  assert (Ls : Z.of_nat (10 * (JLDIM c + 4) + 1) <= 2 ^ 63).
  { assert (Z.of_nat (length I) <= W); [|rewrite HI in *; lia].
    assert (H : (length I <= length (zrange 0 (Z.to_nat W)))%nat).
    { apply NoDup_incl_length; [apply zsorted_NoDup, I_sorted|]. intros k Hk. apply in_zrange. pose proof (I_lt c pick st wRnd st' ap f k Hk). lia. }
    unfold zrange in H. rewrite map_length, seq_length in H. lia. }
  destruct (quadratic_forgery Hp (cbase c) R (fqwG d) (fqwH d) (fquadGs d) (fquadHs d) (length (fquadGs d)) (fquadEq d - dot (fqwG d) (fqwH d))%F (fmQ d)
     (Some (foffG d)) (Some (foffH d)) (fqRnd d) (blQ b) (blQST b) (blQUV b) (fquadCom d)) as (pfQ & EQ & _ & VQ).
  - rewrite Lfs. lia.
  - rewrite Lfs. exact Ls.
  - rewrite Lfs. apply odd_not_pow; [lia|]. exists (5 * (JLDIM c + 4))%nat. lia.
  - unfold d, the_flat. cbn [fqwG fquadGs]. now rewrite !map_length.
  - unfold d, the_flat. cbn [fqwH fquadGs]. now rewrite !map_length.
  - reflexivity.
  - unfold d, the_flat. cbn [fquadHs fquadGs]. now rewrite !map_length.
  - unfold d, the_flat. cbn [off_ok foffG fquadGs]. now rewrite !map_length.
  - unfold d, the_flat. cbn [off_ok foffH fquadGs]. now rewrite !map_length.
  - unfold d, the_flat. cbn [off_val foffG foffH fquadGs fquadHs fqwG fqwH fqRnd fquadCom]. rewrite !gdot_atk. exact (quad_com Hp c pick Hc st Hr wRnd st' ap f).
  - exact Hz.
  - exists pfL, pfQ. split; [exact EL|]. split; [exact EQ|]. split; [exact EV|].
    replace (fquadEq d) with (dot (fqwG d) (fqwH d) + (fquadEq d - dot (fqwG d) (fqwH d)))%F at 1 by ring. exact VQ.
Qed.
End F.
Lemma cheat_length st'' d : prepareProofs R c pick st wRnd = Ret (st'', d) -> length (fquadGs d) = (10 * (JLDIM c + 4) + 1)%nat.
Proof.
  intros E. destruct (prep_inv Hp c pick Hpick Hc st Hr Hm wRnd st'' d E) as (st' & ap & f & ->).
  unfold the_flat. cbn [fquadGs]. rewrite map_length, app_length, (I_count st' ap f). reflexivity.
Qed.
Lemma cheat_any st'' d b : prepareProofs R c pick st wRnd = Ret (st'', d) -> (forall m l, fst (m_chal R m l) <> 0%F) ->
  exists pfL pfQ,
    proveLinear (cbase c) R (flinCom d) (flRnd d) (fmL d) (blL b) (blLS b) (flinWtns d) (flinStmnt d) (flinGs d) (length (flinGs d)) = Ret pfL /\
    cheatQuadratic (cbase c) R (fquadCom d) (fqRnd d) (fmQ d) (blQ b) (blQST b) (blQUV b) (fquadGs d) (fqwG d) (fquadHs d) (fqwH d) (length (fquadGs d))
      (fquadEq d - dot (fqwG d) (fqwH d))%F = Ret pfQ /\ accepted c d pfL pfQ.
Proof.
  intros E Hz. destruct (prep_inv Hp c pick Hpick Hc st Hr Hm wRnd st'' d E) as (st' & ap & f & ->).
  exact (cheat st' ap f b Hz).
Qed.
End Cheat.
