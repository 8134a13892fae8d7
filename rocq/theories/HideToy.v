(** Two provers with different secrets who show the same, in the small configuration. *)
From Coq Require Import String.
From Coq Require Import ZArith Znumtheory List Bool Lia.
From Verif Require Import NumTheory Outcome Fp FSum GroupMod Ring ConstraintsModel ConstraintsSpec BulletproofModel FourSquaresModel AlgebraModel AlgebraMore RegevModel
  RegevPfModel RegevPfSpec RegevStSpec RegevPfToy ShamirModel ShamirSpec PropRegevSt RegevAggModel RegevAggSpec RegevRunModel RegevRunSpec RegevRunProofs RegevRunToy ZkSpec HideSpec HideMore.
Import ListNotations.
Open Scope Z_scope.

(** Another old key with other noise, other shares of the same value with other noise,
    and the randomness that goes with them. *)
Definition h_sk : list (elt 101 2) := [e2 19 25].
Definition h_rnd (v : var) : Fp 101 := match v with DCompLo => f101 7 | Pt2 => f101 1 | EComp2Lo => f101 39 | EPad2Lo => f101 70 | _ => f101 4 end.
Definition h_round : round 101 2 :=
  Round h_rnd t_ctMat t_ctVec t_pt1 h_sk [e2 1 0] t_ct1 t_ct2 [f101 14; f101 25] t_r t_n1 [e2 2 1; e2 2 1] 0 t_sk2 t_kn t_lag
    (fun _ => [e2 0 (-1); e2 2 2; e2 0 2; e2 7 0]) (fun _ => f101 35) (f101 9) t_bl.
Definition h_start : outcome (@pstate 101 2 G101 toyR) := commitKey toyR toyC (toyAt 1) h_sk (f101 46).
Definition all_vars : list var :=
  [Pt1; Sk1; DCompHi; DPadHi; DCompLo; DPadLo; Pt2; RR; RComp; RPad; EComp1Hi; EPad1Hi; EComp1Lo; EPad1Lo; EComp2Hi; EPad2Hi; EComp2Lo; EPad2Lo;
   Sk2; Sk2Comp; Sk2Pad; KCompHi; KPadHi; KCompLo; KPadLo; YY; WW].
Lemma all_vars_all v : In v all_vars.
Proof. destruct v; cbn; tauto. Qed.
Definition gq (a b : G101) : bool := feqb (a : Fp 101) (b : Fp 101).
Definition coms_chk (s t : @pstate 101 2 G101 toyR) : bool := forallb (fun v => gq (pcom s v) (pcom t v)) all_vars.
Lemma coms_chk_sound s t : coms_chk s t = true -> same_coms s t.
Proof. intros H v. unfold coms_chk in H. rewrite forallb_forall in H. specialize (H v (all_vars_all v)). now apply feqb_eq. Qed.
Fixpoint elts_chk (u v : list (elt 101 2)) : bool :=
  match u, v with
  | [], [] => true
  | a :: u', b :: v' => feqb (coeff a 0) (coeff b 0) && feqb (coeff a 1) (coeff b 1) && elts_chk u' v'
  | _, _ => false
  end.
Lemma elts_chk_sound : forall u v, elts_chk u v = true -> u = v.
Proof.
  induction u as [|a u IH]; intros [|b v] H; cbn in H; try discriminate; [reflexivity|].
  apply andb_prop in H as [H H3]. apply andb_prop in H as [H1 H2]. apply feqb_eq in H1, H2. f_equal; [|now apply IH].
  apply coeff_ext. intros [|[|i]] Hi; [exact H1|exact H2|lia].
Qed.
Lemma h_rdims : round_dims toyC h_round.
Proof. split; [repeat split; repeat constructor; reflexivity|]. split; [repeat split; repeat constructor; reflexivity|]. repeat (split; [reflexivity|]). reflexivity. Qed.
Lemma h_rtrue : round_true toyC [1; 2] 2 h_round.
Proof.
  pose proof toy_rtrue as (_ & A2 & _ & A4 & _).
  split; [intros i Hi; assert (i = 0%nat) as -> by (cbn in Hi; lia); apply coeff_ext; intros [|[|k]] Hk; [apply Fp_eq; vm_compute; reflexivity|apply Fp_eq; vm_compute; reflexivity|lia]|].
  split; [exact A2|].
  split; [intros i Hi; assert (i = 0%nat \/ i = 1%nat) as [-> | ->] by (cbn in Hi; lia); apply coeff_ext; intros [|[|k]] Hk; first [apply Fp_eq; vm_compute; reflexivity|lia]|].
  split; [exact A4|].
  assert (E : fsum (map (fun j => (nth j (i_lag h_round) 0 * nth j (i_pt1 h_round) 0)%F) (seq 0 (Z.to_nat (tee (cgk toyC))))) = f101 3) by (apply Fp_eq; vm_compute; reflexivity).
  rewrite E. exists [f101 3; f101 11]. split; [reflexivity|]. cbn [map]. repeat (apply f_equal2; [apply Fp_eq; vm_compute; reflexivity|]). reflexivity.
Qed.
(** The two runs. *)
Lemma two_runs : exists s1 t1 s2 t2, toyK 1 = Ret s1 /\ proofSteps toyR toyC s1 t_round = Ret t1 /\ h_start = Ret s2 /\ proofSteps toyR toyC s2 h_round = Ret t2 /\
  same_view s1 s2 /\ same_coms t1 t2 /\ pz t1 = pz t2 /\ pads_found toyC t2 /\ all_mentioned toyC t2 /\ ready toyC t2.
Proof.
  destruct (run_ok (let! s1 := toyK 1 in let! t1 := proofSteps toyR toyC s1 t_round in let! s2 := h_start in let! t2 := proofSteps toyR toyC s2 h_round in Ret (s1, t1, s2, t2))
    (fun '(s1, t1, s2, t2) => coms_chk s1 s2 && coms_chk t1 t2 && elts_chk (pz t1) (pz t2) && pads_chk t2 && ment_chk t2)) as ([[[s1 t1] s2] t2] & H & K); [vm_compute; reflexivity|].
  apply andb_prop in K as [K K5]. apply andb_prop in K as [K K4]. apply andb_prop in K as [K K3]. apply andb_prop in K as [K1 K2].
  apply obind_ret_inv in H as (s1' & S1 & H). apply obind_ret_inv in H as (t1' & T1 & H). apply obind_ret_inv in H as (s2' & S2 & H). apply obind_ret_inv in H as (t2' & T2 & H).
  assert (Q1 : s1' = s1) by exact (f_equal (fun o => match o with Ret q => fst (fst (fst q)) | _ => s1 end) H).
  assert (Q2 : t1' = t1) by exact (f_equal (fun o => match o with Ret q => snd (fst (fst q)) | _ => s1 end) H).
  assert (Q3 : s2' = s2) by exact (f_equal (fun o => match o with Ret q => snd (fst q) | _ => s1 end) H).
  assert (Q4 : t2' = t2) by exact (f_equal (fun o => match o with Ret q => snd q | _ => s1 end) H). clear H. subst s1' t1' s2' t2'.
  exists s1, t1, s2, t2. split; [exact S1|]. split; [exact T1|]. split; [exact S2|]. split; [exact T2|].
  pose proof (pads_chk_sound t2 K4) as PF.
  destruct (commitKey_opens toyR toyC (toyAt 1) s2 h_sk (f101 46) (toyAt_fresh 1) S2) as [A B].
  split. { split; [|exact (coms_chk_sound _ _ K1)]. unfold toyK in S1. unfold h_start in S2. unfold commitKey in S1, S2.
    apply obind_ret_inv in S1 as (g1 & _ & S1). apply obind_ret_inv in S2 as (g2 & _ & S2).
    assert (Q1 := f_equal (fun o => match o with Ret q => statement q | _ => statement s1 end) S1). assert (Q2 := f_equal (fun o => match o with Ret q => statement q | _ => statement s1 end) S2).
    exact (eq_trans (eq_sym Q1) Q2). }
  split; [exact (coms_chk_sound _ _ K2)|]. split; [exact (elts_chk_sound _ _ K3)|]. split; [exact PF|]. split; [exact (ment_chk_sound _ K5)|].
  exact (steps_ready prime_101 toyC [1; 2] 2 toy_good h_round h_rdims h_rtrue s2 t2 A B T2 PF).
Qed.
Lemma toyR_chal (m : mst toyR) l : fst (m_chal toyR m l) <> 0%F.
Proof.
  assert (E : fval (fst (m_chal toyR m l)) = (m mod 100 + 1) mod 101) by reflexivity. intros H. rewrite H in E. change (fval (0%F : Fp 101)) with 0 in E.
  pose proof (Z.mod_pos_bound m 100 ltac:(lia)). rewrite Z.mod_small in E by lia. lia.
Qed.
