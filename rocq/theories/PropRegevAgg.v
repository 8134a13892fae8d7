(** Properties C52, C53, C54, C70: aggregation, flattening, complete proofs. *)
From Coq Require Import String.
From Coq Require Import ZArith Znumtheory List Bool Lia.
From Verif Require Import NumTheory Outcome Fp FSum GroupMod Ring ConstraintsModel ConstraintsSpec ConstraintsProofs ConstraintsMerge BulletproofModel
  AlgebraModel AlgebraSpec AlgebraMore TernaryModel RegevModel RegevPfModel RegevPfSpec RegevStSpec RegevPfToy PropRegevSt
  RegevAggModel RegevAggSpec RegevAggMaps RegevAggProofs RegevAggTotal RegevAggOpen RegevAggAccept RegevAggForge RegevRunModel RegevRunSpec RegevRunProofs RegevRunToy.
Import ListNotations.
Open Scope Z_scope.

(** ** C52: aggregation *)
Section C52.
Context {p : Z} {ell : nat} {G : gmod p} {R : rmerlin G}.
Notation pstate := (@pstate p ell G R).
(** If every constraint holds for the recorded witness, the two aggregated
    constraints hold for the new witness, whatever the challenges are. *)
Theorem C52_preserves (c : cfg ell G) pick (st st' : pstate) wRnd ap : prime p -> queue_order pick ->
  wf_system st -> all_disjoint (pnorm st) -> recorded st -> all_hold st ->
  aggregateProver R c pick st wRnd = Ret (st', ap) ->
  lin_sat (rlin (rv ap)) (coef (plinW st')) /\ quad_sat (rquad (rv ap)) (coef (pqG st')) (coef (pqH st')) /\
  wf_lin (rlin (rv ap)) /\ wf_quad (rquad (rv ap)) /\
  keys (plinW st') = keys (lterms (rlin (rv ap))) /\ keys (pqG st') = qidx (rquad (rv ap)) /\ keys (pqH st') = qidx (rquad (rv ap)).
Proof.
  intros Hp Hpick Hwf Hd Hrec Hh E. destruct (final Hp c pick Hpick st st' wRnd ap Hwf Hd E) as [f].
  destruct (fin_sat Hp c pick Hpick st st' wRnd ap Hwf Hd Hrec f Hh) as [A B]. split; [exact A|]. split; [exact B|].
  destruct (fin_shape c pick st st' wRnd ap f) as [C D]. split; [exact C|]. split; [exact D|].
  destruct (fin_linW c pick st st' wRnd ap Hwf Hrec f) as (K & _). split; [exact K|].
  rewrite (fn_idx _ _ _ _ _ _ f), (fn_Gkeys _ _ _ _ _ _ f), (fn_Hkeys _ _ _ _ _ _ f). now split.
Qed.
(** The two constraints have only the new variable w in common. *)
Theorem C52_disjoint (c : cfg ell G) pick (st st' : pstate) wRnd ap k : prime p -> queue_order pick ->
  wf_system st -> all_disjoint (pnorm st) -> aggregateProver R c pick st wRnd = Ret (st', ap) ->
  In k (keys (lterms (rlin (rv ap)))) -> In k (qidx (rquad (rv ap))) -> k = pidx st WW.
Proof.
  intros Hp Hpick Hwf Hd E. destruct (final Hp c pick Hpick st st' wRnd ap Hwf Hd E) as [f].
  rewrite (fn_lin _ _ _ _ _ _ f), (fn_idx _ _ _ _ _ _ f). cbn [lterms]. rewrite keys_app, !in_app_iff.
  intros [H1|[<-|[]]] [H2|[<-|[]]]; try reflexivity. exfalso.
  apply (so_bs_keys _ _ (fn_S _ _ _ _ _ _ f)) in H1 as [H1 _]. now apply H1.
Qed.
(** A state after the five steps is aggregated without failure, unless the
    challenge of the norms is 0. *)
Theorem C52_succeeds (c : cfg ell G) pick (st : pstate) wRnd : prime p -> queue_order pick -> wf_cfg c -> set_up c st -> all_mentioned c st ->
  (exists st' ap, aggregateProver R c pick st wRnd = Ret (st', ap)) \/ (aggregateProver R c pick st wRnd = Throw /\ chal_norm st = 0%F).
Proof. intros Hp Hpick Hc Hs Hm. exact (rd_agg Hp c pick Hpick Hc st Hs Hm wRnd). Qed.
Theorem C52_set_up (c : cfg ell G) (st : pstate) : wf_cfg c -> set_up c st -> wf_system st /\ all_disjoint (pnorm st) /\ recorded st.
Proof. intros Hc Hs. split; [exact (rd_wf c Hc st Hs)|]. split; [exact (rd_disj c Hc st Hs)|exact (rd_rec c Hc st Hs)]. Qed.
End C52.
Print Assumptions C52_preserves.
Print Assumptions C52_disjoint.
Print Assumptions C52_succeeds.
Print Assumptions C52_set_up.

Example C52_example : exists s st5 st' ap, toyK 1 = Ret s /\ proofSteps toyR toyC s t_round = Ret st5 /\
  wf_cfg toyC /\ queue_order (@min_index 101) /\ set_up toyC st5 /\ all_mentioned toyC st5 /\ all_hold st5 /\
  wf_system st5 /\ all_disjoint (pnorm st5) /\ recorded st5 /\
  aggregateProver toyR toyC min_index st5 (f101 9) = Ret (st', ap) /\
  length (plin st5) = 15%nat /\ length (lterms (rlin (rv ap))) = 18%nat /\ length (qidx (rquad (rv ap))) = 61%nat.
Proof.
  destruct (run2_ok (let! s := toyK 1 in proofSteps toyR toyC s t_round) (fun s => aggregateProver toyR toyC min_index s (f101 9))
    (fun r => (length (lterms (rlin (rv (snd r)))) =? 18)%nat && (length (qidx (rquad (rv (snd r)))) =? 61)%nat)) as (st5 & [st' ap] & H & H2 & K); [vm_compute; reflexivity|].
  destruct toy_five as (s & st5' & E & A & B & C & PF & AM & RD). assert (st5' = st5) by (rewrite E in H; cbn [obind] in H; congruence). subst st5'.
  exists s, st5, st', ap. destruct RD as [S Hh]. destruct (C52_set_up toyC st5 toy_cfg S) as (W1 & W2 & W3).
  pose proof toy_cfg. pose proof (min_index_order 101). apply andb_prop in K as [K1 K2]. apply Nat.eqb_eq in K1, K2. cbn [snd] in K1, K2.
  repeat (split; [assumption|]). split; [|now split].
  destruct (steps_done prime_101 toyC [1; 2] 2 toy_good t_round toy_rdims toy_rtrue s st5 A B C) as [(ws & cs & ns & os & Fr) _ _ _ _ _ _ _ _ _].
  destruct Fr as (_ & _ & _ & _ & _ & _ & _ & L & _). rewrite L. destruct A as (_ & -> & _). reflexivity.
Qed.

(** ** C53: generators of the flattened statements *)
Section C53.
Context {p : Z} {ell : nat} {G : gmod p} {R : rmerlin G}.
Notation pstate := (@pstate p ell G R).
(** What holds: the G lists pick generators at distinct places, and so does the H
    list but for its last entry. *)
Theorem C53_partial (c : cfg ell G) pick (st st'' : pstate) wRnd d : prime p -> queue_order pick -> wf_cfg c -> set_up c st -> all_mentioned c st ->
  prepareProofs R c pick st wRnd = Ret (st'', d) ->
  (exists ks, NoDup ks /\ (forall k, In k ks -> (k < length (cGs c))%nat) /\ flinGs d = map (fun k => nth k (cGs c) gzero) ks) /\
  (exists ks, NoDup ks /\ (forall k, In k ks -> (k < length (cGs c))%nat) /\ fquadGs d = map (fun k => nth k (cGs c) gzero) ks) /\
  (exists ks last, NoDup ks /\ (forall k, In k ks -> (k < length (cHs c))%nat) /\ fquadHs d = map (fun k => nth k (cHs c) gzero) ks ++ [last]).
Proof.
  intros Hp Hpick Hc Hs Hm E. destruct (prep_inv Hp c pick Hpick Hc st Hs Hm wRnd st'' d E) as (st' & ap & f & ->).
  assert (BG : forall k, 0 <= k <= pidx st WW -> (Z.to_nat k < length (cGs c))%nat).
  { intros k Hk. destruct Hs as (_ & _ & _ & _ & _ & _ & _ & _ & H). lia. }
  split; [|split].
  - destruct (lin_shape c pick Hc st Hs Hm wRnd st' ap f) as (ks & N & B & ->). exists (map Z.to_nat ks). split; [|split].
    + clear - N B. induction ks as [|k ks IH]; cbn; constructor; inversion N; subst; [|apply IH; [assumption|intros j Hj; apply B; now right]].
      rewrite in_map_iff. intros (j & Ej & Hj). pose proof (B k (or_introl eq_refl)). pose proof (B j (or_intror Hj)).
      assert (j = k) by lia. now subst.
    + intros k Hk. apply in_map_iff in Hk as (j & <- & Hj). apply BG. now apply B.
    + rewrite map_map. reflexivity.
  - destruct (flat_shape c pick Hc st Hs wRnd st' ap f) as (n & L1 & L2 & -> & _). exists (seq 0 (S n) ++ [Z.to_nat (pidx st WW)]). split; [|split].
    + apply (Permutation.Permutation_NoDup (Permutation.Permutation_app_comm [_] _)). cbn [app]. constructor; [|apply seq_NoDup]. rewrite in_seq. lia.
    + intros k Hk. apply in_app_iff in Hk as [Hk|[<-|[]]]; [apply in_seq in Hk; specialize (BG (Z.of_nat k) ltac:(lia)); lia|apply BG; lia].
    + rewrite seq_S, !map_app, <- app_assoc. cbn [app map Nat.add]. unfold zrange. rewrite map_map. f_equal; [apply map_ext; intros; unfold gen; now rewrite Z.add_0_l, Nat2Z.id|].
      unfold gen. now rewrite Nat2Z.id.
  - destruct (flat_shape c pick Hc st Hs wRnd st' ap f) as (n & L1 & L2 & _ & -> & _). exists (seq 0 (S n)), (nth n (cHs c) gzero). split; [apply seq_NoDup|]. split.
    + intros k Hk. apply in_seq in Hk. lia.
    + rewrite seq_S, !map_app, <- app_assoc. cbn [app map Nat.add]. unfold zrange. rewrite map_map. f_equal; [apply map_ext; intros; unfold gen; now rewrite Z.add_0_l, Nat2Z.id|].
      unfold gen. now rewrite Nat2Z.id.
Qed.
(** What fails, for every proof: the last two entries of the H list, those of the
    last norm-constrained variable and of w, are one and the same generator. *)
Theorem C53_repeated (c : cfg ell G) pick (st st'' : pstate) wRnd d : prime p -> queue_order pick -> wf_cfg c -> set_up c st -> all_mentioned c st ->
  prepareProofs R c pick st wRnd = Ret (st'', d) -> exists l h, fquadHs d = l ++ [h; h] /\ length (fquadHs d) = length (fquadGs d).
Proof.
  intros Hp Hpick Hc Hs Hm E. destruct (prep_inv Hp c pick Hpick Hc st Hs Hm wRnd st'' d E) as (st' & ap & f & ->).
  destruct (flat_shape c pick Hc st Hs wRnd st' ap f) as (n & L1 & L2 & EG & EH & _). do 2 eexists. split; [rewrite EH, map_app; reflexivity|]. rewrite EG, EH.
  rewrite !map_app, !app_length, !map_length. reflexivity.
Qed.
(** Consequence: for commitments to any witness at all, whether or not the
    constraints hold, some values for the H generators make both verifications
    succeed, as long as the last two values for the G generators differ. *)
Theorem C53_forgery (c : cfg ell G) pick (st st'' : pstate) wRnd d b : prime p -> queue_order pick -> wf_cfg c -> set_up c st -> all_mentioned c st ->
  prepareProofs R c pick st wRnd = Ret (st'', d) ->
  (forall l x y, fqwG d = l ++ [x; y] -> x <> y) ->
  (forall m l, fst (m_chal R m l) <> 0%F) ->
  exists wH, proveVerify R c (with_wH d wH) b = Ret (true, true).
Proof.
  intros Hp Hpick Hc Hs Hm E Hxy Hz. destruct (prep_inv Hp c pick Hpick Hc st Hs Hm wRnd st'' d E) as (st' & ap & f & ->).
  destruct (forge Hp c pick Hc st Hs Hm wRnd st' ap f b Hxy) as (wH & [H|[_ N]]); [now exists wH|contradiction].
Qed.
End C53.
Print Assumptions C53_partial.
Print Assumptions C53_repeated.
Print Assumptions C53_forgery.

(** The two findings on the small configuration: the hypotheses hold for it, and a
    false statement is accepted.  The value 5 is not the decryption: the noise it
    would need has norm sqrt 101 where the bound is 6. *)
Theorem C53_refuted : exists s st5 st'' d,
  toyK 2 = Ret s /\ proofSteps toyR toyC s t_false = Ret st5 /\
  prepareProofs toyR toyC min_index st5 (i_wRnd t_false) = Ret (st'', d) /\
  nth 59 (fquadHs d) gzero = nth 60 (fquadHs d) gzero /\ length (fquadHs d) = 61%nat /\
  proveVerify toyR toyC d (i_bl t_false) = Ret (true, false) /\
  proveVerify toyR toyC (with_wH d (t_forge d)) (i_bl t_false) = Ret (true, true) /\
  (forall dn, length dn = 1%nat -> decrypts toyC (i_ctMat t_false) (i_ctVec t_false) (i_pt1 t_false) (i_sk1 t_false) dn -> dn = [e2 (-10) 1]).
Proof.
  destruct (run_ok (toyK 2) (fun s => match proofSteps toyR toyC s t_false with
    | Ret st5 => match prepareProofs toyR toyC min_index st5 (i_wRnd t_false) with
      | Ret (_, d) => (length (fquadHs d) =? 61)%nat && feqb (nth 59 (fquadHs d) gzero) (nth 60 (fquadHs d) gzero : Fp 101) &&
          match proveVerify toyR toyC d (i_bl t_false), proveVerify toyR toyC (with_wH d (t_forge d)) (i_bl t_false) with
          | Ret (true, false), Ret (true, true) => true | _, _ => false end
      | _ => false end | _ => false end)) as (s & H & K); [vm_compute; reflexivity|].
  destruct (proofSteps toyR toyC s t_false) as [st5| | |] eqn:E5; try discriminate.
  destruct (prepareProofs toyR toyC min_index st5 (i_wRnd t_false)) as [[st'' d]| | |] eqn:Ed; try discriminate.
  apply andb_prop in K as [K1 K2]. apply andb_prop in K1 as [K1 K3]. apply Nat.eqb_eq in K1. apply feqb_eq in K3.
  exists s, st5, st'', d. split; [exact H|]. split; [exact E5|]. split; [exact Ed|]. split; [exact K3|]. split; [exact K1|].
  destruct (proveVerify toyR toyC d (i_bl t_false)) as [[[] []]| | |]; try discriminate.
  destruct (proveVerify toyR toyC (with_wH d (t_forge d)) (i_bl t_false)) as [[[] []]| | |]; try discriminate.
  split; [reflexivity|]. split; [reflexivity|].
  intros [|n [|]] L D; try discriminate. specialize (D 0%nat ltac:(cbn; lia)). cbn [nth] in D. rewrite D. f_equal. fpeq.
Qed.
Print Assumptions C53_refuted.
Example C53_example : exists s st5 st'' d, toyK 1 = Ret s /\ proofSteps toyR toyC s t_round = Ret st5 /\ prime 101 /\ wf_cfg toyC /\
  queue_order (@min_index 101) /\ set_up toyC st5 /\ all_mentioned toyC st5 /\
  prepareProofs toyR toyC min_index st5 (f101 9) = Ret (st'', d) /\ (forall l x y, fqwG d = l ++ [x; y] -> x <> y) /\
  (forall m l, fst (m_chal toyR m l) <> 0%F).
Proof.
  destruct toy_five as (s & st5 & E & A & B & C & PF & AM & RD).
  destruct (run2_ok (let! s := toyK 1 in proofSteps toyR toyC s t_round) (fun s => prepareProofs toyR toyC min_index s (f101 9))
    (fun r => negb (feqb (last (fqwG (snd r)) 0%F) (last (removelast (fqwG (snd r))) 0%F)))) as (st5' & [st'' d] & H & H2 & K); [vm_compute; reflexivity|].
  assert (st5' = st5) by (rewrite E in H; cbn [obind] in H; congruence). subst st5'.
  exists s, st5, st'', d. pose proof prime_101. pose proof toy_cfg. pose proof (min_index_order 101). pose proof (proj1 RD).
  repeat (split; [assumption|]). split.
  - intros l x y Q. cbn [snd] in K. rewrite Q in K. replace (l ++ [x; y]) with ((l ++ [x]) ++ [y]) in K by now rewrite <- app_assoc.
    rewrite last_last, removelast_last, last_last in K. intros ->. rewrite (proj2 (feqb_eq y y) eq_refl) in K. discriminate.
  - intros m l Q. apply (f_equal fval) in Q. revert Q. cbn [m_chal toyR rm toyMer fst]. unfold f101. rewrite fval_toF.
    change (fval 0%F) with 0. pose proof (Z.mod_pos_bound m 100 ltac:(lia)). rewrite Z.mod_small by lia. lia.
Qed.

(** ** C54: chained proofs *)
Section C54.
Context {p : Z} {ell : nat} {G : gmod p} {R : rmerlin G}.
Notation pstate := (@pstate p ell G R).
Theorem C54_chain (c : cfg ell G) pick evs thr is sk r (st s st' : pstate) oks : prime p -> good_setup R c evs thr ->
  Forall (round_dims c) is -> Forall (round_true c evs thr) is -> chained sk is ->
  fresh c st -> commitKey R c st sk r = Ret s -> proofRounds R c pick s is = Ret (st', oks) ->
  opens1 c st' Sk1 (coeffs_of (last_key sk is)) /\ fresh c st'.
Proof.
  intros Hp Hs Hd Ht Ch Hf HK H. destruct (commitKey_opens R c st s sk r Hf HK) as [Hf' Op].
  destruct (rounds_keep Hp c evs thr Hs pick is sk s st' oks Hd Ht Ch Hf' Op H). now split.
Qed.
End C54.
Print Assumptions C54_chain.
(** The key is committed to under the old key's and the new key's generators in turn. *)
Example C54_example : exists s st', fresh toyC (toyAt 2) /\ good_setup toyR toyC [1; 2] 2 /\
  commitKey toyR toyC (toyAt 2) t_sk (f101 6) = Ret s /\
  Forall (round_dims toyC) [t_round; t_round] /\ Forall (round_true toyC [1; 2] 2) [t_round; t_round] /\
  chained t_sk [t_round; t_round] /\
  proofRounds toyR toyC min_index s [t_round; t_round] = Ret (st', [(true, true); (true, true)]) /\
  pidx s Sk1 = 60 /\ pidx st' Sk1 = 60.
Proof.
  destruct (run2_ok (toyK 2) (fun s => proofRounds toyR toyC min_index s [t_round; t_round])
    (fun r => match snd r with [(true, true); (true, true)] => pidx (fst r) Sk1 =? 60 | _ => false end)) as (s & [st' l] & H & H2 & K); [vm_compute; reflexivity|].
  exists s, st'. split; [apply toyAt_fresh|]. split; [exact toy_good|]. split; [exact H|].
  split; [repeat (apply Forall_cons; [exact toy_rdims|]); apply Forall_nil|]. split; [repeat (apply Forall_cons; [exact toy_rtrue|]); apply Forall_nil|]. split; [repeat split|].
  cbn [fst snd] in K. destruct l as [|[[] []] [|[[] []] [|]]]; try discriminate. split; [exact H2|]. split; [|now apply Z.eqb_eq].
  unfold toyK, commitKey in H. apply obind_ret_inv in H as (com & _ & H). injection H as <-. reflexivity.
Qed.

(** ** C70: complete proofs *)
Section C70.
Context {p : Z} {ell : nat} {G : gmod p} {R : rmerlin G}.
Notation pstate := (@pstate p ell G R).
(** The five steps leave a system of constraints that holds for the committed
    witness. *)
Theorem C70_steps (c : cfg ell G) evs thr i (st st5 : pstate) : prime p -> good_setup R c evs thr -> round_dims c i -> round_true c evs thr i ->
  fresh c st -> opens1 c st Sk1 (coeffs_of (i_sk1 i)) -> proofSteps R c st i = Ret st5 -> pads_found c st5 -> ready c st5.
Proof. intros Hp Hs Hd Ht. exact (steps_ready Hp c evs thr Hs i Hd Ht st st5). Qed.
(** From there both proofs are accepted, or a zero challenge was drawn. *)
Theorem C70_accept (c : cfg ell G) pick (st : pstate) wRnd b : prime p -> queue_order pick -> wf_cfg c -> ready c st -> all_mentioned c st ->
  (exists st', runProofs R c pick st wRnd b = Ret (st', (true, true))) \/
  (runProofs R c pick st wRnd b = Throw /\ ~ (forall m l, fst (m_chal R m l) <> 0%F)).
Proof. intros Hp Hpick Hc [Hs Hh] Hm. exact (run_accept Hp c pick Hpick Hc st Hs Hm wRnd b Hh). Qed.
Theorem C70_complete (c : cfg ell G) pick evs thr i (st st5 : pstate) : prime p -> queue_order pick -> good_setup R c evs thr ->
  round_dims c i -> round_true c evs thr i ->
  fresh c st -> opens1 c st Sk1 (coeffs_of (i_sk1 i)) -> proofSteps R c st i = Ret st5 -> pads_found c st5 -> all_mentioned c st5 ->
  (exists st', proofRound R c pick st i = Ret (st', (true, true))) \/
  (proofRound R c pick st i = Throw /\ ~ (forall m l, fst (m_chal R m l) <> 0%F)).
Proof. intros Hp Hpick Hs. exact (round_accept Hp c evs thr Hs pick Hpick i st st5). Qed.
(** Any number of proofs, one after the other. *)
Theorem C70_chain (c : cfg ell G) pick evs thr is sk (st st' : pstate) oks : prime p -> queue_order pick -> good_setup R c evs thr ->
  Forall (round_dims c) is -> Forall (round_true c evs thr) is -> chained sk is ->
  fresh c st -> opens1 c st Sk1 (coeffs_of sk) -> lucky c pick st is ->
  proofRounds R c pick st is = Ret (st', oks) -> oks = repeat (true, true) (length is).
Proof. intros Hp Hpick Hs. exact (rounds_accept Hp c evs thr Hs pick Hpick is sk st st' oks). Qed.
End C70.
Print Assumptions C70_steps.
Print Assumptions C70_accept.
Print Assumptions C70_complete.
Print Assumptions C70_chain.
Example C70_example : exists s st5 st', toyK 1 = Ret s /\ good_setup toyR toyC [1; 2] 2 /\ round_dims toyC t_round /\ round_true toyC [1; 2] 2 t_round /\
  fresh toyC s /\ opens1 toyC s Sk1 (coeffs_of (i_sk1 t_round)) /\ proofSteps toyR toyC s t_round = Ret st5 /\ pads_found toyC st5 /\ all_mentioned toyC st5 /\
  proofRound toyR toyC min_index s t_round = Ret (st', (true, true)).
Proof.
  destruct toy_five as (s & st5 & E & A & B & C & PF & AM & RD).
  destruct (run2_ok (toyK 1) (fun s => proofRound toyR toyC min_index s t_round) (fun r => fst (snd r) && snd (snd r))) as (s' & [st' [a b]] & H & H2 & K); [vm_compute; reflexivity|].
  assert (s' = s) by congruence. subst s'. exists s, st5, st'. cbn [fst snd] in K. apply andb_prop in K as [-> ->].
  pose proof toy_good. pose proof toy_rdims. pose proof toy_rtrue. repeat (split; [assumption|]). exact H2.
Qed.
(** The proviso is needed: with another transcript a coefficient vanishes and the
    honest linear proof is rejected. *)
Theorem C70_unlucky : exists s st', toyK 5 = Ret s /\ good_setup toyR toyC [1; 2] 2 /\ round_dims toyC t_round /\ round_true toyC [1; 2] 2 t_round /\
  fresh toyC s /\ opens1 toyC s Sk1 (coeffs_of (i_sk1 t_round)) /\
  proofRound toyR toyC min_index s t_round = Ret (st', (false, true)).
Proof.
  destruct (run2_ok (toyK 5) (fun s => proofRound toyR toyC min_index s t_round) (fun r => negb (fst (snd r)) && snd (snd r))) as (s & [st' [a b]] & H & H2 & K); [vm_compute; reflexivity|].
  exists s, st'. cbn [fst snd] in K. apply andb_prop in K as [K1 ->]. apply negb_true_iff in K1 as ->.
  destruct (commitKey_opens toyR toyC (toyAt 5) s t_sk (f101 6) (toyAt_fresh 5) H) as [A B].
  pose proof toy_good. pose proof toy_rdims. pose proof toy_rtrue. repeat (split; [assumption|]). exact H2.
Qed.
Print Assumptions C70_unlucky.
