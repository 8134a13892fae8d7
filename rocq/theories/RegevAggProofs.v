(** What the aggregation produces. *)
From Coq Require Import String.
From Coq Require Import ZArith Znumtheory List Bool Lia Ring Field.
From Verif Require Import NumTheory Outcome Fp FSum GroupMod Ring ConstraintsModel ConstraintsSpec ConstraintsProofs ConstraintsMerge
  ConstraintsOther PedersenModel BulletproofModel RegevModel RegevPfModel RegevPfSpec RegevStSpec RegevAggModel RegevAggSpec RegevAggMaps RegevPfPost.
Import ListNotations.
Open Scope Z_scope.

Section Agg.
Context {p : Z} (Hp : prime p) {ell : nat} {G : gmod p} {R : rmerlin G}.
Notation F := (Fp p).
Add Field FpFld : (Fp_field Hp).
Variable c : cfg ell G.
Variable pick : list (cursor p) -> nat.
Hypothesis Hpick : queue_order pick.
Notation pstate := (@pstate p ell G R).

Lemma int_of_size_id k : 0 <= k < 2 ^ 31 -> int_of_size k = k.
Proof. intros H. unfold int_of_size. rewrite Z.mod_small; lia. Qed.

Lemma in_filter_keys (f : Z -> bool) (l : pvec p) k : In k (keys (filter (fun e => f (fst e)) l)) <-> In k (keys l) /\ f k = true.
Proof.
  rewrite !in_keys. split.
  - intros (x & H). apply filter_In in H as [H1 H2]. split; [now exists x|exact H2].
  - intros [(x & H) H2]. exists x. apply filter_In. now split.
Qed.
Lemma coef_filter (f : Z -> bool) (l : pvec p) k : f k = true -> coef (filter (fun e => f (fst e)) l) k = coef l k.
Proof.
  intros H. induction l as [|[a x] l IH]; [reflexivity|]. cbn [filter fst]. destruct (f a) eqn:E.
  - now rewrite !coef_cons, IH.
  - rewrite coef_cons, IH. destruct (a =? k) eqn:E'; [apply Z.eqb_eq in E'; congruence|ring].
Qed.

(** aggregateVerifier1 *)
Record ver1 (st st1 : pstate) (a : rtv G) : Type := Ver1 {
  v1_lin : lincon p; v1_com : var -> G;
  v1_merge : lin_merge pick (plin st) (powers (chal_lin st) (length (plin st))) = Ret v1_lin;
  v1_qmerge : quad_merge (pnorm st) (powers (chal_norm st) (length (pnorm st))) = Ret (rquad a);
  v1_n1 : (0 < length (plin st))%nat; v1_n2 : (0 < length (pnorm st))%nat;
  v1_rVec : rrVec a = powers (chal_norm st) (length (pnorm st));
  v1_div : div_all (lterms v1_lin) (pnorm st) (rrVec a) = Ret (lterms (rlin a));
  v1_leq : leq (rlin a) = leq v1_lin;
  v1_split : exists w, splitPtxtVec (lterms (rlin a)) (qidx (rquad a)) = (ras a, rbs a, w) /\ int_of_size w = pidx st WW;
  v1_scale : scale_pairs gadd gmul (pcom st) (rrVec a) comPairs = Ret v1_com;
  v1_st : st1 = PS (pidx st) v1_com (prnd st) (plin st) (pnorm st) (plinW st) (pqG st) (pqH st) (pcomp st) (pz st) (mer_norm st);
  v1_lcom : rlinCom a = sum_lin gadd v1_com; v1_qcom : rquadCom a = sum_quad gadd v1_com }.
Lemma ver1_inv st st1 a : aggregateVerifier1 R pick st = Ret (st1, a) -> ver1 st st1 a.
Proof.
  unfold aggregateVerifier1. intros H. unfold chal_lin, chal_norm, mer_norm in *.
  destruct (m_chal R (pmer st) "aggregateLinear") as [r1 m1] eqn:E1.
  destruct (powerVectorS r1 (length (plin st))) as [v1| | |] eqn:EV1; try discriminate; cbn [obind] in H.
  destruct (lin_merge pick (plin st) v1) as [lin| | |] eqn:EL; try discriminate; cbn [obind] in H.
  destruct (m_chal R m1 "aggregateNorms") as [r2 m2] eqn:E2.
  destruct (powerVectorS r2 (length (pnorm st))) as [v2| | |] eqn:EV2; try discriminate; cbn [obind] in H.
  destruct (quad_merge (pnorm st) v2) as [quad| | |] eqn:EQ; try discriminate; cbn [obind] in H.
  destruct (div_all (lterms lin) (pnorm st) v2) as [terms| | |] eqn:ED; try discriminate; cbn [obind] in H.
  destruct (splitPtxtVec terms (qidx quad)) as [[as_ bs] w] eqn:ES.
  destruct (int_of_size w =? pidx st WW) eqn:EW; cbn [negb] in H; [|discriminate].
  destruct (scale_pairs gadd gmul (pcom st) v2 comPairs) as [com| | |] eqn:EC; try discriminate; cbn [obind] in H.
  apply powerVectorS_spec in EV1 as [N1 ->]. apply powerVectorS_spec in EV2 as [N2 ->].
  injection H as <- <-. unshelve refine (Ver1 _ _ _ lin com _ _ _ _ _ _ _ _ _ _ _ _); unfold chal_lin, chal_norm, mer_norm;
    rewrite ?E1; cbn [fst snd]; rewrite ?E2; cbn [fst snd rquad rrVec rlin lterms leq ras rbs rlinCom rquadCom]; try assumption; try reflexivity.
  exists w. split; [exact ES|now apply Z.eqb_eq].
Qed.

(** The facts about the split linear constraint. *)
Record split_ok (st : pstate) (a : rtv G) : Prop := SplitOk {
  so_sorted : ksorted (lterms (rlin a)); so_qsorted : zsorted (qidx (rquad a));
  so_qidx : forall k, In k (qidx (rquad a)) <-> exists q, In q (pnorm st) /\ In k (qidx q);
  so_as : ras a = filter (fun e => zmem (qidx (rquad a)) (fst e)) (lterms (rlin a));
  so_bs : rbs a = filter (fun e => negb (zmem (qidx (rquad a)) (fst e))) (lterms (rlin a));
  so_as_sorted : ksorted (ras a); so_bs_sorted : ksorted (rbs a);
  so_as_keys : keys (ras a) = qidx (rquad a);
  so_bs_keys : forall k, In k (keys (rbs a)) -> ~ In k (qidx (rquad a)) /\ exists con, In con (plin st) /\ In k (keys (lterms con));
  so_lt : forall k, In k (keys (lterms (rlin a))) \/ In k (qidx (rquad a)) -> 0 <= k < pidx st WW;
  so_nz : forall q r k, In (q, r) (combine (pnorm st) (rrVec a)) -> In k (qidx q) -> r <> 0%F;
  so_as_coef : forall q r k, In (q, r) (combine (pnorm st) (rrVec a)) -> In k (qidx q) ->
     coef (ras a) k = (comb_coef (plin st) (powers (chal_lin st) (length (plin st))) k * finv r)%F;
  so_bs_coef : forall k, ~ In k (qidx (rquad a)) -> coef (rbs a) k = comb_coef (plin st) (powers (chal_lin st) (length (plin st))) k;
  so_bs_nz : forall k, ~ In k (qidx (rquad a)) -> comb_coef (plin st) (powers (chal_lin st) (length (plin st))) k <> 0%F -> In k (keys (rbs a)) }.

Lemma powers_in (r x : F) n : In x (powers r n) -> r <> 0%F -> x <> 0%F.
Proof.
  intros H Hr. unfold powers in H. apply in_map_iff in H as (i & <- & _). induction i as [|i IH]; cbn [fpow].
  - apply (F_1_neq_0 (Fp_field Hp)).
  - intros E. apply IH. apply (fmul_eq_0 Hp) in E as [E|E]; [contradiction|exact E].
Qed.

Section V1.
Variables (st st1 : pstate) (a : rtv G).
Hypothesis Hwf : wf_system st.
Hypothesis Hd : all_disjoint (pnorm st).
Hypothesis V : ver1 st st1 a.
Lemma v1_split_ok : split_ok st a.
Proof.
  destruct Hwf as (HW & HQ & HL & HN & IL & IN).
  destruct V as [lin com EM EQ N1 N2 ER ED EL (w & ES & EW) EC Est El Eq].
  destruct (lin_merge_spec pick Hpick (plin st) (powers (chal_lin st) (length (plin st)))) as (lin' & EM' & S1 & C1 & K1 & _);
    [now rewrite powers_length|exact HL|]. rewrite EM in EM'. injection EM' as <-.
  destruct (quad_merge_spec (pnorm st) (powers (chal_norm st) (length (pnorm st)))) as (q' & EQ' & S2 & K2 & _ & _);
    [now rewrite powers_length|exact HN|]. rewrite EQ in EQ'. injection EQ' as <-.
  destruct (div_all_spec (pnorm st) (rrVec a) (lterms lin) (lterms (rlin a)) S1 HN Hd) as (S3 & K3 & C3 & D3);
    [now rewrite ER, powers_length|exact ED|].
  assert (KL : forall k, In k (keys (lterms lin)) -> exists con, In con (plin st) /\ In k (keys (lterms con))).
  { intros k Hk. apply K1 in Hk as [Hk|[(con & x & Hin & _ & Hk) _]].
    - destruct (existsb (fun con => zmem (keys (lterms con)) k) (plin st)) eqn:E.
      + apply existsb_exists in E as (con & Hc & Hk'). apply zmem_In in Hk'. now exists con.
      + exfalso. apply Hk. apply fsum_map_0. intros [con x] Hin. cbn [fst snd].
        rewrite coef_notin; [ring|]. intros K. apply not_true_iff_false in E. apply E. apply existsb_exists. exists con.
        split; [eapply in_combine_l; eassumption|]. now apply zmem_In.
    - exists con. split; [eapply in_combine_l; eassumption|exact Hk]. }
  assert (P3 : forall k, In k (keys (lterms (rlin a))) -> 0 <= k < 2 ^ 31 - 1).
  { intros k Hk. apply K3 in Hk as [Hk|(q & Hq & Hk)]; [|now apply (IN q)]. apply KL in Hk as (con & Hc & Hk). now apply (IL con). }
  assert (P2 : forall k, In k (qidx (rquad a)) -> 0 <= k < 2 ^ 31 - 1).
  { intros k Hk. apply K2 in Hk as (q & Hq & Hk). now apply (IN q). }
  destruct (splitPtxtVec_spec _ _ _ _ _ S3 S2 (fun k Hk => proj1 (P3 k Hk)) (fun k Hk => proj1 (P2 k Hk)) ES) as (A1 & A2 & _ & A4 & A5 & A6).
  assert (Ew : w = pidx st WW).
  { rewrite <- EW. symmetry. apply int_of_size_id. split; [lia|]. destruct A6 as [(-> & _)|[K|K]]; [lia|apply P3 in K; lia|apply P2 in K; lia]. }
  unfold inset in A1, A2.
  assert (Kq : forall k, In k (qidx (rquad a)) -> In k (keys (lterms (rlin a)))).
  { intros k Hk. apply K3. right. now apply K2. }
  constructor.
  - exact S3.
  - exact S2.
  - exact K2.
  - exact A1.
  - exact A2.
  - rewrite A1. now apply filter_sorted.
  - rewrite A2. now apply filter_sorted.
  - apply zsorted_ext; [apply ksorted_keys; rewrite A1; now apply filter_sorted|exact S2|]. intros k. rewrite A1.
    rewrite (in_filter_keys (zmem (qidx (rquad a)))), zmem_In. split; [tauto|]. intros Hk. split; [now apply Kq|exact Hk].
  - intros k Hk. rewrite A2 in Hk. apply (in_filter_keys (fun j => negb (zmem (qidx (rquad a)) j))) in Hk as [Hk Hn].
    apply negb_true_iff, zmem_false in Hn. split; [exact Hn|]. apply K3 in Hk as [Hk|Hk]; [now apply KL|]. apply K2 in Hk. contradiction.
  - intros k Hk. rewrite <- Ew. split; [|now apply A5]. destruct Hk as [Hk|Hk]; [now apply P3|now apply P2].
  - intros q r k Hin Hk. now apply (C3 q r k).
  - intros q r k Hin Hk. rewrite A1, (coef_filter (zmem (qidx (rquad a)))).
    + rewrite (proj2 (C3 q r k Hin Hk)), C1. reflexivity.
    + apply zmem_In, K2. exists q. split; [eapply in_combine_l; eassumption|exact Hk].
  - intros k Hk. rewrite A2, (coef_filter (fun j => negb (zmem (qidx (rquad a)) j))) by (apply negb_true_iff, zmem_false; exact Hk).
    rewrite D3, C1; [reflexivity|]. intros q Hq Hk'. apply Hk, K2. now exists q.
  - intros k Hk Hnz. rewrite A2. apply (in_filter_keys (fun j => negb (zmem (qidx (rquad a)) j))).
    split; [|apply negb_true_iff, zmem_false; exact Hk]. apply K3. left. apply K1. now left.
Qed.
End V1.

(** aggregateVerifier2 *)
Definition uof (idxs : list Z) (us : list F) : Z -> F := coef (combine idxs us).
Lemma keys_combine (I : list Z) (us : list F) : length I = length us -> keys (combine I us) = I.
Proof. revert us. induction I as [|k I IH]; intros [|u us] H; cbn in *; try discriminate; [reflexivity|]. f_equal. apply IH. lia. Qed.
Lemma map_uof (I : list Z) (us : list F) : NoDup I -> length I = length us -> map (uof I us) I = us.
Proof.
  revert us. induction I as [|k I IH]; intros [|u us] Hn H; cbn [length] in H; try discriminate; [reflexivity|].
  inversion Hn as [|? ? Hk Hn']; subst. cbn [map]. f_equal.
  - unfold uof. cbn [combine]. rewrite coef_cons, Z.eqb_refl, coef_notin; [ring|]. rewrite keys_combine by lia. exact Hk.
  - rewrite <- (IH us) at 2 by (assumption || lia). apply map_ext_in. intros j Hj. unfold uof. cbn [combine]. rewrite coef_cons.
    destruct (k =? j) eqn:E; [apply Z.eqb_eq in E; subst; contradiction|ring].
Qed.
Lemma dot_map_fsum (f g : Z -> F) I : dot (map f I) (map g I) = fsum (map (fun k => (f k * g k)%F) I).
Proof. induction I as [|k I IH]; [reflexivity|]. cbn [map dot fsum]. now rewrite IH. Qed.
Lemma snd_coef (l : pvec p) : ksorted l -> map snd l = map (coef l) (keys l).
Proof.
  intros H. unfold keys. rewrite map_map. apply map_ext_in. intros [k x] Hin. cbn [fst snd]. symmetry. now apply coef_in.
Qed.

Lemma map_pair_keys (h : Z -> F -> F -> F) (as_ : pvec p) (us : list F) : ksorted as_ -> length as_ = length us ->
  map (fun e => (fst (fst e), h (fst (fst e)) (snd (fst e)) (snd e))) (combine as_ us)
  = map (fun k => (k, h k (coef as_ k) (uof (keys as_) us k))) (keys as_).
Proof.
  intros Hs Hl. assert (Hn : NoDup (keys as_)) by (apply zsorted_NoDup; now apply ksorted_keys).
  assert (Hu : map (uof (keys as_) us) (keys as_) = us) by (apply map_uof; [exact Hn|unfold keys; now rewrite map_length]).
  assert (Hc : map (coef as_) (keys as_) = map snd as_) by (symmetry; now apply snd_coef).
  revert Hu Hc. generalize (uof (keys as_) us) as U. generalize (coef as_) as cf. clear Hs Hn. revert us Hl.
  induction as_ as [|[k x] l IH]; intros [|u us] Hl cf U Hu Hc; cbn [length] in Hl; try discriminate; [reflexivity|].
  cbn [keys map fst] in *. fold (keys l) in *. cbn [combine map fst snd] in *. injection Hu as U1 U2. injection Hc as C1 C2. f_equal.
  - now rewrite U1, C1.
  - apply IH; [lia|assumption|assumption].
Qed.
Lemma keys_mapk (f : Z -> F) ks : keys (map (fun k => (k, f k)) ks) = ks.
Proof. unfold keys. rewrite map_map. cbn [fst]. apply map_id. Qed.
Lemma coef_mapk (f : Z -> F) ks k : NoDup ks -> In k ks -> coef (map (fun k => (k, f k)) ks) k = f k.
Proof.
  induction ks as [|j ks IH]; intros Hn Hi; [destruct Hi|]. inversion Hn as [|? ? Hj Hn']; subst. cbn [map]. rewrite coef_cons.
  destruct (Z.eq_dec j k) as [->|N].
  - rewrite Z.eqb_refl, coef_notin; [ring|]. now rewrite keys_mapk.
  - rewrite (proj2 (Z.eqb_neq j k) N). destruct Hi as [->|Hi]; [contradiction|]. rewrite IH by assumption. ring.
Qed.

Record ver2 (m : mst R) (W : Z) (a : rtv G) (m' : mst R) (a' : rtv G) (I : list Z) (U : Z -> F) (rho : F) : Prop := Ver2 {
  v2_I : I = qidx (rquad a);
  v2_U : U = uof I (powers (fst (m_chal R m "enforceNorm")) (length I));
  v2_rho : rho = fst (m_chal R (snd (m_chal R m "enforceNorm")) "separareLinQuad");
  v2_m : m' = snd (m_chal R (snd (m_chal R m "enforceNorm")) "separareLinQuad");
  v2_lin : rlin a' = LinCon (rbs a) 0%F;
  v2_lcom : rlinCom a' = rlinCom a; v2_qcom : rquadCom a' = rquadCom a;
  v2_idx : qidx (rquad a') = I ++ [W];
  v2_eq : qeq (rquad a') = (qeq (rquad a) - fsum (map (fun k => (U k * U k)%F) I)
             + rho * (leq (rlin a) - fsum (map (fun k => (coef (ras a) k * U k)%F) I)))%F;
  v2_dG : rdG a' = map (fun k => (k, (- rho * coef (ras a) k - U k)%F)) I ++ [(W, 0%F)];
  v2_dH : rdH a' = map (fun k => (k, U k)) I ++ [(W, (- rho)%F)];
  v2_pos : (0 < length I)%nat }.
Lemma ver2_total m W a : ksorted (ras a) -> keys (ras a) = qidx (rquad a) -> (forall k, In k (qidx (rquad a)) -> k < W) -> (0 < length (qidx (rquad a)))%nat ->
  exists m' a' U rho, aggregateVerifier2 R m W a = Ret (m', a') /\ ver2 m W a m' a' (qidx (rquad a)) U rho.
Proof.
  intros Hs Hk HW Hpos. unfold aggregateVerifier2.
  destruct (m_chal R m "enforceNorm") as [u m1] eqn:E1. rewrite powerVectorS_total by assumption. cbn [obind].
  rewrite powers_length. assert (La : length (ras a) = length (qidx (rquad a))) by (rewrite <- Hk; unfold keys; now rewrite map_length).
  rewrite La, Nat.eqb_refl. cbn [negb].
  set (us := powers u (length (qidx (rquad a)))). assert (Lu : length us = length (qidx (rquad a))) by apply powers_length.
  pose proof (innerProd_dot us) as EI. rewrite Lu in EI. rewrite EI. cbn [obind].
  destruct (m_chal R m1 "separareLinQuad") as [rho m2] eqn:E2.
  rewrite sub_inner_spec by lia. cbn [obind].
  destruct (delta_loop_spec (- rho)%F (ras a) us [] []) as (as' & ED); try (exact Hs || exact I || lia || (intros e e' []; fail)).
  rewrite ED. cbn [obind app].
  set (idx := qidx (rquad a)) in *. set (U := uof idx us).
  assert (Hn : NoDup idx) by (rewrite <- Hk; apply zsorted_NoDup; now apply ksorted_keys).
  assert (D1 : map (fun e => (fst (fst e), (snd (fst e) * (- rho) - snd e)%F)) (combine (ras a) us) = map (fun k => (k, (- rho * coef (ras a) k - U k)%F)) idx).
  { pose proof (map_pair_keys (fun _ x y => (x * (- rho) - y)%F) (ras a) us Hs ltac:(lia)) as M. cbn beta in M. rewrite M, Hk.
    apply map_ext_in. intros k _. unfold U. f_equal. ring. }
  assert (D2 : map (fun e => (fst (fst e), snd e)) (combine (ras a) us) = map (fun k => (k, U k)) idx).
  { pose proof (map_pair_keys (fun _ _ y => y) (ras a) us Hs ltac:(lia)) as M. cbn beta in M. now rewrite M, Hk. }
  rewrite D1, D2.
  do 2 eexists. exists U, rho. split; [reflexivity|].
  assert (KU : map U idx = us) by (apply map_uof; [exact Hn|now rewrite Lu]).
  constructor; cbn [rlin rlinCom rquadCom rquad qidx qeq rdG rdH]; try reflexivity; rewrite ?E1; cbn [fst snd]; rewrite ?E2; try reflexivity.
  - now apply zinsert_last.
  - rewrite snd_coef, Hk by assumption. rewrite <- KU at 1 2 3. now rewrite !dot_map_fsum.
  - rewrite kset_last; [reflexivity|]. rewrite keys_mapk. exact HW.
  - rewrite kset_last; [reflexivity|]. rewrite keys_mapk. exact HW.
  - exact Hpos.
Qed.
Lemma ver2_inv m W a m' a' : aggregateVerifier2 R m W a = Ret (m', a') -> ksorted (ras a) -> keys (ras a) = qidx (rquad a) -> (forall k, In k (qidx (rquad a)) -> k < W) ->
  exists U rho, ver2 m W a m' a' (qidx (rquad a)) U rho.
Proof.
  intros H Hs Hk HW.
  assert (Hpos : (0 < length (qidx (rquad a)))%nat).
  { unfold aggregateVerifier2 in H. destruct (m_chal R m "enforceNorm") as [u m1].
    destruct (powerVectorS u (length (qidx (rquad a)))) as [v| | |] eqn:E; try discriminate. now apply powerVectorS_spec in E as [N _]. }
  destruct (ver2_total m W a Hs Hk HW Hpos) as (m2 & a2 & U & rho & E & V). rewrite H in E. injection E as <- <-. now exists U, rho.
Qed.

(** aggregateProver *)
Record prv (st : pstate) (wRnd : F) (st' : pstate) (ap : rtp G) : Type := Prv {
  pv_st1 : pstate; pv_a1 : rtv G; pv_m : mst R; pv_a2 : rtv G; pv_rnd : var -> F; pv_wG : G;
  pv_v1 : aggregateVerifier1 R pick st = Ret (pv_st1, pv_a1);
  pv_scale : scale_pairs fadd fmul (prnd st) (rrVec pv_a1) comPairs = Ret pv_rnd;
  pv_gs : size_of_int (pidx st WW) = size_of_int (Z.of_nat (length (cGs c)) - 1);
  pv_get : size_idx (cGs c) (pidx st WW) = Ret pv_wG;
  pv_w := innerProduct (rbs pv_a1) (plinW st);
  pv_wCom := gadd (gmul (cbase c) wRnd) (gmul pv_wG pv_w);
  pv_v2 : aggregateVerifier2 R (mer_norm st) (pidx st WW)
            (RTV (rlin pv_a1) (gadd (rlinCom pv_a1) pv_wCom) (rquad pv_a1) (gadd (rquadCom pv_a1) pv_wCom)
                (rdG pv_a1) (rdH pv_a1) (rrVec pv_a1) (ruVec pv_a1) (ras pv_a1) (kset (rbs pv_a1) (pidx st WW) (- (1))%F)) = Ret (pv_m, pv_a2);
  pv_qG : sub_lock (kset (mul_all (pqG st) (pnorm st) (rrVec pv_a1)) (pidx st WW) pv_w) (rdG pv_a2) = Ret (pqG st');
  pv_qH : sub_lock (kset (kset (mul_all (pqG st) (pnorm st) (rrVec pv_a1)) (pidx st WW) pv_w) (pidx st WW) 0%F) (rdH pv_a2) = Ret (pqH st');
  pv_linW : plinW st' = keep_terms (kset (plinW st) (pidx st WW) pv_w) (lterms (rlin pv_a2));
  pv_idx : pidx st' = pidx st; pv_com : pcom st' = upd (pcom pv_st1) WW pv_wCom; pv_rd : prnd st' = upd pv_rnd WW wRnd;
  pv_plin : plin st' = map (fun _ => emptyLin) (plin st); pv_pnorm : pnorm st' = map (fun _ => emptyQuad) (pnorm st);
  pv_comp : pcomp st' = pcomp st; pv_z : pz st' = pz st; pv_mer : pmer st' = pv_m;
  pv_ap : ap = RTP (RTV (rlin pv_a2) (rlinCom pv_a2) (rquad pv_a2) (rquadCom pv_a2) (rdG pv_a2) (rdH pv_a2) [] [] [] [])
            (sum_lin fadd pv_rnd + wRnd)%F (sum_quad fadd pv_rnd + wRnd)%F }.
Lemma prv_inv st wRnd st' ap : aggregateProver R c pick st wRnd = Ret (st', ap) -> prv st wRnd st' ap.
Proof.
  unfold aggregateProver. intros H.
  destruct (aggregateVerifier1 R pick st) as [[st1 a1]| | |] eqn:E1; try discriminate; cbn [obind] in H.
  pose proof (ver1_inv st st1 a1 E1) as V. destruct V as [lin com _ _ _ _ _ _ _ _ _ Est _ _]. subst st1.
  cbn [pidx pcom prnd plin pnorm plinW pqG pqH pcomp pz pmer] in H.
  destruct (scale_pairs fadd fmul (prnd st) (rrVec a1) comPairs) as [rnd| | |] eqn:ES; try discriminate; cbn [obind] in H.
  destruct (size_of_int (pidx st WW) =? size_of_int (Z.of_nat (length (cGs c)) - 1)) eqn:EG; cbn [negb] in H; [|discriminate].
  destruct (size_idx (cGs c) (pidx st WW)) as [wG| | |] eqn:EW; try discriminate; cbn [obind] in H.
  match type of H with context [aggregateVerifier2 R ?m ?w ?b] => destruct (aggregateVerifier2 R m w b) as [[m' a2]| | |] eqn:E2 end;
    try discriminate; cbn [obind] in H. cbn [rdG rdH rlin] in H.
  match type of H with context [sub_lock ?x (rdG a2)] => destruct (sub_lock x (rdG a2)) as [qG| | |] eqn:EQG end; try discriminate; cbn [obind] in H.
  match type of H with context [sub_lock ?x (rdH a2)] => destruct (sub_lock x (rdH a2)) as [qH| | |] eqn:EQH end; try discriminate; cbn [obind] in H.
  injection H as <- <-.
  unshelve refine (Prv _ _ _ _ (PS (pidx st) com (prnd st) (plin st) (pnorm st) (plinW st) (pqG st) (pqH st) (pcomp st) (pz st) (mer_norm st)) a1 m' a2 rnd wG _ _ _ _ _ _ _ _ _ _ _ _ _ _ _ _ _); cbn [pidx pcom prnd plin pnorm plinW pqG pqH pcomp pz pmer];
    try eassumption; try reflexivity. now apply Z.eqb_eq.
Qed.

Section Final.
Variables (st st' : pstate) (wRnd : F) (ap : rtp G).
Hypothesis Hwf : wf_system st.
Hypothesis Hd : all_disjoint (pnorm st).
Notation W := (pidx st WW).

Lemma v1_val st1 a (V : ver1 st st1 a) (y z : Z -> F) :
  (forall q r k, In (q, r) (combine (pnorm st) (rrVec a)) -> In k (qidx q) -> z k = (r * y k)%F) ->
  (fsum (map (fun k => coef (ras a) k * z k) (qidx (rquad a))) + lin_val (rbs a) y)%F = lin_val (lterms (v1_lin _ _ _ V)) y.
Proof.
  intros Hz. pose proof (v1_split_ok st st1 a Hwf Hd V) as S.
  pose proof Hwf as (HW & HQ & HL & HN & IL & IN).
  destruct V as [lin com EM EQ N1 N2 ER ED EL Esp EC Est El Eq]. cbn [v1_lin].
  destruct (lin_merge_spec pick Hpick (plin st) (powers (chal_lin st) (length (plin st)))) as (lin' & EM' & S1 & C1 & K1 & _);
    [now rewrite powers_length|exact HL|]. rewrite EM in EM'. injection EM' as <-.
  destruct (div_all_spec (pnorm st) (rrVec a) (lterms lin) (lterms (rlin a)) S1 HN Hd) as (S3 & K3 & C3 & D3);
    [now rewrite ER, powers_length|exact ED|].
  rewrite (lin_val_cover (lterms lin) y (qidx (rquad a) ++ keys (rbs a))).
  - rewrite map_app, fsum_app. f_equal.
    + apply fsum_map_ext. intros k Hk. apply (so_qidx _ _ S) in Hk as (q & Hq & Hk).
      assert (exists r, In (q, r) (combine (pnorm st) (rrVec a))) as (r & Hr).
      { assert (L : length (pnorm st) = length (rrVec a)) by now rewrite ER, powers_length. clear -Hq L. revert L. generalize (rrVec a) as rs.
        induction (pnorm st) as [|q' qs IH]; intros [|r rs] L; try discriminate; [destruct Hq|]. destruct Hq as [->|Hq].
        - exists r. now left.
        - destruct (IH Hq rs ltac:(cbn in L; lia)) as (r' & H). exists r'. now right. }
      rewrite (so_as_coef _ _ S q r k Hr Hk), (Hz q r k Hr Hk), C1. pose proof (so_nz _ _ S q r k Hr Hk) as Hnz.
      field_simplify; [reflexivity|exact Hnz].
    + rewrite (lin_val_cover (rbs a) y (keys (rbs a))); [|apply zsorted_NoDup, ksorted_keys, (so_bs_sorted _ _ S)|auto].
      apply fsum_map_ext. intros k Hk. rewrite C1, (so_bs_coef _ _ S); [reflexivity|]. now apply (so_bs_keys _ _ S).
  - apply NoDup_app_intro.
    + apply zsorted_NoDup, (so_qsorted _ _ S).
    + apply zsorted_NoDup, ksorted_keys, (so_bs_sorted _ _ S).
    + intros k Hk Hk'. now apply (so_bs_keys _ _ S) in Hk'.
  - intros k Hk. apply in_app_iff. destruct (in_dec Z.eq_dec k (qidx (rquad a))) as [Hi|Hi]; [now left|right].
    rewrite (so_bs _ _ S). apply (in_filter_keys (fun j => negb (zmem (qidx (rquad a)) j))). split.
    + apply K3. now left.
    + apply negb_true_iff, zmem_false. exact Hi.
Qed.

(** The result of aggregateProver. *)
Record fin : Type := Fin {
  fn_st1 : pstate; fn_a : rtv G; fn_V : ver1 st fn_st1 fn_a; fn_S : split_ok st fn_a; fn_U : Z -> F; fn_rho : F; fn_rnd : var -> F; fn_wG : G;
  fn_w := lin_val (rbs fn_a) (coef (plinW st));
  fn_I := qidx (rquad fn_a);
  fn_X := coef (mul_all (pqG st) (pnorm st) (rrVec fn_a));
  fn_pos : (0 < length fn_I)%nat;
  fn_Ueq : fn_U = uof fn_I (powers (chal_u st) (length fn_I));
  fn_rhoeq : fn_rho = chal_rho st;
  fn_scale : scale_pairs fadd fmul (prnd st) (rrVec fn_a) comPairs = Ret fn_rnd;
  fn_get : size_idx (cGs c) W = Ret fn_wG;
  fn_gs : size_of_int W = size_of_int (Z.of_nat (length (cGs c)) - 1);
  fn_lin : rlin (rv ap) = LinCon (rbs fn_a ++ [(W, (- (1))%F)]) 0%F;
  fn_lcom : rlinCom (rv ap) = gadd (sum_lin gadd (v1_com _ _ _ fn_V)) (gadd (gmul (cbase c) wRnd) (gmul fn_wG fn_w));
  fn_qcom : rquadCom (rv ap) = gadd (sum_quad gadd (v1_com _ _ _ fn_V)) (gadd (gmul (cbase c) wRnd) (gmul fn_wG fn_w));
  fn_lrnd : rlRnd ap = (sum_lin fadd fn_rnd + wRnd)%F;
  fn_qrnd : rqRnd ap = (sum_quad fadd fn_rnd + wRnd)%F;
  fn_idx : qidx (rquad (rv ap)) = fn_I ++ [W];
  fn_qeq : qeq (rquad (rv ap)) = (qeq (rquad fn_a) - fsum (map (fun k => (fn_U k * fn_U k)%F) fn_I)
             + fn_rho * (leq (v1_lin _ _ _ fn_V) - fsum (map (fun k => (coef (ras fn_a) k * fn_U k)%F) fn_I)))%F;
  fn_dG : rdG (rv ap) = map (fun k => (k, (- fn_rho * coef (ras fn_a) k - fn_U k)%F)) fn_I ++ [(W, 0%F)];
  fn_dH : rdH (rv ap) = map (fun k => (k, fn_U k)) fn_I ++ [(W, (- fn_rho)%F)];
  fn_linW : plinW st' = keep_terms (kset (plinW st) W fn_w) (lterms (rlin (rv ap)));
  fn_qkeys : forall k, In k (keys (mul_all (pqG st) (pnorm st) (rrVec fn_a))) -> k = W \/ In k fn_I;
  fn_Gkeys : keys (pqG st') = fn_I ++ [W]; fn_Hkeys : keys (pqH st') = fn_I ++ [W];
  fn_G : forall k, In k fn_I -> coef (pqG st') k = (fn_X k + fn_rho * coef (ras fn_a) k + fn_U k)%F;
  fn_GW : coef (pqG st') W = fn_w;
  fn_H : forall k, In k fn_I -> coef (pqH st') k = (fn_X k - fn_U k)%F;
  fn_HW : coef (pqH st') W = fn_rho;
  fn_pidx : pidx st' = pidx st; fn_pcom : pcom st' = upd (v1_com _ _ _ fn_V) WW (gadd (gmul (cbase c) wRnd) (gmul fn_wG fn_w));
  fn_prnd : prnd st' = upd fn_rnd WW wRnd;
  fn_mer : pmer st' = snd (m_chal R (snd (m_chal R (mer_norm st) "enforceNorm")) "separareLinQuad") }.
Lemma final : aggregateProver R c pick st wRnd = Ret (st', ap) -> inhabited fin.
Proof.
  intros E. apply prv_inv in E. destruct E as [st1 a1 m a2 rnd wG E1 ES EG EW w wCom E2 EQG EQH Elw Ei Ec Er Epl Epn Ecp Ez Em Eap].
  pose proof (ver1_inv st st1 a1 E1) as V. pose proof (v1_split_ok st st1 a1 Hwf Hd V) as S.
  pose proof Hwf as (HW & HQ & HL & HN & IL & IN).
  assert (HWI : forall k, In k (qidx (rquad a1)) -> k < W) by (intros k Hk; apply (so_lt _ _ S); now right).
  destruct (ver2_inv _ _ _ _ _ E2 (so_as_sorted _ _ S) (so_as_keys _ _ S) HWI) as (U & rho & V2).
  cbn [rquad] in V2. destruct V2 as [_ VU Vr Vm Vl Vlc Vqc Vi Ve VdG VdH Vp].
  cbn [rlin rquad ras rbs rlinCom rquadCom] in *.
  assert (Hw : w = lin_val (rbs a1) (coef (plinW st))) by (apply innerProduct_lin; [exact (so_bs_sorted _ _ S)|exact HW]).
  assert (HbsW : forall j, In j (keys (rbs a1)) -> j < W).
  { intros j Hj. apply (so_lt _ _ S). left. rewrite (so_bs _ _ S) in Hj.
    now apply (in_filter_keys (fun j => negb (zmem (qidx (rquad a1)) j))) in Hj as [Hj _]. }
  rewrite kset_last in Vl by exact HbsW.
  destruct (mul_all_spec (pnorm st) (rrVec a1) (pqG st) HQ HN Hd) as (Sm & Km & Cm & Dm); [rewrite (v1_rVec _ _ _ V); now rewrite powers_length|].
  destruct (sub_lock_spec _ _ _ EQG) as (G1 & G2 & G3). destruct (sub_lock_spec _ _ _ EQH) as (H1 & H2 & H3).
  rewrite VdG, keys_app, keys_mapk in G2. cbn [keys map fst] in G2. rewrite VdH, keys_app, keys_mapk in H2. cbn [keys map fst] in H2.
  assert (HWn : ~ In W (qidx (rquad a1))) by (intros K; apply HWI in K; lia).
  assert (Hnd : NoDup (qidx (rquad a1))) by (apply zsorted_NoDup, (so_qsorted _ _ S)).
  rewrite Hw in *.
  apply inhabits. unshelve refine (Fin st1 a1 V S U rho rnd wG _ _ _ _ _ _ _ _ _ _ _ _ _ _ _ _ _ _ _ _ _ _ _ _ _ _ _).
  - exact Vp.
  - exact VU.
  - exact Vr.
  - exact ES.
  - exact EW.
  - exact EG.
  - rewrite Eap. cbn [rv rlin]. exact Vl.
  - rewrite Eap. cbn [rv rlinCom]. rewrite Vlc, (v1_lcom _ _ _ V). unfold wCom. now rewrite Hw.
  - rewrite Eap. cbn [rv rquadCom]. rewrite Vqc, (v1_qcom _ _ _ V). unfold wCom. now rewrite Hw.
  - now rewrite Eap.
  - now rewrite Eap.
  - rewrite Eap. exact Vi.
  - rewrite Eap. cbn [rv rquad]. rewrite Ve, (v1_leq _ _ _ V). reflexivity.
  - rewrite Eap. exact VdG.
  - rewrite Eap. exact VdH.
  - rewrite Elw, Eap. reflexivity.
  - intros k Hk. assert (K : In k (keys (kset (mul_all (pqG st) (pnorm st) (rrVec a1)) W (lin_val (rbs a1) (coef (plinW st)))))) by (apply keys_kset; [exact Sm|now right]).
    rewrite <- G2 in K. apply in_app_iff in K as [K|[K|[]]]; auto.
  - rewrite G1, <- G2. reflexivity.
  - rewrite H1, <- H2. reflexivity.
  - intros k Hk. rewrite G3, VdG, coef_app, coef_mapk by assumption. rewrite coef_kset by exact Sm.
    assert (k <> W) by (intros ->; contradiction). rewrite (proj2 (Z.eqb_neq k W)) by assumption.
    rewrite coef_cons, (proj2 (Z.eqb_neq W k)), coef_nil by auto. ring.
  - rewrite G3, VdG, coef_app, coef_kset, Z.eqb_refl by exact Sm. rewrite (coef_notin W (map _ _)) by now rewrite keys_mapk.
    rewrite coef_cons, Z.eqb_refl, coef_nil. ring.
  - intros k Hk. rewrite H3, VdH, coef_app, coef_mapk by assumption. rewrite coef_kset by (now apply kset_sorted).
    assert (k <> W) by (intros ->; contradiction). rewrite (proj2 (Z.eqb_neq k W)) by assumption.
    rewrite coef_kset, (proj2 (Z.eqb_neq k W)) by assumption.
    rewrite coef_cons, (proj2 (Z.eqb_neq W k)), coef_nil by auto. ring.
  - rewrite H3, VdH, coef_app, coef_kset, Z.eqb_refl by (now apply kset_sorted). rewrite (coef_notin W (map _ _)) by now rewrite keys_mapk.
    rewrite coef_cons, Z.eqb_refl, coef_nil. ring.
  - exact Ei.
  - rewrite Ec. destruct V as [lin com ? ? ? ? ? ? ? ? ? Est ? ?]. cbn [v1_com]. rewrite Est. unfold wCom. now rewrite Hw.
  - exact Er.
  - rewrite Em. exact Vm.
Qed.

Lemma combine_has (q : quadcon p) qs (rs : list F) : In q qs -> length qs = length rs -> exists r, In (q, r) (combine qs rs).
Proof.
  revert rs. induction qs as [|q' qs IH]; intros [|r rs] Hq L; try discriminate; [destruct Hq|]. destruct Hq as [->|Hq].
  - exists r. now left.
  - destruct (IH rs Hq ltac:(cbn in L; lia)) as (r' & H). exists r'. now right.
Qed.
Hypothesis Hh : recorded st.
Lemma fin_bs_lt (f : fin) j : In j (keys (rbs (fn_a f))) -> j < W.
Proof.
  pose proof (fn_S f) as S. intros Hj. apply (so_lt _ _ S). left. rewrite (so_bs _ _ S) in Hj.
  now apply (in_filter_keys (fun j => negb (zmem (qidx (rquad (fn_a f))) j))) in Hj as [Hj _].
Qed.
Lemma zsorted_snoc s k : zsorted s -> (forall x, In x s -> x < k) -> zsorted (s ++ [k]).
Proof.
  induction s as [|a s IH]; intros Hs Hk; cbn [app zsorted] in *; [split; [intros x []|exact I]|]. destruct Hs as [A B]. split.
  - intros x Hx. apply in_app_iff in Hx as [Hx|[<-|[]]]; [now apply A|apply Hk; now left].
  - apply IH; [exact B|]. intros x Hx. apply Hk. now right.
Qed.
Lemma fin_shape (f : fin) : wf_lin (rlin (rv ap)) /\ wf_quad (rquad (rv ap)).
Proof.
  pose proof (fn_S f) as S. split.
  - unfold wf_lin. rewrite (fn_lin f). cbn [lterms]. apply ksorted_snoc; [exact (so_bs_sorted _ _ S)|].
    intros [j x] Hj. apply (fin_bs_lt f). apply in_keys. now exists x.
  - unfold wf_quad. rewrite (fn_idx f). apply zsorted_snoc; [exact (so_qsorted _ _ S)|].
    intros k Hk. apply (so_lt _ _ S). now right.
Qed.
Lemma fin_linW (f : fin) : keys (plinW st') = keys (lterms (rlin (rv ap))) /\ ksorted (plinW st') /\
  (forall k, In k (keys (rbs (fn_a f))) -> coef (plinW st') k = coef (plinW st) k) /\ coef (plinW st') W = fn_w f.
Proof.
  destruct Hh as (HK & HX). pose proof Hwf as (HW & HQ & HL & HN & IL & IN). pose proof (fn_S f) as S.
  destruct (fin_shape f) as [Slin _]. unfold wf_lin in Slin.
  assert (Hkey : forall k, In k (keys (lterms (rlin (rv ap)))) <-> In k (keys (rbs (fn_a f))) \/ k = W).
  { intros k. rewrite (fn_lin f). cbn [lterms]. rewrite keys_app, in_app_iff. cbn. intuition. }
  destruct (keep_terms_spec _ _ (kset_sorted _ W (fn_w f) HW) Slin) as (A & B & C).
  { intros k Hk. apply keys_kset; [exact HW|]. apply Hkey in Hk as [Hk|Hk]; [right|now left].
    apply (so_bs_keys _ _ S) in Hk as (_ & con & Hc & Hk). exact (HK con k Hc Hk). }
  rewrite <- (fn_linW f) in A, B, C.
  split; [exact A|]. split; [exact B|]. split.
  - intros k Hk. rewrite C by (apply Hkey; now left). rewrite coef_kset by exact HW. pose proof (fin_bs_lt f k Hk).
    rewrite (proj2 (Z.eqb_neq k W)) by lia. reflexivity.
  - rewrite C by (apply Hkey; now right). rewrite coef_kset, Z.eqb_refl by exact HW. reflexivity.
Qed.
Lemma quad_expand (X A U : Z -> F) (r : F) I :
  fsum (map (fun k => ((X k + r * A k + U k) * (X k - U k))%F) I) =
  (fsum (map (fun k => (X k * X k)%F) I) - fsum (map (fun k => (U k * U k)%F) I)
   + r * (fsum (map (fun k => (A k * X k)%F) I) - fsum (map (fun k => (A k * U k)%F) I)))%F.
Proof. induction I as [|k I IH]; cbn [map fsum]; [ring|]. rewrite IH. ring. Qed.
Lemma fin_lin_sat (f : fin) : lin_sat (rlin (rv ap)) (coef (plinW st')).
Proof.
  destruct (fin_linW f) as (_ & _ & CL & CW).
  unfold lin_sat. rewrite (fn_lin f). cbn [lterms leq]. rewrite lin_val_app. unfold lin_val at 2. cbn [map fsum fst snd]. rewrite CW.
  rewrite (lin_val_ext _ _ (coef (plinW st))) by exact CL. unfold fn_w. ring.
Qed.
Lemma fin_sat (f : fin) : all_hold st -> lin_sat (rlin (rv ap)) (coef (plinW st')) /\ quad_sat (rquad (rv ap)) (coef (pqG st')) (coef (pqH st')).
Proof.
  intros (HLs & HQs). destruct Hh as (HK & HX). pose proof Hwf as (HW & HQ & HL & HN & IL & IN). pose proof (fn_S f) as S.
  split.
  - exact (fin_lin_sat f).
  - destruct (mul_all_spec (pnorm st) (rrVec (fn_a f)) (pqG st) HQ HN Hd) as (Sm & Km & Cm & Dm).
    { rewrite (v1_rVec _ _ _ (fn_V f)). now rewrite powers_length. }
    assert (HXr : forall q r k, In (q, r) (combine (pnorm st) (rrVec (fn_a f))) -> In k (qidx q) -> fn_X f k = (r * coef (plinW st) k)%F).
    { intros q r k Hin Hk. unfold fn_X. rewrite (Cm q r k Hin Hk), (HX q k) by (try exact Hk; eapply in_combine_l; eassumption). ring. }
    pose proof (v1_val _ _ (fn_V f) (coef (plinW st)) (fn_X f) HXr) as HV.
    assert (HLv : lin_val (lterms (v1_lin _ _ _ (fn_V f))) (coef (plinW st)) = leq (v1_lin _ _ _ (fn_V f))).
    { apply (lin_merge_complete pick Hpick (plin st) (powers (chal_lin st) (length (plin st)))); try assumption.
      - now rewrite powers_length.
      - exact (v1_merge _ _ _ (fn_V f)). }
    assert (HQv : quad_val (fn_I f) (fn_X f) (fn_X f) = qeq (rquad (fn_a f))).
    { apply (quad_merge_complete (pnorm st) (powers (chal_norm st) (length (pnorm st))) (rquad (fn_a f)) (coef (pqG st)) (coef (pqG st))); try assumption.
      - now rewrite powers_length.
      - exact (v1_qmerge _ _ _ (fn_V f)).
      - intros q r k Hin Hk. rewrite <- (v1_rVec _ _ _ (fn_V f)) in Hin. rewrite (HXr q r k Hin Hk), (HX q k) by (try exact Hk; eapply in_combine_l; eassumption). now split. }
    unfold quad_sat. rewrite (fn_idx f), (fn_qeq f), quad_val_app. unfold quad_val at 2. cbn [map fsum]. rewrite (fn_GW f), (fn_HW f).
    unfold quad_val in HQv |- *.
    rewrite (fsum_map_ext _ (fun k => ((fn_X f k + fn_rho f * coef (ras (fn_a f)) k + fn_U f k) * (fn_X f k - fn_U f k))%F)).
    + rewrite quad_expand. fold (fn_I f) in HV. rewrite <- HQv, <- HLv, <- HV. unfold fn_w. ring.
    + intros k Hk. now rewrite (fn_G f k Hk), (fn_H f k Hk).
Qed.
End Final.
End Agg.
