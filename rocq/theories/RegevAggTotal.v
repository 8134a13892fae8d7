(** The aggregation succeeds. *)
From Coq Require Import String.
From Coq Require Import ZArith Znumtheory List Bool Lia Ring Field.
From Verif Require Import NumTheory Outcome Fp FSum GroupMod Ring ConstraintsModel ConstraintsSpec ConstraintsProofs ConstraintsMerge
  ConstraintsOther PedersenModel BulletproofModel RegevModel RegevPfModel RegevPfSpec RegevStSpec RegevAggModel RegevAggSpec RegevAggMaps RegevPfPost RegevAggProofs.
Import ListNotations.
Open Scope Z_scope.

Section T.
Context {p : Z} (Hp : prime p) {ell : nat} {G : gmod p} {R : rmerlin G}.
Notation F := (Fp p).
Add Field FpFld : (Fp_field Hp).
Variable c : cfg ell G.
Variable pick : list (cursor p) -> nat.
Hypothesis Hpick : queue_order pick.
Notation pstate := (@pstate p ell G R).

Lemma div_one_cases (t : pvec p) idxs r : (exists t', div_one t idxs r = Ret t') \/ div_one t idxs r = Throw.
Proof.
  revert t. induction idxs as [|i idxs IH]; intros t; cbn [div_one]; [left; now eexists|].
  unfold finvert. destruct (feqb r f0); cbn [obind]; [now right|apply IH].
Qed.
Lemma div_all_cases qs : forall rs (t : pvec p), (exists t', div_all t qs rs = Ret t') \/ div_all t qs rs = Throw.
Proof.
  induction qs as [|q qs IH]; intros [|r rs] t; cbn [div_all]; try (left; now eexists).
  destruct (div_one_cases t (qidx q) r) as [(t' & E)|E]; rewrite E; cbn [obind]; [apply IH|now right].
Qed.
Lemma scale_total {A} (add : A -> A -> A) (mul : A -> F -> A) rs l : (forall x xp i, In (x, xp, i) l -> (i < length rs)%nat) ->
  forall f, exists f', scale_pairs add mul f rs l = Ret f'.
Proof.
  induction l as [|[[x xp] i] l IH]; intros H f; cbn [scale_pairs]; [now eexists|].
  unfold oget. destruct (nth_error rs i) as [r|] eqn:E.
  - cbn [obind]. apply IH. intros x' xp' i' Hin. apply (H x' xp' i'). now right.
  - apply nth_error_None in E. pose proof (H x xp i (or_introl eq_refl)). lia.
Qed.
Lemma size_idx_ok {A} (l : list A) k d : 0 <= k < Z.of_nat (length l) -> size_idx l k = Ret (nth (Z.to_nat k) l d).
Proof.
  intros H. unfold size_idx. rewrite (proj2 (Z.leb_le 0 k)) by lia. unfold oget. rewrite (nth_error_nth' l d) by lia. reflexivity.
Qed.

Lemma comPairs_lt : forall x xp i, In (x, xp, i) comPairs -> (i < 10)%nat.
Proof.
  intros x xp i Hin. unfold comPairs in Hin.
  repeat (destruct Hin as [Hin|Hin]; [injection Hin as <- <- <-; lia|]). destruct Hin.
Qed.

Variable st : pstate.
Variable wRnd : F.
Hypothesis Hwf : wf_system st.
Hypothesis Hd : all_disjoint (pnorm st).
Notation W := (pidx st WW).
Hypothesis Hn1 : (0 < length (plin st))%nat.
Hypothesis Hn2 : length (pnorm st) = 10%nat.
Hypothesis Hne : exists q k, In q (pnorm st) /\ In k (qidx q).
Hypothesis HkG : forall k, In k (keys (pqG st)) <-> exists q, In q (pnorm st) /\ In k (qidx q).
Hypothesis HWl : forall con k, In con (plin st) -> In k (keys (lterms con)) -> k < W.
Hypothesis HWq : forall q k, In q (pnorm st) -> In k (qidx q) -> k < W.
Hypothesis Htop : (exists q, In q (pnorm st) /\ In (W - 1) (qidx q)) \/
  comb_coef (plin st) (powers (chal_lin st) (length (plin st))) (W - 1) <> 0%F.
Hypothesis Hgs : Z.of_nat (length (cGs c)) = W + 1.
Hypothesis Hwr : 0 <= W < 2 ^ 31.

Lemma agg1_total : (exists st1 a, aggregateVerifier1 R pick st = Ret (st1, a)) \/ (aggregateVerifier1 R pick st = Throw /\ chal_norm st = 0%F).
Proof.
  pose proof Hwf as (HW & HQ & HL & HN & IL & IN).
  unfold aggregateVerifier1, chal_norm in *. unfold chal_lin in Htop.
  destruct (m_chal R (pmer st) "aggregateLinear") as [r1 m1] eqn:E1. cbn [fst snd] in *.
  rewrite powerVectorS_total by exact Hn1. cbn [obind].
  destruct (lin_merge_spec pick Hpick (plin st) (powers r1 (length (plin st)))) as (lin & EM & S1 & C1 & K1 & _);
    [now rewrite powers_length|exact HL|]. rewrite EM. cbn [obind].
  destruct (m_chal R m1 "aggregateNorms") as [r2 m2] eqn:E2. cbn [fst snd] in *.
  rewrite powerVectorS_total by lia. cbn [obind].
  destruct (quad_merge_spec (pnorm st) (powers r2 (length (pnorm st)))) as (q' & EQ & S2 & K2 & _ & _);
    [now rewrite powers_length|exact HN|]. rewrite EQ. cbn [obind].
  destruct (div_all_cases (pnorm st) (powers r2 (length (pnorm st))) (lterms lin)) as [(terms & ED)|ED]; rewrite ED; cbn [obind].
  2:{ right. split; [reflexivity|]. destruct (feqb r2 0%F) eqn:E; [now apply feqb_eq in E|]. exfalso.
      destruct (div_all_total (pnorm st) (powers r2 (length (pnorm st))) (lterms lin)) as (t' & E').
      - intros r Hr. apply (powers_in Hp _ _ _ Hr). intros K. apply feqb_eq in K. congruence.
      - congruence. }
  left.
  destruct (div_all_spec (pnorm st) (powers r2 (length (pnorm st))) (lterms lin) terms S1 HN Hd) as (S3 & K3 & _ & _);
    [now rewrite powers_length|exact ED|].
  assert (KL : forall k, In k (keys (lterms lin)) -> exists con, In con (plin st) /\ In k (keys (lterms con))).
  { intros k Hk. apply K1 in Hk as [Hk|[(con & x & Hin & _ & Hk) _]].
    - destruct (existsb (fun con => zmem (keys (lterms con)) k) (plin st)) eqn:E.
      + apply existsb_exists in E as (con & Hc & Hk'). apply zmem_In in Hk'. now exists con.
      + exfalso. apply Hk. apply fsum_map_0. intros [con x] Hin. cbn [fst snd].
        rewrite coef_notin; [ring|]. intros K. apply not_true_iff_false in E. apply E. apply existsb_exists. exists con.
        split; [eapply in_combine_l; eassumption|]. now apply zmem_In.
    - exists con. split; [eapply in_combine_l; eassumption|exact Hk]. }
  assert (P3 : forall k, In k (keys terms) -> 0 <= k < W).
  { intros k Hk. apply K3 in Hk as [Hk|(q & Hq & Hk)].
    - apply KL in Hk as (con & Hc & Hk). split; [now apply (IL con)|now apply (HWl con)].
    - split; [now apply (IN q)|now apply (HWq q)]. }
  assert (P2 : forall k, In k (qidx q') -> 0 <= k < W).
  { intros k Hk. apply K2 in Hk as (q & Hq & Hk). split; [now apply (IN q)|now apply (HWq q)]. }
  destruct (splitPtxtVec terms (qidx q')) as [[as_ bs] w] eqn:ES.
  destruct (splitPtxtVec_spec _ _ _ _ _ S3 S2 (fun k Hk => proj1 (P3 k Hk)) (fun k Hk => proj1 (P2 k Hk)) ES) as (_ & _ & _ & A4 & A5 & A6).
  assert (Ew : w = W).
  { assert (Ht : W - 1 < w).
    { apply A5. destruct Htop as [(q & Hq & Hk)|Hk]; [right; apply K2; now exists q|left]. apply K3. left. apply K1. left. exact Hk. }
    destruct A6 as [(-> & _ & Eq)|[K|K]].
    - exfalso. destruct Hne as (q & k & Hq & Hk). assert (In k (qidx q')) by (apply K2; now exists q). rewrite Eq in H. destruct H.
    - apply P3 in K. lia.
    - apply P2 in K. lia. }
  rewrite Ew, int_of_size_id, Z.eqb_refl by exact Hwr. cbn [negb].
  destruct (scale_total (@gadd p G) (@gmul p G) (powers r2 (length (pnorm st))) comPairs ltac:(rewrite powers_length, Hn2; exact comPairs_lt) (pcom st)) as (com & EC).
  rewrite EC. cbn [obind]. now do 2 eexists.
Qed.

Lemma agg_total : (exists st' ap, aggregateProver R c pick st wRnd = Ret (st', ap)) \/ (aggregateProver R c pick st wRnd = Throw /\ chal_norm st = 0%F).
Proof.
  destruct agg1_total as [(st1 & a & E1)|[E1 Z1]].
  2:{ right. split; [|exact Z1]. unfold aggregateProver. now rewrite E1. }
  left. pose proof (ver1_inv pick st st1 a E1) as V. pose proof (v1_split_ok Hp pick Hpick st st1 a Hwf Hd V) as S.
  pose proof Hwf as (HW & HQ & HL & HN & IL & IN).
  unfold aggregateProver. rewrite E1. cbn [obind].
  destruct V as [lin com _ EQ N1 N2 ER _ _ _ _ Est _ _]. subst st1. cbn [pidx pcom prnd plin pnorm plinW pqG pqH pcomp pz pmer].
  destruct (scale_total fadd fmul (rrVec a) comPairs ltac:(rewrite ER, powers_length, Hn2; exact comPairs_lt) (prnd st)) as (rnd & EC).
  rewrite EC. cbn [obind]. rewrite Hgs. replace (W + 1 - 1) with W by lia. rewrite Z.eqb_refl. cbn [negb].
  rewrite (size_idx_ok _ _ gzero) by lia. cbn [obind].
  assert (HWI : forall k, In k (qidx (rquad a)) -> k < W) by (intros k Hk; apply (so_lt _ _ S); now right).
  match goal with |- context [aggregateVerifier2 R ?m ?w ?b] => destruct (ver2_total Hp m w b) as (m' & a2 & U & rho & E2 & V2) end;
    cbn [ras rquad]; [exact (so_as_sorted _ _ S)|exact (so_as_keys _ _ S)|exact HWI| |].
  { destruct Hne as (q & k & Hq & Hk). assert (Hi : In k (qidx (rquad a))) by (apply (so_qidx _ _ S); now exists q).
    destruct (qidx (rquad a)); [destruct Hi|cbn; lia]. }
  rewrite E2. cbn [obind rdG rdH rlin].
  destruct (mul_all_spec (pnorm st) (rrVec a) (pqG st) HQ HN Hd) as (Sm & Km & _ & _); [rewrite ER; now rewrite powers_length|].
  assert (HWn : ~ In W (qidx (rquad a))) by (intros K; apply HWI in K; lia).
  assert (Kall : keys (kset (mul_all (pqG st) (pnorm st) (rrVec a)) W (innerProduct (rbs a) (plinW st))) = qidx (rquad a) ++ [W]).
  { apply zsorted_ext.
    - apply ksorted_keys, kset_sorted, Sm.
    - apply zsorted_snoc; [exact (so_qsorted _ _ S)|exact HWI].
    - intros k. rewrite keys_kset by exact Sm. rewrite Km, HkG, in_app_iff, (so_qidx _ _ S). cbn. intuition. }
  destruct (sub_lock_total (kset (mul_all (pqG st) (pnorm st) (rrVec a)) W (innerProduct (rbs a) (plinW st))) (rdG a2)) as (qG & EG).
  { rewrite (v2_dG _ _ _ _ _ _ _ _ V2), keys_app, keys_mapk, Kall. reflexivity. }
  rewrite EG. cbn [obind].
  destruct (sub_lock_total (kset (kset (mul_all (pqG st) (pnorm st) (rrVec a)) W (innerProduct (rbs a) (plinW st))) W 0%F) (rdH a2)) as (qH & EH).
  { rewrite (v2_dH _ _ _ _ _ _ _ _ V2), keys_app, keys_mapk. cbn [keys map fst]. symmetry. apply zsorted_ext.
    - apply ksorted_keys, kset_sorted, kset_sorted, Sm.
    - apply zsorted_snoc; [exact (so_qsorted _ _ S)|exact HWI].
    - intros k. rewrite keys_kset by (now apply kset_sorted). rewrite Kall, !in_app_iff. cbn. intuition. }
  rewrite EH. cbn [obind]. now do 2 eexists.
Qed.
End T.
