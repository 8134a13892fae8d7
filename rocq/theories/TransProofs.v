(** The commitments the proof steps put into the transcript. *)
From Coq Require Import String.
From Coq Require Import ZArith List Bool Lia.
From Verif Require Import Outcome Fp GroupMod Ring ConstraintsModel BulletproofModel
  AlgebraModel TernaryModel RegevModel RegevPfModel RegevStSpec RegevPfState RegevAggModel RegevRunModel RegevPfBase TransSpec.
Import ListNotations.
Open Scope Z_scope.

Section T.
Context {p : Z} {ell : nat} {G : gmod p}.
Variable fc : list (item G) -> string -> Fp p.
Variable fb : list (item G) -> string -> nat -> list Z.
Variable fg : list (item G) -> string -> G.
Notation R := (recorder fc fb fg).
Variable c : cfg ell G.
Notation pstate := (@pstate p ell G R).
Notation E := (elt p ell).
Notation F := (Fp p).
Notation tr := (list (item G)).

Lemma points_app (a b : tr) : points (a ++ b) = points a ++ points b.
Proof. unfold points. now rewrite flat_map_app. Qed.

(** The transcript is m, the commitments are com; since m0 the commitments of the
    variables vs were put into it, and the one of Sk1 is still C. *)
Definition inv (m0 : tr) (C : G) (vs : list var) (m : tr) (com : var -> G) : Prop :=
  points m = points m0 ++ map com vs /\ com Sk1 = C.
Definition sinv m0 C vs (st : pstate) : Prop := inv m0 C vs (pmer st : tr) (pcom st).

Lemma inv_com m0 C vs (m : tr) com x g : inv m0 C vs m com -> ~ In x (Sk1 :: vs) -> inv m0 C vs m (upd com x g).
Proof.
  intros [A B] N. split.
  - rewrite A. f_equal. apply map_ext_in. intros y Hy. rewrite upd_other; [reflexivity|]. intros ->. apply N. now right.
  - rewrite upd_other; [exact B|]. intros <-. apply N. now left.
Qed.
Lemma inv_comS m0 C vs st x v r s : sinv m0 C vs st -> comS R c st x v r = Ret s -> ~ In x (Sk1 :: vs) -> sinv m0 C vs s.
Proof. unfold comS. intros I H N. apply obind_ret_inv in H as (g & _ & H). injection H as <-. now apply inv_com. Qed.
Lemma inv_comE m0 C vs st x v r s : sinv m0 C vs st -> comE R c st x v r = Ret s -> ~ In x (Sk1 :: vs) -> sinv m0 C vs s.
Proof. unfold comE. intros I H N. apply obind_ret_inv in H as (g & _ & H). injection H as <-. now apply inv_com. Qed.
Lemma inv_com2 m0 C vs st x v r s : sinv m0 C vs st -> com2 R c st x v r = Ret s -> ~ In x (Sk1 :: vs) -> sinv m0 C vs s.
Proof. unfold com2. intros I H N. apply obind_ret_inv in H as (g & _ & H). injection H as <-. now apply inv_com. Qed.
Lemma inv_absorb m0 C vs st l x : sinv m0 C vs st -> sinv m0 C (vs ++ [x]) (absorb R st l x).
Proof.
  intros [A B]. split; [|exact B]. cbn [absorb set_mer pmer pcom m_point recorder rm]. rewrite points_app, A, map_app, app_assoc. reflexivity.
Qed.
Lemma inv_more m0 C vs (m : tr) com i : inv m0 C vs m com -> (forall l g, i <> IPoint l g) -> inv m0 C vs (m ++ [i]) com.
Proof.
  intros [A B] N. split; [|exact B]. rewrite points_app, A. destruct i; try (unfold points at 2; cbn [flat_map app]; now rewrite !app_nil_r).
  now destruct (N label g).
Qed.
Lemma inv_ternary m0 C vs (m : tr) com l n k X (m' : tr) : inv m0 C vs m com -> ternaryE (ell := ell) R m l n k = Ret (X, m') -> inv m0 C vs m' com.
Proof. unfold ternaryE. intros I H. apply obind_ret_inv in H as (Y & _ & H). injection H as _ <-. apply inv_more; [exact I|discriminate]. Qed.
Lemma inv_element m0 C vs (m : tr) com l e (m' : tr) : inv m0 C vs m com -> newElement (ell := ell) R m l = Ret (e, m') -> inv m0 C vs m' com.
Proof. unfold newElement. intros I H. apply obind_ret_inv in H as (Y & _ & H). injection H as _ <-. apply inv_more; [exact I|discriminate]. Qed.
Lemma inv_norm m0 C vs st i b x xp s : sinv m0 C vs st -> norm R c st i b x xp = Ret s -> sinv m0 C vs s.
Proof. intros I H. unfold norm in H. apply obind_ret_inv in H as (qs & _ & H). injection H as <-. exact I. Qed.
Lemma inv_copy m0 C vs st x (v : list E) s : sinv m0 C vs st -> copy R st x v = Ret s -> sinv m0 C vs s.
Proof. unfold copy. intros I H. apply obind_ret_inv in H as (l & _ & H). injection H as <-. exact I. Qed.
Lemma inv_block m0 C vs st off f s : sinv m0 C vs st -> block R st off f = Ret s -> sinv m0 C vs s.
Proof. unfold block. intros I H. apply obind_ret_inv in H as (l & _ & H). injection H as <-. exact I. Qed.
Lemma inv_process m0 C vs (m : tr) com l (v : list E) : inv m0 C vs m com -> inv m0 C vs (processVector R m l v) com.
Proof.
  intros I. destruct v as [|e v]; [exact I|]. cbn [processVector]. generalize (inv_more m0 C vs m com (ICommit l (elementBytes e (bytesPerScalar p * ell))) I ltac:(discriminate)).
  change (rm_commit R m l (elementBytes e (bytesPerScalar p * ell))) with (m ++ [ICommit l (elementBytes e (bytesPerScalar p * ell))] : tr).
  generalize (m ++ [ICommit l (elementBytes e (bytesPerScalar p * ell))] : tr). clear I. induction v as [|e' v IH]; intros m' I; [exact I|].
  cbn [fold_left]. apply IH. apply inv_more; [exact I|discriminate].
Qed.

Ltac nin := cbn [In app]; intuition discriminate.
(** One statement of a step; I is the invariant of the current state. *)
Ltac one H I :=
  match type of H with
  | (let s := absorb _ ?v ?l ?x in @?b s) = ?r => apply (inv_absorb _ _ _ _ l x) in I; cbn [app] in I;
      let n := fresh "s" in set (n := absorb R v l x) in I; change (b n = r) in H; cbv beta in H; clearbody n
  | (let s := ?v in @?b s) = ?r =>
      let n := fresh "s" in pose (n := v); change (b n = r) in H; cbv beta in H;
      match type of I with sinv ?a ?C ?vs _ => change (sinv a C vs n) in I | inv ?a ?C ?vs _ _ => change (sinv a C vs n) in I end; clearbody n
  | obind ?o _ = _ =>
      let x := fresh "x" in let K := fresh "K" in let Q := fresh "Q" in apply obind_ret_inv in H as (x & K & H);
      try (match type of x with (_ * _)%type => destruct x end); cbv beta iota in H;
      first [ first [ pose proof (inv_comS _ _ _ _ _ _ _ _ I K ltac:(nin)) as Q | pose proof (inv_comE _ _ _ _ _ _ _ _ I K ltac:(nin)) as Q
            | pose proof (inv_com2 _ _ _ _ _ _ _ _ I K ltac:(nin)) as Q | pose proof (inv_norm _ _ _ _ _ _ _ _ _ I K) as Q
            | pose proof (inv_copy _ _ _ _ _ _ _ I K) as Q | pose proof (inv_block _ _ _ _ _ _ _ I K) as Q ];
            clear I K; rename Q into I
      | first [ pose proof (inv_ternary _ _ _ _ _ _ _ _ _ _ I K) as Q | pose proof (inv_element _ _ _ _ _ _ _ _ I K) as Q ];
            clear K I; rename Q into I
      | clear K ]
  end.
Lemma dec_trace m0 C st s rnd ctMat ctVec pt sk noise : sinv m0 C [] st -> proveDecryption R c st rnd ctMat ctVec pt sk noise = Ret s ->
  sinv m0 C (firstn 5 absorbed_vars) s.
Proof.
  intros I H. cbv beta delta [proveDecryption] in H. cbn [firstn absorbed_vars].
  repeat one H I. exact (inv_copy _ _ _ _ _ _ _ I H).
Qed.
Lemma enc_trace m0 C st s rnd ct1 ct2 pt er n1 n2 : sinv m0 C (firstn 5 absorbed_vars) st -> proveEncryption R c st rnd ct1 ct2 pt er n1 n2 = Ret s ->
  sinv m0 C (firstn 17 absorbed_vars) s.
Proof.
  intros I H. cbv beta delta [proveEncryption] in H. cbn [firstn absorbed_vars] in I |- *.
  repeat one H I. exact (inv_copy _ _ _ _ _ _ _ I H).
Qed.
Lemma key_trace m0 C st s rnd pk sk noise : sinv m0 C (firstn 17 absorbed_vars) st -> proveKeyGen R c st rnd pk sk noise = Ret s ->
  sinv m0 C (firstn 24 absorbed_vars) s.
Proof.
  intros I H. cbv beta delta [proveKeyGen] in H. cbn [firstn absorbed_vars] in I |- *.
  repeat one H I. exact (inv_copy _ _ _ _ _ _ _ I H).
Qed.
Lemma share_trace m0 C vs st s lag pt1 pt2 : sinv m0 C vs st -> proveReShare R c st lag pt1 pt2 = Ret s -> sinv m0 C vs s.
Proof.
  intros I H. unfold proveReShare in H. destruct (negb _ || _ || _ || _); [discriminate|]. destruct (negb _); [discriminate|].
  apply obind_ret_inv in H as (cs & _ & H). injection H as <-. exact I.
Qed.
Lemma loop_trace m0 C vs ys rs : ~ In YY (Sk1 :: vs) -> forall n t st s y X, sinv m0 C vs st -> smallness_loop R c n t st ys rs = Ret (s, y, X) -> sinv m0 C (vs ++ [YY]) s.
Proof.
  intros N. induction n as [|n IH]; intros t st s y X I H; [discriminate|]. cbn [smallness_loop] in H. cbv zeta in H.
  apply obind_ret_inv in H as (s1 & K & H). pose proof (inv_comE _ _ _ _ _ _ _ _ I K N) as I1. clear K.
  pose proof (inv_absorb _ _ _ _ "smallnessPf" YY I1) as I2. unfold sinv in I2. cbn [absorb set_mer pmer pcom] in I2.
  apply obind_ret_inv in H as ([Y m] & K & H). pose proof (inv_ternary _ _ _ _ _ _ _ _ _ _ I2 K) as I3. clear K I2.
  apply obind_ret_inv in H as (u & _ & H). apply obind_ret_inv in H as (z & _ & H).
  destruct ((_ <=? _) && (_ <=? _)).
  - injection H as <- <- <-. exact I3.
  - exact (IH _ (set_z R s1 z) _ _ _ I1 H).
Qed.
Lemma sml_trace m0 C st s ys rs : sinv m0 C (firstn 24 absorbed_vars) st -> proveSmallness R c st ys rs = Ret s -> sinv m0 C absorbed_vars s.
Proof.
  intros I H. cbv beta delta [proveSmallness] in H. destruct (negb _); [discriminate|].
  apply obind_ret_inv in H as ([[s1 y] X] & K & H). assert (N : ~ In YY (Sk1 :: firstn 24 absorbed_vars)) by (cbn [firstn absorbed_vars]; nin).
  pose proof (loop_trace _ _ _ _ _ N _ _ _ _ _ _ I K) as I1. clear N. clear K I. cbn [firstn absorbed_vars app] in I1.
  fold absorbed_vars in I1. pose proof (inv_process m0 C absorbed_vars (pmer s1) (pcom s1) "masked reply" (pz s1) I1) as I. clear I1.
  repeat one H I. injection H as <-. exact I.
Qed.
Lemma steps_trace st s i : proofSteps R c st i = Ret s ->
  points (pmer s : tr) = points (pmer st : tr) ++ map (pcom s) absorbed_vars /\ pcom s Sk1 = pcom st Sk1.
Proof.
  intros H. unfold proofSteps in H. assert (I : sinv (pmer st) (pcom st Sk1) [] st) by (split; [cbn [map]; now rewrite app_nil_r|reflexivity]).
  apply obind_ret_inv in H as (s1 & H1 & H). apply (dec_trace _ _ _ _ _ _ _ _ _ _ I) in H1.
  apply obind_ret_inv in H as (s2 & H2 & H). apply (enc_trace _ _ _ _ _ _ _ _ _ _ _ H1) in H2.
  apply obind_ret_inv in H as (s3 & H3 & H). apply (key_trace _ _ _ _ _ _ _ _ H2) in H3.
  apply obind_ret_inv in H as (s4 & H4 & H). apply (share_trace _ _ _ _ _ _ _ _ H3) in H4.
  exact (sml_trace _ _ _ _ _ _ H4 H).
Qed.
(** The rest of a round adds challenges and constraints and leaves the commitment
    of the new key as it is. *)
Variable pick : list (cursor p) -> nat.
Lemma scale_sk2 (f com : var -> G) rs l : (forall x xp i, In (x, xp, i) l -> x <> Sk2) -> scale_pairs gadd gmul f rs l = Ret com -> com Sk2 = f Sk2.
Proof.
  revert f. induction l as [|[[x xp] i] l IH]; intros f N H; cbn [scale_pairs] in H; [now injection H as <-|].
  apply obind_ret_inv in H as (r & _ & H). rewrite (IH _ ltac:(intros; eapply N; right; eassumption) H). apply upd_other.
  intros E0. exact (N x xp i (or_introl eq_refl) (eq_sym E0)).
Qed.
Lemma agg_trace st s wRnd ap : aggregateProver R c pick st wRnd = Ret (s, ap) -> points (pmer s : tr) = points (pmer st : tr) /\ pcom s Sk2 = pcom st Sk2.
Proof.
  unfold aggregateProver. intros H. apply obind_ret_inv in H as ([s1 a] & H1 & H).
  assert (A : points (pmer s1 : tr) = points (pmer st : tr) /\ pcom s1 Sk2 = pcom st Sk2).
  { unfold aggregateVerifier1 in H1. cbn [m_chal recorder rm] in H1.
    apply obind_ret_inv in H1 as (rv1 & _ & H1). apply obind_ret_inv in H1 as (lin & _ & H1).
    apply obind_ret_inv in H1 as (rv2 & _ & H1). apply obind_ret_inv in H1 as (quad & _ & H1). apply obind_ret_inv in H1 as (terms & _ & H1).
    destruct (splitPtxtVec terms (qidx quad)) as [[as_ bs] w]. destruct (negb (int_of_size w =? pidx st WW)); [discriminate|].
    apply obind_ret_inv in H1 as (com & E1 & H1). injection H1 as <- <-. cbn [pmer pcom]. split; [now rewrite !points_app, !app_nil_r|].
    apply scale_sk2 in E1; [exact E1|]. intros x xp i Hin. cbn [comPairs] in Hin. repeat (destruct Hin as [Hin|Hin]; [injection Hin as <- <- <-; discriminate|]). destruct Hin. }
  apply obind_ret_inv in H as (rnd & _ & H). destruct (negb _); [discriminate|]. apply obind_ret_inv in H as (wG & _ & H).
  apply obind_ret_inv in H as ([m a2] & H2 & H). apply obind_ret_inv in H as (qG & _ & H). apply obind_ret_inv in H as (qH & _ & H). injection H as <- <-.
  cbn [pmer pcom]. rewrite upd_other by discriminate. destruct A as [A1 A2]. split; [|exact A2]. rewrite <- A1.
  unfold aggregateVerifier2 in H2. cbn [m_chal recorder rm] in H2. apply obind_ret_inv in H2 as (uv & _ & H2). destruct (negb _); [discriminate|].
  apply obind_ret_inv in H2 as (uu & _ & H2). apply obind_ret_inv in H2 as (A' & _ & H2). apply obind_ret_inv in H2 as ([[as' dG] dH] & _ & H2).
  injection H2 as <- _. now rewrite !points_app, !app_nil_r.
Qed.
Lemma round_trace st s i ok : proofRound R c pick st i = Ret (s, ok) ->
  exists s5, proofSteps R c st i = Ret s5 /\ points (pmer s : tr) = points (pmer s5 : tr) /\ pcom s Sk2 = pcom s5 Sk2.
Proof.
  unfold proofRound. intros H. apply obind_ret_inv in H as (s5 & H5 & H). exists s5. split; [exact H5|].
  unfold runProofs in H. apply obind_ret_inv in H as ([s6 d] & H6 & H). apply obind_ret_inv in H as (ok' & _ & H). injection H as <- <-.
  unfold prepareProofs in H6. apply obind_ret_inv in H6 as ([s7 ap] & H7 & H6). apply agg_trace in H7 as [A B]. rewrite <- A, <- B. clear A B.
  unfold flattenLinPrv in H6. destruct (negb _) in H6; [discriminate|].
  apply obind_ret_inv in H6 as ([[s8 a8] [[lgs lst] lw]] & H8 & H6). apply obind_ret_inv in H8 as ([gs stm] & _ & H8). injection H8 as <- <- <- <- <-.
  unfold flattenQuadPrv in H6. apply obind_ret_inv in H6 as ([[s9 [[[qgs qhs] og] oh]] [wg wh]] & H9 & H6). apply obind_ret_inv in H9 as (q & _ & H9).
  apply obind_ret_inv in H9 as (ws & _ & H9). injection H9 as <- _ _. injection H6 as <- _. split; reflexivity.
Qed.
Lemma rounds_trace st s is oks : proofRounds R c pick st is = Ret (s, oks) -> (0 < length is)%nat ->
  (exists a, points (pmer s : tr) = points (pmer st : tr) ++ a) /\ In (pcom s Sk1) (points (pmer s : tr)).
Proof.
  revert st s oks. induction is as [|i is IH]; intros st s oks H N; [cbn in N; lia|]. cbn [proofRounds] in H.
  apply obind_ret_inv in H as ([s1 ok] & H1 & H). apply obind_ret_inv in H as ([s2 oks'] & H2 & H). injection H as <- <-.
  apply round_trace in H1 as (s5 & H5 & A & B). destruct (steps_trace _ _ _ H5) as [P _].
  assert (P1 : In (pcom s1 Sk2) (points (pmer s1 : tr))).
  { rewrite A, B, P. apply in_or_app. right. apply in_map. cbn. auto 30. }
  destruct is as [|i' is].
  - cbn [proofRounds] in H2. injection H2 as <- <-. cbn [prepareForNextProof pmer pcom]. rewrite upd_same. split; [|exact P1].
    rewrite A, P. now eexists.
  - apply IH in H2 as [(a & Q) Q2]; [|cbn; lia]. split; [|exact Q2]. rewrite Q. cbn [prepareForNextProof pmer]. rewrite A, P, <- app_assoc. now eexists.
Qed.
End T.
