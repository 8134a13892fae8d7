(** Property C72: the commitments are part of the transcript. *)
From Coq Require Import String.
From Coq Require Import ZArith Znumtheory List Bool Lia.
From Verif Require Import NumTheory Outcome Fp FSum GroupMod Ring ConstraintsModel ConstraintsSpec ConstraintsProofs ConstraintsMerge BulletproofModel
  AlgebraModel AlgebraSpec AlgebraMore TernaryModel RegevModel RegevPfModel RegevPfSpec RegevStSpec RegevPfToy PropRegevSt
  RegevAggModel RegevAggSpec RegevAggMaps RegevAggProofs RegevAggTotal RegevAggOpen RegevAggAccept RegevAggForge RegevRunModel RegevRunSpec RegevRunProofs RegevRunToy
  ConstraintsOther RegevSoundSpec TransSpec TransProofs RegevAggKey PropRegevAgg.
Import ListNotations.
Open Scope Z_scope.

(** ** With a transcript that remembers all the calls *)
Section C72.
Context {p : Z} {ell : nat} {G : gmod p}.
Variable fc : list (item G) -> string -> Fp p.
Variable fb : list (item G) -> string -> nat -> list Z.
Variable fg : list (item G) -> string -> G.
Notation R := (recorder fc fb fg).
Notation pstate := (@pstate p ell G R).
(** When the five steps are done, and so before the challenges of the aggregation
    are drawn, the commitments of all variables but Sk1 (and of WW, which the
    aggregation adds) have been put into the transcript, each once, and nothing else
    is.  Missing: Sk1, whose commitment is the one the proof started with. *)
Theorem C72_partial (c : cfg ell G) (st st5 : pstate) i : proofSteps R c st i = Ret st5 ->
  points (pmer st5) = points (pmer st) ++ map (pcom st5) absorbed_vars /\
  NoDup absorbed_vars /\ (forall x, In x absorbed_vars <-> x <> Sk1 /\ x <> WW) /\ pcom st5 Sk1 = pcom st Sk1.
Proof.
  intros H. destruct (steps_trace fc fb fg c st st5 i H) as [A B]. split; [exact A|]. split; [|split; [|exact B]].
  - unfold absorbed_vars. repeat (constructor; [cbn [In]; intuition discriminate|]). constructor.
  - intros x. split; [intros K; cbn in K; repeat (destruct K as [<-|K]; [split; discriminate|]); destruct K|]. intros [N1 N2]. destruct x; cbn; auto 30; contradiction.
Qed.
(** Hence two proofs with the same transcript have the same commitments. *)
Theorem C72_binding (c c' : cfg ell G) (sa sa5 sb sb5 : pstate) ia ib x : proofSteps R c sa ia = Ret sa5 -> proofSteps R c' sb ib = Ret sb5 ->
  pmer sa = pmer sb -> pmer sa5 = pmer sb5 -> x <> Sk1 -> x <> WW -> pcom sa5 x = pcom sb5 x.
Proof.
  intros Ha Hb E E5 N1 N2. destruct (C72_partial c sa sa5 ia Ha) as (A & _ & V & _). destruct (C72_partial c' sb sb5 ib Hb) as (B & _).
  rewrite E5 in A. rewrite A, E in B. apply app_inv_head in B. assert (K : forall l, map (pcom sa5) l = map (pcom sb5) l -> In x l -> pcom sa5 x = pcom sb5 x).
  { clear. induction l as [|a l IH]; intros H K; [destruct K|]. injection H as H1 H2. destruct K as [<-|K]; auto. }
  apply (K absorbed_vars B). now apply V.
Qed.
(** After the first of several proofs with the same transcript, the commitment to
    the key which the next one uses has been put into it. *)
Theorem C72_rounds (c : cfg ell G) pick (st st' : pstate) is oks : proofRounds R c pick st is = Ret (st', oks) -> (0 < length is)%nat ->
  In (pcom st' Sk1) (points (pmer st')).
Proof. intros H N. exact (proj2 (rounds_trace fc fb fg c pick st st' is oks H N)). Qed.
End C72.
Print Assumptions C72_partial.
Print Assumptions C72_binding.
Print Assumptions C72_rounds.

(** The small configuration with such a transcript. *)
Definition t_rec : rmerlin G101 :=
  recorder (fun m _ => f101 (1 + Z.of_nat (length m))) (fun m _ n => map (fun i => (Z.of_nat (length m) + Z.of_nat i * 3 + 5) mod 256) (seq 0 n))
    (fun m _ => f101 (1 + Z.of_nat (length m)) : G101).
Definition t_recS : @pstate 101 2 G101 t_rec :=
  PS toyIdx (fun _ => gzero) (fun _ => f101 0) (repeat (emptyLin) 15) (repeat emptyQuad 10) [] [] [] (repeat e0 30) [] ([] : mst t_rec).
(** The steps and a round succeed with it; the steps put 25 points into it. *)
Example C72_example : exists s st5, commitKey t_rec toyC t_recS t_sk (f101 6) = Ret s /\ proofSteps t_rec toyC s t_round = Ret st5 /\
  length (points (pmer st5 : list (item G101))) = 25%nat.
Proof.
  destruct (run_ok (let! s := commitKey t_rec toyC t_recS t_sk (f101 6) in proofSteps t_rec toyC s t_round) (fun s => (length (points (pmer s : list (item G101))) =? 25)%nat)) as (st5 & H & K); [vm_compute; reflexivity|].
  apply obind_ret_inv in H as (s & H0 & H). exists s, st5. split; [exact H0|]. split; [exact H|]. now apply Nat.eqb_eq in K.
Qed.
Example C72_rounds_example : exists s st' oks, commitKey t_rec toyC t_recS t_sk (f101 6) = Ret s /\
  proofRounds t_rec toyC min_index s [t_round] = Ret (st', oks) /\ oks = [(true, true)].
Proof.
  destruct (run_ok (let! s := commitKey t_rec toyC t_recS t_sk (f101 6) in proofRounds t_rec toyC min_index s [t_round]) (fun r => match snd r with [(true, true)] => true | _ => false end)) as ([st' oks] & H & K); [vm_compute; reflexivity|].
  apply obind_ret_inv in H as (s & H0 & H). exists s, st', oks. split; [exact H0|]. split; [exact H|]. cbn [snd] in K.
  destruct oks as [|[[] []] []]; first [reflexivity | discriminate K].
Qed.

(** ** The commitment that is not in the transcript *)
Section Forgery.
Context {p : Z} {ell : nat} {G : gmod p} {R : rmerlin G}.
(** A prover who chooses the commitment to the old key after the challenges makes
    the verifier accept, whatever the linear constraints say.  (The assumptions: the
    norm constraints hold; no constraint is empty with a non-zero right side; the
    commitments are those of the witness; no challenge is 0.) *)
Theorem C72_forgery (c : cfg ell G) pick (st : @pstate p ell G R) k wRnd b : prime p -> queue_order pick -> wf_cfg c ->
  set_up c st -> all_mentioned c st -> in_var c st Sk1 k -> Forall (fun con => lterms con <> [] \/ leq con = 0%F) (plin st) ->
  Forall (fun q => quad_sat q (coef (plinW st)) (coef (plinW st))) (pnorm st) -> (forall m l, fst (m_chal R m l) <> 0%F) ->
  exists t st', runProofs R c pick (with_key c st k t) wRnd b = Ret (st', (true, true)).
Proof.
  intros Hp Hq Hc SU AM Hk Hne HQ Hz. destruct (key_forgery Hp c pick Hq Hc st k wRnd b SU AM Hk Hne HQ) as (t & [[st' E]|[_ N]]).
  - exists t, st'. exact E.
  - destruct (N Hz).
Qed.
End Forgery.
Print Assumptions C72_forgery.

(** On the small configuration: the honest state with the right side of one
    constraint of the encryption changed, so that it fails. *)
Definition t_wrong (st : @pstate 101 2 G101 toyR) : @pstate 101 2 G101 toyR :=
  PS (pidx st) (pcom st) (prnd st) (map (fun j => let con := nth j (plin st) emptyLin in if (j =? 4)%nat then LinCon (lterms con) (leq con + 1)%F else con)
    (seq 0 (length (plin st)))) (pnorm st) (plinW st) (pqG st) (pqH st) (pcomp st) (pz st) (pmer st).
Lemma t_wrong_in st con : In con (plin (t_wrong st)) -> exists con', In con' (plin st) /\ lterms con = lterms con'.
Proof.
  cbn [t_wrong plin]. intros H. apply in_map_iff in H as (j & <- & Hj). apply in_seq in Hj. exists (nth j (plin st) emptyLin).
  split; [apply nth_In; lia|]. cbv zeta. destruct (j =? 4)%nat; reflexivity.
Qed.
Lemma t_wrong_set_up st : set_up toyC st -> set_up toyC (t_wrong st).
Proof.
  intros ((A & B & C & D & E0) & H2 & H3 & H4 & H5 & H6 & H7 & H8 & H9).
  split; [split; [exact A|split; [exact B|split; [exact C|split; [|exact E0]]]]|].
  { apply Forall_forall. intros con Hc. apply t_wrong_in in Hc as (con' & Hc & E). rewrite Forall_forall in D. specialize (D con' Hc). unfold wf_lin in *. now rewrite E. }
  split; [cbn [t_wrong plin]; now rewrite map_length, seq_length|]. split.
  { intros con k Hc Hk. apply t_wrong_in in Hc as (con' & Hc & E). rewrite E in Hk. exact (H3 con' k Hc Hk). }
  split; [exact H4|]. split; [exact H5|]. split; [exact H6|]. split; [exact H7|]. split; [exact H8|exact H9].
Qed.
Definition t_wrong_chk (st : @pstate 101 2 G101 toyR) : bool :=
  ment_chk (t_wrong st) &&
  forallb (fun con => match lterms con with [] => feqb (leq con) 0%F | _ => true end) (plin (t_wrong st)) &&
  forallb (fun q => feqb (quad_val (qidx q) (coef (plinW st)) (coef (plinW st))) (qeq q)) (pnorm st) &&
  match nth_error (plin (t_wrong st)) 4 with
  | Some con => negb (feqb (lin_val (lterms con) (coef (plinW st))) (leq con)) &&
      forallb (fun k => negb ((pidx st Sk1 <=? k) && (k <? pidx st Sk1 + clen toyC Sk1))) (keys (lterms con))
  | None => false end &&
  (0 <? clen toyC Sk1).
(** The setting of C72_forgery, with a violated constraint which does not mention
    the old key at all. *)
Theorem C72_forgery_example : exists s st5 con, toyK 1 = Ret s /\ proofSteps toyR toyC s t_round = Ret st5 /\ prime 101 /\ wf_cfg toyC /\
  queue_order (@min_index 101) /\ set_up toyC (t_wrong st5) /\ all_mentioned toyC (t_wrong st5) /\ in_var toyC (t_wrong st5) Sk1 (pidx st5 Sk1) /\
  Forall (fun con => lterms con <> [] \/ leq con = 0%F) (plin (t_wrong st5)) /\
  Forall (fun q => quad_sat q (coef (plinW (t_wrong st5))) (coef (plinW (t_wrong st5)))) (pnorm (t_wrong st5)) /\
  (forall m l, fst (m_chal toyR m l) <> 0%F) /\
  In con (plin (t_wrong st5)) /\ ~ lin_sat con (coef (plinW (t_wrong st5))) /\ (forall k, In k (keys (lterms con)) -> ~ in_var toyC (t_wrong st5) Sk1 k).
Proof.
  destruct toy_five as (s & st5 & E & A & B & C & PF & AM & RD).
  destruct (run_ok (let! s := toyK 1 in proofSteps toyR toyC s t_round) t_wrong_chk) as (st6 & H6 & K6); [vm_compute; reflexivity|].
  assert (st6 = st5) by (rewrite E in H6; cbn [obind] in H6; congruence). subst st6. clear H6.
  unfold t_wrong_chk in K6. apply andb_true_iff in K6 as [K6 K5]. apply andb_true_iff in K6 as [K6 K4]. apply andb_true_iff in K6 as [K6 K3].
  apply andb_true_iff in K6 as [K1 K2]. destruct (nth_error (plin (t_wrong st5)) 4) as [con|] eqn:EC; [|discriminate K4].
  apply andb_true_iff in K4 as [K4 K4'].
  exists s, st5, con. split; [exact E|]. split; [exact C|]. split; [exact prime_101|]. split; [exact toy_cfg|]. split; [exact (min_index_order 101)|].
  split; [exact (t_wrong_set_up st5 (proj1 RD))|]. split; [exact (ment_chk_sound _ K1)|].
  split; [unfold in_var; change (pidx (t_wrong st5)) with (pidx st5); apply Z.ltb_lt in K5; lia|]. split.
  { rewrite forallb_forall in K2. apply Forall_forall. intros con' Hc. specialize (K2 con' Hc). destruct (lterms con'); [right; now apply feqb_eq|left; discriminate]. }
  split. { rewrite forallb_forall in K3. apply Forall_forall. intros q Hq. apply feqb_eq. exact (K3 q Hq). }
  split.
  { intros m l Q. apply (f_equal fval) in Q. revert Q. cbn [m_chal toyR rm toyMer fst]. unfold f101. rewrite fval_toF.
    change (fval 0%F) with 0. pose proof (Z.mod_pos_bound m 100 ltac:(lia)). rewrite Z.mod_small by lia. lia. }
  split; [exact (nth_error_In _ _ EC)|]. split.
  - intros Q. apply feqb_eq in Q. change (plinW (t_wrong st5)) with (plinW st5) in Q. rewrite Q in K4. discriminate K4.
  - intros k Hk [I1 I2]. rewrite forallb_forall in K4'. specialize (K4' k Hk). change (pidx (t_wrong st5)) with (pidx st5) in I1, I2.
    apply Z.leb_le in I1. apply Z.ltb_lt in I2. rewrite I1, I2 in K4'. discriminate K4'.
Qed.
Print Assumptions C72_forgery_example.
(** Hence the claim is false: the commitment to the old key can be replaced without
    changing the transcript, and then a constraint which does not mention the key,
    and which the committed values violate, is accepted. *)
Theorem C72_refuted : exists (st : @pstate 101 2 G101 toyR) k t con st', in_var toyC st Sk1 k /\ set_up toyC (with_key toyC st k t) /\
  pmer (with_key toyC st k t) = pmer st /\ (forall x, x <> Sk1 -> pcom (with_key toyC st k t) x = pcom st x) /\
  In con (plin st) /\ plin (with_key toyC st k t) = plin st /\ ~ lin_sat con (coef (plinW st)) /\ ~ lin_sat con (coef (plinW (with_key toyC st k t))) /\
  runProofs toyR toyC min_index (with_key toyC st k t) (f101 9) t_bl = Ret (st', (true, true)).
Proof.
  destruct C72_forgery_example as (s & st5 & con & E1 & E2 & Hp & Hc & Hq & SU & AM & Hk & Hne & HQ & Hz & HI & NV & NK).
  destruct (C72_forgery toyC min_index (t_wrong st5) (pidx st5 Sk1) (f101 9) t_bl Hp Hq Hc SU AM Hk Hne HQ Hz) as (t & st' & E).
  exists (t_wrong st5), (pidx st5 Sk1), t, con, st'. split; [exact Hk|]. split; [exact (key_set_up Hp toyC Hc (t_wrong st5) SU (pidx st5 Sk1) t Hk)|].
  split; [reflexivity|]. split; [intros x N; cbn [with_key pcom]; unfold upd; destruct (var_eq_dec x Sk1); [contradiction|reflexivity]|].
  split; [exact HI|]. split; [reflexivity|]. split; [exact NV|]. split; [|exact E].
  intros Q. apply NV. unfold lin_sat in *. rewrite <- Q. apply (@ConstraintsOther.lin_val_ext). intros j Hj.
  cbn [with_key plinW]. rewrite coef_kset by exact (proj1 (proj2 (proj1 SU))). destruct (j =? pidx st5 Sk1) eqn:X; [|reflexivity].
  apply Z.eqb_eq in X. subst j. destruct (NK _ Hj Hk).
Qed.
Print Assumptions C72_refuted.
