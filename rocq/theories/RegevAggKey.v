(** The commitment to the old secret key is not part of the transcript: what a
    prover gains from it. *)
From Coq Require Import String.
From Coq Require Import ZArith Znumtheory List Bool Lia Ring Field Permutation.
From Verif Require Import NumTheory Outcome Fp FSum GroupMod Ring ConstraintsModel ConstraintsSpec ConstraintsProofs ConstraintsMerge
  ConstraintsOther PedersenModel BulletproofModel BulletproofSpec TernaryModel RegevModel RegevPfModel RegevPfSpec RegevPfBase RegevStSpec
  RegevAggModel RegevAggSpec RegevAggMaps RegevPfPost RegevAggProofs RegevAggTotal RegevAggOpen RegevAggAccept RegevAggForge RegevSoundSpec RegevAggSound
  RegevAggFirst TransSpec.
Import ListNotations.
Open Scope Z_scope.

Section Key.
Context {p : Z} (Hp : prime p) {ell : nat} {G : gmod p} {R : rmerlin G}.
Notation F := (Fp p).
Add Field FpFldKy : (Fp_field Hp).
Variable c : cfg ell G.
Variable pick : list (cursor p) -> nat.
Hypothesis Hpick : queue_order pick.
Hypothesis Hc : wf_cfg c.
Notation pstate := (@pstate p ell G R).

(** Acceptance only depends on the residual. *)
Section Res.
Variable st : pstate.
Hypothesis Hr : set_up c st.
Hypothesis Hm : all_mentioned c st.
Notation y := (coef (plinW st)).
Lemma residual_accept wRnd b : Forall (fun con => lterms con <> [] \/ leq con = 0%F) (plin st) ->
  residual st y y (chal_lin st) (chal_norm st) (chal_u st) (chal_rho st) = 0%F ->
  (exists st', runProofs R c pick st wRnd b = Ret (st', (true, true))) \/
  (runProofs R c pick st wRnd b = Throw /\ ~ (forall m l, fst (m_chal R m l) <> 0%F)).
Proof.
  intros Hne HZ. destruct (rd_agg Hp c pick Hpick Hc st Hr Hm wRnd) as [(st' & ap & E)|[E Z]].
  2:{ right. unfold runProofs, prepareProofs. rewrite E. cbn [obind]. split; [reflexivity|]. intros N. exact (N _ _ Z). }
  destruct (final Hp c pick Hpick st st' wRnd ap (rd_wf c Hc st Hr) (rd_disj c Hc st Hr) E) as [f].
  destruct (prep_ok Hp c pick Hc st Hr Hm wRnd st' ap f E) as (st'' & E' & _). unfold runProofs. rewrite E'. cbn [obind].
  set (w := fn_w c pick st st' wRnd ap f).
  assert (SL : lin_sat (rlin (rv ap)) (lvalG st y w)).
  { pose proof (fin_lin_sat Hp c pick st st' wRnd ap (rd_wf c Hc st Hr) (rd_rec c Hc st Hr) f) as H.
    destruct (fin_linW c pick st st' wRnd ap (rd_wf c Hc st Hr) (rd_rec c Hc st Hr) f) as (KL & _ & CL & CW).
    unfold lin_sat in *. rewrite <- H. apply lin_val_ext. intros k Hk. unfold lvalG. rewrite (fn_lin _ _ _ _ _ _ f) in Hk. cbn [lterms] in Hk. rewrite keys_app in Hk.
    apply in_app_iff in Hk as [Hk|[<-|[]]].
    - pose proof (fin_bs_lt c pick st st' wRnd ap f k Hk). rewrite (proj2 (Z.eqb_neq k (pidx st WW))) by lia. symmetry. now apply CL.
    - cbn [fst]. rewrite Z.eqb_refl. symmetry. exact CW. }
  pose proof (residual_eq Hp c pick Hpick st st' wRnd ap (rd_wf c Hc st Hr) (rd_disj c Hc st Hr) Hne f y y w SL) as HR. rewrite HZ in HR.
  assert (HD : dot (map (coef (pqG st')) (fn_I c pick st st' wRnd ap f ++ [pidx st WW])) (map (coef (pqH st')) (fn_I c pick st st' wRnd ap f ++ [pidx st WW])) = qeq (rquad (rv ap))).
  { rewrite dot_quad. rewrite (fn_idx _ _ _ _ _ _ f) in HR. apply (proj1 (fsub_eq_0 _ _)). rewrite <- HR. f_equal. unfold quad_val. apply fsum_map_ext. intros k Hk.
    destruct (wit_vals Hp c pick Hc st Hr wRnd st' ap f k Hk) as [A B]. unfold w. now rewrite A, B. }
  destruct (flat_accept_H Hp c pick Hc st Hr Hm wRnd st' ap f (map (coef (pqH st')) (fn_I c pick st st' wRnd ap f ++ [pidx st WW])) b) as [H|[H N]];
    [now rewrite map_length|exact HD|reflexivity| |].
  - assert (EF : with_wH (the_flat c pick st wRnd st' ap f) (map (coef (pqH st')) (fn_I c pick st st' wRnd ap f ++ [pidx st WW])) = the_flat c pick st wRnd st' ap f) by reflexivity.
    rewrite EF in H. rewrite H. cbn [obind]. left. now eexists.
  - assert (EF : with_wH (the_flat c pick st wRnd st' ap f) (map (coef (pqH st')) (fn_I c pick st st' wRnd ap f ++ [pidx st WW])) = the_flat c pick st wRnd st' ap f) by reflexivity.
    rewrite EF in H. rewrite H. cbn [obind]. right. now split.
Qed.
End Res.

Lemma atk_delta (g : Z -> G) (ks : list Z) k t : NoDup ks -> In k ks -> atk g (fun j => if j =? k then t else 0%F) ks = gmul (g k) t.
Proof.
  induction ks as [|a ks IH]; intros N H; [destruct H|]. rewrite atk_cons. inversion N as [|? ? N1 N2]; subst. destruct H as [->|H].
  - rewrite Z.eqb_refl. rewrite (atk_ext g g _ (fun _ => 0%F) ks).
    + assert (Z0 : atk g (fun _ => 0%F) ks = gzero). { clear -Hp. induction ks as [|a ks IH]; [reflexivity|]. rewrite atk_cons, IH. gsolve. } rewrite Z0. gsolve.
    + intros j Hj. split; [reflexivity|]. rewrite (proj2 (Z.eqb_neq j k)); [reflexivity|]. intros ->. contradiction.
  - rewrite IH by assumption. rewrite (proj2 (Z.eqb_neq a k)) by (intros ->; contradiction). gsolve.
Qed.
Lemma lin_val_bump (l : pvec p) (w w' : Z -> F) k t : NoDup (keys l) -> (forall j, w' j = if j =? k then (w k + t)%F else w j) ->
  lin_val l w' = (lin_val l w + coef l k * t)%F.
Proof.
  intros N H. induction l as [|[a x] l IH]; [unfold lin_val; cbn [map fsum]; rewrite coef_nil; ring|].
  cbn [keys map fst] in N. inversion N as [|? ? N1 N2]; subst. unfold lin_val in *. cbn [map fsum fst snd]. rewrite IH by exact N2. rewrite coef_cons, H. cbn [fst].
  destruct (a =? k) eqn:E; [apply Z.eqb_eq in E; subst a; fold (keys l) in N1; rewrite coef_notin by exact N1; ring|ring].
Qed.

Section Shift.
Variable st : pstate.
Hypothesis Hr : set_up c st.
Variables (k : Z) (t : F).
Hypothesis Hk : in_var c st Sk1 k.
Notation st1 := (with_key c st k t).
Notation y := (coef (plinW st)).
Notation y1 := (coef (plinW st1)).
Lemma key_sorted : ksorted (plinW st). Proof. exact (proj1 (proj2 (proj1 Hr))). Qed.
Lemma y1_at j : y1 j = if j =? k then (y k + t)%F else y j.
Proof. cbn [with_key plinW]. apply coef_kset. exact key_sorted. Qed.
Lemma y1_other x j : x <> Sk1 -> in_var c st x j -> y1 j = y j.
Proof.
  intros N H. rewrite y1_at. rewrite (proj2 (Z.eqb_neq j k)); [reflexivity|]. intros ->. apply N. exact (rd_uniq c Hc st Hr x Sk1 k H Hk).
Qed.
Lemma key_stores x v : x <> Sk1 -> Z.of_nat (length v) = clen c x -> stores (plinW st) (pidx st x) v -> stores (plinW st1) (pidx st x) v.
Proof.
  intros N L S j Hj. destruct (S j Hj) as [A B]. split.
  - cbn [with_key plinW]. apply keys_kset; [exact key_sorted|]. now right.
  - rewrite (y1_other x); [exact B|exact N|]. unfold in_var. lia.
Qed.
Lemma key_set_up : set_up c st1.
Proof.
  destruct Hr as ((A & B & C & D & E0) & H2 & H3 & H4 & H5 & H6 & H7 & H8 & H9). unfold set_up, wf_state.
  split; [split; [exact A|split; [now apply kset_sorted|split; [exact C|split; [exact D|exact E0]]]]|].
  split; [exact H2|]. split; [exact H3|]. split; [exact H4|]. split; [exact H5|]. split; [exact H6|]. split; [|split; [|exact H9]].
  - intros x Hx. destruct (H7 x Hx) as (v & L & O & S1 & S2 & Er). assert (N : x <> Sk1) by (intros ->; discriminate). exists v. split; [exact L|]. split.
    + unfold opens2 in *. cbn [with_key pcom pidx prnd]. now rewrite upd_other by exact N.
    + split; [now apply key_stores|]. split; [exact S2|exact Er].
  - intros x Hx NW. destruct (H8 x Hx NW) as (v & L & O & S1 & Er). destruct (var_eq_dec x Sk1) as [->|N].
    + exists (map y1 (rng c st Sk1)).
      assert (LR : length (map y1 (rng c st Sk1)) = length v) by (unfold rng, zrange; rewrite !map_length, seq_length; lia).
      assert (NTH : forall j, (j < length v)%nat -> nth j (map y1 (rng c st Sk1)) 0%F = y1 (pidx st Sk1 + Z.of_nat j)).
      { intros j Hj. unfold rng, zrange. rewrite map_map. rewrite (nth_indep _ _ (y1 (pidx st Sk1 + Z.of_nat 0))) by (rewrite map_length, seq_length; lia).
        rewrite (map_nth (fun x => y1 (pidx st Sk1 + Z.of_nat x))). rewrite seq_nth by lia. reflexivity. }
      split; [now rewrite LR|]. split; [|split; [|exact Er]].
      * destruct O as [O1 O2]. pose proof (com1_at c Hc st Hr Sk1 eq_refl ltac:(discriminate)) as CA.
        split; [cbn [with_key pidx]; rewrite LR; exact O1|]. cbn [with_key pcom prnd pidx]. rewrite upd_same, CA.
        rewrite (gdot_range _ _ _ y1); [|exact (lay_pos c Hc _ (rd_lay c st Hr) Sk1)|rewrite LR; exact O1|intros j Hj; rewrite LR in Hj; now rewrite NTH].
        assert (ER : zrange (pidx st Sk1) (length (map y1 (rng c st Sk1))) = rng c st Sk1) by (rewrite LR; unfold rng; f_equal; lia). rewrite ER.
        assert (EQ : atk (gen (cGs c)) y1 (rng c st Sk1) = gadd (atk (gen (cGs c)) y (rng c st Sk1)) (gmul (gen (cGs c) k) t)).
        { rewrite <- (atk_delta (gen (cGs c)) (rng c st Sk1) k t); [|apply NoDup_zrange|now apply (in_rng c Hc st)].
          rewrite <- atk_add. apply atk_ext. intros j _. split; [reflexivity|]. rewrite y1_at. destruct (j =? k) eqn:Q; [apply Z.eqb_eq in Q; subst j; reflexivity|ring]. }
        rewrite EQ. change (nth (Z.to_nat k) (cGs c) gzero) with (gen (cGs c) k). gsolve.
      * intros j Hj. rewrite LR in Hj. destruct (S1 j Hj) as [K _]. cbn [with_key pidx]. split; [|now rewrite NTH].
        cbn [with_key plinW]. apply keys_kset; [exact key_sorted|]. now right.
    + exists v. split; [exact L|]. split; [|split; [now apply key_stores|exact Er]].
      unfold opens1 in *. cbn [with_key pcom pidx prnd]. now rewrite upd_other by exact N.
Qed.
Lemma key_mentioned : all_mentioned c st -> all_mentioned c st1.
Proof. intros H. exact H. Qed.
Lemma key_residual rl rn u rho : Forall (fun q => quad_sat q y y) (pnorm st) ->
  residual st1 y1 y1 rl rn u rho = (rho * (peval (lin_residuals st y) rl + comb_coef (plin st) (powers rl (length (plin st))) k * t))%F.
Proof.
  intros HQ. unfold residual. rewrite (gap_zero Hp) by reflexivity.
  rewrite (peval_pzero (norm_residuals st1 y1 y1)).
  - assert (EL : peval (lin_residuals st1 y1) rl = (peval (lin_residuals st y) rl + comb_coef (plin st) (powers rl (length (plin st))) k * t)%F).
    { unfold comb_coef. rewrite (powers_peval Hp (fun con => coef (lterms con) k)). unfold lin_residuals. cbn [with_key plin].
      assert (HW : Forall wf_lin (plin st)) by (destruct Hr as ((_ & _ & _ & D & _) & _); exact D).
      induction HW as [|con cs W HW IH]; cbn [map peval]; [ring|]. rewrite IH. unfold lin_res.
      rewrite (lin_val_bump (lterms con) y y1 k t); [ring|apply zsorted_NoDup, ksorted_keys; exact W|exact y1_at]. }
    rewrite EL. ring.
  - unfold pzero, norm_residuals. rewrite Forall_map. cbn [with_key pnorm]. rewrite Forall_forall in *. intros q Hq. specialize (HQ q Hq). unfold norm_res, quad_sat in *.
    assert (E : quad_val (qidx q) y1 y1 = quad_val (qidx q) y y).
    { unfold quad_val. apply fsum_map_ext. intros j Hj. destruct (rd_q c st Hr q Hq) as (i & x & xp & Hi & _ & Hx). destruct (norm_of_norm i x xp Hi) as [Nx Nxp].
      apply Hx in Hj as [Hj|Hj]; [rewrite (y1_other x j)|rewrite (y1_other xp j)]; try exact Hj; try reflexivity; intros ->; discriminate. }
    rewrite E, HQ. ring.
Qed.
End Shift.

Theorem key_forgery (st : pstate) k wRnd b : set_up c st -> all_mentioned c st -> in_var c st Sk1 k ->
  Forall (fun con => lterms con <> [] \/ leq con = 0%F) (plin st) -> Forall (fun q => quad_sat q (coef (plinW st)) (coef (plinW st))) (pnorm st) ->
  exists t, (exists st', runProofs R c pick (with_key c st k t) wRnd b = Ret (st', (true, true))) \/
   (runProofs R c pick (with_key c st k t) wRnd b = Throw /\ ~ (forall m l, fst (m_chal R m l) <> 0%F)).
Proof.
  intros Hr Hm Hk Hne HQ. set (a := peval (lin_residuals st (coef (plinW st))) (chal_lin st)).
  set (d := comb_coef (plin st) (powers (chal_lin st) (length (plin st))) k).
  assert (Hd : d <> 0%F) by (apply (Hm Sk1 k); [reflexivity|discriminate|exact Hk]).
  exists (- a * finv d)%F. apply residual_accept.
  - now apply key_set_up.
  - exact Hm.
  - exact Hne.
  - change (chal_lin (with_key c st k (- a * finv d)%F)) with (chal_lin st). change (chal_norm (with_key c st k (- a * finv d)%F)) with (chal_norm st).
    change (chal_u (with_key c st k (- a * finv d)%F)) with (chal_u st). change (chal_rho (with_key c st k (- a * finv d)%F)) with (chal_rho st).
    rewrite (key_residual st Hr k _ Hk) by exact HQ. fold a d. field. exact Hd.
Qed.
End Key.
