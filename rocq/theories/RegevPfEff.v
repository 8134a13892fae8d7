(** What a proof step does to the state, as one record; the consequences shared
    by all the steps. *)
From Coq Require Import String.
From Coq Require Import ZArith List Bool Lia Ring.
From Verif Require Import Outcome Fp FSum GroupMod Ring ConstraintsModel ConstraintsSpec ConstraintsProofs ConstraintsOther
  PedersenModel PedersenProofs BulletproofModel AlgebraModel AlgebraSpec AlgebraProofs AlgebraMore TernaryModel TernarySpec TernaryProofs
  RegevModel RegevSpec RegevPfModel RegevPfSpec RegevPfBase RegevPfLin RegevPfCom RegevStSpec RegevPfState RegevDecrypt.
Import ListNotations.
Open Scope Z_scope.

(** States are kept in the form PS ...: each operation acts on that form. *)
Section PSform.
Context {p : Z} {ell : nat} {G : gmod p}.
Variable R : rmerlin G.
Variables (i : var -> Z) (co : var -> G) (rd : var -> Fp p) (l : list (lincon p)) (q : list (quadcon p)) (w g h : pvec p)
  (cp z : list (elt p ell)) (m : mst R).
Notation S0 := (PS i co rd l q w g h cp z m).
Lemma set_mer_PS m' : set_mer R S0 m' = PS i co rd l q w g h cp z m'. Proof. reflexivity. Qed.
Lemma set_com_PS x C r : set_com R S0 x C r = PS i (upd co x C) (upd rd x r) l q w g h cp z m. Proof. reflexivity. Qed.
Lemma set_lin_PS l' : set_lin R S0 l' = PS i co rd l' q w g h cp z m. Proof. reflexivity. Qed.
Lemma set_norms_PS q' : set_norms R S0 q' = PS i co rd l q' w g h cp z m. Proof. reflexivity. Qed.
Lemma set_comp_PS cp' : set_comp R S0 cp' = PS i co rd l q w g h cp' z m. Proof. reflexivity. Qed.
Lemma set_z_PS z' : set_z R S0 z' = PS i co rd l q w g h cp z' m. Proof. reflexivity. Qed.
Lemma absorb_PS s x : absorb R S0 s x = PS i co rd l q w g h cp z (m_point R m s (co x)). Proof. reflexivity. Qed.
Lemma wit_PS x v : wit R S0 x v = PS i co rd l q (addSVec2Map w (coeffs_of v) (i x)) g h cp z m.
Proof. rewrite <- addE_S. reflexivity. Qed.
Lemma witS_PS x v : witS R S0 x v = PS i co rd l q (addSVec2Map w v (i x)) g h cp z m. Proof. reflexivity. Qed.
Lemma witQ_PS x v : witQ R S0 x v = PS i co rd l q w (addSVec2Map g (coeffs_of v) (i x)) h cp z m.
Proof. rewrite <- addE_S. reflexivity. Qed.
Lemma expand_PS x v b : expand R S0 x v b = expandConstraints b (i x) v 0 None. Proof. reflexivity. Qed.
Lemma make_PS x v b : make R S0 x v b = makeConstraints b (i x) v 0 None. Proof. reflexivity. Qed.
Lemma pidx_PS : pidx S0 = i. Proof. reflexivity. Qed.
Lemma pcom_PS : pcom S0 = co. Proof. reflexivity. Qed.
Lemma pmer_PS : pmer S0 = m. Proof. reflexivity. Qed.
Lemma plin_PS : plin S0 = l. Proof. reflexivity. Qed.
Lemma pnorm_PS : pnorm S0 = q. Proof. reflexivity. Qed.
Lemma pcomp_PS : pcomp S0 = cp. Proof. reflexivity. Qed.
Lemma pz_PS : pz S0 = z. Proof. reflexivity. Qed.
End PSform.
Ltac nf H := rewrite ?set_mer_PS, ?set_com_PS, ?set_lin_PS, ?set_norms_PS, ?set_comp_PS, ?set_z_PS, ?absorb_PS, ?wit_PS, ?witS_PS, ?witQ_PS,
  ?pmer_PS, ?pcom_PS in H.
Ltac projin H := rewrite ?pidx_PS, ?pcom_PS, ?pmer_PS, ?plin_PS, ?pnorm_PS, ?pcomp_PS, ?pz_PS in H.
Ltac proj := cbn [pidx pcom prnd plin pnorm plinW pqG pqH pcomp pz pmer].
(** One step of an inversion. *)
Tactic Notation "ob" ident(H) "as" simple_intropattern(v) simple_intropattern(E) := apply obind_ret_inv in H as [v [E H]]; nf H.
Tactic Notation "ocomS" ident(H) ident(C) ident(K) :=
  let E := fresh in let s := fresh in apply obind_ret_inv in H as [s [E H]]; apply comS_inv in E as (C & -> & K); projin K; nf H.
Tactic Notation "ocomE" ident(H) ident(C) ident(K) :=
  let E := fresh in let s := fresh in apply obind_ret_inv in H as [s [E H]]; apply comE_inv in E as (C & -> & K); projin K; nf H.
Tactic Notation "ocom2" ident(H) ident(C) ident(K) :=
  let E := fresh in let s := fresh in apply obind_ret_inv in H as [s [E H]]; apply com2_inv in E as (C & -> & K); projin K; nf H.
Tactic Notation "onorm" ident(H) ident(C) ident(K) :=
  let E := fresh in let s := fresh in apply obind_ret_inv in H as [s [E H]]; apply norm_inv in E as (C & -> & K); projin K; nf H.
Tactic Notation "ocopy" ident(H) ident(C) ident(K) :=
  let E := fresh in let s := fresh in apply obind_ret_inv in H as [s [E H]]; apply copy_inv in E as (C & -> & K); projin K; nf H.
Tactic Notation "oblock" ident(H) ident(C) ident(K) :=
  let E := fresh in let s := fresh in apply obind_ret_inv in H as [s [E H]]; apply block_inv in E as (C & -> & K); projin K; nf H.

(** Split [In (x, v) [(a1, b1); ...]] into its cases. *)
Ltac in_cases H :=
  cbn -[coeffs_of] in H;
  repeat match type of H with
  | _ \/ _ => destruct H as [H|H]
  end; [injection H as <- <- ..|contradiction].

Section Alg.
Context {p : Z} {ell : nat}.
Notation F := (Fp p).
Notation E := (elt p ell).
Hypothesis He : (0 < ell)%nat.
Add Ring Eeff : (elt_ring (p := p) He).

Lemma sumE_sub n (f g : nat -> E) : sumE n (fun i => esub (f i) (g i)) = esub (sumE n f) (sumE n g).
Proof.
  rewrite (sumE_ext n _ (fun i => eadd (f i) (emul (eopp e1) (g i)))) by (intros; ring).
  rewrite sumE_add, sumE_mul_l. ring.
Qed.
Lemma sumE_swap_mul n m (a : nat -> nat -> E) (s r : nat -> E) :
  sumE n (fun i => emul (sumE m (fun k => emul (a k i) (s k))) (r i)) =
  sumE m (fun k => emul (sumE n (fun i => emul (a k i) (r i))) (s k)).
Proof.
  rewrite (sumE_ext n _ (fun i => sumE m (fun k => emul (emul (a k i) (s k)) (r i)))).
  2:{ intros i _. now rewrite <- sumE_mul_r. }
  rewrite sumE_swap. apply sumE_ext. intros k _. rewrite <- sumE_mul_r. apply sumE_ext. intros i _. ring.
Qed.
Lemma compressed_iff cols rows (x : E) X comp noise lhs rhs :
  esub lhs rhs = esub (sumE cols (fun j => emul (epow x j) (comp j)))
                      (sumE rows (fun i => emul (noise i) (sumE cols (fun j => emul (X i j) (epow x j))))) ->
  (lhs = rhs <-> compressed_eq cols rows x X comp noise).
Proof.
  intros H. unfold compressed_eq.
  assert (Q : sumE cols (fun j => emul (epow x j) (esub (comp j) (sumE rows (fun i => emul (noise i) (X i j))))) = esub lhs rhs).
  { rewrite H. rewrite (sumE_ext cols _ (fun j => esub (emul (epow x j) (comp j)) (sumE rows (fun i => emul (noise i) (emul (X i j) (epow x j)))))).
    2:{ intros j _. rewrite (sumE_ext rows (fun i => emul (noise i) (emul (X i j) (epow x j))) (fun i => emul (epow x j) (emul (noise i) (X i j)))) by (intros; ring).
        rewrite sumE_mul_l. ring. }
    rewrite sumE_sub, sumE_swap. f_equal. apply sumE_ext. intros i _. now rewrite sumE_mul_l. }
  rewrite Q. split; intros A; [rewrite A; ring|].
  replace lhs with (eadd (esub lhs rhs) rhs) by ring. rewrite A. ring.
Qed.
Lemma compressed_honest cols rows (x : E) X comp noise :
  (forall j, (j < cols)%nat -> comp j = sumE rows (fun i => emul (noise i) (X i j))) ->
  compressed_eq cols rows x X comp noise.
Proof.
  intros H. unfold compressed_eq. rewrite (sumE_ext cols _ (fun _ => emul e0 e0)).
  - rewrite sumE_mul_l. ring.
  - intros j Hj. rewrite H by assumption. ring.
Qed.
Lemma compressed_ext cols rows (x : E) X comp noise comp' noise' :
  (forall j, (j < cols)%nat -> comp j = comp' j) -> (forall i, (i < rows)%nat -> noise i = noise' i) ->
  compressed_eq cols rows x X comp noise <-> compressed_eq cols rows x X comp' noise'.
Proof.
  intros H1 H2. unfold compressed_eq.
  rewrite (sumE_ext cols _ (fun j => emul (epow x j) (esub (comp' j) (sumE rows (fun i => emul (noise' i) (X i j)))))); [reflexivity|].
  intros j Hj. rewrite H1 by assumption. do 2 f_equal. apply sumE_ext. intros i Hi. now rewrite H2.
Qed.

Lemma edot_sumE (u v : list E) : edot u v = sumE (length u) (fun i => emul (nth i u e0) (nth i v e0)).
Proof. reflexivity. Qed.
Lemma innerProduct_sumE (u v : list E) : length u = length v ->
  innerProductEE u v = sumE (length u) (fun i => emul (nth i u e0) (nth i v e0)).
Proof. intros H. rewrite innerProductEE_edot by assumption. reflexivity. Qed.
Lemma matVec_inv (M : mat E) v r n m : mat_dims M n m -> matVec M v = Ret r ->
  length r = n /\ forall i, (i < n)%nat -> nth i r e0 = sumE m (fun j => emul (mget e0 M i j) (nth j v e0)).
Proof.
  intros (D1 & D2 & D3) H. unfold matVec in H. destruct (negb _); [discriminate|]. injection H as <-.
  split; [now rewrite map_length|]. intros i Hi.
  rewrite (nth_map_lt (fun row => edot row v) _ _ _ []) by lia. rewrite edot_sumE.
  rewrite Forall_forall in D3. rewrite (D3 (nth i (mrows M) [])) by (apply nth_In; lia). reflexivity.
Qed.
Lemma vecMat_inv (M : mat E) v r n m : mat_dims M n m -> vecMat v M = Ret r -> length v = n ->
  length r = m /\ forall j, (j < m)%nat -> nth j r e0 = sumE n (fun i => emul (nth i v e0) (mget e0 M i j)).
Proof.
  intros (D1 & D2 & D3) H Hv. unfold vecMat in H. destruct (negb _); [discriminate|]. injection H as <-.
  split; [rewrite map_length, seq_length; exact D2|]. intros j Hj.
  rewrite (nth_map_lt (fun j => edot v (column e0 M j)) _ _ _ 0%nat) by (rewrite seq_length; lia).
  rewrite seq_nth by lia. rewrite edot_sumE, Hv. apply sumE_ext. intros i Hi. f_equal.
  unfold column. rewrite (nth_map_lt (fun r => nth (0 + j) r e0) _ _ _ []) by lia. reflexivity.
Qed.
End Alg.

Section Eff.
Context {p : Z} {ell : nat} {G : gmod p}.
Notation F := (Fp p).
Notation E := (elt p ell).
Variable R : rmerlin G.
Variable c : cfg ell G.
Notation pstate := (@pstate p ell G R).

(** The scalars of the elements written. *)
Definition flat (l : list (var * list E)) : list (var * list F) := map (fun e => (fst e, coeffs_of (snd e))) l.

(** *** One block *)
Definition cleared (b : list (lincon p)) (rhs : E) : Prop :=
  wf_block (ell := ell) b /\ rhsE (ell := ell) b = rhs /\ (forall w, lhsE (ell := ell) b w = e0) /\
  (forall i, (i < ell)%nat -> lterms (nth i b (LinCon [] 0%F)) = []).
Lemma cleared_clear b (e : E) : length b = ell -> cleared (setEqsTo (clearBlock b) e) e.
Proof.
  intros Hl. destruct (clear_spec b Hl) as (A1 & A2 & A3). destruct (setEqsTo_spec _ e A1) as (B1 & B2 & B3 & B4).
  split; [exact B1|]. split; [exact B2|]. split; [intros w; now rewrite B3|]. intros i Hi. rewrite B4 by assumption. now apply A3.
Qed.
Lemma cleared_set b (e : E) : length b = ell -> Forall (fun k => lterms k = []) b -> cleared (setEqsTo b e) e.
Proof.
  intros Hl Hf.
  assert (N : forall i, lterms (nth i b (LinCon [] 0%F)) = []).
  { intros i. destruct (Nat.lt_ge_cases i (length b)) as [H|H].
    - rewrite Forall_forall in Hf. apply Hf. now apply nth_In.
    - now rewrite nth_overflow. }
  assert (A1 : wf_block (ell := ell) b).
  { split; [assumption|]. eapply Forall_impl; [|exact Hf]. intros k Hk. unfold wf_lin. rewrite Hk. exact I. }
  destruct (setEqsTo_spec _ e A1) as (B1 & B2 & B3 & B4).
  split; [exact B1|]. split; [exact B2|]. split.
  - intros w. rewrite B3. apply coeff_ext. intros i Hi. unfold lhsE. rewrite coeff_mkE, N.
    unfold e0. rewrite coeff_mkE. now destruct (i <? ell)%nat.
  - intros i Hi. rewrite B4 by assumption. apply N.
Qed.

Lemma block_empty_forall (cs : list (lincon p)) off : block_empty (ell := ell) cs off -> Forall (fun k => lterms k = []) (firstn ell (skipn off cs)).
Proof.
  intros H. apply Forall_forall. intros k Hk. apply In_nth_error in Hk as [i Hi].
  assert (Hl : (i < ell)%nat).
  { pose proof (nth_error_Some (firstn ell (skipn off cs)) i) as X. rewrite Hi in X. destruct X as [X _]. specialize (X ltac:(discriminate)).
    rewrite firstn_length in X. lia. }
  rewrite TernaryProofs.nth_error_firstn, nth_error_skipn in Hi by assumption. destruct (H i Hl) as [e He]. rewrite He in Hi. now injection Hi as <-.
Qed.
Record built (cs cs' : list (lincon p)) (off : nat) (rhs : E) (L : (Z -> F) -> E) (ks : Z -> Prop) : Prop := Built {
  built_len : length cs' = length cs;
  built_in : (off + ell <= length cs)%nat;
  built_other : forall i, ~ (off <= i < off + ell)%nat -> nth_error cs' i = nth_error cs i;
  built_wf : Forall wf_lin cs -> Forall wf_lin cs';
  built_sat : forall w, block_sat (ell := ell) cs' off w <-> L w = rhs;
  built_keys : forall i, (i < ell)%nat -> exists con, nth_error cs' (off + i) = Some con /\ forall k, In k (keys (lterms con)) <-> ks k }.
Lemma built_intro (cs cs' : list (lincon p)) off f rhs L ks :
  on_block (ell := ell) cs off f = Ret cs' ->
  (forall b b', b = firstn ell (skipn off cs) -> length b = ell -> f b = Ret b' -> exists b0, cleared b0 rhs /\ block_adds (ell := ell) b0 b' L ks) ->
  built cs cs' off rhs L ks.
Proof.
  intros H Hf. apply on_block_inv in H as (A1 & b & b' & A2 & A3 & Ab & A4 & A5).
  destruct (Hf b b' Ab A2 A3) as (b0 & (C1 & C2 & C3 & C4) & D1 & D2 & D3 & D4).
  destruct (A5 (proj1 D1)) as (B1 & B2 & B3).
  split; try assumption.
  - intros Hw. rewrite Forall_forall. intros k Hk. apply In_nth_error in Hk as [i Hi].
    destruct (le_lt_dec off i) as [H1|H1]; [destruct (le_lt_dec (off + ell) i) as [H2|H2]|].
    + rewrite B3 in Hi by lia. rewrite Forall_forall in Hw. apply Hw. now apply nth_error_In in Hi.
    + replace i with (off + (i - off))%nat in Hi by lia. rewrite B2 in Hi by lia. apply nth_error_In in Hi.
      destruct D1 as [_ D1]. rewrite Forall_forall in D1. now apply D1.
    + rewrite B3 in Hi by lia. rewrite Forall_forall in Hw. apply Hw. now apply nth_error_In in Hi.
  - intros w. rewrite (block_sat_iff cs' off b' w (proj1 D1) B2). rewrite D3, D2, C2, C3, eadd_0_l. reflexivity.
  - intros i Hi. exists (nth i b' (LinCon [] 0%F)). split.
    + rewrite B2 by assumption. apply nth_error_nth'. destruct D1 as [D1 _]. lia.
    + intros k. rewrite D4, C4 by assumption. cbn. tauto.
Qed.

(** *** The whole step *)
Record eff (st st' : pstate) (rnd : var -> F) (ws qs o1 o2 : list (var * list F)) (cps : list (var * list E))
    (nms : list (nat * (Z * var * var))) (offs : list nat) : Prop := Eff {
  eff_idx : pidx st' = pidx st;
  eff_W : plinW st' = wrs (pidx st) ws (plinW st);
  eff_Q : pqG st' = wrs (pidx st) qs (pqG st);
  eff_H : pqH st' = pqH st;
  eff_z : pz st' = pz st;
  eff_o1 : forall x v, In (x, v) o1 -> opens1 c st' x v /\ prnd st' x = rnd x;
  eff_o2 : forall x v, In (x, v) o2 -> opens2 c st' x v /\ prnd st' x = rnd x;
  eff_com : forall x, ~ In x (map fst o1 ++ map fst o2) -> pcom st' x = pcom st x /\ prnd st' x = prnd st x;
  eff_cp : copies (pidx st) cps (pcomp st) (pcomp st');
  eff_nm : norms c (pidx st) nms (pnorm st) (pnorm st');
  eff_len : length (plin st') = length (plin st);
  eff_lin : forall i, (forall o, In o offs -> ~ (o <= i < o + ell)%nat) -> nth_error (plin st') i = nth_error (plin st) i;
  eff_wf : Forall wf_lin (plin st) -> Forall wf_lin (plin st') }.
End Eff.
