(** The challenges do not depend on the statement. *)
From Coq Require Import String.
From Coq Require Import ZArith Znumtheory List Bool Lia Ring.
From Verif Require Import NumTheory Outcome Fp FSum GroupMod Ring ConstraintsModel BulletproofModel
  AlgebraModel TernaryModel RegevModel RegevPfModel RegevPfSpec RegevPfBase RegevStSpec RegevPfState.
Import ListNotations.
Open Scope Z_scope.

Section FS.
Context {p : Z} {ell : nat} {G : gmod p}.
Variable R : rmerlin G.
Variable c : cfg ell G.
Notation pstate := (@pstate p ell G R).
Notation E := (elt p ell).
Notation F := (Fp p).
(** Commitments, their randomness and the transcript. *)
Definition public (st : pstate) := (pcom st, prnd st, pmer st).
Lemma norm_public st i b x xp st' : norm R c st i b x xp = Ret st' -> public st' = public st.
Proof. intros H. apply norm_inv in H as (qs & -> & _). reflexivity. Qed.
Lemma copy_public st x (v : list E) st' : copy R st x v = Ret st' -> public st' = public st.
Proof. unfold copy. intros H. apply obind_ret_inv in H as (l & _ & H). injection H as <-. reflexivity. Qed.
Lemma block_public st off f st' : block R st off f = Ret st' -> public st' = public st.
Proof. unfold block. intros H. apply obind_ret_inv in H as (l & _ & H). injection H as <-. reflexivity. Qed.
Lemma wit_public st x (v : list E) : public (wit R st x v) = public st. Proof. reflexivity. Qed.
Lemma witS_public st x (v : list F) : public (witS R st x v) = public st. Proof. reflexivity. Qed.
Lemma witQ_public st x (v : list E) : public (witQ R st x v) = public st. Proof. reflexivity. Qed.
Lemma mer_public (s t : pstate) m : public s = public t -> public (set_mer R s m) = public (set_mer R t m).
Proof. unfold public, set_mer. cbn [pcom prnd pmer]. congruence. Qed.
(** The writes to witnesses, norms and compressed vectors at the end of a step. *)
Ltac tail H :=
  repeat (let s := fresh "s" in let K := fresh "K" in apply obind_ret_inv in H as (s & K & H);
    first [apply norm_public in K | apply copy_public in K]; rewrite ?witS_public, ?wit_public, ?witQ_public in K);
  apply copy_public in H; rewrite ?witS_public, ?wit_public, ?witQ_public in H.
Ltac same H1 H2 := 
  let x := fresh "x" in let A := fresh "A" in
  match type of H1 with obind ?o _ = _ => destruct o as [x| | |] eqn:A; try discriminate; cbn [obind] in H1, H2 end;
  try (match type of x with (_ * _)%type => destruct x end).
Lemma dec_public (st s1 s2 : pstate) rnd ctMat ctMat' ctVec ctVec' pt sk noise :
  proveDecryption R c st rnd ctMat ctVec pt sk noise = Ret s1 -> proveDecryption R c st rnd ctMat' ctVec' pt sk noise = Ret s2 ->
  public s1 = public s2.
Proof.
  unfold proveDecryption. intros H1 H2. do 14 (same H1 H2).
  apply obind_ret_inv in H1 as (rL & _ & H1). apply obind_ret_inv in H2 as (rR & _ & H2).
  apply obind_ret_inv in H1 as (tL & B1 & H1). apply obind_ret_inv in H2 as (tR & B2 & H2).
  apply block_public in B1, B2. tail H1. tail H2. congruence.
Qed.
Lemma enc_public (st s1 s2 : pstate) rnd ct1 ct2 ct1' ct2' pt er n1 n2 :
  proveEncryption R c st rnd ct1 ct2 pt er n1 n2 = Ret s1 -> proveEncryption R c st rnd ct1' ct2' pt er n1 n2 = Ret s2 ->
  public s1 = public s2.
Proof.
  unfold proveEncryption. intros H1 H2. do 31 (same H1 H2).
  apply obind_ret_inv in H1 as (tL & B1 & H1). apply obind_ret_inv in H2 as (tR & B2 & H2). apply block_public in B1, B2.
  assert (Q : public tL = public tR) by congruence. clear B1 B2. pose proof (f_equal snd Q) as Qm. cbn [public snd] in Qm. rewrite <- Qm in H2.
  do 4 (same H1 H2).
  apply obind_ret_inv in H1 as (uL & B1 & H1). apply obind_ret_inv in H2 as (uR & B2 & H2). apply block_public in B1, B2.
  match type of B1 with _ = public (set_mer _ _ ?m) => pose proof (mer_public tL tR m Q) as Q1 end.
  assert (Q2 : public uL = public uR) by congruence. clear B1 B2. pose proof (f_equal snd Q2) as Qm2. cbn [public snd] in Qm2. rewrite <- Qm2 in H2.
  do 3 (same H1 H2).
  apply obind_ret_inv in H1 as (vL & B1 & H1). apply obind_ret_inv in H2 as (vR & B2 & H2). apply block_public in B1, B2.
  match type of B1 with _ = public (set_mer _ _ ?m) => pose proof (mer_public uL uR m Q2) as Q3 end.
  tail H1. tail H2. congruence.
Qed.
Lemma key_public (st s1 s2 : pstate) rnd pk pk' sk noise :
  proveKeyGen R c st rnd pk sk noise = Ret s1 -> proveKeyGen R c st rnd pk' sk noise = Ret s2 -> public s1 = public s2.
Proof.
  unfold proveKeyGen. intros H1 H2. do 19 (same H1 H2).
  apply obind_ret_inv in H1 as (rL & _ & H1). apply obind_ret_inv in H2 as (rR & _ & H2).
  same H1 H2.
  apply obind_ret_inv in H1 as (tL & B1 & H1). apply obind_ret_inv in H2 as (tR & B2 & H2). apply block_public in B1, B2.
  assert (Q : public tL = public tR) by congruence. clear B1 B2. pose proof (f_equal snd Q) as Qm. cbn [public snd] in Qm. rewrite <- Qm in H2.
  do 3 (same H1 H2).
  apply obind_ret_inv in H1 as (vL & B1 & H1). apply obind_ret_inv in H2 as (vR & B2 & H2). apply block_public in B1, B2.
  match type of B1 with _ = public (set_mer _ _ ?m) => pose proof (mer_public tL tR m Q) as Q3 end.
  tail H1. tail H2. congruence.
Qed.
(** Statements that depend on the challenge: the run is the same, state by state. *)
Section Adaptive.
Hypothesis He : (0 < ell)%nat.
Add Ring Er : (elt_ring (p := p) He).
Definition shift2 (ct : list E) (da db : E) : list E :=
  match ct with a :: b :: l => eadd a da :: eadd b db :: l | _ => ct end.
Definition at0 (x : list E) : E := nth 0 x e0.
Definition at1 (x : list E) : E := nth 1 x e0.
Lemma inner_shift_l (x ct : list E) d :
  innerProductEE x (shift2 ct (emul (at1 x) d) (eopp (emul (at0 x) d))) = innerProductEE x ct.
Proof.
  destruct ct as [|a [|b l]]; [reflexivity|reflexivity|]. unfold shift2, innerProductEE, at0, at1. destruct x as [|u [|v x]]; cbn [nth combine fold_left fst snd].
  - reflexivity.
  - ring.
  - f_equal. ring.
Qed.
Lemma inner_shift_r (x ct : list E) d :
  innerProductEE (shift2 ct (emul (at1 x) d) (eopp (emul (at0 x) d))) x = innerProductEE ct x.
Proof.
  destruct ct as [|a [|b l]]; [reflexivity|reflexivity|]. unfold shift2, innerProductEE, at0, at1. destruct x as [|u [|v x]]; cbn [nth combine fold_left fst snd].
  - reflexivity.
  - ring.
  - f_equal. ring.
Qed.
Ltac both H :=
  let x := fresh "x" in let A := fresh "A" in
  match type of H with obind ?o _ = _ => destruct o as [x| | |] eqn:A; try discriminate; cbn [obind] in H |- * end;
  try (match type of x with (_ * _)%type => destruct x end).
Lemma dec_adaptive (st st' : pstate) rnd ctMat ctVec pt sk noise : proveDecryption R c st rnd ctMat ctVec pt sk noise = Ret st' ->
  exists u v, forall d, proveDecryption R c st rnd ctMat (shift2 ctVec (emul v d) (eopp (emul u d))) pt sk noise = Ret st'.
Proof.
  unfold proveDecryption. intros H. do 14 (both H).
  match type of H with context [innerProductEE ctVec ?x] => exists (at0 x), (at1 x); intros d; rewrite inner_shift_r; exact H end.
Qed.
Lemma enc_adaptive (st st' : pstate) rnd ct1 ct2 pt er n1 n2 : proveEncryption R c st rnd ct1 ct2 pt er n1 n2 = Ret st' ->
  exists u v, forall d, proveEncryption R c st rnd ct1 (shift2 ct2 (emul v d) (eopp (emul u d))) pt er n1 n2 = Ret st'.
Proof.
  unfold proveEncryption. intros H. do 36 (both H).
  match type of H with context [innerProductEE ?x ct2] => exists (at0 x), (at1 x); intros d; rewrite inner_shift_l; exact H end.
Qed.
Lemma shift2_length (ct : list E) a b : length (shift2 ct a b) = length ct.
Proof. destruct ct as [|? [|]]; reflexivity. Qed.
Lemma shift2_same (ct : list E) a b : (2 <= length ct)%nat -> shift2 ct a b = ct -> a = e0 /\ b = e0.
Proof.
  destruct ct as [|u [|v l]]; cbn; try lia. intros _ H. injection H as H1 H2. split.
  - transitivity (eadd (eadd u a) (eopp u)); [ring|]. rewrite H1. ring.
  - transitivity (eadd (eadd v b) (eopp v)); [ring|]. rewrite H2. ring.
Qed.
End Adaptive.
End FS.
