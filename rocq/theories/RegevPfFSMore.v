(** The challenges do not depend on the statement: the first part of a ciphertext,
    and the public key of a proof of key generation. *)
From Coq Require Import String.
From Coq Require Import ZArith Znumtheory List Bool Lia Ring.
From Verif Require Import NumTheory Outcome Fp FSum GroupMod Ring ConstraintsModel BulletproofModel
  AlgebraModel TernaryModel RegevModel RegevPfModel RegevPfSpec RegevPfBase RegevStSpec RegevPfState RegevPfFS.
Import ListNotations.
Open Scope Z_scope.

(** The configuration with another public key of party i. *)
Definition with_pk {p ell} {G : gmod p} (c : cfg ell G) (i : nat) (row : list (elt p ell)) : cfg ell G :=
  let k := cgk c in
  @Cfg p ell G (JLDIM c) (LINYDIM c) (SQRT_JL c) (cjac c) (cpp c) (csp c) (cbase c)
    (@GK p ell (kay k) (enn k) (tee k) (sigmaEnc1 k) (sigmaEnc2 k) (nPks k) (gkA k)
       (Mat (firstn i (mrows (gkB k)) ++ row :: skipn (S i) (mrows (gkB k))) (mcols (gkB k))))
    (cg c) (cHm c) (cGs c) (cHs c) (radix c) (B_dNoise c) (B_sk c) (B_r c) (B_eNoise1 c) (B_eNoise2 c) (B_kNoise c) (B_smallness c).

Section FS.
Context {p : Z} {ell : nat} {G : gmod p}.
Variable R : rmerlin G.
Variable c : cfg ell G.
Hypothesis He : (0 < ell)%nat.
Notation pstate := (@pstate p ell G R).
Notation E := (elt p ell).
Ltac both H :=
  let x := fresh "x" in let A := fresh "A" in
  match type of H with obind ?o _ = _ => destruct o as [x| | |] eqn:A; try discriminate; cbn [obind] in H |- * end;
  try (match type of x with (_ * _)%type => destruct x end).
Lemma enc1_adaptive (st st' : pstate) rnd ct1 ct2 pt er n1 n2 : proveEncryption R c st rnd ct1 ct2 pt er n1 n2 = Ret st' ->
  exists u v, forall d, proveEncryption R c st rnd (shift2 ct1 (emul v d) (eopp (emul u d))) ct2 pt er n1 n2 = Ret st'.
Proof.
  unfold proveEncryption. intros H. do 31 (both H).
  match type of H with context [innerProductEE ?x ct1] => exists (at0 x), (at1 x); intros d; rewrite inner_shift_l; [exact H|exact He] end.
Qed.
Lemma oget_pk i row : (exists r, oget (mrows (gkB (cgk c))) i = Ret r) -> oget (mrows (gkB (cgk (with_pk c i row)))) i = Ret row.
Proof.
  intros [r H]. unfold oget in *. cbn [with_pk cgk gkB mrows]. destruct (nth_error (mrows (gkB (cgk c))) i) as [q|] eqn:Q; [|discriminate H].
  assert (L : (i < length (mrows (gkB (cgk c))))%nat) by (apply nth_error_Some; congruence).
  rewrite nth_error_app2; rewrite firstn_length_le by lia; [|lia]. now rewrite Nat.sub_diag.
Qed.
(** Key generation as a function of the row of B that it reads. *)
Lemma key_of_row (st : pstate) rnd pk sk noise : exists K : outcome (list E) -> outcome pstate,
  (forall c', comE R c' = comE R c -> com2 R c' = com2 R c -> pad c' = pad c -> hiBound c' = hiBound c -> loBound c' = loBound c -> jl c' = jl c ->
    kk c' = kk c -> norm R c' = norm R c -> radix c' = radix c -> kay (cgk c') = kay (cgk c) -> gkA (cgk c') = gkA (cgk c) ->
    B_kNoise c' = B_kNoise c -> B_sk c' = B_sk c -> proveKeyGen R c' st rnd pk sk noise = K (oget (mrows (gkB (cgk c'))) pk)) /\
  forall row st', K (Ret row) = Ret st' -> exists u v, forall d, K (Ret (shift2 row (emul v d) (eopp (emul u d)))) = Ret st'.
Proof.
  let t := eval unfold proveKeyGen in (proveKeyGen R c st rnd pk sk noise) in
  let t' := eval pattern (oget (mrows (gkB (cgk c))) pk) in t in
  match t' with ?g _ => exists g end.
  split.
  { intros c' H1 H2 H3 H4 H5 H6 H7 H8 H9 H10 H11 H12 H13. unfold proveKeyGen. rewrite H1, H2, H3, H4, H5, H6, H7, H8, H9, H10, H11, H12, H13. reflexivity. }
  cbv beta. intros row st' H. do 20 (both H).
  match type of H with context [innerProductEE ?x row] => exists (at0 x), (at1 x); intros d; rewrite (inner_shift_l He x row d) end.
  exact H.
Qed.
Lemma key_adaptive (st st' : pstate) rnd pk row sk noise : oget (mrows (gkB (cgk c))) pk = Ret row ->
  proveKeyGen R c st rnd pk sk noise = Ret st' ->
  exists u v, forall d, proveKeyGen R (with_pk c pk (shift2 row (emul v d) (eopp (emul u d)))) st rnd pk sk noise = Ret st'.
Proof.
  intros Ho H. destruct (key_of_row st rnd pk sk noise) as (K & K1 & K3). rewrite (K1 c), Ho in H by reflexivity.
  destruct (K3 row st' H) as (u & v & Q). exists u, v. intros d. rewrite K1, oget_pk by first [reflexivity|now exists row]. apply Q.
Qed.
End FS.
