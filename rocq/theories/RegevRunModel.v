(** One complete proof as /repo/src/main.cpp 150-253 runs it, and a sequence of
    proofs with prepareForNextProof in between (regevProofs.hpp 226-243, 273-276).
    Not modelled: the generation of the keys, ciphertexts and shares that main
    proves things about (they are the members of [round]), timers, output. *)
From Coq Require Import String.
From Coq Require Import ZArith List Bool.
From Verif Require Import Outcome Fp GroupMod Ring ConstraintsModel PedersenModel BulletproofModel
  AlgebraModel TernaryModel RegevModel RegevPfModel RegevAggModel.
Import ListNotations.
Open Scope Z_scope.

(** The arguments of the five steps and all the randomness that is drawn: the
    randomness [i_rnd x] of the commitment to x, the masks [i_ys] and the randomness
    [i_rs] of the trials in proveSmallness, [i_wRnd] for w, the blinders of the two
    final proofs. *)
Record round (p : Z) (ell : nat) := Round {
  i_rnd : var -> Fp p;
  i_ctMat : mat (elt p ell); i_ctVec : list (elt p ell); i_pt1 : list (Fp p); i_sk1 : list (elt p ell); i_dn : list (elt p ell);
  i_ct1 : list (elt p ell); i_ct2 : list (elt p ell); i_pt2 : list (Fp p); i_er : list (elt p ell);
  i_n1 : list (elt p ell); i_n2 : list (elt p ell);
  i_pk : nat; i_sk2 : list (elt p ell); i_kn : list (elt p ell);
  i_lag : list (Fp p);
  i_ys : nat -> list (elt p ell); i_rs : nat -> Fp p;
  i_wRnd : Fp p; i_bl : @blinders p }.
Arguments Round {p ell}. Arguments i_rnd {p ell}. Arguments i_ctMat {p ell}. Arguments i_ctVec {p ell}. Arguments i_pt1 {p ell}.
Arguments i_sk1 {p ell}. Arguments i_dn {p ell}. Arguments i_ct1 {p ell}. Arguments i_ct2 {p ell}. Arguments i_pt2 {p ell}.
Arguments i_er {p ell}. Arguments i_n1 {p ell}. Arguments i_n2 {p ell}. Arguments i_pk {p ell}. Arguments i_sk2 {p ell}.
Arguments i_kn {p ell}. Arguments i_lag {p ell}. Arguments i_ys {p ell}. Arguments i_rs {p ell}. Arguments i_wRnd {p ell}. Arguments i_bl {p ell}.

Section Run.
Context {p : Z} {ell : nat} {G : gmod p}.
Variable R : rmerlin G.
Variable c : cfg ell G.
Variable pick : list (cursor p) -> nat.     (* order of the priority queue in merge *)
Notation pstate := (@pstate p ell G R).

(** vd.sk1Com = commit(sk, vd.sk1Idx, vd.Gs, pd.sk1Rnd), main.cpp 151; [r] is the
    randomness. *)
Definition commitKey (st : pstate) (sk : list (elt p ell)) (r : Fp p) : outcome pstate :=
  let! com := commitE (cbase c) sk (Z.to_nat (pidx st Sk1)) (cGs c) r 0 None in
  Ret (PS (pidx st) (upd (pcom st) Sk1 com) (upd (prnd st) Sk1 r) (plin st) (pnorm st) (plinW st) (pqG st) (pqH st) (pcomp st) (pz st) (pmer st)).
(** main.cpp 157-161 *)
Definition proofSteps (st : pstate) (i : round p ell) : outcome pstate :=
  let! st := proveDecryption R c st (i_rnd i) (i_ctMat i) (i_ctVec i) (i_pt1 i) (i_sk1 i) (i_dn i) in
  let! st := proveEncryption R c st (i_rnd i) (i_ct1 i) (i_ct2 i) (i_pt2 i) (i_er i) (i_n1 i) (i_n2 i) in
  let! st := proveKeyGen R c st (i_rnd i) (i_pk i) (i_sk2 i) (i_kn i) in
  let! st := proveReShare R c st (i_lag i) (i_pt1 i) (i_pt2 i) in
  proveSmallness R c st (i_ys i) (i_rs i).
(** main.cpp 157-253: the five steps, aggregation, the two final proofs, which are
    verified at once. *)
Definition proofRound (st : pstate) (i : round p ell) : outcome (pstate * (bool * bool)) :=
  let! st := proofSteps st i in
  runProofs R c pick st (i_wRnd i) (i_bl i).
(** Proofs one after the other, as the comments at regevProofs.hpp 225 and 272
    intend.  Returns the results of all verifications. *)
Fixpoint proofRounds (st : pstate) (is : list (round p ell)) : outcome (pstate * list (bool * bool)) :=
  match is with
  | [] => Ret (st, [])
  | i :: is' =>
      let! (st, ok) := proofRound st i in
      let! (st, oks) := proofRounds (prepareForNextProof R st) is' in
      Ret (st, ok :: oks)
  end.
End Run.
