(** Vocabulary for complete proofs. *)
From Coq Require Import String.
From Coq Require Import ZArith List Bool.
From Verif Require Import Outcome Fp FSum GroupMod Ring ConstraintsModel ConstraintsSpec FourSquaresModel FourSquaresSpec BulletproofModel
  AlgebraModel AlgebraSpec TernaryModel TernarySpec RegevModel ShamirModel ShamirSpec RegevPfModel RegevPfSpec RegevStSpec
  RegevAggModel RegevAggSpec RegevRunModel PropRegevSt.
Import ListNotations.
Open Scope Z_scope.

Section S.
Context {p : Z} {ell : nat} {G : gmod p} {R : rmerlin G}.
Notation pstate := (@pstate p ell G R).
Notation F := (Fp p).

(** A state in which a proof can start: no constraints, no witnesses
    (regevProofs-utils.cpp 167-183, regevProofs.hpp 279-281). *)
Definition fresh (c : cfg ell G) (st : pstate) : Prop :=
  layout_of c (pidx st) /\
  plin st = repeat emptyLin (7 * ell + length (cHm c)) /\ pnorm st = repeat emptyQuad 10 /\
  plinW st = [] /\ pqG st = [] /\ pqH st = [] /\
  Z.of_nat (length (cGs c)) = pidx st WW + 1.
(** The bounds of the ten norm constraints. *)
Definition norm_bound (c : cfg ell G) (i : nat) : outcome Z :=
  nth i [hiBound c (B_dNoise c) (kk c); Ret (loBound c); Ret (B_r c); hiBound c (B_eNoise1 c) (kk c); Ret (loBound c);
         hiBound c (B_eNoise2 c) (nn c); Ret (loBound c); Ret (B_sk c); hiBound c (B_kNoise c) (kk c); Ret (loBound c)] Throw.
(** No four-squares search failed. *)
Definition pads_found (c : cfg ell G) (st : pstate) : Prop :=
  forall i x xpad b, norm_of i = Some (x, xpad) -> norm_bound c i = Ret b -> ~ pad_fails c (held c (plinW st) (pidx st x)) b.
(** The statements are true and the arguments are witnesses for them: the
    decryption under i_sk1, the encryption, the key pair, and that i_pt2 is a
    sharing of the combination of the values decrypted. *)
Definition round_dims (c : cfg ell G) (i : round p ell) : Prop :=
  dec_dims c (i_ctMat i) (i_ctVec i) (i_pt1 i) (i_sk1 i) (i_dn i) /\
  enc_dims c (i_ct1 i) (i_ct2 i) (i_pt2 i) (i_er i) (i_n1 i) (i_n2 i) /\
  length (i_kn i) = Z.to_nat (kay (cgk c)) /\ length (i_sk2 i) = Z.to_nat (kay (cgk c)) /\
  (forall t, length (i_ys i t) = (LINYDIM c / ell)%nat).
Definition round_true (c : cfg ell G) (evs : list Z) (thr : Z) (i : round p ell) : Prop :=
  decrypts c (i_ctMat i) (i_ctVec i) (i_pt1 i) (i_sk1 i) (i_dn i) /\
  encrypts1 c (i_ct1 i) (i_er i) (i_n1 i) /\ encrypts2 c (i_ct2 i) (i_pt2 i) (i_er i) (i_n2 i) /\
  is_keypair c (i_pk i) (i_sk2 i) (i_kn i) /\
  valid_sharing (Z.to_nat thr) evs
    (fsum (map (fun j => (nth j (i_lag i) 0 * nth j (i_pt1 i) 0)%F) (seq 0 (Z.to_nat (tee (cgk c))))) :: i_pt2 i).
(** The configuration and the library functions are as they should be; cHm c is
    the parity-check matrix for threshold thr and points evs. *)
Definition good_setup (R : rmerlin G) (c : cfg ell G) (evs : list Z) (thr : Z) : Prop :=
  wf_cfg c /\ byte_transcript R /\ jacobi_ok (cjac c) /\ prime_test_sound (cpp c) /\ key_dims c /\
  good_points (p := p) evs /\ length evs = Z.to_nat (enn (cgk c)) /\
  Forall (fun r => length r = S (Z.to_nat (enn (cgk c)))) (cHm c) /\
  (exists M, genMatrix thr evs = Ret M /\ kernel_basis (cHm c) M (Z.to_nat thr)).
(** No four-squares search fails and no coefficient vanishes, in any of the rounds. *)
Fixpoint lucky (c : cfg ell G) (pick : list (cursor p) -> nat) (st : pstate) (is : list (round p ell)) : Prop :=
  match is with
  | [] => True
  | i :: is' => forall st5, proofSteps R c st i = Ret st5 -> pads_found c st5 /\ all_mentioned c st5 /\
      forall st' ok, runProofs R c pick st5 (i_wRnd i) (i_bl i) = Ret (st', ok) -> lucky c pick (prepareForNextProof R st') is'
  end.
(** Each round uses the key generated in the previous one. *)
Fixpoint chained (sk : list (elt p ell)) (is : list (round p ell)) : Prop :=
  match is with [] => True | i :: is' => i_sk1 i = sk /\ chained (i_sk2 i) is' end.
(** The key after these rounds. *)
Fixpoint last_key (sk : list (elt p ell)) (is : list (round p ell)) : list (elt p ell) :=
  match is with [] => sk | i :: is' => last_key (i_sk2 i) is' end.
End S.
