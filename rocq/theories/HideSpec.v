(** Vocabulary for what a proof shows to somebody who sees everything except the
    secrets. *)
From Coq Require Import String.
From Coq Require Import ZArith List Bool.
From Verif Require Import Outcome Fp FSum GroupMod Ring ConstraintsModel PedersenModel BulletproofModel AlgebraModel TernaryModel TernarySpec
  RegevModel RegevPfModel RegevPfSpec RegevStSpec RegevAggModel RegevRunModel StepSpec ProgressSpec.
Import ListNotations.
Open Scope Z_scope.

Section S.
Context {p : Z} {ell : nat} {G : gmod p} {R : rmerlin G}.
(** The public part of a state: the layout, the constraints, the masked reply and the
    transcript (the members of VerifierData except the commitments). *)
Definition statement (st : @pstate p ell G R) :=
  (pidx st, plin st, pnorm st, pz st, pmer st).
(** The same commitments; the same statement and commitments. *)
Definition same_coms (st1 st2 : @pstate p ell G R) : Prop := forall x, pcom st1 x = pcom st2 x.
Definition same_view (st1 st2 : @pstate p ell G R) : Prop := statement st1 = statement st2 /\ same_coms st1 st2.
End S.

Section F.
Context {p : Z} {ell : nat} {G : gmod p} {R : rmerlin G}.
(** What the verifiers of the two final proofs get (main.cpp 175-253): transcripts,
    commitments, statements, generators and offsets. *)
Definition public (d : flatdata R) :=
  (fmL d, fmQ d, flinCom d, fquadCom d, flinEq d, fquadEq d, (flinGs d, flinStmnt d), (fquadGs d, fquadHs d, foffG d, foffH d)).
(** The two proofs that the prover sends (main.cpp 192-253, without the verification). *)
Definition makeProofs (c : cfg ell G) (d : flatdata R) (b : @blinders p) : outcome (linpf G * quadpf G) :=
  let! pfL := proveLinear (cbase c) R (flinCom d) (flRnd d) (fmL d) (blL b) (blLS b) (flinWtns d) (flinStmnt d) (flinGs d) (length (flinGs d)) in
  let! pfQ := proveQuadratic (cbase c) R (fquadCom d) (fqRnd d) (fmQ d) (blQ b) (blQST b) (blQUV b)
                (fquadGs d) (fqwG d) (fquadHs d) (fqwH d) (length (fquadGs d)) in
  Ret (pfL, pfQ).
(** The proofs are for the commitments of d and both are accepted. *)
Definition accepted (c : cfg ell G) (d : flatdata R) (pfs : linpf G * quadpf G) : Prop :=
  lpC (fst pfs) = flinCom d /\ qpC (snd pfs) = fquadCom d /\
  verifyLinear (cbase c) R (fst pfs) (flinStmnt d) (flinGs d) (length (flinGs d)) (flinEq d) (fmL d) None = Ret true /\
  verifyQuadratic (cbase c) R (snd pfs) (fquadGs d) (fquadHs d) (length (fquadGs d)) (fquadEq d) (fmQ d) (Some (foffG d)) (Some (foffH d)) = Ret true.
(** The witnesses in d open its commitments and satisfy its statements. *)
Definition valid_lin (c : cfg ell G) (d : flatdata R) : Prop :=
  let n := length (flinGs d) in
  (1 <= n)%nat /\ Z.of_nat n <= 2 ^ 63 /\ length (flinWtns d) = n /\ length (flinStmnt d) = n /\
  dot (flinStmnt d) (flinWtns d) = flinEq d /\
  flinCom d = gadd (gmul (cbase c) (flRnd d)) (gdot (flinGs d) (flinWtns d)).
Definition valid_quad (c : cfg ell G) (d : flatdata R) : Prop :=
  let n := length (fquadGs d) in
  (1 <= n)%nat /\ Z.of_nat n <= 2 ^ 63 /\ length (fquadHs d) = n /\ length (fqwG d) = n /\ length (fqwH d) = n /\
  length (foffG d) = n /\ length (foffH d) = n /\
  dot (fqwG d) (fqwH d) = fquadEq d /\
  fquadCom d = gadd (gadd (gadd (gmul (cbase c) (fqRnd d)) (gdot (fquadGs d) (fqwG d))) (gdot (fquadHs d) (fqwH d)))
    (gadd (gdot (fquadGs d) (foffG d)) (gdot (fquadHs d) (foffH d))).
(** The same proof with other randomness. *)
Definition with_rnd (i : round p ell) (rnd : var -> Fp p) (ys : nat -> list (elt p ell)) (rs : nat -> Fp p) : round p ell :=
  Round rnd (i_ctMat i) (i_ctVec i) (i_pt1 i) (i_sk1 i) (i_dn i) (i_ct1 i) (i_ct2 i) (i_pt2 i) (i_er i) (i_n1 i) (i_n2 i)
    (i_pk i) (i_sk2 i) (i_kn i) (i_lag i) ys rs (i_wRnd i) (i_bl i).
(** Proofs about the same public data: ciphertexts, number of the key, Lagrange
    coefficients. *)
Definition same_public (i j : round p ell) : Prop :=
  i_ctMat i = i_ctMat j /\ i_ctVec i = i_ctVec j /\ i_ct1 i = i_ct1 j /\ i_ct2 i = i_ct2 j /\ i_pk i = i_pk j /\ i_lag i = i_lag j.
End F.

(** The variables that each step commits to. *)
Definition dec_vars : list var := [Pt1; DCompHi; DPadHi; DCompLo; DPadLo].
Definition enc_vars : list var := [Pt2; RR; RComp; RPad; EComp1Hi; EPad1Hi; EComp1Lo; EPad1Lo; EComp2Hi; EPad2Hi; EComp2Lo; EPad2Lo].
Definition key_vars : list var := [Sk2; Sk2Comp; Sk2Pad; KCompHi; KPadHi; KCompLo; KPadLo].

(** The secrets of a second prover, compressed with the challenge matrices of the first
    run, are small enough. [s] is the first prover's state before and [t] its state after
    the step. *)
Section C.
Context {p : Z} {ell : nat} {G : gmod p} {R : rmerlin G}.
Notation E := (elt p ell).
Notation pstate := (@pstate p ell G R).
Variable c : cfg ell G.
Notation jl := (JLDIM c / ell)%nat.
Notation Tee := (Z.to_nat (tee (cgk c))).
Notation Kay := (Z.to_nat (kay (cgk c))).
Notation Enn := (Z.to_nat (enn (cgk c))).
Local Open Scope string_scope.
Definition dec_fits (s t : pstate) (noise : list E) : Prop := forall X m f,
  ternaryE (ell := ell) R (m_point R (pmer s) "RegevDecPtxt" (pcom t Pt1)) "RegevDecX" Tee jl = Ret (X, m) ->
  is_temat ell X Tee jl f -> hi_fits c (B_dNoise c) (kk c) (compL Tee noise f).
Definition enc_fits (s t : pstate) (er noise1 noise2 : list E) : Prop := forall X1 m1 f1 X2 m2 f2 X3 m3 f3,
  ternaryE (ell := ell) R (m_point R (m_point R (pmer s) "RegevEncPtxt" (pcom t Pt2)) "RegevEncRnd" (pcom t RR)) "RegevEncR1" jl Kay = Ret (X1, m1) ->
  ternaryE (ell := ell) R m1 "RegevEncR2" jl Enn = Ret (X2, m2) -> ternaryE (ell := ell) R m2 "RegevEncR3" jl Kay = Ret (X3, m3) ->
  is_temat ell X1 jl Kay f1 -> is_temat ell X2 jl Enn f2 -> is_temat ell X3 jl Kay f3 ->
  fits c (B_r c) (compR Kay er f3) /\ hi_fits c (B_eNoise1 c) (kk c) (compR Kay noise1 f1) /\
  hi_fits c (B_eNoise2 c) (nn c) (compR Enn noise2 f2).
Definition key_fits (s t : pstate) (skey noise : list E) : Prop := forall X1 m1 f1 X2 m2 f2,
  ternaryE (ell := ell) R (m_point R (pmer s) "RegevSK" (pcom t Sk2)) "RegevKeyGenR1" Kay jl = Ret (X1, m1) ->
  ternaryE (ell := ell) R m1 "RegevKeyGenR2" Kay jl = Ret (X2, m2) ->
  is_temat ell X1 Kay jl f1 -> is_temat ell X2 Kay jl f2 ->
  fits c (B_sk c) (compL Kay skey f2) /\ hi_fits c (B_kNoise c) (kk c) (compL Kay noise f1).
(** [comp] are the compressed vectors of the second prover. *)
Definition sml_fits (s t : pstate) (comp : list E) : Prop := forall X m f,
  let nRows := (10 * (JLDIM c + 4) / ell)%nat in let nCols := (LINYDIM c / ell)%nat in
  ternaryE (ell := ell) R (m_point R (pmer s) "smallnessPf" (pcom t YY)) "Smallness" nRows nCols = Ret (X, m) ->
  is_temat ell X nRows nCols f -> within (B_smallness c / Z.of_nat (LINYDIM c)) nCols (compL nRows comp f).
(** The second prover can reply as the first did: the mask is the difference. *)
Definition mask_for (s t : pstate) (comp y : list E) : Prop := forall X m f,
  let nRows := (10 * (JLDIM c + 4) / ell)%nat in let nCols := (LINYDIM c / ell)%nat in
  ternaryE (ell := ell) R (m_point R (pmer s) "smallnessPf" (pcom t YY)) "Smallness" nRows nCols = Ret (X, m) ->
  is_temat ell X nRows nCols f -> length y = nCols /\ forall j, (j < nCols)%nat -> eadd (compL nRows comp f j) (nth j y e0) = nth j (pz t) e0.
(** proofSteps without proveSmallness (main.cpp 157-160). *)
Definition fourSteps (st : pstate) (i : round p ell) : outcome pstate :=
  let! st := proveDecryption R c st (i_rnd i) (i_ctMat i) (i_ctVec i) (i_pt1 i) (i_sk1 i) (i_dn i) in
  let! st := proveEncryption R c st (i_rnd i) (i_ct1 i) (i_ct2 i) (i_pt2 i) (i_er i) (i_n1 i) (i_n2 i) in
  let! st := proveKeyGen R c st (i_rnd i) (i_pk i) (i_sk2 i) (i_kn i) in
  proveReShare R c st (i_lag i) (i_pt1 i) (i_pt2 i).
(** The secrets of [i] fit in all three steps with matrices. *)
Definition all_fit (s d e k : pstate) (i : round p ell) : Prop :=
  dec_fits s d (i_dn i) /\ enc_fits d e (i_er i) (i_n1 i) (i_n2 i) /\ key_fits e k (i_sk2 i) (i_kn i).
End C.
