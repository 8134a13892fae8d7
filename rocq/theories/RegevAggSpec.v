(** Vocabulary for the aggregation of constraints. *)
From Coq Require Import String.
From Coq Require Import ZArith List Bool.
From Verif Require Import Outcome Fp FSum GroupMod ConstraintsModel ConstraintsSpec BulletproofModel RegevPfModel RegevPfSpec RegevStSpec RegevAggModel.
Import ListNotations.
Open Scope Z_scope.

Section S.
Context {p : Z} {ell : nat} {G : gmod p} {R : rmerlin G}.
Notation F := (Fp p).
Notation pstate := (@pstate p ell G R).

(** The containers are in order and all indexes fit an int. *)
Definition wf_system (st : pstate) : Prop :=
  ksorted (plinW st) /\ ksorted (pqG st) /\ Forall wf_lin (plin st) /\ Forall wf_quad (pnorm st) /\
  (forall con k, In con (plin st) -> In k (keys (lterms con)) -> 0 <= k < 2 ^ 31 - 1) /\
  (forall q k, In q (pnorm st) -> In k (qidx q) -> 0 <= k < 2 ^ 31 - 1).
(** The recorded witness has a value for each index of a linear constraint, and
    the values used in the norm constraints are the same. *)
Definition recorded (st : pstate) : Prop :=
  (forall con k, In con (plin st) -> In k (keys (lterms con)) -> In k (keys (plinW st))) /\
  (forall q k, In q (pnorm st) -> In k (qidx q) -> coef (pqG st) k = coef (plinW st) k).
(** All linear and norm constraints hold for the recorded witness. *)
Definition all_hold (st : pstate) : Prop :=
  Forall (fun con => lin_sat con (coef (plinW st))) (plin st) /\
  Forall (fun q => quad_sat q (coef (pqG st)) (coef (pqG st))) (pnorm st).
(** The challenges of the aggregation, in order. *)
Definition chal_lin (st : pstate) : F := fst (m_chal R (pmer st) "aggregateLinear").
Definition chal_norm (st : pstate) : F := fst (m_chal R (snd (m_chal R (pmer st) "aggregateLinear")) "aggregateNorms").
Definition mer_norm (st : pstate) : mst R := snd (m_chal R (snd (m_chal R (pmer st) "aggregateLinear")) "aggregateNorms").
Definition chal_u (st : pstate) : F := fst (m_chal R (mer_norm st) "enforceNorm").
Definition chal_rho (st : pstate) : F := fst (m_chal R (snd (m_chal R (mer_norm st) "enforceNorm")) "separareLinQuad").

(** The norm-constrained vectors with their padding and the place of their
    constraint (regevProofs.hpp 209-217). *)
Definition norm_of (i : nat) : option (var * var) :=
  nth_error [(DCompHi, DPadHi); (DCompLo, DPadLo); (RComp, RPad); (EComp1Hi, EPad1Hi); (EComp1Lo, EPad1Lo);
             (EComp2Hi, EPad2Hi); (EComp2Lo, EPad2Lo); (Sk2Comp, Sk2Pad); (KCompHi, KPadHi); (KCompLo, KPadLo)] i.
(** All proof variables are committed to and the witness recorded is the
    committed one. *)
Definition set_up (c : cfg ell G) (st : pstate) : Prop :=
  wf_state c st /\
  (0 < length (plin st))%nat /\
  (forall con k, In con (plin st) -> In k (keys (lterms con)) -> 0 <= k < pidx st WW) /\
  length (pnorm st) = 10%nat /\
  (forall i x xpad, norm_of i = Some (x, xpad) -> exists q, nth_error (pnorm st) i = Some q /\
     (forall k, In k (qidx q) <-> in_var c st x k \/ in_var c st xpad k)) /\
  (forall k, In k (keys (pqG st)) <-> exists x, is_norm x = true /\ in_var c st x k) /\
  (forall x, is_norm x = true -> committed2 c st x (prnd st x)) /\
  (forall x, is_norm x = false -> x <> WW -> committed1 c st x (prnd st x)) /\
  Z.of_nat (length (cGs c)) = pidx st WW + 1.
(** Moreover all constraints hold. *)
Definition ready (c : cfg ell G) (st : pstate) : Prop := set_up c st /\ all_hold st.
(** Every scalar variable that is not under a norm constraint has a non-zero
    coefficient in the aggregated linear constraint. *)
Definition all_mentioned (c : cfg ell G) (st : pstate) : Prop :=
  forall x k, is_norm x = false -> x <> WW -> in_var c st x k ->
    comb_coef (plin st) (powers (chal_lin st) (length (plin st))) k <> 0%F.
(** The same inputs, with another witness on the generators H for the prover of
    the quadratic statement.  No verifier input changes. *)
Definition with_wH (d : flatdata R) (wH : list F) : flatdata R :=
  Flat (fmL d) (fmQ d) (flinCom d) (fquadCom d) (flRnd d) (fqRnd d) (flinEq d) (fquadEq d)
    (flinGs d) (flinStmnt d) (flinWtns d) (fquadGs d) (fquadHs d) (foffG d) (foffH d) (fqwG d) wH.
(** The same inputs, with another commitment and other witnesses for the quadratic
    statement. *)
Definition with_q (d : flatdata R) (C : G) (wG wH : list F) : flatdata R :=
  Flat (fmL d) (fmQ d) (flinCom d) C (flRnd d) (fqRnd d) (flinEq d) (fquadEq d)
    (flinGs d) (flinStmnt d) (flinWtns d) (fquadGs d) (fquadHs d) (foffG d) (foffH d) wG wH.
End S.
