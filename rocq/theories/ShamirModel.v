(** Model of /repo/include/shamir.hpp and /repo/src/tools/shamir.cpp. *)
From Coq Require Import ZArith List Bool.
From Verif Require Import Outcome Fp FSum.
Import ListNotations.
Open Scope Z_scope.

Section Shamir.
Context {p : Z}.   (* the NTL modulus *)
Notation F := (Fp p).

(** EvalSet is std::set<int> (shamir.hpp 32): a strictly increasing list. *)
Fixpoint esorted (l : list Z) : Prop :=
  match l with [] => True | x :: l' => (forall y, In y l' -> x < y) /\ esorted l' end.

Definition is_int (z : Z) : bool := (- 2 ^ 31 <=? z) && (z <? 2 ^ 31).

(** One row of the generating matrix, shamir.cpp 45-56: column 0 is 1, column j
    is column j-1 times the evaluation point. *)
Fixpoint gen_row (k : nat) (v ep : F) : list F :=
  match k with O => [] | S k' => v :: gen_row k' (v * ep)%F ep end.

(** The generating matrix built by computeKernel, shamir.cpp 34-56.  Row 0 keeps
    the zeros of the freshly allocated matrix in columns 1..t-1.  For t = 0 the
    write to G[i][0] (line 47) is outside the row; a negative t makes NTL's
    SetDims raise an error. *)
Definition genMatrix (thr : Z) (evs : list Z) : outcome (list (list F)) :=
  if thr <? 0 then Throw
  else if thr =? 0 then UB
  else
    let t := Z.to_nat thr in
    Ret ((1%F :: repeat 0%F (t - 1)) :: map (fun ep => gen_row t 1%F (toF p ep)) evs).

(** newSharing, shamir.cpp 66-85: [rs] are the t-1 drawn coefficients, of
    X^1 .. X^(t-1); NTL eval at the points 0, ep_1, .., ep_n. *)
Definition newSharing (evs : list Z) (s : F) (rs : list F) : list F :=
  let poly := s :: rs in
  let evPoints := 0%F :: map (toF p) evs in
  map (peval poly) evPoints.

(** The inner loop of lagrangeCoeffs, shamir.cpp 95-103.  xj-xi is computed in
    int: overflow is undefined. *)
Fixpoint lag_loop (xi : Z) (recSet : list Z) (numer denom : F) : outcome (F * F) :=
  match recSet with
  | [] => Ret (numer, denom)
  | xj :: r =>
      if xi =? xj then lag_loop xi r numer denom
      else if is_int (xj - xi)
           then lag_loop xi r (numer * toF p xj)%F (denom * toF p (xj - xi))%F
           else UB
  end.
(** numer / denom, line 104: NTL raises an error when denom is 0. *)
Definition lag_coeff (xi : Z) (recSet : list Z) : outcome F :=
  let! nd := lag_loop xi recSet 1%F 1%F in
  let! dinv := finvert (snd nd) in
  Ret (fst nd * dinv)%F.
Fixpoint lag_outer (todo recSet : list Z) : outcome (list F) :=
  match todo with
  | [] => Ret []
  | xi :: r =>
      let! c := lag_coeff xi recSet in
      let! cs := lag_outer r recSet in
      Ret (c :: cs)
  end.
Definition lagrangeCoeffs (recSet : list Z) : outcome (list F) := lag_outer recSet recSet.

(** NTL::InnerProduct on vectors (algebra.hpp 148-152): up to the shorter length. *)
Fixpoint nInner (a b : list F) : F :=
  match a, b with x :: a', y :: b' => (x * y + nInner a' b')%F | _, _ => 0%F end.

(** getSecret, shamir.cpp 110-113. *)
Definition getSecret (sharing : list F) (recSet : list Z) : outcome F :=
  let! coeffs := lagrangeCoeffs recSet in
  Ret (nInner coeffs sharing).
End Shamir.
