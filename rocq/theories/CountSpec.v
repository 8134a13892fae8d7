(** Counting challenge strings: the probability of an event over a uniform
    challenge of n bytes is the number of strings satisfying it over 256^n. *)
From Coq Require Import ZArith List.
From Verif Require Import Outcome Fp Ring TernaryModel AlgebraModel RegevModel.
Import ListNotations.
Open Scope Z_scope.

Definition all_bytes : list Z := map Z.of_nat (seq 0 256).
(** All strings of n bytes, each once. *)
Fixpoint strings (n : nat) : list (list Z) :=
  match n with
  | O => [[]]
  | S n' => flat_map (fun b => map (cons b) (strings n')) all_bytes
  end.
Definition count {A} (f : A -> bool) (l : list A) : Z := Z.of_nat (length (filter f l)).

(** The check on the masked reply: the challenge bytes [buf] give a ternary
    matrix, the vector v is compressed with it, masked by y, and every coefficient
    of the result is compared with B (regevProofs.cpp 707-712, model
    RegevPfModel.smallness_loop). *)
Definition reply_ok {p ell} (B : Z) (v y : list (elt p ell)) (m : nat) (buf : list Z) : bool :=
  match (let! X := newTernaryEMatrix (ell := ell) (fun _ => buf) (length v) m in
         let! u := leftVecMultTE v X in
         let! z := vecAdd u y in
         Ret (lInftyNorm z <=? B)) with
  | Ret b => b
  | _ => false
  end.
(** The same check for a vector that is multiplied by an m-row matrix from the
    right, as in the proof of encryption (regevProofs.cpp 194-200). *)
Definition reply_okT {p ell} (B : Z) (v y : list (elt p ell)) (m : nat) (buf : list Z) : bool :=
  match (let! X := newTernaryEMatrix (ell := ell) (fun _ => buf) m (length v) in
         let! u := rightVecMultTE X v in
         let! z := vecAdd u y in
         Ret (lInftyNorm z <=? B)) with
  | Ret b => b
  | _ => false
  end.
