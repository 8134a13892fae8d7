(** Ternary matrices as functions; textbook products. *)
From Coq Require Import ZArith List.
From Verif Require Import Outcome Fp FSum Ring TernaryModel.
Import ListNotations.
Open Scope Z_scope.

(** M is an n-by-m matrix whose entry (i,j), as read by operator[], is f i j. *)
Definition is_tmat (M : tmat) (n m : nat) (f : nat -> nat -> Z) : Prop :=
  tNumRows M = n /\ tNumCols M = m /\
  forall i, (i < n)%nat -> exists r, nth_error M i = Some r /\ tlen r = m /\
    forall j, (j < m)%nat -> trow_get r j = Ret (f i j).
Definition ternary (n m : nat) (f : nat -> nat -> Z) : Prop :=
  forall i j, (i < n)%nat -> (j < m)%nat -> f i j = -1 \/ f i j = 0 \/ f i j = 1.

(** Value of two bits: 00 and 11 are 0, 01 is 1, 10 is -1. *)
Definition two_bits (lo hi : bool) : Z :=
  match lo, hi with true, false => 1 | false, true => -1 | _, _ => 0 end.
(** Entry (i,j) as a function of the challenge bytes: rows start at multiples of
    ceil(m/4) bytes. *)
Definition byte_entry (buf : list Z) (m i j : nat) : Z :=
  let b := nth (i * ((m + 3) / 4) + j / 4) buf 0 in
  two_bits (Z.testbit b (2 * Z.of_nat (j mod 4))) (Z.testbit b (2 * Z.of_nat (j mod 4) + 1)).

(** ell ternary matrices of the same size, the k-th with entries f k. *)
Definition is_temat (ell : nat) (Ms : tematrix) (n m : nat) (f : nat -> nat -> nat -> Z) : Prop :=
  length Ms = ell /\ forall k M, nth_error Ms k = Some M -> is_tmat M n m (f k) /\ ternary n m (f k).

Section Textbook.
Context {p : Z} {ell : nat}.
(** v*M, M*v with scalars; the matrix entries are integers. *)
Definition vecmat (v : list (Fp p)) (n m : nat) (f : nat -> nat -> Z) : list (Fp p) :=
  map (fun j => fsum (map (fun i => (nth i v 0 * toF p (f i j))%F) (seq 0 n))) (seq 0 m).
Definition matvec (n m : nat) (f : nat -> nat -> Z) (v : list (Fp p)) : list (Fp p) :=
  map (fun i => fsum (map (fun j => (toF p (f i j) * nth j v 0)%F) (seq 0 m))) (seq 0 n).
(** The same over the ring, for matrices of ring elements. *)
Definition vecmatR (v : list (elt p ell)) (n m : nat) (f : nat -> nat -> elt p ell) : list (elt p ell) :=
  map (fun j => esum (map (fun i => emul (nth i v e0) (f i j)) (seq 0 n))) (seq 0 m).
Definition matvecR (n m : nat) (f : nat -> nat -> elt p ell) (v : list (elt p ell)) : list (elt p ell) :=
  map (fun i => esum (map (fun j => emul (f i j) (nth j v e0)) (seq 0 m))) (seq 0 n).
(** An integer as a ring element. *)
Definition ofint (z : Z) : elt p ell := econst (toF p z).
(** sum_k f_k X^k *)
Definition ofdigits (f : nat -> Z) : elt p ell := mkE ell (fun k => toF p (f k)).
End Textbook.

(** A list is a list of bytes. *)
Definition bytes (buf : list Z) : Prop := Forall (fun b => 0 <= b < 256) buf.

(** A matrix has r rows and c columns. *)
Definition mat_dims {A} (M : mat A) (r c : nat) : Prop :=
  length (mrows M) = r /\ mcols M = c /\ Forall (fun row => length row = c) (mrows M).
Definition mget {A} (d : A) (M : mat A) (i j : nat) : A := nth j (nth i (mrows M) []) d.
