(** What a Shamir sharing and a parity-check matrix are, independently of the
    code. *)
From Coq Require Import ZArith List.
From Verif Require Import Fp FSum.
Import ListNotations.
Open Scope Z_scope.

Section Spec.
Context {p : Z}.
Notation F := (Fp p).

(** sum_i c_i x^i *)
Definition poly_at (c : list F) (x : F) : F :=
  fsum (map (fun i => (nth i c 0 * x ^ i)%F) (seq 0 (length c))).

(** x_0, x_1, .., x_n are the values at 0, ep_1, .., ep_n of one polynomial with t
    coefficients (degree < t). *)
Definition valid_sharing (t : nat) (evs : list Z) (x : list F) : Prop :=
  exists c, length c = t /\ x = map (poly_at c) (0%F :: map (toF p) evs).

(** Distinct positive evaluation points of type int, below the modulus. *)
Definition good_points (evs : list Z) : Prop :=
  NoDup evs /\ Forall (fun e => 1 <= e < p /\ e < 2 ^ 31) evs.

Definition entry (m : list (list F)) (i j : nat) : F := nth j (nth i m []) 0%F.
(** (M x)_i and (x M)_j for a matrix given by its rows *)
Definition row_times (r x : list F) : F :=
  fsum (map (fun k => (nth k r 0 * nth k x 0)%F) (seq 0 (length r))).
Definition times_col (x : list F) (m : list (list F)) (j : nat) : F :=
  fsum (map (fun i => (nth i x 0 * entry m i j)%F) (seq 0 (length m))).

(** The rows of H are a basis of { x | x*M = 0 } for a matrix M with t columns:
    what NTL documents for kernel(H,M). *)
Definition kernel_basis (H M : list (list F)) (t : nat) : Prop :=
  Forall (fun r => length r = length M /\ forall j, (j < t)%nat -> times_col r M j = 0%F) H /\
  (forall x, length x = length M -> (forall j, (j < t)%nat -> times_col x M j = 0%F) ->
     exists cs, length cs = length H /\
       forall k, (k < length M)%nat -> nth k x 0%F = times_col cs H k) /\
  (forall cs, length cs = length H ->
     (forall k, (k < length M)%nat -> times_col cs H k = 0%F) -> cs = repeat 0%F (length H)).

(** The share of the party with evaluation point e in the vector v. *)
Fixpoint position (e : Z) (evs : list Z) : nat :=
  match evs with [] => O | x :: r => if x =? e then O else S (position e r) end.
Definition share_of (evs : list Z) (v : list F) (e : Z) : F := nth (S (position e evs)) v 0%F.
End Spec.
