(** Specification vocabulary for constraints: coefficients as functions of the
    index, satisfaction by total witness functions.  Independent of the
    container algorithms of ConstraintsModel.v (only the data types are used). *)
From Coq Require Import ZArith List Bool.
From Verif Require Import Outcome Fp FSum ConstraintsModel.
Import ListNotations.
Open Scope Z_scope.

Section Spec.
Context {p : Z}.
Notation F := (Fp p).

(** The coefficient that a sparse vector gives to index k (0 if absent). *)
Definition coef (l : pvec p) (k : Z) : F :=
  fsum (map (fun e => if fst e =? k then snd e else 0%F) l).

Definition keys (l : pvec p) : list Z := map fst l.

(** sum_j a_j * w_j over the terms *)
Definition lin_val (l : pvec p) (w : Z -> F) : F :=
  fsum (map (fun e => (snd e * w (fst e))%F) l).
Definition lin_sat (c : lincon p) (w : Z -> F) : Prop := lin_val (lterms c) w = leq c.

Definition quad_val (idx : list Z) (u v : Z -> F) : F :=
  fsum (map (fun k => (u k * v k)%F) idx).
Definition quad_sat (q : quadcon p) (u v : Z -> F) : Prop := quad_val (qidx q) u v = qeq q.

Definition wf_lin (c : lincon p) : Prop := ksorted (lterms c).
Definition wf_quad (q : quadcon p) : Prop := zsorted (qidx q).

(** What a priority queue guarantees: its top has a smallest key. *)
Definition queue_order (pick : list (cursor p) -> nat) : Prop :=
  forall q, q <> [] ->
    exists c, nth_error q (pick q) = Some c /\ forall c', In c' q -> ckey c <= ckey c'.

(** The linear combination sum_i coeffs_i * constraint_i at index k. *)
Definition comb_coef (cs : list (lincon p)) (coeffs : list F) (k : Z) : F :=
  fsum (map (fun e => (snd e * coef (lterms (fst e)) k)%F) (combine cs coeffs)).
Definition comb_rhs (cs : list (lincon p)) (coeffs : list F) : F :=
  fsum (map (fun e => (snd e * leq (fst e))%F) (combine cs coeffs)).

(** k is the largest index used with a non-zero multiplier. *)
Definition is_max_index (cs : list (lincon p)) (coeffs : list F) (k : Z) : Prop :=
  (exists c x, In (c, x) (combine cs coeffs) /\ x <> 0%F /\ In k (keys (lterms c))) /\
  (forall c x k', In (c, x) (combine cs coeffs) -> x <> 0%F -> In k' (keys (lterms c)) -> k' <= k).

(** Pairwise disjoint index sets. *)
Fixpoint all_disjoint (qs : list (quadcon p)) : Prop :=
  match qs with
  | [] => True
  | q :: qs' => (forall k q', In q' qs' -> In k (qidx q) -> ~ In k (qidx q')) /\ all_disjoint qs'
  end.

Definition powers (r : F) (n : nat) : list F := map (fun i => (r ^ i)%F) (seq 0 n).

(** The change of witness documented for makeAlmostDisjoint
    (constraints.hpp 82-86 and regevProofs.cpp 960-985): the fresh variable nk
    gets minus the value of the terms of the linear constraint which are not in
    the quadratic one, and second component s; the second components of the
    other variables are decreased by s times their linear coefficient. *)
Definition new_x (lin : lincon p) (quad : quadcon p) (nk : Z) (x : Z -> F) : Z -> F :=
  fun k => if k =? nk
           then (- lin_val (filter (fun e => negb (existsb (Z.eqb (fst e)) (qidx quad))) (lterms lin)) x)%F
           else x k.
Definition new_y (lin : lincon p) (s : F) (nk : Z) (y : Z -> F) : Z -> F :=
  fun k => if k =? nk then s else (y k - s * coef (lterms lin) k)%F.

Definition in_range31 (k : Z) : Prop := 0 <= k < 2 ^ 31 - 1.
End Spec.
