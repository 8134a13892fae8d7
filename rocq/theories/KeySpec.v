(** Fingerprints: what is hashed, and the stream of random elements. *)
From Coq Require Import ZArith List.
From Verif Require Import Bytes Fp Ring TernaryModel RegevModel KeyModel.
Import ListNotations.
Open Scope Z_scope.

Section S.
Context {p : Z} {ell : nat}.
Notation E := (elt p ell).
(** All coefficients of all entries, 32 bytes each. *)
Definition enc (e : E) : list Z := concat (map (fun i => le_bytes 32 (fval (coeff e i))) (seq 0 ell)).
Definition enc_mat (rows : list (list E)) : list Z := concat (map enc (concat rows)).
(** Different inputs with the same value of the keyed hash. *)
Definition collide {D} (H : list Z -> list Z -> D) (k1 m1 k2 m2 : list Z) : Prop := (k1, m1) <> (k2, m2) /\ H k1 m1 = H k2 m2.
(** The i-th element of the stream from state r. *)
Fixpoint stream {R} (draw : R -> E * R) (r : R) (i : nat) : E :=
  match i with O => fst (draw r) | S i' => stream draw (snd (draw r)) i' end.
(** The constructor's conditions on the numbers. *)
Definition good_numbers (k n s1 s2 : Z) : Prop := 0 < k /\ 2 * Z.of_nat ell < n /\ 1 < s1 /\ 2 < s2.
End S.
