(** Vocabulary for the properties of the encryption scheme. *)
From Coq Require Import ZArith List Bool.
From Verif Require Import Outcome Fp FSum Ring TernaryModel TernarySpec AlgebraModel AlgebraSpec RegevModel.
Import ListNotations.
Open Scope Z_scope.

Section S.
Context {p : Z} {ell : nat}.
Notation F := (Fp p).
Notation E := (elt p ell).

(** Balanced coefficients of size at most B and sum of squares at most S. *)
Definition short (v : list E) (B S : Z) : Prop :=
  exists zs, are_balanced (coeffs_of v) zs /\ Forall (fun z => Z.abs z <= B) zs /\ sum_sq zs <= S.

(** (1, D, D^2, ...) as a ring element. *)
Definition gadget (D : Z) : E := mkE ell (fun i => toF p (D ^ Z.of_nat i)).

(** The ring element with integer coefficients z 0, z 1, ... *)
Definition of_ints (z : nat -> Z) : E := mkE ell (fun i => toF p (z i)).

(** sum_i u_i v_i *)
Definition dotE (u v : list E) (n : nat) : E := esum (map (fun i => emul (nth i u e0) (nth i v e0)) (seq 0 n)).
(** What a history must do: the keys of the right length, in call order, cut off
    at n; the k-th call returns the number of keys accepted before. *)
Fixpoint spec_history (k n : nat) (have : list (list E)) (pks : list (list E)) : list (list E) * list (outcome Z) :=
  match pks with
  | [] => (have, [])
  | pk :: pks' =>
      if (length pk =? k)%nat && (length have <? n)%nat then
        let (h, rs) := spec_history k n (have ++ [pk]) pks' in (h, Ret (Z.of_nat (length have)) :: rs)
      else
        let (h, rs) := spec_history k n have pks' in (h, Throw :: rs)
  end.


(** A key of the right dimensions. *)
Definition wf_key (gk : globalKey p ell) : Prop :=
  0 < kay gk < 2 ^ 27 /\ 0 < enn gk /\ 1 < sigmaEnc1 gk < 2 ^ 30 /\ 2 < sigmaEnc2 gk < 2 ^ 30 /\
  mat_dims (gkA gk) (Z.to_nat (kay gk)) (Z.to_nat (kay gk)) /\
  mat_dims (gkB gk) (Z.to_nat (enn gk)) (Z.to_nat (kay gk)).

(** The vectors tried by a rejection loop. *)
Section Attempts.
Variable rnd : nat -> Z * Z.
(** The t-th vector tried. *)
Definition attempt (n : Z) (pos k t : nat) : list E := sample_vec rnd n (pos + t * (k * ell)) k.
Definition accepted_at (N : nat) (n : Z) (pos k : nat) (bound : Z) (t : nat) : Prop :=
  (t < N)%nat /\ normSquared_e p (attempt n pos k t) <= bound /\
  forall u, (u < t)%nat -> bound < normSquared_e p (attempt n pos k u).
Definition all_rejected (N : nat) (n : Z) (pos k : nat) (bound : Z) : Prop :=
  forall u, (u < N)%nat -> bound < normSquared_e p (attempt n pos k u).

End Attempts.
End S.
