(** Vocabulary for the properties of the algebra helpers. *)
From Coq Require Import ZArith List.
From Verif Require Import Fp Ring.
Import ListNotations.
Open Scope Z_scope.

(** z is the balanced representative of s modulo p. *)
Definition is_balanced {p} (s : Fp p) (z : Z) : Prop := toF p z = s /\ - p < 2 * z <= p.

(** zs lists the balanced representatives of ss. *)
Definition are_balanced {p} : list (Fp p) -> list Z -> Prop := Forall2 is_balanced.

(** All coefficients of a vector of ring elements, element by element. *)
Definition coeffs_of {p ell} (v : list (elt p ell)) : list (Fp p) :=
  flat_map (fun e => map (coeff e) (seq 0 ell)) v.

Definition sum_sq (zs : list Z) : Z := fold_right (fun x s => x * x + s) 0 zs.

Definition is_max_abs (zs : list Z) (m : Z) : Prop :=
  0 <= m /\ (forall z, In z zs -> Z.abs z <= m) /\ (m = 0 \/ exists z, In z zs /\ Z.abs z = m).
