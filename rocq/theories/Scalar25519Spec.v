(** What a 32-byte string means as an element of Z_P. *)
From Coq Require Import ZArith List.
From Verif Require Import Bytes Fp Prime25519.
Import ListNotations.
Open Scope Z_scope.

(** Integer read little-endian, written out digit by digit. *)
Definition string32 (b : list Z) : Prop :=
  length b = 32%nat /\ (forall i, 0 <= nth i b 0 < 256).

(** The unique reduced little-endian representation of the field element x. *)
Definition represents (b : list Z) (x : Fp P25519) : Prop :=
  string32 b /\ le_val b = fval x.

(** The value of any string, reduced or not. *)
Definition value (b : list Z) : Fp P25519 := toF P25519 (le_val b).

(** z is the residue of w modulo y nearest to zero (y/2 itself stays positive). *)
Definition nearest_residue (w y z : Z) : Prop := (exists q, w = q * y + z) /\ - y < 2 * z <= y.

(** The code's signed reading of 0 <= x < P: integers from (P-1)/2 on are negative. *)
Definition signed_reading (x : Z) : Z := if 2 * x <? P25519 - 1 then x else x - P25519.
