(** Numbers in a string. *)
From Coq Require Import ZArith List.
Import ListNotations.
Open Scope Z_scope.

Definition white (c : Z) : Prop := c = 32 \/ 9 <= c <= 13.
Definition digit (c : Z) : Prop := 48 <= c <= 57.
(** The number written by decimal digits. *)
Fixpoint decimal (l : list Z) : Z :=
  match l with [] => 0 | c :: l' => (c - 48) * 10 ^ Z.of_nat (length l') + decimal l' end.
(** s is white space, a sign or none, digits for z, and something that is not
    another digit. *)
Definition number_at (s : list Z) (z : Z) : Prop :=
  exists ws sign ds rest, s = ws ++ sign ++ ds ++ rest /\ Forall white ws /\ ds <> [] /\ Forall digit ds /\
    (forall c l, rest = c :: l -> ~ digit c) /\
    ((sign = [] \/ sign = [43]) /\ z = decimal ds \/ sign = [45] /\ z = - decimal ds).
Definition in_int (z : Z) : Prop := - 2 ^ 31 <= z < 2 ^ 31.
