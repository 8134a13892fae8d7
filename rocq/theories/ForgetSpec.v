(** Two transcripts at the same place. *)
From Coq Require Import ZArith List.
From Verif Require Import Outcome Bytes MerlinModel MerlinSpec.
Import ListNotations.
Open Scope Z_scope.

(** The same position in the block, begin of the operation and flags; the 200 bytes may
    differ. *)
Definition same_place (c c' : strobe) : Prop := pos c = pos c' /\ pos_begin c = pos_begin c' /\ cur_flags c = cur_flags c'.
(** No two states of 200 bytes have the same image. *)
Definition injective (f : list Z -> list Z) : Prop := forall s t, state200 s -> state200 t -> f s = f t -> s = t.
