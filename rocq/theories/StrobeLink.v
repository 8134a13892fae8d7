(** What it means that merlin.c is STROBE and Merlin. *)
From Coq Require Import ZArith List Bool.
From Verif Require Import Outcome Bytes MerlinModel MerlinSpec StrobeSpec.
Import ListNotations.
Open Scope Z_scope.

(** The state of the code (without the record of the permuted blocks). *)
Definition view (c : strobe) : duplexer := Dx (st c) (Z.to_nat (pos c)) (Z.to_nat (pos_begin c)) (cur_flags c).
(** The code's operation does what [op] does, for data that leave no output. *)
Definition same_as (op : operation) (code : strobe -> list Z -> bool -> outcome strobe) : Prop :=
  forall c data more, in_bounds c -> bytes_ok data ->
  match op more (view c) data with
  | Some (_, d) => exists c', code c data more = Ret c' /\ in_bounds c' /\ view c' = d
  | None => code c data more = Abort
  end.
(** meta_ad begins the operation KEY, but the data are added to the state as in AD. *)
Definition odd_meta (f : list Z -> list Z) : operation := fun more c data =>
  also (if more then (if flags_ c =? flagA + flagC then Some c else None) else Some (beginOp f (flagA + flagC) c)) (fun c => Some (duplex f false false c data)).
(** The calls of the code as events of a transcript. *)
Definition event_of (a : call) : event := match a with Append l m => Msg l m | Challenge l n => Chal l n end.
