(** What serialisation should achieve. *)
From Coq Require Import ZArith List Bool.
From Verif Require Import Outcome StreamModel.
Import ListNotations.
Open Scope Z_scope.

(** A transcript with n blocks at the end (3: linear, 5: quadratic), all of 32 bytes. *)
Definition well_formed (n : nat) (t : trans) : Prop :=
  length (tC t) = 32%nat /\ Forall (fun b => length b = 32%nat) (tLs t) /\ Forall (fun b => length b = 32%nat) (tRs t) /\
  Forall (fun b => length b = 32%nat) (tEnd t) /\ length (tEnd t) = n.
(** The tag is a word: the harmless case for formatted input. *)
Definition word (l : list Z) : Prop := l <> [] /\ forall c, In c l -> ~ (c = 32 \/ 9 <= c <= 13).
(** Read back from a stream that holds just the transcript, into any object of the
    right kind: the same transcript, without an error. *)
Definition round_trips (t old : trans) : Prop :=
  exists s, readTr (IS (writeTr t) false false) old = Ret (t, s) /\ ifail s = false.
Definition starts_white (l : list Z) : Prop := exists c l', l = c :: l' /\ (c = 32 \/ 9 <= c <= 13).
Definition starts_digit (l : list Z) : Prop := exists c l', l = c :: l' /\ 48 <= c <= 57.
