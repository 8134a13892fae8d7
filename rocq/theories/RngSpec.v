(** Vocabulary for the random bytes of the prover. *)
From Coq Require Import ZArith List.
From Verif Require Import Outcome Bytes MerlinModel MerlinSpec.
Import ListNotations.
Open Scope Z_scope.

(** n bytes from the rng of a transcript after the labelled witnesses ms and the
    entropy e. *)
Definition drawing (f : list Z -> list Z) (c : strobe) (ms : list (list Z * list Z)) (e : list Z) (n : nat) : outcome (list Z * rng) :=
  let! r := rng_commit_all f (rng_init c) ms in
  let! r := rng_finalize f r e in
  rng_random_bytes f r n.
(** The first witness under the label, the others under their positions. *)
Definition numbered (label : list Z) (ws : list (list Z)) : list (list Z * list Z) :=
  combine (label :: map (fun i => le_bytes 8 (Z.of_nat i)) (seq 1 (length ws))) ws.
Definition labelled_ok (ms : list (list Z * list Z)) : Prop := Forall (fun x => bytes_ok (fst x) /\ bytes_ok (snd x)) ms.
(** The calls for a vector: only the first entry gets the label. *)
Definition vector_calls (label : list Z) (v : list (list Z)) : list call :=
  map (fun x => Append (fst x) (snd x)) (combine (label :: repeat [] (length v)) v).
