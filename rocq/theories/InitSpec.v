(** What is assumed of libsodium's encodings. *)
From Coq Require Import ZArith List.
From Verif Require Import Bytes Fp GroupMod Prime25519 InitModel.
Import ListNotations.
Open Scope Z_scope.

(** [pt] encodes the group of prime order: no two elements alike, and never as 32
    zero bytes (y = 0 is a point of order 4, outside the group). *)
Record encodes {G : gmod P25519} (so : sodium) (B : G) (pt : G -> list Z) : Prop := {
  enc_inj : forall a b, pt a = pt b -> a = b;
  enc_nonzero : forall a, pt a <> repeat 0 32;
  enc_base : so_base so (le_bytes 32 1) = Some (pt B);
  enc_add : forall a b, so_add so (pt a) (pt b) = Some (pt (gadd a b));
  enc_sub : forall a b, so_sub so (pt a) (pt b) = Some (pt (gadd a (gopp b))) }.
(** Started: the constants are the generator and the neutral element. *)
Definition started {G : gmod P25519} (B : G) (pt : G -> list Z) (w : world) : Prop :=
  w_base w = pt B /\ w_ident w = pt gzero /\ w_first w = false /\ w_ready w = true.
