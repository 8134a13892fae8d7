(** Notions used to state C14-C17, independent of the model's helpers. *)
From Coq Require Import ZArith List Bool.
From Verif Require Import Fp GroupMod FSum.
Import ListNotations.
Open Scope Z_scope.

(** [m] is the least power of two >= n, with exponent [e]. *)
Definition least_pow2 (n e m : Z) : Prop :=
  0 <= e /\ m = 2 ^ e /\ n <= m /\ forall e', 0 <= e' -> n <= 2 ^ e' -> e <= e'.

Section S.
Context {p : Z} {G : gmod p}.
Notation F := (Fp p).

(** Product of the basis entries selected by the bits of i: bit j of i selects
    basis[len-1-j]. *)
Fixpoint subset_prod (basis : list F) (i : nat) : F :=
  match basis with
  | [] => 1%F
  | x :: rest =>
      ((if Nat.testbit i (length rest) then x else 1) * subset_prod rest i)%F
  end.

End S.
