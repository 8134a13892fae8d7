(** Model of the start-up of the curve layer: the static members of Point and
    their initialisers, /repo/src/25519/curve25519.cpp 35-61 and
    /repo/include/point25519.hpp 36-98.  Points are their 32 bytes. *)
From Coq Require Import ZArith List Bool.
From Verif Require Import Outcome Bytes Scalar25519Model.
Import ListNotations.
Open Scope Z_scope.

(** libsodium (external): the result of the first call of sodium_init, and the
    functions on encodings; None stands for a result other than 0. *)
Record sodium := Sodium {
  so_init : Z;
  so_base : list Z -> option (list Z);
  so_add : list Z -> list Z -> option (list Z);
  so_sub : list Z -> list Z -> option (list Z) }.
(** The static variables: firstTime of init, basePoint, identityPoint; and whether
    libsodium has been initialised. *)
Record world := World { w_first : bool; w_base : list Z; w_ident : list Z; w_ready : bool }.
(** Before the dynamic initialisation: static storage is zero, firstTime is a
    constant.  [ready]: other code has called sodium_init. *)
Definition loaded (ready : bool) : world := World true (repeat 0 32) (repeat 0 32) ready.

Section Init.
Context (so : sodium).
(** sodium_init: 1 if libsodium was initialised before. *)
Definition sodium_init (w : world) : Z * world :=
  if w_ready w then (1, w)
  else (so_init so, World (w_first w) (w_base w) (w_ident w) (so_init so =? 0)).
(** Point(), hpp 44. *)
Definition newPoint (w : world) : list Z := w_ident w.
(** operator+=, hpp 67-81, and operator-=, 84-94. *)
Definition pointAdd (w : world) (a b : list Z) : outcome (list Z) :=
  if bytes_eqb b (w_ident w) then Ret a
  else if bytes_eqb a (w_ident w) then Ret b
  else match so_add so a b with Some c => Ret c | None => Throw end.
Definition pointSub (w : world) (a b : list Z) : outcome (list Z) :=
  if bytes_eqb b (w_ident w) then Ret a
  else match so_sub so a b with Some c => Ret c | None => Throw end.
(** Point::init, cpp 38-61. *)
Definition pointInit (w : world) : outcome (list Z * world) :=
  if negb (w_first w) then Ret (newPoint w, w)
  else
    let w := World false (w_base w) (w_ident w) (w_ready w) in
    let (ret, w) := sodium_init w in
    if negb (ret =? 0) then Throw
    else
      let! one := setInteger 1 in
      match so_base so one with
      | None => Throw
      | Some b =>
          let w := World (w_first w) b (w_ident w) (w_ready w) in
          let! i := pointSub w (w_base w) (w_base w) in
          Ret (i, w)
      end.
(** The dynamic initialisers of the file, in order: basePoint (35) is constructed
    as a copy of identityPoint, identityPoint (36) is what init returns. *)
Definition startUp (w : world) : outcome world :=
  let w := World (w_first w) (newPoint w) (w_ident w) (w_ready w) in
  let! r := pointInit w in
  Ret (World (w_first (snd r)) (w_base (snd r)) (fst r) (w_ready (snd r))).
End Init.
