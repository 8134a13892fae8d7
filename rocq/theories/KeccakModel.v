(** Model of the Keccak-f[1600] permutation of /repo/src/libmerlin/merlin.c 23-85.
    The state is the array of 25 uint64_t lanes. *)
From Coq Require Import ZArith List.
From Verif Require Import Bytes.
Import ListNotations.
Open Scope Z_scope.

(** Tables, 24-51. *)
Definition rho_tab : list Z :=
  [1; 3; 6; 10; 15; 21; 28; 36; 45; 55; 2; 14; 27; 41; 56; 8; 25; 43; 62; 18; 39; 61; 20; 44].
Definition pi_tab : list nat :=
  [10; 7; 11; 17; 18; 3; 5; 16; 8; 21; 24; 4; 15; 23; 19; 13; 12; 2; 20; 14; 22; 9; 6; 1]%nat.
Definition RC_tab : list Z :=
  [0x1; 0x8082; 0x800000000000808a; 0x8000000080008000; 0x808b; 0x80000001;
   0x8000000080008081; 0x8000000000008009; 0x8a; 0x88; 0x80008009; 0x8000000a;
   0x8000808b; 0x800000000000008b; 0x8000000000008089; 0x8000000000008003;
   0x8000000000008002; 0x8000000000000080; 0x800a; 0x800000008000000a;
   0x8000000080008081; 0x8000000000008080; 0x80000001; 0x8000000080008008].

(** rol, 54: shifts of a uint64_t. *)
Definition rol (x s : Z) : Z := Z.lor (Z.shiftl x s mod 2 ^ 64) (Z.shiftr x (64 - s)).

(** ~ on a uint64_t. *)
Definition not64 (x : Z) : Z := 2 ^ 64 - 1 - x.

(** Assignment to an array cell. *)
Fixpoint aset (l : list Z) (i : nat) (v : Z) : list Z :=
  match l, i with
  | [], _ => []
  | _ :: r, O => v :: r
  | x :: r, S i' => x :: aset r i' v
  end.

Notation "a .[ i ]" := (nth i%nat a 0) (at level 1, format "a .[ i ]").

(** FOR5(v, 1, ...) and FOR5(v, 5, ...). *)
Definition five1 : list nat := [0; 1; 2; 3; 4]%nat.
Definition five5 : list nat := [0; 5; 10; 15; 20]%nat.

(** 71-73 *)
Definition theta_b (a : list Z) : list Z :=
  fold_left (fun b x => fold_left (fun b y => aset b x (Z.lxor b.[x] a.[x + y])) five5 (aset b x 0)) five1 [0; 0; 0; 0; 0].
Definition theta (a : list Z) : list Z :=
  let b := theta_b a in
  fold_left (fun a x => fold_left (fun a y =>
    aset a (y + x) (Z.lxor a.[y + x] (Z.lxor b.[(x + 4) mod 5] (rol b.[(x + 1) mod 5] 1)))) five5 a) five1 a.
(** 74-77 *)
Definition rho_pi (a : list Z) : list Z :=
  fst (fold_left (fun st x =>
    let '(a, t) := st in
    let b0 := a.[nth x pi_tab 0%nat] in
    (aset a (nth x pi_tab 0%nat) (rol t rho_tab.[x]), b0)) (seq 0 24) (a, a.[1])).
(** 78-81 *)
Definition chi (a : list Z) : list Z :=
  fold_left (fun a y =>
    let b := map (fun x => a.[y + x]) five1 in
    fold_left (fun a x =>
      aset a (y + x) (Z.lxor b.[x] (Z.land (not64 b.[(x + 1) mod 5]) b.[(x + 2) mod 5]))) five1 a) five5 a.
(** 82-83 *)
Definition iota (i : nat) (a : list Z) : list Z := aset a 0 (Z.lxor a.[0] RC_tab.[i]).
Definition round (a : list Z) (i : nat) : list Z := iota i (chi (rho_pi (theta a))).
Definition keccak_lanes (a : list Z) : list Z := fold_left round (seq 0 24) a.

(** The union of state[25] and state_bytes[200] on a little-endian machine. *)
Fixpoint lanes_of (n : nat) (b : list Z) : list Z :=
  match n with O => [] | S n' => le_val (firstn 8 b) :: lanes_of n' (skipn 8 b) end.
Definition bytes_of (a : list Z) : list Z := flat_map (le_bytes 8) a.
Definition keccakf (st : list Z) : list Z := bytes_of (keccak_lanes (lanes_of 25 st)).
