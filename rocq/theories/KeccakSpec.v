(** Keccak-f[1600] as in FIPS 202, section 3, on a 5 x 5 x 64 array of bits. *)
From Coq Require Import ZArith List Bool.
Import ListNotations.
Open Scope nat_scope.

Definition barray := nat -> nat -> nat -> bool.
Definition w : nat := 64.

(** Algorithm 1: theta. *)
Definition colpar (A : barray) (x z : nat) : bool :=
  xorb (A x 0 z) (xorb (A x 1 z) (xorb (A x 2 z) (xorb (A x 3 z) (A x 4 z)))).
Definition theta_s (A : barray) : barray := fun x y z =>
  xorb (A x y z) (xorb (colpar A ((x + 4) mod 5) z) (colpar A ((x + 1) mod 5) ((z + w - 1) mod w))).
(** Algorithm 2: rho.  The walk (x,y) -> (y, 2x+3y) from (1,0); lane number t is
    rotated by (t+1)(t+2)/2. *)
Fixpoint walk (t : nat) : nat * nat :=
  match t with O => (1, 0) | S t' => let (x, y) := walk t' in (y, (2 * x + 3 * y) mod 5) end.
Fixpoint offset_from (n : nat) (x y : nat) : nat :=
  match n with
  | O => 0
  | S t => let (x', y') := walk t in if (x =? x') && (y =? y') then (t + 1) * (t + 2) / 2 else offset_from t x y
  end.
Definition offset (x y : nat) : nat := offset_from 24 x y.
Definition rho_s (A : barray) : barray := fun x y z => A x y ((z + 6 * w - offset x y) mod w).
(** Algorithm 3: pi. *)
Definition pi_s (A : barray) : barray := fun x y z => A ((x + 3 * y) mod 5) x z.
(** Algorithm 4: chi. *)
Definition chi_s (A : barray) : barray := fun x y z =>
  xorb (A x y z) (andb (negb (A ((x + 1) mod 5) y z)) (A ((x + 2) mod 5) y z)).
(** Algorithm 5: rc(t), the LFSR with R = 0 || R, R[0,4,5,6] ^= R[8], truncated to 8 bits. *)
Fixpoint lfsr (n : nat) (R : list bool) : list bool :=
  match n with
  | O => R
  | S n' =>
      match R with
      | [r0; r1; r2; r3; r4; r5; r6; r7] => lfsr n' [r7; r0; r1; r2; xorb r3 r7; xorb r4 r7; xorb r5 r7; r6]
      | _ => R
      end
  end.
Definition rc (t : nat) : bool := nth 0 (lfsr (t mod 255) [true; false; false; false; false; false; false; false]) false.
(** Algorithm 6: iota with round index ir. *)
Definition RC_s (ir z : nat) : bool :=
  existsb (fun j => (z =? 2 ^ j - 1) && rc (j + 7 * ir)) (seq 0 7).
Definition iota_s (ir : nat) (A : barray) : barray := fun x y z =>
  if (x =? 0) && (y =? 0) then xorb (A x y z) (RC_s ir z) else A x y z.
Definition Rnd (A : barray) (ir : nat) : barray := iota_s ir (chi_s (pi_s (rho_s (theta_s A)))).
(** Algorithm 7. *)
Definition keccak_f1600 (A : barray) : barray := fold_left Rnd (seq 0 24) A.

(** Section 3.1.2: bit (x,y,z) of a string of 200 bytes is bit w(5y+x)+z; bit i of
    a byte string is bit i mod 8 of byte i/8. *)
Definition bit_of (bs : list Z) : barray := fun x y z =>
  Z.testbit (nth ((w * (5 * y + x) + z) / 8) bs 0%Z) (Z.of_nat (z mod 8)).
