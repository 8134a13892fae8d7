(** Byte-level model of /repo/include/scalar25519.hpp, of Scalar::operator%=
    in /repo/src/25519/curve25519.cpp and of the wrappers of
    /repo/include/point25519.hpp. *)
From Coq Require Import ZArith List Bool.
From Verif Require Import Outcome Bytes Fp GroupMod Prime25519.
Import ListNotations.
Open Scope Z_scope.

Notation P := P25519.

(** class Scalar, scalar25519.hpp 46-48: the 32 bytes, any content. *)
Definition sbytes := list Z.

(** libsodium (external): crypto_core_ed25519_scalar_add/_sub/_mul/_negate
    return the reduced 32-byte form of the result; _invert returns -1 on zero
    modulo P and the reduced inverse otherwise. *)
Definition enc (z : Z) : sbytes := le_bytes 32 (z mod P).
Definition sodium_add (a b : sbytes) : sbytes := enc (le_val a + le_val b).
Definition sodium_sub (a b : sbytes) : sbytes := enc (le_val a - le_val b).
Definition sodium_mul (a b : sbytes) : sbytes := enc (le_val a * le_val b).
Definition sodium_negate (a : sbytes) : sbytes := enc (- le_val a).
Definition sodium_invert (a : sbytes) : option sbytes :=
  if le_val a mod P =? 0 then None
  else Some (enc (fval (finv (toF P (le_val a))))).

(** Default constructor, 50. *)
Definition s_zero : sbytes := repeat 0 32.
(** operator==, 55-57: comparison of the 32 bytes. *)
Fixpoint bytes_eqb (a b : list Z) : bool :=
  match a, b with
  | x :: a', y :: b' => (x =? y) && bytes_eqb a' b'
  | [], [] => true
  | _, _ => false
  end.
Definition s_eqb (a b : sbytes) : bool := bytes_eqb a b.
(** isZero, 59. *)
Definition s_isZero (a : sbytes) : bool := s_eqb s_zero a.
(** invert, 69-75. *)
Definition s_invert (a : sbytes) : outcome sbytes :=
  match sodium_invert a with None => Throw | Some b => Ret b end.
(** operator+=, -=, *=, /=, negate: 79-117. *)
Definition s_add := sodium_add.
Definition s_sub := sodium_sub.
Definition s_mul := sodium_mul.
Definition s_negate := sodium_negate.
Definition s_div (a b : sbytes) : outcome sbytes :=
  let! c := s_invert b in Ret (s_mul a c).

(** setInteger(long n), 129-143.  -n is undefined for LONG_MIN; the loop writes
    the 8 low-order bytes into the zeroed array. *)
Definition setInteger (n : Z) : outcome sbytes :=
  if n <? 0 then
    if n =? - 2 ^ 63 then UB
    else Ret (s_negate (le_bytes 8 (- n) ++ repeat 0 24))
  else Ret (le_bytes 8 n ++ repeat 0 24).

(** innerProduct, curve25519.cpp 64-70. *)
Fixpoint s_inner_loop (a b : list sbytes) (n : nat) (ret : sbytes) {struct n} : outcome sbytes :=
  match n with
  | O => Ret ret
  | S k =>
      match a, b with
      | x :: a', y :: b' => s_inner_loop a' b' k (s_add ret (s_mul x y))
      | _, _ => UB
      end
  end.
Definition s_innerProduct (a b : list sbytes) (n : nat) : outcome sbytes := s_inner_loop a b n s_zero.

(** operator%=, curve25519.cpp 75-89.  NTL's % takes the sign of the divisor;
    a zero divisor is reported by NTL (Abort).  BytesFromZZ writes |x|. *)
Definition s_mod (a b : sbytes) : outcome sbytes :=
  let x := le_val a in
  let y := le_val b in
  let x := if P / 2 <=? x then x - P else x in
  let y := if P / 2 <=? y then Z.abs (y - P) else y in
  if y =? 0 then Abort
  else
    let x := x mod y in
    let x := if y / 2 <? x then P + x - y else x in
    Ret (le_bytes 32 (Z.abs x)).

(** ZeroOneScalar::operator(), 173-184: [r] is the random 32-bit word; [data]
    the previous content of the target. *)
Definition zeroOne (r : Z) (data : sbytes) : sbytes :=
  if Z.odd r then
    let data1 := match data with [] => [] | _ :: d => 1 :: d end in
    if Z.testbit r 1 then sodium_negate data1 else data1
  else data.

(** BoundedSizeScalar, constructor 196-205 and operator() 207-216: [buf] are the
    bytes delivered by randombytes_buf, [bit] the random word. *)
Definition bounded_new (n : Z) : outcome (Z * Z) :=
  if (n <? 1) || (251 <? n) then Throw
  else Ret ((7 + n) / 8, Z.shiftr 255 (Z.land (8 - n) 7)).
Definition bounded_draw (nBytes mask : Z) (buf : list Z) (bit : Z) : sbytes :=
  let k := Z.to_nat nBytes in
  let top := Z.land (nth (k - 1) buf 0) mask in
  let b0 := firstn (k - 1) buf ++ [top] ++ repeat 0 (32 - k) in
  if Z.odd bit then sodium_negate b0 else b0.

(** ** Points, point25519.hpp.  The prime-order subgroup is the module G; a
    libsodium call failing returns None. *)
Section Points.
Context {G : gmod P}.
(** crypto_core_ed25519_add/_sub fail only on encodings that are not on the
    curve, which a Point of the subgroup never is. *)
Definition sodium_point_add (a b : G) : option G := Some (gadd a b).
Definition sodium_point_sub (a b : G) : option G := Some (gadd a (gopp b)).
(** crypto_scalarmult_ed25519_noclamp: the top bit of the scalar is cleared;
    fails when the point has small order (the identity) or the result is the
    identity. *)
Definition sodium_point_mul (n : sbytes) (a : G) : option G :=
  if geqb a gzero then None
  else let r := gmul a (toF P (le_val n mod 2 ^ 255)) in
       if geqb r gzero then None else Some r.

Definition lift (o : option G) : outcome G := match o with Some x => Ret x | None => Throw end.

(** operator+=, 66-78. *)
Definition p_add (a b : G) : outcome G :=
  if geqb b gzero then Ret a
  else if geqb a gzero then Ret b
  else lift (sodium_point_add a b).
(** operator-=, 82-90. *)
Definition p_sub (a b : G) : outcome G :=
  if geqb b gzero then Ret a else lift (sodium_point_sub a b).
(** operator*=, 94-109. *)
Definition p_mul (a : G) (n : sbytes) : outcome G :=
  if geqb a gzero || s_isZero n then Ret gzero
  else lift (sodium_point_mul n a).
(** baseTimesScalar, 131-138: crypto_scalarmult_ed25519_base_noclamp fails on a
    zero scalar (or a result equal to the identity). *)
Definition baseTimesScalar (base : G) (n : sbytes) : outcome G := lift (sodium_point_mul n base).
End Points.
