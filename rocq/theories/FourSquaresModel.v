(** Model of /repo/src/algebra/foursquares.cpp.  NTL's ZZ is Z, SqrRoot the floor
    of the square root, n & 3 the residue modulo 4 (only used on n >= 0). *)
From Coq Require Import ZArith List Bool.
From Verif Require Import NumTheory Outcome.
Import ListNotations.
Open Scope Z_scope.

(** magicN and squaresModMagic, foursquares.cpp 43-52 (a std::set: only
    membership is used).  i*i < 2^31 for i <= 5040. *)
Definition magicN : Z := 10080.
Definition squaresModMagic : list Z :=
  map (fun i => (Z.of_nat i * Z.of_nat i) mod magicN) (seq 0 (Z.to_nat (magicN / 2) + 1)).
Definition smallPrimes : list Z := [11;13;17;19;23;29;31;37;41;43].

(** The primes below 281, in order (NTL::PrimeSeq after reset(2)). *)
Definition primesBelow281 : list Z :=
  [2;3;5;7;11;13;17;19;23;29;31;37;41;43;47;53;59;61;67;71;73;79;83;89;97;101;103;107;
   109;113;127;131;137;139;149;151;157;163;167;173;179;181;191;193;197;199;211;223;227;
   229;233;239;241;251;257;263;269;271;277].

Section Model.
Variable jacobi : Z -> Z -> Z.        (* NTL::Jacobi *)
Variable probPrime : Z -> bool.       (* NTL::ProbPrime *)
Variable singlePrec : Z -> bool.      (* ZZ::SinglePrecision *)

(** maybeSquare, foursquares.cpp 57-72. *)
Definition maybeSquare (n : Z) : bool :=
  if singlePrec n then let sq := Z.sqrt n in sq * sq =? n
  else
    if negb (existsb (Z.eqb (n mod magicN)) squaresModMagic) then false
    else negb (existsb (fun p => jacobi n p =? -1) smallPrimes).

(** iunit_small, foursquares.cpp 76-83. *)
Fixpoint iunit_search (fuel : nat) (i p : Z) : Z :=
  match fuel with
  | O => 0
  | S f => if p / 2 <? i then 0
           else if (i * i) mod p =? p - 1 then i else iunit_search f (i + 1) p
  end.
Definition iunit_small (p : Z) : Z :=
  if (p <? 281) && (p mod 4 =? 1) then iunit_search (Z.to_nat p) 2 p else 0.

(** NTL::PowerMod for a non-negative exponent. *)
Definition powerMod (a e n : Z) : Z :=
  match e with Zpos e' => powmod a e' n | _ => 1 mod n end.

(** The loop of iunit, foursquares.cpp 103-108: no break, the last hit stays. *)
Fixpoint iunit_loop (qs : list Z) (ret p : Z) : Z :=
  match qs with
  | [] => ret
  | q :: qs' =>
      iunit_loop qs' (if jacobi q p =? -1 then powerMod q ((p - 1) / 4) p else ret) p
  end.
(** iunit, foursquares.cpp 90-112. *)
Definition iunit (p : Z) : Z * bool :=
  if maybeSquare p && (Z.sqrt p * Z.sqrt p =? p) then (Z.sqrt p, true)
  else if p mod 8 =? 5 then (powerMod 2 (p / 4) p, false)
  else if p <? 281 then (iunit_small p, false)
  else if p mod 4 =? 1 then (iunit_loop primesBelow281 0 p, false)
  else (0, false).

(** The while loop of decomposeProbablePrime, foursquares.cpp 131-136; fuel
    bounds the number of divisions.  A final b = 0 makes NTL report a division
    by zero (Abort). *)
Fixpoint cornacchia (fuel : nat) (a b p : Z) : outcome (Z * Z) :=
  match fuel with
  | O => UB
  | S f => if p <? b * b then cornacchia f b (a mod b) p
           else if b =? 0 then Abort else Ret (b, a mod b)
  end.
(** decomposeProbablePrime, foursquares.cpp 119-138. *)
Definition decomposeProbablePrime (p : Z) : outcome (Z * Z) :=
  if negb (p mod 4 =? 1) then Throw
  else
    let '(b, issqr) := iunit p in
    if issqr then Ret (0, b)
    else if b =? 0 then Ret (0, 0)
    else cornacchia (Z.to_nat (Z.log2 (p * b)) + 2) p b p.

(** decomposeExceptions, foursquares.cpp 143-150. *)
Definition decomposeExceptions : list (Z * (Z * Z * Z)) :=
  [(2,(0,1,1)); (3,(1,1,1)); (10,(0,1,3)); (34,(3,3,4)); (58,(0,3,7)); (85,(0,6,7));
   (130,(0,3,11)); (214,(3,6,13)); (226,(8,9,9)); (370,(8,9,15)); (526,(6,7,21));
   (706,(15,15,16)); (730,(0,1,27)); (1414,(6,17,33)); (1906,(13,21,36));
   (2986,(21,32,39)); (9634,(56,57,57))].
Fixpoint zfind {A} (k : Z) (l : list (Z * A)) : option A :=
  match l with
  | [] => None
  | (k', v) :: l' => if k' =? k then Some v else zfind k l'
  end.

(** sortScaled, foursquares.cpp 152-156 (std::sort, then multiply). *)
Fixpoint zins (x : Z) (l : list Z) : list Z :=
  match l with
  | [] => [x]
  | y :: l' => if x <=? y then x :: l else y :: zins x l'
  end.
Definition sortScaled (l : list Z) (v : Z) : list Z :=
  map (fun x => x * v) (fold_right zins [] l).

Definition failed : list Z := [-1; -1; -1; -1].

(** The loop removing powers of 4, foursquares.cpp 173-176. *)
Fixpoint remove4 (fuel : nat) (n v : Z) : outcome (Z * Z) :=
  match fuel with
  | O => UB
  | S f => if n mod 4 =? 0 then remove4 f (n / 4) (2 * v) else Ret (n, v)
  end.

(** The search loops, foursquares.cpp 243-257 and 266-277. *)
Fixpoint search1 (fuel : nat) (delta sq p v : Z) : outcome (list Z) :=
  match fuel with
  | O => UB
  | S f =>
      let next :=
        let sq' := sq - 2 in
        if sq' <? 0 then Ret failed else search1 f delta sq' (p + (2 * sq' + 2)) v in
      if probPrime p then
        let! yz := decomposeProbablePrime p in
        let '(y, z) := yz in
        if negb (z =? 0) then Ret (sortScaled [delta; sq; y + z; Z.abs (y - z)] v)
        else next
      else next
  end.
Fixpoint search2 (fuel : nat) (delta sq p v : Z) : outcome (list Z) :=
  match fuel with
  | O => UB
  | S f =>
      let next :=
        let sq' := sq - 2 in
        if sq' <? 0 then Ret failed else search2 f delta sq' (p + 4 * (sq' + 1)) v in
      if probPrime p then
        let! yz := decomposeProbablePrime p in
        let '(y, z) := yz in
        if negb (z =? 0) then Ret (sortScaled [delta; sq; y; z] v)
        else next
      else next
  end.

(** decompose4 from line 220 on: n = sq^2 + p is what remains after
    subtracting delta^2. *)
Definition decompose3 (delta n sq p v : Z) : outcome (list Z) :=
  match (if n <=? 9634 then zfind n decomposeExceptions else None) with
  | Some (x, y, z) => Ret (sortScaled [delta; x; y; z] v)
  | None =>
      if n mod 4 =? 3 then
        let '(sq, p) := if Z.odd sq then (sq, p) else (sq - 1, p + (2 * (sq - 1) + 1)) in
        search1 (Z.to_nat sq + 1) delta sq (p / 2) v
      else
        let '(sq, p) := if Z.odd (n - sq) then (sq, p) else (sq - 1, p + (2 * (sq - 1) + 1)) in
        search2 (Z.to_nat sq + 1) delta sq p v
  end.

(** The case n = 7 mod 8, foursquares.cpp 199-216: returns (delta,n,sq,p). *)
Definition subtract_delta (n sq p : Z) : Z * Z * Z * Z :=
  if n mod 8 =? 7 then
    let '(delta, n') := if sq mod 4 =? 0 then (sq - 1, p + (2 * (sq - 1) + 1)) else (sq, p) in
    let sq' := Z.sqrt p in      (* line 214: the root of the old p, not of n *)
    (delta, n', sq', n' - sq' * sq')
  else (0, n, sq, p).

(** decompose4, foursquares.cpp 163-278. *)
Definition decompose4 (n : Z) : outcome (list Z) :=
  if n <? 0 then Throw
  else if n <=? 1 then Ret [0; 0; 0; n]
  else
    let! nv := remove4 (Z.to_nat (Z.log2 n) + 1) n 1 in
    let '(n, v) := nv in
    let sq := Z.sqrt n in
    let p := n - sq * sq in
    if p =? 0 then Ret [p; p; p; sq * v]
    else
      let continue :=
        let '(delta, n, sq, p) := subtract_delta n sq p in decompose3 delta n sq p v in
      if (n mod 4 =? 1) && probPrime n then
        let! sr := decomposeProbablePrime n in
        let '(s, r) := sr in
        if negb (r =? 0) then Ret (sortScaled [0; 0; s; r] v) else continue
      else continue.
End Model.
