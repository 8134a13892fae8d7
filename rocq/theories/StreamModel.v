(** Model of the stream operators: /repo/src/dlproofs/bulletproof.cpp 468-526,
    /repo/include/scalar25519.hpp 152-160, /repo/include/point25519.hpp 119-127.
    Points and scalars are their 32 bytes; characters are integers 0..255. *)
From Coq Require Import ZArith List Bool.
From Verif Require Import Outcome.
Import ListNotations.
Open Scope Z_scope.

(** std::istream (external): the characters not yet extracted, eofbit, failbit. *)
Record istr := IS { irest : list Z; ieof : bool; ifail : bool }.
Definition igood (s : istr) : bool := negb (ieof s) && negb (ifail s).
Definition set_fail (s : istr) : istr := IS (irest s) (ieof s) true.

(** isspace and isdigit of the "C" locale. *)
Definition is_ws (c : Z) : bool := (c =? 32) || ((9 <=? c) && (c <=? 13)).
Definition is_dig (c : Z) : bool := (48 <=? c) && (c <=? 57).
(** The longest prefix whose characters satisfy f, and the rest. *)
Fixpoint span (f : Z -> bool) (l : list Z) : list Z * list Z :=
  match l with
  | [] => ([], [])
  | c :: l' => if f c then let (a, b) := span f l' in (c :: a, b) else ([], l)
  end.

(** basic_istream::sentry with skipws: false if the stream is not good or only
    white space is left; failbit is then set. *)
Definition sentry (s : istr) : bool * istr :=
  if igood s then
    match snd (span is_ws (irest s)) with
    | [] => (false, IS [] true true)
    | l => (true, IS l false false)
    end
  else (false, set_fail s).
(** operator>>(istream&, string&): characters up to the next white space; without
    a sentry the string keeps its value. *)
Definition read_string (s : istr) (old : list Z) : list Z * istr :=
  match sentry s with
  | (false, s') => (old, s')
  | (true, s') =>
      let (w, l) := span (fun c => negb (is_ws c)) (irest s') in
      (w, IS l (match l with [] => true | _ => false end) false)
  end.
(** istream::operator>>(size_t&), in base 10: an optional sign, digits.  Without
    a sentry the variable keeps its value ([None]: it has none); without digits it
    becomes 0, on overflow 2^64-1, and failbit is set. *)
Definition digits_val (l : list Z) : Z := fold_left (fun a c => 10 * a + (c - 48)) l 0.
Definition read_size (s : istr) (old : option Z) : option Z * istr :=
  match sentry s with
  | (false, s') => (old, s')
  | (true, s') =>
      let (neg, l) := match irest s' with
                      | 43 :: l => (false, l)
                      | 45 :: l => (true, l)
                      | l => (false, l)
                      end in
      let (ds, l) := span is_dig l in
      let eof := match l with [] => true | _ => false end in
      match ds with
      | [] => (Some 0, IS l eof true)
      | _ => let v := digits_val ds in
             if v <? 2 ^ 64 then (Some (if neg : bool then (- v) mod 2 ^ 64 else v), IS l eof false)
             else (Some (2 ^ 64 - 1), IS l eof true)
      end
  end.
(** istream::read(buf, 32), as in operator>> for Scalar and Point: at the end of
    the stream the bytes that are left are stored; if the stream is not good nothing is. *)
Definition read32 (s : istr) (old : list Z) : list Z * istr :=
  if igood s then
    let b := firstn 32 (irest s) in
    if (length b =? 32)%nat then (b, IS (skipn 32 (irest s)) false false)
    else (b ++ skipn (length b) old, IS [] true true)
  else (old, set_fail s).
(** for (auto& X: Ls) is >> X; *)
Fixpoint read_all (s : istr) (olds : list (list Z)) : list (list Z) * istr :=
  match olds with
  | [] => ([], s)
  | o :: os => let (b, s) := read32 s o in let (bs, s) := read_all s os in (b :: bs, s)
  end.
(** vector<Point>::resize: new elements are the identity; more than max_size() =
    (2^63-1)/32 elements throw.  Allocation of fewer is taken to succeed.  Using a
    variable that was never assigned is UB. *)
Definition p_identity : list Z := 1 :: repeat 0 31.
Definition resize (l : list (list Z)) (n : option Z) : outcome (list (list Z)) :=
  match n with
  | None => UB
  | Some n => if n <=? (2 ^ 63 - 1) / 32 then Ret (firstn (Z.to_nat n) l ++ repeat p_identity (Z.to_nat n - length l)) else Throw
  end.

(** LinPfTranscript and QuadPfTranscript, bulletproof.hpp 67-75, 149-157: tag, C,
    Ls, Rs and what follows (S, a, r; or S1, S2, a, b, r). *)
Record trans := Tr { tTag : list Z; tC : list Z; tLs : list (list Z); tRs : list (list Z); tEnd : list (list Z) }.

(** ostream << size_t: decimal, 20 digits suffice for 64 bits. *)
Fixpoint dec_loop (fuel : nat) (n : Z) (acc : list Z) : list Z :=
  match fuel with
  | O => acc
  | S f => if n <? 10 then (48 + n) :: acc else dec_loop f (n / 10) (48 + n mod 10 :: acc)
  end.
Definition dec (n : nat) : list Z := dec_loop 20 (Z.of_nat n) [].
(** operator<<, bulletproof.cpp 469-479 (three blocks at the end) and 495-508 (five). *)
Definition writeTr (t : trans) : list Z :=
  tTag t ++ tC t ++ dec (length (tLs t)) ++ concat (tLs t) ++ dec (length (tRs t)) ++ concat (tRs t) ++ concat (tEnd t).
(** operator>>, 480-493 and 509-526; [old] is the object that is read into.  n is
    not initialised. *)
Definition readTr (s : istr) (old : trans) : outcome (trans * istr) :=
  let (tag, s) := read_string s (tTag old) in
  let (C, s) := read32 s (tC old) in
  let (n, s) := read_size s None in
  let! Ls := resize (tLs old) n in
  let (Ls, s) := read_all s Ls in
  let (n, s) := read_size s n in
  let! Rs := resize (tRs old) n in
  let (Rs, s) := read_all s Rs in
  let (e, s) := read_all s (tEnd old) in
  Ret (Tr tag C Ls Rs e, s).
