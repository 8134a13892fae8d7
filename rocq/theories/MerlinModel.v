(** Model of /repo/src/libmerlin/merlin.c 87-294 and of the wrapper
    /repo/include/merlin.hpp.

    Bytes are integers 0..255, C strings and std::string labels are lists of
    bytes.  uint8_t arithmetic is reduced modulo 256.  Reads and writes outside
    the arrays are UB, a failed assert is Abort.  The permutation is a
    parameter [f] (keccakf in the program); [log] is a ghost field with the
    states handed to it so far, oldest first.  Lengths are below 2^64; the
    "XXX hack" of the code takes the first 4 bytes of a little-endian uint64_t. *)
From Coq Require Import ZArith String Ascii List Bool.
From Verif Require Import Outcome Bytes KeccakModel.
Import ListNotations.
Open Scope Z_scope.

(** merlin_strobe128, merlin.h 9-18. *)
Record strobe := Strobe {
  st : list Z; pos : Z; pos_begin : Z; cur_flags : Z; log : list (list Z) }.

Definition STROBE_R : Z := 166.
Definition FLAG_I : Z := 1.
Definition FLAG_A : Z := 2.
Definition FLAG_C : Z := 4.
Definition FLAG_T : Z := 8.
Definition FLAG_M : Z := 16.
Definition FLAG_K : Z := 32.

Definition u8 (z : Z) : Z := z mod 256.

(** state_bytes[i] = g(state_bytes[i]) *)
Definition upd (l : list Z) (i : Z) (g : Z -> Z) : outcome (list Z) :=
  let! b := oget l (Z.to_nat i) in Ret (aset l (Z.to_nat i) (u8 (g b))).

Section Strobe.
Variable f : list Z -> list Z.

(** 98-105 *)
Definition run_f (c : strobe) : outcome strobe :=
  let! s := upd (st c) (pos c) (fun b => Z.lxor b (pos_begin c)) in
  let! s := upd s (pos c + 1) (fun b => Z.lxor b 4) in
  let! s := upd s (STROBE_R + 1) (fun b => Z.lxor b 128) in
  Ret (Strobe (f s) 0 0 (cur_flags c) (log c ++ [s])).
(** pos += 1; if (pos == STROBE_R) run_f *)
Definition advance (c : strobe) (s : list Z) : outcome strobe :=
  let c := Strobe s (u8 (pos c + 1)) (pos_begin c) (cur_flags c) (log c) in
  if pos c =? STROBE_R then run_f c else Ret c.
(** 107-118 *)
Fixpoint absorb (c : strobe) (data : list Z) : outcome strobe :=
  match data with
  | [] => Ret c
  | d :: data' =>
      let! s := upd (st c) (pos c) (fun b => Z.lxor b d) in
      let! c := advance c s in
      absorb c data'
  end.
(** 120-131 *)
Fixpoint overwrite (c : strobe) (data : list Z) : outcome strobe :=
  match data with
  | [] => Ret c
  | d :: data' =>
      let! s := upd (st c) (pos c) (fun _ => d) in
      let! c := advance c s in
      overwrite c data'
  end.
(** 133-143 *)
Fixpoint squeeze (c : strobe) (n : nat) : outcome (list Z * strobe) :=
  match n with
  | O => Ret ([], c)
  | S n' =>
      let! b := oget (st c) (Z.to_nat (pos c)) in
      let! s := upd (st c) (pos c) (fun _ => 0) in
      let! c := advance c s in
      let! r := squeeze c n' in
      Ret (b :: fst r, snd r)
  end.
(** 145-170 *)
Definition begin_op (c : strobe) (flags : Z) (more : bool) : outcome strobe :=
  if more then (if cur_flags c =? flags then Ret c else Abort)
  else if negb (Z.land flags FLAG_T =? 0) then Abort
  else
    let old_begin := pos_begin c in
    let c := Strobe (st c) (pos c) (u8 (pos c + 1)) flags (log c) in
    let! c := absorb c [old_begin; flags] in
    if negb (Z.land flags (Z.lor FLAG_C FLAG_K) =? 0) && negb (pos c =? 0) then run_f c else Ret c.
(** 174-204 *)
Definition meta_ad (c : strobe) (data : list Z) (more : bool) : outcome strobe :=
  let! c := begin_op c (Z.lor FLAG_C FLAG_A) more in absorb c data.
Definition ad (c : strobe) (data : list Z) (more : bool) : outcome strobe :=
  let! c := begin_op c FLAG_A more in absorb c data.
Definition prf (c : strobe) (n : nat) (more : bool) : outcome (list Z * strobe) :=
  let! c := begin_op c (Z.lor (Z.lor FLAG_I FLAG_A) FLAG_C) more in squeeze c n.
Definition key (c : strobe) (data : list Z) (more : bool) : outcome strobe :=
  let! c := begin_op c (Z.lor FLAG_C FLAG_A) more in overwrite c data.
(** 206-219 *)
Definition init_bytes : list Z := [1; 168; 1; 0; 1; 96; 83; 84; 82; 79; 66; 69; 118; 49; 46; 48; 46; 50].
Definition strobe_init (label : list Z) : outcome strobe :=
  let s := init_bytes ++ repeat 0 182 in
  meta_ad (Strobe (f s) 0 0 0 [s]) label false.

(** The first four bytes of a uint64_t. *)
Definition len4 (n : nat) : list Z := firstn 4 (le_bytes 8 (Z.of_nat n)).

Definition lit (s : string) : list Z := map (fun c => Z.of_nat (nat_of_ascii c)) (list_ascii_of_string s).

(** 234-244 *)
Definition commit_bytes (c : strobe) (label message : list Z) : outcome strobe :=
  let! c := meta_ad c label false in
  let! c := meta_ad c (len4 (List.length message)) true in
  ad c message false.
(** 225-232 *)
Definition transcript_init (label : list Z) : outcome strobe :=
  let! c := strobe_init (lit "Merlin v1.0") in
  commit_bytes c (lit "dom-sep") label.
(** 246-256 *)
Definition challenge_bytes (c : strobe) (label : list Z) (n : nat) : outcome (list Z * strobe) :=
  let! c := meta_ad c label false in
  let! c := meta_ad c (len4 n) true in
  prf c n false.

(** merlin_rng, 258-292. *)
Record rng := Rng { rctx : strobe; finalized : bool }.
Definition rng_init (c : strobe) : rng := Rng c false.
Definition rng_commit_witness (r : rng) (label witness : list Z) : outcome rng :=
  if finalized r then Abort
  else
    let! c := meta_ad (rctx r) label false in
    let! c := meta_ad c (len4 (List.length witness)) true in
    let! c := key c witness false in
    Ret (Rng c false).
Definition rng_finalize (r : rng) (entropy : list Z) : outcome rng :=
  if finalized r then Abort
  else
    let! c := meta_ad (rctx r) (lit "rng") false in
    let! c := key c (firstn 32 entropy) false in
    Ret (Rng c true).
Definition rng_random_bytes (r : rng) (n : nat) : outcome (list Z * rng) :=
  if negb (finalized r) then Abort
  else
    let! c := meta_ad (rctx r) (len4 n) true in
    let! o := prf c n false in
    Ret (fst o, Rng (snd o) true).

(** bytesFromInt / intFromBytes, merlin.hpp 48-60.  num is an int: every
    conversion to int keeps the low 32 bits, the result is converted to size_t. *)
Definition to_int (z : Z) : Z := (z + 2 ^ 31) mod 2 ^ 32 - 2 ^ 31.
Definition bytesFromInt (num : Z) : list Z :=
  fst (fold_left (fun s _ => let '(buf, num) := s in (buf ++ [Z.land (u8 num) 255], Z.shiftr num 8)) (seq 0 8) ([], num)).
Definition intFromBytes (buf : list Z) : outcome Z :=
  let! num := fold_left (fun o i =>
     let! num := o in
     let! b := oget buf i in
     Ret (to_int ((num mod 2 ^ 64 + Z.shiftl b (8 * Z.of_nat i)) mod 2 ^ 64))) (seq 0 8) (Ret 0) in
  Ret (num mod 2 ^ 64).

(** The wrapper, merlin.hpp 62-122.  A scalar or point is its 32 bytes. *)
Definition processScalar (c : strobe) (label : list Z) (s : list Z) : outcome strobe := commit_bytes c label s.
Definition processPoint (c : strobe) (label : list Z) (s : list Z) : outcome strobe := commit_bytes c label s.
Fixpoint commit_all (c : strobe) (ms : list (list Z * list Z)) : outcome strobe :=
  match ms with
  | [] => Ret c
  | (l, m) :: ms' => let! c := commit_bytes c l m in commit_all c ms'
  end.
(** 75-84 *)
Definition processScalarVector (c : strobe) (label : list Z) (v : list (list Z)) : outcome strobe :=
  match v with
  | [] => Ret c
  | s :: v' => let! c := commit_bytes c label s in commit_all c (map (fun s => ([], s)) v')
  end.
(** 94-106: terms (index, scalar bytes) in increasing order of the index, a
    size_t; `int idx` keeps 32 bits and bytesFromInt gets it back as a size_t. *)
Definition lin_messages (label : list Z) (terms : list (Z * list Z)) (equalsTo : list Z) : list (list Z * list Z) :=
  (label, []) ::
  map (fun x => (bytesFromInt (to_int (fst x) mod 2 ^ 64), snd x)) terms ++
  [(lit "b", equalsTo)].
Definition processLin (c : strobe) label terms equalsTo : outcome strobe := commit_all c (lin_messages label terms equalsTo).
(** 108-122 *)
Definition quad_messages (label : list Z) (indexes : list Z) (equalsTo : list Z) : list (list Z * list Z) :=
  [(label, []); (lit "indexes", flat_map bytesFromInt indexes); (lit "b", equalsTo)].
Definition processQuad (c : strobe) label indexes equalsTo : outcome strobe := commit_all c (quad_messages label indexes equalsTo).

(** newChallenge / newGenerator before the reduction to a scalar or a point, 125-142. *)
Definition newChallenge (c : strobe) (label : list Z) : outcome (list Z * strobe) := challenge_bytes c label 64.
Definition newGenerator (c : strobe) (label : list Z) : outcome (list Z * strobe) := challenge_bytes c label 32.

(** newBlindingFactors, 146-187: the new transcript and the 128 bytes; [ys] is
    None for a null pointer, the arrays have n entries, [entropy] are the bytes
    written by crypto_core_ed25519_scalar_random. *)
Fixpoint rng_commit_all (r : rng) (ms : list (list Z * list Z)) : outcome rng :=
  match ms with
  | [] => Ret r
  | (l, m) :: ms' => let! r := rng_commit_witness r l m in rng_commit_all r ms'
  end.
Definition witness_messages (label : list Z) (n : nat) (xes : list (list Z)) (ys : option (list (list Z))) : list (list Z * list Z) :=
  if (n =? 0)%nat then []
  else
    (label, nth 0 xes []) ::
    map (fun i => (bytesFromInt (Z.of_nat i), nth i xes [])) (seq 1 (n - 1)) ++
    match ys with
    | None => []
    | Some ys => map (fun i => (bytesFromInt (Z.of_nat (i + n)), nth i ys [])) (seq 0 n)
    end.
Definition newBlindingFactors (c : strobe) (label : list Z) (n : nat) (xes : list (list Z)) (ys : option (list (list Z)))
  (entropy : list Z) : outcome (strobe * (list Z * list Z)) :=
  let! r := rng_commit_all (rng_init c) (witness_messages label n xes ys) in
  let! r := rng_finalize r entropy in
  let! o := rng_random_bytes r 128 in
  Ret (c, (firstn 64 (fst o), skipn 64 (fst o))).
End Strobe.
