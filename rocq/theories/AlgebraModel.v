(** Model of the helper functions of /repo/include/algebra.hpp,
    /repo/include/utils.hpp and of the first part of
    /repo/src/regev/regevProofs-utils.cpp (norms, digits, padding).

    NTL::ZZ is Z; NTL's / and % on ZZ round towards minus infinity and take the
    sign of the divisor, as Z.div and Z.modulo do; a zero divisor is an NTL
    error (Abort).  NTL::ZZ_p is [Fp p], NTL::ZZ_pE is [elt p ell]. *)
From Coq Require Import ZArith List Bool.
From Verif Require Import Outcome Bytes Fp Ring ConstraintsModel FourSquaresModel.
Import ListNotations.
Open Scope Z_scope.

(** NTL::NumBits *)
Definition numBits (z : Z) : Z := if z =? 0 then 0 else Z.log2 (Z.abs z) + 1.

(** divCeil, algebra.hpp 57-62. *)
Definition divCeil (x y : Z) : outcome Z := if y =? 0 then Abort else Ret ((x + y - 1) / y).
(** ceilDiv(int,int), utils.hpp 42: C++ division truncates towards zero;
    overflow of a+b-1 and division by zero are undefined. *)
Definition ceilDiv (a b : Z) : outcome Z :=
  if (b =? 0) || (2 ^ 31 <=? a + b - 1) || (a + b - 1 <? - 2 ^ 31) || (2 ^ 31 <=? a + b) || (a + b <? - 2 ^ 31)
  then UB else Ret (Z.quot (a + b - 1) b).
(** log2roundUp(BigInt), algebra.hpp 91-94. *)
Definition log2roundUpBI (n : Z) : Z := if n =? 0 then 0 else numBits (n - 1).

Section Algebra.
Context {p : Z} {ell : nat}.
Notation F := (Fp p).
Notation E := (elt p ell).

(** bytesPerScalar, algebra.hpp 64. *)
Definition bytesPerScalar : nat := Z.to_nat ((numBits p + 7) / 8).

(** bigIntBytes, scalarBytes, algebra.hpp 107-112: BytesFromZZ writes the
    low-order bytes of the absolute value, zero padded. *)
Definition bigIntBytes (n : Z) (bufSize : nat) : list Z := le_bytes bufSize (Z.abs n).
Definition scalarBytes (s : F) (bufSize : nat) : list Z := bigIntBytes (fval s) bufSize.

(** rep(e).rep, the normalised coefficient vector: no leading zero. *)
Fixpoint strip (l : list F) : list F :=
  match l with
  | [] => []
  | x :: l' => match strip l' with
               | [] => if feqb x 0%F then [] else [x]
               | r => x :: r
               end
  end.
(** elementBytes, algebra.hpp 113-125. *)
Fixpoint elementBytes_loop (v : list F) (len bufSize : nat) : list Z :=
  match v with
  | [] => repeat 0 bufSize
  | c :: v' =>
      if (0 <? bufSize)%nat then
        let len := if (bufSize <? len)%nat then bufSize else len in
        bigIntBytes (fval c) len ++ elementBytes_loop v' len (bufSize - len)
      else []
  end.
Definition elementBytes (e : E) (bufSize : nat) : list Z :=
  elementBytes_loop (strip (ec e)) bytesPerScalar bufSize.

(** scalarFromBytes, algebra.hpp 127-131: reads bufSize bytes of the buffer. *)
Definition scalarFromBytes (buf : list Z) (bufSize : nat) : outcome F :=
  if (length buf <? bufSize)%nat then UB else Ret (toF p (le_val (firstn bufSize buf))).
(** elementFromBytes, algebra.hpp 132-145; [k] is the number of coefficients
    still to be set.  conv(e,px) reduces modulo X^ell+1, which does nothing as
    the degree is below ell. *)
Fixpoint elementFromBytes_loop (k : nat) (buf : list Z) (len bufSize : nat) : outcome (list F) :=
  match k with
  | O => Ret []
  | S k' =>
      if (0 <? bufSize)%nat then
        let len := if (bufSize <? len)%nat then bufSize else len in
        let! c := scalarFromBytes buf len in
        let! cs := elementFromBytes_loop k' (skipn len buf) len (bufSize - len) in
        Ret (c :: cs)
      else Ret []
  end.
Definition elementFromBytes (buf : list Z) (bufSize : nat) : outcome E :=
  let! cs := elementFromBytes_loop ell buf bytesPerScalar bufSize in
  Ret (mkE ell (fun i => nth i cs 0%F)).

(** innerProduct, algebra.hpp 148-167; NTL::InnerProduct also stops at the
    shorter vector. *)
Definition innerProductSS (u v : list F) : F :=
  fold_left (fun s e => (s + fst e * snd e)%F) (combine u v) 0%F.
Definition innerProductES (u : list E) (v : list F) : E :=
  fold_left (fun s e => eadd s (escale (snd e) (fst e))) (combine u v) e0.
Definition innerProductSE (u : list F) (v : list E) : E := innerProductES v u.
Definition innerProductEE (u v : list E) : E :=
  fold_left (fun s e => eadd s (emul (fst e) (snd e))) (combine u v) e0.

(** conv(Element&, SVector), algebra.hpp 176-182: sets the first min(ell,len)
    coefficients and leaves the other ones as they were. *)
Definition conv_elt (old : E) (v : list F) : E :=
  mkE ell (fun i => if (i <? Nat.min ell (length v))%nat then nth i v 0%F else coeff old i).
(** conv(SVector&, Element), algebra.hpp 183-188. *)
Definition conv_svec (e : E) : list F := map (coeff e) (seq 0 ell).
(** conv(BIVector&, EVector), algebra.hpp 189-195: representatives in [0,P). *)
Definition conv_bivec (v : list E) : list Z := map fval (flat_map conv_svec v).

(** balanced(Scalar), algebra.hpp 220-226, with the function-static variable
    Pover2 as a state component: it is initialised at the first call of the
    process and never changed. *)
Definition balanced_rep (half modulus rep : Z) : Z := if half <? rep then rep - modulus else rep.
End Algebra.
Arguments bytesPerScalar p : clear implicits.

Definition balanced_call (cache : option Z) (modulus rep : Z) : Z * option Z :=
  let half := match cache with Some h => h | None => modulus / 2 end in
  (balanced_rep half modulus rep, Some half).
(** A sequence of calls during one process, with the modulus in force at each. *)
Fixpoint balanced_calls (cache : option Z) (calls : list (Z * Z)) : list Z :=
  match calls with
  | [] => []
  | (m, rep) :: calls' =>
      let (z, cache') := balanced_call cache m rep in z :: balanced_calls cache' calls'
  end.

Section Norms.
Context {p : Z} {ell : nat}.
Notation F := (Fp p).
Notation E := (elt p ell).

(** The value for a process with one modulus only. *)
Definition balanced (s : F) : Z := balanced_rep (p / 2) p (fval s).
(** balanced(SVector), balanced(Element), algebra.hpp 227-240. *)
Definition balanced_vec (v : list F) : list Z := map balanced v.
Definition balanced_elt (e : E) : list Z := balanced_vec (conv_svec e).

(** normSquaredBI, regevProofs-utils.cpp 32-42; [P] is GlobalKey::P(). *)
Definition normSquaredBI (P : Z) (vv : list Z) : Z :=
  let vv := map (fun x => if P / 2 <? x then x - P else x) vv in
  fold_left (fun s x => s + x * x) vv 0.
(** normSquaredBigInt, 43-60: SVector; Element array / EVector. *)
Definition normSquared_s (P : Z) (v : list F) : Z := normSquaredBI P (map fval v).
Definition normSquared_e (P : Z) (v : list E) : Z := normSquaredBI P (conv_bivec v).
(** lInftyNorm, 61-71. *)
Definition lInftyNorm (v : list E) : Z :=
  fold_left (fun ret c => let x := Z.abs (balanced c) in if ret <? x then x else ret)
            (flat_map conv_svec v) 0.

(** breakTwoDigits, 75-101: one coefficient. *)
Definition break_digit (radix : Z) (x : Z) : outcome (Z * Z) :=
  if radix =? 0 then Abort
  else
    let half := radix / 2 in
    let lo := x mod radix in
    let hi := (x - lo) / radix in
    if half <? lo then Ret (hi + 1, lo - radix)
    else if lo <? - half then Ret (hi - 1, lo + radix)
    else Ret (hi, lo).
Fixpoint break_digits (radix : Z) (xs : list Z) : outcome (list F * list F) :=
  match xs with
  | [] => Ret ([], [])
  | x :: xs' =>
      let! hl := break_digit radix x in
      let! r := break_digits radix xs' in
      Ret (toF p (fst hl) :: fst r, toF p (snd hl) :: snd r)
  end.
(** resize: keeps old entries, new ones are zero. *)
Definition resizeE (v : list E) (n : nat) : list E := firstn n (v ++ repeat e0 (n - length v)).
Fixpoint break_loop (hi lo v : list E) (radix : Z) : outcome (list E * list E) :=
  match v, hi, lo with
  | e :: v', h :: hi', l :: lo' =>
      let! hl := break_digits radix (balanced_elt e) in
      let! r := break_loop hi' lo' v' radix in
      Ret (conv_elt h (fst hl) :: fst r, conv_elt l (snd hl) :: snd r)
  | [], _, _ => Ret (hi, lo)
  | _, _, _ => UB
  end.
(** [hi], [lo]: previous contents of the output arguments. *)
Definition breakTwoDigits (hi lo v : list E) (radix : Z) : outcome (list E * list E) :=
  break_loop (resizeE hi (length v)) (resizeE lo (length v)) v radix.

(** pad2exactNorm(SVector), 319-327 (PAD_SIZE = 4, regevProofs.hpp 50): [pad]
    must have room for four scalars. *)
Definition PAD_SIZE : nat := 4.
Section Pad.
Variable jacobi : Z -> Z -> Z.
Variable probPrime : Z -> bool.
Variable singlePrec : Z -> bool.
Variable P : Z.   (* GlobalKey::P() *)
Definition pad2exactNorm_s (v pad : list F) (bound : Z) : outcome (list F) :=
  let delta := bound * bound - normSquared_s P v in
  let! four := decompose4 jacobi probPrime singlePrec delta in
  if (length pad <? PAD_SIZE)%nat then UB
  else Ret (map (toF p) (firstn PAD_SIZE four) ++ skipn PAD_SIZE pad).

(** pad2exactNorm(Element* v, len, Element* padSpace), 328-347: [padSpace] is
    the memory at the pointer; idx runs through the four roots, further
    coefficients are zero. *)
Definition pad_tmp (four : list Z) (i : nat) : list F :=
  map (fun j => let idx := (i * ell + j)%nat in
                if (idx <? PAD_SIZE)%nat then toF p (nth idx four 0) else 0%F) (seq 0 ell).
Definition pad_extra : nat := Z.to_nat ((Z.of_nat PAD_SIZE + Z.of_nat ell - 1) / Z.of_nat ell).
Definition pad2exactNorm_e (v padSpace : list E) (bound : Z) : outcome (list E) :=
  let delta := bound * bound - normSquared_e P v in
  let! four := decompose4 jacobi probPrime singlePrec delta in
  if (length padSpace <? pad_extra)%nat then UB
  else Ret (map (fun i => conv_elt (nth i padSpace e0) (pad_tmp four i)) (seq 0 pad_extra)
            ++ skipn pad_extra padSpace).
(** pad2exactNorm(EVector, EVector), 348-353: resizes pad first. *)
Definition pad2exactNorm_ev (v pad : list E) (bound : Z) : outcome (list E) :=
  pad2exactNorm_e v (resizeE pad pad_extra) bound.
End Pad.

(** interval, utils.hpp 51-55; the loop variable is an int. *)
Definition interval (from to : Z) : list Z := map (fun i => from + Z.of_nat i) (seq 0 (Z.to_nat (to - from))).
(** addEVec2Map / addSVec2Map, utils.hpp 91-111: from the last index down; the
    insertion keeps an existing entry, whose value is then overwritten.  The
    index is a size_t. *)
Fixpoint add_down (m : pvec p) (cs : list F) (idx : Z) : pvec p :=
  match cs with
  | [] => m
  | c :: cs' => add_down (kset m idx c) cs' ((idx - 1) mod 2 ^ 64)
  end.
Definition addSVec2Map (m : pvec p) (v : list F) (offset : Z) : pvec p :=
  add_down m (rev v) ((offset + Z.of_nat (length v) - 1) mod 2 ^ 64).
Definition addEVec2Map (m : pvec p) (v : list E) (offset : Z) : pvec p :=
  add_down m (rev (flat_map conv_svec v)) ((offset + Z.of_nat (length v) * Z.of_nat ell - 1) mod 2 ^ 64).
(** addRange2Set, utils.hpp 113-116: the bounds are narrowed to int, the
    elements widened back to size_t. *)
Definition addRange2Set (s : list Z) (from len : Z) : list Z :=
  zinsert_all s (map (fun i => i mod 2 ^ 64)
    (interval (int_of_size from) (int_of_size ((from + len) mod 2 ^ 64)))).
End Norms.

(** conv between ALGEBRA and CRV25519 scalars, utils.hpp 57-65 (32 bytes). *)
Definition crv_of_bigint (n : Z) : list Z := bigIntBytes n 32.
Definition crv_of_scalar {p} (s : Fp p) : list Z := scalarBytes s 32.
Definition scalar_of_crv {p} (b : list Z) : outcome (Fp p) := scalarFromBytes b 32.
