(** Model of /repo/include/ternaryMatrix.hpp, /repo/src/algebra/ternaryMatrix.cpp
    and of the challenge matrices of /repo/include/regevProofs.hpp 110-131. *)
From Coq Require Import ZArith List Bool.
From Verif Require Import Outcome Fp Ring.
Import ListNotations.
Open Scope Z_scope.

(** TrenaryRow, ternaryMatrix.hpp 42-66: length and packed bytes. *)
Record trow := TRow { tlen : nat; trep : list Z }.
Definition tmat := list trow.

(** operator[], 52-57: two bits of byte i/4. *)
Definition trow_get (r : trow) (i : nat) : outcome Z :=
  let j := Z.of_nat (i mod 4) in
  let! byte := oget (trep r) (i / 4) in
  let b := Z.shiftr byte (2 * j) in
  Ret (Z.land b 1 - Z.land (Z.shiftr b 1) 1).

(** NumRows / NumCols, 69-73. *)
Definition tNumRows (M : tmat) : nat := length M.
Definition tNumCols (M : tmat) : nat := match M with [] => 0%nat | r :: _ => tlen r end.

(** Bytes of one row, (m+3)/4. *)
Definition rowBytes (m : nat) : nat := ((m + 3) / 4)%nat.

(** One byte of setFromBytes, ternaryMatrix.cpp 51-56 (unsigned char arithmetic):
    a pair of ones is cleared. *)
Definition clear11 (b : Z) : Z :=
  let mask1 := Z.lxor b (Z.shiftr (Z.land b 170) 1) in
  let mask2 := Z.lor (Z.land (Z.shiftl mask1 1) 255) 85 in
  Z.land (Z.land b mask1) mask2.

(** setFromBytes(bytes,n,m), hpp 95-98 and cpp 45-60: resize, then row by row;
    reading outside the buffer is undefined.  (With n = 0 rows the number of
    columns is not stored.) *)
Fixpoint set_rows (buf : list Z) (n m : nat) : outcome tmat :=
  match n with
  | O => Ret []
  | S n' =>
      if (length buf <? rowBytes m)%nat then UB
      else
        let row := TRow m (map clear11 (firstn (rowBytes m) buf)) in
        let! rest := set_rows (skipn (rowBytes m) buf) n' m in
        Ret (row :: rest)
  end.
Definition setFromBytes (buf : list Z) (n m : nat) : outcome tmat := set_rows buf n m.

(** All entries mat[i][j] for j < NumCols(), as read by the products below. *)
Fixpoint omapM {A B} (f : A -> outcome B) (l : list A) : outcome (list B) :=
  match l with
  | [] => Ret []
  | a :: l' => let! b := f a in let! bs := omapM f l' in Ret (b :: bs)
  end.
Definition entries (M : tmat) : outcome (list (list Z)) :=
  omapM (fun r => omapM (trow_get r) (seq 0 (tNumCols M))) M.

(** NTL matrices carry their number of columns. *)
Record mat (A : Type) := Mat { mrows : list (list A); mcols : nat }.
Arguments Mat {A} _ _.
Arguments mrows {A} _.
Arguments mcols {A} _.

(** Products, generic in the entry type (SVector/EVector instances of the
    templates). *)
Section Products.
Context {A : Type}.
Variable zero : A.
Variable add : A -> A -> A.
Variable opp : A -> A.

(** vals[m+1] of { -v, 0, v }, cpp 74-78; only -1, 0, 1 are valid indexes. *)
Definition pick (v : A) (m : Z) : A := if m =? 1 then v else if m =? 0 then zero else opp v.
Fixpoint zipWith {B C D} (f : B -> C -> D) (l : list B) (l' : list C) : list D :=
  match l, l' with
  | b :: r, c :: r' => f b c :: zipWith f r r'
  | _, _ => []
  end.

(** leftVecMult, cpp 63-81. *)
Definition leftVecMult (v : list A) (M : tmat) : outcome (list A) :=
  if negb (length v =? tNumRows M)%nat then Throw
  else
    let! d := entries M in
    Ret (fold_left (fun res e => zipWith (fun r m => add r (pick (fst e) m)) res (snd e))
                   (combine v d) (repeat zero (tNumCols M))).
(** rightVecMult, cpp 90-108. *)
Definition rightVecMult (M : tmat) (v : list A) : outcome (list A) :=
  if negb (length v =? tNumCols M)%nat then Throw
  else
    let! d := entries M in
    Ret (fold_left (fun res e => zipWith (fun r row => add r (pick (snd e) (nth (fst e) row 0))) res d)
                   (combine (seq 0 (length v)) v) (repeat zero (tNumRows M))).
(** leftMatMult, cpp 117-125. *)
Definition leftMatMult (M1 : mat A) (M2 : tmat) : outcome (mat A) :=
  if negb (mcols M1 =? tNumRows M2)%nat then Throw
  else
    let! rs := omapM (fun r => leftVecMult r M2) (mrows M1) in
    Ret (Mat rs (tNumCols M2)).
(** rightMatMult, cpp 134-149: column by column. *)
Definition column (M : mat A) (j : nat) : list A := map (fun r => nth j r zero) (mrows M).
Definition rightMatMult (M1 : tmat) (M2 : mat A) : outcome (mat A) :=
  if negb (tNumCols M1 =? length (mrows M2))%nat then Throw
  else
    let! outs := omapM (fun j => rightVecMult M1 (column M2 j)) (seq 0 (mcols M2)) in
    Ret (Mat (map (fun i => map (fun o => nth i o zero) outs) (seq 0 (tNumRows M1))) (mcols M2)).
End Products.

(** Instances: Scalar and Element. *)
Section Inst.
Context {p : Z} {ell : nat}.
Notation F := (Fp p).
Notation E := (elt p ell).
Definition leftVecMultS := @leftVecMult F 0%F fadd fopp.
Definition rightVecMultS := @rightVecMult F 0%F fadd fopp.
Definition leftMatMultS := @leftMatMult F 0%F fadd fopp.
Definition rightMatMultS := @rightMatMult F 0%F fadd fopp.
Definition leftVecMultE := @leftVecMult E e0 eadd eopp.
Definition rightVecMultE := @rightVecMult E e0 eadd eopp.
Definition leftMatMultE := @leftMatMult E e0 eadd eopp.
Definition rightMatMultE := @rightMatMult E e0 eadd eopp.

(** TernaryEMatrix: Ms, hpp 158-179; TernaryEMatrix::degree = ell and
    TernaryEMatrix::X, cpp 158-165. *)
Definition tematrix := list tmat.
Definition TX : E := eX 1.
(** operator()(i,j), cpp 171-180. *)
Definition te_get (M : tematrix) (i j : nat) : outcome E :=
  let! cs := omapM (fun Mk => let! r := oget Mk i in trow_get r j) M in
  Ret (mkE ell (fun k => toF p (nth k cs 0))).
(** setFromBytes, cpp 192-197. *)
Definition setFromBytesE (buf : list Z) (n m : nat) : outcome tematrix :=
  omapM (fun k => setFromBytes (skipn (k * (n * rowBytes m)) buf) n m) (seq 0 ell).

(** The Horner loops, cpp 209-259: [prod] multiplies by one ternary matrix. *)
Definition horner {V} (scaleX : V -> V) (plus : V -> V -> V) (prod : tmat -> outcome V) (Ms : tematrix) : outcome V :=
  if negb (length Ms =? ell)%nat || (ell =? 0)%nat then Throw
  else
    match rev Ms with
    | [] => Throw
    | top :: rest =>
        let! r := prod top in
        fold_left (fun acc M => let! r := acc in let! tmp := prod M in Ret (plus (scaleX r) tmp)) rest (Ret r)
    end.
Definition vscaleX (v : list E) : list E := map (emul TX) v.
Definition vplus (u v : list E) : list E := zipWith eadd u v.
Definition mscaleX (m : mat E) : mat E := Mat (map vscaleX (mrows m)) (mcols m).
Definition mplus (m m' : mat E) : mat E := Mat (zipWith vplus (mrows m) (mrows m')) (mcols m).
Definition leftVecMultTE (v : list E) (M : tematrix) := horner vscaleX vplus (fun m => leftVecMultE v m) M.
Definition rightVecMultTE (M : tematrix) (v : list E) := horner vscaleX vplus (fun m => rightVecMultE m v) M.
Definition leftMatMultTE (A : mat E) (M : tematrix) := horner mscaleX mplus (fun m => leftMatMultE A m) M.
Definition rightMatMultTE (M : tematrix) (A : mat E) := horner mscaleX mplus (fun m => rightMatMultE m A) M.

(** newTernaryMatrix / newTernaryEMatrix, regevProofs.hpp 110-131, for n,m > 0;
    [challenge k] are the k bytes put into the buffer of size k. *)
Definition newTernaryMatrix (challenge : nat -> list Z) (n m : nat) : outcome tmat :=
  setFromBytes (challenge ((n * m + 3) / 4)%nat) n m.
Definition newTernaryEMatrix (challenge : nat -> list Z) (n m : nat) : outcome tematrix :=
  setFromBytesE (challenge (ell * ((n * m + 3) / 4))%nat) n m.
End Inst.
