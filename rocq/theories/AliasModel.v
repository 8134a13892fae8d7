(** The ternary products of /repo/src/algebra/ternaryMatrix.cpp 63-156 loop by loop on
    the memory of the result, which may be the memory of the argument: [shared] says
    that result and vector (or matrix) are the same object. *)
From Coq Require Import ZArith List Bool.
From Verif Require Import Outcome TernaryModel.
Import ListNotations.
Open Scope Z_scope.

(** l[i] = a *)
Definition put {A} (l : list A) (i : nat) (a : A) : outcome (list A) :=
  if (i <? length l)%nat then Ret (firstn i l ++ a :: skipn (S i) l) else UB.
(** A for loop over the indexes js. *)
Fixpoint each {B} (f : nat -> B -> outcome B) (js : list nat) (b : B) : outcome B :=
  match js with [] => Ret b | j :: js' => let! b := f j b in each f js' b end.

Section Products.
Context {A : Type}.
Variable zero : A.
Variable add : A -> A -> A.
Variable opp : A -> A.

(** 73-79 / 100-106: result[j] += *(vals[m+1]) with vals = { &minusV[i], &zero, &v[i] };
    v[i] is read from the result if they are the same. *)
Definition accumulate (shared : bool) (v minusV : list A) (i : nat) (m : Z) (j : nat) (res : list A) : outcome (list A) :=
  let! x := if m =? 1 then oget (if shared then res else v) i else if m =? 0 then Ret zero else oget minusV i in
  let! r := oget res j in
  put res j (add r x).
(** 68-80 / 95-107: resize and clear the result, then minusV = -v and the loops;
    [entry i j] is the matrix entry that takes v[i] to result[j]. *)
Definition vecMult (shared : bool) (entry : nat -> nat -> outcome Z) (out : nat) (v : list A) : outcome (list A) :=
  let res := repeat zero out in
  let v := if shared then res else v in
  let minusV := map opp v in
  each (fun i res => each (fun j res => let! m := entry i j in accumulate shared v minusV i m j res) (seq 0 (length res)) res) (seq 0 (length v)) res.
(** mat[i][j] *)
Definition tentry (M : tmat) (i j : nat) : outcome Z := let! r := oget M i in trow_get r j.
(** leftVecMult, 62-81 *)
Definition leftVecMultM (shared : bool) (v : list A) (M : tmat) : outcome (list A) :=
  if negb (length v =? tNumRows M)%nat then Throw else vecMult shared (tentry M) (tNumCols M) v.
(** rightVecMult, 89-108 *)
Definition rightVecMultM (shared : bool) (M : tmat) (v : list A) : outcome (list A) :=
  if negb (length v =? tNumCols M)%nat then Throw else vecMult shared (fun i j => tentry M j i) (tNumRows M) v.

(** NTL's SetDims: with another number of columns all is new and zero, otherwise
    rows are cut off or appended. *)
Definition setDims (M : mat A) (n m : nat) : mat A :=
  if (mcols M =? m)%nat then Mat (firstn n (mrows M) ++ repeat (repeat zero m) (n - length (mrows M))) m
  else Mat (repeat (repeat zero m) n) m.
(** leftMatMult, 116-125, in place: result[i] and mat1[i] are the same row. *)
Definition leftMatMultShared (M1 : mat A) (M2 : tmat) : outcome (mat A) :=
  if negb (mcols M1 =? tNumRows M2)%nat then Throw
  else
    let res := setDims M1 (length (mrows M1)) (tNumCols M2) in
    let! rs := omapM (fun r => leftVecMultM true r M2) (mrows res) in
    Ret (Mat rs (mcols res)).
(** rightMatMult, 133-149: the column is copied (141-142), multiplied, written back
    (144-145); [src] is mat2 or, in place, the result as it is now. *)
Definition storeColumn (j : nat) (o : list A) (rows : list (list A)) : outcome (list (list A)) :=
  each (fun i rows => let! x := oget o i in let! r := oget rows i in let! r := put r j x in put rows i r) (seq 0 (length o)) rows.
Definition readColumn (n : nat) (src : list (list A)) (j : nat) : outcome (list A) :=
  omapM (fun i => let! r := oget src i in oget r j) (seq 0 n).
Definition rightMatMultM (shared : bool) (M1 : tmat) (M2 res0 : mat A) : outcome (mat A) :=
  if negb (tNumCols M1 =? length (mrows M2))%nat then Throw
  else
    let res := setDims (if shared then M2 else res0) (tNumRows M1) (mcols M2) in
    let n := if shared then length (mrows res) else length (mrows M2) in
    let! rows := each (fun j rows =>
      let! inTmp := readColumn n (if shared then rows else mrows M2) j in
      let! outTmp := rightVecMultM false M1 inTmp in
      storeColumn j outTmp rows) (seq 0 (mcols res)) (mrows res) in
    Ret (Mat rows (mcols res)).
End Products.

(** The products by a TernaryEMatrix, 209-232, in place: the top matrix multiplies the
    argument in place, the others multiply what is in the result by then. *)
Section Horner.
Context {V : Type}.
Variable scaleX : V -> V.
Variable plus : V -> V -> V.
Variable prodShared prod : tmat -> V -> outcome V.
Definition hornerShared (ell : nat) (Ms : tematrix) (v : V) : outcome V :=
  if negb (length Ms =? ell)%nat || (ell =? 0)%nat then Throw
  else
    match rev Ms with
    | [] => Throw
    | top :: rest =>
        let! r := prodShared top v in
        fold_left (fun acc M => let! r := acc in let! tmp := prod M r in Ret (plus (scaleX r) tmp)) rest (Ret r)
    end.
End Horner.
