(** Model of ZeroOneScalar and ZeroOneElement of /repo/include/regevEnc.hpp 152-183
    (no code of the repository uses them). *)
From Coq Require Import ZArith List Bool.
From Verif Require Import Fp Ring AlgebraModel.
Import ListNotations.
Open Scope Z_scope.

Section ZeroOne.
Context {p : Z} {ell : nat}.
(** NTL's conv(ZZ_p&, w) for a size_t w: with [signed] w is taken as a long, else as
    it is.  Which overload is chosen depends on the version of NTL. *)
Definition conv_word (signed : bool) (w : Z) : Fp p :=
  toF p (if signed && (2 ^ 63 <=? w) then w - 2 ^ 64 else w).
(** ZeroOneScalar::randomize, 155-159; [x] is randBitsize(2), algebra.hpp 70. *)
Definition zeroOneScalar (signed : bool) (x : Z) : Fp p :=
  conv_word signed ((Z.land x 1 - Z.shiftr x 1) mod 2 ^ 64).
(** The loop of ZeroOneElement::randomize, 173-176. *)
Fixpoint zeroOneLoop (signed : bool) (n : nat) (x : Z) : list (Fp p) :=
  match n with
  | O => []
  | S n' => conv_word signed ((Z.land x 1 - Z.land (Z.shiftr x 1) 1) mod 2 ^ 64) :: zeroOneLoop signed n' (Z.shiftr x 2)
  end.
(** ZeroOneElement::randomize, 169-179; [x] is randBitsize(2*ell) (NTL stops the
    program if that is not less than 64), [old] is the element before the call. *)
Definition zeroOneElement (signed : bool) (old : elt p ell) (x : Z) : elt p ell :=
  conv_elt old (zeroOneLoop signed ell x).
End ZeroOne.
