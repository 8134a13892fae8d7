(** Model of the command line of /repo/src/main.cpp, lines 43-53. *)
From Coq Require Import ZArith List Bool.
From Verif Require Import Outcome StreamModel MainModel.
Import ListNotations.
Open Scope Z_scope.

(** std::stoi (external), base 10: strtol skips white space, reads an optional sign
    and digits; what follows is ignored.  No digits: invalid_argument.  A value
    that is not a long (strtol sets ERANGE) or not an int: out_of_range. *)
Definition stoi (s : list Z) : outcome Z :=
  let l := snd (span is_ws s) in
  let (neg, l) := match l with
                  | 43 :: l' => (false, l')
                  | 45 :: l' => (true, l')
                  | _ => (false, l)
                  end in
  match fst (span is_dig l) with
  | [] => Throw
  | ds =>
      let v := if neg : bool then - digits_val ds else digits_val ds in
      if (- 2 ^ 31 <=? v) && (v <? 2 ^ 31) then Ret v else Throw
  end.
(** Lines 48-53; [args] are argv[1], argv[2], ... *)
Definition mainParties (args : list (list Z)) : outcome Z :=
  match args with
  | [] => Ret (parties None)
  | a :: _ => let! z := stoi a in Ret (parties (Some z))
  end.
