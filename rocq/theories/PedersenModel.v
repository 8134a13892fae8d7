(** Model of /repo/include/pedersen.hpp and /repo/src/dlproofs/naive.cpp. *)
From Coq Require Import String Ascii DecimalString.
From Coq Require Import ZArith List Bool.
From Verif Require Import Outcome Fp GroupMod ConstraintsModel.
Import ListNotations.
Open Scope Z_scope.

(** next2power, pedersen.hpp 75-80, on 64-bit size_t (wrap-around explicit);
    the loop runs for i = 1,2,4,8,16,32. *)
Definition next2power (v : Z) : Z :=
  let v := (v - 1) mod 2 ^ 64 in
  let v := fold_left (fun v i => Z.lor v (Z.shiftr v i)) [1; 2; 4; 8; 16; 32] v in
  (v + 1) mod 2 ^ 64.

(** log2roundUp, pedersen.hpp 83-89: first ell < 64 with 1UL<<ell >= n. *)
Fixpoint log2_search (k : nat) (ell : Z) (n : Z) : Z :=
  match k with
  | O => 64
  | S k' => if n <=? 2 ^ ell then ell else log2_search k' (ell + 1) n
  end.
Definition log2roundUp (n : Z) : Z := log2_search 64 0 n.

(** The same for array lengths (nat). *)
Definition next2powerN (n : nat) : nat := Z.to_nat (next2power (Z.of_nat n)).
Definition log2roundUpN (n : nat) : nat := Z.to_nat (log2roundUp (Z.of_nat n)).

(** Reading the sub-array l[off .. off+n): undefined outside the array. *)
Definition sub {A} (l : list A) (off n : nat) : outcome (list A) :=
  if (off + n <=? length l)%nat then Ret (firstn n (skipn off l)) else UB.

Section Ped.
Context {p : Z} {G : gmod p}.
Notation F := (Fp p).
Variable base : G.   (* Point::base(), point25519.hpp 113-118 *)

(** multiExp, naive.cpp 32-37 (loop with accumulator). *)
Definition multiExp (gs : list G) (n : nat) (xs : list F) : outcome G :=
  let! gs' := sub gs 0 n in
  let! xs' := sub xs 0 n in
  Ret (fold_left (fun c e => gadd c (gmul (fst e) (snd e))) (combine gs' xs') gzero).

(** foldGenerators, naive.cpp 46-54 (with multiBaseOneExp 40-43): the second
    part Gs[nOver2..n) is multiplied by x and added to the first.  The result
    lists the first nOver2 entries; the entries from nOver2 on keep the
    multiplied values in the code and are never read again. *)
Fixpoint zip_add (lo hi : list G) : list G :=
  match lo, hi with
  | g :: lo', h :: hi' => gadd g h :: zip_add lo' hi'
  | lo, [] => lo
  | [], _ => []
  end.
Definition foldGenerators (gs : list G) (n : nat) (x : F) (nOver2 : nat) : outcome (list G) :=
  let! lo := sub gs 0 nOver2 in
  let! hi := sub gs nOver2 (n - nOver2) in
  Ret (zip_add lo (map (fun g => gmul g x) hi)).

(** subsetProdRecurse, naive.cpp 68-77.  [fuel] bounds the recursion depth (at
    most 64 levels, as n halves); basis[basisLen-logn] with basisLen < logn
    would be an index wrapped around 2^64: undefined. *)
Fixpoint subsetProdRecurse (fuel : nat) (vec : list F) (basis : list F) (basisLen : nat)
  : outcome (list F) :=
  match fuel with
  | O => UB
  | S fuel' =>
      let n := length vec in
      if (n <=? 1)%nat then Ret vec
      else
        let logn := log2roundUpN n in
        let nOver2 := (2 ^ (logn - 1))%nat in
        if (basisLen <? logn)%nat then UB else
        let! c := oget basis (basisLen - logn) in
        let! hi := sub vec nOver2 (n - nOver2) in
        let! lo := sub vec 0 nOver2 in
        let! hi' := subsetProdRecurse fuel' (map (fun v => (v * c)%F) hi) basis basisLen in
        let! lo' := subsetProdRecurse fuel' lo basis basisLen in
        Ret (lo' ++ hi')
  end.

(** subsetProduct, naive.cpp 80-85. *)
Definition subsetProduct (n : nat) (basis : list F) (basisLen : nat) (a : F) : outcome (list F) :=
  subsetProdRecurse (S n) (repeat a n) basis basisLen.

(** expSubsetProduct, naive.cpp 89-98; [offsets] = None models nullptr. *)
Fixpoint add_offsets (v o : list F) : list F :=
  match v, o with
  | x :: v', y :: o' => (x + y)%F :: add_offsets v' o'
  | v, [] => v
  | [], _ => []
  end.
Definition expSubsetProduct (gs : list G) (n : nat) (xes : list F) (a : F)
    (offsets : option (list F)) : outcome G :=
  let logn := log2roundUpN n in
  let! prods := subsetProduct n xes logn a in
  let! prods' := match offsets with
                 | None => Ret prods
                 | Some o => let! o' := sub o 0 n in Ret (add_offsets prods o')
                 end in
  multiExp gs n prods'.

(** expSubsetProduct2 ("old version"), naive.cpp 58-66: for n=1 (logn=0) the
    shift 1UL << (logn-1) is undefined. *)
Fixpoint exp2_loop (xes : list F) (gs : list G) (n nOver2 : nat) : outcome (list G) :=
  match xes with
  | [] => Ret gs
  | x :: xes' =>
      let! gs' := foldGenerators gs n x nOver2 in
      exp2_loop xes' gs' nOver2 (nOver2 / 2)
  end.
Definition expSubsetProduct2 (gs : list G) (n : nat) (xes : list F) : outcome G :=
  let logn := log2roundUpN n in
  if (logn =? 0)%nat then UB else
  let! xs := sub xes 0 logn in
  let! gs' := exp2_loop xs gs n (2 ^ (logn - 1)) in
  oget gs' 0.

(** commit / verifyCom / commit2 / verifyCom2, pedersen.hpp 114-132. *)
Definition commit (gs : list G) (xes : list F) (n : nat) (r : F) (f : G) (alpha : F) : outcome G :=
  let! m := multiExp gs n xes in
  Ret (gadd (gadd (gmul base r) (gmul f alpha)) m).
Definition verifyCom (c : G) (gs : list G) (xes : list F) (n : nat) (r : F) (f : G) (alpha : F)
  : outcome bool :=
  let! c' := commit gs xes n r f alpha in Ret (geqb c' c).
Definition commit2 (gs : list G) (xes : list F) (hs : list G) (ys : list F) (n : nat) (r : F)
    (f : G) (alpha : F) : outcome G :=
  let! m := multiExp gs n xes in
  let! m2 := multiExp hs n ys in
  Ret (gadd (gadd (gadd (gmul base r) (gmul f alpha)) m) m2).
Definition verifyCom2 (c : G) (gs : list G) (xes : list F) (hs : list G) (ys : list F) (n : nat)
    (r : F) (f : G) (alpha : F) : outcome bool :=
  let! c' := commit2 gs xes hs ys n r f alpha in Ret (geqb c' c).
End Ped.

(** std::to_string(int) and the labels of PedersenContext::getG/getH,
    pedersen.hpp 139-148; an index of type size_t is narrowed to int when
    passed (bulletproof.cpp lines 72, 100, 101). *)
Inductive gkind := KG | KH.
Definition kind_str (k : gkind) : string :=
  match k with KG => "G"%string | KH => "H"%string end.
Definition to_string (i : Z) : string := NilZero.string_of_int (Z.to_int i).
Definition gen_label (tag : string) (k : gkind) (i : Z) : string :=
  (tag ++ kind_str k ++ to_string i)%string.
Definition gen_label_size (tag : string) (k : gkind) (idx : Z) : string :=
  gen_label tag k (int_of_size idx).
