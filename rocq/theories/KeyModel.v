(** Model of the tag, the pseudorandom CRS and the fingerprints of a GlobalKey:
    /repo/src/regev/regevEnc.cpp 95-157, /repo/include/regevEnc.hpp 57-84,
    /repo/include/algebra.hpp 69, 113-125, 210-213.

    A string is the list of its bytes.  NTL's generator is any state with a
    function that seeds it and one that draws an element; libsodium's keyed hash is
    any function of the key and the input. *)
From Coq Require Import ZArith List Bool.
From Verif Require Import Outcome Fp Ring AlgebraModel TernaryModel RegevModel.
Import ListNotations.
Open Scope Z_scope.

(** The external calls. *)
Record keylibs p ell := KL {
  rng : Type; (* NTL's RandomStream *)
  rng_seed : list Z -> rng; (* SetSeed *)
  rng_elt : rng -> elt p ell * rng; (* random(ZZ_pE) *)
  digest : Type;
  blake : list Z -> list Z -> digest (* crypto_generichash: key, input *) }.
Arguments rng {p ell}. Arguments rng_seed {p ell}. Arguments rng_elt {p ell}. Arguments digest {p ell}. Arguments blake {p ell}.

Section K.
Context {p : Z} {ell : nat}.
Variable L : keylibs p ell.
Notation E := (elt p ell).

(** The members of GlobalKey, regevEnc.hpp 57-73: those of [globalKey], the tag, Ahash
    and Bhash (None: not yet written). *)
Record fkey := FK { fk : globalKey p ell; ftag : list Z; fAhash : digest L; fBhash : option (digest L) }.

(** "CRS" and "RegevKey", regevEnc.cpp 109, 133. *)
Definition str_CRS : list Z := [67; 82; 83].
Definition str_RegevKey : list Z := [82; 101; 103; 101; 118; 75; 101; 121].

(** The loops in 112-117 with crs = nullptr. *)
Fixpoint fill_row (n : nat) (r : rng L) : list E * rng L :=
  match n with
  | O => ([], r)
  | S n' => let (e, r) := rng_elt L r in let (es, r) := fill_row n' r in (e :: es, r)
  end.
Fixpoint fill (m n : nat) (r : rng L) : list (list E) * rng L :=
  match m with
  | O => ([], r)
  | S m' => let (row, r) := fill_row n r in let (rows, r) := fill m' n r in (row :: rows, r)
  end.

(** 120-127 and 132-139: init, updates with 32*ell bytes for each entry, final.
    crypto_generichash_init returns -1 and leaves the state as it is if the key is
    longer than 64 bytes; the code ignores this, and goes on with a state that was
    never written. *)
Definition entry_bytes (e : E) : list Z := elementBytes e (32 * ell).
Definition matHash (key : list Z) (M : mat E) : outcome (digest L) :=
  if (64 <? length key)%nat then UB
  else Ret (blake L key (concat (map (fun row => concat (map entry_bytes row)) (mrows M)))).

(** Constructor, 95-128, with the state of the generator before and after: prgBak
    saves it (110) and restores it on exit, also when an exception is thrown.  (The
    throw in 100 comes before anything is drawn.) *)
Definition newKey (tg : list Z) (k n s1 s2 : Z) (crs : option (mat E)) (r : rng L) : outcome fkey * rng L :=
  let prgBak := r in
  let t2 := (tg ++ str_CRS)%list in
  let r := rng_seed L t2 in
  let (rows, r) := fill (Z.to_nat k) (Z.to_nat k) r in
  (let! gk := newGlobalKey k n s1 s2 crs (fun i j => nth j (nth i rows []) e0) in
   let! h := matHash t2 (gkA gk) in
   Ret (FK gk tg h None), prgBak).
(** setKeyHash, 131-140. *)
Definition setKeyHash (g : fkey) : outcome fkey :=
  let! h := matHash str_RegevKey (gkB (fk g)) in Ret (FK (fk g) (ftag g) (fAhash g) (Some h)).
(** addPK, 143-157. *)
Definition addKey (g : fkey) (pk : list E) : fkey * outcome Z :=
  let (gk, r) := addPK (fk g) pk in (FK gk (ftag g) (fAhash g) (fBhash g), r).
Fixpoint addKeys (g : fkey) (pks : list (list E)) : outcome fkey :=
  match pks with
  | [] => Ret g
  | pk :: pks' => match addKey g pk with (g', Ret _) => addKeys g' pks' | (_, Throw) => Throw | (_, UB) => UB | (_, Abort) => Abort end
  end.
(** crsHash, keyHash, operator==, regevEnc.hpp 79-84. *)
Definition crsHash (g : fkey) : digest L := fAhash g.
Definition keyHash (g : fkey) : outcome (digest L) := match fBhash g with Some h => Ret h | None => UB end.
Definition key_eqb (g h : fkey) : bool := if list_eq_dec Z.eq_dec (ftag g) (ftag h) then true else false.
End K.
Arguments FK {p ell L}. Arguments fk {p ell L}. Arguments ftag {p ell L}. Arguments fAhash {p ell L}. Arguments fBhash {p ell L}.
