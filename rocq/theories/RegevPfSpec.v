(** Vocabulary for the properties of the Regev proof constraints: ring elements
    read out of a scalar witness, blocks of constraints as one ring equation,
    lengths of the proof variables. *)
From Coq Require Import ZArith List Bool.
From Verif Require Import Outcome Fp FSum GroupMod Ring ConstraintsModel ConstraintsSpec RegevModel RegevPfModel.
Import ListNotations.
Open Scope Z_scope.

Section S.
Context {p : Z} {ell : nat}.
Notation F := (Fp p).
Notation E := (elt p ell).

(** sum_{i<n} f i *)
Definition sumE (n : nat) (f : nat -> E) : E := esum (map f (seq 0 n)).
(** The ring element whose coefficients are the variables idx, idx+1, ... *)
Definition readE (w : Z -> F) (idx : Z) : E := mkE ell (fun j => w (idx + Z.of_nat j)).
(** The i-th element of the vector of ring elements stored from idx on. *)
Definition readV (w : Z -> F) (idx : Z) (i : nat) : E := readE w (idx + Z.of_nat i * Z.of_nat ell).

(** x^k *)
Fixpoint epow (x : E) (k : nat) : E := match k with O => e1 | S k' => emul x (epow x k') end.

(** The left-hand and right-hand sides of ell constraints, as ring elements. *)
Definition lhsE (cs : list (lincon p)) (w : Z -> F) : E :=
  mkE ell (fun i => lin_val (lterms (nth i cs (LinCon [] 0%F))) w).
Definition rhsE (cs : list (lincon p)) : E := mkE ell (fun i => leq (nth i cs (LinCon [] 0%F))).

(** The constraints off, ..., off+ell-1 hold. *)
Definition block_sat (cs : list (lincon p)) (off : nat) (w : Z -> F) : Prop :=
  forall i, (i < ell)%nat -> exists c, nth_error cs (off + i) = Some c /\ lin_sat c w.
End S.

(** Number of scalars in each variable. *)
Definition is_comp (x : var) : bool :=
  match x with
  | DCompHi | DCompLo | RComp | EComp1Hi | EComp1Lo | EComp2Hi | EComp2Lo | Sk2Comp | KCompHi | KCompLo => true
  | _ => false
  end.
Definition is_pad (x : var) : bool :=
  match x with
  | DPadHi | DPadLo | RPad | EPad1Hi | EPad1Lo | EPad2Hi | EPad2Lo | Sk2Pad | KPadHi | KPadLo => true
  | _ => false
  end.
(** The variables subject to norm constraints. *)
Definition is_norm (x : var) : bool := is_comp x || is_pad x.
Definition vlen (JL LINY ell kay enn tee : Z) (x : var) : Z :=
  if is_comp x then JL else if is_pad x then 4
  else match x with Sk1 | Sk2 | RR => kay * ell | Pt1 => tee | Pt2 => enn | YY => LINY | _ => 1 end.

(** The ranges of the variables are disjoint and cover exactly [0, idx WW]; those
    under norm constraints come first. *)
Definition is_layout (len : var -> Z) (idx : var -> Z) : Prop :=
  (forall x y k, idx x <= k < idx x + len x -> idx y <= k < idx y + len y -> x = y) /\
  (forall k, 0 <= k <= idx WW <-> exists x, idx x <= k < idx x + len x) /\
  (exists n, forall x, if is_norm x then idx x + len x <= n else n <= idx x).

Section C.
Context {p : Z} {ell : nat} {G : gmod p}.
(** The lengths of the variables for a configuration, the result of setIndexes,
    and what remains of it after any number of prepareForNextProof. *)
Definition clen (c : cfg ell G) : var -> Z :=
  vlen (Z.of_nat (JLDIM c)) (Z.of_nat (LINYDIM c)) (Z.of_nat ell) (kay (cgk c)) (enn (cgk c)) (tee (cgk c)).
Definition swap_sk (idx : var -> Z) (x : var) : Z :=
  match x with Sk1 => idx Sk2 | Sk2 => idx Sk1 | _ => idx x end.
Inductive layout_of (c : cfg ell G) : (var -> Z) -> Prop :=
| layout_set idx : setIndexes (Z.of_nat (JLDIM c)) (Z.of_nat (LINYDIM c)) (Z.of_nat ell)
                     (kay (cgk c)) (enn (cgk c)) (tee (cgk c)) = Ret idx -> layout_of c idx
| layout_swap idx idx' : layout_of c idx -> (forall x, idx' x = swap_sk idx x) -> layout_of c idx'.
End C.
