(** Model of /repo/include/constraints.hpp and
    /repo/src/dlproofs/constraints.cpp.

    std::map<size_t,Scalar> (PtxtVec, constraints.hpp line 104) is a list of
    (key,value) pairs with strictly increasing keys ([ksorted]);
    std::set<size_t> a strictly increasing list ([zsorted]).  Iterators are
    list suffixes, so "it != end()" is "the suffix is not empty".  Keys are
    mathematical integers; the one place where the code narrows them
    ([largestKey], int) is modelled with explicit wrap-around. *)
From Coq Require Import ZArith List Bool.
From Verif Require Import Outcome Fp.
Import ListNotations.
Open Scope Z_scope.

Section Model.
Context {p : Z}.
Notation F := (Fp p).

Definition pvec := list (Z * F).

(** std::map::find *)
Fixpoint kfind (l : pvec) (k : Z) : option F :=
  match l with
  | [] => None
  | (k', v) :: l' => if k' =? k then Some v else kfind l' k
  end.

(** m[k] = v : insert at the sorted position, or overwrite. *)
Fixpoint kset (l : pvec) (k : Z) (v : F) : pvec :=
  match l with
  | [] => [(k, v)]
  | (k', v') :: l' =>
      if k <? k' then (k, v) :: l
      else if k =? k' then (k, v) :: l'
      else (k', v') :: kset l' k v
  end.

(** std::map::erase(key) *)
Fixpoint kerase (l : pvec) (k : Z) : pvec :=
  match l with
  | [] => []
  | (k', v') :: l' => if k' =? k then l' else (k', v') :: kerase l' k
  end.

(** std::set::insert *)
Fixpoint zinsert (l : list Z) (k : Z) : list Z :=
  match l with
  | [] => [k]
  | k' :: l' => if k <? k' then k :: l else if k =? k' then l else k' :: zinsert l' k
  end.

Definition zmem (l : list Z) (k : Z) : bool := existsb (Z.eqb k) l.

(** std::set::insert(first,last) *)
Definition zinsert_all (l src : list Z) : list Z := fold_left zinsert src l.

Fixpoint ksorted (l : pvec) : Prop :=
  match l with
  | [] => True
  | (k, _) :: l' => (forall e, In e l' -> k < fst e) /\ ksorted l'
  end.
Fixpoint zsorted (l : list Z) : Prop :=
  match l with
  | [] => True
  | k :: l' => (forall e, In e l' -> k < e) /\ zsorted l'
  end.

(** LinConstraint, constraints.hpp 106-110; QuadConstraint 137-140. *)
Record lincon := LinCon { lterms : pvec; leq : F }.
Record quadcon := QuadCon { qidx : list Z; qeq : F }.

(** innerProduct(PtxtVec,PtxtVec), constraints.cpp 54-67.  The while loop with
    two iterators is the nested recursion on the two suffixes. *)
Fixpoint innerProduct (v1 : pvec) : pvec -> F :=
  fix inner (v2 : pvec) : F :=
    match v1, v2 with
    | [], _ => 0%F
    | _, [] => 0%F
    | (k1, a1) :: v1', (k2, a2) :: v2' =>
        if k1 <? k2 then innerProduct v1' v2
        else if k2 <? k1 then inner v2'
        else (a1 * a2 + innerProduct v1' v2')%F
    end.

(** LinConstraint::addTerm, constraints.cpp 251-255. *)
Definition addTerm (c : lincon) (idx : Z) (s : F) : lincon :=
  let inMap := match kfind (lterms c) idx with Some v => v | None => 0%F end in
  LinCon (kset (lterms c) idx (inMap + s)%F) (leq c).

(** QuadConstraint::addIdx, constraints.hpp 141-147. *)
Definition addIdx (q : quadcon) (idx : Z) : outcome quadcon :=
  if zmem (qidx q) idx then Throw
  else Ret (QuadCon (zinsert (qidx q) idx) (qeq q)).

(** *** LinConstraint::merge, constraints.cpp 79-151 *)

(** CompIter, constraints.cpp 36-40: index of the constraint and the iterator,
    given by the element it points to and the rest of that constraint. *)
Record cursor := Cur { cIdx : nat; ckey : Z; cval : F; crest : pvec }.

Definition begin_cursor (i : nat) (l : pvec) : option cursor :=
  match l with
  | [] => None
  | (k, v) :: rest => Some (Cur i k v rest)
  end.

(** Initialisation of the priority queue, lines 101-108. *)
Fixpoint init_queue (i : nat) (cs : list lincon) (coeffs : list F) : list cursor :=
  match cs, coeffs with
  | c :: cs', x :: coeffs' =>
      let rest := init_queue (S i) cs' coeffs' in
      match begin_cursor i (lterms c) with
      | Some cu => if feqb x 0%F then rest else cu :: rest
      | None => rest
      end
  | _, _ => []
  end.

Definition remove_nth {A} (n : nat) (l : list A) : list A :=
  firstn n l ++ skipn (S n) l.

(** std::priority_queue::top returns some element whose key is minimal (the
    comparison of CompIter is reversed, lines 43-45); which one among equal
    keys is unspecified, so the choice is a parameter. *)
Variable pick : list cursor -> nat.

(** One iteration of the while loop, lines 112-141: returns the new list of
    finished terms (kept in order), the new curTerm and the new queue. *)
Definition merge_step (coeffs : list F) (acc : pvec) (cur : Z * F) (q : list cursor)
  : option (pvec * (Z * F) * list cursor) :=
  let n := pick q in
  match nth_error q n with
  | None => None
  | Some top =>
      let coeff := nth (cIdx top) coeffs 0%F in
      let '(acc', cur') :=
        if ckey top =? fst cur
        then (acc, (fst cur, (snd cur + cval top * coeff)%F))
        else ((if feqb (snd cur) 0%F then acc else acc ++ [cur]),
              (ckey top, (cval top * coeff)%F)) in
      let popped := remove_nth n q in
      let q' := match begin_cursor (cIdx top) (crest top) with
                | Some cu => popped ++ [cu]
                | None => popped
                end in
      Some (acc', cur', q')
  end.

Fixpoint merge_loop (fuel : nat) (coeffs : list F) (acc : pvec) (cur : Z * F)
    (q : list cursor) : pvec :=
  match fuel with
  | O => acc ++ [cur]
  | S fuel' =>
      match q with
      | [] => acc ++ [cur]       (* line 144: inserted without zero test *)
      | _ :: _ =>
          match merge_step coeffs acc cur q with
          | None => acc ++ [cur]
          | Some (acc', cur', q') => merge_loop fuel' coeffs acc' cur' q'
          end
      end
  end.

(** Number of iterations: total number of terms in the queue. *)
Definition queue_terms (q : list cursor) : nat :=
  fold_right (fun c n => S (length (crest c) + n)) O q.

(** lines 146-150 *)
Fixpoint merge_eq (cs : list lincon) (coeffs : list F) : F :=
  match cs, coeffs with
  | c :: cs', x :: coeffs' =>
      let r := merge_eq cs' coeffs' in
      match lterms c with
      | [] => r
      | _ :: _ => if feqb x 0%F then r else (leq c * x + r)%F
      end
  | _, _ => 0%F
  end.

Definition lin_merge (cs : list lincon) (coeffs : list F) : outcome lincon :=
  if negb (Nat.eqb (length cs) (length coeffs)) then Throw
  else
    let q := init_queue 0 cs coeffs in
    match q with
    | [] => Ret (LinCon [] 0%F)
    | _ :: _ =>
        match nth_error q (pick q) with
        | None => UB
        | Some top =>
            Ret (LinCon (merge_loop (queue_terms q) coeffs [] (ckey top, 0%F) q)
                        (merge_eq cs coeffs))
        end
    end.

(** A concrete queue order: the first cursor with the smallest key. *)
Fixpoint min_index (q : list cursor) : nat :=
  match q with
  | [] => O
  | [_] => O
  | c :: q' =>
      match nth_error q' (min_index q') with
      | Some m => if ckey c <=? ckey m then O else S (min_index q')
      | None => O
      end
  end.

(** QuadConstraint::merge, constraints.cpp 153-168. *)
Definition quad_merge (qs : list quadcon) (coeffs : list F) : outcome quadcon :=
  if negb (Nat.eqb (length qs) (length coeffs)) then Throw
  else Ret (fold_left
              (fun acc e => QuadCon (zinsert_all (qidx acc) (qidx (fst e)))
                                    (qeq acc + qeq (fst e) * snd e * snd e)%F)
              (combine qs coeffs) (QuadCon [] 0%F)).

(** QuadConstraint::operator+=, constraints.cpp 258-280.  The disjointness loop
    (line 268) tests [it2 != indexes.end()] instead of other.indexes.end():
    the comparison with the end of the other container never stops the loop
    and the next dereference of it2 == other.end() is undefined. *)
Fixpoint disjoint_loop (s1 : list Z) : list Z -> outcome unit :=
  fix inner (s2 : list Z) : outcome unit :=
    match s1 with
    | [] => Ret tt
    | a :: s1' =>
        match s2 with
        | [] => UB
        | b :: s2' =>
            if a <? b then disjoint_loop s1' s2
            else if b <? a then inner s2'
            else Throw
        end
    end.

Definition quad_add (q other : quadcon) : outcome quadcon :=
  match qidx other with
  | [] => Ret q
  | o0 :: _ =>
      match qidx q with
      | [] => Ret other
      | i0 :: _ =>
          let imax := last (qidx q) 0 in
          let omax := last (qidx other) 0 in
          let! _ := if (i0 <=? omax) && (o0 <=? imax)
                    then disjoint_loop (qidx q) (qidx other) else Ret tt in
          Ret (QuadCon (zinsert_all (qidx q) (qidx other)) (qeq q + qeq other)%F)
      end
  end.

(** static setDifference, constraints.cpp 171-186. *)
Fixpoint setDifference (l : pvec) : list Z -> pvec :=
  fix inner (s : list Z) : pvec :=
    match l, s with
    | [], _ => []
    | _, [] => l
    | (k, v) :: l', b :: s' =>
        if k <? b then (k, v) :: setDifference l' s
        else if b <? k then inner s'
        else setDifference l' s'
    end.

(** splitPtxtVec, constraints.cpp 191-226 (the loop of lines 208-220). *)
Fixpoint split_loop (l : pvec) : list Z -> pvec * pvec :=
  fix inner (s : list Z) : pvec * pvec :=
    match l, s with
    | [], _ => ([], [])
    | _, [] => ([], l)
    | (k, v) :: l', b :: s' =>
        if k <? b then
          let '(i, d) := split_loop l' s in (i, (k, v) :: d)
        else if b <? k then inner s'
        else
          let '(i, d) := split_loop l' s' in ((k, v) :: i, d)
    end.

Definition splitPtxtVec (src : pvec) (splitBy : list Z) : pvec * pvec * Z :=
  match src, splitBy with
  | [], [] => ([], [], 1)
  | [], _ :: _ => ([], [], 1 + last splitBy 0)
  | _ :: _, [] => ([], src, 1 + last (map fst src) 0)
  | _ :: _, _ :: _ =>
      let '(i, d) := split_loop src splitBy in
      (i, d, Z.max (last (map fst src) 0) (last splitBy 0) + 1)
  end.

(** Narrowing size_t -> int (two's complement). *)
Definition int_of_size (k : Z) : Z := (k + 2 ^ 31) mod 2 ^ 32 - 2 ^ 31.

(** largestKey, constraints.hpp 165-170: the result type is int. *)
Definition largestKeyL (l : pvec) : Z :=
  match l with [] => -1 | _ :: _ => int_of_size (last (map fst l) 0) end.
Definition largestKeyQ (s : list Z) : Z :=
  match s with [] => -1 | _ :: _ => int_of_size (last s 0) end.

(** size_t from an int value. *)
Definition size_of_int (k : Z) : Z := k mod 2 ^ 64.

(** makeAlmostDisjoint, constraints.cpp 232-249.  The int addition
    max(..)+1 overflows (undefined) at INT_MAX.  The map/set insertion with
    hint end() is an ordinary insertion (insert never overwrites). *)
Definition kinsert (l : pvec) (k : Z) (v : F) : pvec :=
  match kfind l k with Some _ => l | None => kset l k v end.

Definition makeAlmostDisjoint (lin : lincon) (quad : quadcon) (s : F)
  : outcome (lincon * quadcon * Z) :=
  let qeq' := (qeq quad - leq lin * s)%F in
  let terms' := setDifference (lterms lin) (qidx quad) in
  let m := Z.max (largestKeyL terms') (largestKeyQ (qidx quad)) in
  if m =? 2 ^ 31 - 1 then UB
  else
    let newKey := size_of_int (m + 1) in
    Ret (LinCon (kinsert terms' newKey 1%F) 0%F,
         QuadCon (zinsert (qidx quad) newKey) qeq', newKey).

(** checkConstraint(LinConstraint), constraints.cpp 319-333. *)
Fixpoint check_lin_loop (t w : pvec) (sum : F) : option F :=
  match t, w with
  | (k1, a) :: t', (k2, x) :: w' =>
      if k1 =? k2 then check_lin_loop t' w' (sum + a * x)%F else None
  | [], [] => Some sum
  | _, _ => None
  end.
Definition checkLin (c : lincon) (w : pvec) : bool :=
  match check_lin_loop (lterms c) w 0%F with
  | Some s => feqb s (leq c)
  | None => false
  end.

(** checkConstraintLoose(LinConstraint), constraints.cpp 336-351. *)
Fixpoint loose_lin_loop (t w : pvec) (sum : F) : option F :=
  match t with
  | [] => Some sum
  | (k, a) :: t' =>
      if feqb a 0%F then loose_lin_loop t' w sum
      else match kfind w k with
           | None => None
           | Some x => loose_lin_loop t' w (sum + a * x)%F
           end
  end.
Definition checkLinLoose (c : lincon) (w : pvec) : bool :=
  match loose_lin_loop (lterms c) w 0%F with
  | Some s => feqb s (leq c)
  | None => false
  end.

(** checkConstraint(QuadConstraint), constraints.cpp 354-369. *)
Fixpoint check_quad_loop (s : list Z) (xs ys : pvec) (sum : F) : option F :=
  match s, xs, ys with
  | k :: s', (k1, x) :: xs', (k2, y) :: ys' =>
      if negb (k =? k1) || negb (k =? k2) then None
      else check_quad_loop s' xs' ys' (sum + x * y)%F
  | [], [], [] => Some sum
  | _, _, _ => None
  end.
Definition checkQuad (q : quadcon) (xs ys : pvec) : bool :=
  match check_quad_loop (qidx q) xs ys 0%F with
  | Some s => feqb s (qeq q)
  | None => false
  end.

(** checkConstraintLoose(QuadConstraint), constraints.cpp 372-387. *)
Fixpoint loose_quad_loop (s : list Z) (xs ys : pvec) (sum : F) : option F :=
  match s with
  | [] => Some sum
  | k :: s' =>
      match kfind xs k, kfind ys k with
      | Some x, Some y => loose_quad_loop s' xs ys (sum + x * y)%F
      | _, _ => None
      end
  end.
Definition checkQuadLoose (q : quadcon) (xs ys : pvec) : bool :=
  match loose_quad_loop (qidx q) xs ys 0%F with
  | Some s => feqb s (qeq q)
  | None => false
  end.

End Model.
Arguments pvec : clear implicits.
Arguments lincon : clear implicits.
Arguments quadcon : clear implicits.
Arguments cursor : clear implicits.
