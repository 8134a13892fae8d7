(** Model of /repo/src/regev/regevProofs-utils.cpp 186-423, of VerifierData and
    ProverData in /repo/include/regevProofs.hpp 50-282, and of the five proof
    steps of /repo/src/regev/regevProofs.cpp 39-767.

    The struct members xIdx, xCom, xRnd are functions of the name x ([var]).
    Curve scalars and field scalars are both [Fp p]: conv between them keeps the
    value (C28; squares of bounds are assumed below P).  Indexes are in the int
    range once setIndexes has returned, so index arithmetic is plain.  Not
    modelled: the floating-point computation of the bounds in the constructor
    (111-165: the bounds are members of [cfg]), DEBUGGING code, timers. *)
From Coq Require Import String.
From Coq Require Import ZArith List Bool.
From Verif Require Import Outcome Fp GroupMod Ring ConstraintsModel PedersenModel BulletproofModel
  AlgebraModel TernaryModel RegevModel.
Import ListNotations.
Open Scope Z_scope.

Inductive var :=
| Pt1 | Sk1 | DCompHi | DPadHi | DCompLo | DPadLo
| Pt2 | RR | RComp | RPad | EComp1Hi | EPad1Hi | EComp1Lo | EPad1Lo | EComp2Hi | EPad2Hi | EComp2Lo | EPad2Lo
| Sk2 | Sk2Comp | Sk2Pad | KCompHi | KPadHi | KCompLo | KPadLo | YY | WW.
Definition var_eq_dec (a b : var) : {a = b} + {a <> b}.
Proof. decide equality. Defined.
Definition upd {A} (f : var -> A) (v : var) (a : A) : var -> A := fun u => if var_eq_dec u v then a else f u.

(** setIndexes, regevProofs-utils.cpp 189-230: the members are assigned in this
    order, each one the previous plus the length of the previous vector. *)
Definition layout (JLDIM LINYDIM ell kay enn tee : Z) : list (var * Z) :=
  [ (DCompHi, JLDIM); (DPadHi, 4); (DCompLo, JLDIM); (DPadLo, 4);
    (RComp, JLDIM); (RPad, 4);
    (EComp1Hi, JLDIM); (EPad1Hi, 4); (EComp1Lo, JLDIM); (EPad1Lo, 4);
    (EComp2Hi, JLDIM); (EPad2Hi, 4); (EComp2Lo, JLDIM); (EPad2Lo, 4);
    (Sk2Comp, JLDIM); (Sk2Pad, 4);
    (KCompHi, JLDIM); (KPadHi, 4); (KCompLo, JLDIM); (KPadLo, 4);
    (Sk1, kay * ell); (Sk2, kay * ell); (RR, kay * ell); (Pt1, tee); (Pt2, enn); (YY, LINYDIM) ].
Fixpoint assign (l : list (var * Z)) (from : Z) (f : var -> Z) : outcome (var -> Z) :=
  match l with
  | [] => Ret (upd f WW from)
  | (v, len) :: l' =>
      let! next := as_int (from + len) in
      assign l' next (upd f v from)
  end.
Definition setIndexes (JLDIM LINYDIM ell kay enn tee : Z) : outcome (var -> Z) :=
  let! _ := as_int (kay * ell) in
  assign (layout JLDIM LINYDIM ell kay enn tee) 0 (fun _ => 0).

Section Util.
Context {p : Z} {ell : nat} {G : gmod p}.
Notation F := (Fp p).
Notation E := (elt p ell).

(** computeGenerators, 233-247; [getG], [getH] are PedersenContext::getG/getH. *)
Definition computeGenerators (getG getH : Z -> G) (idx : var -> Z) : list G * list G :=
  (map (fun i => getG (Z.of_nat i)) (seq 0 (Z.to_nat (idx WW + 1))),
   map (fun i => getH (Z.of_nat i)) (seq 0 (Z.to_nat (idx Sk1))) ++ [getH (idx WW)]).

(** commit(SVector,...), 251-265.  [to] = None is a negative toIdx (the default
    -1); a negative fromIdx is not modelled.  A negative size makes the vector
    constructor throw. *)
Definition oset {A} (l : list A) (i : nat) (a : A) : outcome (list A) :=
  if (i <? length l)%nat then Ret (list_set l i a) else UB.
Fixpoint commit_fill (v xes : list F) (is : list nat) : outcome (list F) :=
  match is with
  | [] => Ret xes
  | i :: is' =>
      let! x := oget v i in
      let! xes' := oset xes i x in
      commit_fill v xes' is'
  end.
Definition commitS (base : G) (v : list F) (genIdx : nat) (Gs : list G) (r : F) (from : nat) (to : option nat)
  : outcome G :=
  let to := match to with Some t => t | None => length v end in
  if (to <? from)%nat || (length Gs <? genIdx + (to - from))%nat then Throw
  else
    let! xes := commit_fill v (repeat 0%F (to - from)) (seq from (to - from)) in
    commit base (skipn genIdx Gs) xes (length xes) r base 0%F.
(** commit(EVector,...), 266-284: xes is filled in order. *)
Definition slice_coeffs (v : list E) (from to : nat) : outcome (list F) :=
  let! es := omapM (oget v) (seq from (to - from)) in
  Ret (flat_map conv_svec es).
Definition commitE (base : G) (v : list E) (genIdx : nat) (Gs : list G) (r : F) (from : nat) (to : option nat)
  : outcome G :=
  let to := match to with Some t => t | None => length v end in
  if (to <? from)%nat || (length Gs <? genIdx + ell * (to - from))%nat then Throw
  else
    let! xes := slice_coeffs v from to in
    commit base (skipn genIdx Gs) xes (length xes) r base 0%F.
(** commit2, 286-315. *)
Definition commitE2 (base : G) (v : list E) (genIdx : nat) (Gs Hs : list G) (r : F) (from : nat) (to : option nat)
  : outcome G :=
  let to := match to with Some t => t | None => length v end in
  let n := (ell * (to - from))%nat in
  if (to <? from)%nat || (length Gs <? genIdx + n)%nat || (length Hs <? genIdx + n)%nat then Throw
  else
    let! xes := slice_coeffs v from to in
    let! GplusH := omapM (fun i => let! g := oget Gs (i + genIdx) in let! h := oget Hs (i + genIdx) in
                                   Ret (gadd g h)) (seq 0 n) in
    commit base GplusH xes (length xes) r base 0%F.

(** expandConstraints(constrs, idx, a), 363-375: row i of the block. *)
Definition expand_row (i : nat) (idx : Z) (a : E) (c : lincon p) : lincon p :=
  fold_left (fun c j =>
      let s := if (j <=? i)%nat then coeff a (i - j) else (- coeff a (i + ell - j))%F in
      addTerm c (idx + Z.of_nat j) s) (seq 0 ell) c.
(** A block is the array of ell constraints at the pointer. *)
Definition mapi {A B} (f : nat -> A -> B) (l : list A) : list B := map (fun e => f (fst e) (snd e)) (combine (seq 0 (length l)) l).
Definition expand1 (cs : list (lincon p)) (idx : Z) (a : E) : list (lincon p) :=
  mapi (fun i c => expand_row i idx a c) cs.
(** expandConstraints(constrs, idx, v, from, to), 377-382 *)
Fixpoint expand_loop (cs : list (lincon p)) (idx : Z) (es : list E) : list (lincon p) :=
  match es with
  | [] => cs
  | e :: es' => expand_loop (expand1 cs idx e) (idx + Z.of_nat ell) es'
  end.
Definition expandConstraints (cs : list (lincon p)) (idx : Z) (v : list E) (from : nat) (to : option nat)
  : outcome (list (lincon p)) :=
  let to := match to with Some t => t | None => length v end in
  let! es := omapM (oget v) (seq from (to - from)) in
  Ret (expand_loop cs idx es).
(** makeConstraints, 384-396 *)
Definition make_row (j : nat) (idx : Z) (es : list E) (c : lincon p) : lincon p :=
  fold_left (fun c e => addTerm c (idx + Z.of_nat (fst e)) (coeff (snd e) j)) (combine (seq 0 (length es)) es) c.
Definition makeConstraints (cs : list (lincon p)) (idx : Z) (v : list E) (from : nat) (to : option nat)
  : outcome (list (lincon p)) :=
  let to := match to with Some t => t | None => length v end in
  let! es := omapM (oget v) (seq from (to - from)) in
  Ret (mapi (fun j c => make_row j idx es c) cs).
(** setEqsTo, 397-402 *)
Definition setEqsTo (cs : list (lincon p)) (e : E) : list (lincon p) :=
  mapi (fun j c => LinCon (lterms c) (coeff e j)) cs.

(** powerVector, 405-423: the assignment to vec[0] needs len > 0. *)
Fixpoint pow_loop {A} (mul : A -> A -> A) (k : nat) (cur x : A) : list A :=
  match k with O => [] | S k' => cur :: pow_loop mul k' (mul cur x) x end.
Definition powerVectorE (x : E) (len : nat) : outcome (list E) :=
  if (len =? 0)%nat then UB else Ret (pow_loop emul len e1 x).
Definition powerVectorS (x : F) (len : nat) : outcome (list F) :=
  if (len =? 0)%nat then UB else Ret (pow_loop fmul len 1%F x).

(** Pointer into vd.linConstr: act on the ell constraints starting at [off]. *)
Definition on_block (cs : list (lincon p)) (off : nat) (f : list (lincon p) -> outcome (list (lincon p)))
  : outcome (list (lincon p)) :=
  let! b := sub cs off ell in
  let! b' := f b in
  Ret (firstn off cs ++ b' ++ skipn (off + length b) cs).
Definition emptyLin : lincon p := LinCon [] 0%F.
Definition emptyQuad : quadcon p := QuadCon [] 0%F.
Definition clearBlock (b : list (lincon p)) : list (lincon p) := map (fun _ => emptyLin) b.
(** lc[i].equalsTo = ..., addRange2Set(lc[i].indexes, ...) *)
Definition set_norm (qs : list (quadcon p)) (i : nat) (eq : F) (ranges : list (Z * Z)) : outcome (list (quadcon p)) :=
  let! q := oget qs i in
  oset qs i (QuadCon (fold_left (fun s r => addRange2Set s (fst r) (snd r)) ranges (qidx q)) eq).
(** for (auto& x : v) { compressed[eIdx++] = x; } *)
Fixpoint copy_at (comp : list E) (at_ : nat) (v : list E) : outcome (list E) :=
  match v with
  | [] => Ret comp
  | e :: v' => let! comp' := oset comp at_ e in copy_at comp' (S at_) v'
  end.
End Util.

(** What the proof steps use of MerlinRegev: the operations of MerlinBPctx and
    the raw challenge / commit of bytes (regevProofs.hpp 69-148). *)
Record rmerlin {p : Z} (G : gmod p) := RM {
  rm :> merlin G;
  rm_bytes : mst rm -> string -> nat -> list Z * mst rm;
  rm_commit : mst rm -> string -> list Z -> mst rm
}.
Arguments RM {p G} _ _ _.
Arguments rm {p G} _.
Arguments rm_bytes {p G} _ _ _ _.
Arguments rm_commit {p G} _ _ _ _.

(** What does not change during the proofs. *)
Record cfg {p : Z} (ell : nat) (G : gmod p) := Cfg {
  JLDIM : nat; LINYDIM : nat; SQRT_JL : Z;         (* 256, 128, 16: regevProofs.hpp 54-56 *)
  cjac : Z -> Z -> Z; cpp : Z -> bool; csp : Z -> bool;   (* NTL's Jacobi, ProbPrime, SinglePrecision *)
  cbase : G;
  cgk : globalKey p ell; cg : elt p ell;           (* vd.gk, GlobalKey::g() *)
  cHm : list (list (Fp p));                        (* vd.sp->H *)
  cGs : list G; cHs : list G;
  radix : Z; B_dNoise : Z; B_sk : Z; B_r : Z; B_eNoise1 : Z; B_eNoise2 : Z; B_kNoise : Z; B_smallness : Z
}.
Arguments JLDIM {p ell G} _. Arguments LINYDIM {p ell G} _. Arguments SQRT_JL {p ell G} _.
Arguments cjac {p ell G} _. Arguments cpp {p ell G} _. Arguments csp {p ell G} _.
Arguments cbase {p ell G} _. Arguments cgk {p ell G} _. Arguments cg {p ell G} _. Arguments cHm {p ell G} _.
Arguments cGs {p ell G} _. Arguments cHs {p ell G} _.
Arguments radix {p ell G} _. Arguments B_dNoise {p ell G} _. Arguments B_sk {p ell G} _. Arguments B_r {p ell G} _.
Arguments B_eNoise1 {p ell G} _. Arguments B_eNoise2 {p ell G} _. Arguments B_kNoise {p ell G} _.
Arguments B_smallness {p ell G} _.

(** VerifierData and ProverData together, and the transcript. *)
Record pstate {p : Z} {ell : nat} {G : gmod p} (R : rmerlin G) := PS {
  pidx : var -> Z; pcom : var -> G; prnd : var -> Fp p;
  plin : list (lincon p); pnorm : list (quadcon p);
  plinW : pvec p; pqG : pvec p; pqH : pvec p;
  pcomp : list (elt p ell); pz : list (elt p ell);
  pmer : mst R }.
Arguments PS {p ell G R} _ _ _ _ _ _ _ _ _ _ _.
Arguments pidx {p ell G R} _ _. Arguments pcom {p ell G R} _ _. Arguments prnd {p ell G R} _ _.
Arguments plin {p ell G R} _. Arguments pnorm {p ell G R} _. Arguments plinW {p ell G R} _.
Arguments pqG {p ell G R} _. Arguments pqH {p ell G R} _. Arguments pcomp {p ell G R} _.
Arguments pz {p ell G R} _. Arguments pmer {p ell G R} _.

Section Pf.
Context {p : Z} {ell : nat} {G : gmod p}.
Notation F := (Fp p).
Notation E := (elt p ell).
Variable R : rmerlin G.
Variable c : cfg ell G.
Notation pstate := (@pstate p ell G R).

Definition set_mer (st : pstate) (m : mst R) : pstate :=
  PS (pidx st) (pcom st) (prnd st) (plin st) (pnorm st) (plinW st) (pqG st) (pqH st) (pcomp st) (pz st) m.
Definition set_com (st : pstate) (v : var) (g : G) (r : F) : pstate :=
  PS (pidx st) (upd (pcom st) v g) (upd (prnd st) v r) (plin st) (pnorm st) (plinW st) (pqG st) (pqH st) (pcomp st) (pz st) (pmer st).
Definition set_lin (st : pstate) (l : list (lincon p)) : pstate :=
  PS (pidx st) (pcom st) (prnd st) l (pnorm st) (plinW st) (pqG st) (pqH st) (pcomp st) (pz st) (pmer st).
Definition set_norms (st : pstate) (l : list (quadcon p)) : pstate :=
  PS (pidx st) (pcom st) (prnd st) (plin st) l (plinW st) (pqG st) (pqH st) (pcomp st) (pz st) (pmer st).
Definition set_wit (st : pstate) (w q : pvec p) : pstate :=
  PS (pidx st) (pcom st) (prnd st) (plin st) (pnorm st) w q (pqH st) (pcomp st) (pz st) (pmer st).
Definition set_comp (st : pstate) (l : list E) : pstate :=
  PS (pidx st) (pcom st) (prnd st) (plin st) (pnorm st) (plinW st) (pqG st) (pqH st) l (pz st) (pmer st).
Definition set_z (st : pstate) (l : list E) : pstate :=
  PS (pidx st) (pcom st) (prnd st) (plin st) (pnorm st) (plinW st) (pqG st) (pqH st) (pcomp st) l (pmer st).

(** newTernaryEMatrix, regevProofs.hpp 121-131 (n, m > 0). *)
Definition ternaryE (m : mst R) (label : string) (n k : nat) : outcome (tematrix * mst R) :=
  let size := (ell * ((n * k + 3) / 4))%nat in
  let! X := newTernaryEMatrix (ell := ell) (fun b => fst (rm_bytes R m label b)) n k in
  Ret (X, snd (rm_bytes R m label size)).
(** newElement, 140-148 *)
Definition newElement (m : mst R) (label : string) : outcome (E * mst R) :=
  let size := (bytesPerScalar p * ell)%nat in
  let! e := elementFromBytes (fst (rm_bytes R m label size)) size in
  Ret (e, snd (rm_bytes R m label size)).
(** processVector(EVector), 80-90 *)
Definition processVector (m : mst R) (label : string) (v : list E) : mst R :=
  match v with
  | [] => m
  | e :: v' =>
      let size := (bytesPerScalar p * ell)%nat in
      fold_left (fun m e => rm_commit R m "" (elementBytes e size)) v' (rm_commit R m label (elementBytes e size))
  end.

(** commit to v with the generators of variable x and remember the randomness;
    then processPoint(label, xCom). *)
Definition genAt (st : pstate) (x : var) : nat := Z.to_nat (pidx st x).
Definition comS (st : pstate) (x : var) (v : list F) (r : F) : outcome pstate :=
  let! C := commitS (cbase c) v (genAt st x) (cGs c) r 0 None in Ret (set_com st x C r).
Definition comE (st : pstate) (x : var) (v : list E) (r : F) : outcome pstate :=
  let! C := commitE (cbase c) v (genAt st x) (cGs c) r 0 None in Ret (set_com st x C r).
Definition com2 (st : pstate) (x : var) (v : list E) (r : F) : outcome pstate :=
  let! C := commitE2 (cbase c) v (genAt st x) (cGs c) (cHs c) r 0 None in Ret (set_com st x C r).
Definition absorb (st : pstate) (label : string) (x : var) : pstate :=
  set_mer st (m_point R (pmer st) label (pcom st x)).

Definition pad (v : list E) (bound : Z) : outcome (list E) :=
  pad2exactNorm_ev (cjac c) (cpp c) (csp c) p v [] bound.
(** int(ceil(sqrt(kk))) *)
Definition ceil_sqrt (n : Z) : Z := Z.sqrt_up n.
Definition kk : Z := kay (cgk c) * Z.of_nat ell.
Definition nn : Z := enn (cgk c) * Z.of_nat ell.
(** vd.B_x / vd.radix + int(ceil(sqrt(n))) and vd.radix*SQRT_JL *)
Definition hiBound (B n : Z) : outcome Z := if radix c =? 0 then Abort else Ret (B / radix c + ceil_sqrt n).
Definition loBound : Z := radix c * SQRT_JL c.
Definition jl : nat := (JLDIM c / ell)%nat.   (* JLDIM/scalarsPerElement() *)

(** One entry of the witness maps. *)
Definition wit (st : pstate) (x : var) (v : list E) : pstate :=
  set_wit st (addEVec2Map (plinW st) v (pidx st x)) (pqG st).
Definition witS (st : pstate) (x : var) (v : list F) : pstate :=
  set_wit st (addSVec2Map (plinW st) v (pidx st x)) (pqG st).
Definition witQ (st : pstate) (x : var) (v : list E) : pstate :=
  set_wit st (plinW st) (addEVec2Map (pqG st) v (pidx st x)).
Definition norm (st : pstate) (i : nat) (bound : Z) (x xpad : var) : outcome pstate :=
  let! qs := set_norm (pnorm st) i (toF p (bound * bound))
               [(pidx st x, Z.of_nat (JLDIM c)); (pidx st xpad, Z.of_nat PAD_SIZE)] in
  Ret (set_norms st qs).
Definition copy (st : pstate) (x : var) (v : list E) : outcome pstate :=
  let! l := copy_at (pcomp st) (Z.to_nat (pidx st x / Z.of_nat ell)) v in Ret (set_comp st l).
Definition block (st : pstate) (off : nat) (f : list (lincon p) -> outcome (list (lincon p))) : outcome pstate :=
  let! l := on_block (ell := ell) (plin st) off f in Ret (set_lin st l).
Definition expand (st : pstate) (x : var) (v : list E) (b : list (lincon p)) := expandConstraints b (pidx st x) v 0 None.
Definition make (st : pstate) (x : var) (v : list E) (b : list (lincon p)) := makeConstraints b (pidx st x) v 0 None.

(** Offsets into linConstr and normConstr, regevProofs.hpp 207-217. *)
Definition dLin := 0%nat. Definition eLin1 := ell. Definition eLin2 := (2 * ell)%nat. Definition rLin := (3 * ell)%nat.
Definition kLin := (4 * ell)%nat. Definition sk2Lin := (5 * ell)%nat. Definition smlnsLin := (6 * ell)%nat.
Definition reShrLin := (7 * ell)%nat.

(** proveDecryption, regevProofs.cpp 39-171; [rnd x] is the randomness drawn for
    the commitment to x. *)
Definition proveDecryption (st : pstate) (rnd : var -> F) (ctMat : mat E) (ctVec : list E)
    (ptxt : list F) (skey noise : list E) : outcome pstate :=
  let! st := comS st Pt1 ptxt (rnd Pt1) in
  let st := absorb st "RegevDecPtxt" Pt1 in
  let! (X, m) := ternaryE (pmer st) "RegevDecX" (Z.to_nat (tee (cgk c))) jl in
  let st := set_mer st m in
  let! compNoise := leftVecMultTE noise X in
  let! (compHi, compLo) := breakTwoDigits [] [] compNoise (radix c) in
  let! hib := hiBound (B_dNoise c) kk in
  let! padHi := pad compHi hib in
  let! padLo := pad compLo loBound in
  let! st := com2 st DCompHi compHi (rnd DCompHi) in
  let! st := com2 st DPadHi padHi (rnd DPadHi) in
  let! st := com2 st DCompLo compLo (rnd DCompLo) in
  let! st := com2 st DPadLo padLo (rnd DPadLo) in
  let st := absorb st "RegevDecCompHi" DCompHi in
  let st := absorb st "RegevDecPadHi" DPadHi in
  let st := absorb st "RegevDecCompLo" DCompLo in
  let st := absorb st "RegevDecPadLo" DPadLo in
  let! (x, m) := newElement (pmer st) "RegevDec" in
  let st := set_mer st m in
  let! xvec := powerVectorE x jl in
  let! Rx := rightVecMultTE X xvec in
  let! ctRx := matVec ctMat Rx in
  let! st := block st dLin (fun b =>
    let b := clearBlock b in
    let b := setEqsTo b (innerProductEE ctVec Rx) in
    let! b := expand st DCompLo xvec b in
    let! b := expand st DCompHi (map (escale (toF p (radix c))) xvec) b in
    let! b := expand st Sk1 ctRx b in
    make st Pt1 (map (fun e => emul e (cg c)) Rx) b) in
  let st := wit st DCompHi compHi in
  let st := wit st DPadHi padHi in
  let st := wit st DCompLo compLo in
  let st := wit st DPadLo padLo in
  let st := wit st Sk1 skey in
  let st := witS st Pt1 ptxt in
  let! st := norm st 0 hib DCompHi DPadHi in
  let! st := norm st 1 loBound DCompLo DPadLo in
  let st := witQ st DCompHi compHi in
  let st := witQ st DPadHi padHi in
  let st := witQ st DCompLo compLo in
  let st := witQ st DPadLo padLo in
  let! st := copy st DCompHi compHi in
  let! st := copy st DPadHi padHi in
  let! st := copy st DCompLo compLo in
  copy st DPadLo padLo.

(** proveEncryption, 175-436. *)
Definition proveEncryption (st : pstate) (rnd : var -> F) (ct1 ct2 : list E) (ptxt : list F)
    (er noise1 noise2 : list E) : outcome pstate :=
  let! st := comS st Pt2 ptxt (rnd Pt2) in
  let! st := comE st RR er (rnd RR) in
  let st := absorb st "RegevEncPtxt" Pt2 in
  let st := absorb st "RegevEncRnd" RR in
  let! (X1, m) := ternaryE (pmer st) "RegevEncR1" jl (Z.to_nat (kay (cgk c))) in
  let! (X2, m) := ternaryE m "RegevEncR2" jl (Z.to_nat (enn (cgk c))) in
  let! (X3, m) := ternaryE m "RegevEncR3" jl (Z.to_nat (kay (cgk c))) in
  let st := set_mer st m in
  let! compNoise1 := rightVecMultTE X1 noise1 in
  let! compNoise2 := rightVecMultTE X2 noise2 in
  let! compR := rightVecMultTE X3 er in
  let! (c1Hi, c1Lo) := breakTwoDigits [] [] compNoise1 (radix c) in
  let! (c2Hi, c2Lo) := breakTwoDigits [] [] compNoise2 (radix c) in
  let! hib1 := hiBound (B_eNoise1 c) kk in
  let! hib2 := hiBound (B_eNoise2 c) nn in
  let! padR := pad compR (B_r c) in
  let! pad1Hi := pad c1Hi hib1 in
  let! pad1Lo := pad c1Lo loBound in
  let! pad2Hi := pad c2Hi hib2 in
  let! pad2Lo := pad c2Lo loBound in
  let! st := com2 st RComp compR (rnd RComp) in
  let! st := com2 st RPad padR (rnd RPad) in
  let! st := com2 st EComp1Hi c1Hi (rnd EComp1Hi) in
  let! st := com2 st EPad1Hi pad1Hi (rnd EPad1Hi) in
  let! st := com2 st EComp1Lo c1Lo (rnd EComp1Lo) in
  let! st := com2 st EPad1Lo pad1Lo (rnd EPad1Lo) in
  let! st := com2 st EComp2Hi c2Hi (rnd EComp2Hi) in
  let! st := com2 st EPad2Hi pad2Hi (rnd EPad2Hi) in
  let! st := com2 st EComp2Lo c2Lo (rnd EComp2Lo) in
  let! st := com2 st EPad2Lo pad2Lo (rnd EPad2Lo) in
  let st := absorb st "RegevEncR" RComp in
  let st := absorb st "" RPad in
  let st := absorb st "RegevEnc1Hi" EComp1Hi in
  let st := absorb st "" EPad1Hi in
  let st := absorb st "RegevEnc1Lo" EComp1Lo in
  let st := absorb st "" EPad1Lo in
  let st := absorb st "RegevEnc2Hi" EComp2Hi in
  let st := absorb st "" EPad2Hi in
  let st := absorb st "RegevEnc2Lo" EComp2Lo in
  let st := absorb st "" EPad2Lo in
  let! (x1, m) := newElement (pmer st) "RegevEncChallenge1" in
  let st := set_mer st m in
  let! xvec1 := powerVectorE x1 jl in
  let! xR1 := leftVecMultTE xvec1 X1 in
  let! xR1A := vecMat xR1 (gkA (cgk c)) in
  let! st := block st eLin1 (fun b =>
    let b := clearBlock b in
    let b := setEqsTo b (innerProductEE xR1 ct1) in
    let! b := expand st RR xR1A b in
    let! b := expand st EComp1Lo xvec1 b in
    expand st EComp1Hi (map (escale (toF p (radix c))) xvec1) b) in
  let! (x2, m) := newElement (pmer st) "RegevEncChallenge2" in
  let st := set_mer st m in
  let! xvec2 := powerVectorE x2 jl in
  let! xR2 := leftVecMultTE xvec2 X2 in
  let! xR2B := vecMat xR2 (gkB (cgk c)) in
  let! st := block st eLin2 (fun b =>
    let b := clearBlock b in
    let b := setEqsTo b (innerProductEE xR2 ct2) in
    let! b := expand st RR xR2B b in
    let! b := expand st EComp2Lo xvec2 b in
    let! b := expand st EComp2Hi (map (escale (toF p (radix c))) xvec2) b in
    make st Pt2 (map (fun e => emul (cg c) e) xR2) b) in
  let! (x3, m) := newElement (pmer st) "RegevEncChallenge3" in
  let st := set_mer st m in
  let! xvec3 := powerVectorE x3 jl in
  let! mxR3 := leftVecMultTE (map eopp xvec3) X3 in
  let! st := block st rLin (fun b =>
    let b := setEqsTo (ell := ell) b e0 in       (* lCnstr3 is not emptied *)
    let! b := expand st RComp xvec3 b in
    expand st RR mxR3 b) in
  let st := wit st RComp compR in
  let st := wit st RPad padR in
  let st := wit st EComp1Hi c1Hi in
  let st := wit st EPad1Hi pad1Hi in
  let st := wit st EComp1Lo c1Lo in
  let st := wit st EPad1Lo pad1Lo in
  let st := wit st EComp2Hi c2Hi in
  let st := wit st EPad2Hi pad2Hi in
  let st := wit st EComp2Lo c2Lo in
  let st := wit st EPad2Lo pad2Lo in
  let st := wit st RR er in
  let st := witS st Pt2 ptxt in
  let! st := norm st 2 (B_r c) RComp RPad in
  let! st := norm st 3 hib1 EComp1Hi EPad1Hi in
  let! st := norm st 4 loBound EComp1Lo EPad1Lo in
  let! st := norm st 5 hib2 EComp2Hi EPad2Hi in
  let! st := norm st 6 loBound EComp2Lo EPad2Lo in
  let st := witQ st RComp compR in
  let st := witQ st RPad padR in
  let st := witQ st EComp1Hi c1Hi in
  let st := witQ st EPad1Hi pad1Hi in
  let st := witQ st EComp1Lo c1Lo in
  let st := witQ st EPad1Lo pad1Lo in
  let st := witQ st EComp2Hi c2Hi in
  let st := witQ st EPad2Hi pad2Hi in
  let st := witQ st EComp2Lo c2Lo in
  let st := witQ st EPad2Lo pad2Lo in
  let! st := copy st RComp compR in
  let! st := copy st RPad padR in
  let! st := copy st EComp1Hi c1Hi in
  let! st := copy st EPad1Hi pad1Hi in
  let! st := copy st EComp1Lo c1Lo in
  let! st := copy st EPad1Lo pad1Lo in
  let! st := copy st EComp2Hi c2Hi in
  let! st := copy st EPad2Hi pad2Hi in
  let! st := copy st EComp2Lo c2Lo in
  copy st EPad2Lo pad2Lo.

(** proveKeyGen, 441-599 (both low digit and high digit use the label KGHi). *)
Definition proveKeyGen (st : pstate) (rnd : var -> F) (pkNum : nat) (skey noise : list E) : outcome pstate :=
  let! st := comE st Sk2 skey (rnd Sk2) in
  let st := absorb st "RegevSK" Sk2 in
  let! (X1, m) := ternaryE (pmer st) "RegevKeyGenR1" (Z.to_nat (kay (cgk c))) jl in
  let! (X2, m) := ternaryE m "RegevKeyGenR2" (Z.to_nat (kay (cgk c))) jl in
  let st := set_mer st m in
  let! ekComp := leftVecMultTE noise X1 in
  let! skComp := leftVecMultTE skey X2 in
  let! (eHi, eLo) := breakTwoDigits [] [] ekComp (radix c) in
  let! hib := hiBound (B_kNoise c) kk in
  let! skPad := pad skComp (B_sk c) in
  let! ePadHi := pad eHi hib in
  let! ePadLo := pad eLo loBound in
  let! st := com2 st Sk2Comp skComp (rnd Sk2Comp) in
  let! st := com2 st Sk2Pad skPad (rnd Sk2Pad) in
  let! st := com2 st KCompHi eHi (rnd KCompHi) in
  let! st := com2 st KPadHi ePadHi (rnd KPadHi) in
  let! st := com2 st KCompLo eLo (rnd KCompLo) in
  let! st := com2 st KPadLo ePadLo (rnd KPadLo) in
  let st := absorb st "RegevKeyGenSK" Sk2Comp in
  let st := absorb st "" Sk2Pad in
  let st := absorb st "RegevKGHi" KCompHi in
  let st := absorb st "" KPadHi in
  let st := absorb st "RegevKGHi" KCompLo in
  let st := absorb st "" KPadLo in
  let! (x1, m) := newElement (pmer st) "RegevKGChallenge1" in
  let st := set_mer st m in
  let! xvec1 := powerVectorE x1 jl in
  let! R1x := rightVecMultTE X1 xvec1 in
  let! bRow := oget (mrows (gkB (cgk c))) pkNum in
  let! AR1x := matVec (gkA (cgk c)) R1x in
  let! st := block st kLin (fun b =>
    let b := clearBlock b in
    let b := setEqsTo b (innerProductEE R1x bRow) in
    let! b := expand st Sk2 AR1x b in
    let! b := expand st KCompLo xvec1 b in
    expand st KCompHi (map (escale (toF p (radix c))) xvec1) b) in
  let! (x2, m) := newElement (pmer st) "RegevKGChallenge2" in
  let st := set_mer st m in
  let! xvec2 := powerVectorE x2 jl in
  let! R2x := rightVecMultTE X2 xvec2 in
  let! st := block st sk2Lin (fun b =>
    let b := clearBlock b in
    let b := setEqsTo (ell := ell) b e0 in
    let! b := expand st Sk2Comp xvec2 b in
    expand st Sk2 (map eopp R2x) b) in
  let st := wit st Sk2 skey in
  let st := wit st Sk2Comp skComp in
  let st := wit st Sk2Pad skPad in
  let st := wit st KCompHi eHi in
  let st := wit st KPadHi ePadHi in
  let st := wit st KCompLo eLo in
  let st := wit st KPadLo ePadLo in
  let! st := norm st 7 (B_sk c) Sk2Comp Sk2Pad in
  let! st := norm st 8 hib KCompHi KPadHi in
  let! st := norm st 9 loBound KCompLo KPadLo in
  let st := witQ st Sk2Comp skComp in
  let st := witQ st Sk2Pad skPad in
  let st := witQ st KCompHi eHi in
  let st := witQ st KPadHi ePadHi in
  let st := witQ st KCompLo eLo in
  let st := witQ st KPadLo ePadLo in
  let! st := copy st Sk2Comp skComp in
  let! st := copy st Sk2Pad skPad in
  let! st := copy st KCompHi eHi in
  let! st := copy st KPadHi ePadHi in
  let! st := copy st KCompLo eLo in
  copy st KPadLo ePadLo.

(** proveReShare, 603-660 (asserts are active). *)
Fixpoint addTerms (c : lincon p) (idx : Z) (cs : list F) : lincon p :=
  match cs with [] => c | a :: cs' => addTerms (addTerm c idx a) (idx + 1) cs' end.
Definition reshare_con (st : pstate) (lagrange : list F) (row : list F) : outcome (lincon p) :=
  let! h0 := oget row 0 in
  let! ls := omapM (fun j => let! l := oget lagrange j in Ret (h0 * l)%F) (seq 0 (Z.to_nat (tee (cgk c)))) in
  let! hs := omapM (oget row) (seq 1 (Z.to_nat (enn (cgk c)))) in
  Ret (addTerms (addTerms emptyLin (pidx st Pt1) ls) (pidx st Pt2) hs).
Definition Hcols : nat := match cHm c with [] => 0%nat | r :: _ => length r end.
Definition proveReShare (st : pstate) (lagrange pt1 pt2 : list F) : outcome pstate :=
  if negb (Z.of_nat (length pt1) =? tee (cgk c)) || negb (length lagrange =? length pt1)%nat
     || negb (Z.of_nat (length pt2) =? enn (cgk c)) || negb (Hcols =? 1 + length pt2)%nat then Abort
  else if negb (reShrLin + length (cHm c) <=? length (plin st))%nat then Abort
  else
    let! cs := omapM (reshare_con st lagrange) (cHm c) in
    Ret (set_lin st (firstn reShrLin (plin st) ++ cs ++ skipn (reShrLin + length (cHm c)) (plin st))).

(** proveSmallness, 667-767: trial t uses the masking vector [ys t] and the
    commitment randomness [rs t]. *)
Fixpoint smallness_loop (trials t : nat) (st : pstate) (ys : nat -> list E) (rs : nat -> F)
  : outcome (pstate * list E * tematrix) :=
  match trials with
  | O => Throw
  | S trials' =>
      let nCols := (LINYDIM c / ell)%nat in
      let nRows := (10 * (JLDIM c + PAD_SIZE) / ell)%nat in
      let y := ys t in
      let! st := comE st YY y (rs t) in
      let bkp := m_point R (pmer st) "smallnessPf" (pcom st YY) in
      let! (X, bkp) := ternaryE bkp "Smallness" nRows nCols in
      let! u := leftVecMultTE (pcomp st) X in
      let! z := vecAdd u y in
      let st := set_z st z in
      let uBound := B_smallness c / Z.of_nat (LINYDIM c) in
      if (lInftyNorm u <=? uBound) && (lInftyNorm z <=? B_smallness c)
      then Ret (set_mer st bkp, y, X)
      else smallness_loop trials' (S t) st ys rs
  end.
Definition proveSmallness (st : pstate) (ys : nat -> list E) (rs : nat -> F) : outcome pstate :=
  let nCols := (LINYDIM c / ell)%nat in
  if negb (length (pcomp st) =? 10 * (JLDIM c + PAD_SIZE) / ell)%nat then Abort
  else
    let! (st, y, X) := smallness_loop 100 0 st ys rs in
    let st := set_mer st (processVector (pmer st) "masked reply" (pz st)) in
    let! (x, m) := newElement (pmer st) "SmallnessChallenge" in
    let st := set_mer st m in
    let! xvec := powerVectorE x nCols in
    let! Rx := rightVecMultTE X xvec in
    let! st := block st smlnsLin (fun b =>
      let b := clearBlock b in
      let b := setEqsTo b (innerProductEE (pz st) xvec) in
      let! b := expandConstraints b 0 Rx 0 None in
      expand st YY xvec b) in
    Ret (wit st YY y).

(** VerifierData::prepareForNextProof and ProverData::prepareForNextProof,
    regevProofs.hpp 226-243, 273-276. *)
Definition prepareForNextProof (st : pstate) : pstate :=
  PS (upd (upd (pidx st) Sk1 (pidx st Sk2)) Sk2 (pidx st Sk1))
     (upd (fun _ => gzero) Sk1 (pcom st Sk2))
     (upd (prnd st) Sk1 (prnd st Sk2))
     (map (fun _ => emptyLin) (plin st)) (map (fun _ => emptyQuad) (pnorm st))
     (plinW st) (pqG st) (pqH st) (pcomp st) (pz st) (pmer st).
End Pf.
