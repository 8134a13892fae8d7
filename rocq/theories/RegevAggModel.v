(** Model of ReadyToVerify / ReadyToProve (/repo/include/regevProofs.hpp 318-368,
    /repo/src/regev/regevProofs.cpp 769-1163) and of the proving part of
    /repo/src/main.cpp 150-253.  Asserts are active; DEBUGGING code and timers are
    not modelled. *)
From Coq Require Import String.
From Coq Require Import ZArith List Bool.
From Verif Require Import Outcome Fp GroupMod Ring ConstraintsModel PedersenModel BulletproofModel
  AlgebraModel TernaryModel RegevModel RegevPfModel.
Import ListNotations.
Open Scope Z_scope.

Section Maps.
Context {p : Z}.
Notation F := (Fp p).
(** m[k] read: a missing entry is created with the value zero. *)
Definition kget (l : pvec p) (k : Z) : F := match kfind l k with Some v => v | None => 0%F end.
(** linCnstr.terms[idx] /= rVec[i], regevProofs.cpp 789-793; Scalar::operator/=
    throws on division by zero (scalar25519.hpp 112-116).  normConstr and rVec
    have the same length. *)
Fixpoint div_one (terms : pvec p) (idxs : list Z) (r : F) : outcome (pvec p) :=
  match idxs with
  | [] => Ret terms
  | k :: idxs' => let! ri := finvert r in div_one (kset terms k (kget terms k * ri)%F) idxs' r
  end.
Fixpoint div_all (terms : pvec p) (qs : list (quadcon p)) (rs : list F) : outcome (pvec p) :=
  match qs, rs with
  | q :: qs', r :: rs' => let! t := div_one terms (qidx q) r in div_all t qs' rs'
  | _, _ => Ret terms
  end.
(** quadWitnessG[idx] *= rVec[i], 850-853 *)
Definition mul_one (w : pvec p) (idxs : list Z) (r : F) : pvec p :=
  fold_left (fun w k => kset w k (kget w k * r)%F) idxs w.
Fixpoint mul_all (w : pvec p) (qs : list (quadcon p)) (rs : list F) : pvec p :=
  match qs, rs with
  | q :: qs', r :: rs' => mul_all (mul_one w (qidx q) r) qs' rs'
  | _, _ => w
  end.
(** The loops 973-989: both iterators advance together. *)
Fixpoint sub_lock (w d : pvec p) : outcome (pvec p) :=
  match w, d with
  | [], [] => Ret []
  | (k, x) :: w', (k', y) :: d' =>
      if k =? k' then let! r := sub_lock w' d' in Ret ((k, (x - y)%F) :: r) else Abort
  | _, _ => Abort
  end.
(** The loop 996-1007. *)
Fixpoint keep_terms (w t : pvec p) : pvec p :=
  match w, t with
  | (k, x) :: w', (k', _) :: t' => if k' =? k then (k, x) :: keep_terms w' t' else keep_terms w' t
  | _, _ => []
  end.
(** A -= <as,us>, 1056-1060 *)
Fixpoint sub_inner (A : F) (as_ : pvec p) (us : list F) : outcome F :=
  match as_ with
  | [] => Ret A
  | (_, a) :: as' => match us with [] => Abort | u :: us' => sub_inner (A - a * u)%F as' us' end
  end.
(** The loop 1075-1081; [nrho] is -rho.  Returns as, deltaG, deltaH. *)
Fixpoint delta_loop (nrho : F) (as_ : pvec p) (us : list F) (dG dH : pvec p) : outcome (pvec p * pvec p * pvec p) :=
  match as_ with
  | [] => Ret ([], dG, dH)
  | (k, a) :: as' =>
      match us with
      | [] => UB
      | u :: us' =>
          let a := (a * nrho - u)%F in
          let! (rest, dG, dH) := delta_loop nrho as' us' (kinsert dG k a) (kinsert dH k u) in
          Ret ((k, a) :: rest, dG, dH)
      end
  end.
(** The entry of variable k in the flattened lists is that of its generator. *)
Definition size_idx {A} (l : list A) (k : Z) : outcome A := if 0 <=? k then oget l (Z.to_nat k) else UB.
End Maps.

(** ReadyToVerify, regevProofs.hpp 318-349 (the flattened lists are [flatdata]). *)
Record rtv {p : Z} (G : gmod p) := RTV {
  rlin : lincon p; rlinCom : G; rquad : quadcon p; rquadCom : G;
  rdG : pvec p; rdH : pvec p; rrVec : list (Fp p); ruVec : list (Fp p); ras : pvec p; rbs : pvec p }.
Arguments RTV {p G} _ _ _ _ _ _ _ _ _ _.
Arguments rlin {p G} _. Arguments rlinCom {p G} _. Arguments rquad {p G} _. Arguments rquadCom {p G} _.
Arguments rdG {p G} _. Arguments rdH {p G} _. Arguments rrVec {p G} _. Arguments ruVec {p G} _.
Arguments ras {p G} _. Arguments rbs {p G} _.
(** ReadyToProve, 351-368. *)
Record rtp {p : Z} (G : gmod p) := RTP { rv : rtv G; rlRnd : Fp p; rqRnd : Fp p }.
Arguments RTP {p G} _ _ _. Arguments rv {p G} _. Arguments rlRnd {p G} _. Arguments rqRnd {p G} _.

(** Each compressed vector with its padding and its place in normConstr
    (regevProofs.hpp 209-217), in the order of regevProofs.cpp 802-830. *)
Definition comPairs : list (var * var * nat) :=
  [ (DCompHi, DPadHi, 0); (DCompLo, DPadLo, 1); (RComp, RPad, 2); (EComp1Hi, EPad1Hi, 3); (EComp1Lo, EPad1Lo, 4);
    (EComp2Hi, EPad2Hi, 5); (EComp2Lo, EPad2Lo, 6); (Sk2Comp, Sk2Pad, 7); (KCompHi, KPadHi, 8); (KCompLo, KPadLo, 9) ]%nat.

Section Agg.
Context {p : Z} {ell : nat} {G : gmod p}.
Notation F := (Fp p).
Variable R : rmerlin G.
Variable c : cfg ell G.
Variable pick : list (cursor p) -> nat.     (* order of the priority queue in merge *)
Notation pstate := (@pstate p ell G R).

(** xCom += xPadCom; xCom *= rVec[i] (and the same for the randomness). *)
Fixpoint scale_pairs {A} (add : A -> A -> A) (mul : A -> F -> A) (f : var -> A) (rVec : list F)
    (l : list (var * var * nat)) : outcome (var -> A) :=
  match l with
  | [] => Ret f
  | (x, xpad, i) :: l' =>
      let! r := oget rVec i in
      scale_pairs add mul (upd f x (mul (add (f x) (f xpad)) r)) rVec l'
  end.
(** 835, 871 and 838-840, 874-876: sums written a + b + ... *)
Definition sum_lin {A} (add : A -> A -> A) (f : var -> A) : A :=
  fold_left (fun a x => add a (f x)) [Sk1; Pt2; RR; Sk2; YY] (f Pt1).
Definition sum_quad {A} (add : A -> A -> A) (f : var -> A) : A :=
  fold_left (fun a x => add a (f x)) [DCompLo; RComp; EComp1Hi; EComp1Lo; EComp2Hi; EComp2Lo; Sk2Comp; KCompHi; KCompLo] (f DCompHi).

(** aggregateVerifier1, 769-841.  linCnstr.merge and quadCnstr.merge empty the
    constraint first. *)
Definition aggregateVerifier1 (st : pstate) : outcome (pstate * rtv G) :=
  let '(r, m) := m_chal R (pmer st) "aggregateLinear" in
  let! rVec := powerVectorS r (length (plin st)) in
  let! lin := lin_merge pick (plin st) rVec in
  let '(r, m) := m_chal R m "aggregateNorms" in
  let! rVec := powerVectorS r (length (pnorm st)) in
  let! quad := quad_merge (pnorm st) rVec in
  let! terms := div_all (lterms lin) (pnorm st) rVec in
  let '(as_, bs, wIdx) := splitPtxtVec terms (qidx quad) in
  if negb (int_of_size wIdx =? pidx st WW) then Abort
  else
    let! com := scale_pairs gadd gmul (pcom st) rVec comPairs in
    Ret (PS (pidx st) com (prnd st) (plin st) (pnorm st) (plinW st) (pqG st) (pqH st) (pcomp st) (pz st) m,
         RTV (LinCon terms (leq lin)) (sum_lin gadd com) quad (sum_quad gadd com) [] [] rVec [] as_ bs).

(** aggregateVerifier2, 1025-1083.  It only uses the transcript and wIdx of the
    state. *)
Definition aggregateVerifier2 (m : mst R) (wIdx : Z) (a : rtv G) : outcome (mst R * rtv G) :=
  let '(u, m) := m_chal R m "enforceNorm" in
  let! uVec := powerVectorS u (length (qidx (rquad a))) in
  if negb (length uVec =? length (ras a))%nat then Abort
  else
    let! uu := innerProd uVec uVec (length uVec) in
    let '(rho, m) := m_chal R m "separareLinQuad" in
    let idxs := zinsert (qidx (rquad a)) wIdx in
    let! A := sub_inner (leq (rlin a)) (ras a) uVec in
    let eq := (qeq (rquad a) - uu + rho * A)%F in
    let nrho := (- rho)%F in
    let! (as', dG, dH) := delta_loop nrho (ras a) uVec [] [] in
    Ret (m, RTV (LinCon (rbs a) 0%F) (rlinCom a) (QuadCon idxs eq) (rquadCom a)
              (kset dG wIdx 0%F) (kset dH wIdx nrho) (rrVec a) uVec as' (rbs a)).

(** aggregateProver, 843-1023; [wRnd] is the randomness drawn at line 916. *)
Definition aggregateProver (st : pstate) (wRnd : F) : outcome (pstate * rtp G) :=
  let! (st, a) := aggregateVerifier1 st in
  let qG := mul_all (pqG st) (pnorm st) (rrVec a) in
  let! rnd := scale_pairs fadd fmul (prnd st) (rrVec a) comPairs in
  let lRnd := sum_lin fadd rnd in
  let qRnd := sum_quad fadd rnd in
  let wIdx := pidx st WW in
  let w := innerProduct (rbs a) (plinW st) in
  let linW := kset (plinW st) wIdx w in
  let qG := kset qG wIdx w in
  if negb (size_of_int wIdx =? size_of_int (Z.of_nat (length (cGs c)) - 1)) then Abort
  else
    let! wG := size_idx (cGs c) wIdx in
    let wCom := gadd (gmul (cbase c) wRnd) (gmul wG w) in
    let a1 := RTV (rlin a) (gadd (rlinCom a) wCom) (rquad a) (gadd (rquadCom a) wCom)
                (rdG a) (rdH a) (rrVec a) (ruVec a) (ras a) (kset (rbs a) wIdx (- (1))%F) in
    let! (m, a2) := aggregateVerifier2 (pmer st) wIdx a1 in
    let a3 := RTV (rlin a2) (rlinCom a2) (rquad a2) (rquadCom a2) (rdG a2) (rdH a2) [] [] [] [] in
    let qH := kset qG wIdx 0%F in
    let! qG := sub_lock qG (rdG a3) in
    let! qH := sub_lock qH (rdH a3) in
    let linW := keep_terms linW (lterms (rlin a3)) in
    Ret (PS (pidx st) (upd (pcom st) WW wCom) (upd rnd WW wRnd)
            (map (fun _ => emptyLin) (plin st)) (map (fun _ => emptyQuad) (pnorm st)) linW qG qH (pcomp st) (pz st) m,
         RTP a3 (lRnd + wRnd)%F (qRnd + wRnd)%F).

(** flattenLinVer, 1085-1096: linGs and linStmnt. *)
Definition flattenLinVer (a : rtv G) : outcome (list G * list F) :=
  let! gs := omapM (fun e => size_idx (cGs c) (fst e)) (lterms (rlin a)) in
  Ret (gs, map snd (lterms (rlin a))).
(** flattenQuadVer, 1097-1111: quadGs, quadHs, offstG, offstH.  [k] is the
    size of quadHs so far.  Reading deltaG[i] may add an entry to deltaG, which is
    not used any more. *)
Fixpoint flatQ_loop (wIdx : Z) (dG dH : pvec p) (idxs : list Z) (k : nat)
  : outcome (list G * list G * list F * list F) :=
  match idxs with
  | [] => Ret ([], [], [], [])
  | i :: idxs' =>
      let! g := size_idx (cGs c) i in
      let! h := if negb (i =? wIdx) then size_idx (cHs c) i else size_idx (cHs c) (Z.of_nat k - 1) in
      let! (gs, hs, og, oh) := flatQ_loop wIdx dG dH idxs' (S k) in
      Ret (g :: gs, h :: hs, kget dG i :: og, kget dH i :: oh)
  end.
Definition flattenQuadVer (wIdx : Z) (a : rtv G) : outcome (list G * list G * list F * list F) :=
  flatQ_loop wIdx (rdG a) (rdH a) (qidx (rquad a)) 0.
(** flattenLinPrv, 1113-1132: also linWtns; linCnstr.terms and linWitness are
    emptied. *)
Definition flattenLinPrv (st : pstate) (a : rtv G) : outcome (pstate * rtv G * (list G * list F * list F)) :=
  if negb (length (plinW st) =? length (lterms (rlin a)))%nat then Abort
  else
    let! (gs, stm) := flattenLinVer a in
    Ret (PS (pidx st) (pcom st) (prnd st) (plin st) (pnorm st) [] (pqG st) (pqH st) (pcomp st) (pz st) (pmer st),
         RTV (LinCon [] (leq (rlin a))) (rlinCom a) (rquad a) (rquadCom a) (rdG a) (rdH a) (rrVec a) (ruVec a) (ras a) (rbs a),
         (gs, stm, map snd (plinW st))).
(** The loop 1145-1151. *)
Fixpoint flat_lock (xs ys : pvec p) : outcome (list F * list F) :=
  match xs, ys with
  | [], [] => Ret ([], [])
  | (k, x) :: xs', (k', y) :: ys' =>
      if k =? k' then let! (l, l') := flat_lock xs' ys' in Ret (x :: l, y :: l') else Abort
  | _, _ => Abort
  end.
(** flattenQuadPrv, 1135-1163: also quadWtnsG, quadWtnsH. *)
Definition flattenQuadPrv (st : pstate) (a : rtv G)
  : outcome (pstate * (list G * list G * list F * list F) * (list F * list F)) :=
  let! q := flattenQuadVer (pidx st WW) a in
  let! ws := flat_lock (pqG st) (pqH st) in
  Ret (PS (pidx st) (pcom st) (prnd st) (plin st) (pnorm st) (plinW st) [] [] (pcomp st) (pz st) (pmer st), q, ws).

(** main.cpp 175-190: aggregate, bind the constraints to two copies of the
    transcript, flatten.  Returns the final state, the two transcripts, the
    commitments with randomness and what the provers and verifiers get. *)
Record flatdata := Flat {
  fmL : mst R; fmQ : mst R; flinCom : G; fquadCom : G; flRnd : F; fqRnd : F; flinEq : F; fquadEq : F;
  flinGs : list G; flinStmnt : list F; flinWtns : list F;
  fquadGs : list G; fquadHs : list G; foffG : list F; foffH : list F; fqwG : list F; fqwH : list F }.
Definition prepareProofs (st : pstate) (wRnd : F) : outcome (pstate * flatdata) :=
  let! (st, ap) := aggregateProver st wRnd in
  let a := rv ap in
  let mL := m_lin R (pmer st) "linear" (rlin a) in
  let mQ := m_quad R (pmer st) "quadratic" (rquad a) in
  let! (st, a, (lgs, lst, lw)) := flattenLinPrv st a in
  let! (st, (qgs, qhs, og, oh), (wg, wh)) := flattenQuadPrv st a in
  Ret (st, Flat mL mQ (rlinCom a) (rquadCom a) (rlRnd ap) (rqRnd ap) (leq (rlin a)) (qeq (rquad a))
             lgs lst lw qgs qhs og oh wg wh).

(** What newBlindingFactors returns during the two proofs. *)
Record blinders := Bl { blL : nat -> F * F; blLS : F * F; blQ : nat -> F * F; blQST : F * F; blQUV : F * F }.
(** main.cpp 192-253: prove and verify; the two results of verification. *)
Definition proveVerify (d : flatdata) (b : blinders) : outcome (bool * bool) :=
  let n := length (flinGs d) in
  let! pfL := proveLinear (cbase c) R (flinCom d) (flRnd d) (fmL d) (blL b) (blLS b) (flinWtns d) (flinStmnt d) (flinGs d) n in
  let! okL := verifyLinear (cbase c) R pfL (flinStmnt d) (flinGs d) n (flinEq d) (fmL d) None in
  let n := length (fquadGs d) in
  let! pfQ := proveQuadratic (cbase c) R (fquadCom d) (fqRnd d) (fmQ d) (blQ b) (blQST b) (blQUV b)
                (fquadGs d) (fqwG d) (fquadHs d) (fqwH d) n in
  let! okQ := verifyQuadratic (cbase c) R pfQ (fquadGs d) (fquadHs d) n (fquadEq d) (fmQ d) (Some (foffG d)) (Some (foffH d)) in
  Ret (okL, okQ).
Definition runProofs (st : pstate) (wRnd : F) (b : blinders) : outcome (pstate * (bool * bool)) :=
  let! (st, d) := prepareProofs st wRnd in
  let! ok := proveVerify d b in
  Ret (st, ok).
End Agg.
Arguments Flat {p G R} _ _ _ _ _ _ _ _ _ _ _ _ _ _ _ _ _.
Arguments fmL {p G R} _. Arguments fmQ {p G R} _. Arguments flinCom {p G R} _. Arguments fquadCom {p G R} _.
Arguments flRnd {p G R} _. Arguments fqRnd {p G R} _. Arguments flinEq {p G R} _. Arguments fquadEq {p G R} _.
Arguments flinGs {p G R} _. Arguments flinStmnt {p G R} _. Arguments flinWtns {p G R} _.
Arguments fquadGs {p G R} _. Arguments fquadHs {p G R} _. Arguments foffG {p G R} _. Arguments foffH {p G R} _.
Arguments fqwG {p G R} _. Arguments fqwH {p G R} _.
Arguments Bl {p} _ _ _ _ _. Arguments blL {p} _. Arguments blLS {p} _. Arguments blQ {p} _. Arguments blQST {p} _. Arguments blQUV {p} _.
