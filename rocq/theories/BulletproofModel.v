(** Model of /repo/src/dlproofs/bulletproof.cpp and /repo/include/bulletproof.hpp
    (proof stream I/O is modelled in StreamModel.v). *)
From Coq Require Import String.
From Coq Require Import ZArith List Bool.
From Verif Require Import Outcome Fp GroupMod ConstraintsModel PedersenModel.
Import ListNotations.
Open Scope Z_scope.

(** What the proofs use of a MerlinBPctx (merlin.hpp 62-187): absorbing a
    point, a scalar challenge, a generator, absorbing a constraint.  Everything
    below holds for every such interface.  newBlindingFactors is not here: it
    leaves the transcript unchanged and its two results are treated as
    arbitrary scalars (the [bl] arguments of the provers). *)
Record merlin {p : Z} (G : gmod p) := Merlin {
  mst : Type;
  m_point : mst -> string -> G -> mst;
  m_chal : mst -> string -> Fp p * mst;
  m_gen : mst -> string -> G * mst;
  m_lin : mst -> string -> lincon p -> mst;
  m_quad : mst -> string -> quadcon p -> mst
}.
Arguments mst {p G} _.
Arguments m_point {p G} _ _ _ _.
Arguments m_chal {p G} _ _ _.
Arguments m_gen {p G} _ _ _.
Arguments m_lin {p G} _ _ _ _.
Arguments m_quad {p G} _ _ _ _.

(** LinPfTranscript / QuadPfTranscript, bulletproof.hpp 67-76, 146-155 (the tag
    is a parameter of the functions that use it). *)
Record linpf {p : Z} (G : gmod p) := LinPf {
  lpC : G; lpLs : list G; lpRs : list G; lpS : G; lpa : Fp p; lpr : Fp p }.
Record quadpf {p : Z} (G : gmod p) := QuadPf {
  qpC : G; qpLs : list G; qpRs : list G; qpS1 : G; qpS2 : G;
  qpa : Fp p; qpb : Fp p; qpr : Fp p }.
Arguments LinPf {p G} _ _ _ _ _ _.
Arguments lpC {p G} _. Arguments lpLs {p G} _. Arguments lpRs {p G} _.
Arguments lpS {p G} _. Arguments lpa {p G} _. Arguments lpr {p G} _.
Arguments QuadPf {p G} _ _ _ _ _ _ _ _.
Arguments qpC {p G} _. Arguments qpLs {p G} _. Arguments qpRs {p G} _.
Arguments qpS1 {p G} _. Arguments qpS2 {p G} _.
Arguments qpa {p G} _. Arguments qpb {p G} _. Arguments qpr {p G} _.

Section BP.
Context {p : Z} {G : gmod p}.
Notation F := (Fp p).
Variable base : G.      (* Point::base() *)
Variable M : merlin G.

(** CRV25519::innerProduct, curve25519.cpp 64-70. *)
Definition innerProd (a b : list F) (n : nat) : outcome F :=
  let! a' := sub a 0 n in
  let! b' := sub b 0 n in
  Ret (fold_left (fun c e => (c + fst e * snd e)%F) (combine a' b') 0%F).

(** The loops "as[i] += as[i+nOver2]*xInv; bs[i] += bs[i+nOver2]*x" for
    i < n-nOver2 (bulletproof.cpp 156-159, 224-226, 306-309).  Like
    [foldGenerators], returns the first nOver2 entries: the others are never
    read again (a read would be flagged as UB in this model). *)
Definition foldScalars (v : list F) (n : nat) (x : F) (nOver2 : nat) : outcome (list F) :=
  let! lo := sub v 0 nOver2 in
  let! hi := sub v nOver2 (n - nOver2) in
  Ret (@zip_add p (Fp_gmod p) lo (map (fun a => (a * x)%F) hi)).

Definition nlabel (n : nat) : string := to_string (Z.of_nat n).

(** *** Linear proofs *)
(** Result of the halving loop of the prover. *)
Record lpstate := LPState {
  ls_st : mst M; ls_as : list F; ls_bs : list F; ls_gs : list G; ls_r : F;
  ls_Ls : list G; ls_Rs : list G }.

(** proveLinear, bulletproof.cpp 137-165.  [fuel] bounds the number of rounds
    (n of them suffice, as n decreases); [bl i] is what newBlindingFactors
    returns in round i. *)
Fixpoint proveLinear_loop (fuel : nat) (Fg : G) (bl : nat -> F * F) (st : mst M)
    (as_ bs : list F) (gs : list G) (r : F) (n nOver2 : nat) : outcome lpstate :=
  if (n <=? 1)%nat then Ret (LPState st as_ bs gs r [] [])
  else match fuel with
  | O => UB
  | S fuel' =>
      let label := nlabel n in
      let '(s, t) := bl O in
      let! mL := multiExp (skipn nOver2 gs) (n - nOver2) as_ in
      let! iL := innerProd (skipn nOver2 bs) as_ (n - nOver2) in
      let L := gadd (gadd (gmul base s) mL) (gmul Fg iL) in
      let! mR := multiExp gs (n - nOver2) (skipn nOver2 as_) in
      let! iR := innerProd bs (skipn nOver2 as_) (n - nOver2) in
      let R := gadd (gadd (gmul base t) mR) (gmul Fg iR) in
      let st := m_point M st (label ++ "L") L in
      let st := m_point M st "R" R in
      let '(x, st) := m_chal M st "x" in
      let! xInv := finvert x in
      let! as' := foldScalars as_ n xInv nOver2 in
      let! bs' := foldScalars bs n x nOver2 in
      let! gs' := foldGenerators gs n x nOver2 in
      let! res := proveLinear_loop fuel' Fg (fun i => bl (S i)) st as' bs' gs'
                    (r + (s * x + t * xInv))%F nOver2 (nOver2 / 2) in
      Ret (LPState (ls_st res) (ls_as res) (ls_bs res) (ls_gs res) (ls_r res)
             (L :: ls_Ls res) (R :: ls_Rs res))
  end.

(** proveLinear, bulletproof.cpp 127-182; [blS] are the last blinding factors. *)
Definition proveLinear (C : G) (r : F) (st : mst M) (bl : nat -> F * F) (blS : F * F)
    (as_ bs : list F) (gs : list G) (n : nat) : outcome (linpf G) :=
  let st := m_point M st "C" C in
  let '(Fg, st) := m_gen M st "F" in
  let nOver2 := (next2powerN n / 2)%nat in
  let! res := proveLinear_loop n Fg bl st as_ bs gs r n nOver2 in
  let '(s, t) := blS in
  let! g0 := oget (ls_gs res) 0 in
  let! b0 := oget (ls_bs res) 0 in
  let! a0 := oget (ls_as res) 0 in
  let S := gadd (gadd (gmul g0 s) (gmul Fg (s * b0)%F)) (gmul base t) in
  let st := m_point M (ls_st res) "S" S in
  let '(x, st) := m_chal M st "x" in
  Ret (LinPf C (ls_Ls res) (ls_Rs res) S (s + a0 * x)%F (t + ls_r res * x)%F).

(** verifyLinear, bulletproof.cpp 208-231: xes, xInvs and the folded bs. *)
Fixpoint verifyLinear_loop (fuel : nat) (st : mst M) (Ls Rs : list G) (bs : list F)
    (n nOver2 ii : nat) : outcome (mst M * list F * list F * list F) :=
  if (n <=? 1)%nat then Ret (st, [], [], bs)
  else match fuel with
  | O => UB
  | S fuel' =>
      let label := nlabel n in
      let! L := oget Ls ii in
      let! R := oget Rs ii in
      let st := m_point M st (label ++ "L") L in
      let st := m_point M st "R" R in
      let '(x, st) := m_chal M st "x" in
      let! xInv := finvert x in
      let! bs' := foldScalars bs n x nOver2 in
      let! res := verifyLinear_loop fuel' st Ls Rs bs' nOver2 (nOver2 / 2) (S ii) in
      let '(st', xes, xInvs, bsf) := res in
      Ret (st', x :: xes, xInv :: xInvs, bsf)
  end.

(** verifyLinear, bulletproof.cpp 188-251. *)
Definition verifyLinear (pf : linpf G) (bs : list F) (gs : list G) (n : nat) (eq : F)
    (st : mst M) (wOffsets : option (list F)) : outcome bool :=
  let st := m_point M st "C" (lpC pf) in
  let '(Fg, st) := m_gen M st "F" in
  let C := gadd (lpC pf) (gmul Fg eq) in
  let logN := log2roundUpN n in
  if negb (length (lpLs pf) =? logN)%nat || negb (length (lpRs pf) =? logN)%nat then Throw
  else
  let nOver2 := (next2powerN n / 2)%nat in
  let! res := verifyLinear_loop n st (lpLs pf) (lpRs pf) bs n nOver2 0 in
  let '(st, xes, xInvs, bsf) := res in
  let! mL := multiExp (lpLs pf) (length (lpLs pf)) xes in
  let! mR := multiExp (lpRs pf) (length (lpRs pf)) xInvs in
  let C := gadd C (gadd mL mR) in
  let st := m_point M st "S" (lpS pf) in
  let '(x, st) := m_chal M st "x" in
  let! xInv := finvert x in
  let! wOffsets' := match wOffsets with
                    | None => Ret None
                    | Some o => let! o' := sub o 0 n in
                                Ret (Some (map (fun v => (v * x)%F) o'))
                    end in
  let! tmp := expSubsetProduct gs n xes (lpa pf) wOffsets' in
  let! b0 := oget bsf 0 in
  Ret (geqb (gadd (lpS pf) (gmul C x))
            (gadd (gadd (gmul base (lpr pf)) (gmul Fg (lpa pf * b0)%F)) tmp)).

(** *** Quadratic proofs *)
Record qpstate := QPState {
  qs_st : mst M; qs_as : list F; qs_bs : list F; qs_gs : list G; qs_hs : list G; qs_r : F;
  qs_Ls : list G; qs_Rs : list G }.

(** proveQuadratic, bulletproof.cpp 283-317. *)
Fixpoint proveQuadratic_loop (fuel : nat) (Fg : G) (bl : nat -> F * F) (st : mst M)
    (gs : list G) (as_ : list F) (hs : list G) (bs : list F) (r : F) (n nOver2 : nat)
  : outcome qpstate :=
  if (n <=? 1)%nat then Ret (QPState st as_ bs gs hs r [] [])
  else match fuel with
  | O => UB
  | S fuel' =>
      let label := nlabel n in
      let '(s, t) := bl O in
      let! mL := multiExp (skipn nOver2 gs) (n - nOver2) as_ in
      let! mL2 := multiExp hs (n - nOver2) (skipn nOver2 bs) in
      let! iL := innerProd as_ (skipn nOver2 bs) (n - nOver2) in
      let L := gadd (gadd (gadd (gmul base s) mL) mL2) (gmul Fg iL) in
      let! mR := multiExp gs (n - nOver2) (skipn nOver2 as_) in
      let! mR2 := multiExp (skipn nOver2 hs) (n - nOver2) bs in
      let! iR := innerProd (skipn nOver2 as_) bs (n - nOver2) in
      let R := gadd (gadd (gadd (gmul base t) mR) mR2) (gmul Fg iR) in
      let st := m_point M st (label ++ "L") L in
      let st := m_point M st "R" R in
      let '(x, st) := m_chal M st "x" in
      let! xInv := finvert x in
      let! as' := foldScalars as_ n xInv nOver2 in
      let! bs' := foldScalars bs n x nOver2 in
      let! gs' := foldGenerators gs n x nOver2 in
      let! hs' := foldGenerators hs n xInv nOver2 in
      let! res := proveQuadratic_loop fuel' Fg (fun i => bl (S i)) st gs' as' hs' bs'
                    (r + (s * x + t * xInv))%F nOver2 (nOver2 / 2) in
      Ret (QPState (qs_st res) (qs_as res) (qs_bs res) (qs_gs res) (qs_hs res) (qs_r res)
             (L :: qs_Ls res) (R :: qs_Rs res))
  end.

(** proveQuadratic, bulletproof.cpp 318-336: the last step, given what the
    halving loop left. *)
Definition proveQuadratic_last (C Fg : G) (blST blUV : F * F) (res : qpstate) : outcome (quadpf G) :=
  let '(s, t) := blST in
  let '(u, v) := blUV in
  let! g0 := oget (qs_gs res) 0 in
  let! h0 := oget (qs_hs res) 0 in
  let! a0 := oget (qs_as res) 0 in
  let! b0 := oget (qs_bs res) 0 in
  let S1 := gadd (gadd (gadd (gmul base u) (gmul g0 s)) (gmul h0 t))
                 (gmul Fg (a0 * t + b0 * s)%F) in
  let S2 := gadd (gmul base v) (gmul Fg (s * t)%F) in
  let st := m_point M (qs_st res) "S1" S1 in
  let st := m_point M st "S2" S2 in
  let '(x, st) := m_chal M st "x" in
  Ret (QuadPf C (qs_Ls res) (qs_Rs res) S1 S2
        (a0 + s * x)%F (b0 + t * x)%F (qs_r res + (u + v * x) * x)%F).

(** proveQuadratic, bulletproof.cpp 274-336. *)
Definition proveQuadratic (C : G) (r : F) (st : mst M) (bl : nat -> F * F) (blST blUV : F * F)
    (gs : list G) (as_ : list F) (hs : list G) (bs : list F) (n : nat) : outcome (quadpf G) :=
  let st := m_point M st "C" C in
  let '(Fg, st) := m_gen M st "F" in
  let nOver2 := (next2powerN n / 2)%nat in
  let! res := proveQuadratic_loop n Fg bl st gs as_ hs bs r n nOver2 in
  proveQuadratic_last C Fg blST blUV res.

(** verifyQuadratic, bulletproof.cpp 362-379. *)
Fixpoint verifyQuadratic_loop (fuel : nat) (st : mst M) (Ls Rs : list G)
    (n nOver2 ii : nat) : outcome (mst M * list F * list F) :=
  if (n <=? 1)%nat then Ret (st, [], [])
  else match fuel with
  | O => UB
  | S fuel' =>
      let label := nlabel n in
      let! L := oget Ls ii in
      let! R := oget Rs ii in
      let st := m_point M st (label ++ "L") L in
      let st := m_point M st "R" R in
      let '(x, st) := m_chal M st "x" in
      let! xInv := finvert x in
      let! res := verifyQuadratic_loop fuel' st Ls Rs nOver2 (nOver2 / 2) (S ii) in
      let '(st', xes, xInvs) := res in
      Ret (st', x :: xes, xInv :: xInvs)
  end.

(** verifyQuadratic, bulletproof.cpp 342-395. *)
Definition verifyQuadratic (pf : quadpf G) (gs hs : list G) (n : nat) (eq : F)
    (st : mst M) (uOffsets vOffsets : option (list F)) : outcome bool :=
  let st := m_point M st "C" (qpC pf) in
  let '(Fg, st) := m_gen M st "F" in
  let C := gadd (qpC pf) (gmul Fg eq) in
  let logN := log2roundUpN n in
  if negb (length (qpLs pf) =? logN)%nat || negb (length (qpRs pf) =? logN)%nat then Throw
  else
  let nOver2 := (next2powerN n / 2)%nat in
  let! res := verifyQuadratic_loop n st (qpLs pf) (qpRs pf) n nOver2 0 in
  let '(st, xes, xInvs) := res in
  let! mL := multiExp (qpLs pf) (length (qpLs pf)) xes in
  let! mR := multiExp (qpRs pf) (length (qpRs pf)) xInvs in
  let C := gadd C (gadd mL mR) in
  let! tmpG := expSubsetProduct gs n xes (qpa pf) uOffsets in
  let! tmpH := expSubsetProduct hs n xInvs (qpb pf) vOffsets in
  let st := m_point M st "S1" (qpS1 pf) in
  let st := m_point M st "S2" (qpS2 pf) in
  let '(x, st) := m_chal M st "x" in
  Ret (geqb (gadd C (gmul (gadd (qpS1 pf) (gmul (qpS2 pf) x)) x))
            (gadd (gadd (gadd (gmul base (qpr pf)) tmpG) tmpH) (gmul Fg (qpa pf * qpb pf)%F))).

(** *** Statements over index maps *)
(** ped.getG(int), ped.getH(int): pedersen.hpp 139-148, hashToCurve of the label
    is the arbitrary function [hash]; sizes are narrowed to int. *)
Variable hash : string -> G.
Definition getGen (tag : string) (k : gkind) (idx : Z) : G := hash (gen_label_size tag k idx).

Record flatlin := FlatLin { fl_gens : list G; fl_stmt : list F; fl_eq : F; fl_wit : list F }.
(** The copying loop, bulletproof.cpp 67-78: it1 walks the witness map; reading
    through it1 at the end is UB (cannot happen, sizes agree). *)
Fixpoint flatLin_loop (tag : string) (terms xes : pvec p) (withw : bool)
  : outcome (list G * list F * list F) :=
  match terms with
  | [] => Ret ([], [], [])
  | (idx, b) :: terms' =>
      if withw then
        match xes with
        | [] => UB
        | (k, v) :: xes' =>
            if k =? idx then
              let! res := flatLin_loop tag terms' xes' withw in
              let '(g, s, w) := res in Ret (getGen tag KG idx :: g, b :: s, v :: w)
            else Throw
        end
      else
        let! res := flatLin_loop tag terms' xes withw in
        let '(g, s, w) := res in Ret (getGen tag KG idx :: g, b :: s, w)
  end.
(** FlatLinStmt, bulletproof.cpp 47-82 (NDEBUG build: the DEBUGGING asserts are off). *)
Definition flatLin (tag : string) (c : lincon p) (xes : pvec p) : outcome flatlin :=
  let n := length (lterms c) in
  let n2 := length xes in
  if (n <? 1)%nat || (2 ^ 20 <? Z.of_nat n) then Throw
  else if (0 <? n2)%nat && negb (n2 =? n)%nat then Throw
  else
    let! res := flatLin_loop tag (lterms c) xes (0 <? n2)%nat in
    let '(g, s, w) := res in Ret (FlatLin g s (leq c) w).

Record flatquad := FlatQuad { fq_gs : list G; fq_hs : list G; fq_eq : F; fq_wG : list F; fq_wH : list F }.
(** bulletproof.cpp 99-111 *)
Fixpoint flatQuad_loop (tag : string) (idxs : list Z) (xs ys : pvec p) (withw : bool)
  : outcome (list G * list G * list F * list F) :=
  match idxs with
  | [] => Ret ([], [], [], [])
  | idx :: idxs' =>
      if withw then
        match xs, ys with
        | (k, v) :: xs', (k', v') :: ys' =>
            if (k =? idx) && (k' =? idx) then
              let! res := flatQuad_loop tag idxs' xs' ys' withw in
              let '(g, h, w, w') := res in
              Ret (getGen tag KG idx :: g, getGen tag KH idx :: h, v :: w, v' :: w')
            else Throw
        | _, _ => UB
        end
      else
        let! res := flatQuad_loop tag idxs' xs ys withw in
        let '(g, h, w, w') := res in
        Ret (getGen tag KG idx :: g, getGen tag KH idx :: h, w, w')
  end.
(** FlatQuadStmt, bulletproof.cpp 86-117. *)
Definition flatQuad (tag : string) (c : quadcon p) (xs ys : pvec p) : outcome flatquad :=
  let n := length (qidx c) in
  let n2 := length xs in
  if (n <? 1)%nat || (2 ^ 20 <? Z.of_nat n) then Throw
  else if negb (length ys =? n2)%nat || ((0 <? n2)%nat && negb (n2 =? n)%nat) then Throw
  else
    let! res := flatQuad_loop tag (qidx c) xs ys (0 <? n2)%nat in
    let '(g, h, w, w') := res in Ret (FlatQuad g h (qeq c) w w').

(** MerlinBPctx(tag): initial state. *)
Variable m_init : string -> mst M.

(** proveLinear(tag,cnstr,xes), bulletproof.hpp 86-107; r = randomScalar().
    commit with f = nullptr-like default is base*r + multiExp (pedersen.hpp
    114-117, default alpha = 0 term). *)
Definition proveLinearTag (tag : string) (c : lincon p) (xes : pvec p)
    (r : F) (bl : nat -> F * F) (blS : F * F) : outcome (linpf G) :=
  let st := m_init tag in
  let st := m_lin M st "constraint" c in
  let! s := flatLin tag c xes in
  let n := length (fl_gens s) in
  let! C := commit base (fl_gens s) (fl_wit s) n r gzero 0%F in
  proveLinear C r st bl blS (fl_wit s) (fl_stmt s) (fl_gens s) n.

(** verifyLinear(cnstr,proof), bulletproof.hpp 109-120. *)
Definition verifyLinearTag (tag : string) (c : lincon p) (pf : linpf G) : outcome bool :=
  let st := m_init tag in
  let st := m_lin M st "constraint" c in
  let! s := flatLin tag c [] in
  verifyLinear pf (fl_stmt s) (fl_gens s) (length (fl_gens s)) (fl_eq s) st None.

(** proveQuadratic(tag,...), bulletproof.hpp 169-189. *)
Definition proveQuadraticTag (tag : string) (c : quadcon p) (xs ys : pvec p)
    (r : F) (bl : nat -> F * F) (blST blUV : F * F) : outcome (quadpf G) :=
  let st := m_init tag in
  let st := m_quad M st "constraint" c in
  let! s := flatQuad tag c xs ys in
  let n := length (fq_gs s) in
  let! C := commit2 base (fq_gs s) (fq_wG s) (fq_hs s) (fq_wH s) n r gzero 0%F in
  proveQuadratic C r st bl blST blUV (fq_gs s) (fq_wG s) (fq_hs s) (fq_wH s) n.

(** verifyQuadratic(cnstr,pf), bulletproof.hpp 191-201. *)
Definition verifyQuadraticTag (tag : string) (c : quadcon p) (pf : quadpf G) : outcome bool :=
  let st := m_init tag in
  let st := m_quad M st "constraint" c in
  let! s := flatQuad tag c [] [] in
  verifyQuadratic pf (fq_gs s) (fq_hs s) (length (fq_gs s)) (fq_eq s) st None None.

(** The loop of proveNormSquared, bulletproof.cpp 420-425. *)
Fixpoint norm_loop (k : nat) (wG wH : list F) (e x2i x : F) : outcome (list F * list F * F) :=
  match k with
  | O => Ret (wG, wH, e)
  | S k' =>
      match wG, wH with
      | a :: wG', b :: wH' =>
          let! res := norm_loop k' wG' wH' (e - x2i * x2i)%F (x2i * x)%F x in
          let '(g, h, e') := res in Ret ((a + x2i)%F :: g, (b - x2i)%F :: h, e')
      | _, _ => UB
      end
  end.
(** proveNormSquared, bulletproof.cpp 404-439.  The caller's Merlin state is
    [st]; the verifier below starts from m_init tag. *)
Definition proveNormSquared (tag : string) (st : mst M) (vec : pvec p)
    (r : F) (bl : nat -> F * F) (blST blUV : F * F) : outcome (F * quadpf G) :=
  let c := QuadCon (map fst vec)
             (fold_left (fun e kv => (e + snd kv * snd kv)%F) vec 0%F) in
  let! s := flatQuad tag c vec vec in
  let st := m_quad M st "normSquared" c in
  let '(x, st) := m_chal M st "x" in
  let! res := norm_loop (length vec) (fq_wG s) (fq_wH s) (fq_eq s) x x in
  let '(wG, wH, e) := res in
  let n := length (fq_gs s) in
  let! C := commit2 base (fq_gs s) wG (fq_hs s) wH n r gzero 0%F in
  let! pf := proveQuadratic C r st bl blST blUV (fq_gs s) wG (fq_hs s) wH n in
  Ret (qeq c, pf).

(** The loop of verifyNormSquared, bulletproof.cpp 456-459. *)
Fixpoint norm_eq_loop (k : nat) (e xto2i x2 : F) : F :=
  match k with
  | O => e
  | S k' => norm_eq_loop k' (e - xto2i)%F (xto2i * x2)%F x2
  end.
(** verifyNormSquared, bulletproof.cpp 440-465. *)
Definition verifyNormSquared (tag : string) (indexes : list Z) (normSq : F) (pf : quadpf G)
  : outcome bool :=
  let st := m_init tag in
  let c := QuadCon indexes normSq in
  let! s := flatQuad tag c [] [] in
  let st := m_quad M st "normSquared" c in
  let '(x, st) := m_chal M st "x" in
  let x2 := (x * x)%F in
  let e := norm_eq_loop (length indexes) (fq_eq s) x2 x2 in
  verifyQuadratic pf (fq_gs s) (fq_hs s) (length (fq_gs s)) e st None None.
End BP.
