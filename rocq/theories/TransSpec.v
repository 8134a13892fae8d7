(** Vocabulary for what the proof steps put into the transcript. *)
From Coq Require Import String.
From Coq Require Import ZArith List Bool.
From Verif Require Import Outcome Fp GroupMod Ring ConstraintsModel ConstraintsSpec BulletproofModel RegevPfModel RegevStSpec.
Import ListNotations.
Open Scope Z_scope.

(** A transcript that remembers all the calls; the challenges are arbitrary
    functions [fc], [fb], [fg] of the calls so far. *)
Inductive item {p : Z} (G : gmod p) :=
| IPoint (label : string) (g : G) | ICommit (label : string) (bytes : list Z)
| IBytes (label : string) (n : nat) | IChal (label : string) | IGen (label : string)
| ILin (label : string) (con : lincon p) | IQuad (label : string) (q : quadcon p).
Arguments IPoint {p G} _ _. Arguments ICommit {p G} _ _. Arguments IBytes {p G} _ _. Arguments IChal {p G} _. Arguments IGen {p G} _.
Arguments ILin {p G} _ _. Arguments IQuad {p G} _ _.

Section Rec.
Context {p : Z} {G : gmod p}.
Variable fc : list (item G) -> string -> Fp p.
Variable fb : list (item G) -> string -> nat -> list Z.
Variable fg : list (item G) -> string -> G.
Definition recorder : rmerlin G :=
  RM (Merlin p G (list (item G))
        (fun m l g => m ++ [IPoint l g])
        (fun m l => (fc m l, m ++ [IChal l]))
        (fun m l => (fg m l, m ++ [IGen l]))
        (fun m l con => m ++ [ILin l con])
        (fun m l q => m ++ [IQuad l q]))
     (fun m l n => (fb m l n, m ++ [IBytes l n]))
     (fun m l bs => m ++ [ICommit l bs]).
End Rec.
(** The points among the calls, in order. *)
Definition points {p : Z} {G : gmod p} (m : list (item G)) : list G :=
  flat_map (fun i => match i with IPoint _ g => [g] | _ => [] end) m.
(** All proof variables except the old secret key and the variable that the
    aggregation adds, in the order in which their commitments are processed
    (regevProofs.cpp 49, 84-87, 187-188, 249-262, 449, 490-497, 704). *)
Definition absorbed_vars : list var :=
  [Pt1; DCompHi; DPadHi; DCompLo; DPadLo;
   Pt2; RR; RComp; RPad; EComp1Hi; EPad1Hi; EComp1Lo; EPad1Lo; EComp2Hi; EPad2Hi; EComp2Lo; EPad2Lo;
   Sk2; Sk2Comp; Sk2Pad; KCompHi; KPadHi; KCompLo; KPadLo; YY].
Section S.
Context {p : Z} {ell : nat} {G : gmod p} {R : rmerlin G}.
Notation pstate := (@pstate p ell G R).
(** The state of a prover who replaces the k-th scalar variable, one of the old
    secret key, by its value plus t, and the commitment of the old secret key
    accordingly.  Nothing else changes, in particular not the transcript. *)
Definition with_key (c : cfg ell G) (st : pstate) (k : Z) (t : Fp p) : pstate :=
  PS (pidx st) (upd (pcom st) Sk1 (gadd (pcom st Sk1) (gmul (nth (Z.to_nat k) (cGs c) gzero) t))) (prnd st) (plin st) (pnorm st)
     (kset (plinW st) k (coef (plinW st) k + t)%F) (pqG st) (pqH st) (pcomp st) (pz st) (pmer st).
End S.
