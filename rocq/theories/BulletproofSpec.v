(** Vocabulary for the security statements about the proofs: challenges chosen
    by an external party, trees of transcripts, openings, relations. *)
From Coq Require Import String.
From Coq Require Import ZArith List Bool.
From Verif Require Import Outcome Fp GroupMod FSum ConstraintsModel BulletproofModel.
Import ListNotations.
Open Scope Z_scope.

Section Spec.
Context {p : Z} {G : gmod p}.
Notation F := (Fp p).

(** The verifier run interactively: the challenges are taken one by one from a
    list and the extra generator is [Fg]. *)
Definition script (Fg : G) : merlin G :=
  Merlin p G (list F)
    (fun st _ _ => st)
    (fun st _ => match st with x :: st' => (x, st') | [] => (0%F, []) end)
    (fun st _ => (Fg, st))
    (fun st _ _ => st)
    (fun st _ _ => st).

(** *** Trees of transcripts of the linear proof: 3 challenges per halving
    round, 2 in the last step. *)
Inductive ltree : Type :=
| LLeaf (S : G) (x1 a1 r1 x2 a2 r2 : F)
| LNode (L R : G) (x1 x2 x3 : F) (t1 t2 t3 : ltree).
Record lpath := LPath { lt_Ls : list G; lt_Rs : list G; lt_xs : list F;
                        lt_S : G; lt_x : F; lt_a : F; lt_r : F }.
Definition lcons (L R : G) (x : F) (q : lpath) : lpath :=
  LPath (L :: lt_Ls q) (R :: lt_Rs q) (x :: lt_xs q) (lt_S q) (lt_x q) (lt_a q) (lt_r q).
Fixpoint lpaths (t : ltree) : list lpath :=
  match t with
  | LLeaf s x1 a1 r1 x2 a2 r2 => [LPath [] [] [] s x1 a1 r1; LPath [] [] [] s x2 a2 r2]
  | LNode L R x1 x2 x3 t1 t2 t3 =>
      map (lcons L R x1) (lpaths t1) ++ map (lcons L R x2) (lpaths t2) ++ map (lcons L R x3) (lpaths t3)
  end.
(** challenges of siblings differ *)
Fixpoint ldistinct (t : ltree) : Prop :=
  match t with
  | LLeaf _ x1 _ _ x2 _ _ => x1 <> x2
  | LNode _ _ x1 x2 x3 t1 t2 t3 =>
      NoDup [x1; x2; x3] /\ ldistinct t1 /\ ldistinct t2 /\ ldistinct t3
  end.
(** every root-to-leaf transcript with first message C is accepted *)
Definition laccepting (base Fg : G) (gs : list G) (bs : list F) (eq : F) (off : option (list F))
    (C : G) (t : ltree) : Prop :=
  forall q, In q (lpaths t) ->
    verifyLinear base (script Fg) (LinPf C (lt_Ls q) (lt_Rs q) (lt_S q) (lt_a q) (lt_r q))
      bs gs (length gs) eq (lt_xs q ++ [lt_x q]) off = Ret true.

(** *** Quadratic proof: 4 challenges per round, 5 in the last step. *)
Inductive qtree : Type :=
| QLeaf (S1 S2 : G) (l : list (F * (F * F * F)))   (* (x, (a,b,r)) *)
| QNode (L R : G) (x1 x2 x3 x4 : F) (t1 t2 t3 t4 : qtree).
Record qpath := QPath { qt_Ls : list G; qt_Rs : list G; qt_xs : list F;
                        qt_S1 : G; qt_S2 : G; qt_x : F; qt_a : F; qt_b : F; qt_r : F }.
Definition qcons (L R : G) (x : F) (q : qpath) : qpath :=
  QPath (L :: qt_Ls q) (R :: qt_Rs q) (x :: qt_xs q) (qt_S1 q) (qt_S2 q) (qt_x q) (qt_a q) (qt_b q) (qt_r q).
Fixpoint qpaths (t : qtree) : list qpath :=
  match t with
  | QLeaf S1 S2 l => map (fun e => let '(x, (a, b, r)) := e in QPath [] [] [] S1 S2 x a b r) l
  | QNode L R x1 x2 x3 x4 t1 t2 t3 t4 =>
      map (qcons L R x1) (qpaths t1) ++ map (qcons L R x2) (qpaths t2) ++
      map (qcons L R x3) (qpaths t3) ++ map (qcons L R x4) (qpaths t4)
  end.
Fixpoint qdistinct (t : qtree) : Prop :=
  match t with
  | QLeaf _ _ l => NoDup (map fst l) /\ length l = 5%nat
  | QNode _ _ x1 x2 x3 x4 t1 t2 t3 t4 =>
      NoDup [x1; x2; x3; x4] /\ qdistinct t1 /\ qdistinct t2 /\ qdistinct t3 /\ qdistinct t4
  end.
Definition qaccepting (base Fg : G) (gs hs : list G) (eq : F) (offu offv : option (list F))
    (C : G) (t : qtree) : Prop :=
  forall q, In q (qpaths t) ->
    verifyQuadratic base (script Fg)
      (QuadPf C (qt_Ls q) (qt_Rs q) (qt_S1 q) (qt_S2 q) (qt_a q) (qt_b q) (qt_r q))
      gs hs (length gs) eq (qt_xs q ++ [qt_x q]) offu offv = Ret true.

(** A non-trivial linear relation between generators. *)
Definition relation (gs : list G) (cs : list F) : Prop :=
  length cs = length gs /\ gdot gs cs = gzero /\ ~ Forall (fun c => c = 0%F) cs.

Definition offset (off : option (list F)) (n : nat) : list F :=
  match off with None => repeat 0%F n | Some o => o end.
End Spec.
Arguments ltree {p} G.
Arguments qtree {p} G.
Arguments lpath {p} G.
Arguments qpath {p} G.
