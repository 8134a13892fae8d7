(** Handing a secret from one committee to the next with the functions of SharingParams: what
    proveReShare (regevProofs.cpp 603-660) is about. *)
From Coq Require Import ZArith List Bool.
From Verif Require Import Outcome Fp FSum ShamirModel ShamirSpec TernaryModel.
Import ListNotations.
Open Scope Z_scope.

Section S.
Context {p : Z}.
Notation F := (Fp p).

(** The share of the member with evaluation point [e]; [l] has one share per member. *)
Definition member_share (evs : list Z) (l : list F) (e : Z) : F := nth (position e evs) l 0%F.
(** Vectors dealt by members of the old committee, each with the point of its dealer; the
    members of the new committee combine what they receive with the Lagrange coefficients of
    the dealers. *)
Definition combined (evs : list Z) (vs : list (Z * list F)) : outcome (list F) :=
  omapM (fun j => getSecret (map (fun v => share_of evs (snd v) j) vs) (map fst vs)) evs.
(** A dealer shares its share with random coefficients. *)
Definition dealt (evs : list Z) (l : list F) (d : Z * list F) : list F := newSharing evs (member_share evs l (fst d)) (snd d).
Definition handover (evs : list Z) (l : list F) (h : list (Z * list F)) : outcome (list F) :=
  combined evs (map (fun d => (fst d, dealt evs l d)) h).
Fixpoint handovers (evs : list Z) (l : list F) (hs : list (list (Z * list F))) : outcome (list F) :=
  match hs with
  | [] => Ret l
  | h :: hs' => let! l' := handover evs l h in handovers evs l' hs'
  end.
(** At least [t] different dealers, all members, each with t-1 coefficients. *)
Definition handover_ok (t : nat) (evs : list Z) (h : list (Z * list F)) : Prop :=
  NoDup (map fst h) /\ incl (map fst h) evs /\ (t <= length h)%nat /\ Forall (fun d => S (length (snd d)) = t) h.

(** The committees as their proofs describe them: [v i] is what member i deals, starting with
    the value it re-shares.  In every round that value is the combination of what the dealers
    [rec] of the round before sent to it. *)
Fixpoint committees (evs : list Z) (v : Z -> list F) (rs : list (list Z * (Z -> list F))) : Prop :=
  match rs with
  | [] => True
  | (rec, v') :: rs' =>
      (forall i, In i evs -> getSecret (map (fun m => share_of evs (v m) i) rec) rec = Ret (nth 0 (v' i) 0%F)) /\
      committees evs v' rs'
  end.
Definition dealers_ok (t : nat) (evs rec : list Z) : Prop := NoDup rec /\ incl rec evs /\ (t <= length rec)%nat.

(** A run: the coefficients of the first sharing and of the handovers. *)
Definition run_ok (t : nat) (evs : list Z) (r : list F * list (list (Z * list F))) : Prop :=
  S (length (fst r)) = t /\ Forall (handover_ok t evs) (snd r).
(** What the corrupted members [C] of a committee and those of the next one, [C'], see: their
    shares, the coefficients of the corrupted dealers, and everything the corrupted members of
    the next committee receive.  The corrupted members differ from round to round. *)
Definition seen_one (evs C C' : list Z) (l : list F) (h : list (Z * list F)) : list F * list (option (list F) * list F) :=
  (map (member_share evs l) C,
   map (fun d => (if existsb (Z.eqb (fst d)) C then Some (snd d) else None,
                  map (share_of evs (dealt evs l d)) C')) h).
Fixpoint seen_all (evs C : list Z) (l : list F) (rest : list (list Z * list (Z * list F)))
  : list (list F * list (option (list F) * list F)) * outcome (list F) :=
  match rest with
  | [] => ([], Ret (map (member_share evs l) C))
  | (C', h) :: rest' =>
      match handover evs l h with
      | Ret l' => let (v, o) := seen_all evs C' l' rest' in (seen_one evs C C' l h :: v, o)
      | Throw => ([seen_one evs C C' l h], Throw)
      | UB => ([seen_one evs C C' l h], UB)
      | Abort => ([seen_one evs C C' l h], Abort)
      end
  end.
(** The whole view of a run of secret [s]; one more set of corrupted members than handovers. *)
Definition view (evs C : list Z) (Cs : list (list Z)) (s : F) (r : list F * list (list (Z * list F))) :=
  seen_all evs C (tl (newSharing evs s (fst r))) (combine Cs (snd r)).
(** Fewer than [t] members are corrupted. *)
Definition few (t : nat) (evs C : list Z) : Prop := NoDup C /\ incl C evs /\ (length C < t)%nat.
End S.
