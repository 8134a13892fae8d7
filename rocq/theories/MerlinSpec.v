(** Vocabulary for the transcript properties. *)
From Coq Require Import ZArith List.
From Verif Require Import Outcome Bytes MerlinModel.
Import ListNotations.
Open Scope Z_scope.

(** 200 bytes. *)
Definition state200 (s : list Z) : Prop := length s = 200%nat /\ bytes_ok s.
(** The sponge is in good shape: the next byte position is below the rate. *)
Definition in_bounds (c : strobe) : Prop :=
  state200 (st c) /\ 0 <= pos c < 166 /\ 0 <= pos_begin c <= 166.

(** Histories of a transcript. *)
Inductive call := Append (label message : list Z) | Challenge (label : list Z) (n : nat).
Definition call_ok (a : call) : Prop :=
  match a with Append l m => bytes_ok l /\ bytes_ok m | Challenge l _ => bytes_ok l end.
(** The outputs of the challenges, and the final state. *)
Fixpoint exec (f : list Z -> list Z) (c : strobe) (calls : list call) : outcome (list (list Z) * strobe) :=
  match calls with
  | [] => Ret ([], c)
  | Append l m :: calls' => let! c := commit_bytes f c l m in exec f c calls'
  | Challenge l n :: calls' =>
      let! o := challenge_bytes f c l n in
      let! r := exec f (snd o) calls' in
      Ret (fst o :: fst r, snd r)
  end.
(** A permutation of the right type. *)
Definition perm_ok (f : list Z -> list Z) : Prop := forall s, state200 s -> state200 (f s).
(** A whole transcript. *)
Definition run (f : list Z -> list Z) (label : list Z) (calls : list call) : outcome (list (list Z) * strobe) :=
  let! c := transcript_init f label in exec f c calls.
(** A constraint as the data it stands for: indexes with 32-byte coefficients, and the right-hand side. *)
Definition lin_constraint : Type := list (Z * list Z) * list Z.
Definition quad_constraint : Type := list Z * list Z.

(** Histories of a prover, who also draws blinding factors. *)
Inductive pcall := Public (a : call)
  | Blind (label : list Z) (xes : list (list Z)) (ys : option (list (list Z))) (entropy : list Z).
Definition pcall_ok (a : pcall) : Prop :=
  match a with
  | Public a => call_ok a
  | Blind l xes ys e => bytes_ok l /\ Forall bytes_ok xes /\ bytes_ok e /\
      match ys with None => True | Some ys => Forall bytes_ok ys /\ length ys = length xes end
  end.
Fixpoint public (calls : list pcall) : list call :=
  match calls with
  | [] => []
  | Public a :: calls' => a :: public calls'
  | Blind _ _ _ _ :: calls' => public calls'
  end.
(** Like [exec], the blinding factors are thrown away. *)
Fixpoint pexec (f : list Z -> list Z) (c : strobe) (calls : list pcall) : outcome (list (list Z) * strobe) :=
  match calls with
  | [] => Ret ([], c)
  | Public (Append l m) :: calls' => let! c := commit_bytes f c l m in pexec f c calls'
  | Public (Challenge l n) :: calls' =>
      let! o := challenge_bytes f c l n in
      let! r := pexec f (snd o) calls' in
      Ret (fst o :: fst r, snd r)
  | Blind l xes ys e :: calls' =>
      let! o := newBlindingFactors f c l (length xes) xes ys e in
      pexec f (fst o) calls'
  end.
Fixpoint processLins (f : list Z -> list Z) (c : strobe) (label : list Z) (cs : list lin_constraint) : outcome strobe :=
  match cs with
  | [] => Ret c
  | x :: cs' => let! c := processLin f c label (fst x) (snd x) in processLins f c label cs'
  end.
Fixpoint processQuads (f : list Z -> list Z) (c : strobe) (label : list Z) (cs : list quad_constraint) : outcome strobe :=
  match cs with
  | [] => Ret c
  | x :: cs' => let! c := processQuad f c label (fst x) (snd x) in processQuads f c label cs'
  end.
