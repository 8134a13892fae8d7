(** STROBE v1.0.2 and Merlin v1.0 as published, without the transport flag.
    (strobe.sourceforge.io/specs, merlin.cool/transcript; the code in /repo is not used.) *)
From Coq Require Import ZArith List Bool String Ascii.
Import ListNotations.
Open Scope Z_scope.

Record duplexer := Dx { bytes : list Z; at_ : nat; begin_ : nat; flags_ : Z }.
Definition flagI : Z := 1.
Definition flagA : Z := 2.
Definition flagC : Z := 4.
Definition flagT : Z := 8.
Definition flagM : Z := 16.
Definition flagK : Z := 32.
Definition has (flags x : Z) : bool := negb (Z.land flags x =? 0).

(** Byte i replaced by its image under g. *)
Definition at_byte (i : nat) (g : Z -> Z) (s : list Z) : list Z := firstn i s ++ map g (firstn 1 (skipn i s)) ++ skipn (S i) s.
Section Spec.
Variable F : list Z -> list Z.
(** The rate is 166 for 128 bits of security. *)
Definition runF (c : duplexer) : duplexer :=
  let s := at_byte (at_ c) (fun b => Z.lxor b (Z.of_nat (begin_ c))) (bytes c) in
  let s := at_byte (at_ c + 1) (fun b => Z.lxor b 0x04) s in
  let s := at_byte (166 + 1) (fun b => Z.lxor b 0x80) s in
  Dx (F s) 0 0 (flags_ c).
Fixpoint duplex (cbefore cafter : bool) (c : duplexer) (data : list Z) : list Z * duplexer :=
  match data with
  | [] => ([], c)
  | d :: data =>
      let old := nth (at_ c) (bytes c) 0 in
      let d := if cbefore then Z.lxor d old else d in
      let new := Z.lxor old d in
      let out := if cafter then new else d in
      let c := Dx (at_byte (at_ c) (fun _ => new) (bytes c)) (at_ c + 1) (begin_ c) (flags_ c) in
      let c := if (at_ c =? 166)%nat then runF c else c in
      let r := duplex cbefore cafter c data in
      (out :: fst r, snd r)
  end.
Definition force (c : duplexer) : duplexer := if (at_ c =? 0)%nat then c else runF c.
Definition beginOp (flags : Z) (c : duplexer) : duplexer :=
  let c' := snd (duplex false false (Dx (bytes c) (at_ c) (at_ c + 1) flags) [Z.of_nat (begin_ c); flags]) in
  if has flags (flagC + flagK) then force c' else c'.
(** One operation; data is a string of zeros if the operation produces output.
    None: the flags were changed while continuing. *)
Definition operate (flags : Z) (more : bool) (c : duplexer) (data : list Z) : option (list Z * duplexer) :=
  let start := if more then (if flags_ c =? flags then Some c else None) else Some (beginOp flags c) in
  let cafter := Z.land flags (flagC + flagI + flagT) =? flagC + flagT in
  let cbefore := has flags flagC && negb cafter in
  match start with None => None | Some c => Some (duplex cbefore cafter c data) end.
Definition operation := bool -> duplexer -> list Z -> option (list Z * duplexer).
Definition AD : operation := operate flagA.
Definition KEY : operation := operate (flagA + flagC).
Definition PRF : operation := operate (flagI + flagA + flagC).
Definition metaAD : operation := operate (flagM + flagA).

(** STROBEv1.0.2 with 12 characters, R + 2 = 168. *)
Definition ascii_bytes (s : string) : list Z := map (fun c => Z.of_nat (nat_of_ascii c)) (list_ascii_of_string s).
Definition domain : list Z := [1; 166 + 2; 1; 0; 1; 12 * 8] ++ ascii_bytes "STROBEv1.0.2".
Definition fresh : duplexer := Dx (F (domain ++ repeat 0 (200 - List.length domain))) 0 0 0.

(** Merlin over any operation in the place of meta-AD. *)
Section Merlin.
Variable meta : operation.
Definition LE32 (n : nat) : list Z := map (fun i => (Z.of_nat n / 256 ^ i) mod 256) [0; 1; 2; 3].
Definition also {A B} (o : option A) (g : A -> option B) : option B := match o with None => None | Some a => g a end.
Definition framed (op : operation) (c : duplexer) (label : list Z) (data : list Z) : option (list Z * duplexer) :=
  also (meta false c label) (fun r => also (meta true (snd r) (LE32 (List.length data))) (fun r => op false (snd r) data)).
Inductive event := Msg (label message : list Z) | Chal (label : list Z) (n : nat).
(** The challenges of a transcript. *)
Fixpoint events (c : duplexer) (l : list event) : option (list (list Z) * duplexer) :=
  match l with
  | [] => Some ([], c)
  | Msg label m :: l => also (framed AD c label m) (fun r => events (snd r) l)
  | Chal label n :: l => also (framed PRF c label (repeat 0 n)) (fun r => also (events (snd r) l) (fun q => Some (fst r :: fst q, snd q)))
  end.
Definition merlin (label : list Z) (l : list event) : option (list (list Z)) :=
  also (meta false fresh (ascii_bytes "Merlin v1.0")) (fun r =>
    also (events (snd r) (Msg (ascii_bytes "dom-sep") label :: l)) (fun q => Some (fst q))).
End Merlin.
End Spec.
