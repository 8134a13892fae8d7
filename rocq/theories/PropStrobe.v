(** C101: the transcript is Merlin v1.0. *)
From Coq Require Import ZArith List Bool Lia String.
From Verif Require Import Outcome Bytes KeccakModel KeccakSpec KeccakProofs MerlinModel MerlinSpec MerlinProofs StrobeSpec StrobeLink StrobeProofs.
Import ListNotations.
Open Scope Z_scope.

(** The operations ad, key and prf are those of STROBE. *)
Theorem C101_operations f : perm_ok f ->
  same_as (AD f) (ad f) /\ same_as (KEY f) (key f) /\
  (forall c n more, in_bounds c ->
     match PRF f more (view c) (repeat 0 n) with
     | Some (o, d) => exists c', prf f c n more = Ret (o, c') /\ in_bounds c' /\ view c' = d
     | None => prf f c n more = Abort
     end).
Proof. intros H. split; [exact (ad_op f H)|]. split; [exact (key_op f H)|]. intros c n more. exact (prf_op f H c n more). Qed.
Print Assumptions C101_operations.

(** Partial: every transcript is Merlin's up to the operation used for labels and lengths. *)
Theorem C101_partial f label calls : perm_ok f -> bytes_ok label -> Forall call_ok calls ->
  match merlin f (odd_meta f) label (map event_of calls) with
  | Some o => exists c', run f label calls = Ret (o, c')
  | None => run f label calls = Abort
  end.
Proof. intros H. exact (run_merlin f H label calls). Qed.
Print Assumptions C101_partial.

(** Whatever is added as a label could have been a key. *)
Theorem C101_key f c data more : perm_ok f -> in_bounds c -> bytes_ok data ->
  exists data', List.length data' = List.length data /\ bytes_ok data' /\ key f c data' more = meta_ad f c data more.
Proof. intros H. exact (meta_key f H c data more). Qed.
Print Assumptions C101_key.

(** The test vector of the Merlin library, and what the code computes. *)
Definition test_calls : list call := [Append (ascii_bytes "some label") (ascii_bytes "some data"); Challenge (ascii_bytes "challenge") 32].
Definition test_vector : list Z :=
  [0xd5; 0xa2; 0x19; 0x72; 0xd0; 0xd5; 0xfe; 0x32; 0x0c; 0x0d; 0x26; 0x3f; 0xac; 0x7f; 0xff; 0xb8;
   0x14; 0x5a; 0xa6; 0x40; 0xaf; 0x6e; 0x9b; 0xca; 0x17; 0x7c; 0x03; 0xc7; 0xef; 0xcf; 0x06; 0x15].
Example C101_example : merlin keccakf (metaAD keccakf) (ascii_bytes "test protocol") (map event_of test_calls) = Some [test_vector] /\
  bytes_ok (ascii_bytes "test protocol") /\ Forall call_ok test_calls.
Proof.
  split; [vm_compute; reflexivity|]. assert (B : forall s, forallb (fun b => (0 <=? b) && (b <? 256)) s = true -> bytes_ok s).
  { intros s H. rewrite forallb_forall in H. apply Forall_forall. intros b Hb. apply H in Hb. apply andb_true_iff in Hb as [H1 H2]. unfold is_byte. lia. }
  split; [apply B; reflexivity|].
  apply Forall_cons; [split; apply B; reflexivity|]. apply Forall_cons; [apply B; reflexivity|constructor].
Qed.
Theorem C101_refuted : exists label calls o o' c', bytes_ok label /\ Forall call_ok calls /\
  merlin keccakf (metaAD keccakf) label (map event_of calls) = Some o /\ run keccakf label calls = Ret (o', c') /\ o <> o'.
Proof.
  destruct C101_example as (H1 & H2 & H3).
  assert (M : match run keccakf (ascii_bytes "test protocol") test_calls with Ret (o, _) => nth 0 (nth 0 o []) 0 =? 228 | _ => false end = true) by (vm_compute; reflexivity).
  assert (R : exists o' c', run keccakf (ascii_bytes "test protocol") test_calls = Ret (o', c') /\ nth 0 (nth 0 o' []) 0 = 228).
  { destruct (run keccakf (ascii_bytes "test protocol") test_calls) as [[o' c']| | |]; try discriminate M. exists o', c'. split; [reflexivity|]. now apply Z.eqb_eq. }
  destruct R as (o' & c' & R1 & R2). exists (ascii_bytes "test protocol"), test_calls, [test_vector], o', c'.
  repeat (split; [assumption|]). intros <-. discriminate R2.
Qed.
Print Assumptions C101_refuted.
