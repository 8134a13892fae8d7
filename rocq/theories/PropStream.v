(** Properties C26, C78: reading proofs, scalars and points from a stream. *)
From Coq Require Import ZArith List Bool Lia.
From Verif Require Import Outcome Bytes Fp Prime25519 Scalar25519Model Scalar25519Spec Scalar25519Proofs StreamModel StreamSpec StreamProofs.
Import ListNotations.
Open Scope Z_scope.

(** ** C26: a proof that is written and read back *)
(** Exactly when it works, for a tag that is a single word: C must start with a
    white-space byte, there must be rounds, and the bytes after the two counts must
    not be digits. *)
Theorem C26_partial n t old : well_formed n t -> well_formed n old -> word (tTag t) ->
  Z.of_nat (length (tLs t)) <= (2 ^ 63 - 1) / 32 -> Z.of_nat (length (tRs t)) <= (2 ^ 63 - 1) / 32 ->
  (round_trips t old <->
   starts_white (tC t) /\ tLs t <> [] /\ ~ starts_digit (concat (tLs t)) /\ ~ starts_digit (concat (tRs t) ++ concat (tEnd t))).
Proof.
  intros H H' W ML MR. split; [exact (round_trip_only n t old H H' W ML MR)|].
  intros (A & B & C & D). exact (round_trip_ok n t old H H' W ML MR A B C D).
Qed.
(** And if no byte is white space, the behaviour is undefined. *)
Theorem C26_uninitialised t old : word (writeTr t) -> readTr (IS (writeTr t) false false) old = UB.
Proof. apply no_white_ub. Qed.
Print Assumptions C26_partial.
Print Assumptions C26_uninitialised.
(** "blah", as in the tests; points equal to the base point of ed25519 (58 66 66 ..
    66), scalars equal to 1. *)
Definition base_bytes : list Z := 88 :: repeat 102 31.
Definition one_bytes : list Z := 1 :: repeat 0 31.
Definition pf_bad : trans := Tr [98; 108; 97; 104] base_bytes [base_bytes; base_bytes] [base_bytes; base_bytes] [base_bytes; one_bytes; one_bytes].
Definition pf_empty : trans := Tr [] p_identity [] [] [p_identity; repeat 0 32; repeat 0 32].
Lemma word_dec l : l <> [] -> forallb (fun c => negb (is_ws c)) l = true -> word l.
Proof. intros N H. split; [exact N|]. intros c Hc. rewrite <- ws_spec. rewrite forallb_forall in H. specialize (H c Hc). destruct (is_ws c); [discriminate|congruence]. Qed.
Theorem C26_refuted : exists t old, well_formed 3 t /\ well_formed 3 old /\ word (tTag t) /\ ~ round_trips t old /\
  readTr (IS (writeTr t) false false) old = UB.
Proof.
  exists pf_bad, pf_empty. assert (U : readTr (IS (writeTr pf_bad) false false) pf_empty = UB).
  { apply C26_uninitialised. apply word_dec; [discriminate|vm_compute; reflexivity]. }
  split; [repeat split; repeat constructor|]. split; [repeat split; repeat constructor|]. split; [apply word_dec; [discriminate|reflexivity]|].
  split; [|exact U]. intros (s & E & _). rewrite U in E. discriminate.
Qed.
Print Assumptions C26_refuted.
(** A transcript that does survive; one with white space in C elsewhere, which does
    not; one without rounds, which does not either. *)
Definition pf_good : trans := Tr [98; 108; 97; 104] (32 :: repeat 102 31) [base_bytes] [base_bytes] [base_bytes; one_bytes; one_bytes].
Example C26_example : round_trips pf_good pf_empty /\
  (exists t, readTr (IS (writeTr (Tr [98] (65 :: 32 :: repeat 102 30) [base_bytes] [base_bytes] [base_bytes; one_bytes; one_bytes])) false false) pf_empty = Ret t /\
     tTag (fst t) = [98; 65] /\ ifail (snd t) = true) /\
  (exists t, readTr (IS (writeTr (Tr [98] (32 :: repeat 102 31) [] [] [base_bytes; one_bytes; one_bytes])) false false) pf_empty = Ret t /\ ifail (snd t) = true).
Proof.
  split; [|split].
  - eexists. split; vm_compute; reflexivity.
  - eexists. split; [vm_compute; reflexivity|]. split; vm_compute; reflexivity.
  - eexists. split; vm_compute; reflexivity.
Qed.

(** ** C78: scalars read from a stream *)
(** A scalar that was written is read back as the same bytes, and any 32 bytes are. *)
Theorem C78_partial b l old : length b = 32%nat -> read32 (IS (b ++ l) false false) old = (b, IS l false false).
Proof. apply read32_ok. Qed.
(** No reduction or check: for every value there is a stream from which it is read in
    an unreduced form, different from the reduced one for operator==. *)
Theorem C78_unreduced (x : Fp P25519) l old : exists b, read32 (IS (b ++ l) false false) old = (b, IS l false false) /\
  string32 b /\ value b = x /\ ~ represents b x /\ forall b', represents b' x -> s_eqb b b' = false.
Proof.
  assert (R : 0 <= fval x < P25519) by (apply fval_range; reflexivity).
  assert (B : 0 <= fval x + P25519 < 256 ^ Z.of_nat 32) by (split; [lia|]; change (256 ^ Z.of_nat 32) with (2 ^ 256); assert (2 * P25519 < 2 ^ 256) by reflexivity; lia).
  exists (le_bytes 32 (fval x + P25519)). split; [apply read32_ok, le_bytes_length|]. split; [|split; [|split]].
  - split; [apply le_bytes_length|]. intros i. destruct (Nat.lt_ge_cases i 32) as [H|H].
    + pose proof (le_bytes_ok 32 (fval x + P25519)) as O. unfold bytes_ok in O. rewrite Forall_forall in O. apply O. apply nth_In. now rewrite le_bytes_length.
    + rewrite nth_overflow by now rewrite le_bytes_length. lia.
  - unfold value. rewrite le_val_bytes_small by exact B. apply Fp_eq. rewrite fval_toF. replace (fval x + P25519) with (fval x + 1 * P25519) by lia. rewrite Z_mod_plus_full. apply Z.mod_small. exact R.
  - intros [_ E]. rewrite le_val_bytes_small in E by exact B. assert (0 < P25519) by reflexivity. lia.
  - intros b' [_ E]. destruct (s_eqb _ b') eqn:Q; [|reflexivity]. apply bytes_eqb_eq in Q. subst b'.
    rewrite le_val_bytes_small in E by exact B. assert (0 < P25519) by reflexivity. lia.
Qed.
(** In particular a zero for which isZero is false: invert then throws, though it
    was tested. *)
Theorem C78_refuted : exists b, read32 (IS b false false) s_zero = (b, IS [] false false) /\ string32 b /\
  value b = 0%F /\ s_isZero b = false /\ s_invert b = Throw.
Proof.
  exists (le_bytes 32 P25519). split; [vm_compute; reflexivity|]. split.
  - split; [reflexivity|]. intros i. do 32 (destruct i as [|i]; [vm_compute; split; [discriminate|reflexivity]|]). destruct i; cbn; lia.
  - split; [apply Fp_eq; vm_compute; reflexivity|]. split; vm_compute; reflexivity.
Qed.
Print Assumptions C78_partial.
Print Assumptions C78_unreduced.
Print Assumptions C78_refuted.
