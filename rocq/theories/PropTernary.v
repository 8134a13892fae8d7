(** Properties C31-C34: ternary matrices. *)
From Coq Require Import ZArith Znumtheory List Lia.
From Verif Require Import Outcome Fp FSum Ring TernaryModel TernarySpec TernaryProofs.
Import ListNotations.
Open Scope Z_scope.

Definition s17 := @toF 17.

(** C31. *)
Theorem C31_decode buf n m : (0 < n)%nat -> bytes buf -> (n * ((m + 3) / 4) <= length buf)%nat ->
  exists M, setFromBytes buf n m = Ret M /\ is_tmat M n m (byte_entry buf m) /\ ternary n m (byte_entry buf m).
Proof.
  intros Hn Hb Hl. destruct (setFromBytes_spec buf n m Hn (bytes_nth buf Hb) Hl) as [M [E H]].
  exists M. split; [exact E|]. split; [exact H|]. intros i j _ _. apply two_bits_ternary.
Qed.
Print Assumptions C31_decode.
Theorem C31_bytes_read buf n m : (length buf < n * ((m + 3) / 4))%nat -> setFromBytes buf n m = UB.
Proof. exact (setFromBytes_short buf n m). Qed.
Print Assumptions C31_bytes_read.
Theorem C31_no_more_read buf rest n m : length buf = (n * ((m + 3) / 4))%nat ->
  setFromBytes (buf ++ rest) n m = setFromBytes buf n m.
Proof.
  intros H. apply setFromBytes_ext; unfold rowBytes; rewrite <- H; [|rewrite app_length; lia|lia].
  now rewrite firstn_app, Nat.sub_diag, firstn_O, app_nil_r.
Qed.
Print Assumptions C31_no_more_read.
Theorem C31_decodeE (ell : nat) buf n m : (0 < n)%nat -> bytes buf -> (ell * (n * ((m + 3) / 4)) <= length buf)%nat ->
  exists Ms, setFromBytesE buf n m (ell := ell) = Ret Ms /\
    is_temat ell Ms n m (fun k i j => byte_entry (skipn (k * (n * ((m + 3) / 4))) buf) m i j).
Proof. intros Hn Hb. exact (setFromBytesE_spec buf n m Hn (bytes_nth buf Hb)). Qed.
Print Assumptions C31_decodeE.
Theorem C31_entryE (p : Z) (ell : nat) Ms n m f i j : is_temat ell Ms n m f -> (i < n)%nat -> (j < m)%nat ->
  te_get Ms i j = Ret (@ofdigits p ell (fun k => f k i j)).
Proof. exact (te_get_spec Ms n m f i j). Qed.
Print Assumptions C31_entryE.
(* bytes 0x1b = 00 01 10 11 from the top: entries 0 (11), -1, 1, 0 *)
Example C31_example : exists M, setFromBytes [27; 2; 228; 1] 2 5 = Ret M /\
  entries M = Ret [[0; -1; 1; 0; -1]; [0; 1; -1; 0; 1]].
Proof. eexists. split; [reflexivity|]. reflexivity. Qed.
Example C31_example_E : exists Ms, setFromBytesE (ell := 2) [1; 2] 1 1 = Ret Ms /\
  is_temat 2 Ms 1 1 (fun k _ _ => if Nat.eqb k 0 then 1 else -1).
Proof.
  eexists. split; [reflexivity|]. split; [reflexivity|].
  assert (T : forall z, z = 1 \/ z = -1 -> ternary 1 1 (fun _ _ => z)) by (intros z [->| ->] i j _ _; auto).
  intros [|[|k]] M Hk; cbn in Hk; [injection Hk as <-|injection Hk as <-|destruct k; discriminate Hk];
  (split; [split; [reflexivity|split; [reflexivity|]]|apply T; auto]);
  intros i Hi; replace i with 0%nat by lia; eexists; (split; [reflexivity|split; [reflexivity|]]);
  intros j Hj; replace j with 0%nat by lia; reflexivity.
Qed.

(** C32. *)
Theorem C32_leftVec p (v : list (Fp p)) M n m f : is_tmat M n m f -> ternary n m f -> length v = n ->
  leftVecMultS v M = Ret (vecmat v n m f).
Proof. exact (leftVecMultS_spec v M n m f). Qed.
Print Assumptions C32_leftVec.
Theorem C32_rightVec p (v : list (Fp p)) M n m f : is_tmat M n m f -> ternary n m f -> length v = m ->
  rightVecMultS M v = Ret (matvec n m f v).
Proof. exact (rightVecMultS_spec v M n m f). Qed.
Print Assumptions C32_rightVec.
Theorem C32_leftMat p (A : mat (Fp p)) M n m f r : is_tmat M n m f -> ternary n m f -> mat_dims A r n ->
  leftMatMultS A M = Ret (Mat (map (fun i => vecmat (nth i (mrows A) []) n m f) (seq 0 r)) m).
Proof. exact (leftMatMultS_spec A M n m f r). Qed.
Print Assumptions C32_leftMat.
Theorem C32_rightMat p (A : mat (Fp p)) M n m f c : is_tmat M n m f -> ternary n m f -> mat_dims A m c ->
  rightMatMultS M A = Ret (Mat (map (fun i => map (fun j =>
     fsum (map (fun k => (toF p (f i k) * mget 0 A k j)%F) (seq 0 m))) (seq 0 c)) (seq 0 n)) c).
Proof. exact (rightMatMultS_spec A M n m f c). Qed.
Print Assumptions C32_rightMat.
Theorem C32_leftVecE p ell (v : list (elt p ell)) M n m f : (0 < ell)%nat ->
  is_tmat M n m f -> ternary n m f -> length v = n ->
  leftVecMultE v M = Ret (vecmatR v n m (fun i j => ofint (f i j))).
Proof.
  intros He H1 H2 H3. rewrite (leftVecMultE_raw v M n m f H1 H2 H3). f_equal. apply map_ext. intros j.
  apply esum_map_ext. intros i _. now apply sE_emul.
Qed.
Print Assumptions C32_leftVecE.
Theorem C32_rightVecE p ell (v : list (elt p ell)) M n m f : (0 < ell)%nat ->
  is_tmat M n m f -> ternary n m f -> length v = m ->
  rightVecMultE M v = Ret (matvecR n m (fun i j => ofint (f i j)) v).
Proof.
  intros He H1 H2 H3. rewrite (rightVecMultE_raw v M n m f H1 H2 H3). f_equal. apply map_ext. intros j.
  apply esum_map_ext. intros i _. now apply sE_emul_l.
Qed.
Print Assumptions C32_rightVecE.
Theorem C32_leftMatE p ell (A : mat (elt p ell)) M n m f r : (0 < ell)%nat ->
  is_tmat M n m f -> ternary n m f -> mat_dims A r n ->
  leftMatMultE A M = Ret (Mat (map (fun i => vecmatR (nth i (mrows A) []) n m (fun i j => ofint (f i j))) (seq 0 r)) m).
Proof.
  intros He H1 H2 H3. rewrite (leftMatMultE_raw A M n m f r H1 H2 H3). do 2 f_equal. apply map_ext. intros i.
  apply map_ext. intros j. apply esum_map_ext. intros k _. now apply sE_emul.
Qed.
Print Assumptions C32_leftMatE.
Theorem C32_rightMatE p ell (A : mat (elt p ell)) M n m f c : (0 < ell)%nat ->
  is_tmat M n m f -> ternary n m f -> mat_dims A m c ->
  rightMatMultE M A = Ret (Mat (map (fun i => map (fun j =>
     esum (map (fun k => emul (ofint (f i k)) (mget e0 A k j)) (seq 0 m))) (seq 0 c)) (seq 0 n)) c).
Proof.
  intros He H1 H2 H3. rewrite (rightMatMultE_raw A M n m f c H1 H2 H3). do 2 f_equal. apply map_ext. intros i.
  apply map_ext. intros j. apply esum_map_ext. intros k _. now apply sE_emul_l.
Qed.
Print Assumptions C32_rightMatE.
(** Dimension mismatches. *)
Theorem C32_mismatch p ell (v : list (Fp p)) (w : list (elt p ell)) (A : mat (Fp p)) (B : mat (elt p ell)) M :
  (length v <> tNumRows M -> leftVecMultS v M = Throw) /\
  (length v <> tNumCols M -> rightVecMultS M v = Throw) /\
  (length w <> tNumRows M -> leftVecMultE w M = Throw) /\
  (length w <> tNumCols M -> rightVecMultE M w = Throw) /\
  (mcols A <> tNumRows M -> leftMatMultS A M = Throw) /\
  (tNumCols M <> length (mrows A) -> rightMatMultS M A = Throw) /\
  (mcols B <> tNumRows M -> leftMatMultE B M = Throw) /\
  (tNumCols M <> length (mrows B) -> rightMatMultE M B = Throw).
Proof.
  exact (conj (leftVecMult_throw _ _ _ v M) (conj (rightVecMult_throw _ _ _ v M)
   (conj (leftVecMult_throw _ _ _ w M) (conj (rightVecMult_throw _ _ _ w M)
   (conj (leftMatMult_throw _ _ _ A M) (conj (rightMatMult_throw _ _ _ A M)
   (conj (leftMatMult_throw _ _ _ B M) (rightMatMult_throw _ _ _ B M)))))))).
Qed.
Print Assumptions C32_mismatch.
Example C32_example : exists M, setFromBytes [27; 2; 228; 1] 2 5 = Ret M /\
  leftVecMultS [s17 3; s17 5] M = Ret [s17 0; s17 2; s17 15; s17 0; s17 2] /\
  rightVecMultS M [s17 1; s17 2; s17 3; s17 4; s17 5] = Ret [s17 13; s17 4].
Proof.
  eexists. split; [reflexivity|]. split; vm_compute; f_equal; repeat (apply f_equal2; [apply Fp_eq; reflexivity|]); reflexivity.
Qed.

(** C33. *)
Theorem C33_leftVec p ell (v : list (elt p ell)) Ms n m f : (0 < ell)%nat -> is_temat ell Ms n m f -> length v = n ->
  leftVecMultTE v Ms = Ret (vecmatR v n m (fun i j => ofdigits (fun k => f k i j))).
Proof. exact (leftVecMultTE_spec v Ms n m f). Qed.
Print Assumptions C33_leftVec.
Theorem C33_rightVec p ell (v : list (elt p ell)) Ms n m f : (0 < ell)%nat -> is_temat ell Ms n m f -> length v = m ->
  rightVecMultTE Ms v = Ret (matvecR n m (fun i j => ofdigits (fun k => f k i j)) v).
Proof. exact (rightVecMultTE_spec v Ms n m f). Qed.
Print Assumptions C33_rightVec.
Theorem C33_leftMat p ell (A : mat (elt p ell)) Ms n m f r : (0 < ell)%nat -> is_temat ell Ms n m f -> mat_dims A r n ->
  leftMatMultTE A Ms = Ret (Mat (map (fun i => vecmatR (nth i (mrows A) []) n m (fun i j => ofdigits (fun k => f k i j))) (seq 0 r)) m).
Proof. exact (leftMatMultTE_spec A Ms n m f r). Qed.
Print Assumptions C33_leftMat.
Theorem C33_rightMat p ell (A : mat (elt p ell)) Ms n m f c : (0 < ell)%nat -> is_temat ell Ms n m f -> mat_dims A m c ->
  rightMatMultTE Ms A = Ret (Mat (map (fun i => map (fun j =>
     esum (map (fun t => emul (ofdigits (fun k => f k i t)) (mget e0 A t j)) (seq 0 m))) (seq 0 c)) (seq 0 n)) c).
Proof. exact (rightMatMultTE_spec A Ms n m f c). Qed.
Print Assumptions C33_rightMat.
(** An uninitialised matrix (another number of digits than the degree, or a degree
    of 0) throws in all four products. *)
Theorem C33_uninitialised p ell (v : list (elt p ell)) (A : mat (elt p ell)) Ms : length Ms <> ell \/ ell = 0%nat ->
  leftVecMultTE v Ms = Throw /\ rightVecMultTE Ms v = Throw /\ leftMatMultTE A Ms = Throw /\ rightMatMultTE Ms A = Throw.
Proof.
  intros H. unfold leftVecMultTE, rightVecMultTE, leftMatMultTE, rightMatMultTE, horner.
  destruct (Nat.eqb_spec (length Ms) ell), (Nat.eqb_spec ell 0); cbn; try (repeat split; reflexivity). exfalso. destruct H; contradiction.
Qed.
Print Assumptions C33_uninitialised.
(* (2 + 3X)(1 - X) = 5 + X modulo X^2+1 *)
Example C33_example : exists Ms, setFromBytesE (ell := 2) [1; 2] 1 1 = Ret Ms /\
  leftVecMultTE [mkE 2 (fun i => s17 (if Nat.eqb i 0 then 2 else 3))] Ms =
   Ret [mkE 2 (fun i => s17 (if Nat.eqb i 0 then 5 else 1))].
Proof.
  eexists. split; [reflexivity|]. vm_compute. f_equal. apply f_equal2; [|reflexivity]. apply elt_eq. cbn.
  repeat (apply f_equal2; [apply Fp_eq; reflexivity|]); reflexivity.
Qed.

(** C34: with a buffer of (n*m+3)/4 bytes the reads stay inside exactly when the
    padding of the rows is less than four entries in total. *)
Definition exact_challenge (challenge : nat -> list Z) : Prop :=
  forall k, length (challenge k) = k /\ bytes (challenge k).
Theorem C34_partial challenge n m : exact_challenge challenge -> (0 < n)%nat ->
  ((exists M, newTernaryMatrix challenge n m = Ret M) <-> (n * ((4 - m mod 4) mod 4) < 4)%nat).
Proof. intros H Hn. apply (newTernaryMatrix_ok challenge (fun k => proj1 (H k)) (fun k => proj2 (H k)) n m Hn). Qed.
Print Assumptions C34_partial.
Theorem C34_E_partial challenge ell n m : exact_challenge challenge -> (0 < ell)%nat -> (0 < n)%nat ->
  ((exists M, newTernaryEMatrix (ell := ell) challenge n m = Ret M) <-> (n * ((4 - m mod 4) mod 4) < 4)%nat).
Proof. intros H He Hn. apply (newTernaryEMatrix_ok challenge (fun k => proj1 (H k)) (fun k => proj2 (H k)) ell n m He Hn). Qed.
Print Assumptions C34_E_partial.
(** Number of columns a multiple of four: always safe. *)
Theorem C34_multiple_of_four_partial challenge ell n q : exact_challenge challenge -> (0 < ell)%nat -> (0 < n)%nat ->
  exists M, newTernaryEMatrix (ell := ell) challenge n (4 * q) = Ret M.
Proof.
  intros H He Hn. apply C34_E_partial; [assumption..|]. replace (4 * q)%nat with (q * 4)%nat by lia.
  rewrite Nat.mod_mul by lia. change ((4 - 0) mod 4)%nat with 0%nat. lia.
Qed.
Print Assumptions C34_multiple_of_four_partial.
Theorem C34_refuted : exists n m, (0 < n)%nat /\ (0 < m)%nat /\
  forall challenge, exact_challenge challenge -> newTernaryMatrix challenge n m = UB.
Proof.
  exists 4%nat, 1%nat. repeat split; try lia. intros ch H.
  apply (newTernaryMatrix_ok ch (fun k => proj1 (H k)) (fun k => proj2 (H k))); [lia|]. cbn. lia.
Qed.
Print Assumptions C34_refuted.
(** The matrix R2 of proveEncryption (regevProofs.cpp 194-196), LINYDIM = 128 rows
    by enn columns: undefined whenever enn is not a multiple of four. *)
Theorem C34_R2_refuted challenge enn : exact_challenge challenge -> (enn mod 4 <> 0)%nat ->
  newTernaryEMatrix (ell := 2) challenge 128 enn = UB.
Proof.
  intros H Hm. apply (newTernaryEMatrix_ok challenge (fun k => proj1 (H k)) (fun k => proj2 (H k))); [lia|lia|].
  unfold slack. pose proof (Nat.mod_upper_bound enn 4 ltac:(lia)).
  assert (enn mod 4 = 1 \/ enn mod 4 = 2 \/ enn mod 4 = 3)%nat as [->|[->| ->]] by lia; cbn; lia.
Qed.
Print Assumptions C34_R2_refuted.
Example C34_example : exact_challenge (fun k => repeat 27 k) /\
  exists M, newTernaryMatrix (fun k => repeat 27 k) 3 5 = UB /\ newTernaryMatrix (fun k => repeat 27 k) 3 3 = Ret M.
Proof.
  split.
  - intros k. split; [apply repeat_length|]. apply Forall_forall. intros x Hx. apply repeat_spec in Hx. subst x. lia.
  - eexists. split; reflexivity.
Qed.
