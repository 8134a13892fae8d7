(** The compressed equations bound the noise, except for few challenges. *)
From Coq Require Import ZArith Znumtheory Lia List Bool Arith.
From Verif Require Import Outcome Fp FSum GroupMod Ring TernaryModel TernarySpec TernaryProofs
  AlgebraModel AlgebraSpec AlgebraProofs AlgebraMore ConstraintsModel ConstraintsSpec BulletproofModel RegevModel RegevPfModel RegevPfSpec RegevPfLin RegevPfEff
  RegevStSpec CountSpec CountProofs CountTernary CountTrans StepSpec.
Import ListNotations.
Open Scope Z_scope.

Lemma is_temat_unique ell Ms n m f g : is_temat ell Ms n m f -> is_temat ell Ms n m g ->
  forall k i j, (k < ell)%nat -> (i < n)%nat -> (j < m)%nat -> f k i j = g k i j.
Proof.
  intros [L1 H1] [_ H2] k i j Hk Hi Hj. destruct (nth_error Ms k) as [M|] eqn:E; [|apply nth_error_None in E; lia].
  destruct (H1 k M E) as [(_ & _ & R1) _]. destruct (H2 k M E) as [(_ & _ & R2) _].
  destruct (R1 i Hi) as (r & E1 & _ & T1). destruct (R2 i Hi) as (r' & E2 & _ & T2). rewrite E1 in E2. injection E2 as <-.
  specialize (T1 j Hj). specialize (T2 j Hj). congruence.
Qed.

Section G.
Context {p : Z} {ell : nat}.
Hypothesis Hp : 2 <= p.
Hypothesis He : (0 < ell)%nat.
Notation F := (Fp p).
Notation E := (elt p ell).
Add Ring SSf : (@Fp_ring p).
Add Ring SSe : (elt_ring (p := p) He).

Lemma within_iff B n (v : nat -> E) : within B n v <-> forall i k, (i < n)%nat -> (k < ell)%nat -> Z.abs (balanced (coeff (v i) k)) <= B.
Proof.
  split.
  - intros H i k Hi Hk. apply (H i k); [assumption|assumption|]. now apply balanced_spec.
  - intros H i k z Hi Hk Hz. rewrite <- (is_balanced_unique Hp _ _ _ (balanced_spec Hp _) Hz). now apply H.
Qed.
Lemma within_em B n (v : nat -> E) : within B n v \/ ~ within B n v.
Proof.
  destruct (forallb (fun i => forallb (fun k => Z.abs (balanced (coeff (v i) k)) <=? B) (seq 0 ell)) (seq 0 n)) eqn:Q; [left|right].
  - apply within_iff. intros i k Hi Hk. rewrite forallb_forall in Q. specialize (Q i ltac:(apply in_seq; lia)).
    rewrite forallb_forall in Q. specialize (Q k ltac:(apply in_seq; lia)). now apply Z.leb_le.
  - intros W. rewrite within_iff in W. assert (T : forallb (fun i => forallb (fun k => Z.abs (balanced (coeff (v i) k)) <=? B) (seq 0 ell)) (seq 0 n) = true); [|congruence].
    apply forallb_forall. intros i Hi. apply in_seq in Hi. apply forallb_forall. intros k Hk. apply in_seq in Hk. apply Z.leb_le. apply W; lia.
Qed.
Lemma not_within B n (v : nat -> E) : ~ within B n v -> exists i k z, (i < n)%nat /\ (k < ell)%nat /\ is_balanced (coeff (v i) k) z /\ B < Z.abs z.
Proof.
  intros N. assert (Q : forallb (fun i => forallb (fun k => Z.abs (balanced (coeff (v i) k)) <=? B) (seq 0 ell)) (seq 0 n) = false).
  { destruct (forallb _ _) eqn:Q; [|reflexivity]. exfalso. apply N. apply within_iff. intros i k Hi Hk. rewrite forallb_forall in Q. specialize (Q i ltac:(apply in_seq; lia)).
    rewrite forallb_forall in Q. specialize (Q k ltac:(apply in_seq; lia)). now apply Z.leb_le. }
  assert (X : forall (g : nat -> bool) l, forallb g l = false -> exists i, In i l /\ g i = false).
  { intros g l. induction l as [|a l IH]; [discriminate|]. cbn. intros H. destruct (g a) eqn:A; [|exists a; auto]. destruct (IH H) as (i & Hi & Hg). exists i. auto. }
  destruct (X _ _ Q) as (i & Hi & Q2). destruct (X _ _ Q2) as (k & Hk & Q3). apply in_seq in Hi, Hk. apply Z.leb_gt in Q3.
  exists i, k, (balanced (coeff (v i) k)). split; [lia|]. split; [lia|]. split; [now apply balanced_spec|assumption].
Qed.
Lemma zero_dec m (a : nat -> E) : (forall j, (j < m)%nat -> a j = e0) \/ exists j, (j < m)%nat /\ a j <> e0.
Proof.
  induction m as [|m IH]; [left; intros; lia|]. destruct IH as [IH|(j & Hj & Ha)]; [|right; exists j; split; [lia|assumption]].
  destruct (eeqb (a m) e0) eqn:Q.
  - apply eeqb_eq in Q. left. intros j Hj. destruct (Nat.eq_dec j m) as [->|]; [assumption|]. apply IH. lia.
  - right. exists m. split; [lia|]. intros H. apply (proj2 (eeqb_eq _ _)) in H. congruence.
Qed.
Lemma vec_nth n (v : nat -> E) i : (i < n)%nat -> nth i (vec n v) e0 = v i.
Proof. intros H. unfold vec. now apply (nth_map_seq0 He). Qed.
Lemma vec_length n (v : nat -> E) : length (vec n v) = n.
Proof. unfold vec. now rewrite map_length, seq_length. Qed.

(** Matrix multiplied from the right of the vector. *)
Lemma step_left B n q (noise tgt mask : nat -> E) f buf (x : E) :
  (0 < n)%nat -> 0 <= B -> bytes buf -> length buf = (ell * (n * q))%nat ->
  (forall k i j, (k < ell)%nat -> (i < n)%nat -> (j < 4 * q)%nat -> f k i j = byte_entry (skipn (k * (n * q)) buf) (4 * q) i j) ->
  within B (4 * q) tgt ->
  compressed_eq (4 * q) n x (Xent f) (fun j => esub (tgt j) (mask j)) noise ->
  reply_ok B (vec n noise) (vec (4 * q) mask) (4 * q) buf = true \/
  vanishes (4 * q) (fun j => esub (esub (tgt j) (mask j)) (sumE n (fun i => emul (noise i) (Xent f i j)))) x.
Proof.
  intros Hn HB Hb Hl Hf Ht Heq. unfold compressed_eq in Heq. set (a := fun j => esub (esub (tgt j) (mask j)) _) in *.
  destruct (zero_dec (4 * q) a) as [Hz|Hz]; [left|right; split; assumption].
  apply (reply_ok_iff Hp He); [now rewrite vec_length|apply vec_length|assumption|now rewrite vec_length|].
  split; [assumption|]. intros j i Hj Hi. replace (zval _ _ _ _ _) with (tgt j); [now apply (proj1 (within_iff _ _ _) Ht)|].
  specialize (Hz j Hj). unfold a in Hz. unfold zval. rewrite vec_length, vec_nth by assumption.
  replace (esum _) with (sumE n (fun i => emul (noise i) (Xent f i j))).
  - replace (tgt j) with (eadd (esub (esub (tgt j) (mask j)) (sumE n (fun i => emul (noise i) (Xent f i j)))) (eadd (sumE n (fun i => emul (noise i) (Xent f i j))) (mask j))) by ring.
    rewrite Hz. ring.
  - unfold sumE. apply esum_map_ext. intros t Ht'. apply in_seq in Ht'. rewrite vec_nth by lia. f_equal.
    apply coeff_ext. intros k Hk. unfold Xent, ofdigits. rewrite !coeff_mkE. destruct (k <? ell)%nat eqn:K; [|reflexivity].
    rewrite Hf by (try assumption; lia). now rewrite entry_trit.
Qed.
(** Matrix multiplied from the left. *)
Lemma step_right B M q (noise tgt mask : nat -> E) f buf (x : E) :
  (0 < M)%nat -> 0 <= B -> bytes buf -> length buf = (ell * (M * q))%nat ->
  (forall k i j, (k < ell)%nat -> (i < M)%nat -> (j < 4 * q)%nat -> f k i j = byte_entry (skipn (k * (M * q)) buf) (4 * q) i j) ->
  within B M tgt ->
  compressed_eq M (4 * q) x (fun i j => Xent f j i) (fun j => esub (tgt j) (mask j)) noise ->
  reply_okT B (vec (4 * q) noise) (vec M mask) M buf = true \/
  vanishes M (fun j => esub (esub (tgt j) (mask j)) (sumE (4 * q) (fun i => emul (noise i) (Xent f j i)))) x.
Proof.
  intros HM HB Hb Hl Hf Ht Heq. unfold compressed_eq in Heq. set (a := fun j => esub (esub (tgt j) (mask j)) _) in *.
  destruct (zero_dec M a) as [Hz|Hz]; [left|right; split; assumption].
  apply (replyT_ok_iff Hp He B _ _ M q); [apply vec_length|assumption|apply vec_length|assumption|assumption|].
  split; [assumption|]. intros j i Hj Hi. replace (tval _ _ _ _ _ _) with (tgt j); [now apply (proj1 (within_iff _ _ _) Ht)|].
  specialize (Hz j Hj). unfold a in Hz. unfold tval. rewrite vec_length, vec_nth by assumption.
  replace (esum _) with (sumE (4 * q) (fun i => emul (noise i) (Xent f j i))).
  - replace (tgt j) with (eadd (esub (esub (tgt j) (mask j)) (sumE (4 * q) (fun i => emul (noise i) (Xent f j i)))) (eadd (sumE (4 * q) (fun i => emul (noise i) (Xent f j i))) (mask j))) by ring.
    rewrite Hz. ring.
  - unfold sumE. apply esum_map_ext. intros t Ht'. apply in_seq in Ht'. rewrite vec_nth by lia. rewrite emul_comm. f_equal.
    apply coeff_ext. intros k Hk. unfold Xent, ofdigits. rewrite !coeff_mkE. destruct (k <? ell)%nat eqn:K; [|reflexivity].
    rewrite Hf by (try assumption; lia). now rewrite entry_trit.
Qed.
Lemma vec_repeat_e0 n : vec n (fun _ => e0 : E) = repeat e0 n.
Proof. unfold vec. symmetry. apply repeat_map_seq. Qed.

(** Digits: lo + radix * hi. *)
Lemma within_ext B n (u v : nat -> E) : (forall i, (i < n)%nat -> u i = v i) -> within B n u -> within B n v.
Proof. intros H W i k z Hi Hk Hz. apply (W i k); try assumption. now rewrite H. Qed.
Lemma within_mono B B' n (u : nat -> E) : B <= B' -> within B n u -> within B' n u.
Proof. intros H W i k z Hi Hk Hz. specialize (W i k z Hi Hk Hz). lia. Qed.
Lemma within_digits B1 B2 r n (lo hi : nat -> E) : 0 <= r -> 0 <= B2 -> within B1 n lo -> within B2 n hi ->
  within (B1 + r * B2) n (fun j => eadd (lo j) (escale (toF p r) (hi j))).
Proof.
  intros Hr HB2 H1 H2. apply within_iff. intros i k Hi Hk. rewrite coeff_eadd, coeff_escale.
  rewrite within_iff in H1, H2. specialize (H1 i k Hi Hk). specialize (H2 i k Hi Hk).
  etransitivity; [apply (balanced_min Hp _ (balanced (coeff (lo i) k) + r * balanced (coeff (hi i) k)))|].
  - rewrite toF_add, toF_mul. now rewrite (proj1 (balanced_spec Hp (coeff (lo i) k))), (proj1 (balanced_spec Hp (coeff (hi i) k))).
  - nia.
Qed.
End G.

(** The number of lucky challenges. *)
Section Lucky.
Context {p : Z} {ell : nat}.
Hypothesis Hp : 2 <= p.
Hypothesis He : (0 < ell)%nat.
Lemma lucky_left_few B n q (noise mask : nat -> elt p ell) (bufs : list (list Z)) : NoDup bufs ->
  (forall b, In b bufs -> bytes b /\ length b = (ell * ((n * (4 * q) + 3) / 4))%nat /\ lucky_left B n (4 * q) noise mask b) ->
  2 ^ Z.of_nat (4 * q) * Z.of_nat (length bufs) <= 256 ^ Z.of_nat (ell * ((n * (4 * q) + 3) / 4)).
Proof.
  intros ND H. destruct bufs as [|b0 bs]; [cbn; lia|]. destruct (H b0 (or_introl eq_refl)) as (_ & _ & N & _).
  destruct (not_within Hp He _ _ _ N) as (i & k & z & Hi & Hk & Hz & HB).
  pose proof (reply_fraction Hp He B (vec n noise) (vec (4 * q) mask) q i k z) as T.
  rewrite !vec_length in T. rewrite vec_nth in T by assumption. specialize (T Hi Hk eq_refl Hz HB).
  etransitivity; [|exact T]. apply Z.mul_le_mono_nonneg_l; [lia|]. unfold count. apply Nat2Z.inj_le. apply NoDup_incl_length; [assumption|].
  intros b Hb. destruct (H b Hb) as (B1 & L1 & _ & R1). apply filter_In. split; [|exact R1]. now apply in_strings.
Qed.
Lemma lucky_right_few B M q (noise mask : nat -> elt p ell) (bufs : list (list Z)) : (0 < M)%nat -> NoDup bufs ->
  (forall b, In b bufs -> bytes b /\ length b = (ell * ((M * (4 * q) + 3) / 4))%nat /\ lucky_right B (4 * q) M noise mask b) ->
  2 ^ Z.of_nat M * Z.of_nat (length bufs) <= 256 ^ Z.of_nat (ell * ((M * (4 * q) + 3) / 4)).
Proof.
  intros HM ND H. destruct bufs as [|b0 bs]; [cbn; lia|]. destruct (H b0 (or_introl eq_refl)) as (_ & _ & N & _).
  destruct (not_within Hp He _ _ _ N) as (i & k & z & Hi & Hk & Hz & HB).
  pose proof (replyT_fraction Hp He B (vec (4 * q) noise) (vec M mask) M q i k z) as T.
  rewrite !vec_length in T. rewrite vec_nth in T by assumption. specialize (T HM eq_refl Hi Hk eq_refl Hz HB).
  etransitivity; [|exact T]. apply Z.mul_le_mono_nonneg_l; [lia|]. unfold count. apply Nat2Z.inj_le. apply NoDup_incl_length; [assumption|].
  intros b Hb. destruct (H b Hb) as (B1 & L1 & _ & R1). apply filter_In. split; [|exact R1]. now apply in_strings.
Qed.
End Lucky.

(** The challenge bytes behind a ternary matrix. *)
Section Ch.
Context {p : Z} {ell : nat} {G : gmod p} {R : rmerlin G}.
Hypothesis He : (0 < ell)%nat.
Lemma challenge_bytes (m m1 : mst R) label n q Ms f : byte_transcript R -> exact_transcript R -> (0 < n)%nat ->
  ternaryE (ell := ell) R m label n (4 * q) = Ret (Ms, m1) -> is_temat ell Ms n (4 * q) f ->
  let buf := fst (rm_bytes R m label (ell * ((n * (4 * q) + 3) / 4))%nat) in
  bytes buf /\ length buf = (ell * (n * q))%nat /\
  forall k i j, (k < ell)%nat -> (i < n)%nat -> (j < 4 * q)%nat -> f k i j = byte_entry (skipn (k * (n * q)) buf) (4 * q) i j.
Proof.
  intros Hb Hx Hn HT Hf buf. assert (B1 : bytes buf) by apply Hb. assert (L1 : length buf = (ell * (n * q))%nat) by (unfold buf; rewrite Hx; now rewrite size_4).
  split; [exact B1|]. split; [exact L1|]. unfold ternaryE in HT. apply obind_ret_inv in HT. destruct HT as (X & HX & HT).
  injection HT as -> _. unfold newTernaryEMatrix in HX.
  destruct (setFromBytesE_spec (ell := ell) buf n (4 * q) Hn (bytes_nth buf B1)) as (X' & EX & HX').
  { rewrite rowBytes_4. lia. }
  fold buf in HX. assert (X' = Ms) by congruence. subst X'. intros k i j Hk Hi Hj.
  rewrite (is_temat_unique _ _ _ _ _ _ Hf HX' k i j Hk Hi Hj). now rewrite rowBytes_4.
Qed.
End Ch.
