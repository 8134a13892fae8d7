(** Properties C94, C95: fingerprints of keys, and the CRS. *)
From Coq Require Import ZArith List Lia Bool.
From Verif Require Import NumTheory Outcome Bytes Fp FSum Ring AlgebraModel TernaryModel TernarySpec RegevModel RegevSpec RegevMore Prime25519 KeyModel KeySpec KeyProofs.
Import ListNotations.
Open Scope Z_scope.

(** ** C95: the CRS is a function of the tag *)
Theorem C95_crs p ell (L : keylibs p ell) tg k n s1 s2 r g : 2 ^ 248 <= p < 2 ^ 256 -> fst (newKey L tg k n s1 s2 None r) = Ret g ->
  mrows (gkA (fk g)) = map (fun i => map (fun j => stream (rng_elt L) (rng_seed L (tg ++ [67; 82; 83])) (i * Z.to_nat k + j)) (seq 0 (Z.to_nat k))) (seq 0 (Z.to_nat k)) /\
  crsHash L g = blake L (tg ++ [67; 82; 83]) (enc_mat (mrows (gkA (fk g)))).
Proof.
  intros Hp H. assert (0 < 2 ^ 248) by reflexivity. assert (2 <= p) by lia. split; [exact (newKey_crs (bps32 p Hp) ltac:(assumption) L tg k n s1 s2 r g H)|].
  apply (newKey_inv (bps32 p Hp) ltac:(assumption)) in H as (_ & _ & _ & H & _). exact H.
Qed.
(** The caller's random generator is as before, whatever happens. *)
Theorem C95_rng p ell (L : keylibs p ell) tg k n s1 s2 crs r : snd (newKey L tg k n s1 s2 crs r) = r.
Proof. exact (newKey_rng L tg k n s1 s2 crs r). Qed.
(** The constructor returns exactly for good numbers and tags of at most 61 bytes; for
    longer tags, it uses a hash state that was not initialised. *)
Theorem C95_returns p ell (L : keylibs p ell) tg k n s1 s2 r : 2 ^ 248 <= p < 2 ^ 256 -> (0 < ell)%nat ->
  ((exists g, fst (newKey L tg k n s1 s2 None r) = Ret g) <-> good_numbers (ell := ell) k n s1 s2 /\ (length tg <= 61)%nat).
Proof. intros Hp He. assert (0 < 2 ^ 248) by reflexivity. exact (newKey_ret (bps32 p Hp) ltac:(lia) L tg k n s1 s2 r He). Qed.
Theorem C95_long_tag p ell (L : keylibs p ell) tg k n s1 s2 r : (0 < ell)%nat -> good_numbers (ell := ell) k n s1 s2 -> (61 < length tg)%nat ->
  fst (newKey L tg k n s1 s2 None r) = UB.
Proof. exact (newKey_ub L tg k n s1 s2 r). Qed.
Print Assumptions C95_crs.
Print Assumptions C95_rng.
Print Assumptions C95_returns.
Print Assumptions C95_long_tag.

(** ** C94: the fingerprints identify the keys *)
(** Ahash: equal fingerprints mean equal tags, dimensions and matrices, or a collision of the
    hash on the two encodings. *)
Theorem C94_crs p ell (L : keylibs p ell) t1 k1 n1 s1 s1' c1 r1 g1 t2 k2 n2 s2 s2' c2 r2 g2 : 2 ^ 248 <= p < 2 ^ 256 -> (0 < ell)%nat ->
  fst (newKey L t1 k1 n1 s1 s1' c1 r1) = Ret g1 -> fst (newKey L t2 k2 n2 s2 s2' c2 r2) = Ret g2 -> crsHash L g1 = crsHash L g2 ->
  t1 = t2 /\ k1 = k2 /\ gkA (fk g1) = gkA (fk g2) \/
  collide (blake L) (t1 ++ [67; 82; 83]) (enc_mat (mrows (gkA (fk g1)))) (t2 ++ [67; 82; 83]) (enc_mat (mrows (gkA (fk g2)))).
Proof. intros Hp. assert (0 < 2 ^ 248) by reflexivity. exact (crs_fingerprint (bps32 p Hp) ltac:(lia) L t1 k1 n1 s1 s1' c1 r1 g1 t2 k2 n2 s2 s2' c2 r2 g2). Qed.
(** Bhash: the same for keys with the same number of columns, if setKeyHash was called
    after the last change.  Missing: keys with different numbers of columns, and keys
    that were changed (see below). *)
Theorem C94_key_partial p ell (L : keylibs p ell) g1 g2 g1' g2' m1 m2 c h : 2 ^ 248 <= p < 2 ^ 256 -> (0 < ell)%nat -> (0 < c)%nat ->
  mat_dims (gkB (fk g1)) m1 c -> mat_dims (gkB (fk g2)) m2 c ->
  setKeyHash L g1 = Ret g1' -> setKeyHash L g2 = Ret g2' -> keyHash L g1' = Ret h -> keyHash L g2' = Ret h ->
  gkB (fk g1) = gkB (fk g2) \/
  collide (blake L) str_RegevKey (enc_mat (mrows (gkB (fk g1)))) str_RegevKey (enc_mat (mrows (gkB (fk g2)))).
Proof.
  intros Hp He Hc (_ & D1 & F1) (_ & D2 & F2) S1 S2 K1 K2. assert (0 < 2 ^ 248) by reflexivity.
  destruct (key_fingerprint (bps32 p Hp) ltac:(lia) L g1 g2 g1' g2' c h He Hc F1 F2 S1 S2 K1 K2) as [Q|Q]; [left|right; exact Q].
  destruct (gkB (fk g1)), (gkB (fk g2)); cbn in *; congruence.
Qed.
Print Assumptions C94_crs.
Print Assumptions C94_key_partial.

(** *** Two keys *)
Definition el (i : nat) : elt P25519 2 := mkE 2 (fun j => toF P25519 (Z.of_nat (3 * i + j))).
Definition pks10 : list (list (elt P25519 2)) := map (fun i => [el i]) (seq 0 10).
Definition pks5 : list (list (elt P25519 2)) := map (fun i => [el (2 * i); el (2 * i + 1)]) (seq 0 5).
Lemma P_range : 2 ^ 248 <= P25519 < 2 ^ 256.
Proof. now vm_compute. Qed.
Lemma P_ge : 2 <= P25519.
Proof. now vm_compute. Qed.
Lemma new_key (L : keylibs P25519 2) tg k n r : 0 < k -> 4 < n -> (length tg <= 61)%nat -> exists g, fst (newKey L tg k n 5 6 None r) = Ret g.
Proof. intros. apply C95_returns; [exact P_range|lia|]. unfold good_numbers. split; [lia|assumption]. Qed.
Lemma fingerprint_of (L : keylibs P25519 2) tg k n r g pks : n < 2 ^ 31 -> fst (newKey L tg k n 5 6 None r) = Ret g -> Z.of_nat (length pks) = n -> Forall (fun pk => Z.of_nat (length pk) = k) pks ->
  exists g1 g2, addKeys L g pks = Ret g1 /\ setKeyHash L g1 = Ret g2 /\ gkB (fk g2) = Mat pks (Z.to_nat k) /\ keyHash L g2 = Ret (blake L str_RegevKey (enc_mat pks)).
Proof.
  intros Hn H Hl HF. destruct (addKeys_new L tg k n 5 6 None r g pks (bps32 _ P_range) P_ge ltac:(lia) Hn H Hl HF) as (g1 & A & B & _).
  destruct (setKeyHash_eq (bps32 _ P_range) P_ge L g1) as (g2 & C & D & _ & _ & E). exists g1, g2. split; [exact A|]. split; [exact C|].
  rewrite D, B. split; [reflexivity|]. rewrite B in E. exact E.
Qed.

(** The claim is false: for every hash, ten keys of one element and five keys of two
    elements have the same fingerprint. *)
Theorem C94_refuted (L : keylibs P25519 2) r : exists g10 g5 h10 h5 f10 f5 h,
  fst (newKey L [107] 1 10 5 6 None r) = Ret g10 /\ fst (newKey L [107] 2 5 5 6 None r) = Ret g5 /\
  addKeys L g10 pks10 = Ret h10 /\ addKeys L g5 pks5 = Ret h5 /\ setKeyHash L h10 = Ret f10 /\ setKeyHash L h5 = Ret f5 /\
  keyHash L f10 = Ret h /\ keyHash L f5 = Ret h /\ gkB (fk f10) <> gkB (fk f5).
Proof.
  destruct (new_key L [107] 1 10 r ltac:(lia) ltac:(lia) ltac:(cbn; lia)) as (g10 & A). destruct (new_key L [107] 2 5 r ltac:(lia) ltac:(lia) ltac:(cbn; lia)) as (g5 & B).
  destruct (fingerprint_of L _ 1 10 _ _ pks10 ltac:(lia) A eq_refl) as (h10 & f10 & A1 & A2 & A3 & A4); [repeat constructor|].
  destruct (fingerprint_of L _ 2 5 _ _ pks5 ltac:(lia) B eq_refl) as (h5 & f5 & B1 & B2 & B3 & B4); [repeat constructor|].
  assert (Q : enc_mat pks10 = enc_mat pks5) by reflexivity.
  exists g10, g5, h10, h5, f10, f5. eexists. split; [exact A|]. split; [exact B|]. split; [exact A1|]. split; [exact B1|]. split; [exact A2|]. split; [exact B2|].
  split; [exact A4|]. split; [rewrite Q; exact B4|]. rewrite A3, B3. intros C. discriminate (f_equal mcols C).
Qed.
(** A fingerprint is not updated when a key is added; before setKeyHash, there is none. *)
Theorem C94_stale p ell (L : keylibs p ell) g pk g' i : addKey L g pk = (g', Ret i) -> keyHash L g' = keyHash L g.
Proof. unfold addKey. destruct (addPK (fk g) pk). intros H. injection H as <- _. reflexivity. Qed.
Theorem C94_stale_refuted (L : keylibs P25519 2) r : exists g h f f' i h', fst (newKey L [107] 1 10 5 6 None r) = Ret g /\ keyHash L g = UB /\
  addKeys L g (firstn 9 pks10) = Ret h /\ setKeyHash L h = Ret f /\ addKey L f [el 9] = (f', Ret i) /\
  keyHash L f = Ret h' /\ keyHash L f' = Ret h' /\ gkB (fk f) <> gkB (fk f').
Proof.
  destruct (new_key L [107] 1 10 r ltac:(lia) ltac:(lia) ltac:(cbn; lia)) as (g & A).
  destruct (newKey_inv (bps32 _ P_range) P_ge L _ _ _ _ _ _ _ _ A) as (N & _ & _ & _ & HB0).
  pose proof (new_B _ _ _ _ _ _ _ N) as HB. pose proof (new_spec _ _ _ _ _ _ _ (Nat.lt_0_succ 1) N) as (K & EN & _ & _ & PK & _).
  destruct (addKeys_ok L [e0] (firstn 9 pks10) g [] 10) as (h & B1 & B2 & B3 & _ & B5 & B6 & _ & _ & _ & PK9).
  { rewrite K; lia. } { exact EN. } { rewrite EN; lia. } { exact PK. } { exact HB. } { cbn; lia. } { rewrite K. repeat constructor. }
  destruct (setKeyHash_eq (bps32 _ P_range) P_ge L h) as (f & C & D & _ & _ & Hf).
  destruct (addKeys_ok L [e0] [[el 9]] f (firstn 9 pks10) 1) as (f' & F1 & F2 & _ & _ & _ & _ & _ & _ & F9 & _).
  { rewrite D, B5, K; lia. } { rewrite D, B6, EN. reflexivity. } { rewrite D, B6, EN. lia. } { rewrite D. exact PK9. } { rewrite D. exact B2. } { cbn; lia. } { rewrite D, B5, K. repeat constructor. }
  cbn [addKeys] in F1. destruct (addKey L f [el 9]) as [f1 [i| | |]] eqn:Ef; try discriminate F1. injection F1 as ->.
  exists g, h, f, f', i. eexists. split; [exact A|]. split; [unfold keyHash; rewrite HB0; reflexivity|]. split; [exact B1|]. split; [exact C|]. split; [exact Ef|].
  split; [exact Hf|]. split; [unfold keyHash; rewrite F9; exact Hf|]. intros Q. apply (f_equal mrows) in Q. rewrite D, B2, F2 in Q.
  apply (f_equal (fun rows => fval (coeff (hd e0 (nth 9 rows [])) 1))) in Q. vm_compute in Q. discriminate Q.
Qed.
(** Equality of keys only compares the tags: keys with different matrices are equal. *)
Theorem C94_equality_refuted (L : keylibs P25519 2) r : exists g g', fst (newKey L [107] 1 5 5 6 (Some (Mat [[el 0]] 1)) r) = Ret g /\
  fst (newKey L [107] 1 5 5 6 (Some (Mat [[el 1]] 1)) r) = Ret g' /\ key_eqb L g g' = true /\ gkA (fk g) <> gkA (fk g').
Proof.
  assert (N : forall e, exists g, fst (newKey L [107] 1 5 5 6 (Some (Mat [[e]] 1)) r) = Ret g /\ gkA (fk g) = Mat [[e]] 1 /\ ftag g = [107]).
  { intros e. unfold newKey. destruct (fill L _ _ _) as [rows r']. eexists. split; [reflexivity|]. split; reflexivity. }
  destruct (N (el 0)) as (g & A & B & C). destruct (N (el 1)) as (g' & A' & B' & C'). exists g, g'. split; [exact A|]. split; [exact A'|].
  split; [unfold key_eqb; rewrite C, C'; reflexivity|]. rewrite B, B'. intros Q. apply (f_equal (fun M => fval (coeff (hd e0 (hd [] (mrows M))) 0))) in Q. vm_compute in Q. discriminate Q.
Qed.
Print Assumptions C94_refuted.
Print Assumptions C94_stale.
Print Assumptions C94_stale_refuted.
Print Assumptions C94_equality_refuted.

(** A generator that counts, and the identity as hash. *)
Definition toyK94 : keylibs P25519 2 := KL _ _ Z (fun s => Z.of_nat (length s)) (fun r => (mkE 2 (fun j => toF P25519 (r + Z.of_nat j)), r + 10)) (list Z * list Z) (fun k m => (k, m)).
Example C94_C95_example : exists g h f, fst (newKey toyK94 [107; 101; 121] 2 5 5 6 None 77) = Ret g /\ snd (newKey toyK94 [107; 101; 121] 2 5 5 6 None 77) = 77 /\
  map (map (fun e => (fval (coeff e 0), fval (coeff e 1)))) (mrows (gkA (fk g))) = [[(6, 7); (16, 17)]; [(26, 27); (36, 37)]] /\
  addKeys toyK94 g pks5 = Ret h /\ setKeyHash toyK94 h = Ret f /\ keyHash toyK94 f = Ret (str_RegevKey, enc_mat pks5) /\ mat_dims (gkB (fk h)) 5 2.
Proof.
  destruct (new_key toyK94 [107; 101; 121] 2 5 77 ltac:(lia) ltac:(lia) ltac:(cbn; lia)) as (g & A). exists g.
  destruct (fingerprint_of toyK94 _ 2 5 _ _ pks5 ltac:(lia) A eq_refl) as (h & f & B1 & B2 & B3 & B4); [repeat constructor|]. exists h, f.
  split; [exact A|]. split; [apply C95_rng|]. split; [rewrite (proj1 (C95_crs _ _ _ _ _ _ _ _ _ _ P_range A)); vm_compute; reflexivity|].
  split; [exact B1|]. split; [exact B2|]. split; [exact B4|].
  destruct (addKeys_new toyK94 _ 2 5 _ _ _ _ _ pks5 (bps32 _ P_range) P_ge ltac:(lia) ltac:(lia) A eq_refl) as (h' & C1 & C2 & _); [repeat constructor|].
  assert (h' = h) by congruence. subst h'. rewrite C2. split; [reflexivity|]. split; [reflexivity|]. repeat constructor.
Qed.
Example C95_long_tag_example : fst (newKey toyK94 (repeat 97 62) 2 5 5 6 None 77) = UB.
Proof. apply C95_long_tag; [lia|unfold good_numbers; lia|rewrite repeat_length; lia]. Qed.
