(** Proofs about tags, the CRS and fingerprints. *)
From Coq Require Import ZArith List Lia Bool.
From Verif Require Import NumTheory Outcome Bytes Fp FSum Ring AlgebraModel AlgebraProofs TernaryModel TernarySpec RegevModel RegevSpec RegevMore KeyModel KeySpec.
Import ListNotations.
Open Scope Z_scope.

Lemma app_same_len {A} (a b c d : list A) : length a = length b -> a ++ c = b ++ d -> a = b /\ c = d.
Proof.
  revert b. induction a as [|x a IH]; intros [|y b] L E; cbn in L; try lia; [split; [reflexivity|exact E]|].
  cbn in E. injection E as -> E. destruct (IH b ltac:(lia) E) as [-> ->]. split; reflexivity.
Qed.
Lemma concat_same {A} (c : nat) (l l' : list (list A)) : (0 < c)%nat ->
  Forall (fun x => length x = c) l -> Forall (fun x => length x = c) l' -> concat l = concat l' -> l = l'.
Proof.
  intros Hc. revert l'. induction l as [|x l IH]; intros [|y l'] H H' E; [reflexivity| | |].
  - inversion H'; subst. destruct y; cbn in *; [lia|discriminate].
  - inversion H; subst. destruct x; cbn in *; [lia|discriminate].
  - inversion H; inversion H'; subst. cbn in E. apply app_same_len in E as [-> E]; [f_equal; apply IH; assumption|congruence].
Qed.
Lemma concat_len {A} (c : nat) (l : list (list A)) : Forall (fun x => length x = c) l -> length (concat l) = (length l * c)%nat.
Proof. induction 1 as [|x l Hx _ IH]; [reflexivity|]. cbn. rewrite app_length, IH, Hx. lia. Qed.

Section K.
Context {p : Z} {ell : nat}.
Hypothesis Hb : bytesPerScalar p = 32%nat.
Hypothesis Hp : 2 <= p.
Notation E := (elt p ell).
Lemma loop_enc (v : list (Fp p)) : forall m a, (length v <= m)%nat ->
  elementBytes_loop v 32 (32 * m) = concat (map (fun i => le_bytes 32 (fval (nth (i - a) v 0%F))) (seq a m)).
Proof.
  assert (Z0 : forall m a, repeat 0 (32 * m) = concat (map (fun i => le_bytes 32 (fval (nth (i - a) ([] : list (Fp p)) 0%F))) (seq a m))).
  { intros m a. assert (Q : forall l, repeat 0 (32 * length l) = concat (map (fun i => le_bytes 32 (fval (nth (i - a) ([] : list (Fp p)) 0%F))) l)).
    { induction l as [|i l IH]; [reflexivity|]. cbn [map concat length]. rewrite <- IH. replace (32 * S (length l))%nat with (32 + 32 * length l)%nat by lia.
      rewrite repeat_app. f_equal. destruct (i - a)%nat; cbn [nth]; unfold f0; rewrite fval_toF, Z.mod_0_l by lia; reflexivity. }
    rewrite <- (Q (seq a m)), seq_length. reflexivity. }
  induction v as [|c v IH]; intros m a Hm; [cbn [elementBytes_loop]; apply Z0|].
  destruct m as [|m]; [cbn in Hm; lia|]. cbn [elementBytes_loop]. destruct (Nat.ltb_spec 0 (32 * S m)); [|lia].
  destruct (Nat.ltb_spec (32 * S m) 32); [lia|]. replace (32 * S m - 32)%nat with (32 * m)%nat by lia.
  cbn [seq map concat]. rewrite Nat.sub_diag. cbn [nth]. unfold bigIntBytes. rewrite Z.abs_eq by (apply fval_range; lia). f_equal.
  rewrite (IH m (S a)) by (cbn in Hm; lia). f_equal. apply map_ext_in. intros i Hi. apply in_seq in Hi. replace (i - a)%nat with (S (i - S a)) by lia. reflexivity.
Qed.
Lemma entry_enc (e : E) : entry_bytes e = enc e.
Proof.
  unfold entry_bytes, elementBytes, enc. rewrite Hb, (loop_enc _ ell 0) by (etransitivity; [apply strip_length|rewrite ec_length; lia]).
  f_equal. apply map_ext. intros i. rewrite Nat.sub_0_r, strip_nth. reflexivity.
Qed.
Lemma enc_length (e : E) : length (enc e) = (32 * ell)%nat.
Proof. rewrite <- entry_enc. apply elementBytes_length. Qed.
Lemma enc_inj (e e' : E) : enc e = enc e' -> e = e'.
Proof.
  rewrite <- !entry_enc. unfold entry_bytes. intros H.
  destruct (element_roundtrip Hp e (32 * ell)%nat) as [_ A]; [rewrite Hb; lia|]. destruct (element_roundtrip Hp e' (32 * ell)%nat) as [_ B]; [rewrite Hb; lia|].
  rewrite H, B in A. now injection A.
Qed.
Lemma enc_mat_eq (rows : list (list E)) : concat (map (fun row => concat (map entry_bytes row)) rows) = enc_mat rows.
Proof.
  unfold enc_mat. induction rows as [|row rows IH]; [reflexivity|]. cbn [map concat]. rewrite IH, map_app, concat_app. f_equal. f_equal. apply map_ext. exact entry_enc.
Qed.
Lemma enc_mat_flat (rows rows' : list (list E)) : (0 < ell)%nat -> enc_mat rows = enc_mat rows' -> concat rows = concat rows'.
Proof.
  unfold enc_mat. intros He H. apply (concat_same (32 * ell)) in H; [|lia| |]; try (apply Forall_forall; intros x Hx; apply in_map_iff in Hx as (e & <- & _); apply enc_length).
  revert H. generalize (concat rows) (concat rows'). induction l as [|a l IH]; intros [|b l'] H; try discriminate H; [reflexivity|].
  cbn in H. injection H as H1 H2. f_equal; [now apply enc_inj|now apply IH].
Qed.
Lemma enc_mat_inj c (rows rows' : list (list E)) : (0 < ell)%nat -> (0 < c)%nat -> Forall (fun row => length row = c) rows -> Forall (fun row => length row = c) rows' ->
  enc_mat rows = enc_mat rows' -> rows = rows'.
Proof. intros He Hc H H' Q. apply enc_mat_flat in Q; [|exact He]. exact (concat_same c rows rows' Hc H H' Q). Qed.

Variable L : keylibs p ell.
Lemma matHash_eq key M : matHash L key M = if (64 <? length key)%nat then UB else Ret (blake L key (enc_mat (mrows M))).
Proof. unfold matHash. now rewrite enc_mat_eq. Qed.

Lemma fill_row_ok n : forall r, length (fst (fill_row L n r)) = n /\
  (forall j, (j < n)%nat -> nth j (fst (fill_row L n r)) e0 = stream (rng_elt L) r j) /\
  (forall i, stream (rng_elt L) (snd (fill_row L n r)) i = stream (rng_elt L) r (n + i)).
Proof.
  induction n as [|n IH]; intros r; cbn [fill_row].
  - cbn [fst snd length]. split; [reflexivity|]. split; [intros; lia|reflexivity].
  - destruct (rng_elt L r) as [e r1] eqn:E1. specialize (IH r1). destruct (fill_row L n r1) as [es r2]. cbn [fst snd] in *. destruct IH as (A & B & C).
    cbn [length]. split; [now rewrite A|]. split.
    + intros [|j] Hj; cbn [nth stream]; rewrite E1; [reflexivity|]. apply B. lia.
    + intros i. rewrite C. cbn [Nat.add stream]. now rewrite E1.
Qed.
Lemma fill_ok m n : forall r, forall i j, (i < m)%nat -> (j < n)%nat ->
  nth j (nth i (fst (fill L m n r)) []) e0 = stream (rng_elt L) r (i * n + j).
Proof.
  induction m as [|m IH]; intros r i j Hi Hj; [lia|]. cbn [fill]. destruct (fill_row_ok n r) as (A & B & C).
  destruct (fill_row L n r) as [row r1]. cbn [fst snd] in *. specialize (IH r1). destruct (fill L m n r1) as [rows r2]. cbn [fst] in *.
  destruct i as [|i]; cbn [nth]; [now apply B|]. rewrite IH by lia. rewrite C. f_equal. lia.
Qed.

Lemma newKey_rng tg k n s1 s2 crs r : snd (newKey L tg k n s1 s2 crs r) = r.
Proof. unfold newKey. destruct (fill L _ _ _). reflexivity. Qed.
Lemma newKey_inv tg k n s1 s2 crs r g : fst (newKey L tg k n s1 s2 crs r) = Ret g ->
  newGlobalKey k n s1 s2 crs (fun i j => nth j (nth i (fst (fill L (Z.to_nat k) (Z.to_nat k) (rng_seed L (tg ++ str_CRS)))) []) e0) = Ret (fk g) /\
  (length tg <= 61)%nat /\ ftag g = tg /\ fAhash g = blake L (tg ++ str_CRS) (enc_mat (mrows (gkA (fk g)))) /\ fBhash g = None.
Proof.
  unfold newKey. destruct (fill L _ _ _) as [rows r']. cbn [fst]. intros H. apply obind_ret_inv in H as (gk & A & H). apply obind_ret_inv in H as (h & B & H).
  rewrite matHash_eq in B. destruct (Nat.ltb_spec 64 (length (tg ++ str_CRS))) as [|Hl]; [discriminate B|].
  rewrite app_length in Hl. cbn [length str_CRS] in Hl. apply (f_equal (fun o => match o with Ret x => x | _ => g end)) in H. subst g. cbn [fk ftag fAhash fBhash].
  apply (f_equal (fun o => match o with Ret x => x | _ => h end)) in B. split; [exact A|]. split; [lia|]. split; [reflexivity|]. split; [now symmetry|reflexivity].
Qed.
Lemma newKey_crs tg k n s1 s2 r g : fst (newKey L tg k n s1 s2 None r) = Ret g ->
  mrows (gkA (fk g)) = map (fun i => map (fun j => stream (rng_elt L) (rng_seed L (tg ++ str_CRS)) (i * Z.to_nat k + j)) (seq 0 (Z.to_nat k))) (seq 0 (Z.to_nat k)).
Proof.
  intros H. apply newKey_inv in H as (A & _). unfold newGlobalKey in A. destruct (_ || _)%bool; [discriminate A|]. destruct (negb _); [discriminate A|].
  cbn [obind] in A. apply (f_equal (fun o => match o with Ret x => mrows (gkA x) | _ => [] end)) in A. cbn [gkA mrows] in A. rewrite <- A.
  apply map_ext_in. intros i Hi. apply in_seq in Hi. apply map_ext_in. intros j Hj. apply in_seq in Hj. apply fill_ok; lia.
Qed.
Lemma newKey_ret tg k n s1 s2 r : (0 < ell)%nat -> (exists g, fst (newKey L tg k n s1 s2 None r) = Ret g) <-> good_numbers (ell := ell) k n s1 s2 /\ (length tg <= 61)%nat.
Proof.
  intros He. split.
  - intros (g & H). destruct (newKey_inv _ _ _ _ _ _ _ _ H) as (A & Hl & _). split; [|exact Hl].
    pose proof (new_spec _ _ _ _ _ _ _ He A) as (_ & _ & _ & _ & _ & Q1 & Q2 & _).
    destruct (proj1 (new_ret k n s1 s2 _ He Q2) (ex_intro _ _ A)) as (B1 & B2 & B3 & B4). unfold good_numbers. lia.
  - intros ((B1 & B2 & B3 & B4) & Hl). unfold newKey. destruct (fill L _ _ _) as [rows r']. cbn [fst].
    destruct (proj2 (new_ret k n s1 s2 (fun i j => nth j (nth i rows []) e0) He ltac:(lia)) ltac:(repeat split; assumption)) as [gk ->].
    cbn [obind]. rewrite matHash_eq. destruct (Nat.ltb_spec 64 (length (tg ++ str_CRS))) as [Q|_]; [rewrite app_length in Q; cbn [length str_CRS] in Q; lia|].
    cbn [obind]. eexists. reflexivity.
Qed.
Lemma newKey_ub tg k n s1 s2 r : (0 < ell)%nat -> good_numbers (ell := ell) k n s1 s2 -> (61 < length tg)%nat -> fst (newKey L tg k n s1 s2 None r) = UB.
Proof.
  clear Hb Hp. intros He (B1 & B2 & B3 & B4) Hl. unfold newKey. destruct (fill L _ _ _) as [rows r']. cbn [fst].
  destruct (proj2 (new_ret k n s1 s2 (fun i j => nth j (nth i rows []) e0) He ltac:(lia)) ltac:(repeat split; assumption)) as [gk ->].
  cbn [obind]. unfold matHash. destruct (Nat.ltb_spec 64 (length (tg ++ str_CRS))) as [_|Q]; [reflexivity|rewrite app_length in Q; cbn [length str_CRS] in Q; lia].
Qed.
Lemma crs_fingerprint t1 k1 n1 s1 s1' c1 r1 g1 t2 k2 n2 s2 s2' c2 r2 g2 : (0 < ell)%nat ->
  fst (newKey L t1 k1 n1 s1 s1' c1 r1) = Ret g1 -> fst (newKey L t2 k2 n2 s2 s2' c2 r2) = Ret g2 -> crsHash L g1 = crsHash L g2 ->
  t1 = t2 /\ k1 = k2 /\ gkA (fk g1) = gkA (fk g2) \/
  collide (blake L) (t1 ++ str_CRS) (enc_mat (mrows (gkA (fk g1)))) (t2 ++ str_CRS) (enc_mat (mrows (gkA (fk g2)))).
Proof.
  intros He H1 H2 Hh. apply newKey_inv in H1 as (A1 & _ & _ & D1 & _). apply newKey_inv in H2 as (A2 & _ & _ & D2 & _).
  unfold crsHash in Hh. rewrite D1, D2 in Hh.
  destruct (list_eq_dec Z.eq_dec (t1 ++ str_CRS) (t2 ++ str_CRS)) as [Et|]; [|right; split; [congruence|exact Hh]].
  destruct (list_eq_dec Z.eq_dec (enc_mat (mrows (gkA (fk g1)))) (enc_mat (mrows (gkA (fk g2))))) as [Em|]; [|right; split; [congruence|exact Hh]].
  left. apply app_inv_tail in Et. split; [exact Et|].
  pose proof (new_spec _ _ _ _ _ _ _ He A1) as (_ & _ & _ & _ & _ & P1 & _ & _ & _ & (M1 & C1 & F1) & _).
  pose proof (new_spec _ _ _ _ _ _ _ He A2) as (_ & _ & _ & _ & _ & P2 & _ & _ & _ & (M2 & C2 & F2) & _).
  apply enc_mat_flat in Em; [|exact He]. pose proof (f_equal (@length E) Em) as Hl. rewrite (concat_len _ _ F1), (concat_len _ _ F2), M1, M2 in Hl.
  assert (k1 = k2) by nia. split; [assumption|]. subst k2.
  apply concat_same with (c := Z.to_nat k1) in Em; [|lia|exact F1|exact F2]. destruct (gkA (fk g1)), (gkA (fk g2)). cbn in *. congruence.
Qed.
Lemma setKeyHash_eq g : exists g', setKeyHash L g = Ret g' /\ fk g' = fk g /\ ftag g' = ftag g /\ fAhash g' = fAhash g /\
  keyHash L g' = Ret (blake L str_RegevKey (enc_mat (mrows (gkB (fk g))))).
Proof. unfold setKeyHash. rewrite matHash_eq. cbn [length str_RegevKey Nat.ltb Nat.leb obind]. eexists. split; [reflexivity|]. cbn [fk ftag fAhash keyHash fBhash]. repeat (split; [reflexivity|]). reflexivity. Qed.
Lemma key_fingerprint g1 g2 g1' g2' c h : (0 < ell)%nat -> (0 < c)%nat ->
  Forall (fun row => length row = c) (mrows (gkB (fk g1))) -> Forall (fun row => length row = c) (mrows (gkB (fk g2))) ->
  setKeyHash L g1 = Ret g1' -> setKeyHash L g2 = Ret g2' -> keyHash L g1' = Ret h -> keyHash L g2' = Ret h ->
  mrows (gkB (fk g1)) = mrows (gkB (fk g2)) \/
  collide (blake L) str_RegevKey (enc_mat (mrows (gkB (fk g1)))) str_RegevKey (enc_mat (mrows (gkB (fk g2)))).
Proof.
  intros He Hc F1 F2 S1 S2 K1 K2. destruct (setKeyHash_eq g1) as (x1 & A1 & _ & _ & _ & B1). destruct (setKeyHash_eq g2) as (x2 & A2 & _ & _ & _ & B2).
  assert (x1 = g1') by congruence. assert (x2 = g2') by congruence. subst x1 x2.
  destruct (list_eq_dec Z.eq_dec (enc_mat (mrows (gkB (fk g1)))) (enc_mat (mrows (gkB (fk g2))))) as [Em|Em].
  - left. exact (enc_mat_inj c _ _ He Hc F1 F2 Em).
  - right. split; [congruence|]. congruence.
Qed.
End K.

Section Add.
Context {p : Z} {ell : nat}.
Variable L : keylibs p ell.
Notation E := (elt p ell).
Lemma list_set_app {A} (l : list A) x y r : list_set (l ++ x :: r) (length l) y = l ++ y :: r.
Proof. induction l as [|a l IH]; [reflexivity|]. cbn. now rewrite IH. Qed.
Lemma addKeys_ok (z : list E) pks : forall (g : fkey L) (have : list (list E)) m, 0 < kay (fk g) -> enn (fk g) = Z.of_nat (length have + m) -> enn (fk g) < 2 ^ 31 ->
  nPks (fk g) = Z.of_nat (length have) -> mrows (gkB (fk g)) = have ++ repeat z m -> (length pks <= m)%nat ->
  Forall (fun pk => Z.of_nat (length pk) = kay (fk g)) pks ->
  exists g', addKeys L g pks = Ret g' /\ mrows (gkB (fk g')) = have ++ pks ++ repeat z (m - length pks) /\ mcols (gkB (fk g')) = mcols (gkB (fk g)) /\
    gkA (fk g') = gkA (fk g) /\ kay (fk g') = kay (fk g) /\ enn (fk g') = enn (fk g) /\ ftag g' = ftag g /\ fAhash g' = fAhash g /\ fBhash g' = fBhash g /\ nPks (fk g') = Z.of_nat (length have + length pks).
Proof.
  induction pks as [|pk pks IH]; intros g have m Hk He Hn Hp HB Hm HF; cbn [addKeys].
  - exists g. split; [reflexivity|]. cbn [length app]. rewrite Nat.sub_0_r, Nat.add_0_r. repeat (split; [first [assumption|reflexivity]|]). exact Hp.
  - cbn [length] in Hm. inversion HF as [|? ? HF1 HF2]; subst. destruct m as [|m]; [lia|].
    unfold addKey, addPK. rewrite (proj2 (Z.eqb_eq _ _) HF1). cbn [negb]. rewrite Hp, He, HB.
    rewrite (Z.mod_small (Z.of_nat (length have + S m)) (2 ^ 64)) by (rewrite He in Hn; lia).
    destruct (Z.leb_spec (Z.of_nat (length have + S m)) (Z.of_nat (length have))); [lia|].
    rewrite app_length, repeat_length. destruct (Z.leb_spec (Z.of_nat (length have + S m)) (Z.of_nat (length have))); [lia|].
    rewrite Nat2Z.id. cbn [repeat]. rewrite list_set_app.
    match goal with |- exists g', addKeys L ?g1 _ = _ /\ _ => destruct (IH g1 (have ++ [pk]) m) as (g' & A & B & C & D & K & N & T & HA & HB' & NP) end;
      cbn [fk kay enn nPks gkB mrows gkA mcols ftag fAhash fBhash] in *.
    + exact Hk.
    + rewrite app_length; cbn [length]; lia.
    + rewrite He in Hn; lia.
    + rewrite app_length. cbn [length]. rewrite Z.mod_small; [lia|]. rewrite He in Hn. lia.
    + now rewrite <- app_assoc.
    + lia.
    + exact HF2.
    + exists g'. split; [exact A|]. rewrite B, <- !app_assoc. cbn [app length Nat.sub]. split; [reflexivity|]. split; [exact C|]. split; [exact D|]. split; [exact K|].
      split; [congruence|]. split; [exact T|]. split; [exact HA|]. split; [exact HB'|]. rewrite NP, app_length. cbn [length]. f_equal. lia.
Qed.
Lemma addKeys_new tg k n s1 s2 crs r g pks : bytesPerScalar p = 32%nat -> 2 <= p -> (0 < ell)%nat -> n < 2 ^ 31 -> fst (newKey L tg k n s1 s2 crs r) = Ret g -> Z.of_nat (length pks) = n -> Forall (fun pk => Z.of_nat (length pk) = k) pks ->
  exists g', addKeys L g pks = Ret g' /\ gkB (fk g') = Mat pks (Z.to_nat k) /\ gkA (fk g') = gkA (fk g) /\ kay (fk g') = k /\ enn (fk g') = n /\ ftag g' = tg /\ fAhash g' = fAhash g.
Proof.
  intros Hb Hp2 He Hn H Hl HF. destruct (newKey_inv Hb Hp2 L _ _ _ _ _ _ _ _ H) as (A & _ & T & _ & _).
  pose proof (new_B _ _ _ _ _ _ _ A) as HB. pose proof (new_spec _ _ _ _ _ _ _ He A) as (K & N & _ & _ & P & K0 & N0 & _ & _ & _ & (_ & MC & _) & _).
  destruct (addKeys_ok (repeat e0 (Z.to_nat k)) pks g [] (Z.to_nat n)) as (g' & B1 & B2 & B3 & B4 & B5 & B6 & B7 & B8 & _ & _).
  - rewrite K. exact K0.
  - rewrite N. cbn [length]. lia.
  - rewrite N. exact Hn.
  - exact P.
  - exact HB.
  - lia.
  - rewrite K. exact HF.
  - exists g'. split; [exact B1|]. replace (Z.to_nat n - length pks)%nat with 0%nat in B2 by lia. cbn [repeat app] in B2. rewrite app_nil_r in B2.
    split; [destruct (gkB (fk g')); cbn in *; congruence|]. repeat (split; [congruence|]). exact B8.
Qed.
End Add.
Lemma bps32 p : 2 ^ 248 <= p < 2 ^ 256 -> bytesPerScalar p = 32%nat.
Proof.
  intros [H1 H2]. unfold bytesPerScalar, numBits. assert (0 < 2 ^ 248) by reflexivity. destruct (Z.eqb_spec p 0); [lia|]. rewrite Z.abs_eq by lia.
  assert (248 <= Z.log2 p) by (apply Z.log2_le_pow2; lia). assert (Z.log2 p < 256) by (apply Z.log2_lt_pow2; lia).
  replace ((Z.log2 p + 1 + 7) / 8) with 32; [reflexivity|]. apply Z.div_unique with (r := Z.log2 p + 8 - 256); lia.
Qed.
