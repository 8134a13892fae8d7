(** Proofs about the algebra helpers. *)
From Coq Require Import ZArith Znumtheory List Lia Bool.
From Verif Require Import NumTheory Outcome Bytes Fp FSum Ring ConstraintsModel ConstraintsSpec ConstraintsProofs
  FourSquaresModel FourSquaresSpec FourSquaresProofs AlgebraModel AlgebraSpec.
Import ListNotations.
Open Scope Z_scope.

(** *** Byte encodings *)
Section Enc.
Context {p : Z} {ell : nat}.
Hypothesis Hp : 2 <= p.
Notation F := (Fp p).
Notation E := (elt p ell).

Lemma numBits_pow n : 0 < n -> n < 2 ^ numBits n.
Proof.
  intros H. unfold numBits. destruct (Z.eqb_spec n 0); [lia|]. rewrite Z.abs_eq by lia.
  destruct (Z.log2_spec n H) as [_ H2]. now rewrite <- Z.add_1_r in H2.
Qed.
Lemma numBits_nonneg n : 0 <= numBits n.
Proof. unfold numBits. destruct (n =? 0); [lia|]. pose proof (Z.log2_nonneg (Z.abs n)). lia. Qed.
Lemma scalar_fits (s : F) k : (bytesPerScalar p <= k)%nat -> 0 <= fval s < 256 ^ Z.of_nat k.
Proof.
  intros Hk. pose proof (fval_range p s ltac:(lia)) as Hs. split; [lia|].
  apply Z.lt_le_trans with p; [lia|]. apply Z.lt_le_incl, (Z.lt_le_trans _ (2 ^ numBits p)).
  { apply numBits_pow. lia. }
  change 256 with (2 ^ 8). rewrite <- Z.pow_mul_r by lia. apply Z.pow_le_mono_r; [lia|].
  unfold bytesPerScalar in Hk. pose proof (numBits_nonneg p).
  pose proof (Z.div_mod (numBits p + 7) 8 ltac:(lia)). pose proof (Z.mod_pos_bound (numBits p + 7) 8 ltac:(lia)).
  lia.
Qed.
Lemma bytesPerScalar_pos : (0 < bytesPerScalar p)%nat.
Proof.
  unfold bytesPerScalar. assert (1 <= numBits p).
  { unfold numBits. destruct (Z.eqb_spec p 0); [lia|]. pose proof (Z.log2_nonneg (Z.abs p)). lia. }
  assert (1 <= (numBits p + 7) / 8) by (apply Z.div_le_lower_bound; lia). lia.
Qed.

Lemma scalar_roundtrip (s : F) k : (bytesPerScalar p <= k)%nat ->
  length (scalarBytes s k) = k /\ scalarFromBytes (scalarBytes s k) k = Ret s.
Proof.
  intros Hk. unfold scalarBytes, bigIntBytes, scalarFromBytes. rewrite le_bytes_length.
  split; [reflexivity|]. rewrite Nat.ltb_irrefl. rewrite firstn_all2 by (rewrite le_bytes_length; lia).
  pose proof (scalar_fits s k Hk). rewrite le_val_bytes_small by lia.
  rewrite Z.abs_eq by lia. now rewrite toF_fval.
Qed.

Lemma elementBytes_loop_length v : forall len n, length (elementBytes_loop (p:=p) v len n) = n.
Proof.
  induction v as [|c v IH]; intros len n; cbn [elementBytes_loop].
  - apply repeat_length.
  - destruct (Nat.ltb_spec 0 n); [|cbn; lia]. rewrite app_length, IH. unfold bigIntBytes.
    rewrite le_bytes_length. destruct (Nat.ltb_spec n len); lia.
Qed.

Lemma strip_nth (l : list F) i : nth i (strip l) 0%F = nth i l 0%F.
Proof.
  revert i. induction l as [|x l IH]; intros i; [reflexivity|]. cbn [strip].
  destruct (strip l) as [|y r] eqn:Es.
  - destruct (feqb x 0%F) eqn:Ex.
    + apply feqb_eq in Ex. subst. destruct i as [|i]; [reflexivity|]. cbn [nth]. rewrite <- IH. now destruct i.
    + destruct i as [|i]; [reflexivity|]. cbn [nth]. rewrite <- IH. reflexivity.
  - destruct i as [|i]; [reflexivity|]. cbn [nth]. now rewrite <- IH.
Qed.
Lemma strip_length (l : list F) : (length (strip l) <= length l)%nat.
Proof.
  induction l as [|x l IH]; [reflexivity|]. cbn [strip]. destruct (strip l); [destruct (feqb x 0%F)|]; cbn in *; lia.
Qed.

Lemma loop_zeros k : forall len n, (0 < len)%nat ->
  exists cs, elementFromBytes_loop (p:=p) k (repeat 0 n) len n = Ret cs /\ forall i, nth i cs 0%F = 0%F.
Proof.
  induction k as [|k IH]; intros len n Hl; cbn [elementFromBytes_loop].
  - exists []. split; [reflexivity|]. now intros [|i].
  - destruct (Nat.ltb_spec 0 n); [|exists []; split; [reflexivity|now intros [|i]]].
    set (l' := if (n <? len)%nat then n else len).
    assert (Hl' : (0 < l' <= n)%nat) by (unfold l'; destruct (Nat.ltb_spec n len); lia).
    unfold scalarFromBytes. rewrite repeat_length. destruct (Nat.ltb_spec n l'); [lia|].
    assert (Ef : firstn l' (repeat 0 n) = repeat 0 l').
    { replace n with (l' + (n - l'))%nat by lia. rewrite repeat_app, firstn_app, repeat_length, Nat.sub_diag, firstn_O, app_nil_r.
      apply firstn_all2. now rewrite repeat_length. }
    assert (Es : skipn l' (repeat 0 n) = repeat 0 (n - l')).
    { replace n with (l' + (n - l'))%nat at 1 by lia. rewrite repeat_app, skipn_app, repeat_length, Nat.sub_diag.
      rewrite skipn_all2 by (rewrite repeat_length; lia). reflexivity. }
    rewrite Ef, Es, le_val_repeat0. destruct (IH l' (n - l')%nat ltac:(lia)) as [cs [Ec Hc]].
    cbn. rewrite Ec. eexists. split; [reflexivity|]. intros [|i]; [reflexivity|apply Hc].
Qed.
Lemma skipn_le_bytes_app k z l : skipn k (le_bytes k z ++ l) = l.
Proof. rewrite skipn_app, le_bytes_length, Nat.sub_diag, skipn_all2 by (rewrite le_bytes_length; lia). reflexivity. Qed.
Lemma firstn_le_bytes_app k z l : firstn k (le_bytes k z ++ l) = le_bytes k z.
Proof.
  rewrite firstn_app, le_bytes_length, Nat.sub_diag, firstn_O, app_nil_r. apply firstn_all2. rewrite le_bytes_length; lia.
Qed.
Lemma loop_roundtrip k : forall v n, (length v <= k)%nat -> (k * bytesPerScalar p <= n)%nat ->
  exists cs, elementFromBytes_loop (p:=p) k (elementBytes_loop v (bytesPerScalar p) n) (bytesPerScalar p) n = Ret cs
    /\ forall i, nth i cs 0%F = nth i v 0%F.
Proof.
  pose proof bytesPerScalar_pos as Hb.
  induction k as [|k IH]; intros v n Hv Hn.
  - destruct v; [|cbn in Hv; lia]. exists []. now split.
  - destruct v as [|c v].
    + cbn [elementBytes_loop]. destruct (loop_zeros (S k) (bytesPerScalar p) n Hb) as [cs [E H]].
      exists cs. split; [assumption|]. intros i. rewrite H. now destruct i.
    + cbn [elementBytes_loop elementFromBytes_loop]. cbn [Nat.mul] in Hn.
      destruct (Nat.ltb_spec 0 n); [|lia]. destruct (Nat.ltb_spec n (bytesPerScalar p)); [lia|].
      unfold bigIntBytes. unfold scalarFromBytes. rewrite app_length, le_bytes_length.
      rewrite (proj2 (Nat.ltb_ge _ _)) by lia.
      rewrite firstn_le_bytes_app, skipn_le_bytes_app.
      pose proof (scalar_fits c _ (Nat.le_refl _)) as Hc.
      rewrite Z.abs_eq, le_val_bytes_small, toF_fval by lia.
      destruct (IH v (n - bytesPerScalar p)%nat ltac:(cbn in Hv; lia) ltac:(lia)) as [cs [E H1]].
      cbn. rewrite E. eexists. split; [reflexivity|]. intros [|i]; [reflexivity|apply H1].
Qed.
Lemma element_roundtrip (e : E) n : (ell * bytesPerScalar p <= n)%nat ->
  length (elementBytes e n) = n /\ elementFromBytes (elementBytes e n) n = Ret e.
Proof.
  intros Hn. unfold elementBytes, elementFromBytes. split; [apply elementBytes_loop_length|].
  destruct (loop_roundtrip ell (strip (ec e)) n) as [cs [E H]]; [|assumption|].
  { etransitivity; [apply strip_length|]. now rewrite ec_length. }
  rewrite E. cbn. f_equal. apply coeff_ext. intros i Hi. rewrite coeff_mkE.
  rewrite (proj2 (Nat.ltb_lt _ _)) by assumption. rewrite H, strip_nth. reflexivity.
Qed.
Lemma elementBytes_length (e : E) n : length (elementBytes e n) = n.
Proof. apply elementBytes_loop_length. Qed.
End Enc.

(** *** Balanced representatives *)
Section Bal.
Context {p : Z}.
Hypothesis Hp : 2 <= p.
Notation F := (Fp p).

Lemma balanced_rep_spec half rep : half = p / 2 -> 0 <= rep < p ->
  toF p (balanced_rep half p rep) = toF p rep /\ - p < 2 * balanced_rep half p rep <= p.
Proof.
  intros -> Hr. unfold balanced_rep.
  pose proof (Z.div_mod p 2 ltac:(lia)). pose proof (Z.mod_pos_bound p 2 ltac:(lia)).
  destruct (Z.ltb_spec (p / 2) rep); split; try lia.
  - apply toF_eq_iff. replace (rep - p) with (rep + (-1) * p) by ring. apply Z.mod_add. lia.
  - reflexivity.
Qed.
Lemma balanced_spec (s : F) : is_balanced s (balanced s).
Proof.
  unfold is_balanced, balanced. destruct (balanced_rep_spec (p / 2) (fval s) eq_refl (fval_range p s ltac:(lia))) as [H1 H2].
  split; [|assumption]. now rewrite H1, toF_fval.
Qed.
Lemma is_balanced_unique (s : F) z z' : is_balanced s z -> is_balanced s z' -> z = z'.
Proof.
  intros [H1 R1] [H2 R2]. assert (E : toF p z = toF p z') by congruence.
  apply toF_eq_iff in E.
  assert (D : (p | z - z')). { apply Z.mod_divide; [lia|]. rewrite Zminus_mod, E, Z.sub_diag. apply Z.mod_0_l. lia. }
  destruct D as [k Hk]. assert (k = 0) by nia. nia.
Qed.
Lemma balanced_of z : - p < 2 * z <= p -> balanced (toF p z) = z.
Proof. intros H. apply (is_balanced_unique (toF p z)); [apply balanced_spec|split; [reflexivity|assumption]]. Qed.
Lemma balanced_vec_spec (v : list F) : are_balanced v (map balanced v).
Proof. induction v; constructor; [apply balanced_spec|assumption]. Qed.

Lemma calls_constant calls : (forall m rep, In (m, rep) calls -> m = p) ->
  forall cache, cache = None \/ cache = Some (p / 2) ->
  balanced_calls cache calls = map (fun c => balanced_rep (p / 2) p (snd c)) calls.
Proof.
  induction calls as [|[m rep] calls IH]; intros H cache Hc; [reflexivity|].
  cbn [balanced_calls map]. unfold balanced_call.
  rewrite (H m rep) by now left.
  destruct Hc as [-> | ->]; cbn [snd]; (rewrite IH; [reflexivity|intros; apply (H m0 rep0); now right|now right]).
Qed.

Lemma fold_sq l : forall a, fold_left (fun s x => s + x * x) l a = a + sum_sq l.
Proof. induction l as [|x l IH]; intros a; cbn; [lia|]. rewrite IH. unfold sum_sq. lia. Qed.
Lemma normSquaredBI_spec (v : list F) : normSquaredBI p (map fval v) = sum_sq (map balanced v).
Proof.
  unfold normSquaredBI. rewrite fold_sq, map_map. cbn. reflexivity.
Qed.
Lemma are_balanced_unique (v : list F) zs zs' : are_balanced v zs -> are_balanced v zs' -> zs = zs'.
Proof.
  intros H. revert zs'. induction H as [|s z v zs Hs H IH]; intros zs' H'; inversion H'; subst; [reflexivity|].
  f_equal; [now apply (is_balanced_unique s)|now apply IH].
Qed.

Lemma max_loop l : forall a, 0 <= a ->
  let r := fold_left (fun ret (c : F) => let x := Z.abs (balanced c) in if ret <? x then x else ret) l a in
  a <= r /\ (forall c, In c l -> Z.abs (balanced c) <= r) /\ (r = a \/ exists c, In c l /\ Z.abs (balanced c) = r).
Proof.
  induction l as [|c l IH]; intros a Ha; cbn [fold_left].
  - cbn. split; [lia|split; [intros ? []|now left]].
  - set (a' := if a <? Z.abs (balanced c) then Z.abs (balanced c) else a).
    assert (Ha' : a <= a' /\ Z.abs (balanced c) <= a' /\ (a' = a \/ a' = Z.abs (balanced c))).
    { unfold a'. destruct (Z.ltb_spec a (Z.abs (balanced c))); lia. }
    destruct Ha' as [A1 [A2 A3]]. destruct (IH a' ltac:(lia)) as [B1 [B2 B3]]. cbn beta zeta in *.
    split; [|split].
    + lia.
    + intros c' [<-|Hc]; [lia|now apply B2].
    + destruct B3 as [B3|[c' [Hc B3]]].
      * destruct A3 as [A3|A3]; [left; congruence|right; exists c; split; [now left|congruence]].
      * right. exists c'. split; [now right|assumption].
Qed.
End Bal.

(** *** Digits *)
Lemma break_digit_spec radix x : 2 <= radix -> exists hi lo, break_digit radix x = Ret (hi, lo) /\
  x = lo + radix * hi /\ - radix < 2 * lo <= radix /\ 2 * radix * Z.abs hi <= 2 * Z.abs x + radix.
Proof.
  intros Hr. unfold break_digit. destruct (Z.eqb_spec radix 0); [lia|].
  pose proof (Z.div_mod x radix ltac:(lia)) as E. pose proof (Z.mod_pos_bound x radix ltac:(lia)) as Hb.
  pose proof (Z.div_mod radix 2 ltac:(lia)). pose proof (Z.mod_pos_bound radix 2 ltac:(lia)).
  assert (Eh : (x - x mod radix) / radix = x / radix).
  { symmetry. apply Z.div_unique with 0; lia. }
  rewrite Eh. set (q := x / radix) in *. set (r := x mod radix) in *.
  destruct (Z.ltb_spec (radix / 2) r).
  - exists (q + 1), (r - radix). split; [reflexivity|]. split; [lia|]. split; [lia|].
    assert (radix * (q + 1) = x - (r - radix)) by lia. nia.
  - destruct (Z.ltb_spec r (- (radix / 2))); [lia|].
    exists q, r. split; [reflexivity|]. split; [lia|]. split; [lia|].
    assert (radix * q = x - r) by lia. nia.
Qed.

Section Digits.
Context {p : Z} {ell : nat}.
Hypothesis Hp : 2 <= p.
Notation F := (Fp p).
Notation E := (elt p ell).

(** One digit relation, on integers. *)
Definition digit_rel (radix x hi lo : Z) : Prop :=
  x = lo + radix * hi /\ - radix < 2 * lo <= radix /\ 2 * radix * Z.abs hi <= 2 * Z.abs x + radix.

Lemma break_digits_spec radix xs : 2 <= radix -> exists hs ls,
  break_digits (p:=p) radix xs = Ret (map (toF p) hs, map (toF p) ls) /\
  length hs = length xs /\ length ls = length xs /\
  forall i, (i < length xs)%nat -> digit_rel radix (nth i xs 0) (nth i hs 0) (nth i ls 0).
Proof.
  intros Hr. induction xs as [|x xs [hs [ls [E [L1 [L2 H]]]]]].
  - exists [], []. cbn. repeat split; intros; lia.
  - destruct (break_digit_spec radix x Hr) as [h [l [Eb Hd]]].
    exists (h :: hs), (l :: ls). cbn [break_digits]. rewrite Eb. cbn [obind]. rewrite E. cbn.
    split; [reflexivity|]. split; [congruence|]. split; [congruence|].
    intros [|i] Hi; [exact Hd|apply H; lia].
Qed.

Lemma resizeE_length (v : list E) n : length (resizeE v n) = n.
Proof. unfold resizeE. rewrite firstn_length, app_length, repeat_length. lia. Qed.

Lemma conv_elt_coeff (old : E) v j : length v = ell -> (j < ell)%nat -> coeff (conv_elt old v) j = nth j v 0%F.
Proof.
  intros Hl Hj. unfold conv_elt. rewrite coeff_mkE. rewrite Hl, Nat.min_id.
  rewrite (proj2 (Nat.ltb_lt _ _)) by assumption. reflexivity.
Qed.
Lemma conv_svec_nth (e : E) j : (j < ell)%nat -> nth j (conv_svec e) 0%F = coeff e j.
Proof.
  intros H. unfold conv_svec. rewrite nth_indep with (d' := coeff e 0) by (rewrite map_length, seq_length; lia).
  rewrite map_nth, seq_nth by assumption. reflexivity.
Qed.
Lemma conv_svec_length (e : E) : length (conv_svec e) = ell.
Proof. unfold conv_svec. now rewrite map_length, seq_length. Qed.

Lemma digit_bal radix (s h l : F) hi lo : 2 <= radix -> 2 < p -> radix < p -> h = toF p hi -> l = toF p lo ->
  digit_rel radix (balanced s) hi lo ->
  digit_rel radix (balanced s) (balanced h) (balanced l).
Proof.
  intros Hr Hp2 Hrp -> -> [E [Hlo Hhi]].
  destruct (balanced_spec Hp s) as [_ Hs].
  assert (Hh : - p < 2 * hi <= p).
  { assert (2 * radix * Z.abs hi <= p + radix) by lia. assert (2 * (2 * Z.abs hi) <= p + 2).
    { assert (radix * (2 * Z.abs hi - 1) <= p) by lia.
      destruct (Z.le_gt_cases (2 * Z.abs hi) 1); [lia|]. nia. }
    lia. }
  rewrite !balanced_of by lia. unfold digit_rel. auto.
Qed.

Lemma break_loop_spec radix (v : list E) : 2 <= radix -> 2 < p -> radix < p -> forall hi lo, length hi = length v -> length lo = length v ->
  exists hi' lo', break_loop hi lo v radix = Ret (hi', lo') /\ length hi' = length v /\ length lo' = length v /\
  forall i j, (i < length v)%nat -> (j < ell)%nat ->
    digit_rel radix (balanced (coeff (nth i v e0) j)) (balanced (coeff (nth i hi' e0) j)) (balanced (coeff (nth i lo' e0) j)).
Proof.
  intros Hr Hp2 Hrp. induction v as [|e v IH]; intros hi lo Hh Hl.
  - destruct hi, lo; try discriminate. exists [], []. cbn. repeat split; intros; lia.
  - destruct hi as [|h hi]; [discriminate|]. destruct lo as [|l lo]; [discriminate|]. cbn in Hh, Hl.
    destruct (IH hi lo ltac:(lia) ltac:(lia)) as [hi' [lo' [E [L1 [L2 H]]]]].
    destruct (break_digits_spec radix (balanced_elt e) Hr) as [hs [ls [Eb [M1 [M2 Hd]]]]].
    cbn [break_loop]. rewrite Eb. cbn [obind]. rewrite E. cbn [obind fst snd].
    do 2 eexists. split; [reflexivity|]. cbn [length]. split; [lia|]. split; [lia|].
    assert (Lb : length (balanced_elt e) = ell) by (unfold balanced_elt, balanced_vec; now rewrite map_length, conv_svec_length).
    intros [|i] j Hi Hj; cbn [nth].
    + specialize (Hd j ltac:(lia)).
      rewrite !conv_elt_coeff by (rewrite ?map_length; lia).
      assert (Ex : nth j (balanced_elt e) 0 = balanced (coeff e j)).
      { unfold balanced_elt, balanced_vec. rewrite nth_indep with (d' := balanced (@f0 p)) by (rewrite map_length, conv_svec_length; lia).
        now rewrite map_nth, conv_svec_nth. }
      rewrite Ex in Hd. eapply digit_bal; try eassumption.
      * change 0%F with (toF p 0). apply map_nth.
      * change 0%F with (toF p 0). apply map_nth.
    + apply H; lia.
Qed.
End Digits.

(** *** Padding *)
Section Pad.
Context {p : Z} {ell : nat}.
Hypothesis Hp : 2 <= p.
Notation F := (Fp p).
Notation E := (elt p ell).
Variable jacobi : Z -> Z -> Z.
Variable probPrime : Z -> bool.
Variable singlePrec : Z -> bool.
Hypothesis Hjac : jacobi_ok jacobi.
Hypothesis Hpp : prime_test_sound probPrime.

Lemma sum_sq_cons x l : sum_sq (x :: l) = x * x + sum_sq l.
Proof. reflexivity. Qed.
Lemma sum_sq_app a b : sum_sq (a ++ b) = sum_sq a + sum_sq b.
Proof. induction a; cbn [app]; [reflexivity|]. rewrite !sum_sq_cons. lia. Qed.
Lemma sum_sq_nonneg a : 0 <= sum_sq a.
Proof. induction a; [cbn; lia|]. rewrite sum_sq_cons. nia. Qed.
Lemma sum_sq_in a x : In x a -> x * x <= sum_sq a.
Proof.
  induction a as [|y a IH]; [intros []|]. intros [H|H]; rewrite sum_sq_cons.
  - subst. pose proof (sum_sq_nonneg a). lia.
  - specialize (IH H). nia.
Qed.
Lemma sum_sq_repeat0 k : sum_sq (repeat 0 k) = 0.
Proof. induction k; [reflexivity|]. cbn [repeat]. rewrite sum_sq_cons. lia. Qed.

Lemma pad_bounded four bound n2 : 0 <= bound -> 2 * bound <= p -> 0 <= n2 ->
  four_squares_of (bound * bound - n2) four -> map (@balanced p) (map (toF p) four) = four.
Proof.
  intros Hb Hbp Hn [L [Hnn Hs]]. rewrite map_map. rewrite <- (map_id four) at 2. apply map_ext_in.
  intros x Hx. rewrite Forall_forall in Hnn. specialize (Hnn x Hx).
  assert (x * x <= bound * bound).
  { pose proof (sum_sq_in four x Hx) as Hi. unfold sum_sq in Hi. unfold sum_of_squares in Hs. lia. }
  apply balanced_of; [assumption|]. assert (x <= bound) by nia. lia.
Qed.

Lemma pad_s_spec (v pad : list F) bound : 0 <= bound -> 2 * bound <= p -> (PAD_SIZE <= length pad)%nat ->
  let n2 := sum_sq (map balanced v) in
  (bound * bound < n2 -> pad2exactNorm_s jacobi probPrime singlePrec p v pad bound = Throw) /\
  (n2 <= bound * bound ->
   exists four, decompose4 jacobi probPrime singlePrec (bound * bound - n2) = Ret four /\
    (four = [-1; -1; -1; -1] \/
     pad2exactNorm_s jacobi probPrime singlePrec p v pad bound = Ret (map (toF p) four ++ skipn 4 pad) /\
     length four = 4%nat /\ sum_sq (map balanced (v ++ map (toF p) four)) = bound * bound)).
Proof.
  intros Hb Hbp Hl n2. unfold pad2exactNorm_s, normSquared_s. rewrite normSquaredBI_spec. fold n2. split; intros H.
  - replace (decompose4 _ _ _ _) with (@Throw (list Z)); [reflexivity|].
    symmetry. unfold decompose4. rewrite (proj2 (Z.ltb_lt _ _)) by lia. reflexivity.
  - destruct (decompose4_good jacobi probPrime singlePrec Hjac Hpp (bound * bound - n2) ltac:(lia)) as [four [E4 Hc]].
    exists four. split; [assumption|]. destruct Hc as [->|Hc]; [now left|right].
    rewrite E4. cbn [obind]. rewrite (proj2 (Nat.ltb_ge _ _)) by assumption.
    destruct Hc as [L [Hnn Hs]]. rewrite firstn_all2 by (rewrite L; reflexivity).
    split; [reflexivity|]. split; [assumption|].
    rewrite map_app, sum_sq_app, (pad_bounded four bound n2); [|assumption|assumption|apply sum_sq_nonneg|repeat split; assumption].
    fold n2. change (sum_sq four) with (sum_of_squares four). lia.
Qed.

Lemma pad_extra_bound : (0 < ell)%nat -> (4 <= pad_extra (ell:=ell) * ell)%nat.
Proof.
  intros He. unfold pad_extra, PAD_SIZE.
  set (e := Z.of_nat ell). assert (0 < e) by (unfold e; lia).
  pose proof (Z.div_mod (Z.of_nat 4 + e - 1) e ltac:(lia)). pose proof (Z.mod_pos_bound (Z.of_nat 4 + e - 1) e ltac:(lia)).
  assert (0 <= (Z.of_nat 4 + e - 1) / e) by (apply Z.div_pos; lia).
  apply Nat2Z.inj_le. rewrite Nat2Z.inj_mul, Z2Nat.id by assumption. fold e. nia.
Qed.

Lemma map_seq_shift {A} (g : nat -> A) s n : map (fun j => g (s + j)%nat) (seq 0 n) = map g (seq s n).
Proof.
  induction n as [|n IH]; [reflexivity|]. rewrite !seq_S, !map_app, IH. reflexivity.
Qed.
Lemma flat_tmp four k : (length four = 4)%nat ->
  flat_map (pad_tmp (p:=p) (ell:=ell) four) (seq 0 k) =
  map (fun idx => if (idx <? 4)%nat then toF p (nth idx four 0) else 0%F) (seq 0 (k * ell)).
Proof.
  intros L. induction k as [|k IH]; [reflexivity|].
  rewrite seq_S, flat_map_app. cbn [Nat.add flat_map]. rewrite app_nil_r, IH.
  replace (S k * ell)%nat with (k * ell + ell)%nat by (cbn; lia).
  rewrite seq_app, map_app. f_equal. unfold pad_tmp, PAD_SIZE. cbn [Nat.add].
  apply (map_seq_shift (fun idx => if (idx <? 4)%nat then toF p (nth idx four 0) else 0%F)).
Qed.
Lemma flat_tmp_val four k : (length four = 4)%nat -> (4 <= k * ell)%nat ->
  flat_map (pad_tmp (p:=p) (ell:=ell) four) (seq 0 k) = map (toF p) four ++ repeat 0%F (k * ell - 4).
Proof.
  intros L Hk. rewrite flat_tmp by assumption.
  replace (k * ell)%nat with (4 + (k * ell - 4))%nat at 1 by lia.
  rewrite seq_app, map_app. f_equal.
  - destruct four as [|a [|b [|c [|d [|]]]]]; try discriminate. reflexivity.
  - generalize (k * ell - 4)%nat. intros m. cbn [Nat.add].
    transitivity (map (fun _ : nat => @f0 p) (seq 4 m)).
    + apply map_ext_in. intros i Hi. apply in_seq in Hi. now rewrite (proj2 (Nat.ltb_ge _ _)) by lia.
    + generalize 4%nat. induction m as [|m IH]; intros s; [reflexivity|]. cbn. now rewrite IH.
Qed.
Lemma balanced_0 : balanced (@f0 p) = 0.
Proof. apply balanced_of; [assumption|lia]. Qed.
Lemma conv_svec_conv (old : E) v : length v = ell -> conv_svec (conv_elt old v) = v.
Proof.
  intros Hl. apply nth_ext with (d := @f0 p) (d' := @f0 p); [now rewrite conv_svec_length|].
  intros j Hj. rewrite conv_svec_length in Hj. rewrite conv_svec_nth, conv_elt_coeff by assumption. reflexivity.
Qed.
Lemma pad_tmp_length four i : length (pad_tmp (p:=p) (ell:=ell) four i) = ell.
Proof. unfold pad_tmp. now rewrite map_length, seq_length. Qed.

Lemma pad_e_spec (v pad : list E) bound : (0 < ell)%nat -> 0 <= bound -> 2 * bound <= p ->
  let n2 := sum_sq (map balanced (coeffs_of v)) in
  (bound * bound < n2 -> pad2exactNorm_ev jacobi probPrime singlePrec p v pad bound = Throw) /\
  (n2 <= bound * bound ->
   decompose4 jacobi probPrime singlePrec (bound * bound - n2) = Ret [-1; -1; -1; -1] \/
   exists pad', pad2exactNorm_ev jacobi probPrime singlePrec p v pad bound = Ret pad' /\
     sum_sq (map balanced (coeffs_of (v ++ pad'))) = bound * bound /\
     4 <= Z.of_nat (length pad' * ell) < Z.of_nat (4 + ell)).
Proof.
  intros He Hb Hbp n2. unfold pad2exactNorm_ev, pad2exactNorm_e, normSquared_e, conv_bivec.
  change (flat_map conv_svec v) with (coeffs_of v).
  rewrite normSquaredBI_spec. fold n2. split; intros H.
  - replace (decompose4 _ _ _ _) with (@Throw (list Z)); [reflexivity|].
    symmetry. unfold decompose4. rewrite (proj2 (Z.ltb_lt _ _)) by lia. reflexivity.
  - destruct (decompose4_good jacobi probPrime singlePrec Hjac Hpp (bound * bound - n2) ltac:(lia)) as [four [E4 Hc]].
    destruct Hc as [->|Hc]; [now left|right].
    rewrite E4. cbn [obind]. rewrite resizeE_length, Nat.ltb_irrefl.
    rewrite skipn_all2 by (rewrite resizeE_length; lia). rewrite app_nil_r.
    eexists. split; [reflexivity|]. split.
    + unfold coeffs_of. rewrite flat_map_app, map_app, sum_sq_app. fold (coeffs_of v). fold n2.
      rewrite flat_map_concat_map, map_map.
      change (concat (map (fun x => conv_svec (conv_elt (nth x (resizeE pad pad_extra) e0) (pad_tmp four x))) (seq 0 (pad_extra (ell:=ell)))))
        with (concat (map (fun x => conv_svec (conv_elt (nth x (resizeE pad pad_extra) e0) (pad_tmp four x))) (seq 0 (pad_extra (ell:=ell))))).
      replace (map _ (seq 0 pad_extra)) with (map (pad_tmp (p:=p) (ell:=ell) four) (seq 0 (pad_extra (ell:=ell)))).
      2:{ apply map_ext. intros i. symmetry. apply conv_svec_conv. apply pad_tmp_length. }
      rewrite <- flat_map_concat_map, flat_tmp_val; [|apply Hc|now apply pad_extra_bound].
      rewrite map_app, (pad_bounded four bound n2); [|assumption|assumption|apply sum_sq_nonneg|assumption].
      rewrite sum_sq_app.
      replace (map balanced (repeat (@f0 p) (pad_extra (ell:=ell) * ell - 4))) with (repeat 0 (pad_extra (ell:=ell) * ell - 4)).
      2:{ generalize (pad_extra (ell:=ell) * ell - 4)%nat. induction n; [reflexivity|]. cbn [repeat map]. rewrite <- IHn. now rewrite balanced_0. }
      rewrite sum_sq_repeat0. destruct Hc as [_ [_ Hs]]. change (sum_sq four) with (sum_of_squares four). lia.
    + rewrite map_length, seq_length. pose proof (pad_extra_bound He). split; [lia|].
      unfold pad_extra, PAD_SIZE. set (e := Z.of_nat ell). assert (0 < e) by (unfold e; lia).
      pose proof (Z.div_mod (Z.of_nat 4 + e - 1) e ltac:(lia)). pose proof (Z.mod_pos_bound (Z.of_nat 4 + e - 1) e ltac:(lia)).
      assert (0 <= (Z.of_nat 4 + e - 1) / e) by (apply Z.div_pos; lia).
      rewrite Nat2Z.inj_mul, Z2Nat.id, Nat2Z.inj_add by assumption. fold e. lia.
Qed.
End Pad.

(** *** Maps and index sets *)
Section Maps.
Context {p : Z} {ell : nat}.
Notation F := (Fp p).
Notation E := (elt p ell).

Lemma kfind_kset (m : pvec p) k x k' : ksorted m ->
  kfind (kset m k x) k' = if k' =? k then Some x else kfind m k'.
Proof.
  intros Hs. destruct (Z.eqb_spec k' k) as [->|Hn].
  - apply kfind_some; [now apply kset_sorted|]. apply in_kset; [assumption|]. now left.
  - destruct (kfind m k') as [y|] eqn:Ef.
    + apply kfind_some; [now apply kset_sorted|]. apply in_kset; [assumption|]. right.
      split; [assumption|]. now apply kfind_some.
    + apply kfind_none. apply kfind_none in Ef. rewrite keys_kset by assumption. intros [?|?]; contradiction.
Qed.

Lemma add_down_spec cs : forall (m : pvec p) idx, ksorted m ->
  0 <= idx + 1 - Z.of_nat (length cs) -> idx < 2 ^ 64 ->
  ksorted (add_down m cs idx) /\
  forall k, kfind (add_down m cs idx) k =
    if (idx - Z.of_nat (length cs) <? k) && (k <=? idx) then nth_error cs (Z.to_nat (idx - k)) else kfind m k.
Proof.
  induction cs as [|c cs IH]; intros m idx Hs Hi Hi2.
  - cbn [add_down length]. split; [assumption|]. intros k.
    destruct (Z.ltb_spec (idx - Z.of_nat 0) k), (Z.leb_spec k idx); cbn [andb]; try reflexivity. lia.
  - cbn [add_down]. cbn [length] in *.
    destruct cs as [|c' cs'] eqn:Ecs.
    + cbn [add_down length]. split; [now apply kset_sorted|]. intros k. rewrite kfind_kset by assumption.
      destruct (Z.eqb_spec k idx) as [->|Hk].
      * rewrite (proj2 (Z.ltb_lt _ _)), (proj2 (Z.leb_le _ _)) by lia. now rewrite Z.sub_diag.
      * destruct (Z.ltb_spec (idx - Z.of_nat 1) k), (Z.leb_spec k idx); cbn [andb]; try reflexivity. lia.
    + rewrite <- Ecs in *. assert (0 < Z.of_nat (length cs)) by (rewrite Ecs; cbn [length]; lia).
      rewrite Z.mod_small by lia.
      destruct (IH (kset m idx c) (idx - 1) (kset_sorted _ _ _ Hs) ltac:(lia) ltac:(lia)) as [IH1 IH2].
      split; [assumption|]. intros k. rewrite IH2, kfind_kset by assumption.
      destruct (Z.eqb_spec k idx) as [->|Hk].
      * rewrite (proj2 (Z.leb_gt _ _)), andb_false_r by lia.
        rewrite (proj2 (Z.ltb_lt _ _)), (proj2 (Z.leb_le _ _)) by lia. now rewrite Z.sub_diag.
      * destruct (Z.ltb_spec (idx - 1 - Z.of_nat (length cs)) k), (Z.ltb_spec (idx - Z.of_nat (S (length cs))) k); try lia;
          cbn [andb]; [|reflexivity].
        destruct (Z.leb_spec k (idx - 1)), (Z.leb_spec k idx); try lia; [|reflexivity].
        replace (Z.to_nat (idx - k)) with (S (Z.to_nat (idx - 1 - k))) by lia. reflexivity.
Qed.

Lemma nth_error_rev {A} (l : list A) i : (i < length l)%nat -> nth_error (rev l) i = nth_error l (length l - 1 - i).
Proof.
  intros H. destruct l as [|a l0] eqn:E; [cbn in H; lia|]. rewrite <- E in *.
  rewrite !nth_error_nth' with (d := a) by (rewrite ?rev_length; lia).
  rewrite rev_nth by assumption. do 2 f_equal. lia.
Qed.

Lemma add_vec_spec (m : pvec p) (v : list F) offset : ksorted m -> 0 <= offset ->
  offset + Z.of_nat (length v) <= 2 ^ 64 ->
  let r := add_down m (rev v) ((offset + Z.of_nat (length v) - 1) mod 2 ^ 64) in
  ksorted r /\
  (forall i c, nth_error v i = Some c -> kfind r (offset + Z.of_nat i) = Some c) /\
  (forall k, ~ (offset <= k < offset + Z.of_nat (length v)) -> kfind r k = kfind m k).
Proof.
  intros Hs Ho Hl. destruct v as [|c0 v0] eqn:Ev.
  - cbn. split; [assumption|]. split; [|reflexivity]. intros [|i] c; discriminate.
  - rewrite <- Ev in *. assert (0 < Z.of_nat (length v)) by (rewrite Ev; cbn [length]; lia).
    rewrite Z.mod_small by lia.
    destruct (add_down_spec (rev v) m (offset + Z.of_nat (length v) - 1) Hs) as [H1 H2]; [rewrite rev_length; lia|lia|].
    rewrite rev_length in H2. split; [assumption|]. split.
    + intros i c Hc. rewrite H2.
      assert (Hi : (i < length v)%nat) by (apply nth_error_Some; congruence).
      rewrite (proj2 (Z.ltb_lt _ _)), (proj2 (Z.leb_le _ _)) by lia. cbn [andb].
      rewrite nth_error_rev by lia. rewrite <- Hc. f_equal. lia.
    + intros k Hk. rewrite H2.
      destruct (Z.ltb_spec (offset + Z.of_nat (length v) - 1 - Z.of_nat (length v)) k),
        (Z.leb_spec k (offset + Z.of_nat (length v) - 1)); cbn [andb]; try reflexivity. lia.
Qed.

Lemma flat_length (v : list E) : length (flat_map conv_svec v) = (length v * ell)%nat.
Proof. induction v; cbn; [reflexivity|]. now rewrite app_length, conv_svec_length, IHv. Qed.
Lemma flat_nth (v : list E) i j e : nth_error v i = Some e -> (j < ell)%nat ->
  nth_error (flat_map conv_svec v) (i * ell + j) = Some (coeff e j).
Proof.
  revert i. induction v as [|x v IH]; intros [|i] He Hj; try discriminate.
  - injection He as ->. cbn [flat_map Nat.mul Nat.add]. rewrite nth_error_app1 by (rewrite conv_svec_length; lia).
    rewrite nth_error_nth' with (d := @f0 p) by (rewrite conv_svec_length; lia).
    now rewrite conv_svec_nth.
  - cbn [flat_map Nat.mul]. rewrite nth_error_app2 by (rewrite conv_svec_length; lia).
    rewrite conv_svec_length. replace (ell + i * ell + j - ell)%nat with (i * ell + j)%nat by lia. now apply IH.
Qed.

Lemma addEVec_spec (m : pvec p) (v : list E) offset : ksorted m -> 0 <= offset ->
  offset + Z.of_nat (length v) * Z.of_nat ell <= 2 ^ 64 ->
  let r := addEVec2Map m v offset in
  ksorted r /\
  (forall i j e, nth_error v i = Some e -> (j < ell)%nat ->
     kfind r (offset + Z.of_nat i * Z.of_nat ell + Z.of_nat j) = Some (coeff e j)) /\
  (forall k, ~ (offset <= k < offset + Z.of_nat (length v) * Z.of_nat ell) -> kfind r k = kfind m k).
Proof.
  intros Hs Ho Hl r. unfold r, addEVec2Map. rewrite <- Nat2Z.inj_mul, <- flat_length in *.
  destruct (add_vec_spec m (flat_map conv_svec v) offset Hs Ho Hl) as [H1 [H2 H3]].
  split; [assumption|]. split; [|assumption].
  intros i j e He Hj. replace (offset + Z.of_nat i * Z.of_nat ell + Z.of_nat j) with (offset + Z.of_nat (i * ell + j)) by lia.
  apply H2. now apply flat_nth.
Qed.

Lemma in_zinsert s k k' : In k' (zinsert s k) <-> k' = k \/ In k' s.
Proof.
  induction s as [|x s IH]; cbn [zinsert].
  - cbn. intuition.
  - destruct (k <? x); [cbn; intuition|]. destruct (Z.eqb_spec k x).
    + subst. cbn. intuition.
    + cbn. rewrite IH. intuition.
Qed.
Lemma zinsert_sorted s k : zsorted s -> zsorted (zinsert s k).
Proof.
  induction s as [|x s IH]; cbn [zinsert zsorted]; [intros _; split; [intros ? []|exact I]|].
  intros [H1 H2]. destruct (Z.ltb_spec k x).
  - cbn [zsorted]. split; [|split; assumption]. intros e [<-|He]; [assumption|]. specialize (H1 e He). lia.
  - destruct (Z.eqb_spec k x); [cbn [zsorted]; split; assumption|].
    cbn [zsorted]. split; [|now apply IH]. intros e He. apply in_zinsert in He. destruct He as [->|He]; [lia|now apply H1].
Qed.
Lemma in_zinsert_all src : forall s k, In k (zinsert_all s src) <-> In k s \/ In k src.
Proof.
  unfold zinsert_all. induction src as [|x src IH]; intros s k; cbn [fold_left]; [cbn; tauto|].
  rewrite IH, in_zinsert. cbn. intuition.
Qed.
Lemma zinsert_all_sorted src : forall s, zsorted s -> zsorted (zinsert_all s src).
Proof.
  unfold zinsert_all. induction src as [|x src IH]; intros s Hs; cbn [fold_left]; [assumption|]. apply IH. now apply zinsert_sorted.
Qed.
Lemma in_interval from to k : In k (interval from to) <-> from <= k < to.
Proof.
  unfold interval. rewrite in_map_iff. split.
  - intros [i [<- Hi]]. apply in_seq in Hi. lia.
  - intros H. exists (Z.to_nat (k - from)). split; [lia|]. apply in_seq. lia.
Qed.
Lemma int_small k : 0 <= k < 2 ^ 31 -> int_of_size k = k.
Proof. intros H. unfold int_of_size. rewrite Z.mod_small; lia. Qed.
Lemma addRange_spec s from len : zsorted s -> 0 <= from -> 0 <= len -> from + len < 2 ^ 31 ->
  zsorted (addRange2Set s from len) /\ forall k, In k (addRange2Set s from len) <-> In k s \/ from <= k < from + len.
Proof.
  intros Hs H1 H2 H3. unfold addRange2Set. split; [now apply zinsert_all_sorted|].
  intros k. rewrite in_zinsert_all. rewrite (Z.mod_small (from + len)) by lia. rewrite !int_small by lia.
  assert (E : In k (map (fun i => i mod 2 ^ 64) (interval from (from + len))) <-> from <= k < from + len); [|tauto].
  rewrite in_map_iff. split.
  - intros [i [<- Hi]]. apply in_interval in Hi. rewrite Z.mod_small; lia.
  - intros H. exists k. split; [apply Z.mod_small; lia|]. now apply in_interval.
Qed.
End Maps.
