(** Proofs about the byte-level scalars and the point wrappers. *)
From Coq Require Import ZArith Znumtheory List Lia Bool.
From Verif Require Import NumTheory Outcome Bytes Fp GroupMod FSum Prime25519 Scalar25519Model Scalar25519Spec.
Import ListNotations.
Open Scope Z_scope.

Lemma P_pos : 0 < P.
Proof. reflexivity. Qed.
Lemma P_lt_256 : P < 256 ^ Z.of_nat 32.
Proof. reflexivity. Qed.

Lemma enc_length z : length (enc z) = 32%nat.
Proof. apply le_bytes_length. Qed.
Lemma enc_val z : le_val (enc z) = z mod P.
Proof.
  unfold enc. apply le_val_bytes_small. pose proof (Z.mod_pos_bound z P P_pos).
  pose proof P_lt_256. lia.
Qed.
Lemma enc_ok z : bytes_ok (enc z).
Proof. apply le_bytes_ok. Qed.

Lemma bytes_eqb_eq a b : bytes_eqb a b = true <-> a = b.
Proof.
  revert b. induction a as [|x a IH]; intros [|y b]; cbn; split; intros H; try discriminate; try reflexivity.
  - apply andb_prop in H. destruct H as [H1 H2]. apply Z.eqb_eq in H1. apply IH in H2. congruence.
  - injection H as -> ->. rewrite Z.eqb_refl. now apply IH.
Qed.

Lemma enc_canon b : length b = 32%nat -> bytes_ok b -> le_val b < P -> b = enc (le_val b).
Proof.
  intros Hl Hb Hv. apply le_val_inj; [assumption|apply enc_ok|now rewrite enc_length|].
  rewrite enc_val, Z.mod_small; [reflexivity|]. split; [apply le_val_range, Hb|assumption].
Qed.

Lemma setInteger_val8 n : 0 <= n < 2 ^ 63 -> le_val (le_bytes 8 n ++ repeat 0 24) = n.
Proof.
  intros H. rewrite le_val_app, le_val_repeat0, le_val_bytes_small; [lia|].
  change (256 ^ Z.of_nat 8) with (2 ^ 64). lia.
Qed.
Lemma setInteger_ret n : - 2 ^ 63 < n < 2 ^ 63 -> setInteger n = Ret (enc n).
Proof.
  intros H. unfold setInteger. destruct (Z.ltb_spec n 0) as [Hn|Hn].
  - destruct (Z.eqb_spec n (- 2 ^ 63)); [lia|].
    unfold s_negate, sodium_negate. rewrite setInteger_val8 by lia. now rewrite Z.opp_involutive.
  - f_equal. apply le_val_inj.
    + apply bytes_ok_app. split; [apply le_bytes_ok|apply bytes_ok_repeat0].
    + apply enc_ok.
    + rewrite enc_length, app_length, le_bytes_length, repeat_length. reflexivity.
    + rewrite setInteger_val8, enc_val by lia. rewrite Z.mod_small; [reflexivity|].
      assert (2 ^ 63 < P) by reflexivity. lia.
Qed.


(** *** BoundedSizeScalar *)
Lemma mask_value n : 1 <= n <= 251 -> Z.shiftr 255 (Z.land (8 - n) 7) = 2 ^ (n - 8 * ((7 + n) / 8 - 1)) - 1.
Proof.
  intros H. change 7 with (Z.ones 3). rewrite Z.land_ones by lia. change (2 ^ 3) with 8. change (Z.ones 3) with 7.
  pose proof (Z.div_mod (7 + n) 8 ltac:(lia)) as E. pose proof (Z.mod_pos_bound (7 + n) 8 ltac:(lia)) as Hb.
  set (q := (7 + n) / 8) in *.
  assert (Em : (8 - n) mod 8 = 8 * q - n).
  { symmetry. apply Z.mod_unique with (q := 1 - q); [lia|lia]. }
  rewrite Em. rewrite Z.shiftr_div_pow2 by lia.
  set (d := 8 * q - n). replace (n - 8 * (q - 1)) with (8 - d) by (unfold d; lia).
  assert (Hd : 0 <= d <= 7) by (unfold d; lia). clearbody d.
  assert (C : d = 0 \/ d = 1 \/ d = 2 \/ d = 3 \/ d = 4 \/ d = 5 \/ d = 6 \/ d = 7) by lia.
  destruct C as [->|[->|[->|[->|[->|[->|[->| ->]]]]]]]; reflexivity.
Qed.

Lemma bounded_value n buf : 1 <= n <= 251 -> bytes_ok buf ->
  let k := Z.to_nat ((7 + n) / 8) in
  length buf = k ->
  let b0 := firstn (k - 1) buf ++ [Z.land (nth (k - 1) buf 0) (Z.shiftr 255 (Z.land (8 - n) 7))] ++ repeat 0 (32 - k) in
  length b0 = 32%nat /\ bytes_ok b0 /\ 0 <= le_val b0 <= 2 ^ n - 1.
Proof.
  intros Hn Hok k Hlen b0.
  pose proof (Z.div_mod (7 + n) 8 ltac:(lia)) as E. pose proof (Z.mod_pos_bound (7 + n) 8 ltac:(lia)) as Hb.
  assert (Hk : Z.of_nat k = (7 + n) / 8) by (unfold k; rewrite Z2Nat.id; [reflexivity|apply Z.div_pos; lia]).
  unfold b0; clear b0. rewrite mask_value by assumption.
  set (q := (7 + n) / 8) in *. clearbody k q.
  assert (Hq : 1 <= q <= 32) by lia.
  set (w := n - 8 * (q - 1)) in *. assert (Hw : 1 <= w <= 8) by (unfold w; lia).
  set (x := nth (k - 1) buf 0) in *.
  assert (Htop : 0 <= Z.land x (2 ^ w - 1) < 2 ^ w).
  { replace (2 ^ w - 1) with (Z.ones w) by (rewrite Z.ones_equiv; lia).
    rewrite Z.land_ones by lia. apply Z.mod_pos_bound. apply Z.pow_pos_nonneg; lia. }
  assert (Hw256 : 2 ^ w <= 256) by (change 256 with (2 ^ 8); apply Z.pow_le_mono_r; lia).
  assert (Hfl : length (firstn (k - 1) buf) = (k - 1)%nat) by (rewrite firstn_length; lia).
  assert (Hfo : bytes_ok (firstn (k - 1) buf)).
  { unfold bytes_ok in *. apply Forall_forall. intros y Hy.
    rewrite Forall_forall in Hok. apply Hok. rewrite <- (firstn_skipn (k - 1) buf). apply in_or_app. now left. }
  split; [|split].
  - rewrite !app_length, Hfl, repeat_length. cbn [length]. lia.
  - apply bytes_ok_app. split; [assumption|]. constructor; [split; lia|apply bytes_ok_repeat0].
  - rewrite le_val_app, Hfl. cbn [app le_val]. rewrite le_val_repeat0.
    pose proof (le_val_range _ Hfo) as Hr. rewrite Hfl in Hr.
    replace (Z.of_nat (k - 1)) with (q - 1) in * by lia.
    change 256 with (2 ^ 8) in *. rewrite <- Z.pow_mul_r in * by lia.
    assert (En : 2 ^ n = 2 ^ (8 * (q - 1)) * 2 ^ w) by (rewrite <- Z.pow_add_r by lia; f_equal; unfold w; lia).
    rewrite En. nia.
Qed.


Lemma bytes_ok_nth b : bytes_ok b <-> forall i, 0 <= nth i b 0 < 256.
Proof.
  unfold bytes_ok. rewrite Forall_forall. split.
  - intros H i. destruct (nth_in_or_default i b 0) as [Hi| ->]; [now apply H|lia].
  - intros H x Hx. destruct (In_nth b x 0 Hx) as [i [_ <-]]. apply H.
Qed.
Lemma represents_enc z : represents (enc z) (toF P z).
Proof.
  split; [split; [apply enc_length|apply bytes_ok_nth, enc_ok]|]. now rewrite enc_val, fval_toF.
Qed.
Lemma represents_inj a b x : represents a x -> represents b x -> a = b.
Proof.
  intros [[La Ha] Va] [[Lb Hb] Vb]. apply le_val_inj; try now apply bytes_ok_nth. 1: congruence. congruence.
Qed.
Lemma represents_fun a x y : represents a x -> represents a y -> x = y.
Proof. intros [_ Va] [_ Vb]. apply Fp_eq. congruence. Qed.
Lemma represents_value a x : represents a x -> value a = x.
Proof. intros [_ V]. unfold value. rewrite V. apply toF_fval. Qed.
Lemma represents_is_enc a x : represents a x -> a = enc (fval x).
Proof. intros H. apply (represents_inj _ _ x H). rewrite <- (toF_fval _ x) at 2. apply represents_enc. Qed.

Lemma arith_represents a b :
  represents (s_add a b) (value a + value b)%F /\
  represents (s_sub a b) (value a - value b)%F /\
  represents (s_mul a b) (value a * value b)%F /\
  represents (s_negate a) (- value a)%F.
Proof.
  unfold value. rewrite <- toF_add, <- toF_sub, <- toF_mul, <- toF_opp.
  repeat split; try apply represents_enc.
Qed.

Lemma value_0_iff b : value b = f0 <-> le_val b mod P = 0.
Proof. unfold value, f0. rewrite toF_eq_iff. reflexivity. Qed.

Lemma division_represents a b :
  (value b = f0 -> s_div a b = Throw /\ s_invert b = Throw) /\
  (value b <> f0 -> exists q i, s_div a b = Ret q /\ s_invert b = Ret i /\
     represents i (finv (value b)) /\
     (forall x, represents q x -> (x * value b = value a)%F) /\ exists x, represents q x).
Proof.
  split; intros H.
  - apply value_0_iff in H. unfold s_div, s_invert, sodium_invert. rewrite H. now split.
  - assert (E : le_val b mod P =? 0 = false) by (apply Z.eqb_neq; intros E; apply H; now apply value_0_iff).
    set (i := enc (fval (finv (value b)))).
    assert (Ei : s_invert b = Ret i) by (unfold s_invert, sodium_invert; rewrite E; reflexivity).
    assert (Ri : represents i (finv (value b))).
    { unfold i. rewrite <- (toF_fval _ (finv (value b))) at 2. apply represents_enc. }
    exists (s_mul a i), i. unfold s_div. rewrite Ei.
    destruct (arith_represents a i) as [_ [_ [Rm _]]]. rewrite (represents_value _ _ Ri) in Rm.
    split; [reflexivity|]. split; [reflexivity|]. split; [assumption|]. split; [|eexists; exact Rm].
    intros x Hx. rewrite (represents_fun _ _ _ Hx Rm), <- fmul_assoc, finv_l; [|apply P25519_is_prime|assumption].
    rewrite fmul_comm. apply fmul_1_l.
Qed.

Lemma represents_zero : represents s_zero f0.
Proof. exact (represents_enc 0). Qed.
Lemma equality_represents a b x y : represents a x -> represents b y ->
  (s_eqb a b = true <-> x = y) /\ (s_isZero a = true <-> x = f0).
Proof.
  assert (E : forall a b x y, represents a x -> represents b y -> (s_eqb a b = true <-> x = y)).
  { clear. intros a b x y Ha Hb. unfold s_eqb. rewrite bytes_eqb_eq. split.
    - intros ->. now apply (represents_fun b).
    - intros ->. now apply (represents_inj _ _ y). }
  intros Ha Hb. split; [now apply E|]. unfold s_isZero. rewrite (E s_zero a f0 x); [|apply represents_zero|assumption].
  split; congruence.
Qed.

Lemma inner_loop_represents n : forall a b ret s, (n <= length a)%nat -> (n <= length b)%nat -> represents ret s ->
  exists r, s_inner_loop a b n ret = Ret r /\
    represents r (s + fsum (map (fun e => (value (fst e) * value (snd e))%F) (combine (firstn n a) (firstn n b))))%F.
Proof.
  induction n as [|n IH]; intros a b ret s Ha Hb Hr.
  - exists ret. split; [reflexivity|]. cbn. rewrite fadd_comm, fadd_0_l. assumption.
  - destruct a as [|x a]; [cbn in Ha; lia|]. destruct b as [|y b]; [cbn in Hb; lia|].
    cbn in Ha, Hb. cbn [s_inner_loop firstn combine map fst snd fsum].
    destruct (IH a b (s_add ret (s_mul x y)) (s + value x * value y)%F ltac:(lia) ltac:(lia)) as [r [Er Rr]].
    { destruct (arith_represents x y) as [_ [_ [Rm _]]].
      destruct (arith_represents ret (s_mul x y)) as [Rp _].
      now rewrite (represents_value _ _ Hr), (represents_value _ _ Rm) in Rp. }
    exists r. split; [assumption|]. rewrite fadd_assoc. assumption.
Qed.
Lemma innerProduct_represents a b n : (n <= length a)%nat -> (n <= length b)%nat ->
  exists r, s_innerProduct a b n = Ret r /\
    represents r (fsum (map (fun e => (value (fst e) * value (snd e))%F) (combine (firstn n a) (firstn n b)))).
Proof.
  intros Ha Hb. destruct (inner_loop_represents n a b s_zero f0 Ha Hb represents_zero) as [r [Er Rr]].
  exists r. split; [assumption|]. now rewrite fadd_0_l in Rr.
Qed.

(** *** operator%= *)
Lemma P_odd : P = 2 * (P / 2) + 1.
Proof. vm_compute. reflexivity. Qed.
Lemma signed_code x : (if P / 2 <=? x then x - P else x) = signed_reading x.
Proof.
  unfold signed_reading. pose proof P_odd.
  destruct (Z.leb_spec (P / 2) x), (Z.ltb_spec (2 * x) (P - 1)); lia.
Qed.
Lemma signed_code_abs y : 0 <= y < P -> (if P / 2 <=? y then Z.abs (y - P) else y) = Z.abs (signed_reading y).
Proof.
  intros H. unfold signed_reading. pose proof P_odd.
  destruct (Z.leb_spec (P / 2) y), (Z.ltb_spec (2 * y) (P - 1)); lia.
Qed.
Lemma signed_nonzero y : 0 < y < P -> 0 < Z.abs (signed_reading y) < P.
Proof.
  intros H. unfold signed_reading. pose proof P_odd.
  destruct (Z.ltb_spec (2 * y) (P - 1)); lia.
Qed.
Lemma rep_fval_pos (y : Fp P) : y <> f0 -> 0 < fval y < P.
Proof.
  intros H. pose proof (fval_range P y P_pos).
  assert (fval y <> 0) by (intros E; apply H; apply Fp_eq; rewrite E; reflexivity). lia.
Qed.
Lemma mod_spec a b x y : represents a x -> represents b y -> y <> f0 ->
  exists r z, s_mod a b = Ret r /\
    nearest_residue (signed_reading (fval x)) (Z.abs (signed_reading (fval y))) z /\
    represents r (toF P z).
Proof.
  intros [_ Ea] [_ Eb] Hy. apply rep_fval_pos in Hy.
  unfold s_mod. rewrite Ea, Eb, signed_code, signed_code_abs by lia.
  pose proof (signed_nonzero _ Hy) as Hm. set (w := signed_reading (fval x)). set (m := Z.abs (signed_reading (fval y))) in *.
  destruct (Z.eqb_spec m 0); [lia|].
  pose proof (Z.div_mod w m ltac:(lia)) as E. pose proof (Z.mod_pos_bound w m ltac:(lia)) as Hb.
  pose proof (Z.div_mod m 2 ltac:(lia)) as E2. pose proof (Z.mod_pos_bound m 2 ltac:(lia)) as Hb2.
  assert (Habs : forall v, 0 <= v < P -> le_bytes 32 (Z.abs v) = enc v).
  { intros v Hv. unfold enc. rewrite Z.mod_small by assumption. f_equal. lia. }
  set (r := w mod m) in *.
  destruct (Z.ltb_spec (m / 2) r).
  - eexists. exists (r - m). split; [reflexivity|]. split.
    + split; [|lia]. exists (w / m + 1). lia.
    + rewrite Habs by lia. replace (toF P (r - m)) with (toF P (P + r - m)); [apply represents_enc|].
      apply toF_eq_iff. replace (P + r - m) with (r - m + 1 * P) by ring. apply Z.mod_add. pose proof P_pos; lia.
  - eexists. exists r. split; [reflexivity|]. split.
    + split; [|lia]. exists (w / m). lia.
    + rewrite Habs by lia. apply represents_enc.
Qed.
Lemma mod_zero a b : represents b f0 -> s_mod a b = Abort.
Proof. intros [_ E]. unfold s_mod. rewrite E. reflexivity. Qed.

Lemma mod_refuted :
  (exists a b, represents a (toF P 2) /\ represents b (toF P 4) /\ s_mod a b = Ret a) /\
  (exists a b r, represents a (toF P ((P - 1) / 2)) /\ represents b (toF P 7) /\ s_mod a b = Ret r /\
     ~ exists z, (7 | (P - 1) / 2 - z) /\ - 7 <= 2 * z <= 7 /\ represents r (toF P z)).
Proof.
  split.
  - exists (enc 2), (enc 4). split; [apply represents_enc|]. split; [apply represents_enc|]. vm_compute. reflexivity.
  - exists (enc ((P - 1) / 2)), (enc 7). eexists.
    split; [apply represents_enc|]. split; [apply represents_enc|]. split; [vm_compute; reflexivity|].
    intros [z [Hd [Hz [_ Hv]]]].
    assert (C : z = -3 \/ z = -2 \/ z = -1 \/ z = 0 \/ z = 1 \/ z = 2 \/ z = 3) by lia.
    apply Z.mod_divide in Hd; [|lia].
    destruct C as [->|[->|[->|[->|[->|[->| ->]]]]]]; vm_compute in Hd; try discriminate;
      vm_compute in Hv; discriminate.
Qed.

(** *** Samplers *)
Lemma bounded_new_throw n : bounded_new n = Throw <-> ~ (1 <= n <= 251).
Proof.
  unfold bounded_new. destruct (Z.ltb_spec n 1), (Z.ltb_spec 251 n); cbn; split; intros; try discriminate; try reflexivity; lia.
Qed.
Lemma bounded_new_ret n nB m : bounded_new n = Ret (nB, m) ->
  1 <= n <= 251 /\ nB = (7 + n) / 8 /\ m = Z.shiftr 255 (Z.land (8 - n) 7).
Proof.
  unfold bounded_new. destruct (Z.ltb_spec n 1), (Z.ltb_spec 251 n); cbn [orb]; intros H1; try discriminate.
  injection H1 as <- <-. repeat split; lia.
Qed.
Lemma pow_lt_P n : 1 <= n <= 251 -> 2 ^ n < P.
Proof.
  intros H. apply Z.le_lt_trans with (2 ^ 251); [apply Z.pow_le_mono_r; lia|reflexivity].
Qed.
Lemma bounded_range n nBytes mask buf bit : bounded_new n = Ret (nBytes, mask) ->
  Z.of_nat (length buf) = nBytes -> (forall i, 0 <= nth i buf 0 < 256) ->
  exists z, - (2 ^ n - 1) <= z <= 2 ^ n - 1 /\ represents (bounded_draw nBytes mask buf bit) (toF P z).
Proof.
  intros Hn Hl Hb. apply bounded_new_ret in Hn. destruct Hn as [Hn [-> ->]].
  apply bytes_ok_nth in Hb.
  destruct (bounded_value n buf Hn Hb ltac:(lia)) as [L [B V]].
  unfold bounded_draw. set (b0 := _ ++ _) in *.
  pose proof (pow_lt_P n Hn) as HP.
  destruct (Z.odd bit).
  - exists (- le_val b0). split; [lia|]. unfold sodium_negate. apply represents_enc.
  - exists (le_val b0). split; [lia|]. split; [split; [assumption|now apply bytes_ok_nth]|].
    rewrite fval_toF, Z.mod_small by lia. reflexivity.
Qed.

Lemma le_bytes_app a b z : le_bytes (a + b) z = le_bytes a z ++ le_bytes b (z / 256 ^ Z.of_nat a).
Proof.
  revert z. induction a as [|a IH]; intros z.
  - cbn [Nat.add le_bytes app]. change (256 ^ Z.of_nat 0) with 1. now rewrite Z.div_1_r.
  - cbn [Nat.add le_bytes app]. rewrite IH. do 2 f_equal. rewrite Nat2Z.inj_succ, Z.pow_succ_r by lia.
    now rewrite Z.div_div by (try apply Z.pow_pos_nonneg; lia).
Qed.
Lemma le_bytes_0 k : le_bytes k 0 = repeat 0 k.
Proof. induction k; [reflexivity|]. cbn [le_bytes repeat]. now rewrite <- IHk. Qed.

Lemma bounded_onto n nBytes mask z : bounded_new n = Ret (nBytes, mask) -> - (2 ^ n - 1) <= z <= 2 ^ n - 1 ->
  exists buf bit, Z.of_nat (length buf) = nBytes /\ (forall i, 0 <= nth i buf 0 < 256) /\
    represents (bounded_draw nBytes mask buf bit) (toF P z).
Proof.
  intros Hn Hz. apply bounded_new_ret in Hn. destruct Hn as [Hn [-> ->]].
  pose proof (Z.div_mod (7 + n) 8 ltac:(lia)) as E. pose proof (Z.mod_pos_bound (7 + n) 8 ltac:(lia)) as Hb.
  set (q := (7 + n) / 8) in *.
  set (k := Z.to_nat q). assert (Hk : Z.of_nat k = q) by (unfold k; lia).
  exists (le_bytes k (Z.abs z)), (if z <? 0 then 1 else 0).
  rewrite le_bytes_length. split; [assumption|]. split; [apply bytes_ok_nth, le_bytes_ok|].
  assert (Key : firstn (k - 1) (le_bytes k (Z.abs z)) ++
     [Z.land (nth (k - 1) (le_bytes k (Z.abs z)) 0) (Z.shiftr 255 (Z.land (8 - n) 7))] ++ repeat 0 (32 - k)
     = enc (Z.abs z)).
  { rewrite mask_value by assumption. fold q. set (w := n - 8 * (q - 1)).
    assert (Hw : 1 <= w <= 8) by (unfold w; lia).
    assert (EL : le_bytes k (Z.abs z) = le_bytes (k - 1) (Z.abs z) ++ le_bytes 1 (Z.abs z / 256 ^ Z.of_nat (k - 1))).
    { replace k with ((k - 1) + 1)%nat at 1 by lia. apply le_bytes_app. }
    rewrite EL.
    rewrite firstn_app, firstn_all2, le_bytes_length, Nat.sub_diag, firstn_O, app_nil_r by (rewrite le_bytes_length; lia).
    rewrite app_nth2, le_bytes_length, Nat.sub_diag by (rewrite le_bytes_length; lia).
    cbn [le_bytes nth].
    assert (En : 2 ^ n = 2 ^ w * 256 ^ Z.of_nat (k - 1)).
    { replace (Z.of_nat (k - 1)) with (q - 1) by lia. change 256 with (2 ^ 8). rewrite <- Z.pow_mul_r by lia.
      rewrite <- Z.pow_add_r by lia. f_equal. unfold w. lia. }
    set (M := 256 ^ Z.of_nat (k - 1)) in *. assert (HM : 0 < M) by (apply Z.pow_pos_nonneg; lia).
    set (t := Z.abs z / M).
    assert (Ht : 0 <= t < 2 ^ w).
    { split; [apply Z.div_pos; lia|]. apply Z.div_lt_upper_bound; lia. }
    assert (Hw256 : 2 ^ w <= 256) by (change 256 with (2 ^ 8); apply Z.pow_le_mono_r; lia).
    rewrite (Z.mod_small t 256) by lia.
    replace (2 ^ w - 1) with (Z.ones w) by (rewrite Z.ones_equiv; lia).
    rewrite Z.land_ones, Z.mod_small by lia.
    unfold enc. rewrite (Z.mod_small (Z.abs z) P) by (pose proof (pow_lt_P n Hn); lia).
    replace 32%nat with ((k - 1) + (1 + (32 - k)))%nat at 2 by lia.
    rewrite le_bytes_app. f_equal. fold M. fold t. cbn [Nat.add le_bytes app].
    rewrite (Z.mod_small t 256), (Z.div_small t 256) by lia. f_equal. symmetry. apply le_bytes_0. }
  unfold bounded_draw. fold k. rewrite Key. destruct (Z.ltb_spec z 0) as [Hz0|Hz0]; cbn [Z.odd].
  - replace z with (- Z.abs z) at 2 by lia. unfold sodium_negate. rewrite enc_val.
    rewrite Z.mod_small by (pose proof (pow_lt_P n Hn); lia). apply represents_enc.
  - replace (Z.abs z) with z by lia. apply represents_enc.
Qed.

Lemma zeroOne_zero r :
  represents (zeroOne r s_zero) (toF P (if Z.odd r then (if Z.testbit r 1 then -1 else 1) else 0)).
Proof.
  unfold zeroOne. destruct (Z.odd r); [destruct (Z.testbit r 1)|].
  - exact (represents_enc (-1)).
  - exact (represents_enc 1).
  - exact (represents_enc 0).
Qed.

(** *** Points *)
Section Points.
Context {G : gmod P}.
Local Open Scope g_scope.

Lemma sodium_mul_ret (a : G) (n : sbytes) : length n = 32%nat -> bytes_ok n -> 0 < le_val n < P -> a <> gzero ->
  sodium_point_mul n a = Some (gmul a (toF P (le_val n))).
Proof.
  intros Hl Hb Hn Ha. unfold sodium_point_mul.
  destruct (geqb a gzero) eqn:E; [apply geqb_eq in E; contradiction|].
  assert (HP : (P < 2 ^ 255)%Z) by reflexivity.
  rewrite (Z.mod_small (le_val n) (2 ^ 255)) by lia.
  destruct (geqb (gmul a (toF P (le_val n))) gzero) eqn:E2; [|reflexivity].
  exfalso. apply geqb_eq in E2. apply Ha.
  assert (Hnz : toF P (le_val n) <> f0).
  { intros H. apply (f_equal (@fval P)) in H. cbn [fval toF f0] in H.
    rewrite Z.mod_small in H by lia. change (fval (@f0 P)) with 0%Z in H. lia. }
  assert (E3 : gmul (gmul a (toF P (le_val n))) (finv (toF P (le_val n))) = a).
  { rewrite gmul_mul. rewrite (fmul_comm (toF P (le_val n))). rewrite finv_l; [apply gmul_1|apply P25519_is_prime|assumption]. }
  rewrite <- E3, E2. apply gmul_0_l.
Qed.

Lemma represents_bytes n x : represents n x -> length n = 32%nat /\ bytes_ok n.
Proof. intros [[L B] _]. split; [assumption|now apply bytes_ok_nth]. Qed.

Lemma points_spec_G (a b : G) (n : list Z) (x : Fp P) : represents n x ->
  p_add a b = Ret (a + b) /\ p_sub a b = Ret (a - b) /\ p_mul a n = Ret (a * x).
Proof.
  intros Hn. repeat split.
  - unfold p_add. destruct (geqb b 0) eqn:E; [apply geqb_eq in E; subst; now rewrite gadd_0_r|].
    destruct (geqb a 0) eqn:E2; [apply geqb_eq in E2; subst; now rewrite gadd_0_l|]. reflexivity.
  - unfold p_sub. destruct (geqb b 0) eqn:E; [|reflexivity].
    apply geqb_eq in E; subst. rewrite <- (gadd_0_l (- 0)), gopp_r, gadd_0_r. reflexivity.
  - unfold p_mul. destruct (geqb a 0) eqn:E; [apply geqb_eq in E; subst; cbn; now rewrite gmul_0_l|].
    cbn [orb]. destruct (equality_represents n n x x Hn Hn) as [_ Hz].
    destruct (s_isZero n) eqn:Ez.
    + destruct Hz as [Hz _]. rewrite (Hz eq_refl). now rewrite gmul_0_r.
    + assert (Hx : x <> f0) by (intros ->; destruct Hz as [_ Hz]; now discriminate (Hz eq_refl)).
      apply rep_fval_pos in Hx. destruct (represents_bytes _ _ Hn) as [L B].
      destruct Hn as [_ Hv]. rewrite sodium_mul_ret; [|assumption|assumption|lia|now apply geqb_neq].
      cbn [lift]. now rewrite Hv, toF_fval.
Qed.
Lemma base_spec_G (base : G) n x : base <> 0 -> represents n x ->
  (x = f0 -> baseTimesScalar base n = Throw) /\ (x <> f0 -> baseTimesScalar base n = Ret (base * x)).
Proof.
  intros Hb Hn. unfold baseTimesScalar. split.
  - intros ->. rewrite (represents_inj _ _ _ Hn represents_zero). unfold sodium_point_mul.
    apply geqb_neq in Hb. rewrite Hb. change (toF P (le_val s_zero mod 2 ^ 255)) with (@f0 P).
    now rewrite gmul_0_r, geqb_refl.
  - intros Hx. apply rep_fval_pos in Hx. destruct (represents_bytes _ _ Hn) as [L B].
    destruct Hn as [_ Hv]. rewrite sodium_mul_ret; [|assumption|assumption|lia|assumption].
    cbn [lift]. now rewrite Hv, toF_fval.
Qed.
Lemma unreduced_throws_G (a : G) : a <> 0 -> exists n, string32 n /\ value n = f0 /\ p_mul a n = Throw.
Proof.
  intros Ha. exists (le_bytes 32 P). split; [|split].
  - split; [reflexivity|]. apply bytes_ok_nth. apply le_bytes_ok.
  - apply Fp_eq. vm_compute. reflexivity.
  - unfold p_mul. apply geqb_neq in Ha. rewrite Ha. replace (s_isZero (le_bytes 32 P)) with false by (vm_compute; reflexivity).
    cbn [orb]. unfold sodium_point_mul. rewrite Ha.
    replace (toF P (le_val (le_bytes 32 P) mod 2 ^ 255)) with (@f0 P) by (apply Fp_eq; vm_compute; reflexivity).
    now rewrite gmul_0_r, geqb_refl.
Qed.
End Points.
Definition points_spec := fun G => @points_spec_G G.
Definition base_spec := fun G => @base_spec_G G.
Definition unreduced_throws := fun G => @unreduced_throws_G G.
