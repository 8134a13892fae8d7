(** The samplers ZeroOneScalar and ZeroOneElement. *)
From Coq Require Import ZArith List Bool Lia.
From Verif Require Import Fp Ring AlgebraModel MaskSpec MaskProofs DistProofs ZeroOneModel ZeroOneSpec.
Import ListNotations.
Open Scope Z_scope.

Lemma bit_range x k : 0 <= bit_of x k < 2.
Proof. apply Z.mod_pos_bound. lia. Qed.
Lemma land1 x : Z.land x 1 = x mod 2.
Proof. change 1 with (Z.ones 1). rewrite Z.land_ones by lia. reflexivity. Qed.
Lemma difference_0 x : Z.land x 1 - Z.land (Z.shiftr x 1) 1 = difference x 0.
Proof. rewrite !land1, Z.shiftr_div_pow2 by lia. unfold difference, bit_of. cbn [Nat.mul Nat.add Z.of_nat]. now rewrite Z.pow_0_r, Z.div_1_r. Qed.
Lemma difference_S x i : difference x (S i) = difference (x / 4) i.
Proof.
  unfold difference, bit_of. change 4 with (2 ^ 2). rewrite !Z.div_div, <- !Z.pow_add_r by (try apply Z.pow_pos_nonneg; lia).
  replace (2 + Z.of_nat (2 * i)) with (Z.of_nat (2 * S i)) by lia. replace (2 + Z.of_nat (2 * i + 1)) with (Z.of_nat (2 * S i + 1)) by lia. reflexivity.
Qed.
Lemma difference_range x i : -1 <= difference x i <= 1.
Proof. unfold difference. pose proof (bit_range x (2 * i)). pose proof (bit_range x (2 * i + 1)). lia. Qed.

Section ZeroOne.
Context {p : Z} {ell : nat}.
Lemma conv_word_spec signed d : -1 <= d <= 1 ->
  @conv_word p signed (d mod 2 ^ 64) = toF p (if signed then d else if d =? -1 then 2 ^ 64 - 1 else d).
Proof.
  intros H. assert (Q : d = -1 \/ d = 0 \/ d = 1) by lia. destruct Q as [->|[->| ->]]; destruct signed; reflexivity.
Qed.
Lemma loop_nth signed n : forall x i, (i < n)%nat ->
  nth i (@zeroOneLoop p signed n x) f0 = toF p (if signed then difference x i else if difference x i =? -1 then 2 ^ 64 - 1 else difference x i).
Proof.
  induction n as [|n IH]; intros x i Hi; [lia|]. cbn [zeroOneLoop]. destruct i as [|i]; cbn [nth].
  - rewrite difference_0. apply conv_word_spec, difference_range.
  - rewrite IH by lia. rewrite Z.shiftr_div_pow2 by lia. change (2 ^ 2) with 4. now rewrite difference_S.
Qed.
Lemma loop_length signed n : forall x, length (@zeroOneLoop p signed n x) = n.
Proof. induction n as [|n IH]; intros x; [reflexivity|]. cbn. now rewrite IH. Qed.
Lemma element_coeff signed (old : elt p ell) x i : (i < ell)%nat ->
  coeff (zeroOneElement signed old x) i = toF p (if signed then difference x i else if difference x i =? -1 then 2 ^ 64 - 1 else difference x i).
Proof.
  intros Hi. unfold zeroOneElement, conv_elt. rewrite coeff_mkE, loop_length, Nat.min_id.
  destruct (Nat.ltb_spec i ell); [|lia]. now apply loop_nth.
Qed.
Lemma scalar_value signed x : 0 <= x < 4 ->
  @zeroOneScalar p signed x = toF p (if signed then difference x 0 else if difference x 0 =? -1 then 2 ^ 64 - 1 else difference x 0).
Proof.
  intros Hx. unfold zeroOneScalar. assert (Q : x = 0 \/ x = 1 \/ x = 2 \/ x = 3) by lia.
  destruct Q as [->|[->|[->| ->]]]; destruct signed; reflexivity.
Qed.
End ZeroOne.

Lemma pair_count t : -1 <= t <= 1 -> exactly (weigh t) (fun d => 0 <= d < 4 /\ difference d 0 = t).
Proof.
  intros H. assert (Q : t = -1 \/ t = 0 \/ t = 1) by lia.
  assert (D : forall d, 0 <= d < 4 -> d = 0 /\ difference d 0 = 0 \/ d = 1 /\ difference d 0 = 1 \/ d = 2 /\ difference d 0 = -1 \/ d = 3 /\ difference d 0 = 0).
  { intros d Hd. assert (E : d = 0 \/ d = 1 \/ d = 2 \/ d = 3) by lia.
    destruct E as [->|[->|[->| ->]]]; [left|right; left|right; right; left|right; right; right]; split; reflexivity. }
  exists (if t =? 0 then [0; 3] else if t =? 1 then [1] else [2]).
  destruct Q as [->|[->| ->]]; cbn [Z.eqb Pos.eqb]; (split; [repeat constructor; cbn; intuition discriminate|]); (split; [|reflexivity]);
    intros d; (split; [intros I; cbn in I; assert (Hd : 0 <= d < 4) by lia; specialize (D d Hd); split; [exact Hd|lia]
                      |intros [Hd E]; specialize (D d Hd); cbn; lia]).
Qed.
Lemma differences_count n : forall t, (forall i, (i < n)%nat -> -1 <= t i <= 1) ->
  exactly (2 ^ Z.of_nat (zeros_of n t)) (fun x => 0 <= x < 4 ^ Z.of_nat n /\ forall i, (i < n)%nat -> difference x i = t i).
Proof.
  induction n as [|n IH]; intros t H.
  - exists [0]. split; [repeat constructor; intros []|]. split; [|reflexivity]. intros x. cbn. split; [intros [<-|[]]; split; [lia|lia]|]. lia.
  - replace (2 ^ Z.of_nat (zeros_of (S n) t)) with (weigh (t O) * 2 ^ Z.of_nat (zeros_of n (fun i => t (S i)))).
    2: { unfold zeros_of. cbn [seq filter]. rewrite <- seq_shift. unfold weigh. destruct (t O =? 0); cbn [length]; rewrite filter_map_length; [|lia].
         rewrite Nat2Z.inj_succ, Z.pow_succ_r by lia. reflexivity. }
    pose proof (exactly_pair _ _ _ _ (pair_count (t O) (H O ltac:(lia))) (IH (fun i => t (S i)) (fun i Hi => H (S i) ltac:(lia)))) as X.
    rewrite Nat2Z.inj_succ, Z.pow_succ_r by lia. revert X.
    assert (R0 : forall d y, 0 <= d < 4 -> difference (d + 4 * y) 0 = difference d 0).
    { intros d y Hd. rewrite <- !difference_0, !land1, !Z.shiftr_div_pow2 by lia. change (2 ^ 1) with 2.
      replace (d + 4 * y) with (d + (2 * y) * 2) by lia. rewrite Z.mod_add, Z.div_add by lia. replace (2 * y) with (y * 2) by lia. now rewrite Z.mod_add by lia. }
    apply (exactly_map (fun dy => fst dy + 4 * snd dy) (fun x => (x mod 4, x / 4))).
    + intros [d y] [[Hd D] [Hy Y]]. cbn [fst snd] in *.
      assert (Q : (d + 4 * y) / 4 = y) by (replace (d + 4 * y) with (d + y * 4) by lia; rewrite Z.div_add, Z.div_small by lia; lia).
      split; [split; [lia|]|].
      * intros [|i] Hi; [now rewrite R0|]. rewrite difference_S, Q. apply Y. lia.
      * rewrite Q. f_equal. replace (d + 4 * y) with (d + y * 4) by lia. rewrite Z.mod_add by lia. now apply Z.mod_small.
    + intros x [Hx D]. cbn [fst snd]. pose proof (Z.div_mod x 4 ltac:(lia)) as DM. pose proof (Z.mod_pos_bound x 4 ltac:(lia)) as M.
      split; [|lia]. split; [split; [exact M|]|split].
      * rewrite <- (R0 _ (x / 4) M). replace (x mod 4 + 4 * (x / 4)) with x by lia. apply D. lia.
      * split; [apply Z.div_pos; lia|apply Z.div_lt_upper_bound; lia].
      * intros i Hi. rewrite <- difference_S. apply D. lia.
Qed.
Lemma ternary_toF p a b : 3 <= p -> -1 <= a <= 1 -> -1 <= b <= 1 -> (toF p a = toF p b <-> a = b).
Proof.
  intros Hp Ha Hb. split; [|now intros ->]. rewrite toF_eq_iff. intros E.
  destruct (Z.eq_dec a b) as [|N]; [assumption|exfalso].
  assert (Q : (p | a - b)). { apply Z.mod_divide; [lia|]. rewrite Zminus_mod, E, Z.sub_diag. apply Zmod_0_l. }
  destruct Q as [q Q]. destruct (Z.eq_dec q 0); [nia|]. assert (Z.abs q >= 1) by lia. nia.
Qed.
Lemma element_count p ell (old : elt p ell) t : 3 <= p -> (forall i, (i < ell)%nat -> -1 <= t i <= 1) ->
  exactly (2 ^ Z.of_nat (zeros_of ell t))
    (fun x => 0 <= x < 2 ^ (2 * Z.of_nat ell) /\ forall i, (i < ell)%nat -> coeff (zeroOneElement true old x) i = toF p (t i)).
Proof.
  intros Hp H. eapply exactly_ext; [|exact (differences_count ell t H)]. intros x. cbv beta.
  rewrite Z.pow_mul_r by lia. change (2 ^ 2) with 4.
  assert (E : forall i, (i < ell)%nat -> (difference x i = t i <-> coeff (zeroOneElement true old x) i = toF p (t i))).
  { intros i Hi. rewrite element_coeff by assumption. cbn [negb]. symmetry. apply ternary_toF; [exact Hp|apply difference_range|now apply H]. }
  split; intros [R D]; (split; [exact R|]); intros i Hi; apply E; auto.
Qed.
