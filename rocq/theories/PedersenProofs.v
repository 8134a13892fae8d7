From Coq Require Import String Ascii DecimalString DecimalZ DecimalFacts.
From Coq Require Import ZArith List Bool Lia Ring.
From Verif Require Import Outcome Fp GroupMod FSum ConstraintsModel PedersenModel.
Import ListNotations.
Open Scope Z_scope.

(** ** next2power and log2roundUp *)
Definition smear (v w : Z) : Z -> bool := fun j => existsb (fun i => Z.testbit v (j + Z.of_nat i)) (seq 0 (Z.to_nat w)).

Lemma smear_step v u w : 0 < w -> (forall j, 0 <= j -> Z.testbit u j = smear v w j) ->
  forall j, 0 <= j -> Z.testbit (Z.lor u (Z.shiftr u w)) j = smear v (w + w) j.
Proof.
  intros Hw H j Hj. rewrite Z.lor_spec, Z.shiftr_spec by lia.
  rewrite !H by lia. unfold smear.
  replace (Z.to_nat (w + w)) with (Z.to_nat w + Z.to_nat w)%nat by lia.
  rewrite seq_app, existsb_app. f_equal.
  cbn [plus]. replace (Z.to_nat w) with (Z.to_nat w + 0)%nat at 2 by lia.
  generalize (Z.to_nat w) at 1 3 as n. intros n.
  assert (E : forall s, existsb (fun i => Z.testbit v (j + w + Z.of_nat i)) (seq s n)
            = existsb (fun i => Z.testbit v (j + Z.of_nat i)) (seq (Z.to_nat w + s) n)).
  { induction n as [|n IH]; intros s; [reflexivity|]. cbn [seq existsb]. rewrite IH.
    replace (Z.to_nat w + S s)%nat with (S (Z.to_nat w + s)) by lia. f_equal. f_equal. lia. }
  apply E.
Qed.

Lemma smear_all v : 0 <= v < 2 ^ 64 ->
  forall j, 0 <= j ->
  Z.testbit (fold_left (fun v i => Z.lor v (Z.shiftr v i)) [1; 2; 4; 8; 16; 32] v) j = smear v 64 j.
Proof.
  intros Hv. cbn [fold_left].
  assert (H1 : forall j, 0 <= j -> Z.testbit v j = smear v 1 j).
  { intros j Hj. unfold smear. change (seq 0 (Z.to_nat 1)) with [0%nat]. cbn [existsb]. rewrite orb_false_r. f_equal. lia. }
  pose proof (smear_step v _ 1 ltac:(lia) H1) as H2.
  pose proof (smear_step v _ 2 ltac:(lia) H2) as H4.
  pose proof (smear_step v _ 4 ltac:(lia) H4) as H8.
  pose proof (smear_step v _ 8 ltac:(lia) H8) as H16.
  pose proof (smear_step v _ 16 ltac:(lia) H16) as H32.
  exact (smear_step v _ 32 ltac:(lia) H32).
Qed.

Lemma smear_ones v k : 0 <= k < 64 -> 2 ^ k <= v < 2 ^ (k + 1) ->
  fold_left (fun v i => Z.lor v (Z.shiftr v i)) [1; 2; 4; 8; 16; 32] v = Z.ones (k + 1).
Proof.
  intros Hk Hv. assert (Hv64 : 0 <= v < 2 ^ 64).
  { split; [lia|]. apply Z.lt_le_trans with (2 ^ (k + 1)); [lia|]. apply Z.pow_le_mono_r; lia. }
  assert (Htop : forall j, k < j -> Z.testbit v j = false).
  { intros j Hj. apply Z.bits_above_log2; [lia|]. apply Z.log2_lt_pow2; [lia|].
    apply Z.lt_le_trans with (2 ^ (k + 1)); [lia|]. apply Z.pow_le_mono_r; lia. }
  assert (Hbit : Z.testbit v k = true).
  { replace k with (Z.log2 v); [apply Z.bit_log2; lia|]. apply Z.log2_unique; [lia|]. replace (Z.succ k) with (k + 1) by lia. lia. }
  apply Z.bits_inj'. intros j Hj. rewrite smear_all by assumption.
  destruct (Z_le_gt_dec j k) as [Hle|Hgt].
  - rewrite Z.ones_spec_low by lia. unfold smear. apply existsb_exists.
    exists (Z.to_nat (k - j)). split; [apply in_seq; lia|].
    replace (j + Z.of_nat (Z.to_nat (k - j))) with k by lia. assumption.
  - rewrite Z.ones_spec_high by lia. unfold smear. apply not_true_iff_false. intros H.
    apply existsb_exists in H. destruct H as (i & _ & Hi). rewrite Htop in Hi by lia. discriminate.
Qed.

Lemma next2power_pow k n : 0 <= k < 64 -> 2 ^ k < n <= 2 ^ (k + 1) ->
  next2power n = 2 ^ (k + 1) mod 2 ^ 64.
Proof.
  intros Hk Hn.
  assert (Hb : 2 ^ (k + 1) <= 2 ^ 64) by (apply Z.pow_le_mono_r; lia).
  assert (0 < 2 ^ k) by (apply Z.pow_pos_nonneg; lia).
  unfold next2power. rewrite (Z.mod_small (n - 1)) by lia.
  rewrite (smear_ones (n - 1) k) by lia. rewrite Z.ones_equiv. f_equal. lia.
Qed.
Lemma next2power_1 : next2power 1 = 1.
Proof. reflexivity. Qed.

Lemma log2_search_spec k ell n : 0 <= ell -> Z.of_nat k + ell = 64 -> 2 ^ (ell - 1) < n \/ ell = 0 ->
  exists e, log2_search k ell n = e /\ ell <= e <= 64 /\ (2 ^ (e - 1) < n \/ e = 0) /\ (e < 64 -> n <= 2 ^ e).
Proof.
  revert ell. induction k as [|k IH]; intros ell H0 Hk Hlo; cbn [log2_search].
  - exists 64. replace ell with 64 in * by lia. intuition lia.
  - destruct (n <=? 2 ^ ell) eqn:E.
    + apply Z.leb_le in E. exists ell. split; [reflexivity|]. split; [lia|]. tauto.
    + apply Z.leb_gt in E. destruct (IH (ell + 1)) as (e & H1 & H2 & H3 & H4); try lia.
      * left. replace (ell + 1 - 1) with ell by lia. assumption.
      * exists e. repeat split; try assumption; lia.
Qed.

Theorem log2roundUp_spec n : 1 <= n < 2 ^ 64 ->
  0 <= log2roundUp n <= 64 /\ n <= 2 ^ log2roundUp n /\
  (forall e, 0 <= e -> n <= 2 ^ e -> log2roundUp n <= e).
Proof.
  intros Hn. destruct (log2_search_spec 64 0 n) as (e & H1 & H2 & H3 & H4); try lia.
  unfold log2roundUp. rewrite H1. split; [lia|]. split.
  - destruct (Z.eq_dec e 64) as [->|He]; [lia|apply H4; lia].
  - intros e' He' Hle. destruct H3 as [H3| ->]; [|lia].
    destruct (Z_le_gt_dec e e') as [|Hgt]; [assumption|].
    assert (2 ^ e' <= 2 ^ (e - 1)) by (apply Z.pow_le_mono_r; lia). lia.
Qed.

Theorem next2power_spec n : 1 <= n <= 2 ^ 63 ->
  next2power n = 2 ^ log2roundUp n /\ 0 <= log2roundUp n <= 63.
Proof.
  intros Hn. destruct (log2roundUp_spec n) as (H1 & H2 & H3); [lia|].
  assert (H63 : log2roundUp n <= 63) by (apply H3; lia).
  split; [|lia]. destruct (Z.eq_dec (log2roundUp n) 0) as [E|E].
  - rewrite E in *. assert (n = 1) by lia. subst. reflexivity.
  - rewrite (next2power_pow (log2roundUp n - 1)) ; [| lia |].
    + replace (log2roundUp n - 1 + 1) with (log2roundUp n) by lia. apply Z.mod_small.
      split; [apply Z.pow_nonneg; lia|]. apply Z.pow_lt_mono_r; lia.
    + replace (log2roundUp n - 1 + 1) with (log2roundUp n) by lia. split; [|assumption].
      destruct (Z_lt_le_dec (2 ^ (log2roundUp n - 1)) n) as [|Hle]; [assumption|].
      apply H3 in Hle; lia.
Qed.

Theorem next2power_wrap n : 2 ^ 63 < n < 2 ^ 64 -> next2power n = 0.
Proof.
  intros Hn. rewrite (next2power_pow 63) by (try lia; replace (63 + 1) with 64 by lia; lia). reflexivity.
Qed.

(** nat versions *)
Lemma log2N_pow k n : (k < 63)%nat -> (2 ^ k < n <= 2 ^ S k)%nat -> log2roundUpN n = S k /\ next2powerN n = (2 ^ S k)%nat.
Proof.
  intros Hk Hn.
  assert (E : forall j, Z.of_nat (2 ^ j) = 2 ^ Z.of_nat j).
  { induction j as [|j IH]; [reflexivity|]. rewrite Nat2Z.inj_succ, Z.pow_succ_r by lia.
    rewrite <- IH. cbn [Nat.pow]. lia. }
  assert (Hz : 2 ^ Z.of_nat k < Z.of_nat n <= 2 ^ Z.of_nat (S k)) by (rewrite <- !E; lia).
  assert (Hb : 2 ^ Z.of_nat (S k) <= 2 ^ 63) by (apply Z.pow_le_mono_r; lia).
  assert (0 < 2 ^ Z.of_nat k) by (apply Z.pow_pos_nonneg; lia).
  destruct (log2roundUp_spec (Z.of_nat n)) as (H1 & H2 & H3); [lia|].
  assert (EL : log2roundUp (Z.of_nat n) = Z.of_nat (S k)).
  { apply Z.le_antisymm; [apply H3; lia|].
    destruct (Z_le_gt_dec (Z.of_nat (S k)) (log2roundUp (Z.of_nat n))) as [|Hg]; [assumption|].
    assert (2 ^ log2roundUp (Z.of_nat n) <= 2 ^ Z.of_nat k) by (apply Z.pow_le_mono_r; lia). lia. }
  unfold log2roundUpN, next2powerN. rewrite EL. split; [lia|].
  destruct (next2power_spec (Z.of_nat n)) as [-> _]; [lia|]. rewrite EL, <- E. lia.
Qed.
Lemma log2N_1 : log2roundUpN 1 = 0%nat /\ next2powerN 1 = 1%nat.
Proof. split; reflexivity. Qed.

Lemma pow2_between n : (2 <= n)%nat -> exists k, (2 ^ k < n <= 2 ^ S k)%nat.
Proof.
  intros Hn. exists (Nat.log2 (n - 1)).
  pose proof (Nat.log2_spec (n - 1) ltac:(lia)) as H. lia.
Qed.
Lemma pow2_le_63 k n : (2 ^ k < n)%nat -> Z.of_nat n <= 2 ^ 63 -> (k < 63)%nat.
Proof.
  intros H Hn.
  assert (E : forall j, Z.of_nat (2 ^ j) = 2 ^ Z.of_nat j).
  { induction j as [|j IH]; [reflexivity|]. rewrite Nat2Z.inj_succ, Z.pow_succ_r by lia.
    rewrite <- IH. cbn [Nat.pow]. lia. }
  assert (2 ^ Z.of_nat k < 2 ^ 63) by (rewrite <- E; lia).
  apply Z.pow_lt_mono_r_iff in H0; lia.
Qed.

(** ** sub, multiExp *)
Lemma sub_ret {A} (l : list A) off n : (off + n <= length l)%nat -> sub l off n = Ret (firstn n (skipn off l)).
Proof. intros H. unfold sub. apply Nat.leb_le in H. now rewrite H. Qed.
Lemma sub_all {A} (l : list A) n : n = length l -> sub l 0 n = Ret l.
Proof. intros ->. rewrite sub_ret by lia. cbn [skipn]. now rewrite firstn_all. Qed.

Section Ped.
Context {p : Z} {G : gmod p}.
Notation F := (Fp p).
Add Ring FpRg : (@Fp_ring p).
Implicit Types gs hs : list G.

Lemma fold_gdot gs (xs : list F) c :
  fold_left (fun c e => gadd c (gmul (fst e) (snd e))) (combine gs xs) c = gadd c (gdot gs xs).
Proof.
  revert xs c. induction gs as [|g gs IH]; intros [|x xs] c; cbn; try gsolve.
  rewrite IH. gsolve.
Qed.
Lemma multiExp_ret gs n (xs : list F) : (n <= length gs)%nat -> (n <= length xs)%nat ->
  multiExp gs n xs = Ret (gdot (firstn n gs) (firstn n xs)).
Proof.
  intros Hg Hx. unfold multiExp. rewrite !sub_ret by lia. cbn [obind skipn].
  rewrite fold_gdot. f_equal. gsolve.
Qed.
Lemma multiExp_all gs n (xs : list F) : n = length gs -> n = length xs ->
  multiExp gs n xs = Ret (gdot gs xs).
Proof. intros Hg Hx. rewrite multiExp_ret by lia. now rewrite !firstn_all2 by lia. Qed.

Lemma gdot_firstn gs (xs : list F) : gdot gs xs = gdot (firstn (length xs) gs) xs.
Proof. revert xs. induction gs as [|g gs IH]; intros [|x xs]; cbn; try reflexivity. now rewrite <- IH. Qed.
Lemma gdot_firstn_r gs (xs : list F) : gdot gs xs = gdot gs (firstn (length gs) xs).
Proof. revert xs. induction gs as [|g gs IH]; intros [|x xs]; cbn; try reflexivity. now rewrite <- IH. Qed.

(** ** zip_add and folding *)
Lemma zip_add_length (lo hi : list G) : length (zip_add lo hi) = length lo.
Proof. revert hi. induction lo as [|g lo IH]; intros [|h hi]; cbn; try reflexivity. now rewrite IH. Qed.
Lemma gdot_zip_add (lo hi : list G) (xs : list F) :
  (length hi <= length lo)%nat ->
  gdot (zip_add lo hi) xs = gadd (gdot lo xs) (gdot hi xs).
Proof.
  revert hi xs. induction lo as [|g lo IH]; intros [|h hi] xs H; cbn in *.
  - gsolve.
  - lia.
  - destruct xs; cbn; gsolve.
  - destruct xs as [|x xs]; cbn; [gsolve|]. rewrite IH by lia. gsolve.
Qed.

Lemma foldGenerators_ret gs n (x : F) m : (m <= n)%nat -> (n = length gs)%nat ->
  foldGenerators gs n x m = Ret (zip_add (firstn m gs) (map (fun g => gmul g x) (skipn m gs))).
Proof.
  intros Hm ->. unfold foldGenerators. rewrite !sub_ret by lia. cbn [obind skipn].
  rewrite (firstn_all2 (skipn m gs)) by (rewrite skipn_length; lia). reflexivity.
Qed.

(** ** Subset products *)
Fixpoint zvec (xs : list F) : list F :=
  match xs with
  | [] => [1%F]
  | x :: xs' => zvec xs' ++ map (fun v => (x * v)%F) (zvec xs')
  end.
Lemma zvec_length xs : length (zvec xs) = (2 ^ length xs)%nat.
Proof. induction xs as [|x xs IH]; cbn [zvec length Nat.pow]; [reflexivity|]. rewrite app_length, map_length, IH. lia. Qed.

Fixpoint vmul (a b : list F) : list F :=
  match a, b with
  | x :: a', y :: b' => (x * y)%F :: vmul a' b'
  | _, _ => []
  end.
Lemma vmul_length a b : length (vmul a b) = Nat.min (length a) (length b).
Proof. revert b; induction a as [|x a IH]; intros [|y b]; cbn; try reflexivity. now rewrite IH. Qed.
Lemma vmul_app a a' b b' : length a = length b -> vmul (a ++ a') (b ++ b') = vmul a b ++ vmul a' b'.
Proof. revert b; induction a as [|x a IH]; intros [|y b] H; cbn in *; try discriminate; [reflexivity|]. now rewrite IH by lia. Qed.
Lemma vmul_scale (a b : list F) c : vmul (map (fun v => (v * c)%F) a) b = vmul a (map (fun v => (c * v)%F) b).
Proof. revert b; induction a as [|x a IH]; intros [|y b]; cbn; try reflexivity. rewrite IH. f_equal. ring. Qed.
Lemma vmul_firstn_r a b : vmul a b = vmul a (firstn (length a) b).
Proof. revert b; induction a as [|x a IH]; intros [|y b]; cbn; try reflexivity. now rewrite <- IH. Qed.

(** expansions of a suffix of the basis are prefixes of the whole expansion *)
Lemma zvec_suffix xs ys : exists r, zvec (xs ++ ys) = zvec ys ++ r.
Proof.
  induction xs as [|x xs IH]; cbn [app zvec]; [exists []; now rewrite app_nil_r|].
  destruct IH as (r & Hr). rewrite Hr. rewrite <- app_assoc. eauto.
Qed.
Lemma zvec_skip_prefix xs j n : (j <= length xs)%nat -> (n <= 2 ^ (length xs - j))%nat ->
  firstn n (zvec (skipn j xs)) = firstn n (zvec xs).
Proof.
  intros Hj Hn. destruct (zvec_suffix (firstn j xs) (skipn j xs)) as (r & Hr).
  rewrite firstn_skipn in Hr. rewrite Hr. rewrite firstn_app.
  rewrite zvec_length, skipn_length. replace (n - 2 ^ (length xs - j))%nat with 0%nat by lia.
  cbn [firstn]. now rewrite app_nil_r.
Qed.

Lemma subsetProdRecurse_ret fuel (vec xs : list F) :
  (length vec < fuel)%nat -> (1 <= length vec)%nat -> (length vec <= 2 ^ length xs)%nat ->
  Z.of_nat (length vec) <= 2 ^ 63 ->
  subsetProdRecurse fuel vec xs (length xs) = Ret (vmul vec (zvec xs)).
Proof.
  revert vec. induction fuel as [|fuel IH]; intros vec Hf H1 Hl H63; [lia|].
  cbn [subsetProdRecurse]. destruct (length vec <=? 1)%nat eqn:E.
  - apply Nat.leb_le in E. destruct vec as [|v [|v' vec]]; cbn in *; try lia.
    destruct (zvec_suffix xs []) as (r & Hr). rewrite app_nil_r in Hr. rewrite Hr. cbn.
    f_equal. f_equal. ring.
  - apply Nat.leb_gt in E. destruct (pow2_between (length vec) ltac:(lia)) as (k & Hk).
    pose proof (pow2_le_63 k _ (proj1 Hk) H63) as Hk63.
    destruct (log2N_pow k _ Hk63 Hk) as [-> _].
    replace (S k - 1)%nat with k by lia.
    assert (Hkx : (S k <= length xs)%nat).
    { destruct (le_lt_dec (S k) (length xs)) as [|Hlt]; [assumption|].
      assert (2 ^ length xs <= 2 ^ k)%nat by (apply Nat.pow_le_mono_r; lia). lia. }
    replace (length xs <? S k)%nat with false by (symmetry; apply Nat.ltb_ge; lia).
    destruct (nth_error xs (length xs - S k)) as [c|] eqn:Ec.
    2:{ apply nth_error_None in Ec. lia. }
    unfold oget. rewrite Ec. cbn [obind].
    rewrite !sub_ret by lia. cbn [obind skipn].
    rewrite (firstn_all2 (skipn (2 ^ k) vec)) by (rewrite skipn_length; lia).
    cbn [Nat.pow] in Hk.
    assert (0 < 2 ^ k)%nat by (pose proof (Nat.pow_nonzero 2 k); lia).
    rewrite IH; rewrite ?map_length, ?skipn_length; try lia. cbn [obind].
    rewrite IH; rewrite ?firstn_length; try lia. cbn [obind]. f_equal.
    rewrite vmul_scale.
    apply nth_error_split in Ec. destruct Ec as (x1 & x2 & Ex & Hlen).
    assert (Hx2 : length x2 = k) by (pose proof (f_equal (@length F) Ex) as EL; rewrite app_length in EL; cbn [length] in EL; lia).
    assert (Ez : firstn (length vec) (zvec xs) = firstn (length vec) (zvec (c :: x2))).
    { rewrite Ex. rewrite <- (zvec_skip_prefix (x1 ++ c :: x2) (length x1) (length vec)).
      - rewrite skipn_app, Nat.sub_diag, skipn_all. reflexivity.
      - rewrite app_length. lia.
      - rewrite app_length. replace (length x1 + length (c :: x2) - length x1)%nat with (S k) by (cbn; lia).
        cbn [Nat.pow]. lia. }
    assert (Ez2 : firstn (2 ^ k) (zvec xs) = zvec x2).
    { rewrite Ex. rewrite <- (zvec_skip_prefix (x1 ++ c :: x2) (S (length x1)) (2 ^ k)).
      - rewrite skipn_app. rewrite (skipn_all2 x1) by lia.
        replace (S (length x1) - length x1)%nat with 1%nat by lia. cbn [skipn app].
        apply firstn_all2. rewrite zvec_length, Hx2. lia.
      - rewrite app_length. cbn. lia.
      - rewrite app_length. replace (length x1 + length (c :: x2) - S (length x1))%nat with k by (cbn; lia). lia. }
    rewrite (vmul_firstn_r vec), Ez. rewrite <- vmul_firstn_r. cbn [zvec].
    rewrite <- (firstn_skipn (2 ^ k) vec) at 3.
    rewrite vmul_app by (rewrite firstn_length, zvec_length, Hx2; lia). f_equal.
    + rewrite vmul_firstn_r. rewrite firstn_length. rewrite Nat.min_l by lia. now rewrite Ez2.
    + rewrite (vmul_firstn_r (skipn (2 ^ k) vec) (map _ (zvec xs))), firstn_map.
      rewrite (vmul_firstn_r (skipn (2 ^ k) vec) (map _ (zvec x2))), firstn_map. f_equal. f_equal.
      rewrite <- Ez2. rewrite firstn_firstn. f_equal. rewrite skipn_length. lia.
Qed.

Lemma vmul_repeat (a : F) n l : vmul (repeat a n) l = map (fun v => (a * v)%F) (firstn n l).
Proof. revert l; induction n as [|n IH]; intros [|y l]; cbn; try reflexivity. now rewrite IH. Qed.

Lemma subsetProduct_ret n (xs : list F) a : (1 <= n <= 2 ^ length xs)%nat -> Z.of_nat n <= 2 ^ 63 ->
  subsetProduct n xs (length xs) a = Ret (map (fun v => (a * v)%F) (firstn n (zvec xs))).
Proof.
  intros H H63. unfold subsetProduct. rewrite subsetProdRecurse_ret; rewrite ?repeat_length; try lia.
  now rewrite vmul_repeat.
Qed.

(** Folding the generators challenge by challenge, as the prover does. *)
Fixpoint fold_all (xs : list F) gs : list G :=
  match xs with
  | [] => gs
  | x :: xs' =>
      let m := (2 ^ length xs')%nat in
      fold_all xs' (zip_add (firstn m gs) (map (fun g => gmul g x) (skipn m gs)))
  end.

Lemma fold_all_gdot xs gs : (1 <= length gs <= 2 ^ length xs)%nat ->
  (2 ^ (length xs - 1) < length gs \/ xs = [])%nat ->
  length (fold_all xs gs) = 1%nat /\
  gdot gs (zvec xs) = gdot (fold_all xs gs) [1%F].
Proof.
  revert gs. induction xs as [|x xs IH]; intros gs Hl Hlo.
  - cbn in *. split; [lia|reflexivity].
  - cbn [fold_all length Nat.pow] in *. destruct Hlo as [Hlo|]; [|discriminate].
    replace (S (length xs) - 1)%nat with (length xs) in Hlo by lia.
    set (m := (2 ^ length xs)%nat) in *.
    assert (Hm : (0 < m)%nat) by (pose proof (Nat.pow_nonzero 2 (length xs)); unfold m; lia).
    set (gs' := zip_add (firstn m gs) (map (fun g => gmul g x) (skipn m gs))).
    assert (Hgs' : length gs' = m) by (unfold gs'; rewrite zip_add_length, firstn_length; lia).
    destruct (IH gs') as [I1 I2].
    + rewrite Hgs'. fold m. lia.
    + rewrite Hgs'. destruct xs as [|x' xs]; [now right|left].
      unfold m. cbn [length Nat.pow]. replace (S (length xs) - 1)%nat with (length xs) by lia.
      pose proof (Nat.pow_nonzero 2 (length xs)). lia.
    + split; [exact I1|]. rewrite <- I2. unfold gs'. rewrite gdot_zip_add.
      2:{ rewrite map_length, skipn_length, firstn_length. lia. }
      cbn [zvec]. rewrite <- (firstn_skipn m gs) at 1. rewrite gdot_app.
      2:{ rewrite firstn_length, zvec_length. fold m. lia. }
      f_equal. rewrite gdot_scale_gen.
      rewrite <- (gdot_scale (skipn m gs) (zvec xs) x). f_equal. apply map_ext. intros. ring.
Qed.

Theorem expSubsetProduct_ret gs n (xs : list F) a :
  n = length gs -> (1 <= n)%nat -> Z.of_nat n <= 2 ^ 63 -> length xs = log2roundUpN n ->
  expSubsetProduct gs n xs a None = Ret (gmul (gdot gs (zvec xs)) a).
Proof.
  intros -> H1 H63 Hx. unfold expSubsetProduct. rewrite <- Hx.
  assert (Hle : (length gs <= 2 ^ length xs)%nat).
  { destruct (Nat.eq_dec (length gs) 1) as [E|E].
    - rewrite E in *. pose proof (Nat.pow_nonzero 2 (length xs)). lia.
    - destruct (pow2_between (length gs) ltac:(lia)) as (k & Hk).
      pose proof (pow2_le_63 k _ (proj1 Hk) H63). destruct (log2N_pow k _ H Hk) as [E2 _].
      rewrite Hx, E2. lia. }
  rewrite subsetProduct_ret by lia. cbn [obind].
  rewrite multiExp_all; [|reflexivity|rewrite map_length, firstn_length, zvec_length; lia].
  f_equal. rewrite (gdot_firstn_r gs (zvec xs)). rewrite <- gdot_scale. f_equal. apply map_ext. intros. ring.
Qed.

Lemma add_offsets_vadd (v o : list F) : length v = length o -> add_offsets v o = vadd v o.
Proof. revert o; induction v as [|x v IH]; intros [|y o] H; cbn in *; try discriminate; [reflexivity|]. now rewrite IH by lia. Qed.

Theorem expSubsetProduct_off_ret gs n (xs o : list F) a :
  n = length gs -> (1 <= n)%nat -> Z.of_nat n <= 2 ^ 63 -> length xs = log2roundUpN n -> length o = n ->
  expSubsetProduct gs n xs a (Some o) = Ret (gadd (gmul (gdot gs (zvec xs)) a) (gdot gs o)).
Proof.
  intros -> H1 H63 Hx Ho. unfold expSubsetProduct. rewrite <- Hx.
  assert (Hle : (length gs <= 2 ^ length xs)%nat).
  { destruct (Nat.eq_dec (length gs) 1) as [E|E].
    - rewrite E in *. pose proof (Nat.pow_nonzero 2 (length xs)). lia.
    - destruct (pow2_between (length gs) ltac:(lia)) as (k & Hk).
      pose proof (pow2_le_63 k _ (proj1 Hk) H63). destruct (log2N_pow k _ H Hk) as [E2 _].
      rewrite Hx, E2. lia. }
  rewrite subsetProduct_ret by lia. cbn [obind].
  rewrite sub_all by (symmetry; exact Ho). cbn [obind].
  assert (Hlen : length (map (fun v => (a * v)%F) (firstn (length gs) (zvec xs))) = length o).
  { rewrite map_length, firstn_length, zvec_length. lia. }
  rewrite add_offsets_vadd by assumption.
  rewrite multiExp_all; [|reflexivity|].
  - f_equal. rewrite gdot_vadd by assumption. f_equal.
    rewrite (gdot_firstn_r gs (zvec xs)). rewrite <- gdot_scale. f_equal. apply map_ext. intros. ring.
  - clear -Hlen Ho. revert o Ho Hlen. generalize (map (fun v => (a * v)%F) (firstn (length gs) (zvec xs))) as l.
    generalize (length gs) as m. intros m l. revert m. induction l as [|y l IH]; intros m [|z o] Ho Hl; cbn in *; try lia.
    rewrite <- (IH (length o) o eq_refl) by lia. lia.
Qed.
End Ped.

From Verif Require Import PedersenSpec.
(** ** entries of the expansion *)
Section Entries.
Context {p : Z}.
Notation F := (Fp p).
Add Ring FpRg2 : (@Fp_ring p).

Lemma testbit_small i k : (i < 2 ^ k)%nat -> Nat.testbit i k = false.
Proof.
  intros H. destruct (Nat.eq_dec i 0) as [->|Hi]; [apply Nat.bits_0|].
  apply Nat.bits_above_log2. apply Nat.log2_lt_pow2; lia.
Qed.
Lemma subset_prod_low (xs : list F) i k : (length xs <= k)%nat ->
  subset_prod xs (i + 2 ^ k) = subset_prod xs i.
Proof.
  induction xs as [|x xs IH]; intros Hk; [reflexivity|]. cbn [subset_prod length] in *.
  rewrite IH by lia. replace (Nat.testbit (i + 2 ^ k) (length xs)) with (Nat.testbit i (length xs)); [reflexivity|].
  rewrite !Nat.testbit_eqb.
  replace k with (length xs + S (k - S (length xs)))%nat by lia. rewrite Nat.pow_add_r.
  pose proof (Nat.pow_nonzero 2 (length xs) ltac:(lia)).
  rewrite Nat.mul_comm, Nat.div_add by lia. cbn [Nat.pow].
  rewrite Nat.mul_comm, Nat.mod_add by lia. reflexivity.
Qed.
Lemma zvec_nth (xs : list F) i : (i < 2 ^ length xs)%nat -> nth_error (zvec xs) i = Some (subset_prod xs i).
Proof.
  revert i. induction xs as [|x xs IH]; intros i Hi; cbn [zvec length subset_prod Nat.pow] in *.
  - replace i with 0%nat by lia. reflexivity.
  - destruct (le_lt_dec (2 ^ length xs) i) as [Hge|Hlt].
    + rewrite nth_error_app2 by (rewrite zvec_length; lia). rewrite zvec_length.
      rewrite nth_error_map, IH by lia. cbn [option_map]. f_equal.
      assert (Hb : Nat.testbit i (length xs) = true).
      { rewrite Nat.testbit_eqb. replace (i / 2 ^ length xs)%nat with 1%nat; [reflexivity|].
        apply Nat.div_unique with (i - 2 ^ length xs)%nat; lia. }
      rewrite Hb. f_equal.
      rewrite <- (subset_prod_low xs (i - 2 ^ length xs) (length xs)) by lia. f_equal. lia.
    + rewrite nth_error_app1 by (rewrite zvec_length; lia). rewrite IH by lia.
      rewrite testbit_small by assumption. f_equal. ring.
Qed.
Lemma subset_prod_0 (xs : list F) : subset_prod xs 0 = 1%F.
Proof. induction xs as [|x xs IH]; [reflexivity|]. cbn [subset_prod]. rewrite Nat.bits_0, IH. ring. Qed.
Lemma subsetProduct_entries (xs : list F) n a : (1 <= n <= 2 ^ length xs)%nat -> Z.of_nat n <= 2 ^ 63 ->
  exists z, subsetProduct n xs (length xs) a = Ret z /\ length z = n /\
    (forall i, (i < n)%nat -> nth_error z i = Some (a * subset_prod xs i)%F) /\
    nth_error z 0 = Some a.
Proof.
  intros H1 H2. eexists. split; [apply subsetProduct_ret; assumption|].
  assert (Hz : length (zvec xs) = (2 ^ length xs)%nat) by apply zvec_length.
  split; [rewrite map_length, firstn_length; lia|].
  assert (H : forall i, (i < n)%nat ->
    nth_error (map (fun v => (a * v)%F) (firstn n (zvec xs))) i = Some (a * subset_prod xs i)%F).
  { intros i Hi. rewrite nth_error_map.
    assert (E : nth_error (firstn n (zvec xs)) i = nth_error (zvec xs) i).
    { rewrite <- (firstn_skipn n (zvec xs)) at 2. rewrite nth_error_app1; [reflexivity|].
      rewrite firstn_length. lia. }
    rewrite E, zvec_nth by lia. reflexivity. }
  split; [exact H|]. rewrite H by lia. f_equal. rewrite subset_prod_0. ring.
Qed.
End Entries.

(** ** the prover's folding loop *)
Section Fold.
Context {p : Z} {G : gmod p}.
Notation F := (Fp p).
Add Ring FpRg3 : (@Fp_ring p).
Implicit Types gs hs : list G.

Lemma log2N_bounds n : (1 <= n)%nat -> Z.of_nat n <= 2 ^ 63 ->
  (n <= 2 ^ log2roundUpN n)%nat /\ next2powerN n = (2 ^ log2roundUpN n)%nat /\
  (log2roundUpN n = 0 \/ 2 ^ (log2roundUpN n - 1) < n)%nat.
Proof.
  intros H1 H63. destruct (Nat.eq_dec n 1) as [->|E].
  - repeat split; cbn; lia.
  - destruct (pow2_between n ltac:(lia)) as (k & Hk).
    pose proof (pow2_le_63 k _ (proj1 Hk) H63) as H. destruct (log2N_pow k _ H Hk) as [-> ->].
    replace (S k - 1)%nat with k by lia. lia.
Qed.

Lemma exp2_loop_ret (xs : list F) gs :
  (1 <= length gs <= 2 ^ length xs)%nat -> (xs = [] \/ 2 ^ (length xs - 1) < length gs)%nat ->
  exp2_loop xs gs (length gs) (2 ^ length xs / 2) = Ret (fold_all xs gs).
Proof.
  revert gs. induction xs as [|x xs IH]; intros gs Hl Hlo; [reflexivity|].
  cbn [exp2_loop fold_all length Nat.pow] in *. destruct Hlo as [|Hlo]; [discriminate|].
  replace (S (length xs) - 1)%nat with (length xs) in Hlo by lia.
  pose proof (Nat.pow_nonzero 2 (length xs) ltac:(lia)).
  replace (2 * 2 ^ length xs / 2)%nat with (2 ^ length xs)%nat
    by (rewrite Nat.mul_comm, Nat.div_mul; lia).
  rewrite foldGenerators_ret by lia. cbn [obind].
  set (gs' := zip_add _ _).
  assert (Hgs' : length gs' = (2 ^ length xs)%nat) by (unfold gs'; rewrite zip_add_length, firstn_length; lia).
  rewrite <- Hgs' at 1. apply IH.
  - lia.
  - destruct xs as [|x' xs]; [now left|right]. rewrite Hgs'. cbn [length Nat.pow].
    replace (S (length xs) - 1)%nat with (length xs) by lia.
    pose proof (Nat.pow_nonzero 2 (length xs)). lia.
Qed.

Lemma fold_exp gs (xs : list F) a : (1 <= length gs)%nat -> Z.of_nat (length gs) <= 2 ^ 63 ->
  length xs = log2roundUpN (length gs) ->
  exists g, exp2_loop xs gs (length gs) (next2powerN (length gs) / 2) = Ret [g] /\
    expSubsetProduct gs (length gs) xs a None = Ret (gmul g a).
Proof.
  intros H1 H63 Hx. destruct (log2N_bounds _ H1 H63) as (B1 & B2 & B3).
  rewrite <- Hx in *. rewrite B2. rewrite exp2_loop_ret; [|lia|].
  2:{ destruct B3 as [B3|B3]; [left; now apply length_zero_iff_nil|now right]. }
  destruct (fold_all_gdot xs gs) as [E1 E2]; [lia| |].
  { destruct B3 as [B3|B3]; [right; now apply length_zero_iff_nil|now left]. }
  destruct (fold_all xs gs) as [|g [|g' l]]; cbn in E1; try discriminate.
  exists g. split; [reflexivity|]. rewrite expSubsetProduct_ret by (auto; lia). rewrite E2.
  f_equal. cbn. gsolve.
Qed.

Lemma exp2_eq gs (xs : list F) : (2 <= length gs)%nat -> Z.of_nat (length gs) <= 2 ^ 63 ->
  length xs = log2roundUpN (length gs) ->
  expSubsetProduct2 gs (length gs) xs = expSubsetProduct gs (length gs) xs 1%F None.
Proof.
  intros H1 H63 Hx. destruct (fold_exp gs xs 1%F ltac:(lia) H63 Hx) as (g & E1 & E2).
  rewrite E2. unfold expSubsetProduct2. rewrite <- Hx.
  destruct (log2N_bounds (length gs) ltac:(lia) H63) as (B1 & B2 & B3).
  rewrite B2 in E1. rewrite <- Hx in *.
  destruct (length xs) as [|k] eqn:Ek; [cbn in B1; lia|]. cbn [Nat.eqb].
  rewrite sub_all by lia. cbn [obind].
  cbn [Nat.pow] in E1. rewrite Nat.mul_comm, Nat.div_mul in E1 by lia.
  replace (S k - 1)%nat with k by lia. rewrite E1. cbn. f_equal. gsolve.
Qed.
End Fold.

(** ** commitments *)
Section Com.
Context {p : Z} {G : gmod p}.
Notation F := (Fp p).
Add Ring FpRg4 : (@Fp_ring p).
Implicit Types gs hs : list G.
Variable base : G.

Lemma commit_ret gs (xs : list F) n r f alpha : n = length gs -> n = length xs ->
  commit base gs xs n r f alpha
  = Ret (gadd (gadd (gmul base r) (gmul f alpha)) (gdot gs xs)).
Proof. intros H1 H2. unfold commit. now rewrite multiExp_all. Qed.
Lemma verifyCom_ret c gs (xs : list F) n r f alpha : n = length gs -> n = length xs ->
  verifyCom base c gs xs n r f alpha = Ret true <->
  c = gadd (gadd (gmul base r) (gmul f alpha)) (gdot gs xs).
Proof.
  intros H1 H2. unfold verifyCom. rewrite commit_ret by assumption. cbn [obind].
  split; intros H.
  - injection H as H. apply geqb_eq in H. now symmetry.
  - subst c. now rewrite geqb_refl.
Qed.
Lemma commit2_ret gs (xs : list F) hs ys n r f alpha :
  n = length gs -> n = length xs -> n = length hs -> n = length ys ->
  commit2 base gs xs hs ys n r f alpha
  = Ret (gadd (gadd (gadd (gmul base r) (gmul f alpha)) (gdot gs xs)) (gdot hs ys)).
Proof. intros H1 H2 H3 H4. unfold commit2. now rewrite !multiExp_all. Qed.

Lemma gdot_gadd gs hs (xs : list F) : length gs = length hs ->
  gdot (map (fun e => gadd (fst e) (snd e)) (combine gs hs)) xs = gadd (gdot gs xs) (gdot hs xs).
Proof.
  revert hs xs. induction gs as [|g gs IH]; intros [|h hs] xs Hl; cbn in *; try discriminate; [gsolve|].
  destruct xs as [|x xs]; cbn; [gsolve|]. rewrite IH by lia. gsolve.
Qed.
Lemma commit_add gs (xs ys : list F) r s f alpha beta :
  length gs = length xs -> length gs = length ys ->
  exists c d e,
    commit base gs xs (length gs) r f alpha = Ret c /\
    commit base gs ys (length gs) s f beta = Ret d /\
    commit base gs (vadd xs ys) (length gs) (r + s)%F f (alpha + beta)%F = Ret e /\
    e = gadd c d.
Proof.
  intros H1 H2. do 3 eexists.
  rewrite !commit_ret by (rewrite ?vadd_length; congruence). repeat split.
  rewrite gdot_vadd by congruence. gsolve.
Qed.
Lemma commit2_one gs hs (xs : list F) r f alpha :
  length gs = length xs -> length hs = length gs ->
  commit2 base gs xs hs xs (length gs) r f alpha =
  commit base (map (fun e => gadd (fst e) (snd e)) (combine gs hs)) xs (length gs) r f alpha.
Proof.
  intros H1 H2. rewrite commit2_ret by congruence.
  rewrite commit_ret by (rewrite ?map_length, ?combine_length; lia || congruence).
  rewrite gdot_gadd by congruence. f_equal. gsolve.
Qed.
End Com.

(** ** labels *)
Definition label_sep (a : ascii) : bool := (a =? "G")%char || (a =? "H")%char.

Lemma split_unique (l1 l2 d1 d2 : list ascii) a b :
  label_sep a = true -> label_sep b = true ->
  Forall (fun c => label_sep c = false) d1 -> Forall (fun c => label_sep c = false) d2 ->
  l1 ++ a :: d1 = l2 ++ b :: d2 -> l1 = l2 /\ a = b /\ d1 = d2.
Proof.
  intros Ha Hb H1 H2. revert l2. induction l1 as [|c l1 IH]; intros [|c' l2] E; cbn in E.
  - injection E as -> ->. auto.
  - injection E as -> ->. rewrite Forall_app in H1. destruct H1 as [_ H1]. inversion H1; subst. congruence.
  - injection E as -> <-. rewrite Forall_app in H2. destruct H2 as [_ H2]. inversion H2; subst. congruence.
  - injection E as -> E. apply IH in E. destruct E as (-> & -> & ->). auto.
Qed.

Fixpoint to_list (s : string) : list ascii :=
  match s with EmptyString => [] | String a s' => a :: to_list s' end.
Lemma to_list_app s t : to_list (s ++ t)%string = to_list s ++ to_list t.
Proof. induction s as [|a s IH]; cbn; [reflexivity|]. now rewrite IH. Qed.
Lemma to_list_inj s t : to_list s = to_list t -> s = t.
Proof. revert t; induction s as [|a s IH]; intros [|b t] H; cbn in H; try discriminate; [reflexivity|]. injection H as -> H. f_equal. now apply IH. Qed.

Lemma uint_no_sep d : Forall (fun c => label_sep c = false) (to_list (NilEmpty.string_of_uint d)).
Proof. induction d; cbn; constructor; auto. Qed.
Lemma to_string_no_sep i : Forall (fun c => label_sep c = false) (to_list (to_string i)).
Proof.
  unfold to_string. destruct (Z.to_int i) as [d|d]; cbn.
  - destruct d; try apply (uint_no_sep); cbn; auto.
  - constructor; [reflexivity|]. destruct d; try apply (uint_no_sep); cbn; auto.
Qed.
Lemma to_int_nonnil i : Z.to_int i <> Decimal.Pos Decimal.Nil /\ Z.to_int i <> Decimal.Neg Decimal.Nil.
Proof.
  destruct i as [|q|q]; cbn; split; try discriminate; intros H; injection H as H;
    now apply DecimalPos.Unsigned.to_uint_nonnil in H.
Qed.
Lemma to_string_inj i j : to_string i = to_string j -> i = j.
Proof.
  unfold to_string. intros H. apply (f_equal NilZero.int_of_string) in H.
  destruct (to_int_nonnil i), (to_int_nonnil j). rewrite !NilZero.isi in H by assumption.
  injection H as H. apply (f_equal Z.of_int) in H. now rewrite !DecimalZ.of_to in H.
Qed.

Lemma gen_label_inj tag k i tag' k' i' :
  gen_label tag k i = gen_label tag' k' i' -> tag = tag' /\ k = k' /\ i = i'.
Proof.
  unfold gen_label. intros H. apply (f_equal to_list) in H. rewrite !to_list_app in H.
  destruct k, k'; cbn [kind_str to_list app] in H;
    (apply split_unique in H; try apply to_string_no_sep; try reflexivity;
     destruct H as (H1 & H2 & H3); try discriminate;
     apply to_list_inj in H1; apply to_list_inj in H3; apply to_string_inj in H3; auto).
Qed.
