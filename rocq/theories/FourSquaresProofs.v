(** Proofs about foursquares.cpp. *)
From Coq Require Import ZArith Znumtheory List Lia Bool Permutation.
From Verif Require Import NumTheory Outcome TwoSquares FourSquaresModel FourSquaresSpec.
Import ListNotations.
Open Scope Z_scope.

Lemma smallPrimes_prime q : In q smallPrimes -> prime q /\ 2 < q.
Proof.
  intros H. cbn in H.
  repeat (destruct H as [<-|H]; [split; [apply prime_by_trial; vm_compute; reflexivity|lia]|]).
  contradiction.
Qed.

Lemma square_mod_magic x : In ((x * x) mod magicN) squaresModMagic.
Proof.
  unfold squaresModMagic. apply in_map_iff.
  pose proof (Z.mod_pos_bound x magicN ltac:(reflexivity)) as Hr.
  destruct (Z_le_gt_dec (x mod magicN) (magicN / 2)) as [Hle|Hgt].
  - exists (Z.to_nat (x mod magicN)). rewrite Z2Nat.id by lia. split.
    + now rewrite <- Zmult_mod.
    + apply in_seq. split; [lia|]. apply Z2Nat.inj_le in Hle; [lia|lia|now compute].
  - exists (Z.to_nat (magicN - x mod magicN)). rewrite Z2Nat.id by lia. split.
    + rewrite (Zmult_mod x x).
      replace ((magicN - x mod magicN) * (magicN - x mod magicN))
        with (x mod magicN * (x mod magicN) + (magicN - 2 * (x mod magicN)) * magicN) by ring.
      apply Z_mod_plus_full.
    + apply in_seq. split; [lia|].
      assert (Hle : magicN - x mod magicN <= magicN / 2) by (change (magicN / 2) with 5040 in *; change magicN with 10080 in *; lia).
      apply Z2Nat.inj_le in Hle; [lia|lia|now compute].
Qed.

Lemma powerMod_spec a e n : 0 <= e -> powerMod a e n = a ^ e mod n.
Proof.
  intros He. unfold powerMod. destruct e as [|e|e]; [reflexivity|apply powmod_spec|lia].
Qed.

Lemma dmr a m r : 0 < m -> a mod m = r -> a = m * (a / m) + r.
Proof. intros Hm <-. apply Z.div_mod. lia. Qed.

Section Proofs.
Variable jacobi : Z -> Z -> Z.
Variable probPrime : Z -> bool.
Variable singlePrec : Z -> bool.
Hypothesis Hjac : jacobi_ok jacobi.

Notation maybeSquare := (maybeSquare jacobi singlePrec).
Notation iunit := (iunit jacobi singlePrec).
Notation decomposeProbablePrime := (decomposeProbablePrime jacobi singlePrec).
Notation decompose4 := (decompose4 jacobi probPrime singlePrec).
Notation decompose3 := (decompose3 jacobi probPrime singlePrec).
Notation search1 := (search1 jacobi probPrime singlePrec).
Notation search2 := (search2 jacobi probPrime singlePrec).

(** C68 *)
Lemma maybeSquare_square x : maybeSquare (x * x) = true.
Proof.
  unfold FourSquaresModel.maybeSquare. destruct (singlePrec (x * x)).
  - replace (x * x) with (Z.abs x * Z.abs x) by (apply Z.abs_square).
    rewrite Z.sqrt_square by apply Z.abs_nonneg. apply Z.eqb_refl.
  - assert (E : existsb (Z.eqb ((x * x) mod magicN)) squaresModMagic = true).
    { apply existsb_exists. exists ((x * x) mod magicN). split; [apply square_mod_magic|apply Z.eqb_refl]. }
    rewrite E. cbn [negb]. apply negb_true_iff.
    destruct (existsb _ smallPrimes) eqn:Es; [|reflexivity]. exfalso.
    apply existsb_exists in Es. destruct Es as (q & Hq & Hj). apply Z.eqb_eq in Hj.
    apply smallPrimes_prime in Hq. destruct Hq as [Hq Hq2].
    apply Hjac in Hj; [|assumption|assumption|nia].
    assert (Hodd : q mod 2 = 1).
    { destruct (Z.eq_dec (q mod 2) 1) as [|Hne]; [assumption|exfalso].
      assert (H0 : q mod 2 = 0) by (pose proof (Z.mod_pos_bound q 2); lia).
      apply Z.mod_divide in H0; [|lia]. apply prime_divisors in H0; [|assumption]. lia. }
    replace (x * x) with (x ^ 2) in Hj by ring.
    assert (Hdm : q = 2 * (q / 2) + 1) by (apply dmr; [lia|assumption]).
    assert (Hh : q - 1 = 2 * ((q - 1) / 2)).
    { replace (q - 1) with ((q / 2) * 2) at 2 by lia. rewrite Z.div_mul by lia. lia. }
    rewrite <- Z.pow_mul_r in Hj by lia. rewrite <- Hh in Hj.
    destruct (Z.eq_dec (x mod q) 0) as [Hz|Hnz].
    + assert (Hx : x ^ (q - 1) mod q = 0).
      { apply Z.mod_divide; [lia|]. apply Z.mod_divide in Hz; [|lia].
        replace (q - 1) with (Z.succ (q - 2)) by lia. rewrite Z.pow_succ_r by lia.
        now apply Z.divide_mul_l. }
      rewrite Hx in Hj. lia.
    + assert (Hf : x ^ (q - 1) mod q = 1).
      { apply fermat_little; [assumption|]. apply mod_nonzero_ndiv; [lia|assumption]. }
      rewrite Hf in Hj. lia.
Qed.

Lemma prime_not_square p : prime p -> Z.sqrt p * Z.sqrt p <> p.
Proof.
  intros Hp E. pose proof (prime_ge_2 p Hp). pose proof (Z.sqrt_nonneg p).
  assert (Hd : (Z.sqrt p | p)) by (exists (Z.sqrt p); lia).
  apply prime_divisors in Hd; [|assumption].
  destruct Hd as [Hx|[Hx|[Hx|Hx]]]; rewrite Hx in E; nia.
Qed.

Lemma iunit_search_spec fuel i p : 0 < i -> iunit_search fuel i p <> 0 ->
  0 < iunit_search fuel i p <= p / 2 /\ (iunit_search fuel i p * iunit_search fuel i p) mod p = p - 1.
Proof.
  revert i. induction fuel as [|f IH]; intros i Hi H; cbn [iunit_search] in *; [congruence|].
  destruct (Z.ltb_spec (p / 2) i); [congruence|].
  destruct (Z.eqb_spec ((i * i) mod p) (p - 1)); [lia|]. apply IH; [lia|assumption].
Qed.

Lemma mod_m1_divide p z : 1 < p -> z mod p = p - 1 -> (p | z + 1).
Proof.
  intros Hp H. apply Z.mod_divide; [lia|]. rewrite Zplus_mod, H.
  rewrite (Z.mod_small 1) by lia. replace (p - 1 + 1) with p by ring. apply Z.mod_same. lia.
Qed.

Lemma pow_half_sq q e p : 0 <= e -> (q ^ e mod p) * (q ^ e mod p) mod p = q ^ (2 * e) mod p.
Proof.
  intros He. rewrite <- Zmult_mod. f_equal. replace (2 * e) with (e + e) by ring.
  symmetry. apply Z.pow_add_r; assumption.
Qed.

Lemma iunit_loop_spec p qs : prime p -> p mod 8 = 1 -> Forall (fun q => 0 <= q) qs -> forall ret,
  (ret = 0 \/ (0 <= ret < p /\ (p | ret * ret + 1))) ->
  let b := iunit_loop jacobi qs ret p in b = 0 \/ (0 <= b < p /\ (p | b * b + 1)).
Proof.
  intros Hp H8 Hqs. pose proof (prime_ge_2 p Hp).
  assert (Hp2 : 2 < p) by (destruct (Z.eq_dec p 2) as [->|]; [discriminate|lia]).
  assert (E4 : p - 1 = 4 * ((p - 1) / 4)).
  { assert (E : p = 8 * (p / 8) + 1) by (apply dmr; [lia|assumption]).
    replace (p - 1) with ((2 * (p / 8)) * 4) at 2 by lia. rewrite Z.div_mul; lia. }
  induction Hqs as [|q qs Hq _ IH]; intros ret Hret; cbn [iunit_loop]; [exact Hret|].
  apply IH. destruct (Z.eqb_spec (jacobi q p) (-1)) as [Hj|]; [|assumption].
  right. apply Hjac in Hj; try assumption.
  rewrite powerMod_spec by (apply Z.div_pos; lia).
  pose proof (Z.mod_pos_bound (q ^ ((p - 1) / 4)) p ltac:(lia)). split; [lia|].
  apply mod_m1_divide; [lia|]. rewrite pow_half_sq by (apply Z.div_pos; lia).
  etransitivity; [|exact Hj]. f_equal. f_equal. apply Z.div_unique_exact; lia.
Qed.

Lemma primesBelow281_nonneg : Forall (fun q => 0 <= q) primesBelow281.
Proof. unfold primesBelow281. repeat (constructor; [lia|]). constructor. Qed.

(** For a prime p = 1 mod 4, iunit returns 0 or a square root of -1. *)
Lemma iunit_spec p : prime p -> p mod 4 = 1 ->
  snd (iunit p) = false /\
  (fst (iunit p) = 0 \/ (0 <= fst (iunit p) < p /\ (p | fst (iunit p) * fst (iunit p) + 1))).
Proof.
  intros Hp H4. pose proof (prime_ge_2 p Hp). unfold FourSquaresModel.iunit.
  replace (Z.sqrt p * Z.sqrt p =? p) with false by (symmetry; apply Z.eqb_neq; now apply prime_not_square).
  rewrite andb_false_r.
  assert (Hmod8 : p mod 8 = 1 \/ p mod 8 = 5).
  { assert (E : p = 8 * (p / 8) + p mod 8) by (apply Z.div_mod; lia).
    pose proof (Z.mod_pos_bound p 8 ltac:(lia)) as Hb.
    assert (E4 : p mod 4 = (p mod 8) mod 4).
    { rewrite E at 1. replace (8 * (p / 8)) with ((2 * (p / 8)) * 4) by ring.
      rewrite Z.add_comm. apply Z_mod_plus_full. }
    rewrite H4 in E4.
    assert (C : p mod 8 = 0 \/ p mod 8 = 1 \/ p mod 8 = 2 \/ p mod 8 = 3 \/ p mod 8 = 4 \/ p mod 8 = 5 \/ p mod 8 = 6 \/ p mod 8 = 7) by lia.
    destruct C as [C|[C|[C|[C|[C|[C|[C|C]]]]]]]; rewrite C in E4; try discriminate; auto. }
  destruct (Z.eqb_spec (p mod 8) 5) as [H5|H5]; cbn [fst snd].
  - split; [reflexivity|]. right.
    rewrite powerMod_spec by (apply Z.div_pos; lia).
    pose proof (Z.mod_pos_bound (2 ^ (p / 4)) p ltac:(lia)). split; [lia|].
    apply mod_m1_divide; [lia|]. rewrite pow_half_sq by (apply Z.div_pos; lia).
    rewrite <- (two_nonresidue p Hp H5). f_equal. f_equal.
    assert (E : p = 4 * (p / 4) + 1) by (apply dmr; [lia|assumption]).
    apply Z.div_unique_exact; lia.
  - destruct (Z.ltb_spec p 281) as [Hs|Hl]; cbn [fst snd].
    + split; [reflexivity|]. unfold iunit_small.
      replace (p <? 281) with true by (symmetry; now apply Z.ltb_lt).
      replace (p mod 4 =? 1) with true by (symmetry; now apply Z.eqb_eq). cbn [andb].
      destruct (Z.eq_dec (iunit_search (Z.to_nat p) 2 p) 0) as [|Hne]; [now left|right].
      pose proof (iunit_search_spec (Z.to_nat p) 2 p ltac:(lia) Hne) as [Hr Hm].
      split; [|apply mod_m1_divide; [lia|assumption]].
      assert (p / 2 < p) by (apply Z.div_lt; lia). lia.
    + replace (p mod 4 =? 1) with true by (symmetry; now apply Z.eqb_eq). cbn [fst snd].
      split; [reflexivity|]. apply (iunit_loop_spec p); try assumption.
      * destruct Hmod8; [assumption|contradiction].
      * exact primesBelow281_nonneg.
      * now left.
Qed.

(** A root is always found for p = 5 mod 8 and for p < 281. *)
Lemma iunit_found5 p : prime p -> p mod 8 = 5 -> fst (iunit p) <> 0.
Proof.
  intros Hp H5. pose proof (prime_ge_2 p Hp). unfold FourSquaresModel.iunit.
  replace (Z.sqrt p * Z.sqrt p =? p) with false by (symmetry; apply Z.eqb_neq; now apply prime_not_square).
  rewrite andb_false_r, H5. cbn [Z.eqb Pos.eqb fst].
  rewrite powerMod_spec by (apply Z.div_pos; lia). intros E.
  assert (Hsq : (2 ^ (p / 4) mod p) * (2 ^ (p / 4) mod p) mod p = p - 1).
  { rewrite pow_half_sq by (apply Z.div_pos; lia). rewrite <- (two_nonresidue p Hp H5). f_equal. f_equal.
    assert (E5 : p = 8 * (p / 8) + 5) by (apply dmr; [lia|assumption]).
    assert (E4 : p / 4 = 2 * (p / 8) + 1) by (symmetry; apply Z.div_unique with (r := 1); lia).
    rewrite E4. apply Z.div_unique_exact; lia. }
  rewrite E, Z.mul_0_l, Z.mod_0_l in Hsq by lia. lia.
Qed.

Lemma small_primes_search :
  forallb (fun n => let p := Z.of_nat n in
     negb ((p mod 8 =? 1) && (2 <=? p) && no_divisor_upto (Z.to_nat (Z.sqrt p + 2)) 2 p)
     || negb (iunit_search (Z.to_nat p) 2 p =? 0)) (seq 0 281) = true.
Proof. vm_compute. reflexivity. Qed.
Lemma no_divisor_complete fuel d p : prime p -> 2 <= d -> (0 < fuel)%nat -> Z.sqrt p + 1 <= d + Z.of_nat fuel - 1 -> no_divisor_upto fuel d p = true.
Proof.
  intros Hp. revert d. induction fuel as [|f IH]; intros d Hd Hf0 Hf; cbn [no_divisor_upto].
  - lia.
  - destruct (Z.ltb_spec p (d * d)) as [|Hle]; [reflexivity|].
    pose proof (prime_ge_2 p Hp).
    destruct (Z.eqb_spec (p mod d) 0) as [E|E].
    + exfalso. apply Z.mod_divide in E; [|lia]. apply prime_divisors in E; [|assumption].
      destruct E as [Hx|[Hx|[Hx|Hx]]]; subst; nia.
    + assert (Hsd : d <= Z.sqrt p) by (apply Z.sqrt_le_square; lia).
      apply IH; lia.
Qed.
Lemma iunit_found_small p : prime p -> p mod 8 = 1 -> p < 281 -> fst (iunit p) <> 0.
Proof.
  intros Hp H1 Hs. pose proof (prime_ge_2 p Hp). unfold FourSquaresModel.iunit.
  replace (Z.sqrt p * Z.sqrt p =? p) with false by (symmetry; apply Z.eqb_neq; now apply prime_not_square).
  rewrite andb_false_r, H1. cbn [Z.eqb Pos.eqb].
  replace (p <? 281) with true by (symmetry; now apply Z.ltb_lt). cbn [fst]. unfold iunit_small.
  replace (p <? 281) with true by (symmetry; now apply Z.ltb_lt).
  assert (H4 : p mod 4 = 1).
  { rewrite (Z.div_mod p 8) by lia. rewrite H1. replace (8 * (p / 8) + 1) with (1 + (2 * (p / 8)) * 4) by ring.
    now rewrite Z_mod_plus_full. }
  rewrite H4. cbn [andb Z.eqb Pos.eqb].
  pose proof (proj1 (forallb_forall _ _) small_primes_search (Z.to_nat p)) as G. cbv beta zeta in G.
  rewrite Z2Nat.id in G by lia. rewrite H1 in G.
  rewrite (no_divisor_complete _ 2 p Hp) in G.
  - replace (2 <=? p) with true in G by (symmetry; apply Z.leb_le; lia). cbn [andb negb orb Z.eqb Pos.eqb] in G.
    specialize (G ltac:(apply in_seq; lia)). apply negb_true_iff in G. now apply Z.eqb_neq in G.
  - lia.
  - pose proof (Z.sqrt_nonneg p). lia.
  - pose proof (Z.sqrt_nonneg p). lia.
Qed.

(** The Euclidean loop ends within its fuel. *)
Lemma cornacchia_spec p : 1 < p -> Z.odd p = true -> (forall x, x * x <> p) -> forall fuel a b s t,
  cinv p a b s t -> Z.log2 (a * b) < Z.of_nat fuel - 1 ->
  exists x y, cornacchia fuel a b p = Ret (x, y) /\ 0 < x /\ 0 < y /\ x * x + y * y = p.
Proof.
  intros Hp Hodd Hns. induction fuel as [|f IH]; intros a b s t HI Hf.
  - pose proof (Z.log2_nonneg (a * b)). lia.
  - cbn [cornacchia]. destruct (Z.ltb_spec p (b * b)) as [Hlt|Hle].
    + pose proof (cinv_step p a b s t Hp HI Hlt) as HI'.
      apply (IH b (a mod b) _ _ HI').
      destruct HI as [Hb Hba _ _ _ _ _ _ _]. destruct HI' as [Hb' _ _ _ _ _ _ _ _].
      assert (Hhalf : 2 * (b * (a mod b)) <= a * b).
      { pose proof (Z.div_mod a b ltac:(lia)) as E. pose proof (Z.mod_pos_bound a b Hb).
        assert (1 <= a / b) by (apply Z.div_le_lower_bound; lia). nia. }
      assert (Hl : Z.log2 (2 * (b * (a mod b))) <= Z.log2 (a * b)) by now apply Z.log2_le_mono.
      rewrite Z.log2_double in Hl by nia. lia.
    + destruct (cinv_end p a b s t Hp Hodd Hns HI Hle) as (Hs & Es & Esum).
      destruct (Z.eqb_spec b 0) as [E0|_]; [destruct HI; lia|].
      exists b, (a mod b). destruct HI. rewrite <- Es. repeat split; try assumption; lia.
Qed.

Lemma iunit_nonsquare p : snd (iunit p) = false -> forall x, x * x <> p.
Proof.
  intros H x E. unfold FourSquaresModel.iunit in H.
  assert (Hm : maybeSquare p = true) by (rewrite <- E; apply maybeSquare_square).
  rewrite Hm in H.
  assert (Hs : Z.sqrt p * Z.sqrt p =? p = true).
  { apply Z.eqb_eq. rewrite <- E. rewrite <- (Z.abs_square x). now rewrite Z.sqrt_square by apply Z.abs_nonneg. }
  rewrite Hs in H. cbn [andb snd] in H. discriminate.
Qed.

(** Whenever the number found is a square root of -1. *)
Lemma decomposeProbablePrime_root p : 1 < p -> p mod 4 = 1 -> snd (iunit p) = false ->
  0 < fst (iunit p) < p -> (p | fst (iunit p) * fst (iunit p) + 1) ->
  exists x y, decomposeProbablePrime p = Ret (x, y) /\ 0 < x /\ 0 < y /\ x * x + y * y = p.
Proof.
  intros Hp H4 Hs Hr Hd. pose proof (iunit_nonsquare p Hs) as Hns.
  unfold FourSquaresModel.decomposeProbablePrime. rewrite H4. cbn [Z.eqb Pos.eqb negb].
  destruct (iunit p) as [b sq]. cbn [fst snd] in *. subst sq.
  destruct (Z.eqb_spec b 0); [lia|].
  apply cornacchia_spec with (s := 1) (t := 0); try assumption.
  - assert (E : p = 4 * (p / 4) + 1) by (apply dmr; [lia|assumption]).
    rewrite E. replace (4 * (p / 4) + 1) with (1 + 2 * (2 * (p / 4))) by ring. now rewrite Z.odd_add_mul_2.
  - apply cinv_init; assumption.
  - rewrite Nat2Z.inj_add, Z2Nat.id by apply Z.log2_nonneg. lia.
Qed.
Lemma decomposeProbablePrime_prime p : prime p -> p mod 4 = 1 -> fst (iunit p) <> 0 ->
  exists x y, decomposeProbablePrime p = Ret (x, y) /\ 0 < x /\ 0 < y /\ x * x + y * y = p.
Proof.
  intros Hp H4 Hnz. destruct (iunit_spec p Hp H4) as [Hs [H0|[Hr Hd]]]; [contradiction|].
  pose proof (prime_ge_2 p Hp). apply decomposeProbablePrime_root; try assumption; lia.
Qed.
Lemma decomposeProbablePrime_none p : prime p -> p mod 4 = 1 -> fst (iunit p) = 0 ->
  decomposeProbablePrime p = Ret (0, 0).
Proof.
  intros Hp H4 Hz. destruct (iunit_spec p Hp H4) as [Hs _].
  unfold FourSquaresModel.decomposeProbablePrime. rewrite H4. cbn [Z.eqb Pos.eqb negb].
  destruct (iunit p) as [b sq]. cbn [fst snd] in *. subst. reflexivity.
Qed.

Hypothesis Hpp : prime_test_sound probPrime.

(** The call made in decompose4. *)
Lemma dpp_call p : probPrime p = true -> p mod 4 = 1 ->
  exists x y, decomposeProbablePrime p = Ret (x, y) /\ 0 <= x /\ 0 <= y /\ (y <> 0 -> x * x + y * y = p).
Proof.
  intros H H4. apply Hpp in H.
  destruct (Z.eq_dec (fst (iunit p)) 0) as [E|E].
  - exists 0, 0. rewrite decomposeProbablePrime_none by assumption. repeat split; try lia.
  - destruct (decomposeProbablePrime_prime p H H4 E) as (x & y & Hr & Hx & Hy & Hs).
    exists x, y. repeat split; try assumption; lia.
Qed.

(** *** sortScaled *)
Lemma zins_perm x l : Permutation (x :: l) (zins x l).
Proof.
  induction l as [|y l IH]; cbn [zins]; [reflexivity|].
  destruct (x <=? y); [reflexivity|]. rewrite perm_swap. now constructor.
Qed.
Lemma sort_perm l : Permutation l (fold_right zins [] l).
Proof. induction l as [|x l IH]; cbn; [constructor|]. rewrite <- zins_perm. now constructor. Qed.
Lemma sos_perm l l' : Permutation l l' -> sum_of_squares l = sum_of_squares l'.
Proof. unfold sum_of_squares. induction 1; cbn [fold_right] in *; lia. Qed.
Lemma sos_scale l v : sum_of_squares (map (fun x => x * v) l) = v * v * sum_of_squares l.
Proof. unfold sum_of_squares. induction l as [|x l IH]; cbn [fold_right map]; [lia|]. rewrite IH. ring. Qed.
Lemma sortScaled_ok a b c d v n : 0 <= a -> 0 <= b -> 0 <= c -> 0 <= d -> 0 <= v ->
  a * a + b * b + c * c + d * d = n -> four_squares_of (n * (v * v)) (sortScaled [a; b; c; d] v).
Proof.
  intros Ha Hb Hc Hd Hv E. unfold sortScaled. set (s := fold_right zins [] [a; b; c; d]).
  assert (Hperm : Permutation [a; b; c; d] s) by apply sort_perm.
  repeat split.
  - rewrite map_length. now rewrite <- (Permutation_length Hperm).
  - apply Forall_forall. intros x Hx. apply in_map_iff in Hx. destruct Hx as (y & <- & Hy).
    apply Permutation_in with (l' := [a;b;c;d]) in Hy; [|now symmetry].
    cbn in Hy. assert (0 <= y) by lia. nia.
  - rewrite sos_scale, <- (sos_perm _ _ Hperm). cbn. nia.
Qed.

Definition good (n v : Z) (o : outcome (list Z)) : Prop :=
  exists l, o = Ret l /\ (l = failed \/ four_squares_of (n * (v * v)) l).

Lemma sq_odd_mod8 s : Z.odd s = true -> (s * s) mod 8 = 1.
Proof.
  intros H. apply Z.odd_spec in H. destruct H as [k Hk].
  assert (E : exists j, k * (k + 1) = 2 * j).
  { destruct (Z.Even_or_Odd k) as [[j Hj]|[j Hj]].
    - exists (j * (k + 1)). rewrite Hj at 1. ring.
    - exists (k * (j + 1)). replace (k + 1) with (2 * (j + 1)) by lia. ring. }
  destruct E as [j Hj]. replace (s * s) with (1 + j * 8) by (rewrite Hk; lia). now rewrite Z_mod_plus_full.
Qed.
Lemma sq_even_mod4 s : Z.odd s = false -> (s * s) mod 4 = 0.
Proof.
  intros H. assert (Ev : Z.even s = true) by (rewrite <- Z.negb_odd, H; reflexivity).
  apply Z.even_spec in Ev. destruct Ev as [k Hk].
  replace (s * s) with (0 + (k * k) * 4) by (rewrite Hk; ring). now rewrite Z_mod_plus_full.
Qed.

Lemma mod_eq a b c m : 0 < m -> a = b + c * m -> a mod m = b mod m.
Proof. intros Hm ->. apply Z_mod_plus_full. Qed.

Lemma search1_good delta n v : 0 <= delta -> 0 <= v -> n mod 8 = 3 -> forall fuel sq p,
  0 <= sq -> Z.odd sq = true -> n = sq * sq + 2 * p -> 0 <= p ->
  sq < Z.of_nat fuel -> good (n + delta * delta) v (search1 fuel delta sq p v).
Proof.
  intros Hd Hv Hn. induction fuel as [|f IH]; intros sq p Hsq Hodd Hnp Hp Hf; [lia|].
  cbn [FourSquaresModel.search1].
  assert (Hnext : good (n + delta * delta) v
     (let sq' := sq - 2 in
        if sq' <? 0 then Ret failed else search1 f delta sq' (p + (2 * sq' + 2)) v)).
  { cbv zeta. destruct (Z.ltb_spec (sq - 2) 0) as [|Hge].
    - exists failed. auto.
    - apply IH; try lia. rewrite Z.odd_sub, Hodd. reflexivity. }
  destruct (probPrime p) eqn:Epp; [|exact Hnext].
  assert (Hp4 : p mod 4 = 1).
  { pose proof (sq_odd_mod8 sq Hodd) as Hs.
    assert (E2 : (2 * p) mod 8 = 2).
    { replace (2 * p) with (n - sq * sq) by lia. rewrite Zminus_mod, Hn, Hs. reflexivity. }
    assert (E : 2 * p = 8 * ((2 * p) / 8) + 2) by (apply dmr; [lia|assumption]).
    rewrite (mod_eq p 1 ((2 * p) / 8) 4); [reflexivity|lia|lia]. }
  destruct (dpp_call p Epp Hp4) as (y & z & -> & Hy & Hz & Hyz). cbn [obind].
  destruct (Z.eqb_spec z 0) as [E0|E0]; cbn [negb]; [exact Hnext|].
  specialize (Hyz E0). eexists. split; [reflexivity|]. right.
  apply sortScaled_ok; lia.
Qed.
Lemma search2_good delta n v : 0 <= delta -> 0 <= v -> (n mod 4 = 1 \/ n mod 4 = 2) -> forall fuel sq p,
  0 <= sq -> Z.odd (n - sq) = true -> n = sq * sq + p -> 0 <= p ->
  sq < Z.of_nat fuel -> good (n + delta * delta) v (search2 fuel delta sq p v).
Proof.
  intros Hd Hv Hn. induction fuel as [|f IH]; intros sq p Hsq Hodd Hnp Hp Hf; [lia|].
  cbn [FourSquaresModel.search2].
  assert (Hnext : good (n + delta * delta) v
     (let sq' := sq - 2 in
        if sq' <? 0 then Ret failed else search2 f delta sq' (p + 4 * (sq' + 1)) v)).
  { cbv zeta. destruct (Z.ltb_spec (sq - 2) 0) as [|Hge].
    - exists failed. auto.
    - apply IH; try lia. replace (n - (sq - 2)) with (n - sq + 2) by ring.
      rewrite Z.odd_add, Hodd. reflexivity. }
  destruct (probPrime p) eqn:Epp; [|exact Hnext].
  assert (Hp4 : p mod 4 = 1).
  { replace p with (n - sq * sq) by lia. rewrite Zminus_mod. destruct (Z.odd sq) eqn:Es.
    - assert (Ev : Z.odd n = false) by (rewrite Z.odd_sub, Es in Hodd; destruct (Z.odd n); [discriminate|reflexivity]).
      assert (Hs4 : (sq * sq) mod 4 = 1).
      { pose proof (sq_odd_mod8 sq Es) as Hs. assert (E : sq * sq = 8 * ((sq * sq) / 8) + 1) by (apply dmr; [lia|assumption]).
        rewrite (mod_eq (sq * sq) 1 (2 * ((sq * sq) / 8)) 4); [reflexivity|lia|lia]. }
      rewrite Hs4. destruct Hn as [Hn|Hn]; rewrite Hn; [|reflexivity]. exfalso.
      assert (E : n = 4 * (n / 4) + 1) by (apply dmr; [lia|assumption]).
      rewrite E in Ev. replace (4 * (n / 4) + 1) with (1 + 2 * (2 * (n / 4))) in Ev by ring.
      rewrite Z.odd_add_mul_2 in Ev. discriminate.
    - assert (Ev : Z.odd n = true) by (rewrite Z.odd_sub, Es in Hodd; destruct (Z.odd n); [reflexivity|discriminate]).
      rewrite (sq_even_mod4 sq Es). destruct Hn as [Hn|Hn]; rewrite Hn; [reflexivity|]. exfalso.
      assert (E : n = 4 * (n / 4) + 2) by (apply dmr; [lia|assumption]).
      rewrite E in Ev. replace (4 * (n / 4) + 2) with (0 + 2 * (2 * (n / 4) + 1)) in Ev by ring.
      rewrite Z.odd_add_mul_2 in Ev. discriminate. }
  destruct (dpp_call p Epp Hp4) as (y & z & -> & Hy & Hz & Hyz). cbn [obind].
  destruct (Z.eqb_spec z 0) as [E0|E0]; cbn [negb]; [exact Hnext|].
  specialize (Hyz E0). eexists. split; [reflexivity|]. right.
  apply sortScaled_ok; try lia.
Qed.

Lemma zfind_in {A} k (l : list (Z * A)) v : zfind k l = Some v -> In (k, v) l.
Proof.
  induction l as [|[k' v'] l IH]; cbn; [discriminate|].
  destruct (Z.eqb_spec k' k) as [->|]; intros H; [injection H as ->; now left|right; auto].
Qed.
Lemma exceptions_ok n x y z : In (n, (x, y, z)) decomposeExceptions ->
  0 <= x /\ 0 <= y /\ 0 <= z /\ x * x + y * y + z * z = n.
Proof.
  intros H. cbn in H.
  repeat (destruct H as [H|H]; [injection H as <- <- <- <-; lia|]). contradiction.
Qed.

Lemma decompose3_good delta n sq p v : 0 <= delta -> 0 <= v -> 1 <= sq -> 0 <= p -> n = sq * sq + p ->
  (n mod 8 = 3 \/ n mod 4 = 1 \/ n mod 4 = 2) ->
  good (n + delta * delta) v (decompose3 delta n sq p v).
Proof.
  intros Hd Hv Hsq Hp Hn Hm. unfold FourSquaresModel.decompose3.
  destruct (if n <=? 9634 then zfind n decomposeExceptions else None) as [[[x y] z]|] eqn:E.
  - destruct (n <=? 9634); [|discriminate]. apply zfind_in in E.
    apply exceptions_ok in E. destruct E as (Hx & Hy & Hz & Hs).
    eexists. split; [reflexivity|]. right. apply sortScaled_ok; try assumption. lia.
  - destruct (Z.eqb_spec (n mod 4) 3) as [H3|H3].
    + assert (H8 : n mod 8 = 3) by (destruct Hm as [|[|]]; [assumption|lia|lia]).
      assert (Hoddn : Z.odd n = true).
      { assert (E3 : n = 4 * (n / 4) + 3) by (apply dmr; [lia|assumption]).
        rewrite E3. replace (4 * (n / 4) + 3) with (1 + 2 * (2 * (n / 4) + 1)) by ring. now rewrite Z.odd_add_mul_2. }
      assert (Heven : forall s q, Z.odd s = true -> n = s * s + q -> q = 2 * (q / 2)).
      { intros s q Hs Hq. assert (Hq2 : q mod 2 = 0).
        { replace q with (n - s * s) by lia. rewrite <- Zmod_odd || idtac.
          assert (Z.odd (n - s * s) = false) by (rewrite Z.odd_sub, Z.odd_mul, Hs, Hoddn; reflexivity).
          rewrite Zmod_odd, H. reflexivity. }
        apply Z_div_exact_full_2; [lia|assumption]. }
      destruct (Z.odd sq) eqn:Eo.
      * pose proof (Heven sq p Eo Hn) as Hq.
        apply (search1_good delta n v); try assumption; try lia.
      * assert (Hsq2 : 2 <= sq) by (destruct (Z.eq_dec sq 1) as [->|]; [discriminate|lia]).
        assert (Eo' : Z.odd (sq - 1) = true) by (rewrite Z.odd_sub, Eo; reflexivity).
        assert (Hn' : n = (sq - 1) * (sq - 1) + (p + (2 * (sq - 1) + 1))) by lia.
        pose proof (Heven (sq - 1) _ Eo' Hn') as Hq.
        apply (search1_good delta n v); try assumption; try lia.
    + assert (Hm' : n mod 4 = 1 \/ n mod 4 = 2).
      { destruct Hm as [H8|]; [|assumption]. exfalso. apply H3.
        assert (E8 : n = 8 * (n / 8) + 3) by (apply dmr; [lia|assumption]).
        rewrite (mod_eq n 3 (2 * (n / 8)) 4); [reflexivity|lia|lia]. }
      destruct (Z.odd (n - sq)) eqn:Eo.
      * apply (search2_good delta n v); try assumption; try lia.
      * apply (search2_good delta n v); try assumption; try lia.
        replace (n - (sq - 1)) with (n - sq + 1) by ring. rewrite Z.odd_add, Eo. reflexivity.
Qed.

Lemma remove4_spec n0 : forall fuel n v, 1 <= n -> 1 <= v -> Z.log2 n < Z.of_nat fuel ->
  n * (v * v) = n0 -> exists n' v', remove4 fuel n v = Ret (n', v') /\ 1 <= n' /\ 1 <= v' /\
    n' * (v' * v') = n0 /\ n' mod 4 <> 0.
Proof.
  induction fuel as [|f IH]; intros n v Hn Hv Hf E.
  - pose proof (Z.log2_nonneg n). lia.
  - cbn [remove4]. destruct (Z.eqb_spec (n mod 4) 0) as [H4|H4].
    + assert (E4 : n = 4 * (n / 4)) by (apply Z_div_exact_full_2; [lia|assumption]).
      apply IH; [lia|lia| |].
      * assert (Hl : Z.log2 n = Z.log2 (2 * (2 * (n / 4)))) by (f_equal; lia).
        rewrite !Z.log2_double in Hl by lia. lia.
      * rewrite <- E. rewrite E4 at 2. ring.
    + exists n, v. repeat split; assumption.
Qed.

Lemma decompose4_good n : 0 <= n ->
  exists l, decompose4 n = Ret l /\ (l = failed \/ four_squares_of n l).
Proof.
  intros Hn. unfold FourSquaresModel.decompose4.
  destruct (Z.ltb_spec n 0); [lia|]. destruct (Z.leb_spec n 1) as [Hle|Hgt].
  { eexists. split; [reflexivity|]. right. repeat split; [repeat constructor; lia|]. cbn. nia. }
  destruct (remove4_spec n (Z.to_nat (Z.log2 n) + 1) n 1) as (m & v & -> & Hm & Hv & E & H4); try lia.
  cbn [obind].
  set (sq := Z.sqrt m). set (p := m - sq * sq).
  assert (Hsq : 1 <= sq) by (unfold sq; apply Z.sqrt_le_square; lia).
  assert (Hp : 0 <= p) by (unfold p, sq; destruct (Z.sqrt_spec m) as [Hs1 _]; lia).
  destruct (Z.eqb_spec p 0) as [Ep|Ep].
  { eexists. split; [reflexivity|]. right. rewrite Ep. repeat split; [repeat constructor; nia|].
    unfold sum_of_squares; cbn [fold_right]. assert (Em : m = sq * sq) by (unfold p in Ep; lia).
    rewrite <- E, Em. ring. }
  assert (Hcont : exists l, (let '(delta, n, sq, p) := subtract_delta m sq p in decompose3 delta n sq p v) = Ret l /\
            (l = failed \/ four_squares_of n l)).
  { unfold subtract_delta. destruct (Z.eqb_spec (m mod 8) 7) as [H7|H7].
    - assert (Hsp : 1 <= Z.sqrt p) by (apply Z.sqrt_le_square; lia).
      assert (Hsps : Z.sqrt p * Z.sqrt p <= p) by (apply Z.sqrt_spec; lia).
      assert (G : forall delta n', 0 <= delta -> delta mod 4 <> 0 -> p <= n' -> m = n' + delta * delta ->
         exists l, decompose3 delta n' (Z.sqrt p) (n' - Z.sqrt p * Z.sqrt p) v = Ret l /\ (l = failed \/ four_squares_of n l)).
      { intros delta n' Hd Hd4 Hn' Em.
        rewrite <- E, Em. apply decompose3_good; try lia.
        (* n' mod 8 in {3,6} *)
        destruct (Z.odd delta) eqn:Eo.
        - pose proof (sq_odd_mod8 delta Eo) as Hs. right; right.
          assert (E8 : n' mod 8 = 6) by (replace n' with (m - delta * delta) by lia; rewrite Zminus_mod, H7, Hs; reflexivity).
          assert (Ed : n' = 8 * (n' / 8) + 6) by (apply dmr; [lia|assumption]).
          rewrite (mod_eq n' 2 (2 * (n' / 8) + 1) 4); [reflexivity|lia|lia].
        - left. assert (Hs : (delta * delta) mod 8 = 4).
          { assert (Ev : Z.even delta = true) by (rewrite <- Z.negb_odd, Eo; reflexivity).
            apply Z.even_spec in Ev. destruct Ev as [k Hk].
            assert (Hko : Z.odd k = true).
            { destruct (Z.odd k) eqn:Ek; [reflexivity|]. exfalso. apply Hd4.
              assert (Ev : Z.even k = true) by (rewrite <- Z.negb_odd, Ek; reflexivity).
              apply Z.even_spec in Ev. destruct Ev as [j Hj].
              rewrite (mod_eq delta 0 j 4); [reflexivity|lia|lia]. }
            pose proof (sq_odd_mod8 k Hko) as Hk8.
            assert (Ek : k * k = 8 * ((k * k) / 8) + 1) by (apply dmr; [lia|assumption]).
            rewrite (mod_eq (delta * delta) 4 (4 * ((k * k) / 8)) 8); [reflexivity|lia|rewrite Hk; lia]. }
          replace n' with (m - delta * delta) by lia. rewrite Zminus_mod, H7, Hs. reflexivity. }
      destruct (Z.eqb_spec (sq mod 4) 0) as [Hs4|Hs4].
      + apply G; try lia.
        assert (Es : sq = 4 * (sq / 4)) by (apply Z_div_exact_full_2; [lia|assumption]).
        rewrite (mod_eq (sq - 1) 3 (sq / 4 - 1) 4); [cbn; lia|lia|lia].
      + apply G; try lia.
    - destruct (decompose3_good 0 m sq p v) as (l & -> & Hl); try lia.
      + assert (Em : m = 8 * (m / 8) + m mod 8) by (apply Z.div_mod; lia).
        pose proof (Z.mod_pos_bound m 8 ltac:(lia)) as Hb.
        assert (Em4 : m mod 4 = (m mod 8) mod 4).
        { apply (mod_eq m (m mod 8) (2 * (m / 8)) 4); lia. }
        assert (C : m mod 8 = 0 \/ m mod 8 = 1 \/ m mod 8 = 2 \/ m mod 8 = 3 \/ m mod 8 = 4 \/ m mod 8 = 5 \/ m mod 8 = 6 \/ m mod 8 = 7) by lia.
        destruct C as [C|[C|[C|[C|[C|[C|[C|C]]]]]]]; rewrite C in Em4; cbn in Em4; try lia.
      + exists l. split; [reflexivity|]. replace n with ((m + 0 * 0) * (v * v)) by lia. exact Hl. }
  destruct (Z.eqb_spec (m mod 4) 1) as [H1|H1]; cbn [andb]; [|exact Hcont].
  destruct (probPrime m) eqn:Epp; [|exact Hcont].
  destruct (dpp_call m Epp H1) as (s & r & -> & Hs & Hr & Hsr). cbn [obind].
  destruct (Z.eqb_spec r 0) as [E0|E0]; cbn [negb]; [exact Hcont|].
  specialize (Hsr E0). eexists. split; [reflexivity|]. right.
  rewrite <- E. apply sortScaled_ok; lia.
Qed.
End Proofs.
