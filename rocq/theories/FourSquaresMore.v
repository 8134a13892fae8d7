(** When decompose4 succeeds and when it fails. *)
From Coq Require Import ZArith Znumtheory List Lia Bool.
From Verif Require Import NumTheory Outcome TwoSquares FourSquaresModel FourSquaresSpec FourSquaresProofs.
Import ListNotations.
Open Scope Z_scope.

Section More.
Variable jacobi : Z -> Z -> Z.
Variable probPrime : Z -> bool.
Variable singlePrec : Z -> bool.

Lemma remove4_pow m : m mod 4 <> 0 -> forall k fuel v, (k < fuel)%nat ->
  remove4 fuel (m * 4 ^ Z.of_nat k) v = Ret (m, v * 2 ^ Z.of_nat k).
Proof.
  intros Hm. induction k as [|k IH]; intros fuel v Hf; (destruct fuel as [|f]; [lia|]); cbn [remove4].
  - change (4 ^ Z.of_nat 0) with 1. change (2 ^ Z.of_nat 0) with 1. rewrite !Z.mul_1_r.
    destruct (Z.eqb_spec (m mod 4) 0); [contradiction|reflexivity].
  - assert (E : m * 4 ^ Z.of_nat (S k) = (m * 4 ^ Z.of_nat k) * 4).
    { rewrite Nat2Z.inj_succ, Z.pow_succ_r by lia. ring. }
    rewrite E, Z.mod_mul by lia. cbn [Z.eqb]. rewrite Z.div_mul by lia. rewrite IH by lia.
    f_equal. f_equal. rewrite Nat2Z.inj_succ, Z.pow_succ_r by lia. ring.
Qed.

Lemma decompose4_71 k : prime_test_sound probPrime ->
  decompose4 jacobi probPrime singlePrec (71 * 4 ^ Z.of_nat k) = Ret failed.
Proof.
  intros Hs. unfold decompose4.
  assert (Hpos : 0 < 4 ^ Z.of_nat k) by (apply Z.pow_pos_nonneg; lia).
  destruct (Z.ltb_spec (71 * 4 ^ Z.of_nat k) 0); [lia|].
  destruct (Z.leb_spec (71 * 4 ^ Z.of_nat k) 1); [lia|].
  assert (Hlog : Z.of_nat k <= Z.log2 (71 * 4 ^ Z.of_nat k)).
  { apply Z.log2_le_pow2; [lia|].
    apply Z.le_trans with (4 ^ Z.of_nat k); [apply Z.pow_le_mono_l; lia|lia]. }
  rewrite remove4_pow; [|now compute|lia].
  assert (H21 : probPrime 21 = false).
  { destruct (probPrime 21) eqn:E; [|reflexivity]. exfalso. apply Hs in E.
    assert (Hd : (3 | 21)) by (now exists 7). apply prime_divisors in Hd; [|assumption]. lia. }
  cbn [obind]. set (v := 1 * _). clearbody v.
  change (Z.sqrt 71) with 8. change (71 - 8 * 8 =? 0) with false. change ((71 mod 4 =? 1) && probPrime 71) with false.
  change (subtract_delta 71 8 (71 - 8 * 8)) with (7, 22, 2, 18). cbv beta iota zeta. unfold decompose3.
  change (if 22 <=? 9634 then zfind 22 decomposeExceptions else None) with (@None (Z * Z * Z)). change (22 mod 4 =? 3) with false.
  change (Z.odd (22 - 2)) with false. cbv beta iota zeta. change (Z.to_nat (2 - 1) + 1)%nat with 2%nat.
  change (18 + (2 * (2 - 1) + 1)) with 21. cbn [search2]. rewrite H21. reflexivity.
Qed.

Hypothesis Hjac : jacobi_ok jacobi.
Hypothesis Hpp : prime_test_exact probPrime.

(** A prime which decomposeProbablePrime certainly decomposes. *)
Definition easy_prime (p : Z) : Prop := prime p /\ (p mod 8 = 5 \/ (p mod 8 = 1 /\ p < 281)).

Lemma easy_call p : easy_prime p -> exists y z,
  decomposeProbablePrime jacobi singlePrec p = Ret (y, z) /\ z <> 0.
Proof.
  intros (Hp & H8).
  assert (H4 : p mod 4 = 1).
  { pose proof (prime_ge_2 p Hp). pose proof (Z.div_mod p 8 ltac:(lia)) as E.
    destruct H8 as [H8|[H8 _]]; rewrite H8 in E.
    - rewrite (mod_eq p 1 (2 * (p / 8) + 1) 4); [reflexivity|lia|lia].
    - rewrite (mod_eq p 1 (2 * (p / 8)) 4); [reflexivity|lia|lia]. }
  assert (Hf : fst (iunit jacobi singlePrec p) <> 0).
  { destruct H8 as [H8|[H8 Hs]]; [now apply iunit_found5|now apply iunit_found_small]. }
  destruct (decomposeProbablePrime_prime jacobi singlePrec Hjac p Hp H4 Hf) as (x & y & E & _ & Hy & _).
  exists x, y. split; [assumption|lia].
Qed.

Lemma sortScaled_not_failed a b c d v : 0 <= a -> 0 <= b -> 0 <= c -> 0 <= d -> 0 <= v ->
  sortScaled [a; b; c; d] v <> failed.
Proof.
  intros Ha Hb Hc Hd Hv E.
  destruct (sortScaled_ok a b c d v (a * a + b * b + c * c + d * d) Ha Hb Hc Hd Hv eq_refl) as (_ & Hn & _).
  rewrite E in Hn. apply Forall_inv in Hn. lia.
Qed.

Definition succeeds (o : outcome (list Z)) : Prop := exists l, o = Ret l /\ l <> failed.

Lemma dpp_nonneg p : probPrime p = true -> p mod 4 = 1 -> exists x y,
  decomposeProbablePrime jacobi singlePrec p = Ret (x, y) /\ 0 <= x /\ 0 <= y.
Proof.
  intros Hp H4.
  destruct (dpp_call jacobi probPrime singlePrec Hjac (fun n => proj1 (Hpp n)) p Hp H4) as (x & y & H & Hx & Hy & _).
  exists x, y. auto.
Qed.

(** The residue of p in the two searches. *)
Lemma search1_mod4 n sq p : n mod 8 = 3 -> Z.odd sq = true -> n = sq * sq + 2 * p -> p mod 4 = 1.
Proof.
  intros Hn Hodd Hnp. pose proof (sq_odd_mod8 sq Hodd) as Hs.
  assert (E2 : (2 * p) mod 8 = 2).
  { replace (2 * p) with (n - sq * sq) by lia. rewrite Zminus_mod, Hn, Hs. reflexivity. }
  assert (E : 2 * p = 8 * ((2 * p) / 8) + 2) by (apply dmr; [lia|assumption]).
  rewrite (mod_eq p 1 ((2 * p) / 8) 4); [reflexivity|lia|lia].
Qed.
Lemma odd_mod4 n : n mod 4 = 1 -> Z.odd n = true.
Proof.
  intros Hn. assert (E : n = 4 * (n / 4) + 1) by (apply dmr; [lia|assumption]).
  rewrite E. replace (4 * (n / 4) + 1) with (1 + 2 * (2 * (n / 4))) by ring. now rewrite Z.odd_add_mul_2.
Qed.
Lemma even_mod4 n : n mod 4 = 2 -> Z.odd n = false.
Proof.
  intros Hn. assert (E : n = 4 * (n / 4) + 2) by (apply dmr; [lia|assumption]).
  rewrite E. replace (4 * (n / 4) + 2) with (0 + 2 * (2 * (n / 4) + 1)) by ring. now rewrite Z.odd_add_mul_2.
Qed.
Lemma search2_mod4 n sq p : (n mod 4 = 1 \/ n mod 4 = 2) -> Z.odd (n - sq) = true -> n = sq * sq + p -> p mod 4 = 1.
Proof.
  intros Hn Hodd Hnp. replace p with (n - sq * sq) by lia. rewrite Z.odd_sub in Hodd. rewrite Zminus_mod.
  destruct Hn as [Hn|Hn]; rewrite Hn.
  - rewrite (odd_mod4 n Hn) in Hodd. rewrite sq_even_mod4; [reflexivity|]. destruct (Z.odd sq); [discriminate|reflexivity].
  - rewrite (even_mod4 n Hn) in Hodd. assert (Es : Z.odd sq = true) by (destruct (Z.odd sq); [reflexivity|discriminate]).
    pose proof (sq_odd_mod8 sq Es) as Hs.
    assert (E : sq * sq = 8 * ((sq * sq) / 8) + 1) by (apply dmr; [lia|assumption]).
    rewrite (mod_eq (sq * sq) 1 (2 * ((sq * sq) / 8)) 4); [reflexivity|lia|lia].
Qed.

Lemma search1_succeeds delta n v : 0 <= delta -> 0 <= v -> n mod 8 = 3 -> forall fuel sq p x q,
  0 <= sq -> Z.odd sq = true -> n = sq * sq + 2 * p -> sq < Z.of_nat fuel ->
  0 <= x <= sq -> Z.odd x = true -> n = x * x + 2 * q -> easy_prime q ->
  succeeds (search1 jacobi probPrime singlePrec fuel delta sq p v).
Proof.
  intros Hd Hv Hn. induction fuel as [|f IH]; intros sq p x q Hsq Hodd Hnp Hf Hx Hxo Hq Heq; [lia|].
  cbn [search1].
  assert (Hnext : x <> sq -> succeeds
     (let sq' := sq - 2 in
        if sq' <? 0 then Ret failed else search1 jacobi probPrime singlePrec f delta sq' (p + (2 * sq' + 2)) v)).
  { intros Hne. cbv zeta.
    assert (Hge : x <= sq - 2).
    { apply Z.odd_spec in Hodd, Hxo. destruct Hodd as [i Hi], Hxo as [j Hj]. lia. }
    destruct (Z.ltb_spec (sq - 2) 0) as [|_]; [lia|].
    apply (IH _ _ x q); try assumption; try lia. rewrite Z.odd_sub, Hodd. reflexivity. }
  destruct (Z.eq_dec x sq) as [->|Hne].
  - assert (q = p) by lia. subst q.
    rewrite (proj2 (Hpp p) (proj1 Heq)).
    destruct (easy_call p Heq) as (y & z & E & Hz).
    destruct (dpp_nonneg p (proj2 (Hpp p) (proj1 Heq)) (search1_mod4 n sq p Hn Hodd Hnp)) as (y' & z' & E' & Hy0 & Hz0).
    rewrite E in *. injection E' as <- <-. cbn [obind]. destruct (Z.eqb_spec z 0); [contradiction|].
    eexists. split; [reflexivity|]. apply sortScaled_not_failed; lia.
  - specialize (Hnext Hne). destruct (probPrime p) eqn:Epp; [|exact Hnext].
    destruct (dpp_nonneg p Epp (search1_mod4 n sq p Hn Hodd Hnp)) as (y' & z' & E' & Hy0 & Hz0).
    rewrite E'. cbn [obind]. destruct (Z.eqb_spec z' 0); [exact Hnext|].
    eexists. split; [reflexivity|]. apply sortScaled_not_failed; lia.
Qed.
Lemma search2_succeeds delta n v : 0 <= delta -> 0 <= v -> (n mod 4 = 1 \/ n mod 4 = 2) -> forall fuel sq p x q,
  0 <= sq -> Z.odd (n - sq) = true -> n = sq * sq + p -> sq < Z.of_nat fuel ->
  0 <= x <= sq -> Z.odd (n - x) = true -> n = x * x + q -> easy_prime q ->
  succeeds (search2 jacobi probPrime singlePrec fuel delta sq p v).
Proof.
  intros Hd Hv Hn. induction fuel as [|f IH]; intros sq p x q Hsq Hodd Hnp Hf Hx Hxo Hq Heq; [lia|].
  cbn [search2].
  assert (Hnext : x <> sq -> succeeds
     (let sq' := sq - 2 in
        if sq' <? 0 then Ret failed else search2 jacobi probPrime singlePrec f delta sq' (p + 4 * (sq' + 1)) v)).
  { intros Hne. cbv zeta.
    assert (Hge : x <= sq - 2).
    { apply Z.odd_spec in Hodd, Hxo. destruct Hodd as [i Hi], Hxo as [j Hj]. lia. }
    destruct (Z.ltb_spec (sq - 2) 0) as [|_]; [lia|].
    apply (IH _ _ x q); try assumption; try lia.
    replace (n - (sq - 2)) with (n - sq + 2) by ring. rewrite Z.odd_add, Hodd. reflexivity. }
  destruct (Z.eq_dec x sq) as [->|Hne].
  - assert (q = p) by lia. subst q.
    rewrite (proj2 (Hpp p) (proj1 Heq)).
    destruct (easy_call p Heq) as (y & z & E & Hz).
    destruct (dpp_nonneg p (proj2 (Hpp p) (proj1 Heq)) (search2_mod4 n sq p Hn Hodd Hnp)) as (y' & z' & E' & Hy0 & Hz0).
    rewrite E in *. injection E' as <- <-. cbn [obind]. destruct (Z.eqb_spec z 0); [contradiction|].
    eexists. split; [reflexivity|]. apply sortScaled_not_failed; lia.
  - specialize (Hnext Hne). destruct (probPrime p) eqn:Epp; [|exact Hnext].
    destruct (dpp_nonneg p Epp (search2_mod4 n sq p Hn Hodd Hnp)) as (y' & z' & E' & Hy0 & Hz0).
    rewrite E'. cbn [obind]. destruct (Z.eqb_spec z' 0); [exact Hnext|].
    eexists. split; [reflexivity|]. apply sortScaled_not_failed; lia.
Qed.

(** A number n (not 0 mod 4, not 7 mod 8) for which some candidate of the search is an easy prime. *)
Definition has_candidate (n : Z) : Prop :=
  (n mod 8 = 3 /\ exists x q, 0 <= x /\ Z.odd x = true /\ n = x * x + 2 * q /\ easy_prime q) \/
  ((n mod 4 = 1 \/ n mod 4 = 2) /\ exists x q, 0 <= x /\ Z.odd (n - x) = true /\ n = x * x + q /\ easy_prime q).

Lemma sqrt_ge x n q : 0 <= x -> 0 <= q -> n = x * x + q -> x <= Z.sqrt n.
Proof. intros Hx Hq ->. apply Z.sqrt_le_square; nia. Qed.
Lemma odd_mod8_3 n : n mod 8 = 3 -> Z.odd n = true.
Proof.
  intros Hn. assert (E : n = 8 * (n / 8) + 3) by (apply dmr; [lia|assumption]).
  rewrite E. replace (8 * (n / 8) + 3) with (1 + 2 * (4 * (n / 8) + 1)) by ring. now rewrite Z.odd_add_mul_2.
Qed.

Lemma decompose3_succeeds n v : 1 <= n -> 0 <= v -> has_candidate n ->
  succeeds (decompose3 jacobi probPrime singlePrec 0 n (Z.sqrt n) (n - Z.sqrt n * Z.sqrt n) v).
Proof.
  intros Hn Hv Hc. pose proof (Z.sqrt_nonneg n) as Hs0.
  destruct (Z.sqrt_spec n ltac:(lia)) as [Hs1 Hs2].
  unfold decompose3.
  destruct (if n <=? 9634 then zfind n decomposeExceptions else None) as [[[a b] c]|] eqn:E.
  { destruct (n <=? 9634); [|discriminate]. apply zfind_in in E. apply exceptions_ok in E.
    destruct E as (Ha & Hb & Hcc & _). eexists. split; [reflexivity|]. apply sortScaled_not_failed; lia. }
  destruct Hc as [(H8 & x & q & Hx & Hxo & Hq & He)|(H4 & x & q & Hx & Hxo & Hq & He)].
  - assert (H3 : n mod 4 = 3).
    { assert (E8 : n = 8 * (n / 8) + 3) by (apply dmr; [lia|assumption]).
      rewrite (mod_eq n 3 (2 * (n / 8)) 4); [reflexivity|lia|lia]. }
    rewrite H3. cbn [Z.eqb Pos.eqb].
    pose proof (prime_ge_2 q (proj1 He)).
    assert (Hxs : x <= Z.sqrt n) by (apply (sqrt_ge x n (2 * q)); lia).
    assert (Heven : forall s r, Z.odd s = true -> n = s * s + r -> r = 2 * (r / 2)).
    { intros s r Hs Hr. apply Z_div_exact_full_2; [lia|]. replace r with (n - s * s) by lia.
      rewrite Zmod_odd, Z.odd_sub, Z.odd_mul, Hs, (odd_mod8_3 n H8). reflexivity. }
    destruct (Z.odd (Z.sqrt n)) eqn:Eo.
    + apply (search1_succeeds 0 n v ltac:(lia) Hv H8) with (x := x) (q := q); try assumption; try lia.
      rewrite <- (Heven (Z.sqrt n)); [lia|assumption|lia].
    + assert (Hne : x <> Z.sqrt n) by (intros ->; congruence).
      assert (Eo' : Z.odd (Z.sqrt n - 1) = true) by (rewrite Z.odd_sub, Eo; reflexivity).
      apply (search1_succeeds 0 n v ltac:(lia) Hv H8) with (x := x) (q := q); try assumption; try lia.
      rewrite <- (Heven (Z.sqrt n - 1)); [lia|assumption|lia].
  - assert (H3 : n mod 4 <> 3) by lia. apply Z.eqb_neq in H3. rewrite H3.
    pose proof (prime_ge_2 q (proj1 He)).
    assert (Hxs : x <= Z.sqrt n) by (apply (sqrt_ge x n q); lia).
    destruct (Z.odd (n - Z.sqrt n)) eqn:Eo.
    + apply (search2_succeeds 0 n v ltac:(lia) Hv H4) with (x := x) (q := q); try assumption; try lia.
    + assert (Hne : x <> Z.sqrt n) by (intros ->; congruence).
      assert (Eo' : Z.odd (n - (Z.sqrt n - 1)) = true).
      { replace (n - (Z.sqrt n - 1)) with (n - Z.sqrt n + 1) by ring. rewrite Z.odd_add, Eo. reflexivity. }
      apply (search2_succeeds 0 n v ltac:(lia) Hv H4) with (x := x) (q := q); try assumption; try lia.
Qed.

Lemma decompose4_succeeds n k : 2 <= n -> has_candidate n ->
  succeeds (decompose4 jacobi probPrime singlePrec (n * 4 ^ Z.of_nat k)).
Proof.
  intros Hn Hc. unfold decompose4.
  assert (Hpos : 0 < 4 ^ Z.of_nat k) by (apply Z.pow_pos_nonneg; lia).
  destruct (Z.ltb_spec (n * 4 ^ Z.of_nat k) 0); [nia|].
  destruct (Z.leb_spec (n * 4 ^ Z.of_nat k) 1); [nia|].
  assert (Hlog : Z.of_nat k <= Z.log2 (n * 4 ^ Z.of_nat k)).
  { apply Z.log2_le_pow2; [lia|].
    apply Z.le_trans with (4 ^ Z.of_nat k); [apply Z.pow_le_mono_l; lia|nia]. }
  assert (Hm : n mod 4 <> 0 /\ n mod 8 <> 7).
  { assert (E8 : n = 8 * (n / 8) + n mod 8) by (apply Z.div_mod; lia).
    assert (E4 : n = 4 * (n / 4) + n mod 4) by (apply Z.div_mod; lia).
    destruct Hc as [(H8 & _)|(H4 & _)]; lia. }
  destruct Hm as [Hm Hm7].
  rewrite remove4_pow; [|assumption|lia]. cbn [obind].
  assert (Hv : 0 < 1 * 2 ^ Z.of_nat k) by (rewrite Z.mul_1_l; apply Z.pow_pos_nonneg; lia).
  set (v := 1 * _) in *. clearbody v. clear Hlog.
  destruct (Z.sqrt_spec n ltac:(lia)) as [Hs1 Hs2]. pose proof (Z.sqrt_nonneg n) as Hs0.
  destruct (Z.eqb_spec (n - Z.sqrt n * Z.sqrt n) 0) as [E0|E0].
  { eexists. split; [reflexivity|]. intros E. injection E. lia. }
  assert (Hcont : succeeds (let '(delta, n', sq, p) := subtract_delta n (Z.sqrt n) (n - Z.sqrt n * Z.sqrt n) in
                  decompose3 jacobi probPrime singlePrec delta n' sq p v)).
  { unfold subtract_delta. apply Z.eqb_neq in Hm7. rewrite Hm7. apply decompose3_succeeds; try assumption; lia. }
  destruct (Z.eqb_spec (n mod 4) 1) as [H1|H1]; cbn [andb]; [|exact Hcont].
  destruct (probPrime n) eqn:Epp; [|exact Hcont].
  destruct (dpp_nonneg n Epp H1) as (s & r & -> & Hs & Hr). cbn [obind].
  destruct (Z.eqb_spec r 0) as [Er|Er]; cbn [negb]; [exact Hcont|].
  eexists. split; [reflexivity|]. apply sortScaled_not_failed; lia.
Qed.
End More.
