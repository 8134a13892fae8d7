(** C35, C36, C37, C68: sums of squares, foursquares.cpp.
    NTL::Jacobi, NTL::ProbPrime and ZZ::SinglePrecision are arbitrary functions
    subject to the hypotheses spelled out in FourSquaresSpec. *)
From Coq Require Import ZArith Znumtheory List Lia Bool.
From Verif Require Import NumTheory Outcome TwoSquares FourSquaresModel FourSquaresSpec
  FourSquaresProofs FourSquaresMore.
Import ListNotations.
Open Scope Z_scope.

(** ** Example oracles meeting the hypotheses *)
Definition jac_ex (a q : Z) : Z :=
  if powerMod a ((q - 1) / 2) q =? q - 1 then -1 else if a mod q =? 0 then 0 else 1.
Definition pp_ex (n : Z) : bool := (2 <=? n) && no_divisor_upto (Z.to_nat (Z.sqrt n + 2)) 2 n.
Definition sp_ex (n : Z) : bool := Z.abs n <? 2 ^ 50.

Example jac_ex_ok : jacobi_ok jac_ex.
Proof.
  intros a q Hq Hq2 Ha. unfold jac_ex. rewrite powerMod_spec by (apply Z.div_pos; lia).
  destruct (Z.eqb_spec (a ^ ((q - 1) / 2) mod q) (q - 1)) as [E|E].
  - split; auto.
  - destruct (a mod q =? 0); split; intros H; try discriminate; contradiction.
Qed.
Example pp_ex_ok : prime_test_exact pp_ex.
Proof.
  intros n. unfold pp_ex. split.
  - intros H. apply andb_prop in H. destruct H. now apply prime_by_trial.
  - intros H. pose proof (prime_ge_2 n H). apply andb_true_intro. split; [now apply Z.leb_le|].
    pose proof (Z.sqrt_nonneg n). apply no_divisor_complete; try assumption; lia.
Qed.
Example pp_ex_sound : prime_test_sound pp_ex.
Proof. intros n. apply pp_ex_ok. Qed.

(** ** C35 *)
Theorem C35_two_squares : forall jacobi singlePrec p,
  jacobi_ok jacobi -> prime p -> p mod 4 = 1 ->
  (exists x y, decomposeProbablePrime jacobi singlePrec p = Ret (x, y) /\
     0 < x /\ 0 < y /\ x * x + y * y = p) \/
  (decomposeProbablePrime jacobi singlePrec p = Ret (0, 0) /\ 281 <= p /\ p mod 8 = 1).
Proof.
  intros jacobi sp p Hj Hp H4.
  destruct (Z.eq_dec (fst (iunit jacobi sp p)) 0) as [E|E].
  - right. split; [now apply decomposeProbablePrime_none|].
    assert (H8 : p mod 8 = 1 \/ p mod 8 = 5).
    { pose proof (prime_ge_2 p Hp). pose proof (Z.div_mod p 8 ltac:(lia)). pose proof (Z.div_mod p 4 ltac:(lia)).
      pose proof (Z.mod_pos_bound p 8 ltac:(lia)). lia. }
    destruct H8 as [H8|H8].
    + split; [|assumption]. destruct (Z_lt_ge_dec p 281) as [Hlt|]; [|lia].
      exfalso. now apply (iunit_found_small jacobi sp p Hp H8 Hlt).
    + exfalso. now apply (iunit_found5 jacobi sp p Hp H8).
  - left. now apply decomposeProbablePrime_prime.
Qed.
Theorem C35_throws_iff : forall jacobi singlePrec p,
  jacobi_ok jacobi -> prime p ->
  (decomposeProbablePrime jacobi singlePrec p = Throw <-> p mod 4 <> 1).
Proof.
  intros jacobi sp p Hj Hp. split.
  - intros E H4. destruct (C35_two_squares jacobi sp p Hj Hp H4) as [(x & y & E' & _)|(E' & _)]; congruence.
  - intros H4. unfold decomposeProbablePrime. apply Z.eqb_neq in H4. now rewrite H4.
Qed.
(** Also for composite p, whenever the number b found satisfies b^2 = -1 mod p. *)
Theorem C35_any_root : forall jacobi singlePrec p b,
  jacobi_ok jacobi -> 1 < p -> p mod 4 = 1 ->
  iunit jacobi singlePrec p = (b, false) -> 0 < b < p -> (p | b * b + 1) ->
  exists x y, decomposeProbablePrime jacobi singlePrec p = Ret (x, y) /\
     0 < x /\ 0 < y /\ x * x + y * y = p.
Proof.
  intros jacobi sp p b Hj Hp H4 E Hb Hd. apply decomposeProbablePrime_root; rewrite ?E; cbn [fst snd]; auto.
Qed.
Print Assumptions C35_two_squares.
Print Assumptions C35_throws_iff.
Print Assumptions C35_any_root.
(** 1000037 = 5 mod 8 and 1009 = 1 mod 8 are primes. *)
Example C35_example :
  prime 1000037 /\ 1000037 mod 4 = 1 /\ decomposeProbablePrime jac_ex sp_ex 1000037 = Ret (991, 134) /\
  prime 1009 /\ 1009 mod 4 = 1 /\ decomposeProbablePrime jac_ex sp_ex 1009 = Ret (28, 15) /\
  prime 7 /\ decomposeProbablePrime jac_ex sp_ex 7 = Throw.
Proof.
  repeat match goal with |- _ /\ _ => split end;
    solve [apply prime_by_trial; vm_compute; reflexivity | vm_compute; reflexivity].
Qed.
Example C35_example_composite :
  iunit jac_ex sp_ex 65 = (8, false) /\ (65 | 8 * 8 + 1) /\ decomposeProbablePrime jac_ex sp_ex 65 = Ret (8, 1).
Proof. split; [vm_compute; reflexivity|]. split; [now exists 1|vm_compute; reflexivity]. Qed.

(** ** C36 *)
Theorem C36_correct : forall jacobi probPrime singlePrec n,
  jacobi_ok jacobi -> prime_test_sound probPrime -> 0 <= n ->
  exists l, decompose4 jacobi probPrime singlePrec n = Ret l /\ (l = [-1; -1; -1; -1] \/ four_squares_of n l).
Proof. intros. now apply decompose4_good. Qed.
Theorem C36_negative_throws : forall jacobi probPrime singlePrec n, n < 0 ->
  decompose4 jacobi probPrime singlePrec n = Throw.
Proof. intros jacobi pp sp n H. unfold decompose4. apply Z.ltb_lt in H. now rewrite H. Qed.
Print Assumptions C36_correct.
Print Assumptions C36_negative_throws.
Example C36_example :
  decompose4 jac_ex pp_ex sp_ex 1000000007 = Ret [27; 55; 213; 31622] /\
  decompose4 jac_ex pp_ex sp_ex (4 * 4 * 30031) = Ret [8; 28; 28; 692].
Proof. split; vm_compute; reflexivity. Qed.

(** ** C37: false.  71 * 4^k = (1 + 9 + 25 + 36) * 4^k is reported as not decomposable. *)
Theorem C37_refuted : forall jacobi probPrime singlePrec,
  prime_test_sound probPrime ->
  exists n l, 0 <= n /\ four_squares_of n l /\ decompose4 jacobi probPrime singlePrec n = Ret [-1; -1; -1; -1].
Proof.
  intros jacobi pp sp Hs. exists 71, [1; 3; 5; 6]. split; [lia|]. split.
  - split; [reflexivity|]. split; [repeat constructor; lia|reflexivity].
  - exact (decompose4_71 jacobi pp sp 0 Hs).
Qed.
Theorem C37_infinitely_many_failures : forall jacobi probPrime singlePrec k,
  prime_test_sound probPrime ->
  decompose4 jacobi probPrime singlePrec (71 * 4 ^ Z.of_nat k) = Ret [-1; -1; -1; -1].
Proof. intros. now apply decompose4_71. Qed.
(** What does hold: the search finds a decomposition whenever one of its
    candidates is a prime p = 5 mod 8 (or a prime p = 1 mod 8 below 281).
    Missing: n = 7 mod 8 (where it can fail, see above), and that such a
    candidate exists. *)
Theorem C37_success_partial : forall jacobi probPrime singlePrec n k,
  jacobi_ok jacobi -> prime_test_exact probPrime -> 2 <= n ->
  (n mod 8 = 3 /\ (exists x q, 0 <= x /\ Z.odd x = true /\ n = x * x + 2 * q /\
      prime q /\ (q mod 8 = 5 \/ (q mod 8 = 1 /\ q < 281)))) \/
  ((n mod 4 = 1 \/ n mod 4 = 2) /\ (exists x q, 0 <= x /\ Z.odd (n - x) = true /\ n = x * x + q /\
      prime q /\ (q mod 8 = 5 \/ (q mod 8 = 1 /\ q < 281)))) ->
  exists l, decompose4 jacobi probPrime singlePrec (n * 4 ^ Z.of_nat k) = Ret l /\
            four_squares_of (n * 4 ^ Z.of_nat k) l.
Proof.
  intros jacobi pp sp n k Hj Hp Hn Hc.
  destruct (decompose4_succeeds jacobi pp sp Hj Hp n k Hn) as (l & E & Hl).
  - destruct Hc as [(H & x & q & H1 & H2 & H3 & H4 & H5)|(H & x & q & H1 & H2 & H3 & H4 & H5)];
      [left|right]; (split; [assumption|]); exists x, q; unfold easy_prime; tauto.
  - exists l. split; [assumption|].
    assert (Hpos : 0 < 4 ^ Z.of_nat k) by (apply Z.pow_pos_nonneg; lia).
    destruct (decompose4_good jacobi pp sp Hj (fun m => proj1 (Hp m)) (n * 4 ^ Z.of_nat k) ltac:(nia)) as (l' & E' & Hl').
    rewrite E in E'. injection E' as <-. destruct Hl'; [contradiction|assumption].
Qed.
Print Assumptions C37_refuted.
Print Assumptions C37_infinitely_many_failures.
Print Assumptions C37_success_partial.
Example C37_example :
  1022 mod 4 = 2 /\ Z.odd (1022 - 5) = true /\ 1022 = 5 * 5 + 997 /\ prime 997 /\ 997 mod 8 = 5.
Proof.
  repeat match goal with |- _ /\ _ => split end;
    solve [apply prime_by_trial; vm_compute; reflexivity | vm_compute; reflexivity].
Qed.

(** ** C68 *)
Theorem C68_no_false_negatives : forall jacobi singlePrec x,
  jacobi_ok jacobi -> maybeSquare jacobi singlePrec (x * x) = true.
Proof. intros. now apply maybeSquare_square. Qed.
Print Assumptions C68_no_false_negatives.
Example C68_example :
  maybeSquare jac_ex sp_ex ((2 ^ 12 + 345) * (2 ^ 12 + 345)) = true /\
  maybeSquare jac_ex sp_ex (2 ^ 22 + 1) = false.
Proof. split; vm_compute; reflexivity. Qed.
