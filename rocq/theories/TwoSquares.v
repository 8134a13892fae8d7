(** Number theory behind decomposeProbablePrime: 2 is not a square modulo a
    prime p = 5 mod 8, and the Hermite-Serret-Cornacchia algorithm. *)
From Coq Require Import ZArith Znumtheory List Lia Bool Permutation.
From Verif Require Import NumTheory.
Import ListNotations.
Open Scope Z_scope.

(** *** 2^((p-1)/2) = -1 modulo a prime p = 5 mod 8 (Gauss) *)
(** product of f 1 .. f n *)
Fixpoint iprod (f : Z -> Z) (n : nat) : Z :=
  match n with O => 1 | S n' => iprod f n' * f (Z.of_nat n) end.
Lemma iprod_ext f g n : (forall i, 1 <= i <= Z.of_nat n -> f i = g i) -> iprod f n = iprod g n.
Proof.
  induction n as [|n IH]; intros H; cbn [iprod]; [reflexivity|].
  rewrite IH, H by (try (intros; apply H); lia). reflexivity.
Qed.
Lemma iprod_scale c n : iprod (fun i => c * i) n = c ^ Z.of_nat n * iprod (fun i => i) n.
Proof.
  induction n as [|n IH]; [reflexivity|]. cbn [iprod]. rewrite IH, Nat2Z.inj_succ, Z.pow_succ_r by lia. ring.
Qed.
(** n! splits into evens and odds: (2k)! = prod (2i) * prod (2i-1). *)
Lemma iprod_even_odd k :
  iprod (fun i => i) (2 * k) = iprod (fun i => 2 * i) k * iprod (fun i => 2 * i - 1) k.
Proof.
  induction k as [|k IH]; [reflexivity|].
  replace (2 * S k)%nat with (S (S (2 * k))) by lia. cbn [iprod]. rewrite IH.
  replace (Z.of_nat (S (S (2 * k)))) with (2 * Z.of_nat (S k)) by lia.
  replace (Z.of_nat (S (2 * k))) with (2 * Z.of_nat (S k) - 1) by lia. ring.
Qed.
Lemma iprod_split f a b : iprod f (a + b) = iprod f a * iprod (fun i => f (Z.of_nat a + i)) b.
Proof.
  induction b as [|b IH]; [rewrite Nat.add_0_r; cbn; ring|].
  rewrite Nat.add_succ_r. cbn [iprod]. rewrite IH.
  replace (Z.of_nat (S (a + b))) with (Z.of_nat a + Z.of_nat (S b)) by lia. ring.
Qed.
Lemma iprod_rev f n : iprod f n = iprod (fun i => f (Z.of_nat n + 1 - i)) n.
Proof.
  induction n as [|n IH]; [reflexivity|].
  transitivity (iprod (fun i => f (Z.of_nat (S n) + 1 - i)) (1 + n)); [|reflexivity].
  rewrite (iprod_split (fun i => f (Z.of_nat (S n) + 1 - i)) 1 n). cbn [iprod]. rewrite IH, Z.mul_1_l.
  replace (Z.of_nat (S n) + 1 - Z.of_nat 1) with (Z.of_nat (S n)) by lia.
  rewrite Z.mul_comm. f_equal. apply iprod_ext. intros i Hi. f_equal. lia.
Qed.
Lemma iprod_mod f g n p : (forall i, 1 <= i <= Z.of_nat n -> f i mod p = g i mod p) ->
  iprod f n mod p = iprod g n mod p.
Proof.
  induction n as [|n IH]; intros H; [reflexivity|]. cbn [iprod].
  rewrite Zmult_mod, IH, H, <- Zmult_mod by (try (intros; apply H); lia). reflexivity.
Qed.
Lemma iprod_fact_rel_prime p n : prime p -> Z.of_nat n < p -> rel_prime (iprod (fun i => i) n) p.
Proof.
  intros Hp. induction n as [|n IH]; intros Hn; cbn [iprod].
  - apply rel_prime_1.
  - apply rel_prime_sym, rel_prime_mult; apply rel_prime_sym; [apply IH; lia|].
    apply rel_prime_le_prime; [assumption|lia].
Qed.

Lemma two_nonresidue p : prime p -> p mod 8 = 5 -> 2 ^ ((p - 1) / 2) mod p = p - 1.
Proof.
  intros Hp H8. pose proof (prime_ge_2 p Hp) as Hp2.
  set (k := Z.to_nat ((p - 1) / 4)).
  assert (Hk : p = 4 * Z.of_nat k + 1).
  { unfold k. rewrite Z2Nat.id by (apply Z.div_pos; lia).
    assert (p = 8 * (p / 8) + 5) by (rewrite <- H8; apply Z.div_mod; lia).
    replace (p - 1) with ((2 * (p / 8) + 1) * 4) by lia. rewrite Z.div_mul by lia. lia. }
  assert (Hodd : Z.odd (Z.of_nat k) = true).
  { assert (E : p = 8 * (p / 8) + 5) by (rewrite <- H8; apply Z.div_mod; lia).
    assert (E2 : Z.of_nat k = 2 * (p / 8) + 1) by lia. rewrite E2.
    now rewrite Z.odd_add_mul_2 || (rewrite Z.add_comm, Z.odd_add_mul_2; reflexivity). }
  assert (Hm : (p - 1) / 2 = 2 * Z.of_nat k).
  { replace (p - 1) with (2 * Z.of_nat k * 2) by lia. apply Z.div_mul. lia. }
  rewrite Hm.
  set (fact := iprod (fun i => i) (2 * k)).
  (* 2^(2k) * (2k)! = prod of 2i, i <= 2k *)
  assert (E1 : 2 ^ (2 * Z.of_nat k) * fact = iprod (fun i => 2 * i) (2 * k)).
  { unfold fact. rewrite iprod_scale. do 2 f_equal. lia. }
  assert (E2 : iprod (fun i => 2 * i) (2 * k) mod p = (- fact) mod p).
  { replace (2 * k)%nat with (k + k)%nat at 1 by lia. rewrite iprod_split.
    rewrite (iprod_rev (fun i => 2 * (Z.of_nat k + i))).
    rewrite Zmult_mod.
    rewrite (iprod_mod (fun i => 2 * (Z.of_nat k + (Z.of_nat k + 1 - i))) (fun i => (-1) * (2 * i - 1)) k p).
    2:{ intros i Hi. replace (2 * (Z.of_nat k + (Z.of_nat k + 1 - i))) with (-1 * (2 * i - 1) + 1 * p) by lia.
        apply Z_mod_plus_full. }
    rewrite <- Zmult_mod. f_equal. unfold fact. rewrite iprod_even_odd.
    assert (G : forall n, iprod (fun i => -1 * (2 * i - 1)) n = (-1) ^ Z.of_nat n * iprod (fun i => 2 * i - 1) n).
    { clear. induction n as [|n IH]; [reflexivity|]. cbn [iprod]. rewrite IH, Nat2Z.inj_succ, Z.pow_succ_r by lia. ring. }
    rewrite G.
    assert (Hm1 : (-1) ^ Z.of_nat k = -1).
    { apply Z.odd_spec in Hodd. destruct Hodd as [j Hj]. rewrite Hj.
      rewrite Z.pow_add_r, Z.pow_mul_r by lia. change ((-1) ^ 2) with 1. rewrite Z.pow_1_l by lia. reflexivity. }
    rewrite Hm1. ring. }
  assert (Hrel : rel_prime fact p) by (apply iprod_fact_rel_prime; [assumption|lia]).
  (* p | 2^(2k) + 1 *)
  assert (Hdiv : (p | 2 ^ (2 * Z.of_nat k) + 1)).
  { apply Gauss with (b := fact).
    - apply Z.mod_divide; [lia|].
      replace (fact * (2 ^ (2 * Z.of_nat k) + 1)) with (2 ^ (2 * Z.of_nat k) * fact - - fact) by ring.
      rewrite E1, Zminus_mod, E2, Z.sub_diag. apply Z.mod_0_l. lia.
    - now apply rel_prime_sym. }
  destruct Hdiv as [c Hc].
  replace (2 ^ (2 * Z.of_nat k)) with (p - 1 + (c - 1) * p) by lia.
  rewrite Z_mod_plus_full. apply Z.mod_small. lia.
Qed.

(** *** The Euclidean loop *)
(** Invariant for the state (a,b), with auxiliary s,t. *)
Record cinv (p a b s t : Z) : Prop := {
  ci_b : 0 < b; ci_ba : b < a; ci_s : 0 < s; ci_t : 0 <= t;
  ci_p : a * s + b * t = p;
  ci_bs : (p | b * b + s * s);
  ci_at : (p | a * a + t * t);
  ci_ab : (p | a * b - t * s);
  ci_a2 : p < a * a }.

Lemma cinv_init p b : 1 < p -> 0 < b < p -> (p | b * b + 1) -> cinv p p b 1 0.
Proof.
  intros Hp Hb Hd. constructor; try lia.
  - exact Hd.
  - exists p. ring.
  - exists b. ring.
  - nia.
Qed.
Lemma cinv_step p a b s t : 1 < p -> cinv p a b s t -> p < b * b ->
  cinv p b (a mod b) (t + a / b * s) s.
Proof.
  intros Hp [Hb Hba Hs Ht Hpp Hbs Hat Hab Ha2] Hb2.
  pose proof (Z.div_mod a b ltac:(lia)) as E. pose proof (Z.mod_pos_bound a b Hb) as Hr.
  set (q := a / b) in *. set (r := a mod b) in *.
  assert (Hq : 0 < q) by nia.
  assert (Hab' : (p | b * r - s * (t + q * s))).
  { replace (b * r - s * (t + q * s)) with ((a * b - t * s) - q * (b * b + s * s)) by (rewrite E; ring).
    apply Z.divide_sub_r; [assumption|]. now apply Z.divide_mul_r. }
  assert (Hrr : (p | r * r + (t + q * s) * (t + q * s))).
  { replace (r * r + (t + q * s) * (t + q * s))
      with ((a * a + t * t) + q * q * (b * b + s * s) - 2 * q * (a * b - t * s)) by (rewrite E; ring).
    apply Z.divide_sub_r; [apply Z.divide_add_r; [assumption|]|]; now apply Z.divide_mul_r. }
  assert (Hr0 : r <> 0).
  { intros Er. set (s' := t + q * s) in *.
    assert (Ep : b * s' = p) by (unfold s'; rewrite <- Hpp, E, Er; ring).
    assert (Hs' : 0 < s') by nia.
    assert (Hd : (p | s' * s')).
    { rewrite Er in Hrr. now replace (s' * s') with (0 * 0 + s' * s') by ring. }
    destruct Hd as [c Hc]. rewrite <- Ep in Hc.
    assert (s' = c * b) by nia. assert (0 < c) by nia. nia. }
  constructor; try nia.
  - exact Hrr.
  - exact Hbs.
  - exact Hab'.
Qed.

Lemma square_divide g c : 0 < g -> (g * g | c * c) -> (g | c).
Proof.
  intros Hg [k Hk]. destruct (Zgcd_is_gcd c g) as [[c1 H1] [g1 H2] _].
  set (d := Z.gcd c g) in *.
  assert (Hd : 0 < d).
  { pose proof (Z.gcd_nonneg c g). destruct (Z.eq_dec d 0) as [E0|]; [|unfold d in *; lia].
    rewrite E0 in H2. lia. }
  assert (Hg1 : 0 < g1) by nia.
  assert (Hcop : rel_prime g1 c1).
  { apply Zgcd_1_rel_prime. assert (E : d * Z.gcd c1 g1 = d).
    { transitivity (Z.gcd (d * c1) (d * g1)).
      - symmetry. rewrite Z.gcd_mul_mono_l. rewrite Z.abs_eq by lia. reflexivity.
      - unfold d at 3. f_equal; lia. }
    rewrite Z.gcd_comm. nia. }
  assert (Hdiv : c1 * c1 = k * (g1 * g1)).
  { assert (E : (d * d) * (c1 * c1) = (d * d) * (k * (g1 * g1))).
    { replace ((d * d) * (c1 * c1)) with ((c1 * d) * (c1 * d)) by ring. rewrite <- H1, Hk.
      rewrite H2. ring. }
    apply Z.mul_cancel_l in E; [assumption|nia]. }
  assert (Hg1c : (g1 | c1)).
  { apply Gauss with (b := c1); [|assumption]. exists (k * g1). rewrite Hdiv. ring. }
  destruct Hg1c as [m Hm]. rewrite H1, H2, Hm. exists m. ring.
Qed.

(** At the end. *)
Lemma cinv_end p a b s t : 1 < p -> Z.odd p = true -> (forall x, x * x <> p) -> cinv p a b s t -> b * b <= p ->
  0 < s /\ s = a mod b /\ b * b + s * s = p.
Proof.
  intros Hp Hodd Hns [Hb Hba Hs Ht Hpp Hbs Hat Hab Ha2] Hb2.
  assert (Hne : b * b <> p) by apply Hns.
  assert (Hs2 : s * s < p).
  { assert (Has : a * s <= p) by nia. nia. }
  assert (Hsum : b * b + s * s = p).
  { destruct Hbs as [c Hc]. assert (0 < c < 2) by nia. replace c with 1 in Hc by lia. lia. }
  split; [assumption|]. split; [|assumption].
  assert (E : s * (a - s) = b * (b - t)) by nia.
  (* b = beta g, s = sigma g *)
  destruct (Zgcd_is_gcd b s) as [[be Hbe] [si Hsi] _]. set (g := Z.gcd b s) in *.
  assert (Hg : 0 < g).
  { pose proof (Z.gcd_nonneg b s). destruct (Z.eq_dec g 0) as [E0|]; [|unfold g in *; lia].
    rewrite E0 in Hbe. lia. }
  assert (Hcop : rel_prime be si).
  { apply Zgcd_1_rel_prime. assert (E1 : g * Z.gcd be si = g).
    { transitivity (Z.gcd (g * be) (g * si)).
      - symmetry. rewrite Z.gcd_mul_mono_l. rewrite Z.abs_eq by lia. reflexivity.
      - unfold g at 3. f_equal; lia. }
    nia. }
  assert (Hbe0 : 0 < be) by nia. assert (Hsi0 : 0 < si) by nia.
  assert (E2 : si * (a - s) = be * (b - t)).
  { apply Z.mul_cancel_l with (p := g); [lia|].
    replace (g * (si * (a - s))) with (s * (a - s)) by (rewrite Hsi at 1; ring).
    rewrite E. rewrite Hbe at 1. ring. }
  assert (Hd : (be | a - s)).
  { apply Gauss with (b := si); [|assumption]. exists (b - t). lia. }
  destruct Hd as [c Hc].
  assert (Hbt : b - t = si * c).
  { assert (E3 : be * (b - t) = be * (si * c)) by (rewrite <- E2, Hc; ring).
    apply Z.mul_cancel_l in E3; lia. }
  assert (Hgc : (g | c)).
  { apply square_divide; [assumption|].
    destruct Hat as [k Hk].
    (* a^2 + t^2 = p + c^2 (be^2 + si^2), p = g^2 (be^2+si^2) *)
    assert (E4 : a * a + t * t = p + c * c * (be * be + si * si)).
    { assert (Ea : a = s + c * be) by lia. assert (Et : t = b - si * c) by lia.
      rewrite Ea, Et, <- Hsum. clearbody g. clear -Hbe Hsi. subst b s. ring. }
    assert (E5 : p = g * g * (be * be + si * si)).
    { rewrite <- Hsum. clearbody g. clear -Hbe Hsi. subst b s. ring. }
    assert (HQ : 0 < be * be + si * si) by (clear -Hbe0 Hsi0; nia).
    exists (k - 1). apply Z.mul_cancel_l with (p := be * be + si * si); [lia|].
    transitivity ((k - 1) * p); [|rewrite E5; ring].
    transitivity (a * a + t * t - p); [rewrite E4; ring|rewrite Hk; ring]. }
  destruct Hgc as [c' Hc'].
  assert (Ea : a = s + c' * b) by (rewrite Hbe; rewrite Hc' in Hc; lia).
  assert (Et : t = b - s * c') by (rewrite Hsi; rewrite Hc' in Hbt; lia).
  assert (Hsb : s < b).
  { assert (Has : s < a) by (clear -Hs2 Ha2 Hs Hb Hba; nia).
    assert (Hc0 : 0 < c') by (clear -Has Ea Hb; nia).
    assert (s <= b) by (clear -Et Ht Hc0 Hs; nia).
    destruct (Z.eq_dec s b) as [Esb|]; [|lia].
    exfalso. rewrite <- Hsum, Esb in Hodd. rewrite Z.odd_add in Hodd. destruct (Z.odd (b * b)); discriminate. }
  rewrite Ea. rewrite Z_mod_plus_full. symmetry. apply Z.mod_small. lia.
Qed.
