(** keccakf of merlin.c is Keccak-f[1600]. *)
From Coq Require Import ZArith List Bool Lia.
From Verif Require Import Bytes KeccakModel KeccakSpec.
Import ListNotations.
Open Scope Z_scope.

Definition word (x : Z) : Prop := 0 <= x < 2 ^ 64.
Definition lb (a : list Z) : barray := fun x y z => Z.testbit (nth (5 * y + x) a 0) (Z.of_nat z).
Definition lanes_ok (a : list Z) : Prop := length a = 25%nat /\ Forall word a.
Definition beq (A B : barray) : Prop := forall x y z, (x < 5)%nat -> (y < 5)%nat -> (z < 64)%nat -> A x y z = B x y z.

Lemma word_bits x : 0 <= x -> (forall i, 64 <= i -> Z.testbit x i = false) -> word x.
Proof.
  intros H0 H. split; [exact H0|]. destruct (Z.eq_dec x 0) as [->|Hn]; [lia|].
  apply Z.log2_lt_pow2; [lia|]. destruct (Z.lt_ge_cases (Z.log2 x) 64) as [|Hl]; [assumption|].
  exfalso. pose proof (H _ Hl) as K. rewrite Z.bit_log2 in K by lia. discriminate.
Qed.
Lemma word_high x i : word x -> 64 <= i -> Z.testbit x i = false.
Proof.
  intros [H0 H1] Hi. destruct (Z.eq_dec x 0) as [->|Hn]; [apply Z.bits_0|].
  apply Z.bits_above_log2; [lia|]. apply Z.lt_le_trans with 64; [|assumption]. apply Z.log2_lt_pow2; lia.
Qed.
Lemma word_0 : word 0. Proof. unfold word. lia. Qed.
Lemma word_lxor x y : word x -> word y -> word (Z.lxor x y).
Proof.
  intros Hx Hy. apply word_bits; [apply Z.lxor_nonneg; destruct Hx, Hy; lia|].
  intros i Hi. rewrite Z.lxor_spec, (word_high x), (word_high y) by assumption. reflexivity.
Qed.
Lemma word_land x y : word y -> 0 <= x -> word (Z.land x y).
Proof.
  intros Hy Hx. apply word_bits; [apply Z.land_nonneg; auto|].
  intros i Hi. rewrite Z.land_spec, (word_high y) by assumption. apply andb_false_r.
Qed.
Lemma word_rol x s : word x -> 0 < s < 64 -> word (rol x s).
Proof.
  intros Hx Hs. unfold rol. apply word_bits.
  - apply Z.lor_nonneg. split; [apply Z.mod_pos_bound; lia|apply Z.shiftr_nonneg; destruct Hx; lia].
  - intros i Hi. rewrite Z.lor_spec, Z.mod_pow2_bits_high by lia.
    rewrite Z.shiftr_spec by lia. rewrite (word_high x) by (try assumption; lia). reflexivity.
Qed.
Lemma rol_bit x s z : word x -> (0 < s < 64)%nat -> (z < 64)%nat ->
  Z.testbit (rol x (Z.of_nat s)) (Z.of_nat z) = Z.testbit x (Z.of_nat ((z + 6 * 64 - s) mod 64)).
Proof.
  intros Hx Hs Hz. unfold rol. rewrite Z.lor_spec, Z.mod_pow2_bits_low by lia.
  rewrite Z.shiftl_spec, Z.shiftr_spec by lia.
  destruct (Nat.ltb_spec z s).
  - rewrite (Z.testbit_neg_r x) by lia. cbn [orb]. f_equal.
    replace (z + 6 * 64 - s)%nat with ((z + 64 - s) + 5 * 64)%nat by lia. rewrite Nat.mod_add by lia.
    rewrite Nat.mod_small by lia. lia.
  - replace (Z.of_nat z + (64 - Z.of_nat s)) with (64 + (Z.of_nat z - Z.of_nat s)) by lia.
    rewrite (word_high x (64 + _)) by (try assumption; lia). rewrite orb_false_r. f_equal.
    replace (z + 6 * 64 - s)%nat with ((z - s) + 6 * 64)%nat by lia. rewrite Nat.mod_add by lia.
    rewrite Nat.mod_small by lia. lia.
Qed.
Lemma compl_bit x z : word x -> (z < 64)%nat -> Z.testbit (2 ^ 64 - 1 - x) (Z.of_nat z) = negb (Z.testbit x (Z.of_nat z)).
Proof.
  intros Hx Hz. replace (2 ^ 64 - 1 - x) with (Z.lnot x + 1 * 2 ^ 64) by (unfold Z.lnot; lia).
  rewrite <- (Z.mod_pow2_bits_low _ 64) by lia. rewrite Z_mod_plus_full. rewrite Z.mod_pow2_bits_low by lia.
  apply Z.lnot_spec. lia.
Qed.

Ltac lanes a := 
  destruct a as [|a0 a]; [discriminate|]; destruct a as [|a1 a]; [discriminate|]; destruct a as [|a2 a]; [discriminate|];
  destruct a as [|a3 a]; [discriminate|]; destruct a as [|a4 a]; [discriminate|]; destruct a as [|a5 a]; [discriminate|];
  destruct a as [|a6 a]; [discriminate|]; destruct a as [|a7 a]; [discriminate|]; destruct a as [|a8 a]; [discriminate|];
  destruct a as [|a9 a]; [discriminate|]; destruct a as [|a10 a]; [discriminate|]; destruct a as [|a11 a]; [discriminate|];
  destruct a as [|a12 a]; [discriminate|]; destruct a as [|a13 a]; [discriminate|]; destruct a as [|a14 a]; [discriminate|];
  destruct a as [|a15 a]; [discriminate|]; destruct a as [|a16 a]; [discriminate|]; destruct a as [|a17 a]; [discriminate|];
  destruct a as [|a18 a]; [discriminate|]; destruct a as [|a19 a]; [discriminate|]; destruct a as [|a20 a]; [discriminate|];
  destruct a as [|a21 a]; [discriminate|]; destruct a as [|a22 a]; [discriminate|]; destruct a as [|a23 a]; [discriminate|];
  destruct a as [|a24 a]; [discriminate|]; destruct a as [|a25 a]; [|discriminate].
Ltac foralls := repeat match goal with H : Forall _ (_ :: _) |- _ => apply Forall_cons_iff in H; destruct H end.
Ltac words := repeat first [assumption | apply word_lxor | apply word_0 | apply word_rol; [|lia] ].

Lemma theta_words a : lanes_ok a -> lanes_ok (theta a).
Proof.
  intros [Hl Hw]. lanes a. foralls.
  unfold theta, theta_b, five1, five5. cbv -[Z.lxor rol word lanes_ok].
  split; [reflexivity|]. repeat (constructor; [words|]). constructor.
Qed.
Lemma theta_ok a : lanes_ok a -> beq (lb (theta a)) (theta_s (lb a)).
Proof.
  intros [Hl Hw] x y z Hx Hy Hz. lanes a. foralls.
  assert (Hrol : forall u, word u -> Z.testbit (rol u 1) (Z.of_nat z) = Z.testbit u (Z.of_nat ((z + 64 - 1) mod 64))).
  { intros u Hu. change 1 with (Z.of_nat 1). rewrite rol_bit by (try assumption; lia). f_equal. f_equal.
    replace (z + 6 * 64 - 1)%nat with ((z + 64 - 1) + 5 * 64)%nat by lia. apply Nat.mod_add. lia. }
  unfold theta_s, colpar, lb, w. set (z' := ((z + 64 - 1) mod 64)%nat) in *. clearbody z'.
  unfold theta, theta_b, five1, five5.
  destruct x as [|[|[|[|[|x]]]]]; [| | | | |lia];
  (destruct y as [|[|[|[|[|y]]]]]; [| | | | |lia]);
  cbv -[Z.lxor rol Z.testbit xorb Z.of_nat]; rewrite !Z.lxor_spec, Hrol by words; rewrite !Z.lxor_spec, !Z.bits_0, !xorb_false_l;
  rewrite !xorb_assoc; reflexivity.
Qed.
Lemma rho_pi_words a : lanes_ok a -> lanes_ok (rho_pi a).
Proof.
  intros [Hl Hw]. lanes a. foralls. unfold rho_pi. cbv -[rol word lanes_ok].
  split; [reflexivity|]. repeat (constructor; [words|]). constructor.
Qed.
Lemma rho_pi_ok a : lanes_ok a -> beq (lb (rho_pi a)) (pi_s (rho_s (lb a))).
Proof.
  intros [Hl Hw] x y z Hx Hy Hz. lanes a. foralls.
  unfold pi_s, rho_s, lb, w, rho_pi.
  assert (Hz0 : ((z + 6 * 64 - 0) mod 64)%nat = z).
  { replace (z + 6 * 64 - 0)%nat with (z + 6 * 64)%nat by lia. rewrite Nat.mod_add by lia. now apply Nat.mod_small. }
  assert (Hrol : forall u s, word u -> (0 < s < 64)%nat ->
     Z.testbit u (Z.of_nat ((z + 6 * 64 - s) mod 64)) = Z.testbit (rol u (Z.of_nat s)) (Z.of_nat z)).
  { intros u s Hu Hs. symmetry. now apply rol_bit. }
  assert (Hbig : forall s, ((z + 6 * 64 - s) mod 64 = (z + 6 * 64 - (s mod 64)) mod 64)%nat \/ (6 * 64 < s)%nat).
  { intros s. destruct (Nat.ltb_spec (6 * 64) s); [now right|left].
    pose proof (Nat.div_mod s 64 ltac:(lia)). assert (s / 64 <= 6)%nat by (apply Nat.div_le_upper_bound; lia).
    replace (z + 6 * 64 - s mod 64)%nat with (z + 6 * 64 - s + (s / 64) * 64)%nat by lia. now rewrite Nat.mod_add by lia. }
  destruct x as [|[|[|[|[|x]]]]]; [| | | | |lia];
  (destruct y as [|[|[|[|[|y]]]]]; [| | | | |lia]);
  match goal with |- _ = Z.testbit _ (Z.of_nat ((_ - offset ?u ?v) mod 64)) =>
    let o := eval vm_compute in (offset u v) in change (offset u v) with o;
    let r := eval vm_compute in (o mod 64)%nat in
    replace ((z + 6 * 64 - o) mod 64)%nat with ((z + 6 * 64 - r) mod 64)%nat
      by (symmetry; destruct (Hbig o) as [E|E]; [exact E|lia]) end;
  first [rewrite Hz0 | rewrite Hrol by (try lia; cbn; assumption)]; cbv -[rol Z.testbit Z.of_nat]; reflexivity.
Qed.
Lemma word_chi x y z : word x -> word y -> word z -> word (Z.lxor x (Z.land (not64 y) z)).
Proof. intros Hx [Hy1 Hy2] Hz. apply word_lxor; [assumption|]. apply word_land; [assumption|unfold not64; lia]. Qed.
Lemma chi_words a : lanes_ok a -> lanes_ok (chi a).
Proof.
  intros [Hl Hw]. lanes a. foralls. unfold chi, five1, five5. cbv -[Z.lxor Z.land not64 word lanes_ok].
  split; [reflexivity|]. repeat (constructor; [apply word_chi; assumption|]). constructor.
Qed.
Lemma chi_ok a : lanes_ok a -> beq (lb (chi a)) (chi_s (lb a)).
Proof.
  intros [Hl Hw] x y z Hx Hy Hz. lanes a. foralls.
  unfold chi_s, lb, chi, five1, five5.
  assert (HC : forall u v t, word v -> Z.testbit (Z.lxor u (Z.land (not64 v) t)) (Z.of_nat z) =
     xorb (Z.testbit u (Z.of_nat z)) (negb (Z.testbit v (Z.of_nat z)) && Z.testbit t (Z.of_nat z))).
  { intros u v t Hv. rewrite Z.lxor_spec, Z.land_spec. unfold not64. now rewrite compl_bit by assumption. }
  destruct x as [|[|[|[|[|x]]]]]; [| | | | |lia];
  (destruct y as [|[|[|[|[|y]]]]]; [| | | | |lia]);
  cbv -[Z.lxor Z.land not64 Z.testbit xorb negb andb Z.of_nat]; rewrite HC by assumption; reflexivity.
Qed.

Lemma RC_words i : word RC_tab.[i].
Proof.
  destruct (Nat.ltb_spec i 24) as [Hi|Hi].
  - assert (H : Forall word RC_tab) by (repeat constructor; cbv; congruence).
    rewrite Forall_forall in H. apply H. apply nth_In. exact Hi.
  - rewrite nth_overflow by exact Hi. exact word_0.
Qed.
Lemma RC_ok i z : (i < 24)%nat -> (z < 64)%nat -> Z.testbit RC_tab.[i] (Z.of_nat z) = RC_s i z.
Proof.
  intros Hi Hz.
  assert (H : forallb (fun i => forallb (fun z => Bool.eqb (Z.testbit RC_tab.[i] (Z.of_nat z)) (RC_s i z)) (seq 0 64)) (seq 0 24) = true)
    by (vm_compute; reflexivity).
  rewrite forallb_forall in H. specialize (H i ltac:(apply in_seq; lia)).
  rewrite forallb_forall in H. specialize (H z ltac:(apply in_seq; lia)). now apply eqb_prop.
Qed.
Lemma iota_words i a : lanes_ok a -> lanes_ok (iota i a).
Proof.
  intros [Hl Hw]. unfold iota. destruct a as [|a0 a]; [discriminate|]. cbn [aset nth]. split; [exact Hl|].
  apply Forall_cons_iff in Hw. destruct Hw as [H0 Hw]. constructor; [|exact Hw]. apply word_lxor; [assumption|apply RC_words].
Qed.
Lemma iota_ok i a : (i < 24)%nat -> lanes_ok a -> beq (lb (iota i a)) (iota_s i (lb a)).
Proof.
  intros Hi [Hl Hw] x y z Hx Hy Hz. unfold iota, iota_s, lb. destruct a as [|a0 a]; [discriminate|]. cbn [aset].
  destruct (Nat.eqb_spec x 0) as [->|Hx0]; cbn [andb]; [destruct (Nat.eqb_spec y 0) as [->|Hy0]|].
  - cbn [Nat.mul Nat.add nth]. rewrite Z.lxor_spec, RC_ok by assumption. reflexivity.
  - destruct (5 * y + 0)%nat eqn:E; [lia|]. reflexivity.
  - destruct (5 * y + x)%nat eqn:E; [lia|]. reflexivity.
Qed.

(** The specified steps only read bits in range. *)
Lemma mod5 x : (x mod 5 < 5)%nat. Proof. apply Nat.mod_upper_bound. lia. Qed.
Lemma mod64 x : (x mod 64 < 64)%nat. Proof. apply Nat.mod_upper_bound. lia. Qed.
Lemma theta_s_ext A B : beq A B -> beq (theta_s A) (theta_s B).
Proof. intros H x y z Hx Hy Hz. unfold theta_s, colpar, w. rewrite !H by (try apply mod5; try apply mod64; lia). reflexivity. Qed.
Lemma rho_s_ext A B : beq A B -> beq (rho_s A) (rho_s B).
Proof. intros H x y z Hx Hy Hz. unfold rho_s, w. apply H; try assumption. apply mod64. Qed.
Lemma pi_s_ext A B : beq A B -> beq (pi_s A) (pi_s B).
Proof. intros H x y z Hx Hy Hz. unfold pi_s. apply H; try assumption. apply mod5. Qed.
Lemma chi_s_ext A B : beq A B -> beq (chi_s A) (chi_s B).
Proof. intros H x y z Hx Hy Hz. unfold chi_s. rewrite !H by (try apply mod5; lia). reflexivity. Qed.
Lemma iota_s_ext i A B : beq A B -> beq (iota_s i A) (iota_s i B).
Proof. intros H x y z Hx Hy Hz. unfold iota_s. destruct (_ && _)%bool; now rewrite H by assumption. Qed.
Lemma beq_trans A B C : beq A B -> beq B C -> beq A C.
Proof. intros H1 H2 x y z Hx Hy Hz. now rewrite H1, H2 by assumption. Qed.
Lemma beq_sym A B : beq A B -> beq B A.
Proof. intros H1 x y z Hx Hy Hz. now rewrite H1 by assumption. Qed.

Lemma round_words a i : lanes_ok a -> lanes_ok (round a i).
Proof. intros H. now apply iota_words, chi_words, rho_pi_words, theta_words. Qed.
Lemma round_ok a i A : (i < 24)%nat -> lanes_ok a -> beq (lb a) A -> beq (lb (round a i)) (Rnd A i).
Proof.
  intros Hi H HA. unfold round, Rnd.
  eapply beq_trans; [apply iota_ok; [assumption|now apply chi_words, rho_pi_words, theta_words]|]. apply iota_s_ext.
  eapply beq_trans; [apply chi_ok; now apply rho_pi_words, theta_words|]. apply chi_s_ext.
  eapply beq_trans; [apply rho_pi_ok; now apply theta_words|]. apply pi_s_ext, rho_s_ext.
  eapply beq_trans; [now apply theta_ok|]. now apply theta_s_ext.
Qed.
Lemma fold_rel {S T I} (R : S -> T -> Prop) (f : S -> I -> S) (g : T -> I -> T) (Q : I -> Prop) :
  (forall s t i, Q i -> R s t -> R (f s i) (g t i)) ->
  forall l s t, Forall Q l -> R s t -> R (fold_left f l s) (fold_left g l t).
Proof.
  intros H. induction l as [|i l IH]; intros s t Hl Hr; [exact Hr|].
  apply Forall_cons_iff in Hl. destruct Hl as [Hi Hl]. apply IH; [exact Hl|]. now apply H.
Qed.
Definition simul (a : list Z) (A : barray) : Prop := lanes_ok a /\ beq (lb a) A.
Lemma keccak_lanes_ok a A : simul a A -> simul (keccak_lanes a) (keccak_f1600 A).
Proof.
  refine (fold_rel simul round Rnd (fun i => (i < 24)%nat) _ (seq 0 24) a A _).
  - intros s t i Hi [H1 H2]. split; [now apply round_words|now apply round_ok].
  - apply Forall_forall. intros i Hi. apply in_seq in Hi. lia.
Qed.

(** Bytes and lanes. *)
Lemma lanes_of_length n : forall b, length (lanes_of n b) = n.
Proof. induction n as [|n IH]; intros b; cbn [lanes_of length]; [reflexivity|now rewrite IH]. Qed.
Lemma bytes_ok_firstn n b : bytes_ok b -> bytes_ok (firstn n b).
Proof. intros H. unfold bytes_ok in *. rewrite Forall_forall in *. intros x Hx. apply H. rewrite <- (firstn_skipn n). apply in_or_app. now left. Qed.
Lemma bytes_ok_skipn n b : bytes_ok b -> bytes_ok (skipn n b).
Proof. intros H. unfold bytes_ok in *. rewrite Forall_forall in *. intros x Hx. apply H. rewrite <- (firstn_skipn n). apply in_or_app. now right. Qed.
Lemma lanes_of_words n : forall b, bytes_ok b -> Forall word (lanes_of n b).
Proof.
  induction n as [|n IH]; intros b H; cbn [lanes_of]; constructor; [|apply IH; now apply bytes_ok_skipn].
  pose proof (le_val_range (firstn 8 b) (bytes_ok_firstn 8 b H)) as R. pose proof (firstn_le_length 8 b).
  unfold word. split; [lia|]. eapply Z.lt_le_trans; [apply R|]. change (2 ^ 64) with (256 ^ 8). apply Z.pow_le_mono_r; lia.
Qed.
Lemma lanes_of_nth n : forall b i, (i < n)%nat -> nth i (lanes_of n b) 0 = le_val (firstn 8 (skipn (8 * i) b)).
Proof.
  induction n as [|n IH]; intros b i Hi; [lia|]. cbn [lanes_of]. destruct i as [|i]; [reflexivity|].
  cbn [nth]. rewrite IH by lia. f_equal. f_equal. 
  replace (8 * S i)%nat with (8 + 8 * i)%nat by lia. symmetry. clear. revert b. generalize (8 * i)%nat as m. generalize 8%nat as k.
  induction k as [|k IHk]; intros m b; [reflexivity|]. destruct b as [|x b]; [now rewrite !skipn_nil|]. cbn [Nat.add skipn]. apply IHk.
Qed.
Lemma le_val_bit l : forall z, bytes_ok l -> (z < 8 * length l)%nat ->
  Z.testbit (le_val l) (Z.of_nat z) = Z.testbit (nth (z / 8) l 0) (Z.of_nat (z mod 8)).
Proof.
  induction l as [|b l IH]; intros z Hb Hz; [cbn in Hz; lia|]. cbn [length] in Hz.
  apply Forall_cons_iff in Hb. destruct Hb as [H0 Hb]. unfold is_byte in H0. cbn [le_val].
  replace (b + 256 * le_val l) with (b + le_val l * 2 ^ 8) by (change (2 ^ 8) with 256; ring).
  destruct (Nat.ltb_spec z 8) as [Hlt|Hge].
  - rewrite Nat.div_small, Nat.mod_small by lia. cbn [nth].
    rewrite <- (Z.mod_pow2_bits_low _ 8) by lia. rewrite Z_mod_plus_full, Z.mod_pow2_bits_low by lia. reflexivity.
  - replace z with ((z - 8) + 1 * 8)%nat by lia. rewrite Nat.div_add, Nat.mod_add by lia.
    rewrite Nat.add_1_r. cbn [nth]. rewrite <- IH by (try assumption; lia).
    replace (Z.of_nat (z - 8 + 1 * 8)) with (Z.of_nat (z - 8) + 8) by lia.
    rewrite <- Z.div_pow2_bits by lia. f_equal. rewrite Z.div_add by lia. rewrite (Z.div_small b) by (change (2 ^ 8) with 256; lia). lia.
Qed.
Lemma firstn_bytes (b : list Z) m : (m + 8 <= length b)%nat -> length (firstn 8 (skipn m b)) = 8%nat.
Proof. intros H. rewrite firstn_length, skipn_length. lia. Qed.
Lemma nth_firstn_skipn (b : list Z) : forall m k i, (i < k)%nat -> nth i (firstn k (skipn m b)) 0 = nth (m + i) b 0.
Proof.
  intros m k i Hi. revert m i k Hi. induction b as [|x b IH]; intros m i k Hi.
  - rewrite skipn_nil, firstn_nil. destruct i as [|i]; [destruct (m + 0)%nat|destruct (m + S i)%nat]; reflexivity.
  - destruct m as [|m]; cbn [skipn].
    + destruct k as [|k]; [lia|]. destruct i as [|i]; [reflexivity|]. cbn [firstn nth Nat.add].
      specialize (IH 0%nat i k ltac:(lia)). exact IH.
    + cbn [Nat.add nth]. apply IH. assumption.
Qed.
Lemma lb_bytes b : bytes_ok b -> length b = 200%nat -> beq (lb (lanes_of 25 b)) (bit_of b).
Proof.
  intros Hb Hl x y z Hx Hy Hz. unfold lb, bit_of, w. rewrite lanes_of_nth by lia.
  set (i := (5 * y + x)%nat). assert (i < 25)%nat by lia.
  rewrite le_val_bit; [|now apply bytes_ok_firstn, bytes_ok_skipn|rewrite firstn_bytes; lia].
  assert (z / 8 < 8)%nat by (apply Nat.div_lt_upper_bound; lia).
  rewrite nth_firstn_skipn by assumption. f_equal. f_equal.
  replace (64 * i + z)%nat with (z + (8 * i) * 8)%nat by lia. rewrite Nat.div_add by lia. lia.
Qed.
Opaque le_bytes.
Lemma flat_map_length8 a : length (flat_map (le_bytes 8) a) = (8 * length a)%nat.
Proof. induction a as [|x a IH]; [reflexivity|]. cbn [flat_map length]. rewrite app_length, le_bytes_length, IH. lia. Qed.
Lemma bytes_of_ok a : bytes_ok (bytes_of a).
Proof. induction a as [|x a IH]; cbn; [constructor|]. apply Forall_app. split; [apply le_bytes_ok|exact IH]. Qed.
Lemma lanes_bytes a n : Forall word a -> length a = n -> lanes_of n (bytes_of a) = a.
Proof.
  revert n. induction a as [|x a IH]; intros n Hw Hn; subst n; [reflexivity|]. cbn [length lanes_of].
  apply Forall_cons_iff in Hw. destruct Hw as [[H0 H1] Hw]. unfold bytes_of. cbn [flat_map].
  f_equal.
  - rewrite firstn_app, le_bytes_length, Nat.sub_diag, firstn_O, app_nil_r, firstn_all2 by (rewrite le_bytes_length; lia).
    apply le_val_bytes_small. change (256 ^ Z.of_nat 8) with (2 ^ 64). lia.
  - rewrite skipn_app, le_bytes_length, Nat.sub_diag, skipn_all2 by (rewrite le_bytes_length; lia). cbn [app]. now apply IH.
Qed.
Lemma keccakf_ok st : bytes_ok st -> length st = 200%nat ->
  length (keccakf st) = 200%nat /\ bytes_ok (keccakf st) /\ beq (bit_of (keccakf st)) (keccak_f1600 (bit_of st)).
Proof.
  intros Hb Hl. unfold keccakf.
  assert (H0 : lanes_ok (lanes_of 25 st)) by (split; [apply lanes_of_length|now apply lanes_of_words]).
  destruct (keccak_lanes_ok _ _ (conj H0 (lb_bytes st Hb Hl))) as [[H1 H2] H3].
  assert (HL : length (bytes_of (keccak_lanes (lanes_of 25 st))) = 200%nat) by (unfold bytes_of; rewrite flat_map_length8, H1; reflexivity).
  split; [exact HL|]. split; [apply bytes_of_ok|].
  eapply beq_trans; [|exact H3]. eapply beq_trans; [apply beq_sym, lb_bytes; [apply bytes_of_ok|exact HL]|].
  rewrite (lanes_bytes _ _ H2 H1). now intros x y z _ _ _.
Qed.
