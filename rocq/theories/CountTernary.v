(** The fraction of challenges for which a vector with a large coefficient gives a
    small masked reply. *)
From Coq Require Import ZArith Znumtheory Lia List Bool Arith.
From Verif Require Import Outcome Fp FSum Ring TernaryModel TernarySpec TernaryProofs
  AlgebraModel AlgebraSpec AlgebraProofs AlgebraMore RegevModel CountSpec CountProofs.
Import ListNotations.
Open Scope Z_scope.

Lemma rowBytes_4 q : rowBytes (4 * q) = q.
Proof. unfold rowBytes. symmetry. apply (Nat.div_unique _ 4 _ 3); lia. Qed.
Lemma size_4 n q : ((n * (4 * q) + 3) / 4 = n * q)%nat.
Proof. symmetry. apply (Nat.div_unique _ 4 _ 3); lia. Qed.
Lemma entry_trit buf n q k i j : byte_entry (skipn (k * (n * q)) buf) (4 * q) i j = trit (skipn ((k * n + i) * q) buf) j.
Proof.
  unfold byte_entry, trit. fold (rowBytes (4 * q)). rewrite rowBytes_4, !nth_skipn.
  replace (k * (n * q) + (i * q + j / 4))%nat with ((k * n + i) * q + j / 4)%nat by ring. reflexivity.
Qed.
Lemma zipWith_len {A B C} (f : A -> B -> C) : forall l l', length l = length l' -> length (zipWith f l l') = length l.
Proof. induction l as [|a l IH]; intros [|b l'] H; try discriminate H; [reflexivity|]. cbn. rewrite IH; [reflexivity|]. now injection H. Qed.
Lemma zipWith_nth' {A B C} (f : A -> B -> C) da db dc : forall l l' j, length l = length l' -> (j < length l)%nat ->
  nth j (zipWith f l l') dc = f (nth j l da) (nth j l' db).
Proof.
  induction l as [|a l IH]; intros [|b l'] j H Hj; try discriminate H; [cbn in Hj; lia|]. destruct j as [|j]; [reflexivity|]. cbn.
  apply IH; [now injection H|cbn in Hj; lia].
Qed.
Lemma skipn_trit a q x s w j : length x = (a * q)%nat -> length s = q -> (j < 4 * q)%nat -> trit (skipn (a * q) (x ++ s ++ w)) j = trit s j.
Proof.
  intros Hx Hs Hj. rewrite skipn_app, Hx, Nat.sub_diag, skipn_O, <- Hx, skipn_all. cbn [app].
  assert (j / 4 < q)%nat by (apply Nat.div_lt_upper_bound; lia). unfold trit. rewrite app_nth1 by lia. reflexivity.
Qed.
Lemma skipn_trit_other a r q x s s' w j : length x = (a * q)%nat -> length s = q -> length s' = q -> (j < 4 * q)%nat -> r <> a ->
  trit (skipn (r * q) (x ++ s ++ w)) j = trit (skipn (r * q) (x ++ s' ++ w)) j.
Proof.
  intros Hx Hs Hs' Hj Hr. assert (Hq : (j / 4 < q)%nat) by (apply Nat.div_lt_upper_bound; lia).
  unfold trit. rewrite !nth_skipn. set (t := (j / 4)%nat) in *.
  assert (N : nth (r * q + t) (x ++ s ++ w) 0 = nth (r * q + t) (x ++ s' ++ w) 0).
  { destruct (Nat.lt_ge_cases (r * q + t) (length x)) as [C|C].
    - now rewrite !app_nth1.
    - rewrite (app_nth2 x (s ++ w)), (app_nth2 x (s' ++ w)) by assumption. rewrite Hx in *.
      assert (a < r)%nat by nia. rewrite !app_nth2 by nia. now rewrite Hs, Hs'. }
  now rewrite N.
Qed.
Lemma trit_zero q j : trit (repeat 0 q) j = 0.
Proof.
  unfold trit. assert (N : nth (j / 4) (repeat 0 q) 0 = 0).
  { destruct (Nat.lt_ge_cases (j / 4) q); [apply nth_repeat|]. apply nth_overflow. now rewrite repeat_length. }
  rewrite N, !Z.testbit_0_l. reflexivity.
Qed.

Section BalSub.
Context {p : Z}.
Hypothesis Hp : 2 <= p.
Notation F := (Fp p).
Lemma balanced_min (s : F) z : toF p z = s -> Z.abs (balanced s) <= Z.abs z.
Proof.
  intros H. destruct (balanced_spec Hp s) as [Hb0 R].
  assert (Hb : toF p (balanced s) = toF p z) by congruence. apply toF_eq_iff in Hb.
  assert (D : (p | balanced s - z)). { apply Z.mod_divide; [lia|]. rewrite Zminus_mod, Hb, Z.sub_diag. apply Z.mod_0_l. lia. }
  destruct D as [k Hk]. assert (k = 0 \/ k <= -1 \/ 1 <= k) as [->|[?|?]] by lia; [lia| |]; nia.
Qed.
Lemma balanced_sub (a b : F) : Z.abs (balanced (a - b)%F) <= Z.abs (balanced a) + Z.abs (balanced b).
Proof.
  etransitivity; [apply (balanced_min _ (balanced a - balanced b))|lia].
  rewrite toF_sub. now rewrite (proj1 (balanced_spec Hp a)), (proj1 (balanced_spec Hp b)).
Qed.
End BalSub.

Section Red.
Context {p : Z} {ell : nat}.
Hypothesis Hp : 2 <= p.
Hypothesis He : (0 < ell)%nat.
Notation F := (Fp p).
Notation E := (elt p ell).
Add Ring CTf : (@Fp_ring p).
Add Ring CTe : (elt_ring (p := p) He).

Lemma linf_le (v : list E) B : lInftyNorm v <= B <->
  0 <= B /\ forall e i, In e v -> (i < ell)%nat -> Z.abs (balanced (coeff e i)) <= B.
Proof.
  destruct (linf p ell v (map balanced (coeffs_of v)) Hp (balanced_vec_spec Hp _)) as [H0 [H1 H2]].
  split.
  - intros H. split; [lia|]. intros e i He' Hi. etransitivity; [apply H1|exact H]. apply in_map.
    apply in_flat_map. exists e. split; [assumption|]. apply in_map_iff. exists i. split; [reflexivity|]. apply in_seq. lia.
  - intros [HB H]. destruct H2 as [->|[z [Hz Ez]]]; [assumption|]. rewrite <- Ez.
    apply in_map_iff in Hz. destruct Hz as [s [<- Hs]]. apply in_flat_map in Hs. destruct Hs as [e [Hv Hs]].
    apply in_map_iff in Hs. destruct Hs as [i [<- Hi]]. apply in_seq in Hi. apply H; [assumption|lia].
Qed.

(** Coordinate j of the masked reply; rows of q bytes. *)
Definition zval (v y : list E) (q : nat) (buf : list Z) (j : nat) : E :=
  eadd (esum (map (fun i => emul (nth i v e0) (ofdigits (fun k => trit (skipn ((k * length v + i) * q) buf) j))) (seq 0 (length v))))
       (nth j y e0).
Lemma nth_map_seq0 (f : nat -> E) m j : (j < m)%nat -> nth j (map f (seq 0 m)) e0 = f j.
Proof. intros H. rewrite (nth_indep _ e0 (f 0%nat)) by (rewrite map_length, seq_length; lia). now rewrite map_nth, seq_nth. Qed.
Lemma reply_ok_iff B (v y : list E) q buf : (0 < length v)%nat -> length y = (4 * q)%nat -> bytes buf ->
  length buf = (ell * (length v * q))%nat ->
  reply_ok B v y (4 * q) buf = true <->
  0 <= B /\ forall j i, (j < 4 * q)%nat -> (i < ell)%nat -> Z.abs (balanced (coeff (zval v y q buf j) i)) <= B.
Proof.
  intros Hn Hy Hb Hl. unfold reply_ok, newTernaryEMatrix.
  destruct (setFromBytesE_spec (ell := ell) buf (length v) (4 * q) Hn (bytes_nth buf Hb)) as [X [EX HX]].
  { rewrite rowBytes_4. lia. }
  rewrite EX. cbn [obind]. rewrite (leftVecMultTE_spec v X _ _ _ He HX eq_refl). cbn [obind].
  unfold vecAdd, vecmatR. rewrite map_length, seq_length, Hy, Nat.eqb_refl. cbn [negb obind].
  rewrite Z.leb_le, linf_le. apply and_iff_compat_l.
  set (w := map _ (seq 0 (4 * q))).
  assert (Lw : length w = length y) by (unfold w; now rewrite map_length, seq_length, Hy).
  assert (Nz : forall j, (j < 4 * q)%nat -> nth j (zipWith eadd w y) e0 = zval v y q buf j).
  { intros j Hj. rewrite (zipWith_nth' eadd e0 e0 e0) by lia. unfold zval. f_equal. unfold w.
    rewrite nth_map_seq0 by assumption. apply esum_map_ext. intros i _. f_equal. unfold ofdigits.
    apply coeff_ext. intros k Hk. rewrite !coeff_mkE. destruct (k <? ell)%nat; [|reflexivity]. rewrite rowBytes_4. now rewrite entry_trit. }
  split.
  - intros H j i Hj Hi. rewrite <- Nz by assumption. apply H; [|assumption]. apply nth_In. rewrite zipWith_len; lia.
  - intros H e i Hin Hi. destruct (In_nth _ _ e0 Hin) as [j [Hj <-]]. rewrite zipWith_len in Hj by assumption.
    rewrite Nz by lia. apply H; [lia|assumption].
Qed.

(** Changing one row of one of the ternary matrices. *)
Lemma esum_upd (f g : nat -> E) i0 d l : NoDup l -> In i0 l -> (forall i, In i l -> i <> i0 -> f i = g i) -> f i0 = eadd (g i0) d ->
  esum (map f l) = eadd (esum (map g l)) d.
Proof.
  intros ND Hin Ho H0. induction l as [|i l IH]; [destruct Hin|]. inversion ND as [|? ? Hi NDl]; subst. cbn [map esum fold_right].
  destruct (Nat.eq_dec i i0) as [->|Hne].
  - rewrite H0. rewrite (esum_map_ext f g l).
    + unfold esum. ring.
    + intros k Hk. apply Ho; [now right|]. intros ->. contradiction.
  - destruct Hin as [->|Hin]; [contradiction|]. fold (esum (map f l)) (esum (map g l)).
    rewrite IH; [|assumption|assumption|intros; apply Ho; [now right|assumption]].
    rewrite (Ho i (or_introl eq_refl) Hne). ring.
Qed.
Lemma zval_split (v y : list E) q k0 i0 x s w j : (i0 < length v)%nat -> (k0 < ell)%nat ->
  length x = ((k0 * length v + i0) * q)%nat -> length s = q -> (j < 4 * q)%nat ->
  zval v y q (x ++ s ++ w) j = eadd (zval v y q (x ++ repeat 0 q ++ w) j) (escale (toF p (trit s j)) (emul (nth i0 v e0) (eX k0))).
Proof.
  intros Hi Hk Hx Hs Hj. unfold zval. set (n := length v) in *.
  rewrite (esum_upd _ (fun i => emul (nth i v e0) (ofdigits (fun k => trit (skipn ((k * n + i) * q) (x ++ repeat 0 q ++ w)) j))) i0
    (escale (toF p (trit s j)) (emul (nth i0 v e0) (eX k0)))).
  - ring.
  - apply seq_NoDup.
  - apply in_seq. lia.
  - intros i Hin Hne. apply in_seq in Hin. f_equal. apply coeff_ext. intros k Hk'. unfold ofdigits. rewrite !coeff_mkE.
    destruct (k <? ell)%nat; [|reflexivity]. f_equal. apply (skipn_trit_other (k0 * n + i0)); try assumption; [apply repeat_length|].
    intros Q. apply Hne. assert (k = k0) by nia. subst k. lia.
  - rewrite <- emul_scale_r, <- emul_add_r. f_equal. apply coeff_ext. intros k Hk'. rewrite coeff_eadd, coeff_escale.
    unfold ofdigits. rewrite !coeff_mkE. rewrite (proj2 (Nat.ltb_lt _ _)) by assumption.
    unfold eX. rewrite coeff_emulXn by lia.
    destruct (Nat.eq_dec k k0) as [->|Hne].
    + rewrite (skipn_trit _ q x s w j Hx Hs Hj), (skipn_trit _ q x (repeat 0 q) w j Hx (repeat_length _ _) Hj), trit_zero.
      rewrite (proj2 (Nat.ltb_ge _ _)) by lia. rewrite Nat.sub_diag, coeff_e1 by assumption. cbn [Nat.eqb].
      change (toF p 0) with (@f0 p). ring.
    + rewrite (skipn_trit_other (k0 * n + i0) _ q x s (repeat 0 q) w j Hx Hs (repeat_length _ _) Hj) by (intros Q; apply Hne; nia).
      destruct (Nat.ltb_spec k k0).
      * rewrite coeff_e1 by assumption. replace (ell + k - k0 =? 0)%nat with false by (symmetry; apply Nat.eqb_neq; lia). ring.
      * rewrite coeff_e1 by assumption. replace (k - k0 =? 0)%nat with false by (symmetry; apply Nat.eqb_neq; lia). ring.
Qed.

Theorem reply_fraction B (v y : list E) q i0 c0 z : (i0 < length v)%nat -> (c0 < ell)%nat -> length y = (4 * q)%nat ->
  is_balanced (coeff (nth i0 v e0) c0) z -> 2 * B < Z.abs z ->
  2 ^ Z.of_nat (4 * q) * count (reply_ok B v y (4 * q)) (strings (ell * ((length v * (4 * q) + 3) / 4))) <=
  256 ^ Z.of_nat (ell * ((length v * (4 * q) + 3) / 4)).
Proof.
  intros Hi Hc Hy Hz HB. rewrite size_4. set (n := length v) in *.
  replace (ell * (n * q))%nat with (i0 * q + (q + ((ell * n - i0 - 1) * q)))%nat by nia.
  apply count_mid_le. intros x w Bx Bw Lx Lw.
  set (a := coeff (nth i0 v e0) c0) in *.
  set (b0 := fun j => coeff (zval v y q (x ++ repeat 0 q ++ w) j) c0).
  apply (row_count_le q _ (fun j t => Z.abs (balanced (b0 j + toF p t * a)%F) <=? B)).
  - intros s Ls Bs Hok j Hj. apply Z.leb_le.
    apply reply_ok_iff in Hok.
    + destruct Hok as [_ H]. specialize (H j c0 Hj Hc). rewrite (zval_split v y q 0 i0 x s w j) in H by (try assumption; lia).
      rewrite coeff_eadd, coeff_escale in H. unfold eX in H. cbn [emulXn] in H. rewrite emul_1_r in H by assumption. exact H.
    + lia.
    + assumption.
    + apply Forall_app. split; [assumption|]. apply Forall_app. now split.
    + rewrite !app_length. fold n. nia.
  - intros j Hj. set (b := b0 j).
    assert (Ea : balanced a = z) by (apply (is_balanced_unique Hp a); [now apply balanced_spec|assumption]).
    change (toF p 0) with (@f0 p). replace (b + 0 * a)%F with b by ring.
    assert (H1 : Z.abs (balanced (b + toF p 1 * a)%F) <= B -> Z.abs (balanced b) <= B -> False).
    { intros K1 K2. pose proof (balanced_sub Hp (b + toF p 1 * a)%F b) as T. change (toF p 1) with (@f1 p) in *.
      replace (b + 1 * a - b)%F with a in T by ring. lia. }
    assert (H2 : Z.abs (balanced (b + toF p (-1) * a)%F) <= B -> Z.abs (balanced b) <= B -> False).
    { intros K1 K2. pose proof (balanced_sub Hp b (b + toF p (-1) * a)%F) as T. rewrite toF_m1 in *.
      replace (b - (b + - (1) * a))%F with a in T by ring. lia. }
    unfold ind.
    destruct (Z.leb_spec (Z.abs (balanced b)) B), (Z.leb_spec (Z.abs (balanced (b + toF p 1 * a)%F)) B),
      (Z.leb_spec (Z.abs (balanced (b + toF p (-1) * a)%F)) B); tauto || lia.
Qed.
End Red.

(** The element (1 + X)/2 of the ring of degree 2. *)
Section Half.
Context {p : Z}.
Hypothesis Hp : 3 <= p.
Hypothesis Hodd : p mod 2 = 1.
Notation F := (Fp p).
Notation E := (elt p 2).
Add Ring CHf : (@Fp_ring p).

Definition half : F := toF p ((p + 1) / 2).
Definition halfX : E := mkE 2 (fun _ => half).
Lemma half_int z : (half * toF p (2 * z) = toF p z)%F.
Proof.
  unfold half. rewrite <- toF_mul. apply toF_eq_iff. pose proof (Z.div_mod p 2 ltac:(lia)).
  assert (E : (p + 1) / 2 = p / 2 + 1). { replace (p + 1) with (p / 2 * 2 + 2) by lia. rewrite Z.div_add_l by lia. reflexivity. }
  rewrite E. replace ((p / 2 + 1) * (2 * z)) with (z + z * p) by nia. apply Z.mod_add. lia.
Qed.
Lemma half_odd z : (half * toF p (2 * z + 1) = toF p (z + (p + 1) / 2))%F.
Proof. rewrite !toF_add, <- (half_int z). fold half. change (toF p 1) with (@f1 p). ring. Qed.
Lemma small_half t B : -2 <= t <= 2 -> 1 <= B -> 2 * B < p - 1 ->
  Z.abs (balanced (half * toF p t)%F) <= B <-> Z.even t = true.
Proof.
  intros Ht HB HBp. pose proof (Z.div_mod p 2 ltac:(lia)).
  assert (D : (p + 1) / 2 = p / 2 + 1). { replace (p + 1) with (p / 2 * 2 + 2) by lia. rewrite Z.div_add_l by lia. reflexivity. }
  assert (Cev : forall u, -1 <= u <= 1 -> t = 2 * u -> Z.abs (balanced (half * toF p t)%F) <= B <-> Z.even t = true).
  { intros u Hu ->. rewrite half_int. rewrite balanced_of by lia. rewrite Z.even_mul. cbn. split; [reflexivity|]. lia. }
  assert (t = -2 \/ t = -1 \/ t = 0 \/ t = 1 \/ t = 2) as [E|[E|[E|[E|E]]]] by lia.
  - apply (Cev (-1)); lia.
  - subst t. change (-1) with (2 * -1 + 1). rewrite half_odd, D. rewrite balanced_of by lia. split; [lia|discriminate].
  - apply (Cev 0); lia.
  - subst t. change 1 with (2 * 0 + 1) at 1. rewrite half_odd, D.
    replace (toF p (0 + (p / 2 + 1))) with (toF p (p / 2 + 1 - p)).
    + rewrite balanced_of by lia. split; [lia|discriminate].
    + apply toF_eq_iff. replace (p / 2 + 1 - p) with (0 + (p / 2 + 1) + (-1) * p) by ring. apply Z.mod_add. lia.
  - apply (Cev 1); lia.
Qed.

Theorem half_fraction B q : 1 <= B -> 2 * B < p - 1 ->
  2 ^ Z.of_nat (4 * q) * count (reply_ok B [halfX] (repeat e0 (4 * q)) (4 * q)) (strings (2 * ((1 * (4 * q) + 3) / 4))) =
  256 ^ Z.of_nat (2 * ((1 * (4 * q) + 3) / 4)).
Proof.
  intros HB HBp. rewrite size_4. replace (2 * (1 * q))%nat with (q + (q + 0))%nat by lia.
  apply count_mid_eq. intros x w Bx Bw Lx Lw. destruct w; [|discriminate Lw].
  apply (row_count_eq q _ (fun j t => Z.even (trit x j - t))).
  - intros s Ls Bs. rewrite (reply_ok_iff (p := p) (ell := 2) ltac:(lia) ltac:(lia)).
    + assert (V : forall j, (j < 4 * q)%nat ->
        (coeff (zval [halfX] (repeat e0 (4 * q)) q (x ++ s ++ []) j) 0 = half * toF p (trit x j - trit s j))%F /\
        (coeff (zval [halfX] (repeat e0 (4 * q)) q (x ++ s ++ []) j) 1 = half * toF p (trit x j + trit s j))%F).
      { intros j Hj. unfold zval. cbn [length seq map]. rewrite nth_repeat. rewrite eadd_0_r. unfold esum. cbn [fold_right]. rewrite eadd_0_r.
        cbn [nth]. rewrite !coeff_emul by lia. unfold ofdigits, halfX.
        assert (T0 : trit (skipn ((0 * 1 + 0) * q) (x ++ s ++ [])) j = trit x j).
        { apply (skipn_trit 0 q [] x (s ++ []) j); [reflexivity|assumption|assumption]. }
        assert (T1 : trit (skipn ((1 * 1 + 0) * q) (x ++ s ++ [])) j = trit s j).
        { apply (skipn_trit 1 q x s [] j); [lia|assumption|assumption]. }
        cbn [seq map fsum fold_right]. rewrite !coeff_mkE. cbn [Nat.ltb Nat.leb Nat.sub Nat.add].
        rewrite ?T0, ?T1. rewrite toF_add, toF_sub. split; unfold half; cbn; ring. }
      split.
      * intros [_ H] j Hj. destruct (V j Hj) as [V0 _]. specialize (H j 0%nat Hj ltac:(lia)). rewrite V0 in H.
        apply small_half in H; [exact H| |assumption|assumption]. destruct (trit_ternary x j) as [->|[->| ->]], (trit_ternary s j) as [->|[->| ->]]; lia.
      * intros H. split; [lia|]. intros j i Hj Hi. destruct (V j Hj) as [V0 V1]. specialize (H j Hj).
        destruct i as [|[|i]]; [rewrite V0|rewrite V1|lia]; apply small_half; try assumption;
          destruct (trit_ternary x j) as [Ex|[Ex|Ex]], (trit_ternary s j) as [Es|[Es|Es]]; rewrite Ex, Es in *;
          try lia; try reflexivity; try discriminate H.
    + cbn. lia.
    + apply repeat_length.
    + apply Forall_app. split; [assumption|]. apply Forall_app. split; [assumption|constructor].
    + rewrite !app_length. cbn [length]. lia.
  - intros j Hj. destruct (trit_ternary x j) as [Ex|[Ex|Ex]]; rewrite Ex; reflexivity.
Qed.
End Half.
