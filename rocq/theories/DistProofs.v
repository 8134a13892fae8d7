(** Counting the random strings behind each value of the samplers. *)
From Coq Require Import ZArith List Bool Lia Arith.
From Verif Require Import Outcome Bytes Fp FSum Ring Prime25519 TernaryModel TernarySpec TernaryProofs CountSpec CountProofs
  AlgebraSpec AlgebraProofs RegevModel MaskSpec MaskProofs Scalar25519Model Scalar25519Spec Scalar25519Proofs DistSpec.
Import ListNotations.
Open Scope Z_scope.

(** *** Ternary matrices *)
Lemma zprod_app h a b : forall c, zprod h c (a + b) = zprod h c a * zprod h (c + a) b.
Proof.
  induction a as [|a IH]; intros c; cbn [Nat.add zprod]; [rewrite Nat.add_0_r; lia|].
  rewrite IH. replace (S c + a)%nat with (c + S a)%nat by lia. lia.
Qed.
Lemma zprod_rows h s : forall R, zprod h 0 (R * s) = zprod (fun r => zprod (fun j => h (r * s + j)%nat) 0 s) 0 R.
Proof.
  induction R as [|R IH]; [reflexivity|]. replace (S R * s)%nat with (R * s + s)%nat by lia.
  replace (S R) with (R + 1)%nat by lia. rewrite !zprod_app, IH. cbn [Nat.add zprod]. rewrite Z.mul_1_r. f_equal.
  replace (R * s)%nat with (R * s + 0)%nat at 1 by lia. apply zprod_shift.
Qed.
Definition weigh (z : Z) : Z := if z =? 0 then 2 else 1.
Lemma row_zeros (g : nat -> Z) m : forall a, zprod (fun j => weigh (g j)) a m = 2 ^ Z.of_nat (length (filter (fun j => g j =? 0) (seq a m))).
Proof.
  induction m as [|m IH]; intros a; [reflexivity|]. cbn [zprod seq filter]. rewrite IH. unfold weigh. destruct (g a =? 0); [|lia].
  cbn [length]. rewrite Nat2Z.inj_succ, Z.pow_succ_r by lia. reflexivity.
Qed.
Lemma filter_map_length {A B} (h : A -> B) f l : length (filter f (map h l)) = length (filter (fun a => f (h a)) l).
Proof. induction l as [|a l IH]; [reflexivity|]. cbn. destruct (f (h a)); cbn; now rewrite IH. Qed.
Lemma all_zeros f m : forall R a, zprod (fun r => zprod (fun j => weigh (f r j)) 0 m) a R =
  2 ^ Z.of_nat (length (filter (fun ij => f (fst ij) (snd ij) =? 0) (list_prod (seq a R) (seq 0 m)))).
Proof.
  induction R as [|R IH]; intros a; [reflexivity|]. cbn [zprod seq list_prod]. rewrite IH, row_zeros, filter_app, app_length, filter_map_length.
  cbn [fst snd]. rewrite Nat2Z.inj_add, Z.pow_add_r by lia. reflexivity.
Qed.
Lemma zprod_mul h g n : forall a, zprod (fun j => h j * g j) a n = zprod h a n * zprod g a n.
Proof. induction n as [|n IH]; intros a; cbn [zprod]; [reflexivity|]. rewrite IH. lia. Qed.
Lemma zprod_all k n : forall a, zprod (fun _ => k) a n = k ^ Z.of_nat n.
Proof.
  induction n as [|n IH]; intros a; [reflexivity|]. cbn [zprod]. rewrite IH, Nat2Z.inj_succ, Z.pow_succ_r by lia. reflexivity.
Qed.
Lemma rowBytes_le m : (m <= 4 * ((m + 3) / 4))%nat.
Proof. pose proof (Nat.div_mod (m + 3) 4 ltac:(lia)). pose proof (Nat.mod_upper_bound (m + 3) 4 ltac:(lia)). lia. Qed.
Lemma entry_trit buf m i j : (j < 4 * ((m + 3) / 4))%nat -> byte_entry buf m i j = trit buf (i * (4 * ((m + 3) / 4)) + j).
Proof.
  intros _. unfold byte_entry, trit. set (s := ((m + 3) / 4)%nat).
  replace (i * (4 * s) + j)%nat with (j + (i * s) * 4)%nat by lia.
  rewrite Nat.div_add, Nat.mod_add by lia. now rewrite (Nat.add_comm (j / 4)).
Qed.
Lemma entries_count R m f : (forall i j, (i < R)%nat -> (j < m)%nat -> f i j = -1 \/ f i j = 0 \/ f i j = 1) ->
  exactly (2 ^ Z.of_nat (zeros R m f) * 4 ^ Z.of_nat (padding R m))
    (fun buf => length buf = (R * ((m + 3) / 4))%nat /\ bytes buf /\
       forall i j, (i < R)%nat -> (j < m)%nat -> byte_entry buf m i j = f i j).
Proof.
  intros T. pose proof (rowBytes_le m) as Hs. set (s := ((m + 3) / 4)%nat) in *.
  set (g := fun (t : nat) (x : Z) => if Nat.ltb (t mod (4 * s))%nat m then x =? f (t / (4 * s))%nat (t mod (4 * s))%nat else true).
  set (ok := fun buf => forallb (fun t => g t (trit buf t)) (seq 0 (4 * (R * s)))).
  assert (IX : forall i j, (j < 4 * s)%nat -> ((i * (4 * s) + j) / (4 * s) = i /\ (i * (4 * s) + j) mod (4 * s) = j)%nat).
  { intros i j Hj. replace (i * (4 * s) + j)%nat with (j + i * (4 * s))%nat by lia.
    rewrite Nat.div_add, Nat.mod_add, Nat.div_small, Nat.mod_small by lia. lia. }
  exists (filter ok (strings (R * s))). split; [apply NoDup_filter, strings_NoDup|]. split.
  - intros buf. rewrite filter_In, in_strings. unfold ok. rewrite forallb_forall. split.
    + intros [[L B] H]. split; [exact L|]. split; [exact B|]. intros i j Hi Hj.
      rewrite entry_trit by (fold s; lia). fold s. specialize (H (i * (4 * s) + j)%nat).
      destruct (IX i j ltac:(lia)) as [D M]. unfold g in H. rewrite D, M in H. destruct (Nat.ltb_spec j m); [|lia].
      apply Z.eqb_eq, H, in_seq. nia.
    + intros (L & B & H). split; [auto|]. intros t Ht. apply in_seq in Ht. unfold g. destruct (Nat.ltb_spec (t mod (4 * s))%nat m) as [Hm|]; [|reflexivity].
      apply Z.eqb_eq. assert (s <> 0)%nat by lia. pose proof (Nat.div_mod t (4 * s) ltac:(lia)) as DM.
      rewrite <- H; [|apply Nat.div_lt_upper_bound; lia|exact Hm].
      rewrite entry_trit by (fold s; lia). fold s. f_equal. lia.
  - change (count ok (strings (R * s)) = 2 ^ Z.of_nat (zeros R m f) * 4 ^ Z.of_nat (padding R m)). rewrite count_zs.
    transitivity (zs (fun b => zprod (fun j => ind (g j (trit b j))) 0 (4 * (R * s))) (strings (R * s))).
    { apply zs_ext. intros b _. rewrite zprod_ind. reflexivity. }
    rewrite (trit_sum (R * s) (fun j t => ind (g j t))). replace (4 * (R * s))%nat with (R * (4 * s))%nat by lia. rewrite zprod_rows.
    transitivity (zprod (fun r => zprod (fun j => weigh (f r j)) 0 m * 4 ^ Z.of_nat (4 * s - m)) 0 R).
    { apply zprod_ext. intros r Hr. assert (E4 : (4 * s = m + (4 * s - m))%nat) by lia. etransitivity; [apply (f_equal (zprod _ 0) E4)|]. rewrite zprod_app. f_equal.
      - apply zprod_ext. intros j Hj. destruct (IX r j ltac:(lia)) as [D M]. unfold g. rewrite D, M. destruct (Nat.ltb_spec j m); [|lia].
        destruct (T r j ltac:(lia) ltac:(lia)) as [->|[->| ->]]; reflexivity.
      - rewrite <- (zprod_all 4 (4 * s - m) (0 + m)). apply zprod_ext. intros j Hj. destruct (IX r j ltac:(lia)) as [D M]. unfold g. rewrite M.
        destruct (Nat.ltb_spec j m); [lia|reflexivity]. }
    rewrite zprod_mul, all_zeros, zprod_all. unfold zeros, padding. fold s. rewrite <- Z.pow_mul_r by lia. do 2 f_equal. lia.
Qed.

Lemma matrix_count n m f : (0 < n)%nat -> ternary n m f ->
  exactly (2 ^ Z.of_nat (zeros n m f) * 4 ^ Z.of_nat (padding n m))
    (fun buf => length buf = (n * ((m + 3) / 4))%nat /\ bytes buf /\ exists M, setFromBytes buf n m = Ret M /\ is_tmat M n m f).
Proof.
  intros Hn T. eapply exactly_ext; [|exact (entries_count n m f T)]. intros buf. cbv beta. split.
  - intros (L & B & H). split; [exact L|]. split; [exact B|].
    destruct (setFromBytes_spec buf n m Hn (bytes_nth buf B) ltac:(unfold rowBytes; lia)) as (M & E & N1 & N2 & N3).
    exists M. split; [exact E|]. split; [exact N1|]. split; [exact N2|]. intros i Hi. destruct (N3 i Hi) as (r & R1 & R2 & R3).
    exists r. split; [exact R1|]. split; [exact R2|]. intros j Hj. rewrite (R3 j Hj), (H i j Hi Hj). reflexivity.
  - intros (L & B & M & E & _ & _ & H). split; [exact L|]. split; [exact B|]. intros i j Hi Hj.
    destruct (setFromBytes_spec buf n m Hn (bytes_nth buf B) ltac:(unfold rowBytes; lia)) as (M' & E' & _ & _ & H').
    rewrite E in E'. injection E' as <-. destruct (H i Hi) as (r & R1 & _ & R3). destruct (H' i Hi) as (r' & R1' & _ & R3').
    rewrite R1 in R1'. injection R1' as <-. pose proof (R3 j Hj) as Q. rewrite (R3' j Hj) in Q. now injection Q.
Qed.

(** The ell matrices of a matrix of ring elements, stacked. *)
Lemma stacked buf m n k i j : byte_entry (skipn (k * (n * ((m + 3) / 4))) buf) m i j = byte_entry buf m (k * n + i) j.
Proof. unfold byte_entry. rewrite nth_skipn. set (s := ((m + 3) / 4)%nat).
  now replace ((k * n + i) * s + j / 4)%nat with (k * (n * s) + (i * s + j / 4))%nat by ring. Qed.
Lemma matrixE_count ell n m (F : nat -> nat -> nat -> Z) : (0 < n)%nat -> (forall k, (k < ell)%nat -> ternary n m (F k)) ->
  exactly (2 ^ Z.of_nat (zeros (ell * n) m (fun r j => F (r / n)%nat (r mod n)%nat j)) * 4 ^ Z.of_nat (padding (ell * n) m))
    (fun buf => length buf = (ell * (n * ((m + 3) / 4)))%nat /\ bytes buf /\
       exists Ms, setFromBytesE (ell := ell) buf n m = Ret Ms /\ is_temat ell Ms n m F).
Proof.
  intros Hn T.
  assert (IX : forall k i, (i < n)%nat -> ((k * n + i) / n = k /\ (k * n + i) mod n = i)%nat).
  { intros k i Hi. replace (k * n + i)%nat with (i + k * n)%nat by lia. rewrite Nat.div_add, Nat.mod_add, Nat.div_small, Nat.mod_small by lia. lia. }
  eapply exactly_ext; [|apply (entries_count (ell * n) m)].
  2: { intros r j Hr Hj. apply T; [apply Nat.div_lt_upper_bound; lia|apply Nat.mod_upper_bound; lia|exact Hj]. }
  intros buf. cbv beta. rewrite <- Nat.mul_assoc. split.
  - intros (L & B & H). split; [exact L|]. split; [exact B|].
    destruct (setFromBytesE_spec (ell := ell) buf n m Hn (bytes_nth buf B) ltac:(unfold rowBytes; lia)) as (Ms & E & N1 & N2).
    exists Ms. split; [exact E|]. split; [exact N1|]. intros k M HM. assert (Hk : (k < ell)%nat) by (rewrite <- N1; apply nth_error_Some; congruence).
    split; [|now apply T]. destruct (N2 k M HM) as [(D1 & D2 & D3) _]. split; [exact D1|]. split; [exact D2|].
    intros i Hi. destruct (D3 i Hi) as (r & R1 & R2 & R3). exists r. split; [exact R1|]. split; [exact R2|]. intros j Hj. rewrite (R3 j Hj).
    unfold rowBytes. rewrite stacked, H by nia. destruct (IX k i Hi) as [-> ->]. reflexivity.
  - intros (L & B & Ms & E & N1 & N2). split; [exact L|]. split; [exact B|]. intros r j Hr Hj.
    destruct (setFromBytesE_spec (ell := ell) buf n m Hn (bytes_nth buf B) ltac:(unfold rowBytes; lia)) as (Ms' & E' & _ & N2').
    rewrite E in E'. injection E' as <-. set (k := (r / n)%nat). set (i := (r mod n)%nat).
    assert (Hk : (k < ell)%nat) by (apply Nat.div_lt_upper_bound; lia). assert (Hi : (i < n)%nat) by (apply Nat.mod_upper_bound; lia).
    assert (Er : r = (k * n + i)%nat) by (unfold k, i; pose proof (Nat.div_mod r n ltac:(lia)); lia).
    destruct (nth_error Ms k) as [M|] eqn:HM; [|apply nth_error_None in HM; lia].
    destruct (N2 k M HM) as [(_ & _ & D) _]. destruct (N2' k M HM) as [(_ & _ & D') _].
    destruct (D i Hi) as (x & R1 & _ & R3). destruct (D' i Hi) as (x' & R1' & _ & R3').
    rewrite R1 in R1'. injection R1' as <-. pose proof (R3 j Hj) as Q. rewrite (R3' j Hj) in Q. injection Q as Q.
    rewrite <- Q. unfold rowBytes. rewrite stacked. now rewrite <- Er.
Qed.

(** *** Residues of a random word *)
Lemma exactly_mod a b v : 0 <= a <= b -> 0 <= v < 2 ^ a -> exactly (2 ^ (b - a)) (fun r => 0 <= r < 2 ^ b /\ r mod 2 ^ a = v).
Proof.
  intros H Hv. assert (E : 2 ^ b = 2 ^ a * 2 ^ (b - a)) by (rewrite <- Z.pow_add_r by lia; f_equal; lia).
  assert (P1 : 0 < 2 ^ a) by (apply Z.pow_pos_nonneg; lia). assert (P2 : 0 < 2 ^ (b - a)) by (apply Z.pow_pos_nonneg; lia).
  set (A := 2 ^ a) in *. set (K := 2 ^ (b - a)) in *.
  exists (map (fun t => v + A * Z.of_nat t) (seq 0 (Z.to_nat K))). split.
  - apply FinFun.Injective_map_NoDup; [|apply seq_NoDup]. intros x y Q. nia.
  - split; [|rewrite map_length, seq_length; lia]. intros r. rewrite in_map_iff. split.
    + intros (t & <- & Ht). apply in_seq in Ht. split; [nia|]. rewrite Z.mul_comm, Z.mod_add by lia. apply Z.mod_small. lia.
    + intros [R M]. exists (Z.to_nat (r / A)). pose proof (Z.div_mod r A ltac:(lia)) as DM.
      assert (0 <= r / A < K) by (split; [apply Z.div_pos; lia|apply Z.div_lt_upper_bound; lia]).
      split; [rewrite Z2Nat.id by lia; lia|]. apply in_seq. lia.
Qed.
Lemma exactly_map {A B} (h : A -> B) (g : B -> A) k (P : A -> Prop) (Q : B -> Prop) :
  (forall a, P a -> Q (h a) /\ g (h a) = a) -> (forall b, Q b -> P (g b) /\ h (g b) = b) -> exactly k P -> exactly k Q.
Proof.
  intros H1 H2 (l & N & I & L). exists (map h l). split.
  - assert (X : forall a, In a l -> g (h a) = a) by (intros a Ha; apply H1; now apply I).
    clear I L H1. induction N as [|a l Ha N IH]; cbn; constructor.
    + rewrite in_map_iff. intros (a' & E & Ha'). apply (f_equal g) in E. rewrite !X in E by (cbn; auto). subst. contradiction.
    + apply IH. intros; apply X; now right.
  - split; [|now rewrite map_length]. intros b. rewrite in_map_iff. split.
    + intros (a & <- & Ha). apply H1. now apply I.
    + intros Hb. destruct (H2 b Hb) as [Hg E]. exists (g b). split; [exact E|now apply I].
Qed.
Lemma exactly_pair {A B} k j (P : A -> Prop) (Q : B -> Prop) : exactly k P -> exactly j Q -> exactly (k * j) (fun ab => P (fst ab) /\ Q (snd ab)).
Proof.
  intros (l & N & I & L) (m & N' & I' & L'). exists (list_prod l m). split.
  - clear I L. induction N as [|a l Ha N IH]; cbn; [constructor|].
    assert (App : forall (l1 l2 : list (A * B)), NoDup l1 -> NoDup l2 -> (forall x, In x l1 -> ~ In x l2) -> NoDup (l1 ++ l2)).
    { intros l1. induction l1 as [|x l1 IH1]; intros l2 H1 H2 H3; [assumption|]. inversion H1; subst. cbn. constructor.
      - rewrite in_app_iff. intros [?|Hx]; [contradiction|]. exact (H3 x (or_introl eq_refl) Hx).
      - apply IH1; [assumption|assumption|]. intros y Hy. apply H3. now right. }
    apply App; [|exact IH|].
    + apply FinFun.Injective_map_NoDup; [intros x y E; now injection E|exact N'].
    + intros [x y] H1 H2. apply in_map_iff in H1 as (y' & E & _). injection E as <- <-. apply in_prod_iff in H2 as [H2 _]. contradiction.
  - split; [|rewrite prod_length; lia]. intros [a b]. rewrite in_prod_iff. cbn. now rewrite I, I'.
Qed.

(** *** BoundedSizeScalar *)
Lemma strings_mod k n v : 0 <= n <= 8 * Z.of_nat k -> 0 <= v < 2 ^ n ->
  exactly (2 ^ (8 * Z.of_nat k - n)) (fun buf => (length buf = k /\ bytes_ok buf) /\ le_val buf mod 2 ^ n = v).
Proof.
  intros Hn Hv. assert (E : 2 ^ (8 * Z.of_nat k) = 256 ^ Z.of_nat k) by (rewrite Z.pow_mul_r by lia; reflexivity).
  eapply (exactly_map (le_bytes k) le_val); [| |exact (exactly_mod n (8 * Z.of_nat k) v ltac:(lia) Hv)].
  - intros r [R M]. rewrite E in R. split; [|now apply le_val_bytes_small]. split; [split; [apply le_bytes_length|apply le_bytes_ok]|].
    now rewrite le_val_bytes_small.
  - intros buf [[L B] M]. pose proof (le_val_range buf B) as R. rewrite L in R. split; [rewrite E; auto|]. rewrite <- L. now apply le_bytes_val.
Qed.
Lemma bounded_mod n buf : 1 <= n <= 251 -> bytes_ok buf ->
  let k := Z.to_nat ((7 + n) / 8) in
  length buf = k ->
  le_val (firstn (k - 1) buf ++ [Z.land (nth (k - 1) buf 0) (Z.shiftr 255 (Z.land (8 - n) 7))] ++ repeat 0 (32 - k)) = le_val buf mod 2 ^ n.
Proof.
  intros Hn B k L. pose proof (Z.div_mod (7 + n) 8 ltac:(lia)) as E. pose proof (Z.mod_pos_bound (7 + n) 8 ltac:(lia)) as Hb.
  rewrite mask_value by assumption. set (q := (7 + n) / 8) in *. assert (Hk : Z.of_nat k = q) by (unfold k; lia).
  set (w := n - 8 * (q - 1)). assert (Hw : 1 <= w <= 8) by (unfold w; lia).
  replace (2 ^ w - 1) with (Z.ones w) by (rewrite Z.ones_equiv; lia). rewrite Z.land_ones by lia.
  assert (Es : buf = firstn (k - 1) buf ++ [nth (k - 1) buf 0]).
  { rewrite <- (firstn_skipn (k - 1) buf) at 1. f_equal. destruct (skipn (k - 1) buf) as [|x r] eqn:Q.
    - apply (f_equal (@length Z)) in Q. rewrite skipn_length in Q. cbn in Q. lia.
    - assert (r = []) by (destruct r; [reflexivity|]; apply (f_equal (@length Z)) in Q; rewrite skipn_length in Q; cbn in Q; lia). subst r. f_equal.
      replace (k - 1)%nat with (k - 1 + 0)%nat by lia. rewrite <- nth_skipn, Q. reflexivity. }
  set (x := nth (k - 1) buf 0) in *. set (l := firstn (k - 1) buf) in *.
  assert (Ll : length l = (k - 1)%nat) by (unfold l; rewrite firstn_length; lia).
  assert (Bl : bytes_ok l) by (rewrite Es in B; unfold bytes_ok in *; apply Forall_app in B; apply B).
  rewrite Es at 1. rewrite !le_val_app, le_val_repeat0, Ll. cbn [le_val length]. rewrite Z.mul_0_r, !Z.mul_0_r, !Z.add_0_r.
  pose proof (le_val_range l Bl) as R. rewrite Ll in R.
  assert (En : 2 ^ n = 256 ^ Z.of_nat (k - 1) * 2 ^ w).
  { replace (Z.of_nat (k - 1)) with (q - 1) by lia. change 256 with (2 ^ 8). rewrite <- Z.pow_mul_r, <- Z.pow_add_r by lia. f_equal. unfold w. lia. }
  rewrite En. set (M := 256 ^ Z.of_nat (k - 1)) in *. assert (0 < 2 ^ w) by (apply Z.pow_pos_nonneg; lia).
  rewrite (Z.rem_mul_r _ M (2 ^ w)) by lia. rewrite (Z.mul_comm M x), Z.mod_add, Z.div_add, (Z.mod_small (le_val l)), (Z.div_small (le_val l)) by lia.
  rewrite Z.add_0_l. reflexivity.
Qed.
Definition same_sign (z r : Z) : Prop := if z =? 0 then True else Z.odd r = (z <? 0).
Lemma words_count z : exactly (if z =? 0 then 2 ^ 32 else 2 ^ 31) (fun r => word32 r /\ same_sign z r).
Proof.
  unfold same_sign. destruct (z =? 0).
  - eapply exactly_ext; [|exact (exactly_mod 0 32 0 ltac:(lia) ltac:(lia))]. intros r. unfold word32. change (2 ^ 0) with 1. rewrite Z.mod_1_r. tauto.
  - eapply exactly_ext; [|exact (exactly_mod 1 32 (if z <? 0 then 1 else 0) ltac:(lia) ltac:(change (2 ^ 1) with 2; destruct (z <? 0); lia))].
    intros r. unfold word32. change (2 ^ 1) with 2. rewrite Zmod_odd. destruct (Z.odd r), (z <? 0); intuition (discriminate || lia || auto).
Qed.
Lemma represents_val b y z : length b = 32%nat -> bytes_ok b -> le_val b = y mod P25519 -> (represents b (toF P25519 z) <-> (y - z) mod P25519 = 0).
Proof.
  intros L B V. unfold represents. rewrite V, fval_toF. split.
  - intros [_ Q]. rewrite Zminus_mod, Q, Z.sub_diag. reflexivity.
  - intros Q. split; [split; [exact L|now apply bytes_ok_nth]|].
    apply Z.mod_divide in Q; [|discriminate]. destruct Q as [c Q]. replace y with (z + c * P25519) by lia. apply Z.mod_add. discriminate.
Qed.
Lemma small_zero d : - 2 ^ 252 <= d <= 2 ^ 252 -> (d mod P25519 = 0 <-> d = 0).
Proof.
  intros H. assert (HP : 2 ^ 252 < P25519) by reflexivity. split; [|intros ->; reflexivity]. intros Q. apply Z.mod_divide in Q; [|discriminate].
  destruct Q as [c Q]. assert (c = 0) by nia. lia.
Qed.
Lemma bounded_count n nBytes mask z : bounded_new n = Ret (nBytes, mask) -> - (2 ^ n - 1) <= z <= 2 ^ n - 1 ->
  exactly (2 ^ (8 * nBytes - n) * (if z =? 0 then 2 ^ 32 else 2 ^ 31))
    (fun br => (Z.of_nat (length (fst br)) = nBytes /\ bytes (fst br) /\ word32 (snd br)) /\
       represents (bounded_draw nBytes mask (fst br) (snd br)) (toF P25519 z)).
Proof.
  intros Hn Hz. apply bounded_new_ret in Hn. destruct Hn as [Hn [-> ->]].
  pose proof (Z.div_mod (7 + n) 8 ltac:(lia)) as E. pose proof (Z.mod_pos_bound (7 + n) 8 ltac:(lia)) as Hb.
  set (k := Z.to_nat ((7 + n) / 8)). assert (Hk : Z.of_nat k = (7 + n) / 8) by (unfold k; lia). rewrite <- Hk.
  pose proof (strings_mod k n (Z.abs z) ltac:(lia) ltac:(lia)) as C. pose proof (exactly_pair _ _ _ _ C (words_count z)) as D.
  eapply exactly_ext; [|exact D]. clear C D. intros [buf r]. cbn [fst snd].
  assert (H251 : 2 ^ n <= 2 ^ 251) by (apply Z.pow_le_mono_r; lia). assert (H252 : 2 ^ 252 = 2 ^ 251 + 2 ^ 251) by reflexivity.
  assert (HP : 2 ^ 252 < P25519) by reflexivity.
  assert (K : length buf = k -> bytes_ok buf ->
    (represents (bounded_draw (Z.of_nat k) (Z.shiftr 255 (Z.land (8 - n) 7)) buf r) (toF P25519 z) <-> le_val buf mod 2 ^ n = Z.abs z /\ same_sign z r)).
  { intros L B. destruct (bounded_value n buf Hn B L) as (L0 & B0 & R0). pose proof (bounded_mod n buf Hn B L) as V0. cbv zeta in V0.
    fold k in L0, B0, R0, V0. unfold bounded_draw. rewrite Nat2Z.id. set (b0 := _ ++ _) in *. set (x := le_val buf mod 2 ^ n) in *. unfold same_sign.
    destruct (Z.odd r).
    - rewrite (represents_val _ (- x) z); [|apply le_bytes_length|apply le_bytes_ok|].
      + rewrite small_zero by lia. destruct (Z.eqb_spec z 0), (Z.ltb_spec z 0); intuition (discriminate || lia || auto).
      + unfold sodium_negate. rewrite enc_val, V0. reflexivity.
    - rewrite (represents_val b0 x z L0 B0) by (rewrite V0, Z.mod_small by lia; reflexivity).
      rewrite small_zero by lia. destruct (Z.eqb_spec z 0), (Z.ltb_spec z 0); intuition (discriminate || lia || auto). }
  split.
  - intros [[[L B] V] [W S]]. split; [|now apply K]. split; [lia|]. auto.
  - intros [(L & B & W) R]. assert (L' : length buf = k) by lia. destruct (proj1 (K L' B) R) as [V S]. auto.
Qed.

(** *** ZeroOneScalar *)
Lemma zeroOne_count z : -1 <= z <= 1 ->
  exactly (if z =? 0 then 2 ^ 31 else 2 ^ 30) (fun r => word32 r /\ represents (zeroOne r s_zero) (toF P25519 z)).
Proof.
  intros Hz.
  assert (K : forall r, represents (zeroOne r s_zero) (toF P25519 z) <-> (if Z.odd r then (if Z.testbit r 1 then -1 else 1) else 0) = z).
  { intros r. pose proof (zeroOne_zero r) as H. set (y := if Z.odd r then _ else _) in *.
    assert (Hy : -1 <= y <= 1) by (unfold y; destruct (Z.odd r), (Z.testbit r 1); lia). split; [|intros <-; exact H].
    destruct H as [_ H]. intros [_ H']. rewrite H in H'. rewrite !fval_toF in H'.
    assert (Q : (y - z) mod P25519 = 0) by (rewrite Zminus_mod, H', Z.sub_diag; reflexivity). clearbody y. assert (2 < 2 ^ 252) by reflexivity. apply (proj1 (small_zero (y - z) ltac:(lia))) in Q. lia. }
  assert (M4 : forall r, r mod 2 ^ 2 = (if Z.odd r then 1 else 0) + 2 * (if Z.testbit r 1 then 1 else 0)).
  { intros r. change (2 ^ 2) with (2 * 2). rewrite Z.rem_mul_r by lia. rewrite Zmod_odd. f_equal. f_equal. rewrite Zmod_odd, <- (Z.bit0_odd (r / 2)), Z.div2_bits by lia. reflexivity. }
  destruct (Z.eqb_spec z 0) as [->|N].
  - eapply exactly_ext; [|exact (exactly_mod 1 32 0 ltac:(lia) ltac:(lia))]. intros r. cbv beta. rewrite K. change (2 ^ 1) with 2. rewrite Zmod_odd.
    unfold word32. destruct (Z.odd r), (Z.testbit r 1); intuition (discriminate || lia).
  - eapply exactly_ext; [|exact (exactly_mod 2 32 (if z <? 0 then 3 else 1) ltac:(lia) ltac:(change (2 ^ 2) with 4; destruct (z <? 0); lia))].
    intros r. cbv beta. rewrite K, M4. unfold word32. destruct (Z.ltb_spec z 0), (Z.odd r), (Z.testbit r 1); intuition (discriminate || lia).
Qed.

(** *** The vectors of BoundedSizeElement *)
Section Vec.
Context {p : Z} {ell : nat}.
Hypothesis Hp : 2 <= p.
Hypothesis He : (0 < ell)%nat.
Lemma zipWith_0 (v : list (elt p ell)) : zipWith eadd (repeat e0 (length v)) v = v.
Proof. induction v as [|a v IH]; [reflexivity|]. cbn. rewrite IH. f_equal. apply eadd_0_l. Qed.
Lemma small_0 n : small (p := p) (ell := ell) 0 (repeat e0 n).
Proof.
  intros s z Hs Hz. assert (s = f0).
  { unfold coeffs_of in Hs. apply in_flat_map in Hs as (e & He' & Hs). apply repeat_spec in He'. subst e. apply in_map_iff in Hs as (i & <- & Hi).
    apply coeff_e0. }
  subst s. assert (E : is_balanced (p := p) f0 0) by (split; [reflexivity|lia]).
  rewrite (is_balanced_unique Hp _ _ _ Hz E). cbn. lia.
Qed.
Lemma zero_agree (v : list (elt p ell)) : agree (repeat e0 (length v)) v = zero_coeffs v.
Proof.
  unfold agree, zero_coeffs. assert (E : forall n, coeffs_of (repeat (e0 : elt p ell) n) = repeat f0 (n * ell)).
  { intros n. unfold coeffs_of. induction n as [|n IH]; [reflexivity|]. cbn [repeat flat_map]. rewrite IH. cbn [Nat.mul].
    rewrite repeat_app. f_equal. transitivity (map (fun _ : nat => (f0 : Fp p)) (seq 0 ell)).
    - apply map_ext. intros i. apply coeff_e0.
    - generalize 0%nat. clear. induction ell as [|m IH]; intros a; [reflexivity|]. cbn. now rewrite IH. }
  rewrite E. assert (L : length (coeffs_of v) = (length v * ell)%nat).
  { unfold coeffs_of. clear. induction v as [|a v IH]; [reflexivity|]. cbn [flat_map length]. rewrite app_length, map_length, seq_length, IH. reflexivity. }
  rewrite <- L. generalize (coeffs_of v). clear. induction l as [|a l IH]; [reflexivity|]. cbn [length repeat combine filter fst snd].
  assert (S : feqb f0 a = feqb a f0) by (unfold feqb; apply Z.eqb_sym). rewrite S. destruct (feqb a f0); cbn [length]; now rewrite IH.
Qed.
Lemma vector_count (b : Z) (z : list (elt p ell)) : 0 <= b -> 2 * 2 ^ b <= p -> small (2 ^ b - 1) z ->
  exactly (2 ^ Z.of_nat (zero_coeffs z))
    (fun r => draws b (length z * ell) r /\ sample_vec (fun j => nth j r (0, 0)) b 0 (length z) = z).
Proof.
  intros Hb H2 Hz. pose proof (replies Hp He b 0 (2 ^ b - 1) Hb H2 ltac:(lia) (repeat e0 (length z)) z (repeat_length _ _) (small_0 _) Hz) as C.
  rewrite repeat_length, zero_agree in C. eapply exactly_ext; [|exact C]. intros r. cbv beta.
  assert (L : length (@sample_vec p ell (fun j => nth j r (0, 0)) b 0 (length z)) = length z) by (unfold sample_vec; now rewrite map_length, seq_length).
  assert (M : forall v : list (elt p ell), length v = length z -> (vecAdd (repeat e0 (length z)) v = Ret z <-> v = z)).
  { intros v Lv. unfold vecAdd. rewrite repeat_length, Lv, Nat.eqb_refl. cbn [negb]. rewrite <- Lv, zipWith_0. split; congruence. }
  split; intros [D Q]; (split; [exact D|]); now apply (M _ L).
Qed.
End Vec.
