(** Lemmas on counting challenge strings and the ternary matrices they encode. *)
From Coq Require Import ZArith Lia List Bool Arith.
From Verif Require Import Outcome Fp FSum Ring TernaryModel TernarySpec TernaryProofs CountSpec.
Import ListNotations.
Open Scope Z_scope.

Definition zs {A} (g : A -> Z) (l : list A) : Z := fold_right (fun a s => g a + s) 0 l.
Definition ind (b : bool) : Z := if b then 1 else 0.
Lemma count_zs {A} (f : A -> bool) l : count f l = zs (fun a => ind (f a)) l.
Proof.
  unfold count. induction l as [|a l IH]; [reflexivity|]. cbn [filter zs fold_right]. fold (zs (fun a => ind (f a)) l).
  rewrite <- IH. destruct (f a); cbn [length ind]; lia.
Qed.
Lemma zs_app {A} (g : A -> Z) l l' : zs g (l ++ l') = zs g l + zs g l'.
Proof. induction l as [|a l IH]; [reflexivity|]. cbn [app zs fold_right]. fold (zs g (l ++ l')) (zs g l). lia. Qed.
Lemma zs_map {A B} (g : B -> Z) (h : A -> B) l : zs g (map h l) = zs (fun a => g (h a)) l.
Proof. induction l as [|a l IH]; [reflexivity|]. cbn [map zs fold_right]. unfold zs in *. now rewrite IH. Qed.
Lemma zs_flat_map {A B} (g : B -> Z) (h : A -> list B) l : zs g (flat_map h l) = zs (fun a => zs g (h a)) l.
Proof. induction l as [|a l IH]; [reflexivity|]. cbn [flat_map]. rewrite zs_app, IH. reflexivity. Qed.
Lemma zs_ext {A} (g h : A -> Z) l : (forall a, In a l -> g a = h a) -> zs g l = zs h l.
Proof.
  induction l as [|a l IH]; intros H; [reflexivity|]. cbn [zs fold_right]. fold (zs g l) (zs h l).
  rewrite H by now left. rewrite IH; [reflexivity|]. intros; apply H; now right.
Qed.
Lemma zs_le {A} (g h : A -> Z) l : (forall a, In a l -> g a <= h a) -> zs g l <= zs h l.
Proof.
  induction l as [|a l IH]; intros H; [cbn; lia|]. cbn [zs fold_right]. fold (zs g l) (zs h l).
  pose proof (H a (or_introl eq_refl)). specialize (IH (fun b Hb => H b (or_intror Hb))). lia.
Qed.
Lemma zs_scale {A} k (g : A -> Z) l : zs (fun a => k * g a) l = k * zs g l.
Proof. induction l as [|a l IH]; cbn [zs fold_right]; [lia|]. fold (zs (fun a => k * g a) l) (zs g l). lia. Qed.
Lemma zs_add {A} (g h : A -> Z) l : zs (fun a => g a + h a) l = zs g l + zs h l.
Proof. induction l as [|a l IH]; cbn [zs fold_right]; [lia|]. unfold zs in *. lia. Qed.
Lemma zs_zero {A} (l : list A) : zs (fun _ => 0) l = 0.
Proof. induction l as [|a l IH]; cbn [zs fold_right]; [reflexivity|]. unfold zs in *. lia. Qed.
Lemma zs_const {A} k (l : list A) : zs (fun _ => k) l = k * Z.of_nat (length l).
Proof. induction l as [|a l IH]; cbn [zs fold_right length]; [lia|]. fold (zs (fun _ : A => k) l). lia. Qed.
Lemma zs_swap {A B} (g : A -> B -> Z) la lb : zs (fun a => zs (g a) lb) la = zs (fun b => zs (fun a => g a b) la) lb.
Proof.
  induction la as [|a la IH]; cbn [zs fold_right].
  - now rewrite zs_zero.
  - fold (zs (fun a => zs (g a) lb) la). rewrite IH, <- zs_add. apply zs_ext. reflexivity.
Qed.

Lemma strings_length n : Z.of_nat (length (strings n)) = 256 ^ Z.of_nat n.
Proof.
  induction n as [|n IH]; [reflexivity|]. rewrite Nat2Z.inj_succ, Z.pow_succ_r by lia. rewrite <- IH.
  cbn [strings]. rewrite <- (Z.mul_1_l (Z.of_nat _)), <- (zs_const 1), zs_flat_map.
  rewrite (zs_ext _ (fun _ => Z.of_nat (length (strings n)))).
  - rewrite zs_const. replace (Z.of_nat (length all_bytes)) with 256 by reflexivity. lia.
  - intros b _. rewrite zs_const, map_length. lia.
Qed.
Lemma in_all_bytes b : In b all_bytes <-> 0 <= b < 256.
Proof.
  unfold all_bytes. rewrite in_map_iff. split.
  - intros [k [<- Hk]]. apply in_seq in Hk. lia.
  - intros H. exists (Z.to_nat b). split; [lia|]. apply in_seq. lia.
Qed.
Lemma in_strings n : forall s, In s (strings n) <-> length s = n /\ bytes s.
Proof.
  induction n as [|n IH]; intros s.
  - cbn. split; [intros [<-|[]]; split; [reflexivity|constructor]|intros [H _]; destruct s; [now left|discriminate H]].
  - cbn [strings]. rewrite in_flat_map. split.
    + intros [b [Hb Hs]]. apply in_map_iff in Hs. destruct Hs as [t [<- Ht]]. apply IH in Ht. destruct Ht as [Hl Ht].
      split; [cbn; congruence|]. constructor; [now apply in_all_bytes|assumption].
    + intros [Hl Hs]. destruct s as [|b t]; [discriminate Hl|]. inversion Hs as [|? ? Hb Ht]; subst. exists b. split; [now apply in_all_bytes|].
      apply in_map. apply IH. split; [now injection Hl|assumption].
Qed.
Lemma strings_NoDup n : NoDup (strings n).
Proof.
  induction n as [|n IH]; [repeat constructor; intros []|]. cbn [strings].
  assert (N : NoDup all_bytes).
  { assert (G : forall k a, NoDup (map Z.of_nat (seq a k))).
    { induction k as [|k IHk]; intros a; [constructor|]. cbn [seq map]. constructor; [|apply IHk].
      rewrite in_map_iff. intros [x [E Hx]]. apply in_seq in Hx. lia. }
    apply G. }
  induction all_bytes as [|b l IHl]; [constructor|]. inversion N as [|? ? Hb Nl]; subst. cbn [flat_map].
  assert (App : forall (A : Type) (l1 l2 : list A), NoDup l1 -> NoDup l2 -> (forall x, In x l1 -> ~ In x l2) -> NoDup (l1 ++ l2)).
  { intros A l1. induction l1 as [|x l1 IH1]; intros l2 H1 H2 H3; [assumption|]. inversion H1; subst. cbn. constructor.
    - rewrite in_app_iff. intros [?|Hx]; [contradiction|]. exact (H3 x (or_introl eq_refl) Hx).
    - apply IH1; [assumption|assumption|]. intros y Hy. apply H3. now right. }
  apply App; [|now apply IHl|].
  - clear -IH. induction IH as [|s l Hs Hl IHl]; cbn; constructor; [|assumption].
    rewrite in_map_iff. intros [t [E Ht]]. injection E as ->. contradiction.
  - intros s Hs Hs'. apply in_map_iff in Hs. destruct Hs as [t [<- _]]. apply in_flat_map in Hs'. destruct Hs' as [b' [Hb' Hs']].
    apply in_map_iff in Hs'. destruct Hs' as [t' [E _]]. injection E as -> _. contradiction.
Qed.
Lemma zs_strings_app a b : forall g, zs g (strings (a + b)) = zs (fun x => zs (fun y => g (x ++ y)) (strings b)) (strings a).
Proof.
  induction a as [|a IH]; intros g; cbn [Nat.add strings].
  - cbn [zs fold_right app]. unfold zs. cbn. lia.
  - rewrite !zs_flat_map. apply zs_ext. intros c _. rewrite !zs_map. rewrite IH. reflexivity.
Qed.
Lemma zs_strings_mid a m b g : zs g (strings (a + (m + b))) =
  zs (fun x => zs (fun z => zs (fun y => g (x ++ y ++ z)) (strings m)) (strings b)) (strings a).
Proof.
  rewrite zs_strings_app. apply zs_ext. intros x _. rewrite zs_strings_app. apply zs_swap.
Qed.
(** Bounding the fraction for the middle part bounds the whole fraction. *)
Lemma count_mid_le a m b K f : (forall x z, bytes x -> bytes z -> length x = a -> length z = b ->
    K * count (fun y => f (x ++ y ++ z)) (strings m) <= 256 ^ Z.of_nat m) ->
  K * count f (strings (a + (m + b))) <= 256 ^ Z.of_nat (a + (m + b)).
Proof.
  intros H. rewrite count_zs, zs_strings_mid, <- zs_scale.
  transitivity (zs (fun _ : list Z => 256 ^ Z.of_nat (m + b)) (strings a)).
  - apply zs_le. intros x Hx. apply in_strings in Hx. destruct Hx as [Lx Bx]. rewrite <- zs_scale.
    transitivity (zs (fun _ : list Z => 256 ^ Z.of_nat m) (strings b)).
    + apply zs_le. intros z Hz. apply in_strings in Hz. destruct Hz as [Lz Bz]. rewrite <- count_zs. now apply H.
    + rewrite zs_const, strings_length, <- Z.pow_add_r by lia. rewrite Nat2Z.inj_add. lia.
  - rewrite zs_const, strings_length, <- Z.pow_add_r by lia. rewrite (Nat2Z.inj_add a). rewrite Z.add_comm. lia.
Qed.
Lemma count_mid_eq a m b K f : (forall x z, bytes x -> bytes z -> length x = a -> length z = b ->
    K * count (fun y => f (x ++ y ++ z)) (strings m) = 256 ^ Z.of_nat m) ->
  K * count f (strings (a + (m + b))) = 256 ^ Z.of_nat (a + (m + b)).
Proof.
  intros H. rewrite count_zs, zs_strings_mid, <- zs_scale.
  transitivity (zs (fun _ : list Z => 256 ^ Z.of_nat (m + b)) (strings a)).
  - apply zs_ext. intros x Hx. apply in_strings in Hx. destruct Hx as [Lx Bx]. rewrite <- zs_scale.
    transitivity (zs (fun _ : list Z => 256 ^ Z.of_nat m) (strings b)).
    + apply zs_ext. intros z Hz. apply in_strings in Hz. destruct Hz as [Lz Bz]. rewrite <- count_zs. now apply H.
    + rewrite zs_const, strings_length, <- Z.pow_add_r by lia. rewrite Nat2Z.inj_add. reflexivity.
  - rewrite zs_const, strings_length, <- Z.pow_add_r by lia. rewrite (Nat2Z.inj_add a). f_equal. lia.
Qed.

(** The j-th entry encoded in a row of bytes. *)
Definition trit (l : list Z) (j : nat) : Z :=
  let b := nth (j / 4) l 0 in
  two_bits (Z.testbit b (2 * Z.of_nat (j mod 4))) (Z.testbit b (2 * Z.of_nat (j mod 4) + 1)).
Fixpoint zprod (h : nat -> Z) (a n : nat) : Z :=
  match n with O => 1 | S n' => h a * zprod h (S a) n' end.
Lemma zprod_ext h g n : forall a, (forall j, (a <= j < a + n)%nat -> h j = g j) -> zprod h a n = zprod g a n.
Proof. induction n as [|n IH]; intros a H; [reflexivity|]. cbn. rewrite H by lia. rewrite (IH (S a)); [reflexivity|]. intros; apply H; lia. Qed.
Lemma zprod_shift h k n : forall a, zprod h (k + a) n = zprod (fun j => h (k + j)%nat) a n.
Proof. induction n as [|n IH]; intros a; [reflexivity|]. cbn. now rewrite <- IH, Nat.add_succ_r. Qed.
Lemma zprod_4 h n : zprod h 4 n = zprod (fun j => h (4 + j)%nat) 0 n.
Proof. exact (zprod_shift h 4 n 0). Qed.
Lemma zprod_bound h c n : forall a, 0 <= c -> (forall j, (a <= j < a + n)%nat -> 0 <= h j <= c) -> 0 <= zprod h a n <= c ^ Z.of_nat n.
Proof.
  induction n as [|n IH]; intros a Hc H; [cbn; lia|]. cbn [zprod]. rewrite Nat2Z.inj_succ, Z.pow_succ_r by lia.
  pose proof (H a ltac:(lia)). pose proof (IH (S a) Hc (fun j Hj => H j ltac:(lia))). nia.
Qed.
Lemma zprod_const c n : forall a, zprod (fun _ => c) a n = c ^ Z.of_nat n.
Proof. induction n as [|n IH]; intros a; [reflexivity|]. cbn [zprod]. rewrite Nat2Z.inj_succ, Z.pow_succ_r by lia. now rewrite IH. Qed.
Lemma zprod_ind f n : forall a, zprod (fun j => ind (f j)) a n = ind (forallb f (seq a n)).
Proof. induction n as [|n IH]; intros a; [reflexivity|]. cbn [zprod seq forallb]. rewrite IH. destruct (f a), (forallb f (seq (S a) n)); reflexivity. Qed.

Lemma byte_sum (h0 h1 h2 h3 : Z -> Z) :
  zs (fun b => h0 (trit [b] 0) * (h1 (trit [b] 1) * (h2 (trit [b] 2) * h3 (trit [b] 3)))) all_bytes =
  (2 * h0 0 + h0 1 + h0 (-1)) * ((2 * h1 0 + h1 1 + h1 (-1)) * ((2 * h2 0 + h2 1 + h2 (-1)) * (2 * h3 0 + h3 1 + h3 (-1)))).
Proof.
  set (q := fun b => (trit [b] 0, trit [b] 1, trit [b] 2, trit [b] 3)).
  set (S3 := fun x : Z * Z * Z * Z => match x with (a, b, c, d) => h0 a * (h1 b * (h2 c * h3 d)) end).
  transitivity (zs S3 (map q all_bytes)); [rewrite zs_map; reflexivity|].
  set (T := [0; 1; -1; 0]).
  replace (map q all_bytes) with
    (flat_map (fun d => flat_map (fun c => flat_map (fun b => map (fun a => (a, b, c, d)) T) T) T) T) by (vm_compute; reflexivity).
  rewrite zs_flat_map.
  rewrite (zs_ext _ (fun d => h3 d * ((2 * h2 0 + h2 1 + h2 (-1)) * ((2 * h1 0 + h1 1 + h1 (-1)) * (2 * h0 0 + h0 1 + h0 (-1)))))).
  - unfold T, zs. cbn [fold_right]. ring.
  - intros d _. rewrite zs_flat_map.
    rewrite (zs_ext _ (fun c => h3 d * (h2 c * ((2 * h1 0 + h1 1 + h1 (-1)) * (2 * h0 0 + h0 1 + h0 (-1)))))).
    + unfold T, zs. cbn [fold_right]. ring.
    + intros c _. rewrite zs_flat_map. rewrite (zs_ext _ (fun b => h3 d * (h2 c * (h1 b * (2 * h0 0 + h0 1 + h0 (-1)))))).
      * unfold T, zs. cbn [fold_right]. ring.
      * intros b _. unfold T, zs, S3. cbn [map fold_right]. ring.
Qed.
Lemma trit_cons_lo b l j : (j < 4)%nat -> trit (b :: l) j = trit [b] j.
Proof. intros H. unfold trit. rewrite (Nat.div_small j 4) by lia. reflexivity. Qed.
Lemma trit_cons_hi b l j : trit (b :: l) (4 + j) = trit l j.
Proof.
  unfold trit. replace ((4 + j) / 4)%nat with (S (j / 4)).
  - replace ((4 + j) mod 4)%nat with (j mod 4)%nat; [reflexivity|].
    replace (4 + j)%nat with (j + 1 * 4)%nat by lia. now rewrite Nat.mod_add.
  - replace (4 + j)%nat with (j + 1 * 4)%nat by lia. rewrite Nat.div_add by lia. lia.
Qed.
Lemma trit_sum q : forall h : nat -> Z -> Z,
  zs (fun s => zprod (fun j => h j (trit s j)) 0 (4 * q)) (strings q) =
  zprod (fun j => 2 * h j 0 + h j 1 + h j (-1)) 0 (4 * q).
Proof.
  induction q as [|q IH]; intros h; [reflexivity|].
  replace (4 * S q)%nat with (4 + 4 * q)%nat by lia. cbn [strings]. rewrite zs_flat_map.
  cbn [zprod Nat.add].
  rewrite (zprod_4 (fun j => 2 * h j 0 + h j 1 + h j (-1))). rewrite <- (IH (fun j => h (4 + j)%nat)).
  set (R := zs _ (strings q)).
  transitivity (zs (fun b => R * (h 0%nat (trit [b] 0) * (h 1%nat (trit [b] 1) * (h 2%nat (trit [b] 2) * h 3%nat (trit [b] 3))))) all_bytes).
  - apply zs_ext. intros b _. rewrite zs_map. unfold R. rewrite Z.mul_comm. rewrite <- zs_scale. apply zs_ext. intros s _.
    rewrite (zprod_4 (fun j => h j (trit (b :: s) j))).
    rewrite (trit_cons_lo b s 0), (trit_cons_lo b s 1), (trit_cons_lo b s 2), (trit_cons_lo b s 3) by lia.
    rewrite (zprod_ext _ (fun j => h (4 + j)%nat (trit s j))); [ring|]. intros j _. now rewrite trit_cons_hi.
  - rewrite zs_scale, byte_sum. ring.
Qed.
Lemma trit_ternary l j : trit l j = -1 \/ trit l j = 0 \/ trit l j = 1.
Proof. apply two_bits_ternary. Qed.

(** If each entry can take at most two of the four patterns, at most a fraction
    2^-(4q) of the rows qualifies. *)
Lemma row_count_le q (f : list Z -> bool) (g : nat -> Z -> bool) :
  (forall s, length s = q -> bytes s -> f s = true -> forall j, (j < 4 * q)%nat -> g j (trit s j) = true) ->
  (forall j, (j < 4 * q)%nat -> 2 * ind (g j 0) + ind (g j 1) + ind (g j (-1)) <= 2) ->
  2 ^ Z.of_nat (4 * q) * count f (strings q) <= 256 ^ Z.of_nat q.
Proof.
  intros Hf Hg. rewrite count_zs.
  assert (H : zs (fun s => ind (f s)) (strings q) <= 2 ^ Z.of_nat (4 * q)).
  { transitivity (zs (fun s => zprod (fun j => ind (g j (trit s j))) 0 (4 * q)) (strings q)).
    - apply zs_le. intros s Hs. apply in_strings in Hs. destruct Hs as [L B].
      rewrite zprod_ind. destruct (f s) eqn:E; [|cbn; destruct (forallb _ _); cbn; lia].
      rewrite (proj2 (forallb_forall _ _)); [cbn; lia|]. intros j Hj. apply in_seq in Hj. apply (Hf s L B E). lia.
    - rewrite (trit_sum q (fun j t => ind (g j t))). apply zprod_bound; [lia|]. intros j Hj. split; [|apply Hg; lia].
      unfold ind. destruct (g j 0), (g j 1), (g j (-1)); lia. }
  replace (256 ^ Z.of_nat q) with (2 ^ Z.of_nat (4 * q) * 2 ^ Z.of_nat (4 * q)).
  - apply Z.mul_le_mono_nonneg_l; [lia|exact H].
  - rewrite <- Z.pow_add_r by lia. replace 256 with (2 ^ 8) by reflexivity. rewrite <- Z.pow_mul_r by lia. f_equal. lia.
Qed.
Lemma row_count_eq q (f : list Z -> bool) (g : nat -> Z -> bool) :
  (forall s, length s = q -> bytes s -> (f s = true <-> forall j, (j < 4 * q)%nat -> g j (trit s j) = true)) ->
  (forall j, (j < 4 * q)%nat -> 2 * ind (g j 0) + ind (g j 1) + ind (g j (-1)) = 2) ->
  2 ^ Z.of_nat (4 * q) * count f (strings q) = 256 ^ Z.of_nat q.
Proof.
  intros Hf Hg. rewrite count_zs.
  assert (H : zs (fun s => ind (f s)) (strings q) = 2 ^ Z.of_nat (4 * q)).
  { transitivity (zs (fun s => zprod (fun j => ind (g j (trit s j))) 0 (4 * q)) (strings q)).
    - apply zs_ext. intros s Hs. apply in_strings in Hs. destruct Hs as [L B].
      rewrite zprod_ind. f_equal. specialize (Hf s L B). apply eq_true_iff_eq. rewrite Hf, forallb_forall. split; intros K j Hj.
      + apply in_seq in Hj. apply K. lia.
      + apply K. apply in_seq. lia.
    - rewrite (trit_sum q (fun j t => ind (g j t))). rewrite (zprod_ext _ (fun _ => 2)); [apply zprod_const|]. intros j Hj. apply Hg. lia. }
  rewrite H. rewrite <- Z.pow_add_r by lia. replace 256 with (2 ^ 8) by reflexivity. rewrite <- Z.pow_mul_r by lia. f_equal. lia.
Qed.
