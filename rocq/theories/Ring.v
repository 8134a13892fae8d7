(** The ring Z_p[X]/(X^ell+1) (NTL::ZZ_pE with the modulus set by
    initPdeltaG, regevEnc.cpp 42-70): an element is its list of ell
    coefficients, constant term first. *)
From Coq Require Import ZArith List Lia Bool Ring Eqdep_dec Arith.
From Verif Require Import Outcome Fp FSum.
Import ListNotations.
Open Scope Z_scope.

Record elt (p : Z) (ell : nat) := mkElt { ec : list (Fp p); ec_len : Nat.eqb (length ec) ell = true }.
Arguments ec {p ell} _.
Arguments ec_len {p ell} _.
Arguments mkElt {p ell} _ _.

Lemma elt_eq p ell (a b : elt p ell) : ec a = ec b -> a = b.
Proof.
  destruct a as [a Ha], b as [b Hb]; cbn. intros ->. f_equal. apply UIP_dec. apply bool_dec.
Qed.

(** Coordinates given by a function. *)
Definition efun {p} (ell : nat) (f : nat -> Fp p) : list (Fp p) := map f (seq 0 ell).
Lemma efun_len {p} ell (f : nat -> Fp p) : Nat.eqb (length (efun ell f)) ell = true.
Proof. unfold efun. rewrite map_length, seq_length. apply Nat.eqb_refl. Qed.
Definition mkE {p} (ell : nat) (f : nat -> Fp p) : elt p ell := mkElt (efun ell f) (efun_len ell f).

Section Ops.
Context {p : Z} {ell : nat}.
Notation F := (Fp p).
Notation E := (elt p ell).

(** coeff(e, i), algebra.hpp 103-105: zero beyond the degree. *)
Definition coeff (e : E) (i : nat) : F := nth i (ec e) 0%F.
Definition e0 : E := mkE ell (fun _ => 0%F).
Definition e1 : E := mkE ell (fun i => if Nat.eqb i 0 then 1%F else 0%F).
Definition eadd (a b : E) : E := mkE ell (fun i => (coeff a i + coeff b i)%F).
Definition esub (a b : E) : E := mkE ell (fun i => (coeff a i - coeff b i)%F).
Definition eopp (a : E) : E := mkE ell (fun i => (- coeff a i)%F).
Definition escale (c : F) (a : E) : E := mkE ell (fun i => (c * coeff a i)%F).
(** Multiplication by X modulo X^ell + 1. *)
Definition emulX (a : E) : E :=
  mkE ell (fun i => match i with O => (- coeff a (ell - 1))%F | S j => coeff a j end).
Fixpoint emulXn (n : nat) (a : E) : E := match n with O => a | S k => emulX (emulXn k a) end.
(** a * b = sum_i a_i X^i b. *)
Fixpoint emul_from (i : nat) (l : list F) (b : E) : E :=
  match l with
  | [] => e0
  | c :: l' => eadd (escale c (emulXn i b)) (emul_from (S i) l' b)
  end.
Definition emul (a b : E) : E := emul_from 0 (ec a) b.
(** The constant c and the image of an integer. *)
Definition econst (c : F) : E := mkE ell (fun i => if Nat.eqb i 0 then c else 0%F).
(** X^i; X itself for ell >= 2. *)
Definition eX (i : nat) : E := emulXn i e1.

Definition eeqb (a b : E) : bool := forallb (fun i => feqb (coeff a i) (coeff b i)) (seq 0 ell).

Lemma ec_length (e : E) : length (ec e) = ell.
Proof. apply Nat.eqb_eq, ec_len. Qed.

Lemma coeff_mkE f i : coeff (mkE ell f) i = if (i <? ell)%nat then f i else 0%F.
Proof.
  unfold coeff, mkE, efun; cbn [ec].
  destruct (Nat.ltb_spec i ell) as [H|H].
  - rewrite (nth_indep _ 0%F (f 0%nat)) by (rewrite map_length, seq_length; lia).
    rewrite map_nth, seq_nth by lia. reflexivity.
  - apply nth_overflow. rewrite map_length, seq_length. lia.
Qed.
Lemma coeff_over e i : (ell <= i)%nat -> coeff e i = 0%F.
Proof. intros H. unfold coeff. apply nth_overflow. rewrite ec_length. lia. Qed.
Lemma coeff_ext (a b : E) : (forall i, (i < ell)%nat -> coeff a i = coeff b i) -> a = b.
Proof.
  intros H. apply elt_eq. apply nth_ext with (d := 0%F) (d' := 0%F); [now rewrite !ec_length|].
  intros i Hi. rewrite ec_length in Hi. now apply H.
Qed.

Add Ring Fring : (@Fp_ring p).

Ltac cf := apply coeff_ext; intros i Hi; unfold e0, e1, eadd, esub, eopp, escale, econst; rewrite ?coeff_mkE;
  rewrite ?(proj2 (Nat.ltb_lt _ _) Hi).

Lemma coeff_e0 i : coeff e0 i = 0%F.
Proof. unfold e0. rewrite coeff_mkE. now destruct (i <? ell)%nat. Qed.
Lemma coeff_eadd a b i : coeff (eadd a b) i = (coeff a i + coeff b i)%F.
Proof.
  unfold eadd. rewrite coeff_mkE. destruct (Nat.ltb_spec i ell); [reflexivity|].
  rewrite !coeff_over by lia. ring.
Qed.
Lemma coeff_esub a b i : coeff (esub a b) i = (coeff a i - coeff b i)%F.
Proof.
  unfold esub. rewrite coeff_mkE. destruct (Nat.ltb_spec i ell); [reflexivity|].
  rewrite !coeff_over by lia. ring.
Qed.
Lemma coeff_eopp a i : coeff (eopp a) i = (- coeff a i)%F.
Proof.
  unfold eopp. rewrite coeff_mkE. destruct (Nat.ltb_spec i ell); [reflexivity|].
  rewrite !coeff_over by lia. ring.
Qed.
Lemma coeff_escale c a i : coeff (escale c a) i = (c * coeff a i)%F.
Proof.
  unfold escale. rewrite coeff_mkE. destruct (Nat.ltb_spec i ell); [reflexivity|].
  rewrite !coeff_over by lia. ring.
Qed.
Lemma coeff_emulX a i : (i < ell)%nat ->
  coeff (emulX a) i = match i with O => (- coeff a (ell - 1))%F | S j => coeff a j end.
Proof. intros H. unfold emulX. rewrite coeff_mkE. now rewrite (proj2 (Nat.ltb_lt _ _) H). Qed.
Lemma coeff_e1 i : (0 < ell)%nat -> coeff e1 i = if Nat.eqb i 0 then 1%F else 0%F.
Proof.
  intros H. unfold e1. rewrite coeff_mkE. destruct (Nat.ltb_spec i ell); [reflexivity|].
  destruct (Nat.eqb_spec i 0); [lia|reflexivity].
Qed.

Lemma emulX_add a b : emulX (eadd a b) = eadd (emulX a) (emulX b).
Proof.
  apply coeff_ext. intros i Hi. rewrite coeff_eadd, !coeff_emulX by assumption.
  destruct i; rewrite coeff_eadd; ring.
Qed.
Lemma emulX_scale c a : emulX (escale c a) = escale c (emulX a).
Proof.
  apply coeff_ext. intros i Hi. rewrite coeff_escale, !coeff_emulX by assumption.
  destruct i; rewrite coeff_escale; ring.
Qed.
Lemma emulX_0 : emulX e0 = e0.
Proof.
  apply coeff_ext. intros i Hi. rewrite coeff_emulX by assumption.
  destruct i; rewrite ?coeff_e0; ring.
Qed.
Lemma emulXn_add n a b : emulXn n (eadd a b) = eadd (emulXn n a) (emulXn n b).
Proof. induction n as [|n IH]; cbn [emulXn]; [reflexivity|]. now rewrite IH, emulX_add. Qed.
Lemma emulXn_scale n c a : emulXn n (escale c a) = escale c (emulXn n a).
Proof. induction n as [|n IH]; cbn [emulXn]; [reflexivity|]. now rewrite IH, emulX_scale. Qed.
Lemma emulXn_0 n : emulXn n e0 = e0.
Proof. induction n as [|n IH]; cbn [emulXn]; [reflexivity|]. now rewrite IH, emulX_0. Qed.
Lemma emulXn_plus n m a : emulXn (n + m) a = emulXn n (emulXn m a).
Proof. induction n as [|n IH]; cbn [emulXn Nat.add]; [reflexivity|]. now rewrite IH. Qed.
Lemma emulX_n n a : emulX (emulXn n a) = emulXn n (emulX a).
Proof. replace (emulX a) with (emulXn 1 a) by reflexivity. rewrite <- emulXn_plus, Nat.add_comm. reflexivity. Qed.

(** coefficients of X^n a for n <= ell *)
Lemma coeff_emulXn n : forall a i, (n <= ell)%nat -> (i < ell)%nat ->
  coeff (emulXn n a) i = if (i <? n)%nat then (- coeff a (ell + i - n))%F else coeff a (i - n).
Proof.
  induction n as [|n IH]; intros a i Hn Hi; cbn [emulXn].
  - replace (i - 0)%nat with i by lia. destruct (Nat.ltb_spec i 0); [lia|reflexivity].
  - rewrite coeff_emulX by assumption. destruct i as [|i].
    + rewrite IH by lia.
      destruct (Nat.ltb_spec (ell - 1) n); [lia|].
      replace (0 <? S n)%nat with true by reflexivity.
      replace (ell + 0 - S n)%nat with (ell - 1 - n)%nat by lia. reflexivity.
    + rewrite IH by lia. destruct (Nat.ltb_spec i n); destruct (Nat.ltb_spec (S i) (S n)); try lia.
      * replace (ell + S i - S n)%nat with (ell + i - n)%nat by lia. reflexivity.
      * f_equal.
Qed.
Lemma emulXn_ell a : emulXn ell a = eopp a.
Proof.
  apply coeff_ext. intros i Hi. rewrite coeff_emulXn, coeff_eopp by lia.
  rewrite (proj2 (Nat.ltb_lt _ _) Hi). f_equal. f_equal. lia.
Qed.

(** Module laws *)
Lemma eadd_comm a b : eadd a b = eadd b a.
Proof. apply coeff_ext. intros i _. rewrite !coeff_eadd. ring. Qed.
Lemma eadd_assoc a b c : eadd a (eadd b c) = eadd (eadd a b) c.
Proof. apply coeff_ext. intros i _. rewrite !coeff_eadd. ring. Qed.
Lemma eadd_0_l a : eadd e0 a = a.
Proof. apply coeff_ext. intros i _. rewrite !coeff_eadd, coeff_e0. ring. Qed.
Lemma eadd_0_r a : eadd a e0 = a.
Proof. rewrite eadd_comm. apply eadd_0_l. Qed.
Lemma escale_add c a b : escale c (eadd a b) = eadd (escale c a) (escale c b).
Proof. apply coeff_ext. intros i _. rewrite !coeff_escale, !coeff_eadd, !coeff_escale. ring. Qed.
Lemma escale_add_l c d a : escale (c + d) a = eadd (escale c a) (escale d a).
Proof. apply coeff_ext. intros i _. rewrite !coeff_eadd, !coeff_escale. ring. Qed.
Lemma escale_scale c d a : escale c (escale d a) = escale (c * d) a.
Proof. apply coeff_ext. intros i _. rewrite !coeff_escale. ring. Qed.
Lemma escale_0_l a : escale 0%F a = e0.
Proof. apply coeff_ext. intros i _. rewrite coeff_escale, coeff_e0. ring. Qed.
Lemma escale_0_r c : escale c e0 = e0.
Proof. apply coeff_ext. intros i _. rewrite coeff_escale, coeff_e0. ring. Qed.
Lemma escale_1 a : escale 1%F a = a.
Proof. apply coeff_ext. intros i _. rewrite coeff_escale. ring. Qed.

(** The product through sums *)
Fixpoint esum (l : list E) : E := match l with [] => e0 | a :: l' => eadd a (esum l') end.
Lemma esum_app l l' : esum (l ++ l') = eadd (esum l) (esum l').
Proof. induction l as [|a l IH]; cbn [esum map app]; [now rewrite eadd_0_l|]. now rewrite <- eadd_assoc, <- IH. Qed.
Lemma esum_map_add {A} (f g : A -> E) l :
  esum (map (fun x => eadd (f x) (g x)) l) = eadd (esum (map f l)) (esum (map g l)).
Proof.
  induction l as [|a l IH]; cbn [esum map app]; [now rewrite eadd_0_l|]. rewrite IH.
  apply coeff_ext. intros i _. rewrite !coeff_eadd. ring.
Qed.
Lemma esum_map_scale {A} c (f : A -> E) l :
  esum (map (fun x => escale c (f x)) l) = escale c (esum (map f l)).
Proof.
  induction l as [|a l IH]; cbn [esum map app]; [now rewrite escale_0_r|]. rewrite IH. now rewrite escale_add.
Qed.
Lemma esum_map_ext {A} (f g : A -> E) l : (forall x, In x l -> f x = g x) -> esum (map f l) = esum (map g l).
Proof. intros H. f_equal. apply map_ext_in. exact H. Qed.
Lemma coeff_esum l i : coeff (esum l) i = fsum (map (fun e => coeff e i) l).
Proof.
  induction l as [|a l IH]; cbn [esum map fsum]; [apply coeff_e0|].
  rewrite coeff_eadd. rewrite IH. reflexivity.
Qed.

Lemma emul_from_sum l : forall k b,
  emul_from k l b = esum (map (fun i => escale (nth i l 0%F) (emulXn (k + i) b)) (seq 0 (length l))).
Proof.
  induction l as [|c l IH]; intros k b; cbn [emul_from length seq map esum nth]; [reflexivity|].
  f_equal; [now rewrite Nat.add_0_r|]. rewrite IH, <- seq_shift, map_map. apply esum_map_ext.
  intros i _. cbn [nth]. f_equal. f_equal. lia.
Qed.
Lemma emul_sum a b : emul a b = esum (map (fun i => escale (coeff a i) (emulXn i b)) (seq 0 ell)).
Proof. unfold emul. rewrite emul_from_sum, ec_length. reflexivity. Qed.

Lemma emul_add_l a b c : emul (eadd a b) c = eadd (emul a c) (emul b c).
Proof.
  rewrite !emul_sum, <- esum_map_add. apply esum_map_ext. intros i _. now rewrite coeff_eadd, escale_add_l.
Qed.
Lemma emul_add_r a b c : emul a (eadd b c) = eadd (emul a b) (emul a c).
Proof.
  rewrite !emul_sum, <- esum_map_add. apply esum_map_ext. intros i _. now rewrite emulXn_add, escale_add.
Qed.
Lemma emul_scale_l k a b : emul (escale k a) b = escale k (emul a b).
Proof.
  rewrite !emul_sum, <- esum_map_scale. apply esum_map_ext. intros i _. now rewrite coeff_escale, escale_scale.
Qed.
Lemma emul_scale_r k a b : emul a (escale k b) = escale k (emul a b).
Proof.
  rewrite !emul_sum, <- esum_map_scale. apply esum_map_ext. intros i _.
  rewrite emulXn_scale, !escale_scale. f_equal. ring.
Qed.
Lemma emul_0_l b : emul e0 b = e0.
Proof. rewrite <- (escale_0_l e0), emul_scale_l. apply escale_0_l. Qed.
Lemma emul_0_r a : emul a e0 = e0.
Proof. rewrite <- (escale_0_l e0), emul_scale_r. apply escale_0_l. Qed.
Lemma emulX_esum l : emulX (esum l) = esum (map emulX l).
Proof.
  induction l as [|a l IH]; cbn [esum map app]; [apply emulX_0|]. now rewrite emulX_add, IH.
Qed.
(** X (a b) = a (X b) = (X a) b *)
Lemma emulX_r a b : emul a (emulX b) = emulX (emul a b).
Proof.
  rewrite !emul_sum, emulX_esum, map_map. apply esum_map_ext. intros i _.
  now rewrite emulX_scale, emulX_n.
Qed.
Lemma emulX_l a b : emul (emulX a) b = emulX (emul a b).
Proof.
  rewrite !emul_sum, emulX_esum, map_map.
  destruct (Nat.eq_dec ell 0) as [Ez|Ez]; [apply coeff_ext; intros i Hi; lia|].
  assert (Hseq : seq 0 ell = seq 0 (ell - 1) ++ [(ell - 1)%nat]).
  { replace ell with (S (ell - 1)) at 1 by lia. now rewrite seq_S. }
  assert (Hseq' : seq 0 ell = 0%nat :: map S (seq 0 (ell - 1))).
  { replace ell with (S (ell - 1)) at 1 by lia. now rewrite seq_shift. }
  rewrite Hseq' at 1. rewrite Hseq.
  rewrite map_app, esum_app. cbn [map esum]. rewrite eadd_0_r, eadd_comm. f_equal.
  - rewrite map_map. apply esum_map_ext. intros i Hi. apply in_seq in Hi.
    rewrite coeff_emulX by lia. now rewrite emulX_scale.
  - rewrite coeff_emulX by lia. rewrite emulX_scale.
    change (emulX (emulXn (ell - 1) b)) with (emulXn (S (ell - 1)) b).
    replace (S (ell - 1)) with ell by lia. rewrite emulXn_ell. cbn [emulXn].
    apply coeff_ext. intros i _. rewrite !coeff_escale, coeff_eopp. ring.
Qed.
Lemma emulXn_l n a b : emul (emulXn n a) b = emulXn n (emul a b).
Proof. induction n as [|n IH]; cbn [emulXn]; [reflexivity|]. now rewrite emulX_l, IH. Qed.
Lemma emul_esum_l l b : emul (esum l) b = esum (map (fun a => emul a b) l).
Proof.
  induction l as [|a l IH]; cbn [esum map app]; [apply emul_0_l|]. now rewrite emul_add_l, IH.
Qed.
Lemma emul_assoc a b c : emul a (emul b c) = emul (emul a b) c.
Proof.
  rewrite (emul_sum a b), emul_esum_l, map_map, (emul_sum a). apply esum_map_ext. intros i _.
  now rewrite emul_scale_l, emulXn_l.
Qed.
Lemma emul_1_l b : (0 < ell)%nat -> emul e1 b = b.
Proof.
  intros H. rewrite emul_sum. replace (seq 0 ell) with (0%nat :: seq 1 (ell - 1)).
  2:{ replace ell with (S (ell - 1)) at 2 by lia. reflexivity. }
  cbn [map esum]. rewrite coeff_e1 by assumption. cbn [Nat.eqb emulXn].
  rewrite escale_1. rewrite <- (eadd_0_r b) at 2. f_equal.
  transitivity (esum (map (fun _ : nat => e0) (seq 1 (ell - 1)))).
  - apply esum_map_ext. intros i Hi. apply in_seq in Hi. rewrite coeff_e1 by assumption.
    destruct (Nat.eqb_spec i 0); [lia|]. apply escale_0_l.
  - induction (seq 1 (ell - 1)) as [|a l IH]; cbn [esum map app]; [reflexivity|]. now rewrite eadd_0_l.
Qed.
Lemma emul_1_r a : (0 < ell)%nat -> emul a e1 = a.
Proof.
  intros H. apply coeff_ext. intros k Hk. rewrite emul_sum, coeff_esum, map_map.
  transitivity (fsum (map (fun i => if Nat.eqb i k then coeff a k else 0%F) (seq 0 ell))).
  - apply fsum_map_ext. intros i Hi. apply in_seq in Hi. rewrite coeff_escale, coeff_emulXn by lia.
    rewrite !coeff_e1 by assumption.
    destruct (Nat.ltb_spec k i).
    + destruct (Nat.eqb_spec (ell + k - i) 0); [lia|]. destruct (Nat.eqb_spec i k); [lia|]. ring.
    + destruct (Nat.eqb_spec (k - i) 0); destruct (Nat.eqb_spec i k); try lia; subst; ring.
  - assert (G : forall s n, fsum (map (fun i => if Nat.eqb i k then coeff a k else 0%F) (seq s n))
                = if (s <=? k)%nat && (k <? s + n)%nat then coeff a k else 0%F).
    { intros s n. revert s. induction n as [|n IH]; intros s; cbn [seq map fsum].
      - destruct (Nat.leb_spec s k); destruct (Nat.ltb_spec k (s + 0)); try lia; reflexivity.
      - rewrite IH. destruct (Nat.eqb_spec s k); destruct (Nat.leb_spec (S s) k);
          destruct (Nat.leb_spec s k); destruct (Nat.ltb_spec k (S s + n)); destruct (Nat.ltb_spec k (s + S n));
          try lia; cbn [andb]; ring. }
    rewrite G. destruct (Nat.leb_spec 0 k); destruct (Nat.ltb_spec k (0 + ell)); try lia. reflexivity.
Qed.
(** Every element is a sum of multiples of powers of X. *)
Lemma elt_decomp a : (0 < ell)%nat -> a = esum (map (fun i => escale (coeff a i) (eX i)) (seq 0 ell)).
Proof. intros H. unfold eX. rewrite <- emul_sum. symmetry. now apply emul_1_r. Qed.
Lemma emulX_comm a b : emul a (emulX b) = emul (emulX a) b.
Proof. now rewrite emulX_r, emulX_l. Qed.
Lemma emulXn_r n a b : emul a (emulXn n b) = emulXn n (emul a b).
Proof. induction n as [|n IH]; cbn [emulXn]; [reflexivity|]. now rewrite emulX_r, IH. Qed.
Lemma emul_esum_r a l : emul a (esum l) = esum (map (fun b => emul a b) l).
Proof.
  induction l as [|b l IH]; cbn [esum map app]; [apply emul_0_r|]. now rewrite emul_add_r, IH.
Qed.
Lemma emul_comm a b : emul a b = emul b a.
Proof.
  destruct (Nat.eq_dec ell 0) as [Ez|Ez].
  { apply coeff_ext. intros i Hi. lia. }
  assert (H : (0 < ell)%nat) by lia.
  rewrite (elt_decomp b H) at 1. rewrite emul_esum_r, map_map, (emul_sum b). apply esum_map_ext.
  intros i _. rewrite emul_scale_r. unfold eX. rewrite emulXn_r, emul_1_r by assumption. reflexivity.
Qed.

Lemma elt_ring : (0 < ell)%nat -> ring_theory e0 e1 eadd emul esub eopp (@eq E).
Proof.
  intros H. constructor.
  - apply eadd_0_l.
  - apply eadd_comm.
  - apply eadd_assoc.
  - intros x. now apply emul_1_l.
  - apply emul_comm.
  - apply emul_assoc.
  - intros x y z. apply emul_add_l.
  - intros x y. apply coeff_ext. intros i _. rewrite coeff_esub, coeff_eadd, coeff_eopp. ring.
  - intros x. apply coeff_ext. intros i _. rewrite coeff_eadd, coeff_eopp, coeff_e0. ring.
Qed.
Lemma coeff_econst c i : coeff (econst c) i = if (i =? 0)%nat && (0 <? ell)%nat then c else 0%F.
Proof.
  unfold econst. rewrite coeff_mkE. destruct (Nat.ltb_spec i ell); destruct (Nat.eqb_spec i 0); cbn [andb]; try reflexivity.
  - subst. destruct (Nat.ltb_spec 0 ell); [reflexivity|lia].
  - subst. destruct (Nat.ltb_spec 0 ell); [lia|reflexivity].
Qed.
Lemma econst_scale c a : (0 < ell)%nat -> emul (econst c) a = escale c a.
Proof.
  intros H. assert (E : econst c = escale c e1).
  { apply coeff_ext. intros i Hi. rewrite coeff_econst, coeff_escale, coeff_e1 by assumption.
    rewrite (proj2 (Nat.ltb_lt _ _) H), andb_true_r. destruct (i =? 0)%nat; ring. }
  rewrite E, emul_scale_l. now rewrite emul_1_l.
Qed.
(** The coefficients of a product. *)
Lemma coeff_emul a b k : (k < ell)%nat -> coeff (emul a b) k =
  fsum (map (fun i => (coeff a i * if (k <? i)%nat then - coeff b (ell + k - i) else coeff b (k - i))%F) (seq 0 ell)).
Proof.
  intros Hk. rewrite emul_sum, coeff_esum, map_map. apply fsum_map_ext. intros i Hi. apply in_seq in Hi.
  rewrite coeff_escale, coeff_emulXn by lia. reflexivity.
Qed.
Lemma eeqb_eq a b : eeqb a b = true <-> a = b.
Proof.
  unfold eeqb. rewrite forallb_forall. split.
  - intros H. apply coeff_ext. intros i Hi. apply feqb_eq. apply H. apply in_seq. lia.
  - intros -> i _. apply feqb_refl.
Qed.
End Ops.

Arguments coeff {p ell} _ _ : simpl never.
Arguments e0 {p ell} : simpl never.
Arguments e1 {p ell} : simpl never.
Arguments eadd {p ell} _ _ : simpl never.
Arguments esub {p ell} _ _ : simpl never.
Arguments eopp {p ell} _ : simpl never.
Arguments escale {p ell} _ _ : simpl never.
Arguments emul {p ell} _ _ : simpl never.
Arguments emulX {p ell} _ : simpl never.
Arguments econst {p ell} _ : simpl never.
Declare Scope elt_scope.
Delimit Scope elt_scope with E.
Bind Scope elt_scope with elt.
Notation "a + b" := (eadd a b) : elt_scope.
Notation "a - b" := (esub a b) : elt_scope.
Notation "a * b" := (emul a b) : elt_scope.
Notation "- a" := (eopp a) : elt_scope.
Notation "0" := e0 : elt_scope.
Notation "1" := e1 : elt_scope.
