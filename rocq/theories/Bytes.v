(** Little-endian byte strings (bytes are integers in 0..255). *)
From Coq Require Import ZArith List Lia.
Import ListNotations.
Open Scope Z_scope.

Definition is_byte (b : Z) : Prop := 0 <= b < 256.
Definition bytes_ok (l : list Z) : Prop := Forall is_byte l.

(** The [len] low-order bytes of z; NTL::BytesFromZZ(buf, n, len) writes
    [le_bytes len (Z.abs n)]. *)
Fixpoint le_bytes (len : nat) (z : Z) : list Z :=
  match len with
  | O => []
  | S k => z mod 256 :: le_bytes k (z / 256)
  end.
(** NTL::ZZFromBytes. *)
Fixpoint le_val (l : list Z) : Z :=
  match l with
  | [] => 0
  | b :: l' => b + 256 * le_val l'
  end.

Lemma le_bytes_length len z : length (le_bytes len z) = len.
Proof. revert z. induction len; intros z; cbn; congruence. Qed.
Lemma le_bytes_ok len z : bytes_ok (le_bytes len z).
Proof.
  revert z. induction len as [|k IH]; intros z; cbn [le_bytes]; constructor.
  - apply Z.mod_pos_bound. lia.
  - apply IH.
Qed.
Lemma le_val_bytes len z : le_val (le_bytes len z) = z mod 256 ^ Z.of_nat len.
Proof.
  revert z. induction len as [|k IH]; intros z.
  - cbn. now rewrite Z.mod_1_r.
  - cbn [le_bytes le_val]. rewrite IH, Nat2Z.inj_succ, Z.pow_succ_r by lia.
    rewrite Z.rem_mul_r by (try apply Z.pow_pos_nonneg; lia). reflexivity.
Qed.
Lemma le_val_bytes_small len z : 0 <= z < 256 ^ Z.of_nat len -> le_val (le_bytes len z) = z.
Proof. intros H. rewrite le_val_bytes. now apply Z.mod_small. Qed.
Lemma le_val_range l : bytes_ok l -> 0 <= le_val l < 256 ^ Z.of_nat (length l).
Proof.
  induction 1 as [|b l Hb _ IH]; [cbn; lia|]. cbn [le_val length].
  rewrite Nat2Z.inj_succ, Z.pow_succ_r by lia. unfold is_byte in Hb. lia.
Qed.
Lemma le_bytes_val l : bytes_ok l -> le_bytes (length l) (le_val l) = l.
Proof.
  induction 1 as [|b l Hb _ IH]; [reflexivity|]. cbn [le_val length le_bytes].
  unfold is_byte in Hb.
  replace (b + 256 * le_val l) with (b + le_val l * 256) by ring. f_equal.
  - rewrite Z_mod_plus_full. now apply Z.mod_small.
  - rewrite Z.div_add by lia. rewrite Z.div_small by lia. exact IH.
Qed.
Lemma le_val_inj l l' : bytes_ok l -> bytes_ok l' -> length l = length l' -> le_val l = le_val l' -> l = l'.
Proof. intros H H' Hlen E. rewrite <- (le_bytes_val l H), <- (le_bytes_val l' H'). congruence. Qed.
Lemma le_val_app l l' : le_val (l ++ l') = le_val l + 256 ^ Z.of_nat (length l) * le_val l'.
Proof.
  induction l as [|b l IH]; [cbn [app le_val length]; change (256 ^ Z.of_nat 0) with 1; lia|].
  cbn [app le_val length]. rewrite IH.
  rewrite Nat2Z.inj_succ, Z.pow_succ_r by lia. ring.
Qed.
Lemma le_val_repeat0 n : le_val (repeat 0 n) = 0.
Proof. induction n as [|n IH]; [reflexivity|]. cbn [repeat le_val]. lia. Qed.
Lemma bytes_ok_app l l' : bytes_ok (l ++ l') <-> bytes_ok l /\ bytes_ok l'.
Proof. apply Forall_app. Qed.
Lemma bytes_ok_repeat0 n : bytes_ok (repeat 0 n).
Proof. induction n; cbn; constructor; auto. split; lia. Qed.
