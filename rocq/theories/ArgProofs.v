(** Reading the command line. *)
From Coq Require Import ZArith List Bool Lia.
From Verif Require Import Outcome StreamModel MainModel ArgModel ArgSpec.
Import ListNotations.
Open Scope Z_scope.

Lemma is_ws_white c : is_ws c = true <-> white c.
Proof. unfold is_ws, white. rewrite orb_true_iff, andb_true_iff, Z.eqb_eq, !Z.leb_le. tauto. Qed.
Lemma is_dig_digit c : is_dig c = true <-> digit c.
Proof. unfold is_dig, digit. rewrite andb_true_iff, !Z.leb_le. tauto. Qed.
Lemma span_app f : forall l, l = fst (span f l) ++ snd (span f l) /\ Forall (fun c => f c = true) (fst (span f l)) /\
  forall c r, snd (span f l) = c :: r -> f c = false.
Proof.
  induction l as [|c l (E & F & N)]; cbn; [repeat split; [constructor|discriminate]|]. destruct (f c) eqn:Q.
  - destruct (span f l) as [a b]. cbn in *. split; [now f_equal|]. split; [now constructor|exact N].
  - cbn. split; [reflexivity|]. split; [constructor|]. intros c' r H. now injection H as <- <-.
Qed.
Lemma span_exact f a : forall b, Forall (fun c => f c = true) a -> (forall c r, b = c :: r -> f c = false) -> span f (a ++ b) = (a, b).
Proof.
  induction a as [|c a IH]; intros b Fa Nb; cbn.
  - destruct b as [|c b]; [reflexivity|]. cbn. now rewrite (Nb c b eq_refl).
  - inversion Fa as [|? ? Hc Ha]; subst. now rewrite Hc, (IH b Ha Nb).
Qed.
Lemma digits_val_decimal : forall l a, fold_left (fun a c => 10 * a + (c - 48)) l a = a * 10 ^ Z.of_nat (length l) + decimal l.
Proof.
  induction l as [|c l IH]; intros a; cbn [fold_left decimal length]; [cbn; lia|]. rewrite IH, Nat2Z.inj_succ, Z.pow_succ_r by lia. ring.
Qed.
Lemma digits_decimal l : digits_val l = decimal l.
Proof. unfold digits_val. rewrite digits_val_decimal. lia. Qed.
(** The sign as the model reads it. *)
Definition sign_of (l : list Z) : bool * list Z :=
  match l with 43 :: l' => (false, l') | 45 :: l' => (true, l') | _ => (false, l) end.
Lemma sign_cases l : (exists l', l = 43 :: l' /\ sign_of l = (false, l')) \/ (exists l', l = 45 :: l' /\ sign_of l = (true, l')) \/
  ((forall l', l <> 43 :: l' /\ l <> 45 :: l') /\ sign_of l = (false, l)).
Proof.
  destruct l as [|c l]; [right; right; split; [split; discriminate|reflexivity]|].
  destruct (Z.eq_dec c 43) as [->|N1]; [left; eauto|]. destruct (Z.eq_dec c 45) as [->|N2]; [right; left; eauto|].
  right. right. split; [intros l'; split; congruence|]. unfold sign_of.
  destruct c as [|c|c]; try reflexivity. repeat (destruct c as [c|c|]; try reflexivity); contradiction.
Qed.

Lemma stoi_unfold s : stoi s = let (neg, l) := sign_of (snd (span is_ws s)) in
  match fst (span is_dig l) with [] => Throw | ds =>
    let v := if neg : bool then - digits_val ds else digits_val ds in if (- 2 ^ 31 <=? v) && (v <? 2 ^ 31) then Ret v else Throw end.
Proof. reflexivity. Qed.
Lemma stoi_ret s z : stoi s = Ret z <-> number_at s z /\ in_int z.
Proof.
  rewrite stoi_unfold. split.
  - destruct (span_app is_ws s) as (Es & Fs & _). set (ws := fst (span is_ws s)) in *. set (l0 := snd (span is_ws s)) in *.
    assert (Ws : Forall white ws) by (eapply Forall_impl; [|exact Fs]; intros c; apply is_ws_white).
    destruct (sign_of l0) as [neg l] eqn:Q. destruct (span_app is_dig l) as (El & Fl & Nl).
    set (ds := fst (span is_dig l)) in *. set (rest := snd (span is_dig l)) in *.
    assert (Fd : Forall digit ds) by (eapply Forall_impl; [|exact Fl]; intros c; apply is_dig_digit).
    assert (Nr : forall c r, rest = c :: r -> ~ digit c) by (intros c r Hc Hd; apply is_dig_digit in Hd; rewrite (Nl c r Hc) in Hd; discriminate).
    assert (K : ds <> [] -> forall sign, l0 = sign ++ l -> (neg = false /\ (sign = [] \/ sign = [43]) \/ neg = true /\ sign = [45]) ->
      number_at s (if neg then - digits_val ds else digits_val ds)).
    { intros Hd sign E0 Hs. exists ws, sign, ds, rest. split; [now rewrite Es, E0, El|]. split; [exact Ws|]. split; [exact Hd|]. split; [exact Fd|]. split; [exact Nr|].
      rewrite digits_decimal. destruct Hs as [[-> Hs]|[-> Hs]]; auto. }
    intros H. assert (Hd : ds <> []) by (intros E; rewrite E in H; discriminate).
    assert (H' : (let v := if neg : bool then - digits_val ds else digits_val ds in if (- 2 ^ 31 <=? v) && (v <? 2 ^ 31) then Ret v else Throw) = Ret z)
      by (destruct ds; [congruence|exact H]).
    cbv zeta in H'. set (v := if neg then _ else _) in *. destruct (Z.leb_spec (- 2 ^ 31) v), (Z.ltb_spec v (2 ^ 31)); cbn [andb] in H'; try discriminate.
    injection H' as <-. split; [|unfold in_int; lia].
    destruct (sign_cases l0) as [(l' & E0 & S)|[(l' & E0 & S)|[_ S]]]; rewrite S in Q; injection Q as <- <-.
    + apply (K Hd [43] E0). auto.
    + apply (K Hd [45] E0). auto.
    + apply (K Hd [] eq_refl). auto.
  - intros [(ws & sign & ds & rest & -> & Fw & Hd & Fd & Nr & HS) Hi].
    assert (Fw' : Forall (fun c => is_ws c = true) ws) by (eapply Forall_impl; [|exact Fw]; intros c; apply is_ws_white).
    assert (Fd' : Forall (fun c => is_dig c = true) ds) by (eapply Forall_impl; [|exact Fd]; intros c; apply is_dig_digit).
    assert (Nr' : forall c r, rest = c :: r -> is_dig c = false).
    { intros c r Hc. destruct (is_dig c) eqn:Q; [|reflexivity]. apply is_dig_digit in Q. now apply Nr in Hc. }
    destruct ds as [|d ds]; [congruence|]. assert (Dd : digit d) by now inversion Fd.
    assert (Wd : is_ws d = false) by (destruct (is_ws d) eqn:Q; [apply is_ws_white in Q; unfold white, digit in *; lia|reflexivity]).
    assert (Nw : forall c r, sign ++ (d :: ds) ++ rest = c :: r -> is_ws c = false).
    { intros c r Hc. destruct HS as [[[->| ->] _]|[-> _]]; cbn in Hc; injection Hc as <- _; [exact Wd|reflexivity|reflexivity]. }
    rewrite (span_exact is_ws ws _ Fw' Nw). cbn [snd].
    assert (SG : sign_of (sign ++ (d :: ds) ++ rest) = (match sign with [45] => true | _ => false end, (d :: ds) ++ rest)).
    { destruct HS as [[[->| ->] _]|[-> _]]; [|reflexivity|reflexivity]. cbn [app].
      destruct (sign_cases (d :: ds ++ rest)) as [(l' & E0 & _)|[(l' & E0 & _)|[_ S]]]; [| |exact S]; injection E0 as -> _; unfold digit in Dd; lia. }
    rewrite SG. rewrite (span_exact is_dig (d :: ds) rest Fd' Nr'). cbn [fst].
    assert (V : (if match sign with [45] => true | _ => false end then - digits_val (d :: ds) else digits_val (d :: ds)) = z)
      by (rewrite digits_decimal; destruct HS as [[[->| ->] ->]|[-> ->]]; reflexivity).
    cbv zeta. rewrite V. unfold in_int in Hi. destruct (Z.leb_spec (- 2 ^ 31) z), (Z.ltb_spec z (2 ^ 31)); try lia. reflexivity.
Qed.
Lemma stoi_total s : stoi s = Throw \/ exists z, stoi s = Ret z.
Proof.
  rewrite stoi_unfold. destruct (sign_of _) as [neg l]. destruct (fst (span is_dig l)) as [|d ds]; [now left|]. cbv zeta. destruct (_ && _); eauto.
Qed.
