(** Lemmas for C26: what the stream operators do to a written transcript. *)
From Coq Require Import ZArith List Bool Lia.
From Verif Require Import Outcome StreamModel StreamSpec.
Import ListNotations.
Open Scope Z_scope.

Lemma ws_spec c : is_ws c = true <-> c = 32 \/ 9 <= c <= 13.
Proof. unfold is_ws. rewrite orb_true_iff, andb_true_iff, Z.eqb_eq, !Z.leb_le. reflexivity. Qed.
Lemma dig_spec c : is_dig c = true <-> 48 <= c <= 57.
Proof. unfold is_dig. now rewrite andb_true_iff, !Z.leb_le. Qed.
Lemma dig_not_ws c : is_dig c = true -> is_ws c = false.
Proof. intros H. apply dig_spec in H. destruct (is_ws c) eqn:E; [|reflexivity]. apply ws_spec in E. lia. Qed.

Definition stops (f : Z -> bool) (l : list Z) : Prop := match l with [] => True | c :: _ => f c = false end.
Lemma span_app f a l : Forall (fun c => f c = true) a -> span f (a ++ l) = (a ++ fst (span f l), snd (span f l)).
Proof.
  induction 1 as [|c a Hc _ IH]; cbn [app]; [now destruct (span f l)|]. cbn [span]. rewrite Hc, IH. reflexivity.
Qed.
Lemma span_stop f l : stops f l -> span f l = ([], l).
Proof. destruct l as [|c l]; [reflexivity|]. cbn [stops span]. now intros ->. Qed.
Lemma span_nil f l : fst (span f l) = [] -> stops f l.
Proof. destruct l as [|c l]; [reflexivity|]. cbn [span stops]. destruct (f c); [|reflexivity]. destruct (span f l). discriminate. Qed.
Lemma span_split f l : fst (span f l) ++ snd (span f l) = l.
Proof. induction l as [|c l IH]; [reflexivity|]. cbn [span]. destruct (f c); [|reflexivity]. destruct (span f l). cbn [fst snd app] in *. congruence. Qed.
Lemma span_all f l : Forall (fun c => f c = true) (fst (span f l)).
Proof. induction l as [|c l IH]; [constructor|]. cbn [span]. destruct (f c) eqn:E; [|constructor]. destruct (span f l). constructor; assumption. Qed.

(** ** Numbers *)
Lemma fold_digits a l : fold_left (fun a c => 10 * a + (c - 48)) l a = a * 10 ^ Z.of_nat (length l) + digits_val l.
Proof.
  unfold digits_val. revert a. induction l as [|c l IH]; intros a; cbn [fold_left length].
  - change (10 ^ Z.of_nat 0) with 1. lia.
  - rewrite IH, (IH (10 * 0 + _)), Nat2Z.inj_succ, Z.pow_succ_r by lia. ring.
Qed.
Lemma digits_app a b : digits_val (a ++ b) = digits_val a * 10 ^ Z.of_nat (length b) + digits_val b.
Proof. unfold digits_val at 1. rewrite fold_left_app. apply fold_digits. Qed.
Lemma digits_nonneg l : Forall (fun c => is_dig c = true) l -> 0 <= digits_val l.
Proof.
  unfold digits_val. assert (H : forall l a, 0 <= a -> Forall (fun c => is_dig c = true) l -> 0 <= fold_left (fun a c => 10 * a + (c - 48)) l a).
  { clear. induction l as [|c l IH]; intros a Ha H; [exact Ha|]. inversion_clear H as [|? ? Hc Hl]. cbn [fold_left]. apply IH; [apply dig_spec in Hc; lia|exact Hl]. }
  apply H. lia.
Qed.
Lemma dec_loop_ok f n acc : 0 <= n < 10 ^ Z.of_nat f -> (0 < f)%nat ->
  exists l, dec_loop f n acc = l ++ acc /\ l <> [] /\ Forall (fun c => is_dig c = true) l /\ digits_val l = n.
Proof.
  revert n acc. induction f as [|f IH]; intros n acc Hn Hf; [lia|]. cbn [dec_loop]. destruct (n <? 10) eqn:E.
  - apply Z.ltb_lt in E. exists [48 + n]. split; [reflexivity|]. split; [discriminate|]. split; [|unfold digits_val; cbn [fold_left]; lia].
    constructor; [|constructor]. apply dig_spec. lia.
  - apply Z.ltb_ge in E. rewrite Nat2Z.inj_succ, Z.pow_succ_r in Hn by lia.
    pose proof (Z.div_mod n 10 ltac:(lia)) as D. pose proof (Z.mod_pos_bound n 10 ltac:(lia)) as B.
    assert (R : 0 <= n / 10 < 10 ^ Z.of_nat f) by (split; [apply Z.div_pos; lia|apply Z.div_lt_upper_bound; lia]).
    assert (F : (0 < f)%nat) by (destruct f; [change (10 ^ Z.of_nat 0) with 1 in R; lia|lia]).
    destruct (IH (n / 10) (48 + n mod 10 :: acc) R F) as (l & E1 & E2 & E3 & E4).
    exists (l ++ [48 + n mod 10]). split; [now rewrite E1, <- app_assoc|]. split; [destruct l; discriminate|]. split.
    + apply Forall_app. split; [exact E3|]. constructor; [|constructor]. apply dig_spec. lia.
    + rewrite digits_app, E4. cbn [length]. change (10 ^ Z.of_nat 1) with 10. unfold digits_val. cbn [fold_left]. lia.
Qed.
Lemma dec_ok n : Z.of_nat n < 2 ^ 64 -> dec n <> [] /\ Forall (fun c => is_dig c = true) (dec n) /\ digits_val (dec n) = Z.of_nat n.
Proof.
  intros H. destruct (dec_loop_ok 20 (Z.of_nat n) []) as (l & E & A & B & C); [|lia|].
  - split; [lia|]. eapply Z.lt_trans; [exact H|]. reflexivity.
  - unfold dec. rewrite E, app_nil_r. auto.
Qed.
Lemma digits_same n d : Forall (fun c => is_dig c = true) d -> 0 <= n -> n * 10 ^ Z.of_nat (length d) + digits_val d = n -> d = [] \/ (n = 0 /\ digits_val d = 0).
Proof.
  intros Hd Hn E. destruct d as [|c d]; [now left|]. right. pose proof (digits_nonneg _ Hd) as P. cbn [length] in E.
  rewrite Nat2Z.inj_succ, Z.pow_succ_r in E by lia. assert (Q : 0 < 10 ^ Z.of_nat (length d)) by (apply Z.pow_pos_nonneg; lia).
  assert (n = 0) by nia. split; [assumption|]. subst. lia.
Qed.

(** ** Single reads *)
Definition nilb (l : list Z) : bool := match l with [] => true | _ => false end.
Lemma sentry_ok c l : is_ws c = false -> sentry (IS (c :: l) false false) = (true, IS (c :: l) false false).
Proof. intros H. unfold sentry. cbn [igood ieof ifail negb andb irest span]. rewrite H. reflexivity. Qed.
Lemma read_string_gen w l o : word w -> read_string (IS (w ++ l) false false) o =
  (w ++ fst (span (fun c => negb (is_ws c)) l), IS (snd (span (fun c => negb (is_ws c)) l)) (nilb (snd (span (fun c => negb (is_ws c)) l))) false).
Proof.
  intros [N W]. assert (F : Forall (fun c => negb (is_ws c) = true) w).
  { rewrite Forall_forall. intros c Hc. specialize (W c Hc). rewrite <- ws_spec in W. destruct (is_ws c); [contradiction W; reflexivity|reflexivity]. }
  unfold read_string. destruct w as [|c w]; [contradiction|]. cbn [app]. rewrite sentry_ok by (inversion F as [|? ? Hc]; now apply negb_true_iff).
  cbn [irest]. change (c :: w ++ l) with ((c :: w) ++ l). rewrite (span_app _ _ l F). reflexivity.
Qed.
Lemma read32_ok b l o : length b = 32%nat -> read32 (IS (b ++ l) false false) o = (b, IS l false false).
Proof.
  intros H. unfold read32. cbn [igood ieof ifail negb andb irest].
  assert (E1 : firstn 32 (b ++ l) = b) by (rewrite firstn_app, H, Nat.sub_diag, firstn_O, app_nil_r; apply firstn_all2; lia).
  assert (E2 : skipn 32 (b ++ l) = l) by (rewrite skipn_app, H, Nat.sub_diag, skipn_all2 by lia; reflexivity).
  rewrite E1, E2, H. reflexivity.
Qed.
Lemma read_all_ok bs : forall l os, Forall (fun b => length b = 32%nat) bs -> length os = length bs ->
  read_all (IS (concat bs ++ l) false false) os = (bs, IS l false false).
Proof.
  induction bs as [|b bs IH]; intros l os H L; destruct os as [|o os]; try discriminate; [reflexivity|].
  inversion_clear H as [|? ? Hb Hbs]. cbn [concat read_all]. rewrite <- app_assoc, (read32_ok b _ o Hb), (IH l os Hbs) by (cbn [length] in L; lia). reflexivity.
Qed.
Lemma sign_dig c l : is_dig c = true ->
  match c :: l with 43 :: l => (false, l) | 45 :: l => (true, l) | l => (false, l) end = (false, c :: l).
Proof.
  intros H. apply dig_spec in H.
  assert (K : c = 48 \/ c = 49 \/ c = 50 \/ c = 51 \/ c = 52 \/ c = 53 \/ c = 54 \/ c = 55 \/ c = 56 \/ c = 57) by lia.
  repeat (destruct K as [K|K]; [subst; reflexivity|]). subst. reflexivity.
Qed.
Lemma read_size_gen n l o : Z.of_nat n < 2 ^ 64 ->
  let d := fst (span is_dig l) in let r := snd (span is_dig l) in
  let v := Z.of_nat n * 10 ^ Z.of_nat (length d) + digits_val d in
  read_size (IS (dec n ++ l) false false) o = if v <? 2 ^ 64 then (Some v, IS r (nilb r) false) else (Some (2 ^ 64 - 1), IS r (nilb r) true).
Proof.
  intros Hn d r v. destruct (dec_ok n Hn) as (A & B & C). unfold read_size. destruct (dec n) as [|c w] eqn:E; [contradiction|]. inversion B as [|? ? Hc Hw]; subst.
  cbn [app]. rewrite sentry_ok by now apply dig_not_ws. cbn [irest]. rewrite sign_dig by exact Hc.
  change (c :: w ++ l) with ((c :: w) ++ l). rewrite (span_app _ _ l B). cbn [app]. change (c :: w ++ fst (span is_dig l)) with ((c :: w) ++ d).
  rewrite digits_app, C. reflexivity.
Qed.

(** ** Errors stay, lengths *)
Lemma sentry_fail s : ifail s = true -> sentry s = (false, set_fail s).
Proof. intros H. unfold sentry, igood. now rewrite H, andb_false_r. Qed.
Lemma read_all_fail os : forall s, ifail s = true -> ifail (snd (read_all s os)) = true.
Proof.
  induction os as [|o os IH]; intros s H; [exact H|]. cbn [read_all]. unfold read32, igood. rewrite H, andb_false_r.
  specialize (IH (set_fail s) eq_refl). destruct (read_all (set_fail s) os). exact IH.
Qed.
Lemma read_size_fail s o : ifail s = true -> ifail (snd (read_size s o)) = true.
Proof. intros H. unfold read_size. now rewrite (sentry_fail s H). Qed.
Lemma read_all_length os : forall s, length (fst (read_all s os)) = length os.
Proof.
  induction os as [|o os IH]; intros s; [reflexivity|]. cbn [read_all]. destruct (read32 s o) as [b s']. specialize (IH s'). destruct (read_all s' os). cbn [fst length] in *. congruence.
Qed.
Lemma resize_length l n l' : resize l n = Ret l' -> exists v, n = Some v /\ length l' = Z.to_nat v /\ v <= (2 ^ 63 - 1) / 32.
Proof.
  unfold resize. destruct n as [n|]; [|discriminate]. destruct (n <=? _) eqn:E; [|discriminate]. intros Q. injection Q as <-. exists n.
  apply Z.leb_le in E. split; [reflexivity|]. split; [|exact E]. rewrite app_length, firstn_length, repeat_length. lia.
Qed.
Lemma resize_ok l n : Z.of_nat n <= (2 ^ 63 - 1) / 32 -> exists l', resize l (Some (Z.of_nat n)) = Ret l' /\ length l' = n.
Proof.
  intros H. unfold resize. rewrite (proj2 (Z.leb_le _ _) H). eexists. split; [reflexivity|].
  rewrite app_length, firstn_length, repeat_length. lia.
Qed.
(** A read without an error consumes its bytes. *)
Lemma read_all_consumes os : forall s, ifail (snd (read_all s os)) = false -> (length (irest s) = 32 * length os + length (irest (snd (read_all s os))))%nat.
Proof.
  induction os as [|o os IH]; intros s H; [reflexivity|]. cbn [read_all] in *. unfold read32 in *. destruct (igood s).
  - destruct (Nat.eqb_spec (length (firstn 32 (irest s))) 32) as [E|E].
    + specialize (IH (IS (skipn 32 (irest s)) false false)). destruct (read_all (IS (skipn 32 (irest s)) false false) os) as [bs s']. cbn [snd irest] in *.
      specialize (IH H). rewrite skipn_length in IH. rewrite firstn_length in E. cbn [length]. lia.
    + pose proof (read_all_fail os (IS [] true true) eq_refl) as F. destruct (read_all (IS [] true true) os). cbn [snd] in *. congruence.
  - pose proof (read_all_fail os (set_fail s) eq_refl) as F. destruct (read_all (set_fail s) os). cbn [snd] in *. congruence.
Qed.
Lemma read_size_consumes s o : ifail (snd (read_size s o)) = false -> (length (irest (snd (read_size s o))) < length (irest s))%nat.
Proof.
  unfold read_size. unfold sentry. destruct (igood s); [|discriminate]. pose proof (span_split is_ws (irest s)) as W.
  destruct (snd (span is_ws (irest s))) as [|c l]; [discriminate|]. assert (L : (length (c :: l) <= length (irest s))%nat) by (rewrite <- W, app_length; lia).
  cbn [irest]. set (m := match c :: l with 43 :: l => (false, l) | 45 :: l => (true, l) | l => (false, l) end).
  assert (M : (length (snd m) <= length (c :: l))%nat).
  { assert (K : m = (false, l) \/ m = (true, l) \/ m = (false, c :: l)).
    { unfold m. destruct c as [|c|c]; auto. destruct c as [c|c|]; auto; destruct c as [c|c|]; auto; destruct c as [c|c|]; auto; destruct c as [c|c|]; auto;
        destruct c as [c|c|]; auto; destruct c as [c|c|]; auto. }
    destruct K as [-> |[-> | ->]]; cbn [snd length]; lia. }
  destruct m as [neg l1]. cbn [snd] in M. pose proof (span_split is_dig l1) as D. destruct (span is_dig l1) as [ds l2]. cbn [fst snd] in D.
  destruct ds as [|c1 ds]; [discriminate|]. destruct (_ <? _); [|discriminate]. intros _. cbn [snd irest].
  assert (length l1 = length ((c1 :: ds) ++ l2)) by congruence. rewrite app_length in *. cbn [length] in *. lia.
Qed.

(** ** Transcripts *)
Lemma max_64 n : Z.of_nat n <= (2 ^ 63 - 1) / 32 -> Z.of_nat n < 2 ^ 64.
Proof. intros H. eapply Z.le_lt_trans; [exact H|]. reflexivity. Qed.
Lemma stops_dig l : ~ starts_digit l -> stops is_dig l.
Proof.
  intros H. destruct l as [|c l]; [exact I|]. cbn [stops]. destruct (is_dig c) eqn:E; [|reflexivity]. exfalso. apply H. exists c, l. split; [reflexivity|]. now apply dig_spec.
Qed.
Lemma stops_dig_inv l : stops is_dig l -> ~ starts_digit l.
Proof. intros H (c & l' & -> & D). cbn [stops] in H. apply dig_spec in D. congruence. Qed.
Lemma concat_head (bs : list (list Z)) l : Forall (fun b => length b = 32%nat) bs -> bs <> [] -> ~ starts_digit (concat bs) -> stops is_dig (concat bs ++ l).
Proof.
  intros H N D. destruct bs as [|b bs]; [contradiction|]. inversion_clear H as [|? ? Hb _]. destruct b as [|c b]; [discriminate|].
  apply stops_dig in D. exact D.
Qed.
Lemma concat_length (bs : list (list Z)) : Forall (fun b => length b = 32%nat) bs -> length (concat bs) = (32 * length bs)%nat.
Proof. induction 1 as [|b bs Hb _ IH]; [reflexivity|]. cbn [concat length]. rewrite app_length, Hb, IH. lia. Qed.
Lemma stops_app_head c l : stops is_dig ((c : list Z) ++ l) -> c <> [] -> Forall (fun x => is_dig x = true) c -> False.
Proof. intros H N F. destruct c as [|x c]; [contradiction|]. inversion F; subst. cbn [app stops] in H. congruence. Qed.

Lemma round_trip_ok n t old : well_formed n t -> well_formed n old -> word (tTag t) ->
  Z.of_nat (length (tLs t)) <= (2 ^ 63 - 1) / 32 -> Z.of_nat (length (tRs t)) <= (2 ^ 63 - 1) / 32 ->
  starts_white (tC t) -> tLs t <> [] -> ~ starts_digit (concat (tLs t)) -> ~ starts_digit (concat (tRs t) ++ concat (tEnd t)) -> round_trips t old.
Proof.
  destruct t as [tag C Ls Rs En]. unfold round_trips, well_formed, writeTr, readTr. cbn [tTag tC tLs tRs tEnd].
  intros (HC & HL & HR & HE & NE) (_ & _ & _ & _ & NO) W ML MR WC NL DL DR.
  rewrite (read_string_gen tag _ _ W). destruct WC as (c & C' & EC & Hc).
  rewrite (span_stop _ (C ++ _)) by (rewrite EC; cbn [app stops]; apply negb_false_iff; now apply ws_spec). cbn [fst snd]. rewrite app_nil_r.
  replace (nilb (C ++ _)) with false by now rewrite EC. rewrite (read32_ok C _ _ HC).
  rewrite read_size_gen by now apply max_64. rewrite (span_stop is_dig (concat Ls ++ _)) by now apply concat_head. cbn [fst snd].
  change (Z.of_nat (@length Z [])) with 0. change (digits_val []) with 0. rewrite Z.pow_0_r, Z.mul_1_r, Z.add_0_r.
  rewrite (proj2 (Z.ltb_lt _ _) (max_64 _ ML)).
  replace (nilb (concat Ls ++ _)) with false by (destruct Ls as [|b Ls]; [contradiction|]; inversion_clear HL as [|? ? Hb _]; destruct b; [discriminate|reflexivity]).
  destruct (resize_ok (tLs old) (length Ls) ML) as (o & Eo & Lo). rewrite Eo. cbn [obind].
  rewrite (read_all_ok Ls _ o HL Lo). rewrite read_size_gen by now apply max_64.
  rewrite (span_stop is_dig (concat Rs ++ _)) by now apply stops_dig. cbn [fst snd].
  change (Z.of_nat (@length Z [])) with 0. change (digits_val []) with 0. rewrite Z.pow_0_r, Z.mul_1_r, Z.add_0_r.
  rewrite (proj2 (Z.ltb_lt _ _) (max_64 _ MR)).
  destruct (resize_ok (tRs old) (length Rs) MR) as (o' & Eo' & Lo'). rewrite Eo'. cbn [obind].
  destruct (nilb (concat Rs ++ concat En)) eqn:EN.
  - destruct Rs as [|b Rs]; [|inversion_clear HR as [|? ? Hb _]; destruct b; discriminate]. destruct o'; [|discriminate]. cbn [concat app] in *.
    destruct En as [|b En]; [|inversion_clear HE as [|? ? Hb _]; destruct b; discriminate]. rewrite <- NE in NO. destruct (tEnd old); [|discriminate].
    eexists. split; reflexivity.
  - rewrite (read_all_ok Rs _ o' HR Lo'). replace (concat En) with (concat En ++ []) by apply app_nil_r. rewrite (read_all_ok En [] (tEnd old) HE) by congruence.
    eexists. split; reflexivity.
Qed.
Lemma round_trip_only n t old : well_formed n t -> well_formed n old -> word (tTag t) ->
  Z.of_nat (length (tLs t)) <= (2 ^ 63 - 1) / 32 -> Z.of_nat (length (tRs t)) <= (2 ^ 63 - 1) / 32 -> round_trips t old ->
  starts_white (tC t) /\ tLs t <> [] /\ ~ starts_digit (concat (tLs t)) /\ ~ starts_digit (concat (tRs t) ++ concat (tEnd t)).
Proof.
  destruct t as [tag C Ls Rs En]. unfold round_trips, well_formed, writeTr, readTr. cbn [tTag tC tLs tRs tEnd].
  intros (HC & HL & HR & HE & NE) (_ & _ & _ & _ & NO) W ML MR (s & H & F).
  rewrite (read_string_gen tag _ _ W) in H.
  assert (WC : starts_white C).
  { destruct (read32 _ _) as [C1 s1] in H. destruct (read_size s1 None) as [n1 s2] in H. apply obind_ret_inv in H as (L1 & _ & H).
    destruct (read_all s2 L1) as [L2 s3] in H. destruct (read_size s3 n1) as [n2 s4] in H. apply obind_ret_inv in H as (R1 & _ & H).
    destruct (read_all s4 R1) as [R2 s5] in H. destruct (read_all s5 (tEnd old)) as [E2 s6] in H. injection H as Et _ _ _ _ _.
    rewrite <- app_nil_r in Et. apply app_inv_head in Et. apply span_nil in Et. destruct C as [|c C]; [discriminate|]. cbn [app stops] in Et.
    exists c, C. split; [reflexivity|]. apply ws_spec. now apply negb_false_iff. }
  split; [exact WC|]. destruct WC as (c & C' & EC & Hc).
  rewrite (span_stop _ (C ++ _)) in H by (rewrite EC; cbn [app stops]; apply negb_false_iff; now apply ws_spec). cbn [fst snd] in H.
  replace (nilb (C ++ _)) with false in H by now rewrite EC. rewrite (read32_ok C _ _ HC) in H.
  rewrite read_size_gen in H by now apply max_64.
  set (R2 := concat Rs ++ concat En) in *. set (R1 := concat Ls ++ dec (length Rs) ++ R2) in *.
  pose proof (span_all is_dig R1) as D1. pose proof (span_split is_dig R1) as S1. destruct (span is_dig R1) as [d1 r1] eqn:Q1. cbn [fst snd] in *.
  destruct (_ <? _) eqn:V1 in H.
  2:{ apply obind_ret_inv in H as (L1 & EL & H). pose proof (read_all_fail L1 (IS r1 (nilb r1) true) eq_refl) as F1. destruct (read_all _ L1) as [L2 s3]. cbn [snd] in F1.
      pose proof (read_size_fail s3 (Some (2 ^ 64 - 1)) F1) as F2. destruct (read_size s3 _) as [n2 s4]. apply obind_ret_inv in H as (R3 & _ & H). cbn [snd] in F2.
      pose proof (read_all_fail R3 s4 F2) as F3. destruct (read_all s4 R3) as [R4 s5]. cbn [snd] in F3.
      pose proof (read_all_fail (tEnd old) s5 F3) as F4. destruct (read_all s5 (tEnd old)) as [E2 s6]. cbn [snd] in F4. injection H as _ _ _ _ <-. congruence. }
  apply obind_ret_inv in H as (L1 & EL & H). apply resize_length in EL as (v & Ev & LL & _). injection Ev as <-.
  pose proof (read_all_length L1 (IS r1 (nilb r1) false)) as LA.
  assert (VL : Z.of_nat (length Ls) * 10 ^ Z.of_nat (length d1) + digits_val d1 = Z.of_nat (length Ls)).
  { destruct (read_all _ L1) as [L2 s3] in H, LA. cbn [fst] in LA. destruct (read_size s3 _) as [n2 s4] in H. apply obind_ret_inv in H as (R3 & _ & H).
    destruct (read_all s4 R3) as [R4 s5] in H. destruct (read_all s5 (tEnd old)) as [E2 s6] in H. injection H as _ EqL _ _ _. subst L2.
    pose proof (digits_nonneg _ D1). assert (0 < 10 ^ Z.of_nat (length d1)) by (apply Z.pow_pos_nonneg; lia).
    set (v := Z.of_nat (length Ls) * _ + _) in *. assert (0 <= v) by (unfold v; nia). clearbody v. lia. }
  assert (LL' : length L1 = length Ls) by (rewrite VL, Nat2Z.id in LL; exact LL). clear LL.
  destruct (digits_same _ d1 D1 (Nat2Z.is_nonneg _) VL) as [E|[Z1 Z2]].
  - (* no digit after the first number *)
    subst d1. cbn [app] in S1. subst r1. clear VL V1. assert (ST : stops is_dig R1) by (apply span_nil; now rewrite Q1).
    assert (NL : Ls <> []).
    { intros ->. unfold R1 in ST. cbn [concat app] in ST. destruct (dec_ok (length Rs) (max_64 _ MR)) as (A & B & _). exact (stops_app_head _ _ ST A B). }
    split; [exact NL|]. split.
    { intros (x & l & El & Dx). apply dig_spec in Dx. unfold R1 in ST. rewrite El in ST. cbn [app stops] in ST. congruence. }
    replace (nilb R1) with false in H by (unfold R1; destruct Ls as [|b Ls]; [contradiction|]; inversion_clear HL as [|? ? Hb _]; destruct b; [discriminate|reflexivity]).
    unfold R1 in H. rewrite (read_all_ok Ls _ L1 HL LL') in H. rewrite read_size_gen in H by now apply max_64.
    pose proof (span_all is_dig R2) as D2. pose proof (span_split is_dig R2) as S2. destruct (span is_dig R2) as [d2 r2] eqn:Q2. cbn [fst snd] in *.
    destruct (_ <? _) eqn:V2 in H.
    2:{ apply obind_ret_inv in H as (R3 & _ & H). pose proof (read_all_fail R3 (IS r2 (nilb r2) true) eq_refl) as F3. destruct (read_all _ R3) as [R4 s5]. cbn [snd] in F3.
        pose proof (read_all_fail (tEnd old) s5 F3) as F4. destruct (read_all s5 (tEnd old)) as [E2 s6]. cbn [snd] in F4. injection H as _ _ <-. congruence. }
    apply obind_ret_inv in H as (R3 & ER & H). apply resize_length in ER as (v & Ev & LR & _). injection Ev as <-.
    pose proof (read_all_length R3 (IS r2 (nilb r2) false)) as LB. destruct (read_all _ R3) as [R4 s5] eqn:ER4. cbn [fst] in LB.
    destruct (read_all s5 (tEnd old)) as [E2 s6] eqn:EE2. injection H as _ EqR EqE Eqs. subst R4 s6.
    assert (VR : Z.of_nat (length Rs) * 10 ^ Z.of_nat (length d2) + digits_val d2 = Z.of_nat (length Rs)).
    { pose proof (digits_nonneg _ D2). assert (0 < 10 ^ Z.of_nat (length d2)) by (apply Z.pow_pos_nonneg; lia).
      set (v := Z.of_nat (length Rs) * _ + _) in *. assert (0 <= v) by (unfold v; nia). clearbody v. lia. }
    destruct d2 as [|x d2]; [apply stops_dig_inv; apply span_nil; now rewrite Q2|].
    exfalso. destruct (digits_same _ (x :: d2) D2 (Nat2Z.is_nonneg _) VR) as [E|[Z1 Z2]]; [discriminate|].
    destruct Rs; [|cbn [length] in Z1; lia]. destruct R3; [|discriminate]. cbn [read_all] in ER4. injection ER4 as <-.
    pose proof (read_all_consumes (tEnd old) (IS r2 (nilb r2) false)) as K. rewrite EE2 in K. cbn [snd irest] in K. specialize (K F).
    unfold R2 in S2. cbn [concat app] in S2. pose proof (concat_length En HE) as LE. rewrite <- S2 in LE. cbn [length] in LE. rewrite app_length in LE. lia.
  - (* Ls is empty, and the number of Rs runs into it *)
    exfalso. destruct Ls; [|cbn [length] in Z1; lia]. destruct L1; [|discriminate]. cbn [read_all] in H.
    assert (LR : (length r1 <= 32 * n)%nat).
    { unfold R1 in *. cbn [concat app] in *. destruct (dec_ok (length Rs) (max_64 _ MR)) as (A & B & V).
      rewrite (span_app _ _ R2 B) in Q1. injection Q1 as <- <-. rewrite digits_app, V in Z2.
      pose proof (digits_nonneg _ (span_all is_dig R2)). assert (0 < 10 ^ Z.of_nat (length (fst (span is_dig R2)))) by (apply Z.pow_pos_nonneg; lia).
      assert (NR : length Rs = 0%nat) by nia. destruct Rs; [|discriminate]. unfold R2. cbn [concat app]. pose proof (span_split is_dig (concat En)) as K.
      pose proof (concat_length En HE) as LE. rewrite <- K, app_length in LE. lia. }
    match type of H with context [read_size ?a ?b] => pose proof (read_size_consumes a b) as K; pose proof (read_size_fail a b) as K'; destruct (read_size a b) as [n2 s4] end.
    cbn [snd irest] in K, K'. apply obind_ret_inv in H as (R3 & _ & H).
    pose proof (read_all_consumes R3 s4) as C1. pose proof (read_all_fail R3 s4) as F1. destruct (read_all s4 R3) as [R4 s5]. cbn [snd] in *.
    pose proof (read_all_consumes (tEnd old) s5) as C2. pose proof (read_all_fail (tEnd old) s5) as F2. destruct (read_all s5 (tEnd old)) as [E2 s6]. cbn [snd] in *.
    injection H as _ _ _ ->. destruct (ifail s5) eqn:G5; [rewrite F2 in F by reflexivity; discriminate|]. destruct (ifail s4) eqn:G4; [discriminate F1; reflexivity|].
    specialize (K eq_refl). specialize (C1 eq_refl). specialize (C2 F). lia.
Qed.
(** A written transcript without white space: everything goes into the tag, and
    then the number of points is used uninitialised. *)
Lemma no_white_ub t old : word (writeTr t) -> readTr (IS (writeTr t) false false) old = UB.
Proof.
  intros W. unfold readTr. rewrite <- (app_nil_r (writeTr t)). rewrite (read_string_gen _ [] _ W). reflexivity.
Qed.
