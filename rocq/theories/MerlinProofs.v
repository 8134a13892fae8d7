(** The sponge as a sequence of blocks. *)
From Coq Require Import ZArith List Bool Lia.
From Verif Require Import Outcome Bytes KeccakModel MerlinModel MerlinSpec.
Import ListNotations.
Open Scope Z_scope.

(** Bytes. *)
Lemma byte_lxor a b : is_byte a -> is_byte b -> is_byte (Z.lxor a b).
Proof.
  unfold is_byte. intros Ha Hb. assert (H0 : 0 <= Z.lxor a b) by (apply Z.lxor_nonneg; lia). split; [exact H0|].
  destruct (Z.eq_dec (Z.lxor a b) 0) as [->|Hn]; [lia|]. change 256 with (2 ^ 8).
  apply Z.log2_lt_pow2; [lia|]. eapply Z.le_lt_trans; [apply Z.log2_lxor; lia|].
  apply Z.max_lub_lt.
  - destruct (Z.eq_dec a 0) as [->|]; [reflexivity|]. apply Z.log2_lt_pow2; lia.
  - destruct (Z.eq_dec b 0) as [->|]; [reflexivity|]. apply Z.log2_lt_pow2; lia.
Qed.
Lemma u8_id z : is_byte z -> u8 z = z.
Proof. intros H. apply Z.mod_small. exact H. Qed.
Lemma lxor_cancel a b c : Z.lxor a b = Z.lxor a c -> b = c.
Proof.
  intros H. assert (K : Z.lxor a (Z.lxor a b) = Z.lxor a (Z.lxor a c)) by now rewrite H.
  rewrite <- !Z.lxor_assoc, Z.lxor_nilpotent, !Z.lxor_0_l in K. exact K.
Qed.

(** XOR of a list into the front of another. *)
Fixpoint xorl (b u : list Z) : list Z :=
  match b, u with
  | x :: b', y :: u' => Z.lxor x y :: xorl b' u'
  | b, [] => b
  | [], _ => []
  end.
Lemma xorl_nil_r b : xorl b [] = b. Proof. now destruct b. Qed.
Lemma xorl_length b : forall u, length (xorl b u) = length b.
Proof. induction b as [|x b IH]; intros [|y u]; cbn; auto. Qed.
Lemma xorl_bytes b : forall u, bytes_ok b -> bytes_ok u -> bytes_ok (xorl b u).
Proof.
  induction b as [|x b IH]; intros [|y u] Hb Hu; cbn; auto. apply Forall_cons_iff in Hb, Hu.
  constructor; [now apply byte_lxor|]. now apply IH.
Qed.
Lemma xorl_nth b : forall u i, (i < length b)%nat -> nth i (xorl b u) 0 = Z.lxor (nth i b 0) (nth i u 0).
Proof.
  induction b as [|x b IH]; intros u i Hi; cbn in Hi; [lia|].
  destruct u as [|y u]; destruct i as [|i]; cbn [xorl nth].
  - now rewrite Z.lxor_0_r.
  - now rewrite Z.lxor_0_r.
  - reflexivity.
  - apply IH. lia.
Qed.
Lemma xorl_inj b : forall u v, length u = length v -> (length u <= length b)%nat -> xorl b u = xorl b v -> u = v.
Proof.
  induction b as [|x b IH]; intros [|y u] [|z v] Hl Hb H; cbn in *; try lia; [reflexivity|reflexivity|].
  injection H as H1 H2. apply lxor_cancel in H1. subst z. f_equal. apply IH; [lia|lia|exact H2].
Qed.
Lemma list_ext (l l' : list Z) : length l = length l' -> (forall i, (i < length l)%nat -> nth i l 0 = nth i l' 0) -> l = l'.
Proof. intros H1 H2. now apply (nth_ext l l' 0 0). Qed.

Lemma aset_length l : forall i v, length (aset l i v) = length l.
Proof. induction l as [|x l IH]; intros [|i] v; cbn; auto. Qed.
Lemma aset_nth l : forall i v j, (i < length l)%nat -> nth j (aset l i v) 0 = if (j =? i)%nat then v else nth j l 0.
Proof.
  induction l as [|x l IH]; intros i v j Hi; cbn in Hi; [lia|].
  destruct i as [|i]; destruct j as [|j]; cbn [aset nth Nat.eqb]; try reflexivity. apply IH. lia.
Qed.
Lemma oget_nth l i : (i < length l)%nat -> oget l i = Ret (nth i l 0).
Proof. intros H. apply oget_ret. now apply nth_error_nth'. Qed.
Lemma upd_ok l i g : 0 <= i < Z.of_nat (length l) ->
  upd l i g = Ret (aset l (Z.to_nat i) (u8 (g (nth (Z.to_nat i) l 0)))).
Proof.
  intros H. unfold upd. rewrite oget_nth by lia. reflexivity.
Qed.
Lemma bytes_nth l i : bytes_ok l -> is_byte (nth i l 0).
Proof.
  intros H. destruct (Nat.ltb_spec i (length l)) as [Hi|Hi].
  - unfold bytes_ok in H. rewrite Forall_forall in H. apply H. now apply nth_In.
  - rewrite nth_overflow by assumption. unfold is_byte. lia.
Qed.
(** XOR of one more byte. *)
Lemma xorl_snoc b u d : (length u < length b)%nat ->
  xorl b (u ++ [d]) = aset (xorl b u) (length u) (Z.lxor (nth (length u) b 0) d).
Proof.
  intros H. apply list_ext; [now rewrite aset_length, !xorl_length|].
  intros i Hi. rewrite xorl_length in Hi. rewrite aset_nth by (rewrite xorl_length; assumption). rewrite !xorl_nth by assumption.
  destruct (Nat.eqb_spec i (length u)) as [->|Hne].
  - rewrite app_nth2, Nat.sub_diag by lia. reflexivity.
  - f_equal. destruct (Nat.ltb_spec i (length u)).
    + now rewrite app_nth1.
    + rewrite !nth_overflow by (try rewrite app_length; cbn [length]; lia). reflexivity.
Qed.

Section Blocks.
Variable f : list Z -> list Z.
Hypothesis Hf : forall s, state200 s -> state200 (f s).

(** State after the last permutation, bytes mixed in since, position mark, finished blocks. *)
Record sponge := Sp { base : list Z; buf : list Z; pb : Z; blocks : list (list Z * list Z * Z) }.
Definition wf (a : sponge) : Prop :=
  state200 (base a) /\ bytes_ok (buf a) /\ (length (buf a) < 166)%nat /\ 0 <= pb a <= 166.
Definition wf1 (a : sponge) : Prop :=
  state200 (base a) /\ bytes_ok (buf a) /\ (length (buf a) <= 166)%nat /\ 0 <= pb a <= 166.
(** The 168 bytes mixed in by a block. *)
Definition padbuf (u : list Z) (q : Z) : list Z :=
  xorl (u ++ [q; 4] ++ repeat 0 (166 - length u)) (repeat 0 167 ++ [128]).
Definition padb (x : list Z * list Z * Z) : list Z := let '(b, u, q) := x in xorl b (padbuf u q).
Definition arun (a : sponge) : sponge :=
  Sp (f (padb (base a, buf a, pb a))) [] 0 (blocks a ++ [(base a, buf a, pb a)]).
Definition push (a : sponge) (d : Z) : sponge :=
  let a' := Sp (base a) (buf a ++ [d]) (pb a) (blocks a) in
  if (length (buf a') =? 166)%nat then arun a' else a'.
Definition feed (a : sponge) (ds : list Z) : sponge := fold_left push ds a.
(** The concrete state. *)
Definition conc (l0 : list (list Z)) (a : sponge) (fl : Z) : strobe :=
  Strobe (xorl (base a) (buf a)) (Z.of_nat (length (buf a))) (pb a) fl (l0 ++ map padb (blocks a)).

Lemma padbuf_length u q : (length u <= 166)%nat -> length (padbuf u q) = 168%nat.
Proof. intros H. unfold padbuf. rewrite xorl_length, !app_length, repeat_length. cbn [length]. lia. Qed.
Lemma padbuf_bytes u q : bytes_ok u -> 0 <= q <= 166 -> bytes_ok (padbuf u q).
Proof.
  intros Hu Hq. unfold padbuf. apply xorl_bytes.
  - apply Forall_app. split; [assumption|]. constructor; [unfold is_byte; lia|]. constructor; [unfold is_byte; lia|].
    apply Forall_forall. intros x Hx. apply repeat_spec in Hx. subst. unfold is_byte. lia.
  - apply Forall_app. split; [|constructor; [unfold is_byte; lia|constructor]].
    apply Forall_forall. intros x Hx. apply repeat_spec in Hx. subst. unfold is_byte. lia.
Qed.
Lemma padb_state b u q : state200 b -> bytes_ok u -> (length u <= 166)%nat -> 0 <= q <= 166 -> state200 (padb (b, u, q)).
Proof.
  intros [Hl Hb] Hu Hn Hq. unfold padb. split; [now rewrite xorl_length|]. apply xorl_bytes; [assumption|]. now apply padbuf_bytes.
Qed.
Lemma arun_wf a : wf1 a -> wf (arun a).
Proof.
  intros [H1 [H2 [H3 H4]]]. unfold wf, arun. cbn [base buf pb]. split; [apply Hf; now apply padb_state|].
  split; [constructor|]. cbn. lia.
Qed.
Lemma wf_wf1 a : wf a -> wf1 a. Proof. intros [H1 [H2 [H3 H4]]]. unfold wf1. intuition lia. Qed.
Lemma push_wf1 a d : wf a -> is_byte d -> wf1 (Sp (base a) (buf a ++ [d]) (pb a) (blocks a)).
Proof.
  intros [H1 [H2 [H3 H4]]] Hd. unfold wf1. cbn [base buf pb]. split; [assumption|]. split.
  - apply Forall_app. split; [assumption|]. constructor; [assumption|constructor].
  - rewrite app_length. cbn [length]. lia.
Qed.
Lemma push_wf a d : wf a -> is_byte d -> wf (push a d).
Proof.
  intros H Hd. pose proof (push_wf1 a d H Hd) as H1. unfold push. cbn [buf].
  destruct (Nat.eqb_spec (length (buf a ++ [d])) 166) as [E|E]; [now apply arun_wf|].
  destruct H1 as [H1 [H2 [H3 H4]]]. unfold wf. cbn [base buf pb] in *. intuition lia.
Qed.
Lemma feed_wf ds : forall a, wf a -> bytes_ok ds -> wf (feed a ds).
Proof.
  induction ds as [|d ds IH]; intros a H Hd; [exact H|]. apply Forall_cons_iff in Hd. destruct Hd as [H1 H2].
  cbn [feed fold_left]. apply IH; [now apply push_wf|assumption].
Qed.

(** *** The code in terms of blocks *)
Lemma nth_pad b u q i : (length u <= 166)%nat -> (i < length b)%nat -> nth i (padb (b, u, q)) 0 =
  Z.lxor (Z.lxor (nth i b 0) (if (i <? length u)%nat then nth i u 0 else if (i =? length u)%nat then q else if (i =? S (length u))%nat then 4 else 0))
    (if (i =? 167)%nat then 128 else 0).
Proof.
  intros Hu Hi. unfold padb, padbuf. rewrite xorl_nth by assumption.
  assert (HL : length (u ++ [q; 4] ++ repeat 0 (166 - length u)) = 168%nat) by (rewrite !app_length, repeat_length; cbn [length]; lia).
  destruct (Nat.ltb_spec i 168) as [H168|H168].
  - rewrite xorl_nth by (rewrite HL; assumption). rewrite <- Z.lxor_assoc. f_equal.
    + f_equal. destruct (Nat.ltb_spec i (length u)).
      * now rewrite app_nth1.
      * rewrite app_nth2 by assumption. destruct (Nat.eqb_spec i (length u)) as [->|H1]; [now rewrite Nat.sub_diag|].
        destruct (Nat.eqb_spec i (S (length u))) as [->|H2]; [now replace (S (length u) - length u)%nat with 1%nat by lia|].
        destruct (i - length u)%nat as [|[|k]] eqn:E; [lia|lia|]. cbn [app nth]. apply nth_repeat.
    + destruct (Nat.eqb_spec i 167) as [->|H1].
      * rewrite app_nth2 by (rewrite repeat_length; lia). now rewrite repeat_length.
      * rewrite app_nth1 by (rewrite repeat_length; lia). apply nth_repeat.
  - rewrite (nth_overflow (xorl _ _)) by (rewrite xorl_length, HL; assumption).
    destruct (Nat.ltb_spec i (length u)); [lia|]. destruct (Nat.eqb_spec i (length u)); [lia|].
    destruct (Nat.eqb_spec i (S (length u))); [lia|]. destruct (Nat.eqb_spec i 167); [lia|]. now rewrite !Z.lxor_0_r.
Qed.
Lemma run_f_conc l0 a fl : wf1 a -> run_f f (conc l0 a fl) = Ret (conc l0 (arun a) fl).
Proof.
  intros [[Hl Hb] [H2 [H3 H4]]]. unfold run_f, conc. cbn [st pos pos_begin cur_flags log].
  assert (HX : length (xorl (base a) (buf a)) = 200%nat) by now rewrite xorl_length.
  pose proof (xorl_bytes _ _ Hb H2) as HB.
  rewrite upd_ok by (rewrite HX; lia). cbn [obind]. rewrite upd_ok by (rewrite aset_length, HX; lia). cbn [obind].
  unfold STROBE_R. rewrite upd_ok by (rewrite !aset_length, HX; lia). cbn [obind].
  rewrite Nat2Z.id. replace (Z.to_nat (Z.of_nat (length (buf a)) + 1)) with (S (length (buf a))) by lia.
  change (Z.to_nat (166 + 1)) with 167%nat. set (n := length (buf a)) in *. set (X := xorl (base a) (buf a)) in *.
  match goal with |- Ret (Strobe (f ?s) _ _ _ _) = _ => assert (HS : s = padb (base a, buf a, pb a)) end.
  { apply list_ext; [rewrite !aset_length, HX; unfold padb; now rewrite xorl_length|].
    intros i Hi. rewrite !aset_length, HX in Hi. rewrite nth_pad by (try rewrite Hl; assumption). fold n.
    assert (B1 : is_byte (Z.lxor (nth n X 0) (pb a))) by (apply byte_lxor; [now apply bytes_nth|unfold is_byte; lia]).
    assert (HXn : forall j, (j < 200)%nat -> nth j X 0 = Z.lxor (nth j (base a) 0) (nth j (buf a) 0)).
    { intros j Hj. unfold X. apply xorl_nth. lia. }
    assert (B2 : is_byte (Z.lxor (nth (S n) X 0) 4)) by (apply byte_lxor; [now apply bytes_nth|unfold is_byte; lia]).
    rewrite !aset_nth by (rewrite ?aset_length, HX; lia). rewrite !(u8_id _ B1).
    replace (S n =? n)%nat with false by (symmetry; apply Nat.eqb_neq; lia). rewrite !(u8_id _ B2).
    rewrite u8_id.
    2:{ apply byte_lxor; [|unfold is_byte; lia]. destruct (Nat.eqb_spec 167 (S n)); [assumption|].
        destruct (Nat.eqb_spec 167 n); [assumption|]. now apply bytes_nth. }
    destruct (Nat.eqb_spec i 167) as [->|Hi7].
    - destruct (Nat.ltb_spec 167 n); [lia|].
      destruct (Nat.eqb_spec 167 (S n)) as [E|E].
      + destruct (Nat.eqb_spec 167 n); [lia|]. rewrite <- E. rewrite HXn by lia.
        rewrite (nth_overflow (buf a)) by (fold n; lia). now rewrite Z.lxor_0_r.
      + destruct (Nat.eqb_spec 167 n); [lia|]. rewrite HXn by lia. now rewrite (nth_overflow (buf a)) by (fold n; lia).
    - rewrite Z.lxor_0_r. destruct (Nat.eqb_spec i (S n)) as [->|E].
      + destruct (Nat.ltb_spec (S n) n); [lia|]. destruct (Nat.eqb_spec (S n) n); [lia|]. rewrite HXn by lia.
        rewrite (nth_overflow (buf a)) by (fold n; lia). now rewrite Z.lxor_0_r.
      + destruct (Nat.eqb_spec i n) as [->|E2].
        * rewrite Nat.ltb_irrefl. rewrite HXn by lia. rewrite (nth_overflow (buf a)) by (fold n; lia). now rewrite Z.lxor_0_r.
        * rewrite HXn by assumption. destruct (Nat.ltb_spec i n); [reflexivity|]. rewrite (nth_overflow (buf a)) by (fold n; lia). reflexivity. }
  rewrite HS. unfold arun. cbn [base buf pb blocks]. rewrite map_app. cbn [map]. rewrite app_assoc. rewrite xorl_nil_r. reflexivity.
Qed.
Lemma advance_conc l0 a fl d : wf a -> is_byte d ->
  advance f (conc l0 a fl) (xorl (base a) (buf a ++ [d])) = Ret (conc l0 (push a d) fl).
Proof.
  intros H Hd. pose proof (push_wf1 a d H Hd) as H1. destruct H as [Hs [Hb [Hn Hq]]].
  unfold advance. cbn [conc pos pos_begin cur_flags log st].
  assert (E : u8 (Z.of_nat (length (buf a)) + 1) = Z.of_nat (length (buf a ++ [d]))).
  { rewrite app_length. cbn [length]. unfold u8. rewrite Z.mod_small by lia. lia. }
  rewrite E. unfold push. cbn [buf].
  replace (Z.of_nat (length (buf a ++ [d])) =? STROBE_R) with ((length (buf a ++ [d]) =? 166)%nat).
  2:{ unfold STROBE_R. destruct (Nat.eqb_spec (length (buf a ++ [d])) 166) as [->|Hne]; [reflexivity|]. symmetry. apply Z.eqb_neq. lia. }
  destruct (_ =? _)%nat.
  - exact (run_f_conc l0 (Sp (base a) (buf a ++ [d]) (pb a) (blocks a)) fl H1).
  - reflexivity.
Qed.
Lemma absorb_conc l0 fl ds : forall a, wf a -> bytes_ok ds -> absorb f (conc l0 a fl) ds = Ret (conc l0 (feed a ds) fl).
Proof.
  induction ds as [|d ds IH]; intros a H Hd; [reflexivity|]. apply Forall_cons_iff in Hd. destruct Hd as [H1 H2].
  cbn [absorb feed fold_left].
  destruct H as [[Hl Hs] [Hb [Hn Hq]]].
  assert (HX : length (xorl (base a) (buf a)) = 200%nat) by now rewrite xorl_length.
  cbn [conc st pos]. rewrite upd_ok by (rewrite HX; lia). cbn [obind]. rewrite Nat2Z.id.
  rewrite xorl_nth by lia. rewrite (nth_overflow (buf a)) by lia. rewrite Z.lxor_0_r.
  rewrite u8_id by (apply byte_lxor; [now apply bytes_nth|assumption]). rewrite <- xorl_snoc by lia.
  fold (conc l0 a fl). rewrite advance_conc by (try assumption; repeat split; assumption || lia). cbn [obind].
  apply IH; [|assumption]. apply push_wf; [repeat split; assumption || lia|assumption].
Qed.
Lemma overwrite_conc l0 fl ds : forall a, wf a -> bytes_ok ds ->
  exists ds', length ds' = length ds /\ bytes_ok ds' /\ overwrite f (conc l0 a fl) ds = Ret (conc l0 (feed a ds') fl).
Proof.
  induction ds as [|d ds IH]; intros a H Hd; [exists []; repeat split; constructor|].
  apply Forall_cons_iff in Hd. destruct Hd as [H1 H2].
  assert (Hw : wf a) by exact H. destruct H as [[Hl Hs] [Hb [Hn Hq]]].
  assert (HX : length (xorl (base a) (buf a)) = 200%nat) by now rewrite xorl_length.
  set (d0 := Z.lxor (nth (length (buf a)) (base a) 0) d).
  assert (Hd0 : is_byte d0) by (apply byte_lxor; [now apply bytes_nth|assumption]).
  destruct (IH (push a d0) (push_wf a d0 Hw Hd0) H2) as [ds' [L [B E]]].
  exists (d0 :: ds'). split; [cbn; congruence|]. split; [now constructor|].
  cbn [overwrite feed fold_left]. cbn [conc st pos]. rewrite upd_ok by (rewrite HX; lia). cbn [obind]. rewrite Nat2Z.id.
  rewrite (u8_id d) by assumption.
  replace d with (Z.lxor (nth (length (buf a)) (base a) 0) d0) at 1
    by (unfold d0; now rewrite <- Z.lxor_assoc, Z.lxor_nilpotent, Z.lxor_0_l).
  rewrite <- xorl_snoc by lia. fold (conc l0 a fl). rewrite advance_conc by assumption. cbn [obind]. exact E.
Qed.
Lemma squeeze_conc l0 fl n : forall a, wf a ->
  exists ds, length ds = n /\ bytes_ok ds /\ squeeze f (conc l0 a fl) n = Ret (ds, conc l0 (feed a ds) fl).
Proof.
  induction n as [|n IH]; intros a H; [exists []; repeat split; constructor|].
  assert (Hw : wf a) by exact H. destruct H as [[Hl Hs] [Hb [Hn Hq]]].
  assert (HX : length (xorl (base a) (buf a)) = 200%nat) by now rewrite xorl_length.
  set (d0 := nth (length (buf a)) (base a) 0).
  assert (Hd0 : is_byte d0) by now apply bytes_nth.
  destruct (IH (push a d0) (push_wf a d0 Hw Hd0)) as [ds [L [B E]]].
  exists (d0 :: ds). split; [cbn; congruence|]. split; [now constructor|].
  cbn [squeeze feed fold_left]. cbn [conc st pos]. rewrite Nat2Z.id.
  rewrite oget_nth by lia. cbn [obind].
  rewrite upd_ok by (rewrite HX; lia). cbn [obind]. rewrite Nat2Z.id. change (u8 0) with 0.
  rewrite xorl_nth by lia. rewrite (nth_overflow (buf a)) by lia. rewrite Z.lxor_0_r. fold d0.
  replace 0 with (Z.lxor (nth (length (buf a)) (base a) 0) d0) at 1 by (unfold d0; apply Z.lxor_nilpotent).
  rewrite <- xorl_snoc by lia. fold (conc l0 a fl). rewrite advance_conc by assumption. cbn [obind]. rewrite E. reflexivity.
Qed.
End Blocks.
