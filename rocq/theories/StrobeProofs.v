(** The sponge of merlin.c against the published STROBE. *)
From Coq Require Import ZArith List Bool Lia String.
From Verif Require Import Outcome Bytes KeccakModel MerlinModel MerlinSpec MerlinProofs StrobeSpec StrobeLink.
Import ListNotations.
Open Scope Z_scope.

Lemma at_byte_aset g : forall l i, (i < List.length l)%nat -> at_byte i g l = aset l i (g (nth i l 0)).
Proof.
  induction l as [|x l IH]; intros i Hi; cbn in Hi; [lia|]. destruct i as [|i]; [reflexivity|].
  change (aset (x :: l) (S i) (g (nth (S i) (x :: l) 0))) with (x :: aset l i (g (nth i l 0))). rewrite <- IH by lia. reflexivity.
Qed.
Lemma aset_ok l i v : bytes_ok l -> is_byte v -> bytes_ok (aset l i v).
Proof.
  intros H Hv. revert i. induction H as [|x l Hx H IH]; intros i.
  - destruct i; constructor.
  - destruct i as [|i]; cbn [aset]; apply Forall_cons; auto. apply IH.
Qed.

Section S.
Variable f : list Z -> list Z.
Hypothesis Hf : perm_ok f.
(** As in_bounds, but the position may be at the rate. *)
Definition in_bounds1 (c : strobe) : Prop := state200 (st c) /\ 0 <= pos c <= 166 /\ 0 <= pos_begin c <= 166.

Lemma run_f_view c : in_bounds1 c -> exists c', run_f f c = Ret c' /\ view c' = runF f (view c) /\ in_bounds c' /\ cur_flags c' = cur_flags c.
Proof.
  intros ((L & B) & P & Q). unfold run_f. rewrite upd_ok by (rewrite L; lia). cbn [obind].
  assert (L1 : List.length (aset (st c) (Z.to_nat (pos c)) (u8 (Z.lxor (nth (Z.to_nat (pos c)) (st c) 0) (pos_begin c)))) = 200%nat) by now rewrite aset_length.
  assert (B0 : is_byte (Z.lxor (nth (Z.to_nat (pos c)) (st c) 0) (pos_begin c))) by (apply byte_lxor; [now apply bytes_nth|unfold is_byte; lia]).
  rewrite (u8_id _ B0) in *.
  pose proof (aset_ok (st c) (Z.to_nat (pos c)) _ B B0) as B1. set (s1 := aset _ _ _) in *.
  rewrite upd_ok by (rewrite L1; lia). cbn [obind].
  assert (Bx : is_byte (Z.lxor (nth (Z.to_nat (pos c + 1)) s1 0) 4)) by (apply byte_lxor; [now apply bytes_nth|unfold is_byte; lia]).
  rewrite (u8_id _ Bx) in *. pose proof (aset_ok s1 (Z.to_nat (pos c + 1)) _ B1 Bx) as B2.
  assert (L2 : List.length (aset s1 (Z.to_nat (pos c + 1)) (Z.lxor (nth (Z.to_nat (pos c + 1)) s1 0) 4)) = 200%nat) by now rewrite aset_length.
  set (s2 := aset s1 _ _) in *. unfold STROBE_R. rewrite upd_ok by (rewrite L2; lia). cbn [obind]. change (Z.to_nat (166 + 1)) with 167%nat.
  assert (By : is_byte (Z.lxor (nth 167 s2 0) 128)) by (apply byte_lxor; [now apply bytes_nth|unfold is_byte; lia]).
  rewrite (u8_id _ By) in *. pose proof (aset_ok s2 167 _ B2 By) as B3. eexists. split; [reflexivity|].
  assert (S3 : state200 (aset s2 167 (Z.lxor (nth 167 s2 0) 128))) by (split; [now rewrite aset_length|exact B3]).
  split; [|split; [|reflexivity]].
  - unfold view, runF. cbn [st pos pos_begin cur_flags bytes at_ begin_ flags_]. f_equal. f_equal.
    rewrite (at_byte_aset _ (st c)) by (rewrite L; lia). rewrite Z2Nat.id by lia. fold s1.
    rewrite (at_byte_aset _ s1) by (rewrite L1; lia). replace (Z.to_nat (pos c) + 1)%nat with (Z.to_nat (pos c + 1)) by lia. fold s2.
    change (166 + 1)%nat with 167%nat. rewrite (at_byte_aset _ s2) by (rewrite L2; lia). reflexivity.
  - split; [now apply Hf|]. cbn. lia.
Qed.

(** The three loops over the data are the same up to the byte that is stored. *)
Lemma step_view c v : in_bounds c -> is_byte v ->
  exists c', advance f c (aset (st c) (Z.to_nat (pos c)) v) = Ret c' /\ in_bounds c' /\ cur_flags c' = cur_flags c /\
    view c' = (let d := Dx (at_byte (at_ (view c)) (fun _ => v) (bytes (view c))) (at_ (view c) + 1) (begin_ (view c)) (flags_ (view c)) in
               if (at_ d =? 166)%nat then runF f d else d).
Proof.
  intros ((L & B) & P & Q) Hv. unfold advance. cbn [pos]. replace (u8 (pos c + 1)) with (pos c + 1) by (symmetry; apply u8_id; unfold is_byte; lia).
  set (d0 := Strobe _ _ _ _ _). assert (V : view d0 = Dx (at_byte (at_ (view c)) (fun _ => v) (bytes (view c))) (at_ (view c) + 1) (begin_ (view c)) (flags_ (view c))).
  { unfold view, d0. cbn [st pos pos_begin cur_flags bytes at_ begin_ flags_]. rewrite at_byte_aset by (rewrite L; lia). f_equal. lia. }
  assert (I1 : in_bounds1 d0). { split; [split; [cbn; now rewrite aset_length|cbn; now apply aset_ok]|cbn; lia]. }
  cbv zeta. rewrite <- V. change (at_ (view d0)) with (Z.to_nat (pos c + 1)). change (pos d0) with (pos c + 1). unfold STROBE_R.
  destruct (Z.eqb_spec (pos c + 1) 166) as [E|E]; destruct (Nat.eqb_spec (Z.to_nat (pos c + 1)) 166) as [E'|E']; try lia.
  - destruct (run_f_view d0 I1) as (c' & H1 & H2 & H3 & H4). exists c'. auto.
  - exists d0. split; [reflexivity|]. split; [|split; reflexivity]. destruct I1 as (A1 & A2 & A3). split; [exact A1|]. cbn in *. lia.
Qed.
Lemma absorb_view : forall data c, in_bounds c -> bytes_ok data ->
  exists c', absorb f c data = Ret c' /\ in_bounds c' /\ cur_flags c' = cur_flags c /\ view c' = snd (duplex f false false (view c) data).
Proof.
  induction data as [|d data IH]; intros c I D; [exists c; auto|]. apply Forall_cons_iff in D as [D0 D]. cbn [absorb duplex].
  pose proof I as ((L & B) & P & Q). rewrite upd_ok by (rewrite L; lia). cbn [obind].
  assert (Hv : is_byte (Z.lxor (nth (Z.to_nat (pos c)) (st c) 0) d)) by (apply byte_lxor; [now apply bytes_nth|exact D0]). rewrite (u8_id _ Hv).
  destruct (step_view c _ I Hv) as (c1 & H1 & H2 & H3 & H4). rewrite H1. cbn [obind]. destruct (IH c1 H2 D) as (c' & K1 & K2 & K3 & K4).
  exists c'. split; [exact K1|]. split; [exact K2|]. split; [congruence|]. rewrite K4, H4. reflexivity.
Qed.
Lemma overwrite_view : forall data c, in_bounds c -> bytes_ok data ->
  exists c', overwrite f c data = Ret c' /\ in_bounds c' /\ cur_flags c' = cur_flags c /\ view c' = snd (duplex f true false (view c) data).
Proof.
  induction data as [|d data IH]; intros c I D; [exists c; auto|]. apply Forall_cons_iff in D as [D0 D]. cbn [overwrite duplex].
  pose proof I as ((L & B) & P & Q). rewrite upd_ok by (rewrite L; lia). cbn [obind]. rewrite (u8_id _ D0).
  destruct (step_view c _ I D0) as (c1 & H1 & H2 & H3 & H4). rewrite H1. cbn [obind]. destruct (IH c1 H2 D) as (c' & K1 & K2 & K3 & K4).
  exists c'. split; [exact K1|]. split; [exact K2|]. split; [congruence|]. rewrite K4, H4.
  replace (Z.lxor (nth (at_ (view c)) (bytes (view c)) 0) (Z.lxor d (nth (at_ (view c)) (bytes (view c)) 0))) with d; [reflexivity|].
  rewrite (Z.lxor_comm d), <- Z.lxor_assoc, Z.lxor_nilpotent, Z.lxor_0_l. reflexivity.
Qed.
Lemma squeeze_view : forall n c, in_bounds c ->
  exists o c', squeeze f c n = Ret (o, c') /\ in_bounds c' /\ cur_flags c' = cur_flags c /\ (o, view c') = duplex f true false (view c) (repeat 0 n).
Proof.
  induction n as [|n IH]; intros c I; [exists [], c; auto|]. cbn [squeeze duplex repeat].
  pose proof I as ((L & B) & P & Q). rewrite oget_nth, upd_ok by (rewrite L; lia). cbn [obind]. change (u8 0) with 0.
  destruct (step_view c 0 I ltac:(unfold is_byte; lia)) as (c1 & H1 & H2 & H3 & H4). rewrite H1. cbn [obind]. destruct (IH c1 H2) as (o & c' & K1 & K2 & K3 & K4).
  rewrite K1. cbn [obind fst snd]. eexists _, c'. split; [reflexivity|]. split; [exact K2|]. split; [congruence|].
  rewrite Z.lxor_0_l, Z.lxor_nilpotent. cbv zeta in H4 |- *. rewrite <- H4, <- K4. reflexivity.
Qed.
Lemma begin_view c fl : in_bounds c -> is_byte fl -> Z.land fl FLAG_T = 0 ->
  exists c', begin_op f c fl false = Ret c' /\ in_bounds c' /\ cur_flags c' = fl /\ view c' = beginOp f fl (view c).
Proof.
  intros ((L & B) & P & Q) Hfl HT. unfold begin_op. rewrite HT. cbn [Z.eqb negb].
  replace (u8 (pos c + 1)) with (pos c + 1) by (symmetry; apply u8_id; unfold is_byte; lia).
  set (c0 := Strobe (st c) (pos c) (pos c + 1) fl (log c)). assert (I0 : in_bounds c0) by (split; [split; assumption|cbn; lia]).
  destruct (absorb_view [pos_begin c; fl] c0 I0) as (c1 & H1 & H2 & H3 & H4).
  { constructor; [unfold is_byte; lia|]. constructor; [exact Hfl|constructor]. }
  rewrite H1. cbn [obind]. unfold beginOp. change (begin_ (view c)) with (Z.to_nat (pos_begin c)). rewrite Z2Nat.id by lia.
  replace (Dx (bytes (view c)) (at_ (view c)) (at_ (view c) + 1) fl) with (view c0) by (unfold view; cbn; f_equal; lia).
  rewrite <- H4. unfold has. change (flagC + flagK) with (Z.lor FLAG_C FLAG_K).
  destruct (negb (Z.land fl (Z.lor FLAG_C FLAG_K) =? 0)); cbn [andb]; [|exists c1; auto]. unfold force. change (at_ (view c1)) with (Z.to_nat (pos c1)).
  destruct H2 as (A1 & A2 & A3). destruct (Z.eqb_spec (pos c1) 0) as [E|E]; destruct (Nat.eqb_spec (Z.to_nat (pos c1)) 0) as [E'|E']; try lia; cbn [negb].
  - exists c1. repeat split; auto; apply A1 || lia.
  - destruct (run_f_view c1 ltac:(split; [exact A1|lia])) as (c' & K1 & K2 & K3 & K4). exists c'. split; [exact K1|]. split; [exact K3|]. split; [rewrite K4; exact H3|exact K2].
Qed.

Lemma ad_op : same_as (AD f) (ad f).
Proof.
  intros c data more I D. unfold AD, operate, ad. change (Z.land flagA (flagC + flagI + flagT) =? flagC + flagT) with false.
  change (has flagA flagC && negb false) with false. destruct more.
  - unfold begin_op. change (flags_ (view c)) with (cur_flags c). change flagA with FLAG_A. destruct (Z.eqb_spec (cur_flags c) FLAG_A); [|reflexivity]. cbn [obind].
    destruct (absorb_view data c I D) as (c' & H1 & H2 & H3 & H4). destruct (duplex f false false (view c) data) as [o d] eqn:Q. exists c'. auto.
  - destruct (begin_view c FLAG_A I ltac:(unfold is_byte, FLAG_A; lia) eq_refl) as (c1 & H1 & H2 & H3 & H4). rewrite H1. cbn [obind]. change flagA with FLAG_A. rewrite <- H4.
    destruct (absorb_view data c1 H2 D) as (c' & K1 & K2 & K3 & K4). destruct (duplex f false false (view c1) data) as [o d] eqn:Q. exists c'. auto.
Qed.
Lemma key_op : same_as (KEY f) (key f).
Proof.
  intros c data more I D. unfold KEY, operate, key. change (Z.land (flagA + flagC) (flagC + flagI + flagT) =? flagC + flagT) with false.
  change (has (flagA + flagC) flagC && negb false) with true. change (flagA + flagC) with 6. change (Z.lor FLAG_C FLAG_A) with 6. destruct more.
  - unfold begin_op. change (flags_ (view c)) with (cur_flags c). destruct (Z.eqb_spec (cur_flags c) 6); [|reflexivity]. cbn [obind].
    destruct (overwrite_view data c I D) as (c' & H1 & H2 & H3 & H4). destruct (duplex f true false (view c) data) as [o d] eqn:Q. exists c'. auto.
  - destruct (begin_view c 6 I ltac:(unfold is_byte; lia) eq_refl) as (c1 & H1 & H2 & H3 & H4). rewrite H1. cbn [obind]. rewrite <- H4.
    destruct (overwrite_view data c1 H2 D) as (c' & K1 & K2 & K3 & K4). destruct (duplex f true false (view c1) data) as [o d] eqn:Q. exists c'. auto.
Qed.
Lemma prf_op c n more : in_bounds c ->
  match PRF f more (view c) (repeat 0 n) with
  | Some (o, d) => exists c', prf f c n more = Ret (o, c') /\ in_bounds c' /\ view c' = d
  | None => prf f c n more = Abort
  end.
Proof.
  intros I. unfold PRF, operate, prf. change (Z.land (flagI + flagA + flagC) (flagC + flagI + flagT) =? flagC + flagT) with false.
  change (has (flagI + flagA + flagC) flagC && negb false) with true. change (flagI + flagA + flagC) with 7. change (Z.lor (Z.lor FLAG_I FLAG_A) FLAG_C) with 7. destruct more.
  - unfold begin_op. change (flags_ (view c)) with (cur_flags c). destruct (Z.eqb_spec (cur_flags c) 7); [|reflexivity]. cbn [obind].
    destruct (squeeze_view n c I) as (o & c' & H1 & H2 & H3 & H4). rewrite <- H4. exists c'. auto.
  - destruct (begin_view c 7 I ltac:(unfold is_byte; lia) eq_refl) as (c1 & H1 & H2 & H3 & H4). rewrite H1. cbn [obind]. rewrite <- H4.
    destruct (squeeze_view n c1 H2) as (o & c' & K1 & K2 & K3 & K4). rewrite <- K4. exists c'. auto.
Qed.
Lemma meta_op : same_as (odd_meta f) (meta_ad f).
Proof.
  intros c data more I D. unfold odd_meta, meta_ad. change (flagA + flagC) with 6. change (Z.lor FLAG_C FLAG_A) with 6. destruct more.
  - unfold begin_op. change (flags_ (view c)) with (cur_flags c). destruct (Z.eqb_spec (cur_flags c) 6); [|reflexivity]. cbn [obind also].
    destruct (absorb_view data c I D) as (c' & H1 & H2 & H3 & H4). destruct (duplex f false false (view c) data) as [o d] eqn:Q. exists c'. auto.
  - destruct (begin_view c 6 I ltac:(unfold is_byte; lia) eq_refl) as (c1 & H1 & H2 & H3 & H4). rewrite H1. cbn [obind also]. rewrite <- H4.
    destruct (absorb_view data c1 H2 D) as (c' & K1 & K2 & K3 & K4). destruct (duplex f false false (view c1) data) as [o d] eqn:Q. exists c'. auto.
Qed.

Lemma len4_LE n : len4 n = LE32 n.
Proof.
  unfold len4, LE32. cbn [le_bytes firstn map]. rewrite !Z.div_div by lia. cbn. rewrite Z.div_1_r. reflexivity.
Qed.
Lemma LE32_ok n : bytes_ok (LE32 n).
Proof. unfold LE32. repeat (constructor; [apply Z.mod_pos_bound; lia|]). constructor. Qed.
Lemma exec_events : forall calls c, in_bounds c -> Forall call_ok calls ->
  match events f (odd_meta f) (view c) (map event_of calls) with
  | Some (o, d) => exists c', exec f c calls = Ret (o, c') /\ in_bounds c' /\ view c' = d
  | None => exec f c calls = Abort
  end.
Proof.
  induction calls as [|a calls IH]; intros c I K; [exists c; auto|]. apply Forall_cons_iff in K as [K0 K]. destruct a as [l m|l n]; cbn [event_of map events exec call_ok] in *.
  - unfold framed, commit_bytes. destruct K0 as [Kl Km]. pose proof (meta_op c l false I Kl) as H1. destruct ((odd_meta f) false (view c) l) as [[o1 d1]|]; [|now rewrite H1].
    destruct H1 as (c1 & -> & I1 & <-). cbn [obind also snd]. rewrite len4_LE. pose proof (meta_op c1 (LE32 (List.length m)) true I1 (LE32_ok _)) as H2.
    destruct ((odd_meta f) true (view c1) (LE32 (List.length m))) as [[o2 d2]|]; [|now rewrite H2]. destruct H2 as (c2 & -> & I2 & <-). cbn [obind also snd].
    pose proof (ad_op c2 m false I2 Km) as H3. destruct (AD f false (view c2) m) as [[o3 d3]|]; [|now rewrite H3]. destruct H3 as (c3 & -> & I3 & <-). cbn [obind also snd]. now apply IH.
  - unfold framed, challenge_bytes. pose proof (meta_op c l false I K0) as H1. destruct ((odd_meta f) false (view c) l) as [[o1 d1]|]; [|now rewrite H1].
    destruct H1 as (c1 & -> & I1 & <-). cbn [obind also snd]. rewrite len4_LE, repeat_length. pose proof (meta_op c1 (LE32 n) true I1 (LE32_ok _)) as H2.
    destruct ((odd_meta f) true (view c1) (LE32 n)) as [[o2 d2]|]; [|now rewrite H2]. destruct H2 as (c2 & -> & I2 & <-). cbn [obind also snd].
    pose proof (prf_op c2 n false I2) as H3. destruct (PRF f false (view c2) (repeat 0 n)) as [[o3 d3]|]; [|now rewrite H3]. destruct H3 as (c3 & -> & I3 & <-). cbn [obind also snd fst].
    specialize (IH c3 I3 K). destruct (events f (odd_meta f) (view c3) (map event_of calls)) as [[o4 d4]|]; [|now rewrite IH]. destruct IH as (c4 & -> & I4 & <-). cbn. exists c4. auto.
Qed.
Lemma run_merlin label calls : bytes_ok label -> Forall call_ok calls ->
  match merlin f (odd_meta f) label (map event_of calls) with
  | Some o => exists c', run f label calls = Ret (o, c')
  | None => run f label calls = Abort
  end.
Proof.
  intros Kl K. unfold merlin, run, transcript_init, strobe_init.
  assert (I0 : in_bounds (Strobe (f (init_bytes ++ repeat 0 182)) 0 0 0 [init_bytes ++ repeat 0 182])).
  { split; [|cbn; lia]. apply Hf. split; [reflexivity|]. unfold init_bytes. apply Forall_forall. intros b Hb. apply in_app_iff in Hb as [Hb|Hb].
    - cbn in Hb. unfold is_byte. intuition lia.
    - apply repeat_spec in Hb. subst. unfold is_byte. lia. }
  assert (V0 : view (Strobe (f (init_bytes ++ repeat 0 182)) 0 0 0 [init_bytes ++ repeat 0 182]) = fresh f) by reflexivity.
  assert (LB : bytes_ok (lit "Merlin v1.0") /\ bytes_ok (lit "dom-sep")).
  { split; apply Forall_forall; intros b Hb; cbn in Hb; unfold is_byte; intuition lia. }
  destruct LB as [LB1 LB2]. pose proof (meta_op _ (lit "Merlin v1.0") false I0 LB1) as H1. rewrite V0 in H1. change (ascii_bytes "Merlin v1.0") with (lit "Merlin v1.0").
  destruct ((odd_meta f) false (fresh f) (lit "Merlin v1.0")) as [[o1 d1]|]; [|now rewrite H1]. destruct H1 as (c1 & -> & I1 & <-). cbn [obind also snd].
  pose proof (exec_events (Append (lit "dom-sep") label :: calls) c1 I1 ltac:(apply Forall_cons; [split; assumption|exact K])) as H2.
  change (map event_of (Append (lit "dom-sep") label :: calls)) with (Msg (ascii_bytes "dom-sep") label :: map event_of calls) in H2. cbn [exec] in H2.
  destruct (events f (odd_meta f) (view c1) (Msg (ascii_bytes "dom-sep") label :: map event_of calls)) as [[o2 d2]|]; cbn [also fst]; [|exact H2].
  destruct H2 as (c2 & H2 & _). exists c2. exact H2.
Qed.

(** Adding a string is overwriting with another one. *)
Lemma absorb_overwrite : forall data c, in_bounds c -> bytes_ok data ->
  exists data', List.length data' = List.length data /\ bytes_ok data' /\ overwrite f c data' = absorb f c data.
Proof.
  induction data as [|d data IH]; intros c I D; [exists []; repeat split; constructor|]. apply Forall_cons_iff in D as [D0 D].
  pose proof I as ((L & B) & P & Q). set (v := Z.lxor (nth (Z.to_nat (pos c)) (st c) 0) d).
  assert (Hv : is_byte v) by (apply byte_lxor; [now apply bytes_nth|exact D0]).
  destruct (step_view c v I Hv) as (c1 & H1 & H2 & _). destruct (IH c1 H2 D) as (data' & K1 & K2 & K3). exists (v :: data').
  split; [cbn; lia|]. split; [now apply Forall_cons|]. cbn [overwrite absorb]. rewrite !upd_ok by (rewrite L; lia). cbn [obind]. fold v. rewrite (u8_id _ Hv), H1. exact K3.
Qed.
Lemma meta_key c data more : in_bounds c -> bytes_ok data ->
  exists data', List.length data' = List.length data /\ bytes_ok data' /\ key f c data' more = meta_ad f c data more.
Proof.
  intros I D. unfold key, meta_ad. destruct more.
  - unfold begin_op. destruct (cur_flags c =? Z.lor FLAG_C FLAG_A); cbn [obind]; [now apply absorb_overwrite|]. exists data. auto.
  - destruct (begin_view c (Z.lor FLAG_C FLAG_A) I ltac:(split; reflexivity || discriminate) eq_refl) as (c1 & H1 & H2 & H3 & H4).
    rewrite H1. cbn [obind]. now apply absorb_overwrite.
Qed.
End S.
