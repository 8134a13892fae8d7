(** The operations of the transcript keep different states apart. *)
From Coq Require Import ZArith List Bool Lia.
From Verif Require Import Outcome Bytes KeccakModel MerlinModel MerlinSpec MerlinProofs MerlinMore StrobeSpec StrobeLink StrobeProofs ForgetSpec.
Import ListNotations.
Open Scope Z_scope.

Lemma aset_xor_inj s t i d : length s = length t -> (i < length s)%nat ->
  aset s i (Z.lxor (nth i s 0) d) = aset t i (Z.lxor (nth i t 0) d) -> s = t.
Proof.
  intros L Hi H. apply list_ext; [exact L|]. intros j Hj. pose proof (f_equal (fun l => nth j l 0) H) as E. cbv beta in E. rewrite !aset_nth in E by lia.
  destruct (Nat.eqb_spec j i) as [->|N]; [|exact E]. rewrite !(Z.lxor_comm _ d) in E. now apply lxor_cancel in E.
Qed.
Lemma upd_xor s i d : state200 s -> 0 <= i < 200 -> is_byte d ->
  exists s', upd s i (fun b => Z.lxor b d) = Ret s' /\ state200 s' /\ s' = aset s (Z.to_nat i) (Z.lxor (nth (Z.to_nat i) s 0) d).
Proof.
  intros [L B] Hi Hd. rewrite upd_ok by (rewrite L; lia). assert (X : is_byte (Z.lxor (nth (Z.to_nat i) s 0) d)) by (apply byte_lxor; [now apply bytes_nth|exact Hd]).
  rewrite (u8_id _ X). eexists. split; [reflexivity|]. split; [|reflexivity]. split; [now rewrite aset_length|now apply aset_ok].
Qed.
Lemma upd_xor_inj s t i d r : state200 s -> state200 t -> 0 <= i < 200 -> is_byte d ->
  upd s i (fun b => Z.lxor b d) = Ret r -> upd t i (fun b => Z.lxor b d) = Ret r -> s = t.
Proof.
  intros Hs Ht Hi Hd E1 E2. destruct (upd_xor s i d Hs Hi Hd) as (s' & A1 & _ & A2). destruct (upd_xor t i d Ht Hi Hd) as (t' & B1 & _ & B2).
  rewrite E1 in A1. rewrite E2 in B1. injection A1 as <-. injection B1 as <-. rewrite A2 in B2. apply aset_xor_inj in B2; [exact B2| |]; destruct Hs, Ht; lia.
Qed.

Section S.
Variable f : list Z -> list Z.
Hypothesis Hf : perm_ok f.
Hypothesis Hi : injective f.

Lemma run_f_inj c1 c2 c1' c2' : in_bounds1 c1 -> in_bounds1 c2 -> same_place c1 c2 -> run_f f c1 = Ret c1' -> run_f f c2 = Ret c2' ->
  same_place c1' c2' /\ (st c1' = st c2' -> st c1 = st c2).
Proof.
  intros (S1 & P1 & Q1) (S2 & P2 & Q2) (EP & EQ & EF) R1 R2. unfold run_f, STROBE_R in R1, R2. rewrite <- EP, <- EQ in R2.
  assert (D0 : is_byte (pos_begin c1)) by (unfold is_byte; lia). assert (D4 : is_byte 4) by (unfold is_byte; lia). assert (D8 : is_byte 128) by (unfold is_byte; lia).
  destruct (upd_xor (st c1) (pos c1) _ S1 ltac:(lia) D0) as (s1 & A1 & B1 & _). destruct (upd_xor (st c2) (pos c1) _ S2 ltac:(lia) D0) as (t1 & A1' & B1' & _).
  destruct (upd_xor s1 (pos c1 + 1) 4 B1 ltac:(lia) D4) as (s2 & A2 & B2 & _). destruct (upd_xor t1 (pos c1 + 1) 4 B1' ltac:(lia) D4) as (t2 & A2' & B2' & _).
  destruct (upd_xor s2 (166 + 1) 128 B2 ltac:(lia) D8) as (s3 & A3 & B3 & _). destruct (upd_xor t2 (166 + 1) 128 B2' ltac:(lia) D8) as (t3 & A3' & B3' & _).
  rewrite A1 in R1. cbn [obind] in R1. rewrite A2 in R1. cbn [obind] in R1. rewrite A3 in R1. cbn [obind] in R1. injection R1 as <-.
  rewrite A1' in R2. cbn [obind] in R2. rewrite A2' in R2. cbn [obind] in R2. rewrite A3' in R2. cbn [obind] in R2. injection R2 as <-.
  split; [split; [reflexivity|split; [reflexivity|exact EF]]|]. cbn [st]. intros H. apply Hi in H; [|assumption|assumption]. subst t3.
  pose proof (upd_xor_inj s2 t2 (166 + 1) _ _ B2 B2' ltac:(lia) D8 A3 A3'). subst t2. pose proof (upd_xor_inj s1 t1 (pos c1 + 1) _ _ B1 B1' ltac:(lia) D4 A2 A2'). subst t1.
  exact (upd_xor_inj _ _ (pos c1) _ _ S1 S2 ltac:(lia) D0 A1 A1').
Qed.
Lemma advance_inj c1 c2 s1 s2 c1' c2' : in_bounds c1 -> in_bounds c2 -> same_place c1 c2 -> state200 s1 -> state200 s2 ->
  advance f c1 s1 = Ret c1' -> advance f c2 s2 = Ret c2' -> same_place c1' c2' /\ (st c1' = st c2' -> s1 = s2).
Proof.
  intros (_ & P1 & Q1) (_ & P2 & Q2) (EP & EQ & EF) H1 H2 A1 A2. unfold advance in A1, A2. cbn [pos] in A1, A2. rewrite <- EP, <- EQ, <- EF in A2.
  assert (U : u8 (pos c1 + 1) = pos c1 + 1) by (apply u8_id; unfold is_byte; lia). rewrite U in *.
  destruct (pos c1 + 1 =? STROBE_R).
  - assert (J1 : in_bounds1 (Strobe s1 (pos c1 + 1) (pos_begin c1) (cur_flags c1) (log c1))) by (split; [exact H1|cbn; lia]).
    assert (J2 : in_bounds1 (Strobe s2 (pos c1 + 1) (pos_begin c1) (cur_flags c1) (log c2))) by (split; [exact H2|cbn; lia]).
    exact (run_f_inj _ _ _ _ J1 J2 (conj eq_refl (conj eq_refl eq_refl)) A1 A2).
  - injection A1 as <-. injection A2 as <-. split; [repeat split|]. cbn [st]. auto.
Qed.
Lemma absorb_inj : forall data c1 c2 c1' c2', bytes_ok data -> in_bounds c1 -> in_bounds c2 -> same_place c1 c2 ->
  absorb f c1 data = Ret c1' -> absorb f c2 data = Ret c2' -> same_place c1' c2' /\ (st c1' = st c2' -> st c1 = st c2).
Proof.
  induction data as [|d data IH]; intros c1 c2 c1' c2' D I1 I2 SP A1 A2; cbn [absorb] in A1, A2.
  { injection A1 as <-. injection A2 as <-. auto. }
  apply Forall_cons_iff in D as [D0 D]. pose proof I1 as (S1 & P1 & Q1). pose proof I2 as (S2 & P2 & Q2). pose proof SP as (EP & _).
  destruct (upd_xor (st c1) (pos c1) d S1 ltac:(lia) D0) as (s1 & U1 & B1 & V1). destruct (upd_xor (st c2) (pos c2) d S2 ltac:(lia) D0) as (s2 & U2 & B2 & V2).
  rewrite U1 in A1. rewrite U2 in A2. cbn [obind] in A1, A2.
  apply obind_ret_inv in A1 as (m1 & M1 & A1). apply obind_ret_inv in A2 as (m2 & M2 & A2).
  assert (N1 : in_bounds m1).
  { destruct (step_view f Hf c1 (Z.lxor (nth (Z.to_nat (pos c1)) (st c1) 0) d) I1) as (x & X1 & X2 & _); [apply byte_lxor; [apply bytes_nth, S1|exact D0]|]. rewrite <- V1, M1 in X1. now injection X1 as <-. }
  assert (N2 : in_bounds m2).
  { destruct (step_view f Hf c2 (Z.lxor (nth (Z.to_nat (pos c2)) (st c2) 0) d) I2) as (x & X1 & X2 & _); [apply byte_lxor; [apply bytes_nth, S2|exact D0]|]. rewrite <- V2, M2 in X1. now injection X1 as <-. }
  destruct (advance_inj c1 c2 s1 s2 m1 m2 I1 I2 SP B1 B2 M1 M2) as (SP' & J). destruct (IH m1 m2 c1' c2' D N1 N2 SP' A1 A2) as (K1 & K2).
  split; [exact K1|]. intros H. apply K2, J in H. rewrite <- H, <- EP in U2. exact (upd_xor_inj _ _ (pos c1) _ _ S1 S2 ltac:(lia) D0 U1 U2).
Qed.
Lemma squeeze_inj : forall n c1 c2 o c1' c2', in_bounds c1 -> in_bounds c2 -> same_place c1 c2 ->
  squeeze f c1 n = Ret (o, c1') -> squeeze f c2 n = Ret (o, c2') -> same_place c1' c2' /\ (st c1' = st c2' -> st c1 = st c2).
Proof.
  induction n as [|n IH]; intros c1 c2 o c1' c2' I1 I2 SP A1 A2; cbn [squeeze] in A1, A2.
  { injection A1 as _ <-. injection A2 as _ <-. auto. }
  pose proof I1 as ((L1 & T1) & P1 & Q1). pose proof I2 as ((L2 & T2) & P2 & Q2). pose proof SP as (EP & _).
  rewrite oget_nth, upd_ok in A1 by (rewrite L1; lia). rewrite oget_nth, upd_ok in A2 by (rewrite L2; lia). change (u8 0) with 0 in *. cbn [obind] in A1, A2.
  apply obind_ret_inv in A1 as (m1 & M1 & A1). apply obind_ret_inv in A2 as (m2 & M2 & A2).
  apply obind_ret_inv in A1 as ([o1 x1] & X1 & A1). apply obind_ret_inv in A2 as ([o2 x2] & X2 & A2). cbn [fst snd] in A1, A2.
  injection A1 as <- <-. injection A2 as EB EO <-. subst o2.
  assert (Z0 : is_byte 0) by (unfold is_byte; lia).
  destruct (step_view f Hf c1 0 I1 Z0) as (y1 & Y1 & N1 & _). rewrite M1 in Y1. injection Y1 as <-.
  destruct (step_view f Hf c2 0 I2 Z0) as (y2 & Y2 & N2 & _). rewrite M2 in Y2. injection Y2 as <-.
  destruct (advance_inj c1 c2 _ _ m1 m2 I1 I2 SP (conj (eq_trans (aset_length _ _ _) L1) (aset_ok _ _ _ T1 Z0)) (conj (eq_trans (aset_length _ _ _) L2) (aset_ok _ _ _ T2 Z0)) M1 M2) as (SP' & J).
  destruct (IH m1 m2 o1 x1 x2 N1 N2 SP' X1 X2) as (K1 & K2). split; [exact K1|]. intros H. apply K2, J in H.
  apply list_ext; [lia|]. intros j Hj. pose proof (f_equal (fun l => nth j l 0) H) as E. cbv beta in E. rewrite <- EP in *. rewrite !aset_nth in E by lia.
  destruct (Nat.eqb_spec j (Z.to_nat (pos c1))) as [->|N]; [now symmetry|exact E].
Qed.
Lemma begin_inj c1 c2 fl c1' c2' : is_byte fl -> Z.land fl FLAG_T = 0 -> in_bounds c1 -> in_bounds c2 -> same_place c1 c2 ->
  begin_op f c1 fl false = Ret c1' -> begin_op f c2 fl false = Ret c2' -> in_bounds c1' /\ in_bounds c2' /\ same_place c1' c2' /\ (st c1' = st c2' -> st c1 = st c2).
Proof.
  intros Hfl HT I1 I2 SP A1 A2.
  destruct (begin_view f Hf c1 fl I1 Hfl HT) as (x1 & X1 & B1 & _). rewrite A1 in X1. injection X1 as <-.
  destruct (begin_view f Hf c2 fl I2 Hfl HT) as (x2 & X2 & B2 & _). rewrite A2 in X2. injection X2 as <-.
  split; [exact B1|]. split; [exact B2|]. unfold begin_op in A1, A2. rewrite HT in A1, A2. cbn [Z.eqb negb] in A1, A2.
  pose proof I1 as (S1 & P1 & Q1). pose proof I2 as (S2 & P2 & Q2). pose proof SP as (EP & EQ & EF). rewrite <- EP, <- EQ in A2.
  replace (u8 (pos c1 + 1)) with (pos c1 + 1) in * by (symmetry; apply u8_id; unfold is_byte; lia).
  apply obind_ret_inv in A1 as (m1 & M1 & A1). apply obind_ret_inv in A2 as (m2 & M2 & A2).
  assert (D : bytes_ok [pos_begin c1; fl]) by (repeat constructor; unfold is_byte in *; lia).
  assert (J1 : in_bounds (Strobe (st c1) (pos c1) (pos c1 + 1) fl (log c1))) by (split; [exact S1|cbn; lia]).
  assert (J2 : in_bounds (Strobe (st c2) (pos c1) (pos c1 + 1) fl (log c2))) by (split; [exact S2|cbn; lia]).
  destruct (absorb_inj _ _ _ m1 m2 D J1 J2 ltac:(repeat split) M1 M2) as (SP' & K). cbn [st] in K.
  destruct (absorb_view f Hf _ _ J1 D) as (y1 & Y1 & N1 & _). rewrite M1 in Y1. injection Y1 as <-.
  destruct (absorb_view f Hf _ _ J2 D) as (y2 & Y2 & N2 & _). rewrite M2 in Y2. injection Y2 as <-.
  pose proof SP' as (EP' & _). rewrite <- EP' in A2.
  destruct (negb (Z.land fl (Z.lor FLAG_C FLAG_K) =? 0) && negb (pos m1 =? 0)).
  - destruct N1 as (? & ? & ?), N2 as (? & ? & ?). destruct (run_f_inj m1 m2 c1' c2') as (U & V); auto; try (split; [assumption|lia]).
  - injection A1 as <-. injection A2 as <-. auto.
Qed.
(** An operation that adds data: label, length or message. *)
Lemma meta_inj c1 c2 data more c1' c2' : bytes_ok data -> in_bounds c1 -> in_bounds c2 -> same_place c1 c2 ->
  meta_ad f c1 data more = Ret c1' -> meta_ad f c2 data more = Ret c2' -> in_bounds c1' /\ in_bounds c2' /\ same_place c1' c2' /\ (st c1' = st c2' -> st c1 = st c2).
Proof.
  intros D I1 I2 SP A1 A2. unfold meta_ad in A1, A2. apply obind_ret_inv in A1 as (m1 & M1 & A1). apply obind_ret_inv in A2 as (m2 & M2 & A2).
  assert (K : in_bounds m1 /\ in_bounds m2 /\ same_place m1 m2 /\ (st m1 = st m2 -> st c1 = st c2)).
  { destruct more; [|apply (begin_inj c1 c2 (Z.lor FLAG_C FLAG_A) m1 m2); auto; unfold is_byte; cbn; lia].
    unfold begin_op in M1, M2. destruct (cur_flags c1 =? _); [|discriminate]. destruct (cur_flags c2 =? _); [|discriminate]. injection M1 as <-. injection M2 as <-. auto. }
  destruct K as (N1 & N2 & SP' & K). destruct (absorb_inj data m1 m2 c1' c2' D N1 N2 SP' A1 A2) as (U & V).
  destruct (absorb_view f Hf data m1 N1 D) as (y1 & Y1 & O1 & _). rewrite A1 in Y1. injection Y1 as <-.
  destruct (absorb_view f Hf data m2 N2 D) as (y2 & Y2 & O2 & _). rewrite A2 in Y2. injection Y2 as <-. auto 10.
Qed.
Lemma len4_ok n : bytes_ok (len4 n). Proof. rewrite len4_LE. apply LE32_ok. Qed.
Lemma commit_inj c1 c2 l m c1' c2' : bytes_ok l -> bytes_ok m -> in_bounds c1 -> in_bounds c2 -> same_place c1 c2 ->
  commit_bytes f c1 l m = Ret c1' -> commit_bytes f c2 l m = Ret c2' -> in_bounds c1' /\ in_bounds c2' /\ same_place c1' c2' /\ (st c1' = st c2' -> st c1 = st c2).
Proof.
  intros Bl Bm I1 I2 SP A1 A2. unfold commit_bytes in A1, A2.
  apply obind_ret_inv in A1 as (m1 & M1 & A1). apply obind_ret_inv in A2 as (m2 & M2 & A2). destruct (meta_inj c1 c2 l false m1 m2 Bl I1 I2 SP M1 M2) as (N1 & N2 & SP1 & K1).
  apply obind_ret_inv in A1 as (n1 & L1 & A1). apply obind_ret_inv in A2 as (n2 & L2 & A2). destruct (meta_inj m1 m2 _ true n1 n2 (len4_ok _) N1 N2 SP1 L1 L2) as (O1 & O2 & SP2 & K2).
  unfold ad in A1, A2. apply obind_ret_inv in A1 as (x1 & X1 & A1). apply obind_ret_inv in A2 as (x2 & X2 & A2).
  destruct (begin_inj n1 n2 FLAG_A x1 x2 ltac:(split; [discriminate|reflexivity]) eq_refl O1 O2 SP2 X1 X2) as (J1 & J2 & SP3 & K3).
  destruct (absorb_inj m x1 x2 c1' c2' Bm J1 J2 SP3 A1 A2) as (SP4 & K4).
  destruct (absorb_view f Hf m x1 J1 Bm) as (y1 & Y1 & G1 & _). rewrite A1 in Y1. injection Y1 as <-.
  destruct (absorb_view f Hf m x2 J2 Bm) as (y2 & Y2 & G2 & _). rewrite A2 in Y2. injection Y2 as <-. auto 10.
Qed.
Lemma challenge_inj c1 c2 l n o c1' c2' : bytes_ok l -> in_bounds c1 -> in_bounds c2 -> same_place c1 c2 ->
  challenge_bytes f c1 l n = Ret (o, c1') -> challenge_bytes f c2 l n = Ret (o, c2') -> in_bounds c1' /\ in_bounds c2' /\ same_place c1' c2' /\ (st c1' = st c2' -> st c1 = st c2).
Proof.
  intros Bl I1 I2 SP A1 A2. unfold challenge_bytes in A1, A2.
  apply obind_ret_inv in A1 as (m1 & M1 & A1). apply obind_ret_inv in A2 as (m2 & M2 & A2). destruct (meta_inj c1 c2 l false m1 m2 Bl I1 I2 SP M1 M2) as (N1 & N2 & SP1 & K1).
  apply obind_ret_inv in A1 as (n1 & L1 & A1). apply obind_ret_inv in A2 as (n2 & L2 & A2). destruct (meta_inj m1 m2 _ true n1 n2 (len4_ok _) N1 N2 SP1 L1 L2) as (O1 & O2 & SP2 & K2).
  unfold prf in A1, A2. apply obind_ret_inv in A1 as (x1 & X1 & A1). apply obind_ret_inv in A2 as (x2 & X2 & A2).
  destruct (begin_inj n1 n2 (Z.lor (Z.lor FLAG_I FLAG_A) FLAG_C) x1 x2 ltac:(split; [discriminate|reflexivity]) eq_refl O1 O2 SP2 X1 X2) as (J1 & J2 & SP3 & K3).
  destruct (squeeze_inj n x1 x2 o c1' c2' J1 J2 SP3 A1 A2) as (SP4 & K4).
  destruct (squeeze_view f Hf n x1 J1) as (p1 & y1 & Y1 & G1 & _). rewrite A1 in Y1. injection Y1 as _ <-.
  destruct (squeeze_view f Hf n x2 J2) as (p2 & y2 & Y2 & G2 & _). rewrite A2 in Y2. injection Y2 as _ <-. auto 10.
Qed.
Lemma exec_inj : forall calls c1 c2 o c1' c2', Forall call_ok calls -> in_bounds c1 -> in_bounds c2 -> same_place c1 c2 ->
  exec f c1 calls = Ret (o, c1') -> exec f c2 calls = Ret (o, c2') -> same_place c1' c2' /\ (st c1' = st c2' -> st c1 = st c2).
Proof.
  induction calls as [|a calls IH]; intros c1 c2 o c1' c2' OK I1 I2 SP A1 A2; cbn [exec] in A1, A2.
  { injection A1 as _ <-. injection A2 as _ <-. auto. }
  apply Forall_cons_iff in OK as [OA OK]. destruct a as [l m|l n]; cbn [call_ok] in OA.
  - apply obind_ret_inv in A1 as (m1 & M1 & A1). apply obind_ret_inv in A2 as (m2 & M2 & A2).
    destruct (commit_inj c1 c2 l m m1 m2 (proj1 OA) (proj2 OA) I1 I2 SP M1 M2) as (N1 & N2 & SP1 & K1). destruct (IH m1 m2 o c1' c2' OK N1 N2 SP1 A1 A2). auto.
  - apply obind_ret_inv in A1 as ([d1 m1] & M1 & A1). apply obind_ret_inv in A2 as ([d2 m2] & M2 & A2). cbn [fst snd] in A1, A2.
    apply obind_ret_inv in A1 as ([r1 x1] & X1 & A1). apply obind_ret_inv in A2 as ([r2 x2] & X2 & A2). cbn [fst snd] in A1, A2.
    injection A1 as <- <-. injection A2 as Ed Er <-. subst d2 r2.
    destruct (challenge_inj c1 c2 l n d1 m1 m2 OA I1 I2 SP M1 M2) as (N1 & N2 & SP1 & K1). destruct (IH m1 m2 r1 x1 x2 OK N1 N2 SP1 X1 X2). auto.
Qed.
(** Different data within one block. *)
Lemma absorb_step c d data c' : is_byte d -> in_bounds c -> absorb f c (d :: data) = Ret c' ->
  exists m, advance f c (aset (st c) (Z.to_nat (pos c)) (Z.lxor (nth (Z.to_nat (pos c)) (st c) 0) d)) = Ret m /\ in_bounds m /\ absorb f m data = Ret c' /\
    (pos c + 1 < 166 -> pos m = pos c + 1 /\ st m = aset (st c) (Z.to_nat (pos c)) (Z.lxor (nth (Z.to_nat (pos c)) (st c) 0) d)).
Proof.
  intros D0 I A. pose proof I as (S & P & Q). cbn [absorb] in A. destruct (upd_xor (st c) (pos c) d S ltac:(lia) D0) as (s1 & U1 & B1 & V1). rewrite U1 in A. cbn [obind] in A.
  apply obind_ret_inv in A as (m & M & A). exists m. rewrite <- V1. split; [exact M|].
  destruct (step_view f Hf c (Z.lxor (nth (Z.to_nat (pos c)) (st c) 0) d) I) as (x & X1 & X2 & _); [apply byte_lxor; [apply bytes_nth, S|exact D0]|].
  rewrite <- V1, M in X1. injection X1 as <-. split; [exact X2|]. split; [exact A|]. intros L. unfold advance in M. cbn [pos] in M.
  rewrite u8_id in M by (unfold is_byte; lia). unfold STROBE_R in M. destruct (Z.eqb_spec (pos c + 1) 166); [lia|]. injection M as <-. auto.
Qed.
Lemma xored c d : is_byte d -> in_bounds c -> state200 (aset (st c) (Z.to_nat (pos c)) (Z.lxor (nth (Z.to_nat (pos c)) (st c) 0) d)).
Proof. intros D ((L & B) & P & Q). split; [now rewrite aset_length|]. apply aset_ok; [exact B|]. apply byte_lxor; [now apply bytes_nth|exact D]. Qed.
Lemma absorb_keep : forall u v c1 c2 c1' c2' j, bytes_ok u -> bytes_ok v -> length u = length v -> in_bounds c1 -> in_bounds c2 -> same_place c1 c2 ->
  pos c1 + Z.of_nat (length u) <= 166 -> (j < Z.to_nat (pos c1))%nat -> nth j (st c1) 0 <> nth j (st c2) 0 ->
  absorb f c1 u = Ret c1' -> absorb f c2 v = Ret c2' -> same_place c1' c2' /\ st c1' <> st c2'.
Proof.
  induction u as [|d u IH]; intros [|e v] c1 c2 c1' c2' j Bu Bv L I1 I2 SP W Hj N A1 A2; try discriminate.
  { cbn [absorb] in A1, A2. injection A1 as <-. injection A2 as <-. split; [exact SP|]. intros E. now rewrite E in N. }
  apply Forall_cons_iff in Bu as [D Bu]. apply Forall_cons_iff in Bv as [E Bv]. cbn [length] in W. injection L as L. pose proof SP as (EP & _).
  destruct (absorb_step c1 d u c1' D I1 A1) as (m1 & M1 & N1 & R1 & F1). destruct (absorb_step c2 e v c2' E I2 A2) as (m2 & M2 & N2 & R2 & F2).
  destruct (advance_inj c1 c2 _ _ m1 m2 I1 I2 SP (xored c1 d D I1) (xored c2 e E I2) M1 M2) as (SP' & J). rewrite <- EP in *.
  destruct I1 as ((L1 & T1) & P1 & Q1), I2 as ((L2 & T2) & P2 & Q2).
  assert (DJ : nth j (aset (st c1) (Z.to_nat (pos c1)) (Z.lxor (nth (Z.to_nat (pos c1)) (st c1) 0) d)) 0 <> nth j (aset (st c2) (Z.to_nat (pos c1)) (Z.lxor (nth (Z.to_nat (pos c1)) (st c2) 0) e)) 0).
  { rewrite !aset_nth by lia. destruct (Nat.eqb_spec j (Z.to_nat (pos c1))); [lia|exact N]. }
  destruct (Z_lt_dec (pos c1 + 1) 166) as [Lt|Ge].
  - destruct (F1 Lt) as (p1 & s1). destruct (F2 Lt) as (p2 & s2). apply (IH v m1 m2 c1' c2' j Bu Bv L N1 N2 SP'); auto; try lia. rewrite s1, s2. exact DJ.
  - destruct u; [|cbn [length] in W; lia]. destruct v; [|discriminate]. cbn [absorb] in R1, R2. injection R1 as <-. injection R2 as <-. split; [exact SP'|]. intros X. apply J in X. now rewrite X in DJ.
Qed.
Lemma absorb_window : forall u v c c1' c2', bytes_ok u -> bytes_ok v -> length u = length v -> u <> v -> in_bounds c -> pos c + Z.of_nat (length u) <= 166 ->
  absorb f c u = Ret c1' -> absorb f c v = Ret c2' -> same_place c1' c2' /\ st c1' <> st c2'.
Proof.
  induction u as [|d u IH]; intros [|e v] c c1' c2' Bu Bv L Ne I W A1 A2; try discriminate; [now elim Ne|].
  apply Forall_cons_iff in Bu as [D Bu]. apply Forall_cons_iff in Bv as [E Bv]. cbn [length] in W. injection L as L. pose proof (conj eq_refl (conj eq_refl eq_refl) : same_place c c) as SP.
  destruct (absorb_step c d u c1' D I A1) as (m1 & M1 & N1 & R1 & F1). destruct (absorb_step c e v c2' E I A2) as (m2 & M2 & N2 & R2 & F2).
  destruct (Z.eq_dec d e) as [->|De].
  - rewrite M1 in M2. injection M2 as <-. assert (u <> v) by (intros ->; now elim Ne).
    destruct (Z_lt_dec (pos c + 1) 166) as [Lt|Ge]; [destruct (F1 Lt) as (p1 & s1); apply (IH v m1); auto; lia|].
    destruct u; [|cbn [length] in W; lia]. destruct v; [congruence|discriminate].
  - destruct (advance_inj c c _ _ m1 m2 I I SP (xored c d D I) (xored c e E I) M1 M2) as (SP' & J). destruct I as ((L1 & T1) & P1 & Q1).
    assert (DJ : nth (Z.to_nat (pos c)) (aset (st c) (Z.to_nat (pos c)) (Z.lxor (nth (Z.to_nat (pos c)) (st c) 0) d)) 0 <> nth (Z.to_nat (pos c)) (aset (st c) (Z.to_nat (pos c)) (Z.lxor (nth (Z.to_nat (pos c)) (st c) 0) e)) 0).
    { rewrite !aset_nth by lia. rewrite Nat.eqb_refl. intros X. now apply lxor_cancel in X. }
    destruct (Z_lt_dec (pos c + 1) 166) as [Lt|Ge].
    + destruct (F1 Lt) as (p1 & s1). destruct (F2 Lt) as (p2 & s2). apply (absorb_keep u v m1 m2 c1' c2' (Z.to_nat (pos c)) Bu Bv L N1 N2 SP'); auto; try lia. rewrite s1, s2. exact DJ.
    + destruct u; [|cbn [length] in W; lia]. destruct v; [|discriminate]. cbn [absorb] in R1, R2. injection R1 as <-. injection R2 as <-. split; [exact SP'|]. intros X. apply J in X. now rewrite X in DJ.
Qed.
Lemma absorb_app : forall a b c, absorb f c (a ++ b) = obind (absorb f c a) (fun m => absorb f m b).
Proof.
  induction a as [|d a IH]; intros b c; [reflexivity|]. cbn [app absorb]. destruct (upd _ _ _); [|reflexivity..]. cbn [obind]. destruct (advance _ _ _); [|reflexivity..]. cbn [obind]. apply IH.
Qed.
Lemma absorb_pos : forall a c c', bytes_ok a -> in_bounds c -> absorb f c a = Ret c' -> in_bounds c' /\ pos c' = (pos c + Z.of_nat (length a)) mod 166.
Proof.
  induction a as [|d a IH]; intros c c' B I A.
  { cbn [absorb] in A. injection A as <-. split; [exact I|]. destruct I as (_ & P & _). cbn [length]. rewrite Z.add_0_r, Z.mod_small; lia. }
  apply Forall_cons_iff in B as [D B]. destruct (absorb_step c d a c' D I A) as (m & M & N & R & F). destruct (IH m c' B N R) as (I' & ->). split; [exact I'|].
  cbn [length]. destruct I as (S & P & Q). destruct (Z_lt_dec (pos c + 1) 166) as [Lt|Ge]; [destruct (F Lt) as (-> & _); f_equal; lia|].
  assert (E : pos c = 165) by lia. destruct N as (_ & NP & _).
  assert (PM : pos m = 0). { unfold advance in M. cbn [pos] in M. rewrite E in M. change (u8 (165 + 1) =? STROBE_R) with true in M. cbv iota in M. unfold run_f in M.
    apply obind_ret_inv in M as (? & _ & M). apply obind_ret_inv in M as (? & _ & M). apply obind_ret_inv in M as (? & _ & M). now injection M as <-. }
  rewrite PM, E. replace (165 + Z.of_nat (Datatypes.S (length a))) with (0 + Z.of_nat (length a) + 1 * 166) by lia. now rewrite Z_mod_plus_full.
Qed.
Lemma absorb_middle a u v b c c1' c2' : bytes_ok a -> bytes_ok u -> bytes_ok v -> bytes_ok b -> length u = length v -> u <> v -> in_bounds c ->
  (pos c + Z.of_nat (length a)) mod 166 + Z.of_nat (length u) <= 166 ->
  absorb f c (a ++ u ++ b) = Ret c1' -> absorb f c (a ++ v ++ b) = Ret c2' -> same_place c1' c2' /\ st c1' <> st c2'.
Proof.
  intros Ba Bu Bv Bb L Ne I W A1 A2. rewrite absorb_app in A1, A2. apply obind_ret_inv in A1 as (m & M & A1). rewrite M in A2. cbn [obind] in A2.
  destruct (absorb_pos a c m Ba I M) as (IM & PM). rewrite absorb_app in A1, A2. apply obind_ret_inv in A1 as (n1 & N1 & A1). apply obind_ret_inv in A2 as (n2 & N2 & A2).
  rewrite <- PM in W. destruct (absorb_window u v m n1 n2 Bu Bv L Ne IM W N1 N2) as (SP & K). destruct (absorb_pos u m n1 Bu IM N1) as (I1 & _). destruct (absorb_pos v m n2 Bv IM N2) as (I2 & _).
  destruct (absorb_inj b n1 n2 c1' c2' Bb I1 I2 SP A1 A2) as (SP' & J). auto.
Qed.
Lemma run_byte label pre l a x y b post o c o' c' :
  bytes_ok label -> Forall call_ok pre -> Forall call_ok post -> bytes_ok l -> bytes_ok a -> bytes_ok b -> is_byte x -> is_byte y -> x <> y ->
  run f label (pre ++ Append l (a ++ [x] ++ b) :: post) = Ret (o, c) ->
  run f label (pre ++ Append l (a ++ [y] ++ b) :: post) = Ret (o', c') ->
  o <> o' \/ st c <> st c'.
Proof.
  intros Hl Hpre Hpost Bl Ba Bb Bx By Ne R1 R2.
  destruct (list_eq_dec (list_eq_dec Z.eq_dec) o o') as [<-|]; [right|now left]. intros Est.
  unfold run in R1, R2. apply obind_ret_inv in R1 as (c0 & T0 & R1). rewrite T0 in R2. cbn [obind] in R2. rewrite exec_app in R1, R2.
  apply obind_ret_inv in R1 as ([o1 c1] & E1 & R1). rewrite E1 in R2. cbn [obind fst snd] in R1, R2.
  assert (I1 : in_bounds c1).
  { destruct (run_ok f Hf label pre Hl Hpre) as (q & r & Q & I). unfold run in Q. rewrite T0 in Q. cbn [obind] in Q. rewrite E1 in Q. injection Q as <- <-. exact I. }
  apply obind_ret_inv in R1 as ([p1 d1] & P1 & R1). apply obind_ret_inv in R2 as ([p2 d2] & P2 & R2). cbn [fst snd] in R1, R2. injection R1 as Eo Ec. injection R2 as Eo2 Ec2. subst d1 d2 o.
  apply app_inv_head in Eo2. subst p2. cbn [exec] in P1, P2. apply obind_ret_inv in P1 as (e1 & F1 & P1). apply obind_ret_inv in P2 as (e2 & F2 & P2).
  unfold commit_bytes in F1, F2. apply obind_ret_inv in F1 as (g & G & F1). rewrite G in F2. cbn [obind] in F2.
  assert (SP : forall d, same_place d d) by (intros; repeat split).
  destruct (meta_inj c1 c1 l false g g Bl I1 I1 (SP _) G G) as (IG & _).
  replace (length (a ++ [y] ++ b)) with (length (a ++ [x] ++ b)) in F2 by (rewrite !app_length; reflexivity).
  apply obind_ret_inv in F1 as (h & H & F1). rewrite H in F2. cbn [obind] in F2.
  destruct (meta_inj g g _ true h h (len4_ok _) IG IG (SP _) H H) as (IH & _).
  unfold ad in F1, F2. apply obind_ret_inv in F1 as (k & K & F1). rewrite K in F2. cbn [obind] in F2.
  destruct (begin_inj h h FLAG_A k k ltac:(split; [discriminate|reflexivity]) eq_refl IH IH (SP _) K K) as (IK & _).
  pose proof (Forall_cons x Bx (Forall_nil is_byte) : bytes_ok [x]) as B1. pose proof (Forall_cons y By (Forall_nil is_byte) : bytes_ok [y]) as B2.
  assert (Ne1 : [x] <> [y]) by (intros Q; injection Q; exact Ne).
  assert (W : (pos k + Z.of_nat (length a)) mod 166 + Z.of_nat (length [x]) <= 166).
  { pose proof (Z.mod_pos_bound (pos k + Z.of_nat (length a)) 166). cbn [length]. lia. }
  destruct (absorb_middle a [x] [y] b k e1 e2 Ba B1 B2 Bb eq_refl Ne1 IK W F1 F2) as (SP1 & N).
  assert (AX : forall z, is_byte z -> bytes_ok (a ++ [z] ++ b)) by (intros z Hz; apply Forall_app; split; [exact Ba|constructor; [exact Hz|exact Bb]]).
  destruct (absorb_pos _ k e1 (AX x Bx) IK F1) as (J1 & _). destruct (absorb_pos _ k e2 (AX y By) IK F2) as (J2 & _).
  destruct (exec_inj post e1 e2 p1 c c' Hpost J1 J2 SP1 P1 P2) as (_ & Z). exact (N (Z Est)).
Qed.
End S.
