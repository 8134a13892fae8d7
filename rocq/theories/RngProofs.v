(** Proofs: the random bytes of the prover. *)
From Coq Require Import ZArith String List Bool Lia.
From Verif Require Import Outcome Bytes KeccakModel MerlinModel MerlinSpec MerlinProofs MerlinInj MerlinMore RngSpec.
Import ListNotations.
Open Scope Z_scope.

Section S.
Variable f : list Z -> list Z.
Hypothesis Hf : perm_ok f.
Notation sponge := MerlinProofs.sponge.
Notation push := (push f). Notation feed := (feed f). Notation start := (start f). Notation run_op := (run_op f). Notation run_ops := (run_ops f).
Lemma B6 : is_byte 6. Proof. unfold is_byte; lia. Qed.
Lemma B7 : is_byte 7. Proof. unfold is_byte; lia. Qed.

(** Overwriting is mixing in other bytes. *)
Fixpoint ov (a : sponge) (w : list Z) : list Z :=
  match w with
  | [] => []
  | d :: w' => let d0 := Z.lxor (nth (length (buf a)) (base a) 0) d in d0 :: ov (push a d0) w'
  end.
Lemma ov_length w : forall a, length (ov a w) = length w.
Proof. induction w as [|d w IH]; intros a; cbn [ov length]; [reflexivity|]. now rewrite IH. Qed.
Lemma ov_bytes w : forall a, wf a -> bytes_ok w -> bytes_ok (ov a w).
Proof.
  induction w as [|d w IH]; intros a H Hw; cbn [ov]; [constructor|]. apply Forall_cons_iff in Hw as [H1 H2].
  assert (B : is_byte (Z.lxor (nth (length (buf a)) (base a) 0) d)) by (apply byte_lxor; [apply bytes_nth, (proj1 H)|exact H1]).
  constructor; [exact B|]. apply IH; [now apply (push_wf f Hf)|exact H2].
Qed.
Lemma ov_inj w : forall a w', ov a w = ov a w' -> w = w'.
Proof.
  induction w as [|d w IH]; intros a [|d' w'] E; cbn [ov] in E; try discriminate; [reflexivity|]. injection E as E1 E2.
  apply lxor_cancel in E1. subst d'. f_equal. exact (IH _ _ E2).
Qed.
Lemma overwrite_ov l0 fl w : forall a, wf a -> bytes_ok w -> overwrite f (conc l0 a fl) w = Ret (conc l0 (feed a (ov a w)) fl).
Proof.
  induction w as [|d w IH]; intros a H Hd; [reflexivity|]. apply Forall_cons_iff in Hd as [H1 H2].
  assert (Hw : wf a) by exact H. destruct H as [[Hl Hs] [Hb [Hn Hq]]].
  assert (HX : length (xorl (base a) (buf a)) = 200%nat) by now rewrite xorl_length.
  cbn [ov]. set (d0 := Z.lxor (nth (length (buf a)) (base a) 0) d).
  assert (Hd0 : is_byte d0) by (apply byte_lxor; [now apply bytes_nth|assumption]).
  cbn [overwrite]. change (feed a (d0 :: ov (push a d0) w)) with (feed (push a d0) (ov (push a d0) w)).
  cbn [conc st pos]. rewrite upd_ok by (rewrite HX; lia). cbn [obind]. rewrite Nat2Z.id. rewrite (u8_id d) by assumption.
  replace d with (Z.lxor (nth (length (buf a)) (base a) 0) d0) at 1 by (unfold d0; now rewrite <- Z.lxor_assoc, Z.lxor_nilpotent, Z.lxor_0_l).
  rewrite <- xorl_snoc by lia. fold (conc l0 a fl). rewrite (advance_conc f) by assumption. cbn [obind]. apply IH; [now apply (push_wf f Hf)|assumption].
Qed.
Lemma key_ov l0 a fl w : wf a -> bytes_ok w -> key f (conc l0 a fl) w false = Ret (conc l0 (run_op a (6, ov (start a 6) w)) 6).
Proof.
  intros H Hw. unfold key. change (Z.lor FLAG_C FLAG_A) with 6. rewrite (begin_conc f Hf) by (try assumption; try apply B6; reflexivity). cbn [obind].
  apply overwrite_ov; [apply (start_wf f Hf); [assumption|apply B6]|assumption].
Qed.

(** The operations of a drawing, up to the final one. *)
Fixpoint rops (a : sponge) (ms : list (list Z * list Z)) (e : list Z) (n : nat) : list (Z * list Z) :=
  match ms with
  | [] => let a1 := run_op a (6, lit "rng") in [(6, lit "rng"); (6, ov (start a1 6) (firstn 32 e) ++ len4 n)]
  | (l, w) :: ms' =>
      let o1 := (6, l ++ len4 (length w)) in
      let a1 := run_op a o1 in
      let o2 := (6, ov (start a1 6) w) in
      o1 :: o2 :: rops (run_op a1 o2) ms' e n
  end.
Lemma op6_ok w : bytes_ok w -> op_ok (6, w). Proof. intros H. split; [apply B6|exact H]. Qed.
Lemma first32 e : bytes_ok e -> bytes_ok (firstn 32 e).
Proof. intros H. rewrite <- (firstn_skipn 32 e) in H. apply Forall_app in H. apply H. Qed.
Lemma drawing_conc l0 ms e n : forall a fl, wf a -> labelled_ok ms -> bytes_ok e ->
  exists d, Forall op_ok (rops a ms e n ++ [(7, d)]) /\
    drawing f (conc l0 a fl) ms e n = Ret (d, Rng (conc l0 (run_ops a (rops a ms e n ++ [(7, d)])) 7) true).
Proof.
  induction ms as [|[l w] ms IH]; intros a fl H Hm He.
  - unfold drawing, rng_commit_all, rng_init. cbn [obind]. unfold rng_finalize. cbn [finalized rctx].
    unfold meta_ad at 1. change (Z.lor FLAG_C FLAG_A) with 6. rewrite (op_conc f Hf); [|assumption|apply B6|reflexivity|apply lit_bytes]. cbn [obind].
    set (a1 := run_op a (6, lit "rng")). assert (W1 : wf a1) by (apply (run_op_wf f Hf); [assumption|apply op6_ok, lit_bytes]).
    rewrite key_ov by (try assumption; now apply first32). cbn [obind]. unfold rng_random_bytes. cbn [finalized rctx negb].
    unfold meta_ad, begin_op at 1. change (Z.lor FLAG_C FLAG_A) with 6. cbn [conc cur_flags Z.eqb Pos.eqb obind].
    set (o2 := ov (start a1 6) (firstn 32 e)). fold (conc l0 (run_op a1 (6, o2)) 6).
    assert (Bo : bytes_ok o2) by (apply ov_bytes; [apply (start_wf f Hf); [assumption|apply B6]|now apply first32]).
    assert (W2 : wf (run_op a1 (6, o2))) by (apply (run_op_wf f Hf); [assumption|now apply op6_ok]).
    rewrite (absorb_conc f Hf) by (try assumption; apply len4_ok). cbn [obind].
    replace (feed (run_op a1 (6, o2)) (len4 n)) with (run_op a1 (6, o2 ++ len4 n)) by (unfold MerlinInj.run_op; cbn [fst snd]; unfold MerlinProofs.feed; now rewrite fold_left_app).
    assert (Bo2 : bytes_ok (o2 ++ len4 n)) by (apply Forall_app; split; [assumption|apply len4_ok]).
    assert (W3 : wf (run_op a1 (6, o2 ++ len4 n))) by (apply (run_op_wf f Hf); [assumption|now apply op6_ok]).
    unfold prf. change (Z.lor (Z.lor FLAG_I FLAG_A) FLAG_C) with 7. rewrite (begin_conc f Hf) by (try assumption; try apply B7; reflexivity). cbn [obind].
    destruct (squeeze_conc f Hf l0 7 n (start (run_op a1 (6, o2 ++ len4 n)) 7)) as [d [L [B E]]]; [apply (start_wf f Hf); [assumption|apply B7]|].
    rewrite E. cbn [obind fst snd]. exists d. split.
    + cbn [rops app]. constructor; [apply op6_ok, lit_bytes|]. constructor; [apply op6_ok; exact Bo2|]. constructor; [split; [apply B7|exact B]|constructor].
    + cbn [rops app]. reflexivity.
  - apply Forall_cons_iff in Hm as [[Hl Hw] Hm]. cbn [fst snd] in Hl, Hw.
    set (o1 := (6, l ++ len4 (length w))). set (a1 := run_op a o1). set (o2 := (6, ov (start a1 6) w)).
    assert (O1 : op_ok o1) by (apply op6_ok, Forall_app; split; [assumption|apply len4_ok]).
    assert (W1 : wf a1) by now apply (run_op_wf f Hf).
    assert (O2 : op_ok o2) by (apply op6_ok, ov_bytes; [apply (start_wf f Hf); [assumption|apply B6]|assumption]).
    assert (W2 : wf (run_op a1 o2)) by now apply (run_op_wf f Hf).
    destruct (IH (run_op a1 o2) 6 W2 Hm He) as (d & D1 & D2). exists d. cbn [rops]. fold o1. fold a1. fold o2. split.
    + cbn [app]. constructor; [exact O1|]. constructor; [exact O2|exact D1].
    + cbn [app]. unfold MerlinInj.run_ops in *. cbn [fold_left]. fold a1. rewrite <- D2. unfold drawing, rng_init. cbn [rng_commit_all].
      unfold rng_commit_witness. cbn [finalized rctx]. pose proof (meta_conc f Hf l0 a fl l (length w) H Hl) as K. fold o1 in K. fold a1 in K.
      destruct (meta_ad f (conc l0 a fl) l false) as [c0| | |]; cbn [obind] in K |- *; try discriminate. rewrite K. cbn [obind].
      rewrite key_ov by assumption. fold o2. cbn [obind]. reflexivity.
Qed.

Lemma meta_label (l l' : list Z) u u' : l ++ len4 u = l' ++ len4 u' -> l = l' /\ len4 u = len4 u'.
Proof. exact (meta_inj l l' u u'). Qed.
Lemma tail4 (u u' : list Z) n n' : u ++ len4 n = u' ++ len4 n' -> u = u' /\ len4 n = len4 n'. Proof. exact (meta_inj u u' n n'). Qed.
Lemma rops_inj ms : forall a ms' e e' n n', rops a ms e n = rops a ms' e' n' ->
  ms = ms' /\ firstn 32 e = firstn 32 e' /\ Z.of_nat n mod 2 ^ 32 = Z.of_nat n' mod 2 ^ 32.
Proof.
  induction ms as [|[l w] ms IH]; intros a [|[l' w'] ms'] e e' n n' E; cbn [rops] in E.
  - injection E as E. apply tail4 in E as [E1 E2]. apply ov_inj in E1. split; [reflexivity|]. split; [exact E1|now apply len4_inj].
  - destruct ms' as [|[l1 w1] ms']; cbn [rops] in E; discriminate E.
  - destruct ms as [|[l1 w1] ms]; cbn [rops] in E; discriminate E.
  - pose proof (f_equal (fun l => snd (nth 0 l (0, []))) E) as E1. cbn [nth snd] in E1. apply meta_label in E1 as [E1 EL]. subst l'. rewrite <- EL in E.
    pose proof (f_equal (fun l => snd (nth 1 l (0, []))) E) as E2. cbn [nth snd] in E2. apply ov_inj in E2. subst w'.
    pose proof (f_equal (@skipn _ 2) E) as E3. cbn [skipn] in E3. destruct (IH _ _ _ _ _ _ E3) as (-> & Q). split; [reflexivity|exact Q].
Qed.
Lemma rops_head a ms e n : exists x y r, rops a ms e n = (6, x) :: (6, y) :: r.
Proof. destruct ms as [|[l w] ms]; cbn [rops]; eauto. Qed.
Lemma parse pre : forall b pre' tr tr' ms ms' e e' n n', trace pre tr -> trace pre' tr' ->
  tr ++ rops (run_ops b tr) ms e n = tr' ++ rops (run_ops b tr') ms' e' n' ->
  pre = pre' /\ ms = ms' /\ firstn 32 e = firstn 32 e' /\ Z.of_nat n mod 2 ^ 32 = Z.of_nat n' mod 2 ^ 32.
Proof.
  induction pre as [|c pre IH]; intros b pre' tr tr' ms ms' e e' n n' T T' E.
  - inversion T; subst. inversion T'; subst; cbn [app] in E.
    + destruct (rops_inj _ _ _ _ _ _ _ E) as (A & B & C). auto.
    + destruct (rops_head (run_ops b []) ms e n) as (x & y & r & Q). rewrite Q in E. discriminate E.
    + destruct (rops_head (run_ops b []) ms e n) as (x & y & r & Q). rewrite Q in E. discriminate E.
  - assert (X : forall o1 o2 os, run_ops b (o1 :: o2 :: os) = run_ops (run_ops b [o1; o2]) os) by reflexivity.
    inversion T; subst; inversion T'; subst; cbn [app] in E;
      try (match goal with A : trace pre ?u, B : trace ?q ?v |- _ => rewrite (X _ _ u), (X _ _ v) in E end).
    + destruct (rops_head (run_ops b []) ms' e' n') as (x & y & r & Q). rewrite Q in E. discriminate E.
    + pose proof (f_equal (fun l => snd (nth 0 l (0, []))) E) as E1. cbn [nth snd] in E1. apply meta_label in E1 as [E1 _].
      pose proof (f_equal (fun l => snd (nth 1 l (0, []))) E) as E2. cbn [nth snd] in E2. subst. pose proof (f_equal (@skipn _ 2) E) as E3. cbn [skipn] in E3.
      match goal with A : trace pre ?u, B : trace ?q ?v |- _ => destruct (IH _ _ _ _ _ _ _ _ _ _ A B E3) as (-> & Q) end. split; [reflexivity|exact Q].
    + exfalso. apply (f_equal (fun l => fst (nth 1 l (0, [])))) in E. discriminate E.
    + destruct (rops_head (run_ops b []) ms' e' n') as (x & y & r & Q). rewrite Q in E. discriminate E.
    + exfalso. apply (f_equal (fun l => fst (nth 1 l (0, [])))) in E. discriminate E.
    + pose proof (f_equal (fun l => snd (nth 0 l (0, []))) E) as E1. cbn [nth snd] in E1. apply meta_label in E1 as [E1 _].
      pose proof (f_equal (fun l => snd (nth 1 l (0, []))) E) as E2. cbn [nth snd] in E2. subst. pose proof (f_equal (@skipn _ 2) E) as E3. cbn [skipn] in E3.
      match goal with A : trace pre ?u, B : trace ?q ?v |- _ => destruct (IH _ _ _ _ _ _ _ _ _ _ A B E3) as (-> & Q) end. split; [reflexivity|exact Q].
Qed.
(** A drawing after a history. *)
Lemma whole c pre ms e n o c1 d r : in_bounds c -> Forall call_ok pre -> labelled_ok ms -> bytes_ok e ->
  exec f c pre = Ret (o, c1) -> drawing f c1 ms e n = Ret (d, r) ->
  exists tr, trace pre tr /\ chained f (st c) (blocks (run_ops (lift c) (tr ++ rops (run_ops (lift c) tr) ms e n ++ [(7, d)]))) /\
    log (rctx r) = log c ++ map padb (blocks (run_ops (lift c) (tr ++ rops (run_ops (lift c) tr) ms e n ++ [(7, d)]))).
Proof.
  intros H Hp Hm He E1 E2. assert (P0 : 0 <= pos c) by (destruct H as [_ [H _]]; lia).
  destruct (exec_conc f Hf (log c) pre (lift c) (cur_flags c) (lift_wf c H) Hp) as (o1 & tr & fl & T & Ho & E). rewrite lift_conc, E1 in E by assumption. injection E as <- ->.
  destruct (run_ops_inv f Hf (st c) tr (lift c) (lift_wf c H) Ho (lift_follows f c)) as [W F].
  destruct (drawing_conc (log c) ms e n (run_ops (lift c) tr) fl W Hm He) as (d1 & Q1 & Q2). rewrite E2 in Q2. injection Q2 as <- ->.
  exists tr. split; [exact T|]. replace (run_ops (lift c) (tr ++ rops (run_ops (lift c) tr) ms e n ++ [(7, d)])) with (run_ops (run_ops (lift c) tr) (rops (run_ops (lift c) tr) ms e n ++ [(7, d)]))
    by (unfold MerlinInj.run_ops; rewrite (fold_left_app _ tr); reflexivity).
  split; [|reflexivity]. exact (proj1 (proj2 (run_ops_inv f Hf (st c) _ _ W Q1 F))).
Qed.
Lemma last_forced b os os' d d' : blocks (run_ops b (os ++ [(7, d)])) = blocks (run_ops b (os' ++ [(7, d')])) -> os = os'.
Proof.
  intros E. unfold MerlinInj.run_ops in E. rewrite !fold_left_app in E. cbn [fold_left] in E. apply (run_op_forced_inj f) in E; [|reflexivity|reflexivity].
  destruct E as [E _]. exact (run_ops_inj f os os' b E).
Qed.
Lemma drawing_from c pre pre' ms ms' e e' n n' o o' c1 c1' d d' r r' : in_bounds c ->
  Forall call_ok pre -> Forall call_ok pre' -> labelled_ok ms -> labelled_ok ms' -> bytes_ok e -> bytes_ok e' ->
  exec f c pre = Ret (o, c1) -> exec f c pre' = Ret (o', c1') -> drawing f c1 ms e n = Ret (d, r) -> drawing f c1' ms' e' n' = Ret (d', r') ->
  log (rctx r) = log (rctx r') ->
  pre = pre' /\ ms = ms' /\ firstn 32 e = firstn 32 e' /\ Z.of_nat n mod 2 ^ 32 = Z.of_nat n' mod 2 ^ 32.
Proof.
  intros H Hp Hp' Hm Hm' He He' E1 E1' E2 E2' EL.
  destruct (whole _ _ _ _ _ _ _ _ _ H Hp Hm He E1 E2) as (tr & T & C & L). destruct (whole _ _ _ _ _ _ _ _ _ H Hp' Hm' He' E1' E2') as (tr' & T' & C' & L').
  rewrite L, L' in EL. apply app_inv_head in EL. apply (chained_inj f _ _ _ C C') in EL. rewrite !app_assoc in EL. apply last_forced in EL.
  exact (parse _ _ _ _ _ _ _ _ _ _ _ T T' EL).
Qed.
(** No drawing has the inputs of a challenge. *)
Lemma no_trace pre : forall b tr ms e n cs os l k, trace pre tr -> trace cs os ->
  tr ++ rops (run_ops b tr) ms e n <> os ++ [(6, l ++ len4 k)].
Proof.
  induction pre as [|c pre IH]; intros b tr ms e n cs os l k T T' E.
  - inversion T; subst. cbn [app] in E. destruct (rops_head (run_ops b []) ms e n) as (x & y & r & Q). rewrite Q in E.
    inversion T'; subst; cbn [app] in E; apply (f_equal (fun l => nth 1 (map fst l) 0)) in E; discriminate E.
  - assert (X : forall o1 o2 os, run_ops b (o1 :: o2 :: os) = run_ops (run_ops b [o1; o2]) os) by reflexivity.
    inversion T; subst; cbn [app] in E; match goal with A : trace pre ?u |- _ => rewrite (X _ _ u) in E end; inversion T'; subst; cbn [app] in E;
      try (apply (f_equal (fun l => nth 1 (map fst l) 0)) in E; discriminate E);
      pose proof (f_equal (@skipn _ 2) E) as E3; cbn [skipn] in E3;
      match goal with A : trace pre ?u, B : trace ?q ?v |- _ => exact (IH _ _ _ _ _ _ _ _ _ A B E3) end.
Qed.
Lemma challenge_apart c pre ms e n o c1 d r cs l k o' c' : in_bounds c ->
  Forall call_ok pre -> labelled_ok ms -> bytes_ok e -> Forall call_ok (cs ++ [Challenge l k]) ->
  exec f c pre = Ret (o, c1) -> drawing f c1 ms e n = Ret (d, r) -> exec f c (cs ++ [Challenge l k]) = Ret (o', c') ->
  log (rctx r) <> log c'.
Proof.
  intros H Hp Hm He Hc E1 E2 E3 EL. assert (P0 : 0 <= pos c) by (destruct H as [_ [H0 _]]; lia).
  destruct (whole _ _ _ _ _ _ _ _ _ H Hp Hm He E1 E2) as (tr & T & C & L).
  destruct (exec_conc f Hf (log c) _ (lift c) (cur_flags c) (lift_wf c H) Hc) as (o2 & os & fl & T' & Ho & E). rewrite lift_conc, E3 in E by assumption. injection E as <- ->.
  destruct (run_ops_inv f Hf (st c) os (lift c) (lift_wf c H) Ho (lift_follows f c)) as [_ [C' _]].
  rewrite L in EL. unfold conc in EL. cbn [log] in EL. apply app_inv_head in EL. apply (chained_inj f _ _ _ C C') in EL.
  apply trace_snoc in T' as (os0 & d0 & T' & _ & ->). replace (os0 ++ [(6, l ++ len4 k); (7, d0)]) with ((os0 ++ [(6, l ++ len4 k)]) ++ [(7, d0)]) in EL by now rewrite <- app_assoc.
  rewrite !app_assoc in EL. apply last_forced in EL. exact (no_trace _ _ _ _ _ _ _ _ _ _ T T' EL).
Qed.

(** *** From the start. *)
Lemma as_exec : exists c, in_bounds c /\ forall lb cl, run f lb cl = exec f c (Append (lit "dom-sep") lb :: cl).
Proof.
  destruct (strobe_init_ok f Hf (lit "Merlin v1.0") (lit_bytes _)) as [c [Ec Hc]]. exists c. split; [exact Hc|].
  intros lb cl. unfold run, transcript_init. rewrite Ec. reflexivity.
Qed.
Lemma sep_ok lb cl : bytes_ok lb -> Forall call_ok cl -> Forall call_ok (Append (lit "dom-sep") lb :: cl).
Proof. intros Hb Hcl. constructor; [split; [apply lit_bytes|assumption]|assumption]. Qed.
Lemma drawing_binding tag tag' pre pre' ms ms' e e' n n' o o' c c' d d' r r' : bytes_ok tag -> bytes_ok tag' ->
  Forall call_ok pre -> Forall call_ok pre' -> labelled_ok ms -> labelled_ok ms' -> bytes_ok e -> bytes_ok e' ->
  run f tag pre = Ret (o, c) -> run f tag' pre' = Ret (o', c') -> drawing f c ms e n = Ret (d, r) -> drawing f c' ms' e' n' = Ret (d', r') ->
  log (rctx r) = log (rctx r') ->
  tag = tag' /\ pre = pre' /\ ms = ms' /\ firstn 32 e = firstn 32 e' /\ Z.of_nat n mod 2 ^ 32 = Z.of_nat n' mod 2 ^ 32.
Proof.
  intros B B' Hp Hp' Hm Hm' He He' E E' D D' EL. destruct as_exec as (c0 & H & X). rewrite X in E, E'.
  destruct (drawing_from c0 _ _ ms ms' e e' n n' o o' c c' d d' r r' H (sep_ok _ _ B Hp) (sep_ok _ _ B' Hp') Hm Hm' He He' E E' D D' EL) as (K & Q). injection K as -> ->. auto.
Qed.
Lemma drawing_apart tag tag' pre cs ms e n l k o o' c c' d r : bytes_ok tag -> bytes_ok tag' ->
  Forall call_ok pre -> Forall call_ok (cs ++ [Challenge l k]) -> labelled_ok ms -> bytes_ok e ->
  run f tag pre = Ret (o, c) -> drawing f c ms e n = Ret (d, r) -> run f tag' (cs ++ [Challenge l k]) = Ret (o', c') ->
  log (rctx r) <> log c'.
Proof.
  intros B B' Hp Hc Hm He E D E'. destruct as_exec as (c0 & H & X). rewrite X in E, E'.
  exact (challenge_apart c0 _ ms e n o c d r (Append (lit "dom-sep") tag' :: cs) l k o' c' H (sep_ok _ _ B Hp) Hm He (sep_ok _ _ B' Hc) E D E').
Qed.

(** *** The factors. *)
Lemma combine_split (g : nat -> list Z) xs : forall (ys : list (list Z)) k q, combine (map g (seq k (length xs + length ys + q))) (xs ++ ys) =
  combine (map g (seq k (length xs))) xs ++ combine (map g (seq (k + length xs) (length ys))) ys.
Proof.
  induction xs as [|x xs IH]; intros ys k q.
  - cbn [length app combine map seq Nat.add]. rewrite Nat.add_0_r. revert k. induction ys as [|y ys IH]; intros k; cbn [length Nat.add]; [destruct (map g (seq k q)); reflexivity|].
    cbn [seq map combine]. f_equal. apply IH.
  - cbn [length app Nat.add seq map combine]. f_equal. rewrite IH. f_equal. f_equal. f_equal. f_equal. lia.
Qed.
Lemma map_combine (g : nat -> list Z) (l : list (list Z)) : forall k, map (fun i => (g i, nth (i - k) l [])) (seq k (length l)) = combine (map g (seq k (length l))) l.
Proof.
  induction l as [|x l IH]; intros k; [reflexivity|]. cbn [length seq map combine]. rewrite Nat.sub_diag. cbn [nth]. f_equal.
  rewrite <- IH. apply map_ext_in. intros i Hi. apply in_seq in Hi. replace (i - k)%nat with (S (i - S k)) by lia. reflexivity.
Qed.
Lemma messages_numbered label xes ys : match ys with None => True | Some ys => length ys = length xes end ->
  witness_messages label (length xes) xes ys = numbered label (xes ++ match ys with None => [] | Some ys => ys end).
Proof.
  set (g := fun i => le_bytes 8 (Z.of_nat i)).
  intros Hy. unfold witness_messages, numbered. fold g. destruct xes as [|x xs].
  - destruct ys as [[|]|]; try discriminate Hy; reflexivity.
  - cbn [length Nat.eqb app combine nth]. f_equal. rewrite app_length.
    replace (S (length xs + length match ys with Some ys => ys | None => [] end)) with (length xs + length match ys with Some ys => ys | None => [] end + 1)%nat by lia.
    rewrite combine_split. f_equal.
    + rewrite <- map_combine. replace (S (length xs) - 1)%nat with (length xs) by lia. apply map_ext_in. intros i Hi. apply in_seq in Hi. rewrite bytesFromInt_le.
      destruct i as [|i]; [lia|]. cbn [nth]. now replace (S i - 1)%nat with i by lia.
    + destruct ys as [ys|]; [|now destruct (map g _)]. cbn [length] in Hy. rewrite <- map_combine, Hy.
      apply (nth_ext _ _ (g 0%nat, []) (g 0%nat, [])); [now rewrite !map_length, !seq_length|].
      intros i Hi. rewrite map_length, seq_length in Hi.
      rewrite (nth_indep _ _ ((fun i => (bytesFromInt (Z.of_nat (i + S (length xs))), nth i ys [])) 0%nat)) by now rewrite map_length, seq_length.
      rewrite (nth_indep (map (fun i => (g i, _)) _) _ ((fun i => (g i, nth (i - (1 + length xs)) ys [])) 0%nat)) by now rewrite map_length, seq_length.
      rewrite (map_nth (fun i => (bytesFromInt (Z.of_nat (i + S (length xs))), nth i ys []))), (map_nth (fun i => (g i, nth (i - (1 + length xs)) ys []))), !seq_nth by assumption.
      unfold g. rewrite bytesFromInt_le. f_equal; [f_equal; f_equal; lia|f_equal; lia].
Qed.
Lemma factors c label xes ys e : match ys with None => True | Some ys => length ys = length xes end ->
  newBlindingFactors f c label (length xes) xes ys e =
  let! (d, _) := drawing f c (numbered label (xes ++ match ys with None => [] | Some ys => ys end)) e 128 in Ret (c, (firstn 64 d, skipn 64 d)).
Proof.
  intros Hy. unfold newBlindingFactors, drawing. rewrite messages_numbered by exact Hy.
  destruct (rng_commit_all f (rng_init c) _) as [r| | |]; cbn [obind]; try reflexivity. destruct (rng_finalize f r e) as [r1| | |]; cbn [obind]; try reflexivity.
  destruct (rng_random_bytes f r1 128) as [[d r2]| | |]; reflexivity.
Qed.
Lemma numbered_inj l l' ws ws' : numbered l ws = numbered l' ws' -> ws = ws' /\ (ws <> [] -> l = l').
Proof.
  assert (A : forall (ls ws : list (list Z)), (length ws <= length ls)%nat -> map snd (combine ls ws) = ws).
  { clear. induction ls as [|a ls IH]; intros [|w ws] L; cbn in *; try lia; [reflexivity|reflexivity|]. f_equal. apply IH. lia. }
  intros E. split.
  - apply (f_equal (map snd)) in E. unfold numbered in E. rewrite !A in E by (cbn [length]; rewrite map_length, seq_length; lia). exact E.
  - intros N. unfold numbered in E. destruct ws as [|w ws]; [now elim N|]. destruct ws' as [|w' ws']; [discriminate E|]. cbn [combine] in E. now injection E as ->.
Qed.
(** *** Vectors. *)
Lemma vector c label v : processScalarVector f c label v = let! (_, c1) := exec f c (vector_calls label v) in Ret c1.
Proof.
  assert (A : forall v n c, (length v <= n)%nat -> commit_all f c (map (fun s => ([], s)) v) = let! (_, c1) := exec f c (map (fun x => Append (fst x) (snd x)) (combine (repeat [] n) v)) in Ret c1).
  { clear. induction v as [|s v IH]; intros n c L; [destruct n; reflexivity|]. destruct n as [|n]; [cbn in L; lia|]. cbn [map repeat combine exec commit_all fst snd].
    destruct (commit_bytes f c [] s); cbn [obind]; try reflexivity. apply IH. cbn in L. lia. }
  destruct v as [|s v]; [reflexivity|]. unfold processScalarVector, vector_calls. cbn [combine map fst snd exec length].
  destruct (commit_bytes f c label s); cbn [obind]; try reflexivity. apply A. lia.
Qed.
Lemma vector_calls_inj l l' v v' : vector_calls l v = vector_calls l' v' -> v = v' /\ (v <> [] -> l = l').
Proof.
  assert (A : forall (ls ws : list (list Z)), (length ws <= length ls)%nat -> map (fun a => match a with Append _ m => m | _ => [] end) (map (fun x : list Z * list Z => Append (fst x) (snd x)) (combine ls ws)) = ws).
  { clear. induction ls as [|a ls IH]; intros [|w ws] L; cbn in *; try lia; [reflexivity|reflexivity|]. f_equal. apply IH. lia. }
  intros E. split.
  - apply (f_equal (map (fun a => match a with Append _ m => m | _ => [] end))) in E. unfold vector_calls in E. rewrite !A in E by (cbn [length]; rewrite repeat_length; lia). exact E.
  - intros N. unfold vector_calls in E. destruct v as [|w v]; [now elim N|]. destruct v' as [|w' v']; [discriminate E|]. cbn [combine map fst snd] in E. now injection E as ->.
Qed.
End S.
