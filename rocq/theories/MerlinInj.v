(** Framing: the blocks determine the history. *)
From Coq Require Import ZArith List Bool Lia.
From Verif Require Import Outcome Bytes KeccakModel MerlinModel MerlinSpec MerlinProofs.
Import ListNotations.
Open Scope Z_scope.

Section Inj.
Variable f : list Z -> list Z.
Hypothesis Hf : forall s, state200 s -> state200 (f s).
Notation arun := (arun f).
Notation push := (push f).
Notation feed := (feed f).

Notation blk := (list Z * list Z * Z)%type.
Definition bbase (x : blk) := fst (fst x).
Definition bbuf (x : blk) := snd (fst x).
Definition bmark (x : blk) := snd x.

(** [a'] comes from [a] by mixing in [w], possibly over several blocks. *)
Definition ext (a : sponge) (w : list Z) (a' : sponge) : Prop :=
  (blocks a' = blocks a /\ base a' = base a /\ pb a' = pb a /\ buf a' = buf a ++ w) \/
  (exists w0 R, blocks a' = blocks a ++ (base a, buf a ++ w0, pb a) :: R /\ Forall (fun x => bmark x = 0) R /\
     pb a' = 0 /\ w0 ++ flat_map bbuf R ++ buf a' = w).
Lemma ext_refl a : ext a [] a.
Proof. left. now rewrite app_nil_r. Qed.
Lemma ext_arun a w a' : ext a w a' -> ext a w (arun a').
Proof.
  intros [[H1 [H2 [H3 H4]]]|[w0 [R [H1 [H2 [H3 H4]]]]]]; right; unfold MerlinProofs.arun; cbn [blocks pb buf base].
  - exists w, []. rewrite H1, H2, H3, H4. cbn. rewrite app_nil_r. auto.
  - exists w0, (R ++ [(base a', buf a', pb a')]). rewrite H1, <- app_assoc. split; [reflexivity|]. split.
    + apply Forall_app. split; [assumption|]. constructor; [exact H3|constructor].
    + split; [reflexivity|]. rewrite flat_map_app. cbn [flat_map bbuf fst snd]. rewrite !app_nil_r. exact H4.
Qed.
Lemma ext_push a w a' d : ext a w a' -> ext a (w ++ [d]) (push a' d).
Proof.
  intros H. assert (K : ext a (w ++ [d]) (Sp (base a') (buf a' ++ [d]) (pb a') (blocks a'))).
  { destruct H as [[H1 [H2 [H3 H4]]]|[w0 [R [H1 [H2 [H3 H4]]]]]]; [left|right]; cbn [blocks pb buf base].
    - rewrite H4, <- app_assoc. auto.
    - exists w0, R. rewrite <- H4, !app_assoc in *. auto. }
  unfold MerlinProofs.push. cbn [buf]. destruct (_ =? _)%nat; [now apply ext_arun|exact K].
Qed.
Lemma ext_feed ds : forall a w a', ext a w a' -> ext a (w ++ ds) (feed a' ds).
Proof.
  induction ds as [|d ds IH]; intros a w a' H; cbn [MerlinProofs.feed fold_left]; [now rewrite app_nil_r|].
  replace (w ++ d :: ds) with ((w ++ [d]) ++ ds) by now rewrite <- app_assoc. apply IH. now apply ext_push.
Qed.
Lemma feed_ext a ds : ext a ds (feed a ds).
Proof. apply (ext_feed ds a [] a). apply ext_refl. Qed.

(** *** Operations *)
Definition forced (fl : Z) : bool := negb (Z.land fl (Z.lor FLAG_C FLAG_K) =? 0).
Definition opened (a : sponge) : sponge := Sp (base a) (buf a) (Z.of_nat (length (buf a)) + 1) (blocks a).
Definition header (a : sponge) (fl : Z) : sponge := feed (opened a) [pb a; fl].
Definition start (a : sponge) (fl : Z) : sponge :=
  let b := header a fl in if forced fl && negb (length (buf b) =? 0)%nat then arun b else b.
Definition run_op (a : sponge) (o : Z * list Z) : sponge := feed (start a (fst o)) (snd o).
Definition run_ops (a : sponge) (os : list (Z * list Z)) : sponge := fold_left run_op os a.

Lemma start_ext a fl : ext (opened a) [pb a; fl] (start a fl).
Proof. unfold start. pose proof (feed_ext (opened a) [pb a; fl]) as H. fold (header a fl) in H. destruct (_ && _)%bool; [now apply ext_arun|exact H]. Qed.
Lemma run_op_ext a o : ext (opened a) (pb a :: fst o :: snd o) (run_op a o).
Proof. apply (ext_feed (snd o) (opened a) [pb a; fst o]). apply start_ext. Qed.
(** After a forced start the header is in finished blocks. *)
Lemma start_forced a fl : forced fl = true ->
  buf (start a fl) = [] /\ exists w0 R, blocks (start a fl) = blocks a ++ (base a, buf a ++ w0, Z.of_nat (length (buf a)) + 1) :: R /\
    Forall (fun x => bmark x = 0) R /\ pb (start a fl) = 0 /\ w0 ++ flat_map bbuf R = [pb a; fl].
Proof.
  intros Hf0. assert (Hb : buf (start a fl) = []).
  { unfold start. rewrite Hf0. cbn [andb]. destruct (Nat.eqb_spec (length (buf (header a fl))) 0) as [E|E]; cbn [negb]; [|reflexivity].
    now apply length_zero_iff_nil. }
  split; [exact Hb|]. destruct (start_ext a fl) as [[H1 [H2 [H3 H4]]]|[w0 [R [H1 [H2 [H3 H4]]]]]].
  - rewrite Hb in H4. symmetry in H4. apply app_eq_nil in H4. destruct H4. discriminate.
  - exists w0, R. rewrite Hb, app_nil_r in H4. auto.
Qed.

(** The last block with a mark is unique. *)
Lemma last_mark_unique (A A' : list blk) x x' R R' : A ++ x :: R = A' ++ x' :: R' -> bmark x <> 0 -> bmark x' <> 0 ->
  Forall (fun x => bmark x = 0) R -> Forall (fun x => bmark x = 0) R' -> A = A' /\ x = x' /\ R = R'.
Proof.
  revert A'. induction A as [|y A IH]; intros [|y' A'] H Hx Hx' HR HR'; cbn in H.
  - injection H as -> ->. auto.
  - injection H as -> ->. exfalso. apply Hx'. rewrite Forall_forall in HR. apply HR. apply in_or_app. right. now left.
  - injection H as <- <-. exfalso. apply Hx. rewrite Forall_forall in HR'. apply HR'. apply in_or_app. right. now left.
  - injection H as <- H. destruct (IH A' H Hx Hx' HR HR') as [-> [-> ->]]. auto.
Qed.
Lemma app_same_length {A} (u u' v v' : list A) : u ++ v = u' ++ v' -> length u = length u' -> u = u' /\ v = v'.
Proof. revert u'. induction u as [|a u IH]; intros [|a' u'] H L; cbn in *; try lia; [auto|]. injection H as <- H. destruct (IH u' H ltac:(lia)) as [-> ->]. auto. Qed.

Lemma run_op_inj a b o o' : run_op a o = run_op b o' -> a = b /\ o = o'.
Proof.
  intros H. pose proof (run_op_ext a o) as Ha. pose proof (run_op_ext b o') as Hb. rewrite <- H in Hb.
  set (c := run_op a o) in *. clearbody c. clear H.
  assert (Hcur : forall (s : sponge) w, ext (opened s) w c -> exists w0 R,
     blocks c ++ [(base c, buf c, pb c)] = blocks s ++ (base s, buf s ++ w0, Z.of_nat (length (buf s)) + 1) :: R /\
     Forall (fun x => bmark x = 0) R /\ w0 ++ flat_map bbuf R = w).
  { intros s w [[H1 [H2 [H3 H4]]]|[w0 [R [H1 [H2 [H3 H4]]]]]]; cbn [opened blocks base pb buf] in *.
    - exists w, []. rewrite H1, H2, H3, H4. cbn. rewrite app_nil_r. auto.
    - exists w0, (R ++ [(base c, buf c, pb c)]). rewrite H1, <- app_assoc. split; [reflexivity|]. split.
      + apply Forall_app. split; [assumption|]. constructor; [exact H3|constructor].
      + rewrite flat_map_app. cbn [flat_map bbuf fst snd]. now rewrite app_nil_r. }
  destruct (Hcur a _ Ha) as [w0 [R [E1 [M1 W1]]]]. destruct (Hcur b _ Hb) as [w0' [R' [E2 [M2 W2]]]].
  rewrite E1 in E2. apply last_mark_unique in E2; [|cbn; lia|cbn; lia|assumption|assumption].
  destruct E2 as [EA [EX <-]]. injection EX as EX1 EX2 EX3.
  apply app_same_length in EX2; [|lia]. destruct EX2 as [EB <-]. rewrite W1 in W2. injection W2 as P1 P2 P3.
  split; [destruct a, b; cbn in *; congruence|destruct o, o'; cbn in *; congruence].
Qed.
(** The same from the finished blocks only, when the operation is forced. *)
Lemma run_op_forced_inj a b o o' : forced (fst o) = true -> forced (fst o') = true ->
  blocks (run_op a o) = blocks (run_op b o') -> a = b /\ fst o = fst o'.
Proof.
  assert (Hs : forall (s : sponge) (q : Z * list Z), forced (fst q) = true -> exists w0 R d,
     blocks (run_op s q) = blocks s ++ (base s, buf s ++ w0, Z.of_nat (length (buf s)) + 1) :: R /\
     Forall (fun x => bmark x = 0) R /\ w0 ++ flat_map bbuf R = pb s :: fst q :: d).
  { intros s q Hq. destruct (start_forced s (fst q) Hq) as [Hb [w0 [R [H1 [H2 [H3 H4]]]]]].
    unfold run_op. destruct (feed_ext (start s (fst q)) (snd q)) as [[K1 _]|[u0 [R2 [K1 [K2 [K3 K4]]]]]].
    - exists w0, R, []. rewrite K1. auto.
    - exists w0, (R ++ (base (start s (fst q)), buf (start s (fst q)) ++ u0, pb (start s (fst q))) :: R2), (u0 ++ flat_map bbuf R2).
      rewrite K1, H1, <- app_assoc. split; [reflexivity|]. split.
      + apply Forall_app. split; [assumption|]. constructor; [exact H3|assumption].
      + rewrite flat_map_app, (app_assoc w0), H4. cbn [flat_map bbuf fst snd app]. now rewrite Hb. }
  intros F1 F2 H. destruct (Hs a o F1) as [w0 [R [d [E1 [M1 W1]]]]]. destruct (Hs b o' F2) as [w0' [R' [d' [E2 [M2 W2]]]]].
  rewrite E1, E2 in H. apply last_mark_unique in H; [|cbn; lia|cbn; lia|assumption|assumption].
  destruct H as [EA [EX <-]]. injection EX as EX1 EX2 EX3.
  apply app_same_length in EX2; [|lia]. destruct EX2 as [EB <-]. rewrite W1 in W2. injection W2 as P1 P2 P3.
  split; [destruct a, b; cbn in *; congruence|congruence].
Qed.

Definition total (a : sponge) : nat := length (flat_map bbuf (blocks a)) + length (buf a).
Lemma ext_total a w a' : ext a w a' -> total a' = (total a + length w)%nat.
Proof.
  unfold total. intros [[H1 [H2 [H3 H4]]]|[w0 [R [H1 [H2 [H3 H4]]]]]].
  - rewrite H1, H4, app_length. lia.
  - rewrite H1, <- H4, flat_map_app. cbn [flat_map bbuf fst snd]. rewrite !app_length. lia.
Qed.
Lemma run_op_total a o : total (run_op a o) = (total a + (2 + length (snd o)))%nat.
Proof. exact (ext_total _ _ _ (run_op_ext a o)). Qed.
Lemma run_ops_total os : forall a, (total a + length os <= total (run_ops a os))%nat.
Proof.
  induction os as [|o os IH]; intros a; cbn [run_ops fold_left length]; [lia|].
  specialize (IH (run_op a o)). rewrite run_op_total in IH. unfold run_ops in IH. lia.
Qed.
Lemma run_ops_inj os : forall os' a, run_ops a os = run_ops a os' -> os = os'.
Proof.
  induction os as [|o os IH] using rev_ind; intros os' a H.
  - destruct os' as [|o' os']; [reflexivity|]. exfalso. pose proof (run_ops_total (o' :: os') a) as K. rewrite <- H in K. cbn in K. lia.
  - destruct os' as [|o' os' _] using rev_ind.
    + exfalso. pose proof (run_ops_total (os ++ [o]) a) as K. rewrite H in K. rewrite app_length in K. cbn in K. lia.
    + unfold run_ops in *. rewrite !fold_left_app in H. cbn [fold_left] in H. apply run_op_inj in H. destruct H as [H1 ->].
      f_equal. now apply (IH os' a).
Qed.

(** *** From the states handed to the permutation to the blocks *)
Lemma lxor_cancel_r a b c : Z.lxor b a = Z.lxor c a -> b = c.
Proof. rewrite (Z.lxor_comm b), (Z.lxor_comm c). apply lxor_cancel. Qed.
Lemma padbuf_inj u u' q q' : (length u <= 166)%nat -> (length u' <= 166)%nat -> padbuf u q = padbuf u' q' -> u = u' /\ q = q'.
Proof.
  intros Hu Hu' H.
  assert (HL : forall v r, (length v <= 166)%nat -> length (v ++ [r; 4] ++ repeat 0 (166 - length v)) = 168%nat).
  { intros v r Hv. rewrite !app_length, repeat_length. cbn [length]. lia. }
  assert (E : u ++ [q; 4] ++ repeat 0 (166 - length u) = u' ++ [q'; 4] ++ repeat 0 (166 - length u')).
  { apply list_ext; [now rewrite !HL|]. intros i Hi. rewrite HL in Hi by assumption.
    apply (f_equal (fun l => nth i l 0)) in H. unfold padbuf in H. rewrite !xorl_nth in H by (rewrite HL; assumption).
    now apply lxor_cancel_r in H. }
  clear H.
  assert (HLT : forall v v' r r', (length v < length v')%nat -> (length v' <= 166)%nat ->
     v ++ [r; 4] ++ repeat 0 (166 - length v) = v' ++ [r'; 4] ++ repeat 0 (166 - length v') -> False).
  { intros v v' r r' Hlt Hle E2. apply (f_equal (fun l => nth (S (length v')) l 0)) in E2.
    rewrite (app_nth2 v') in E2 by lia. replace (S (length v') - length v')%nat with 1%nat in E2 by lia. cbn [app nth] in E2.
    rewrite app_nth2 in E2 by lia. destruct (S (length v') - length v)%nat as [|[|k]] eqn:K; [lia|lia|]. cbn [app nth] in E2.
    rewrite nth_repeat in E2. discriminate. }
  destruct (Nat.lt_trichotomy (length u) (length u')) as [L|[L|L]].
  - exfalso. exact (HLT _ _ _ _ L Hu' E).
  - apply app_same_length in E; [|exact L]. destruct E as [-> E]. injection E as ->. auto.
  - exfalso. symmetry in E. exact (HLT _ _ _ _ L Hu E).
Qed.

(** Blocks of a run from a given base. *)
Fixpoint chained (b : list Z) (B : list blk) : Prop :=
  match B with
  | [] => True
  | x :: B' => bbase x = b /\ (length (bbuf x) <= 166)%nat /\ (length b = 200)%nat /\ chained (f (padb x)) B'
  end.
Fixpoint last_base (b : list Z) (B : list blk) : list Z :=
  match B with [] => b | x :: B' => last_base (f (padb x)) B' end.
Lemma chained_app b B x : chained b B -> bbase x = last_base b B -> (length (bbuf x) <= 166)%nat -> length (last_base b B) = 200%nat ->
  chained b (B ++ [x]).
Proof.
  revert b. induction B as [|y B IH]; intros b H1 H2 H3 H4; cbn [app chained last_base] in *; [auto|].
  destruct H1 as [K1 [K2 [K3 K4]]]. repeat (split; [assumption|]). now apply IH.
Qed.
Lemma last_base_app b B x : last_base b (B ++ [x]) = f (padb x).
Proof. revert b. induction B as [|y B IH]; intros b; cbn; auto. Qed.
Definition follows (b0 : list Z) (a : sponge) : Prop := chained b0 (blocks a) /\ base a = last_base b0 (blocks a).
Lemma arun_follows b0 a : wf1 a -> follows b0 a -> follows b0 (arun a).
Proof.
  intros [[Hw _] [_ [Hl _]]] [H1 H2]. unfold follows, MerlinProofs.arun. cbn [blocks base]. rewrite last_base_app. split; [|reflexivity].
  apply chained_app; [assumption|exact H2|exact Hl|congruence].
Qed.
Lemma push_follows b0 a d : wf a -> is_byte d -> follows b0 a -> follows b0 (push a d).
Proof.
  intros H Hd HF. unfold MerlinProofs.push. cbn [buf]. destruct (_ =? _)%nat; [|exact HF].
  apply arun_follows; [now apply push_wf1|exact HF].
Qed.
Lemma feed_follows b0 ds : forall a, wf a -> bytes_ok ds -> follows b0 a -> follows b0 (feed a ds).
Proof.
  induction ds as [|d ds IH]; intros a H Hd HF; [exact HF|]. apply Forall_cons_iff in Hd. destruct Hd as [H1 H2].
  cbn [MerlinProofs.feed fold_left]. apply IH; [now apply push_wf|assumption|now apply push_follows].
Qed.
Lemma opened_wf a : wf a -> wf (opened a).
Proof. intros [H1 [H2 [H3 H4]]]. unfold wf, opened. cbn. repeat (split; [assumption|]). lia. Qed.
Lemma header_bytes a fl : wf a -> is_byte fl -> bytes_ok [pb a; fl].
Proof. intros [_ [_ [_ H]]] Hfl. constructor; [unfold is_byte; lia|]. constructor; [assumption|constructor]. Qed.
Lemma start_wf a fl : wf a -> is_byte fl -> wf (start a fl).
Proof.
  intros H Hfl. unfold start. pose proof (feed_wf f Hf _ _ (opened_wf a H) (header_bytes a fl H Hfl)) as K.
  fold (header a fl) in K. destruct (_ && _)%bool; [|exact K]. apply arun_wf; [assumption|now apply wf_wf1].
Qed.
Lemma start_follows b0 a fl : wf a -> is_byte fl -> follows b0 a -> follows b0 (start a fl).
Proof.
  intros H Hfl HF. unfold start. pose proof (feed_wf f Hf _ _ (opened_wf a H) (header_bytes a fl H Hfl)) as K.
  pose proof (feed_follows b0 _ _ (opened_wf a H) (header_bytes a fl H Hfl) HF) as KF.
  fold (header a fl) in K, KF. destruct (_ && _)%bool; [|exact KF]. apply arun_follows; [now apply wf_wf1|exact KF].
Qed.
Definition op_ok (o : Z * list Z) : Prop := is_byte (fst o) /\ bytes_ok (snd o).
Lemma run_op_wf a o : wf a -> op_ok o -> wf (run_op a o).
Proof. intros H [H1 H2]. apply feed_wf; [assumption|now apply start_wf|assumption]. Qed.
Lemma run_op_follows b0 a o : wf a -> op_ok o -> follows b0 a -> follows b0 (run_op a o).
Proof. intros H [H1 H2] HF. apply feed_follows; [now apply start_wf|assumption|now apply start_follows]. Qed.
Lemma run_ops_inv b0 os : forall a, wf a -> Forall op_ok os -> follows b0 a -> wf (run_ops a os) /\ follows b0 (run_ops a os).
Proof.
  induction os as [|o os IH]; intros a H Ho HF; [split; assumption|]. apply Forall_cons_iff in Ho. destruct Ho as [H1 H2].
  cbn [run_ops fold_left]. apply IH; [now apply run_op_wf|assumption|now apply run_op_follows].
Qed.
Lemma chained_inj B : forall b B', chained b B -> chained b B' -> map padb B = map padb B' -> B = B'.
Proof.
  induction B as [|x B IH]; intros b [|x' B'] H H' E; cbn in E; try discriminate; [reflexivity|].
  destruct H as [K1 [K2 [K3 K4]]]. destruct H' as [K1' [K2' [_ K4']]]. injection E as E1 E2.
  assert (x = x').
  { destruct x as [[b1 u] q], x' as [[b1' u'] q']. cbn in K1, K1', K2, K2'. subst b1 b1'. unfold padb in E1.
    apply xorl_inj in E1; [|rewrite !padbuf_length by assumption; reflexivity|rewrite padbuf_length by assumption; lia].
    apply padbuf_inj in E1; [|assumption|assumption]. destruct E1 as [-> ->]. reflexivity. }
  subst x'. f_equal. now apply (IH (f (padb x))).
Qed.

(** *** The code in terms of operations *)
Lemma begin_conc l0 a fl0 fl : wf a -> is_byte fl -> Z.land fl FLAG_T = 0 ->
  begin_op f (conc l0 a fl0) fl false = Ret (conc l0 (start a fl) fl).
Proof.
  intros H Hfl HT. unfold begin_op. rewrite HT. cbn [negb Z.eqb].
  assert (E : Strobe (st (conc l0 a fl0)) (pos (conc l0 a fl0)) (u8 (pos (conc l0 a fl0) + 1)) fl (log (conc l0 a fl0)) = conc l0 (opened a) fl).
  { unfold conc, opened. cbn [st pos pos_begin cur_flags log base buf pb blocks]. f_equal. apply u8_id. unfold is_byte. destruct H as [_ [_ [H _]]]. lia. }
  rewrite E. cbn [conc pos_begin]. rewrite absorb_conc; [|assumption|now apply opened_wf|now apply header_bytes].
  cbn [obind]. change (feed (opened a) [pb a; fl]) with (header a fl). unfold start. fold (forced fl).
  cbn [conc pos]. replace (Z.of_nat (length (buf (header a fl))) =? 0) with ((length (buf (header a fl)) =? 0)%nat).
  2:{ destruct (Nat.eqb_spec (length (buf (header a fl))) 0) as [->|Hn]; [reflexivity|]. symmetry. apply Z.eqb_neq. lia. }
  destruct (forced fl && negb (length (buf (header a fl)) =? 0)%nat)%bool; [|reflexivity]. apply run_f_conc. apply wf_wf1.
  exact (feed_wf f Hf _ _ (opened_wf a H) (header_bytes a fl H Hfl)).
Qed.
Lemma op_conc l0 a fl0 fl ds : wf a -> is_byte fl -> Z.land fl FLAG_T = 0 -> bytes_ok ds ->
  (let! c := begin_op f (conc l0 a fl0) fl false in absorb f c ds) = Ret (conc l0 (run_op a (fl, ds)) fl).
Proof.
  intros H Hfl HT Hd. rewrite begin_conc by assumption. cbn [obind]. apply absorb_conc; [assumption|now apply start_wf|assumption].
Qed.
Lemma len4_ok n : bytes_ok (len4 n) /\ length (len4 n) = 4%nat.
Proof.
  unfold len4. split.
  - apply Forall_forall. intros x Hx. pose proof (le_bytes_ok 8 (Z.of_nat n)) as K. unfold bytes_ok in K. rewrite Forall_forall in K. apply K.
    rewrite <- (firstn_skipn 4). apply in_or_app. now left.
  - rewrite firstn_length, le_bytes_length. reflexivity.
Qed.
Lemma len4_inj n m : len4 n = len4 m -> Z.of_nat n mod 2 ^ 32 = Z.of_nat m mod 2 ^ 32.
Proof.
  assert (H : forall k, len4 k = le_bytes 4 (Z.of_nat k)) by reflexivity. rewrite !H. intros E.
  apply (f_equal le_val) in E. rewrite !le_val_bytes in E. exact E.
Qed.
(** Label and length. *)
Lemma meta_conc l0 a fl0 label n : wf a -> bytes_ok label ->
  (let! c := meta_ad f (conc l0 a fl0) label false in meta_ad f c (len4 n) true) = Ret (conc l0 (run_op a (6, label ++ len4 n)) 6).
Proof.
  intros H Hl. unfold meta_ad at 1. change (Z.lor FLAG_C FLAG_A) with 6. rewrite op_conc; [|assumption|unfold is_byte; lia|reflexivity|assumption].
  cbn [obind]. unfold meta_ad, begin_op. change (Z.lor FLAG_C FLAG_A) with 6. cbn [conc cur_flags]. cbn [Z.eqb Pos.eqb obind].
  fold (conc l0 (run_op a (6, label)) 6).
  rewrite absorb_conc; [|assumption|apply run_op_wf; [assumption|split; [unfold is_byte; cbn; lia|assumption]]|apply len4_ok].
  f_equal. f_equal. unfold run_op. cbn [fst snd]. unfold MerlinProofs.feed. now rewrite fold_left_app.
Qed.
Lemma commit_conc l0 a fl0 label m : wf a -> bytes_ok label -> bytes_ok m ->
  commit_bytes f (conc l0 a fl0) label m = Ret (conc l0 (run_ops a [(6, label ++ len4 (length m)); (2, m)]) 2).
Proof.
  intros H Hl Hm. unfold commit_bytes. pose proof (meta_conc l0 a fl0 label (length m) H Hl) as K.
  destruct (meta_ad f (conc l0 a fl0) label false) as [c| | |]; cbn [obind] in K |- *; try discriminate.
  rewrite K. cbn [obind]. unfold ad. change FLAG_A with 2. rewrite op_conc; [reflexivity| |unfold is_byte; lia|reflexivity|assumption].
  apply run_op_wf; [assumption|]. split; [unfold is_byte; cbn; lia|]. apply Forall_app. split; [assumption|apply len4_ok].
Qed.
Lemma challenge_conc l0 a fl0 label n : wf a -> bytes_ok label ->
  exists d, length d = n /\ bytes_ok d /\
  challenge_bytes f (conc l0 a fl0) label n = Ret (d, conc l0 (run_ops a [(6, label ++ len4 n); (7, d)]) 7).
Proof.
  intros H Hl. unfold challenge_bytes. pose proof (meta_conc l0 a fl0 label n H Hl) as K.
  destruct (meta_ad f (conc l0 a fl0) label false) as [c| | |]; cbn [obind] in K |- *; try discriminate.
  rewrite K. cbn [obind]. unfold prf. change (Z.lor (Z.lor FLAG_I FLAG_A) FLAG_C) with 7.
  assert (Hw : wf (run_op a (6, label ++ len4 n))).
  { apply run_op_wf; [assumption|]. split; [unfold is_byte; cbn; lia|]. apply Forall_app. split; [assumption|apply len4_ok]. }
  rewrite begin_conc; [|assumption|unfold is_byte; lia|reflexivity]. cbn [obind].
  destruct (squeeze_conc f Hf l0 7 n (start (run_op a (6, label ++ len4 n)) 7)) as [d [L [B E]]]; [apply start_wf; [assumption|unfold is_byte; lia]|].
  exists d. rewrite E. auto.
Qed.

(** The operations of a history. *)
Inductive trace : list call -> list (Z * list Z) -> Prop :=
| tr_nil : trace [] []
| tr_app l m cs os : trace cs os -> trace (Append l m :: cs) ((6, l ++ len4 (length m)) :: (2, m) :: os)
| tr_chal l n d cs os : length d = n -> trace cs os -> trace (Challenge l n :: cs) ((6, l ++ len4 n) :: (7, d) :: os).
Lemma trace_inj cs : forall cs' os, trace cs os -> trace cs' os -> cs = cs'.
Proof.
  induction cs as [|c cs IH]; intros cs' os H H'.
  - inversion H; subst. inversion H'; subst. reflexivity.
  - assert (T : forall (l l' : list Z) u u', l ++ len4 u = l' ++ len4 u' -> l = l').
    { intros l l' u u' E. apply (f_equal (@rev Z)) in E. rewrite !rev_app_distr in E.
      apply app_same_length in E; [|rewrite !rev_length; rewrite !(proj2 (len4_ok _)); reflexivity].
      destruct E as [_ E]. rewrite <- (rev_involutive l), E. apply rev_involutive. }
    inversion H; subst; inversion H'; subst.
    + f_equal; [|eapply IH; eassumption]. f_equal. eapply T. symmetry. eassumption.
    + f_equal; [|eapply IH; eassumption]. f_equal. eapply T. symmetry. eassumption.
Qed.
Lemma exec_conc l0 cs : forall a fl, wf a -> Forall call_ok cs ->
  exists outs os fl', trace cs os /\ Forall op_ok os /\ exec f (conc l0 a fl) cs = Ret (outs, conc l0 (run_ops a os) fl').
Proof.
  assert (B6 : is_byte 6) by (unfold is_byte; lia). assert (B2 : is_byte 2) by (unfold is_byte; lia). assert (B7 : is_byte 7) by (unfold is_byte; lia).
  induction cs as [|c cs IH]; intros a fl H Hc.
  - exists [], [], fl. split; [constructor|]. split; [constructor|]. reflexivity.
  - apply Forall_cons_iff in Hc. destruct Hc as [Hc Hcs]. destruct c as [l m|l n]; cbn [exec call_ok] in *.
    + destruct Hc as [Hl Hm]. rewrite commit_conc by assumption. cbn [obind].
      set (o2 := [(6, l ++ len4 (length m)); (2, m)]).
      assert (Ho : Forall op_ok o2).
      { constructor; [split; [exact B6|apply Forall_app; split; [assumption|apply len4_ok]]|]. constructor; [split; assumption|constructor]. }
      assert (Hw : wf (run_ops a o2)).
      { unfold o2. cbn [run_ops fold_left]. apply Forall_cons_iff in Ho. destruct Ho as [Ho1 Ho2]. apply Forall_cons_iff in Ho2. destruct Ho2 as [Ho2 _].
        apply run_op_wf; [now apply run_op_wf|assumption]. }
      destruct (IH (run_ops a o2) 2 Hw Hcs) as [outs [os [fl' [T1 [T2 T3]]]]].
      exists outs, (o2 ++ os), fl'. split; [now constructor|]. split; [now apply Forall_app|]. rewrite T3. unfold run_ops. now rewrite fold_left_app.
    + destruct (challenge_conc l0 a fl l n H Hc) as [d [L [B E]]]. rewrite E. cbn [obind fst snd].
      set (o2 := [(6, l ++ len4 n); (7, d)]).
      assert (Ho : Forall op_ok o2).
      { constructor; [split; [exact B6|apply Forall_app; split; [assumption|apply len4_ok]]|]. constructor; [split; assumption|constructor]. }
      assert (Hw : wf (run_ops a o2)).
      { unfold o2. cbn [run_ops fold_left]. apply Forall_cons_iff in Ho. destruct Ho as [Ho1 Ho2]. apply Forall_cons_iff in Ho2. destruct Ho2 as [Ho2 _].
        apply run_op_wf; [now apply run_op_wf|assumption]. }
      destruct (IH (run_ops a o2) 7 Hw Hcs) as [outs [os [fl' [T1 [T2 T3]]]]].
      exists (d :: outs), (o2 ++ os), fl'. split; [now constructor|]. split; [now apply Forall_app|]. rewrite T3. cbn [obind fst snd]. unfold run_ops. now rewrite fold_left_app.
Qed.

(** Every in-bounds state is the concrete form of a sponge without blocks. *)
Definition lift (c : strobe) : sponge := Sp (st c) (repeat 0 (Z.to_nat (pos c))) (pos_begin c) [].
Lemma xorl_zeros b : forall n, xorl b (repeat 0 n) = b.
Proof. induction b as [|x b IH]; intros [|n]; cbn; auto. now rewrite Z.lxor_0_r, IH. Qed.
Lemma lift_conc c : 0 <= pos c -> conc (log c) (lift c) (cur_flags c) = c.
Proof.
  intros H. unfold conc, lift. cbn [base buf pb blocks map]. rewrite xorl_zeros, repeat_length, app_nil_r, Z2Nat.id by assumption. now destruct c.
Qed.
Lemma lift_wf c : in_bounds c -> wf (lift c).
Proof.
  intros [H1 [H2 H3]]. unfold wf, lift. cbn. split; [assumption|]. split; [|rewrite repeat_length; lia].
  apply Forall_forall. intros x Hx. apply repeat_spec in Hx. subst. unfold is_byte. lia.
Qed.
Lemma lift_follows c : follows (st c) (lift c). Proof. split; [exact I|reflexivity]. Qed.
Lemma conc_bounds l0 a fl : wf a -> in_bounds (conc l0 a fl).
Proof.
  intros [[H1 H0] [H2 [H3 H4]]]. unfold in_bounds, conc. cbn [st pos pos_begin]. split; [|lia].
  split; [now rewrite xorl_length|now apply xorl_bytes].
Qed.
End Inj.
