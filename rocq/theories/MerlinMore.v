(** The statements behind C55-C60. *)
From Coq Require Import ZArith String List Bool Lia.
From Verif Require Import Outcome Bytes KeccakModel MerlinModel MerlinSpec MerlinProofs MerlinInj.
Import ListNotations.
Open Scope Z_scope.

(** *** Integers *)
Lemma bytesFromInt_le z : bytesFromInt z = le_bytes 8 z.
Proof.
  unfold bytesFromInt.
  assert (H : forall (l : list nat) (b : list Z) z,
    fst (fold_left (fun s _ => let '(buf, num) := s in (buf ++ [Z.land (u8 num) 255], Z.shiftr num 8)) l (b, z)) = b ++ le_bytes (List.length l) z).
  { induction l as [|i l IH]; intros b z0; cbn [fold_left List.length le_bytes fst]; [now rewrite app_nil_r|].
    rewrite IH, <- app_assoc. cbn [app]. f_equal. f_equal.
    - unfold u8. change 255 with (Z.ones 8). rewrite Z.land_ones by lia. change (2 ^ 8) with 256. now rewrite Z.mod_mod by lia.
    - rewrite Z.shiftr_div_pow2 by lia. reflexivity. }
  rewrite H. reflexivity.
Qed.
Lemma to_int_cong a b : a mod 2 ^ 32 = b mod 2 ^ 32 -> to_int a = to_int b.
Proof. intros H. unfold to_int. rewrite Z.add_mod, H, <- Z.add_mod by lia. reflexivity. Qed.
Lemma to_int_mod a : to_int a mod 2 ^ 32 = a mod 2 ^ 32.
Proof. unfold to_int. rewrite Zminus_mod, Z.mod_mod, <- Zminus_mod by lia. f_equal. lia. Qed.
Lemma mod_mod_32 a : a mod 2 ^ 64 mod 2 ^ 32 = a mod 2 ^ 32.
Proof. symmetry. apply Znumtheory.Zmod_div_mod; [lia|lia|]. exists (2 ^ 32). lia. Qed.
Lemma intFromBytes_val buf : List.length buf = 8%nat -> intFromBytes buf = Ret (to_int (le_val buf) mod 2 ^ 64).
Proof.
  intros H. unfold intFromBytes.
  assert (K : forall k i num, (i + k <= 8)%nat -> num = to_int (le_val (firstn i buf)) ->
    fold_left (fun o i => let! num := o in let! b := oget buf i in
      Ret (to_int ((num mod 2 ^ 64 + Z.shiftl b (8 * Z.of_nat i)) mod 2 ^ 64))) (seq i k) (Ret num) = Ret (to_int (le_val (firstn (i + k) buf)))).
  { induction k as [|k IH]; intros i num Hi ->; cbn [seq fold_left].
    - now rewrite Nat.add_0_r.
    - cbn [obind]. rewrite oget_nth by lia. cbn [obind]. rewrite (IH (S i)); [f_equal; f_equal; f_equal; f_equal; lia|lia|].
      apply to_int_cong. rewrite mod_mod_32, Z.add_mod, mod_mod_32, to_int_mod, <- Z.add_mod by lia. f_equal.
      assert (E : firstn (S i) buf = firstn i buf ++ [nth i buf 0]).
      { clear - H Hi. assert (Hj : (i < List.length buf)%nat) by lia. clear H Hi. revert i Hj.
        induction buf as [|b l IHl]; intros [|i] Hj; cbn [length] in Hj; try lia; [reflexivity|]. cbn [firstn app nth]. f_equal. apply IHl. lia. }
      rewrite E, le_val_app. rewrite firstn_length_le by lia. cbn [le_val]. rewrite Z.shiftl_mul_pow2 by lia.
      rewrite Z.pow_mul_r by lia. change (2 ^ 8) with 256. lia. }
  rewrite (K 8%nat 0%nat 0); [|lia|reflexivity]. cbn [obind Nat.add]. now rewrite firstn_all2 by lia.
Qed.
Lemma int_roundtrip z : 0 <= z < 2 ^ 64 -> intFromBytes (bytesFromInt z) = Ret (to_int z mod 2 ^ 64).
Proof.
  intros H. rewrite bytesFromInt_le, intFromBytes_val by apply le_bytes_length. rewrite le_val_bytes_small by exact H. reflexivity.
Qed.
Lemma to_int_id z : 0 <= z < 2 ^ 64 -> (to_int z mod 2 ^ 64 = z <-> z < 2 ^ 31 \/ 2 ^ 64 - 2 ^ 31 <= z).
Proof.
  intros H. unfold to_int. pose proof (Z.mod_pos_bound (z + 2 ^ 31) (2 ^ 32) ltac:(lia)) as B. split.
  - intros E. set (y := (z + 2 ^ 31) mod 2 ^ 32 - 2 ^ 31) in *. assert (Hy : - 2 ^ 31 <= y < 2 ^ 31) by (unfold y; lia).
    destruct (Z_lt_dec y 0) as [L|L].
    + right. rewrite <- E. replace (y mod 2 ^ 64) with (y + 2 ^ 64); [lia|]. apply Zmod_unique with (-1); lia.
    + left. rewrite Z.mod_small in E by lia. lia.
  - intros [L|L].
    + rewrite (Z.mod_small (z + _)) by lia. rewrite Z.mod_small; lia.
    + replace ((z + 2 ^ 31) mod 2 ^ 32) with (z - 2 ^ 64 + 2 ^ 31).
      * symmetry. apply Zmod_unique with (-1); lia.
      * apply Zmod_unique with (2 ^ 32); lia.
Qed.

(** *** Chunking *)
Section Chunk.
Variable f : list Z -> list Z.
Lemma run_f_flags c c' : run_f f c = Ret c' -> cur_flags c' = cur_flags c.
Proof.
  unfold run_f. intros H. apply obind_ret_inv in H. destruct H as [s1 [_ H]]. apply obind_ret_inv in H. destruct H as [s2 [_ H]].
  apply obind_ret_inv in H. destruct H as [s3 [_ H]]. injection H as <-. reflexivity.
Qed.
Lemma advance_flags c s c' : advance f c s = Ret c' -> cur_flags c' = cur_flags c.
Proof. unfold advance. cbn [pos]. destruct (_ =? _); intros H; [apply run_f_flags in H; exact H|]. injection H as <-. reflexivity. Qed.
Lemma absorb_flags u : forall c c', absorb f c u = Ret c' -> cur_flags c' = cur_flags c.
Proof.
  induction u as [|d u IH]; intros c c' H; cbn [absorb] in H; [now injection H as <-|].
  apply obind_ret_inv in H. destruct H as [s [_ H]]. apply obind_ret_inv in H. destruct H as [c1 [H1 H]].
  rewrite (IH _ _ H). now apply advance_flags in H1.
Qed.
Lemma overwrite_flags u : forall c c', overwrite f c u = Ret c' -> cur_flags c' = cur_flags c.
Proof.
  induction u as [|d u IH]; intros c c' H; cbn [overwrite] in H; [now injection H as <-|].
  apply obind_ret_inv in H. destruct H as [s [_ H]]. apply obind_ret_inv in H. destruct H as [c1 [H1 H]].
  rewrite (IH _ _ H). now apply advance_flags in H1.
Qed.
Lemma squeeze_flags n : forall c d c', squeeze f c n = Ret (d, c') -> cur_flags c' = cur_flags c.
Proof.
  induction n as [|n IH]; intros c d c' H; cbn [squeeze] in H; [now injection H as _ <-|].
  apply obind_ret_inv in H. destruct H as [b [_ H]]. apply obind_ret_inv in H. destruct H as [s [_ H]].
  apply obind_ret_inv in H. destruct H as [c1 [H1 H]]. apply obind_ret_inv in H. destruct H as [[d2 c2] [H2 H]].
  injection H as _ <-. cbn. rewrite (IH _ _ _ H2). now apply advance_flags in H1.
Qed.
Lemma begin_flags c fl b c' : begin_op f c fl b = Ret c' -> cur_flags c' = fl.
Proof.
  unfold begin_op. destruct b.
  - destruct (Z.eqb_spec (cur_flags c) fl); intros H; [|discriminate]. injection H as <-. assumption.
  - destruct (negb _); [discriminate|]. intros H. apply obind_ret_inv in H. destruct H as [c1 [H1 H]]. apply absorb_flags in H1. cbn [cur_flags] in H1.
    destruct (_ && _)%bool; [apply run_f_flags in H; congruence|injection H as <-; assumption].
Qed.
Lemma begin_more c fl : cur_flags c = fl -> begin_op f c fl true = Ret c.
Proof. intros H. unfold begin_op. now rewrite H, Z.eqb_refl. Qed.
Lemma absorb_app u : forall c v, absorb f c (u ++ v) = obind (absorb f c u) (fun c => absorb f c v).
Proof.
  induction u as [|d u IH]; intros c v; cbn [absorb app]; [reflexivity|].
  destruct (upd _ _ _) as [s| | |]; cbn [obind]; try reflexivity. destruct (advance f c s) as [c1| | |]; cbn [obind]; try reflexivity. apply IH.
Qed.
Lemma overwrite_app u : forall c v, overwrite f c (u ++ v) = obind (overwrite f c u) (fun c => overwrite f c v).
Proof.
  induction u as [|d u IH]; intros c v; cbn [overwrite app]; [reflexivity|].
  destruct (upd _ _ _) as [s| | |]; cbn [obind]; try reflexivity. destruct (advance f c s) as [c1| | |]; cbn [obind]; try reflexivity. apply IH.
Qed.
Lemma squeeze_app n : forall c m, squeeze f c (n + m) =
  obind (squeeze f c n) (fun a => obind (squeeze f (snd a) m) (fun b => Ret (fst a ++ fst b, snd b))).
Proof.
  induction n as [|n IH]; intros c m; cbn [squeeze Nat.add obind fst snd].
  - destruct (squeeze f c m) as [[d c']| | |]; reflexivity.
  - destruct (oget _ _) as [b| | |]; cbn [obind]; try reflexivity. destruct (upd _ _ _) as [s| | |]; cbn [obind]; try reflexivity.
    destruct (advance f c s) as [c1| | |]; cbn [obind]; try reflexivity. rewrite IH.
    destruct (squeeze f c1 n) as [[d2 c2]| | |]; cbn [obind fst snd]; try reflexivity.
    destruct (squeeze f c2 m) as [[d3 c3]| | |]; cbn [obind fst snd]; reflexivity.
Qed.
Lemma meta_ad_app c u v b : meta_ad f c (u ++ v) b = obind (meta_ad f c u b) (fun c => meta_ad f c v true).
Proof.
  unfold meta_ad. destruct (begin_op f c _ b) as [c1| | |] eqn:E; cbn [obind]; try reflexivity. apply begin_flags in E.
  rewrite absorb_app. destruct (absorb f c1 u) as [c2| | |] eqn:E2; cbn [obind]; try reflexivity. apply absorb_flags in E2.
  rewrite begin_more by congruence. reflexivity.
Qed.
Lemma ad_app c u v b : ad f c (u ++ v) b = obind (ad f c u b) (fun c => ad f c v true).
Proof.
  unfold ad. destruct (begin_op f c _ b) as [c1| | |] eqn:E; cbn [obind]; try reflexivity. apply begin_flags in E.
  rewrite absorb_app. destruct (absorb f c1 u) as [c2| | |] eqn:E2; cbn [obind]; try reflexivity. apply absorb_flags in E2.
  rewrite begin_more by congruence. reflexivity.
Qed.
Lemma key_app c u v b : key f c (u ++ v) b = obind (key f c u b) (fun c => key f c v true).
Proof.
  unfold key. destruct (begin_op f c _ b) as [c1| | |] eqn:E; cbn [obind]; try reflexivity. apply begin_flags in E.
  rewrite overwrite_app. destruct (overwrite f c1 u) as [c2| | |] eqn:E2; cbn [obind]; try reflexivity. apply overwrite_flags in E2.
  rewrite begin_more by congruence. reflexivity.
Qed.
Lemma prf_app c n m b : prf f c (n + m) b =
  obind (prf f c n b) (fun x => obind (prf f (snd x) m true) (fun y => Ret (fst x ++ fst y, snd y))).
Proof.
  unfold prf. destruct (begin_op f c _ b) as [c1| | |] eqn:E; cbn [obind]; try reflexivity. apply begin_flags in E.
  rewrite squeeze_app. destruct (squeeze f c1 n) as [[d c2]| | |] eqn:E2; cbn [obind fst snd]; try reflexivity. apply squeeze_flags in E2.
  rewrite begin_more by congruence. reflexivity.
Qed.

(** *** A second draw from the rng *)
Lemma prf_flags c n b d c' : prf f c n b = Ret (d, c') -> cur_flags c' = 7.
Proof.
  unfold prf. intros H. apply obind_ret_inv in H. destruct H as [c1 [H1 H]]. apply begin_flags in H1. apply squeeze_flags in H.
  rewrite H, H1. reflexivity.
Qed.
Lemma second_draw r n d r' : rng_random_bytes f r n = Ret (d, r') -> forall m, rng_random_bytes f r' m = Abort.
Proof.
  unfold rng_random_bytes at 1. destruct (negb _); [discriminate|]. intros H m. apply obind_ret_inv in H. destruct H as [c1 [H1 H]].
  apply obind_ret_inv in H. destruct H as [[d2 c2] [H2 H]]. injection H as _ <-. apply prf_flags in H2.
  unfold rng_random_bytes, meta_ad, begin_op. cbn [finalized rctx negb fst snd]. rewrite H2. reflexivity.
Qed.
End Chunk.

(** *** Histories *)
Section Hist.
Variable f : list Z -> list Z.
Hypothesis Hf : perm_ok f.

Lemma init_bounds : in_bounds (Strobe (f (init_bytes ++ repeat 0 182)) 0 0 0 [init_bytes ++ repeat 0 182]).
Proof.
  split; [|cbn; lia]. apply Hf. split; [reflexivity|]. apply Forall_app. split; [repeat constructor; unfold is_byte; lia|].
  apply Forall_forall. intros x Hx. apply repeat_spec in Hx. subst. unfold is_byte. lia.
Qed.
Lemma lit_bytes s : bytes_ok (lit s).
Proof.
  unfold lit. apply Forall_forall. intros x Hx. apply in_map_iff in Hx. destruct Hx as [a [<- _]]. unfold is_byte.
  pose proof (Ascii.nat_ascii_bounded a). lia.
Qed.
Lemma strobe_init_ok label : bytes_ok label -> exists c, strobe_init f label = Ret c /\ in_bounds c.
Proof.
  intros H. unfold strobe_init. set (c0 := Strobe (f _) 0 0 0 _). pose proof init_bounds as B. fold c0 in B.
  unfold meta_ad. change (Z.lor FLAG_C FLAG_A) with 6. rewrite <- (lift_conc c0) by (cbn; lia).
  rewrite (op_conc f Hf); [|now apply lift_wf|unfold is_byte; lia|reflexivity|assumption].
  eexists. split; [reflexivity|]. apply conc_bounds. apply run_op_wf; [assumption|now apply lift_wf|split; [unfold is_byte; cbn; lia|assumption]].
Qed.
Lemma exec_bounds c cs : in_bounds c -> Forall call_ok cs -> exists outs c', exec f c cs = Ret (outs, c') /\ in_bounds c'.
Proof.
  intros H Hc. assert (Hp : 0 <= pos c) by (destruct H as [_ [H _]]; lia).
  destruct (exec_conc f Hf (log c) cs (lift c) (cur_flags c) (lift_wf c H) Hc) as [outs [os [fl [_ [Ho E]]]]].
  rewrite lift_conc in E by assumption. exists outs. eexists. split; [exact E|]. apply conc_bounds.
  apply (run_ops_inv f Hf (st c)); [now apply lift_wf|assumption|apply lift_follows].
Qed.
Lemma exec_app cs : forall c cs', exec f c (cs ++ cs') = obind (exec f c cs) (fun a => obind (exec f (snd a) cs') (fun b => Ret (fst a ++ fst b, snd b))).
Proof.
  induction cs as [|[l m|l n] cs IH]; intros c cs'; cbn [exec app obind fst snd].
  - destruct (exec f c cs') as [[o c']| | |]; reflexivity.
  - destruct (commit_bytes f c l m) as [c1| | |]; cbn [obind]; try reflexivity. apply IH.
  - destruct (challenge_bytes f c l n) as [[d c1]| | |]; cbn [obind fst snd]; try reflexivity. rewrite IH.
    destruct (exec f c1 cs) as [[o2 c2]| | |]; cbn [obind fst snd]; try reflexivity.
    destruct (exec f c2 cs') as [[o3 c3]| | |]; cbn [obind fst snd]; reflexivity.
Qed.
Lemma trace_snoc cs l n : forall os, trace (cs ++ [Challenge l n]) os -> exists os0 d, trace cs os0 /\ List.length d = n /\ os = os0 ++ [(6, l ++ len4 n); (7, d)].
Proof.
  induction cs as [|c cs IH]; intros os H; cbn [app] in H.
  - inversion H; subst. match goal with T : trace [] _ |- _ => inversion T; subst end. exists [], d. repeat split. constructor.
  - inversion H; subst.
    + match goal with T : trace (cs ++ _) _ |- _ => rename T into H3 end. destruct (IH _ H3) as [os1 [d1 [T [L ->]]]]. eexists _, d1. split; [apply tr_app; exact T|]. split; [exact L|reflexivity].
    + match goal with T : trace (cs ++ _) _ |- _ => rename T into H4' end. destruct (IH _ H4') as [os1 [d1 [T [L ->]]]]. eexists _, d1. split; [apply tr_chal; [reflexivity|exact T]|]. split; [exact L|reflexivity].
Qed.
Lemma meta_inj (l l' : list Z) u u' : l ++ len4 u = l' ++ len4 u' -> l = l' /\ len4 u = len4 u'.
Proof.
  intros E. assert (L : List.length l = List.length l').
  { apply (f_equal (@List.length Z)) in E. rewrite !app_length, (proj2 (len4_ok u)), (proj2 (len4_ok u')) in E. lia. }
  now apply app_same_length in E.
Qed.
Lemma history_inj c cs cs' l l' n n' o o' c1 c1' : in_bounds c ->
  Forall call_ok (cs ++ [Challenge l n]) -> Forall call_ok (cs' ++ [Challenge l' n']) ->
  exec f c (cs ++ [Challenge l n]) = Ret (o, c1) -> exec f c (cs' ++ [Challenge l' n']) = Ret (o', c1') ->
  log c1 = log c1' -> cs = cs' /\ l = l' /\ Z.of_nat n mod 2 ^ 32 = Z.of_nat n' mod 2 ^ 32.
Proof.
  intros H H1 H2 E1 E2 EL. assert (Hp : 0 <= pos c) by (destruct H as [_ [H _]]; lia).
  destruct (exec_conc f Hf (log c) _ (lift c) (cur_flags c) (lift_wf c H) H1) as [o1 [os [fl [T [Ho E]]]]].
  destruct (exec_conc f Hf (log c) _ (lift c) (cur_flags c) (lift_wf c H) H2) as [o2 [os' [fl' [T' [Ho' E']]]]].
  rewrite lift_conc in E, E' by assumption. rewrite E in E1. rewrite E' in E2. injection E1 as _ <-. injection E2 as _ <-.
  destruct (run_ops_inv f Hf (st c) os (lift c) (lift_wf c H) Ho (lift_follows f c)) as [_ [C1 _]].
  destruct (run_ops_inv f Hf (st c) os' (lift c) (lift_wf c H) Ho' (lift_follows f c)) as [_ [C2 _]].
  unfold conc in EL. cbn [log] in EL. apply app_inv_head in EL. apply (chained_inj f _ _ _ C1 C2) in EL.
  apply trace_snoc in T. destruct T as [os0 [d [T [L ->]]]]. apply trace_snoc in T'. destruct T' as [os0' [d' [T' [L' ->]]]].
  replace (os0 ++ [(6, l ++ len4 n); (7, d)]) with ((os0 ++ [(6, l ++ len4 n)]) ++ [(7, d)]) in EL by now rewrite <- app_assoc.
  replace (os0' ++ [(6, l' ++ len4 n'); (7, d')]) with ((os0' ++ [(6, l' ++ len4 n')]) ++ [(7, d')]) in EL by now rewrite <- app_assoc.
  unfold run_ops in EL. rewrite (fold_left_app _ _ [(7, d)]), (fold_left_app _ _ [(7, d')]) in EL. cbn [fold_left] in EL.
  apply run_op_forced_inj in EL; [|reflexivity|reflexivity]. destruct EL as [EL _].
  apply run_ops_inj in EL. apply app_inj_tail in EL. destruct EL as [-> EL]. injection EL as EL. apply meta_inj in EL. destruct EL as [-> EL].
  split; [exact (trace_inj _ _ _ T T')|]. split; [reflexivity|]. now apply len4_inj.
Qed.
Lemma run_inj label label' cs cs' l l' n n' o o' c1 c1' :
  bytes_ok label -> bytes_ok label' ->
  Forall call_ok (cs ++ [Challenge l n]) -> Forall call_ok (cs' ++ [Challenge l' n']) ->
  run f label (cs ++ [Challenge l n]) = Ret (o, c1) -> run f label' (cs' ++ [Challenge l' n']) = Ret (o', c1') ->
  log c1 = log c1' -> label = label' /\ cs = cs' /\ l = l' /\ Z.of_nat n mod 2 ^ 32 = Z.of_nat n' mod 2 ^ 32.
Proof.
  intros B B' H H' E E' EL. destruct (strobe_init_ok (lit "Merlin v1.0") (lit_bytes _)) as [c [Ec Hc]].
  assert (R : forall lb cl, run f lb cl = exec f c (Append (lit "dom-sep") lb :: cl)).
  { intros lb cl. unfold run, transcript_init. rewrite Ec. reflexivity. }
  rewrite R in E, E'.
  assert (OK : forall lb cl, bytes_ok lb -> Forall call_ok cl -> Forall call_ok (Append (lit "dom-sep") lb :: cl)).
  { intros lb cl Hb Hcl. constructor; [split; [apply lit_bytes|assumption]|assumption]. }
  destruct (history_inj c (Append (lit "dom-sep") label :: cs) (Append (lit "dom-sep") label' :: cs') l l' n n' o o' c1 c1' Hc (OK _ _ B H) (OK _ _ B' H') E E' EL)
    as [K1 [K2 K3]]. injection K1 as -> ->. auto.
Qed.
Lemma run_ok label cs : bytes_ok label -> Forall call_ok cs -> exists o c, run f label cs = Ret (o, c) /\ in_bounds c.
Proof.
  intros B H. destruct (strobe_init_ok (lit "Merlin v1.0") (lit_bytes _)) as [c [Ec Hc]].
  unfold run, transcript_init. rewrite Ec. cbn [obind].
  destruct (exec_bounds c (Append (lit "dom-sep") label :: cs) Hc) as [o [c' [E Hc']]]; [constructor; [split; [apply lit_bytes|assumption]|assumption]|].
  exists o, c'. cbn [exec] in E. destruct (commit_bytes f c (lit "dom-sep") label); cbn [obind] in *; try discriminate. auto.
Qed.
Lemma exec_outs cs : forall c outs c', exec f c cs = Ret (outs, c') -> in_bounds c -> Forall call_ok cs ->
  Forall2 (fun d n => List.length d = n /\ bytes_ok d) outs (flat_map (fun a => match a with Append _ _ => [] | Challenge _ n => [n] end) cs).
Proof.
  induction cs as [|a cs IH]; intros c outs c' E H Hc; cbn [exec flat_map] in *; [injection E as <- _; constructor|].
  apply Forall_cons_iff in Hc. destruct Hc as [Ha Hc]. assert (Hp : 0 <= pos c) by (destruct H as [_ [H _]]; lia).
  destruct a as [l m|l n]; cbn [call_ok] in Ha.
  - destruct Ha as [Hl Hm]. rewrite <- (lift_conc c Hp), (commit_conc f Hf) in E by (try assumption; now apply lift_wf). cbn [obind] in E.
    cbn [app]. eapply IH; [exact E| |assumption]. apply conc_bounds. apply (run_ops_inv f Hf (st c)); [now apply lift_wf| |apply lift_follows].
    constructor; [split; [unfold is_byte; cbn; lia|apply Forall_app; split; [assumption|apply len4_ok]]|]. constructor; [|constructor].
    split; [unfold is_byte; cbn; lia|assumption].
  - rewrite <- (lift_conc c Hp) in E. destruct (challenge_conc f Hf (log c) (lift c) (cur_flags c) l n (lift_wf c H) Ha) as [d [L [B Ed]]].
    rewrite Ed in E. cbn [obind fst snd] in E. apply obind_ret_inv in E. destruct E as [[o2 c2] [E2 E]]. injection E as <- <-. cbn [fst snd app].
    constructor; [auto|]. eapply IH; [exact E2| |assumption]. apply conc_bounds. apply (run_ops_inv f Hf (st c)); [now apply lift_wf| |apply lift_follows].
    constructor; [split; [unfold is_byte; cbn; lia|apply Forall_app; split; [assumption|apply len4_ok]]|]. constructor; [|constructor].
    split; [unfold is_byte; cbn; lia|assumption].
Qed.

(** *** The rng *)
Lemma key_op c (data : list Z) : in_bounds c -> bytes_ok data ->
  exists c', key f c data false = Ret c' /\ in_bounds c' /\ cur_flags c' = 6.
Proof.
  intros H Hd. assert (Hp : 0 <= pos c) by (destruct H as [_ [H _]]; lia). unfold key. change (Z.lor FLAG_C FLAG_A) with 6.
  rewrite <- (lift_conc c Hp). rewrite (begin_conc f Hf); [|now apply lift_wf|unfold is_byte; lia|reflexivity]. cbn [obind].
  assert (W : wf (start f (lift c) 6)) by (apply start_wf; [assumption|now apply lift_wf|unfold is_byte; lia]).
  destruct (overwrite_conc f Hf (log c) 6 data _ W Hd) as [d [L [B E]]].
  rewrite E. eexists. split; [reflexivity|]. split; [|reflexivity]. apply conc_bounds. now apply feed_wf.
Qed.
Lemma meta_op c label n : in_bounds c -> bytes_ok label ->
  exists c', (let! c := meta_ad f c label false in meta_ad f c (len4 n) true) = Ret c' /\ in_bounds c'.
Proof.
  intros H Hl. assert (Hp : 0 <= pos c) by (destruct H as [_ [H _]]; lia). rewrite <- (lift_conc c Hp).
  rewrite (meta_conc f Hf) by (try assumption; now apply lift_wf). eexists. split; [reflexivity|]. apply conc_bounds.
  apply run_op_wf; [assumption|now apply lift_wf|]. split; [unfold is_byte; cbn; lia|apply Forall_app; split; [assumption|apply len4_ok]].
Qed.
Lemma witness_ok r label wit : in_bounds (rctx r) -> finalized r = false -> bytes_ok label -> bytes_ok wit ->
  exists r', rng_commit_witness f r label wit = Ret r' /\ in_bounds (rctx r') /\ finalized r' = false.
Proof.
  intros H F Hl Hw. unfold rng_commit_witness. rewrite F. destruct (meta_op (rctx r) label (List.length wit) H Hl) as [c1 [E1 B1]].
  destruct (meta_ad f (rctx r) label false) as [c0| | |]; cbn [obind] in *; try discriminate. rewrite E1. cbn [obind].
  destruct (key_op c1 wit B1 Hw) as [c2 [E2 [B2 _]]]. rewrite E2. cbn [obind]. eexists. split; [reflexivity|]. auto.
Qed.
Lemma witnesses_ok ms : forall r, in_bounds (rctx r) -> finalized r = false -> Forall (fun x => bytes_ok (fst x) /\ bytes_ok (snd x)) ms ->
  exists r', rng_commit_all f r ms = Ret r' /\ in_bounds (rctx r') /\ finalized r' = false.
Proof.
  induction ms as [|[l m] ms IH]; intros r H F Hm; cbn [rng_commit_all]; [exists r; auto|].
  apply Forall_cons_iff in Hm. destruct Hm as [[H1 H2] H3]. destruct (witness_ok r l m H F H1 H2) as [r1 [E [B F1]]].
  rewrite E. cbn [obind]. now apply IH.
Qed.
Lemma finalize_ok r e : in_bounds (rctx r) -> finalized r = false -> bytes_ok e ->
  exists r', rng_finalize f r e = Ret r' /\ in_bounds (rctx r') /\ finalized r' = true /\ cur_flags (rctx r') = 6.
Proof.
  intros H F He. unfold rng_finalize. rewrite F. assert (Hp : 0 <= pos (rctx r)) by (destruct H as [_ [H _]]; lia).
  unfold meta_ad. change (Z.lor FLAG_C FLAG_A) with 6. rewrite <- (lift_conc (rctx r) Hp).
  rewrite (op_conc f Hf); [|now apply lift_wf|unfold is_byte; lia|reflexivity|apply lit_bytes]. cbn [obind].
  set (c1 := conc _ _ _). assert (B1 : in_bounds c1).
  { apply conc_bounds. apply run_op_wf; [assumption|now apply lift_wf|split; [unfold is_byte; cbn; lia|apply lit_bytes]]. }
  assert (He32 : bytes_ok (firstn 32 e)).
  { apply Forall_forall. intros x Hx. unfold bytes_ok in He. rewrite Forall_forall in He. apply He. rewrite <- (firstn_skipn 32). apply in_or_app. now left. }
  destruct (key_op c1 (firstn 32 e) B1 He32) as [c2 [E2 [B2 F2]]]. rewrite E2. cbn [obind]. eexists. split; [reflexivity|]. auto.
Qed.
Lemma first_draw r n : in_bounds (rctx r) -> finalized r = true -> cur_flags (rctx r) = 6 ->
  exists d r', rng_random_bytes f r n = Ret (d, r') /\ List.length d = n /\ bytes_ok d /\ in_bounds (rctx r').
Proof.
  intros H F Fl. unfold rng_random_bytes. rewrite F. cbn [negb]. assert (Hp : 0 <= pos (rctx r)) by (destruct H as [_ [H _]]; lia).
  unfold meta_ad. change (Z.lor FLAG_C FLAG_A) with 6. rewrite begin_more by assumption. cbn [obind].
  rewrite <- (lift_conc (rctx r) Hp). rewrite (absorb_conc f Hf) by (try apply len4_ok; now apply lift_wf). cbn [obind].
  unfold prf. change (Z.lor (Z.lor FLAG_I FLAG_A) FLAG_C) with 7.
  assert (W1 : wf (feed f (lift (rctx r)) (len4 n))) by (apply feed_wf; [assumption|now apply lift_wf|apply len4_ok]).
  rewrite (begin_conc f Hf); [|assumption|unfold is_byte; lia|reflexivity]. cbn [obind].
  assert (W : wf (start f (feed f (lift (rctx r)) (len4 n)) 7)) by (apply start_wf; [assumption|assumption|unfold is_byte; lia]).
  destruct (squeeze_conc f Hf (log (rctx r)) 7 n _ W) as [d [L [B E]]]. rewrite E. cbn [obind fst snd].
  exists d. eexists. split; [reflexivity|]. split; [assumption|]. split; [assumption|]. cbn [rctx]. apply conc_bounds. now apply feed_wf.
Qed.
Lemma rng_ok c ms e n : in_bounds c -> Forall (fun x => bytes_ok (fst x) /\ bytes_ok (snd x)) ms -> bytes_ok e ->
  exists d r, (let! r := rng_commit_all f (rng_init c) ms in let! r := rng_finalize f r e in rng_random_bytes f r n) = Ret (d, r) /\
    List.length d = n /\ bytes_ok d /\ in_bounds (rctx r).
Proof.
  intros H Hm He. destruct (witnesses_ok ms (rng_init c) H eq_refl Hm) as [r1 [E1 [B1 F1]]]. rewrite E1. cbn [obind].
  destruct (finalize_ok r1 e B1 F1 He) as [r2 [E2 [B2 [F2 G2]]]]. rewrite E2. cbn [obind]. now apply first_draw.
Qed.
Lemma bfi_ok z : bytes_ok (bytesFromInt z). Proof. rewrite bytesFromInt_le. apply le_bytes_ok. Qed.
Lemma nth_bytes (l : list (list Z)) i : Forall bytes_ok l -> bytes_ok (nth i l []).
Proof. intros H. destruct (nth_in_or_default i l []) as [K| ->]; [|constructor]. rewrite Forall_forall in H. now apply H. Qed.
Lemma blinding_ok c label n xes ys e : in_bounds c -> bytes_ok label -> Forall bytes_ok xes -> bytes_ok e ->
  match ys with None => True | Some ys => Forall bytes_ok ys end ->
  exists u v, newBlindingFactors f c label n xes ys e = Ret (c, (u, v)) /\ List.length u = 64%nat /\ List.length v = 64%nat /\ bytes_ok u /\ bytes_ok v.
Proof.
  intros H Hl Hx He Hy.
  assert (Hm : Forall (fun x => bytes_ok (fst x) /\ bytes_ok (snd x)) (witness_messages label n xes ys)).
  { unfold witness_messages. destruct (n =? 0)%nat; [constructor|]. constructor; [split; [assumption|now apply nth_bytes]|].
    apply Forall_app. split.
    - apply Forall_forall. intros x Hin. apply in_map_iff in Hin. destruct Hin as [i [<- _]]. split; [apply bfi_ok|now apply nth_bytes].
    - destruct ys as [ys|]; [|constructor]. apply Forall_forall. intros x Hin. apply in_map_iff in Hin. destruct Hin as [i [<- _]]. split; [apply bfi_ok|now apply nth_bytes]. }
  destruct (rng_ok c _ e 128 H Hm He) as [d [r [E [L [B _]]]]]. unfold newBlindingFactors.
  destruct (rng_commit_all f (rng_init c) _) as [r1| | |]; cbn [obind] in *; try discriminate.
  destruct (rng_finalize f r1 e) as [r2| | |]; cbn [obind] in *; try discriminate. rewrite E. cbn [obind fst snd].
  exists (firstn 64 d), (skipn 64 d). split; [reflexivity|]. rewrite firstn_length, skipn_length, L.
  rewrite <- (firstn_skipn 64 d) in B. apply Forall_app in B. destruct B. auto.
Qed.
Lemma prover_verifier calls : forall c, in_bounds c -> Forall pcall_ok calls -> pexec f c calls = exec f c (public calls).
Proof.
  induction calls as [|a calls IH]; intros c H Hc; [reflexivity|]. apply Forall_cons_iff in Hc. destruct Hc as [Ha Hc].
  destruct a as [[l m|l n]|l xes ys e]; cbn [pexec public exec pcall_ok] in *.
  - destruct (exec_bounds c [Append l m] H) as [o [c' [E B]]]; [constructor; [exact Ha|constructor]|]. cbn [exec] in E.
    destruct (commit_bytes f c l m) as [c1| | |]; cbn [obind] in *; try discriminate. injection E as _ ->. now apply IH.
  - destruct (exec_bounds c [Challenge l n] H) as [o [c' [E B]]]; [constructor; [exact Ha|constructor]|]. cbn [exec] in E.
    destruct (challenge_bytes f c l n) as [[d c1]| | |]; cbn [obind fst snd] in *; try discriminate. injection E as _ ->. now rewrite IH.
  - destruct Ha as [Hl [Hx [He Hy]]].
    destruct (blinding_ok c l (List.length xes) xes ys e H Hl Hx He) as [u [v [E _]]]; [destruct ys; tauto|]. rewrite E. cbn [obind fst]. now apply IH.
Qed.
End Hist.

(** *** Constraints *)
Lemma bfi_inj a b : 0 <= a < 2 ^ 64 -> 0 <= b < 2 ^ 64 -> bytesFromInt a = bytesFromInt b -> a = b.
Proof.
  rewrite !bytesFromInt_le. intros Ha Hb E. apply (f_equal le_val) in E.
  rewrite !le_val_bytes_small in E by assumption. exact E.
Qed.
Lemma bfi_length a : List.length (bytesFromInt a) = 8%nat. Proof. rewrite bytesFromInt_le. apply le_bytes_length. Qed.
Definition small_idx (x : Z * list Z) : Prop := 0 <= fst x < 2 ^ 31.
Lemma to_int_small z : 0 <= z < 2 ^ 31 -> to_int z mod 2 ^ 64 = z.
Proof. intros H. apply to_int_id; lia. Qed.
Lemma terms_parse (t t' : list (Z * list Z)) (e e' : list Z) (R R' : list (list Z * list Z)) :
  Forall small_idx t -> Forall small_idx t' ->
  map (fun x => (bytesFromInt (to_int (fst x) mod 2 ^ 64), snd x)) t ++ (lit "b", e) :: R =
  map (fun x => (bytesFromInt (to_int (fst x) mod 2 ^ 64), snd x)) t' ++ (lit "b", e') :: R' -> t = t' /\ e = e' /\ R = R'.
Proof.
  revert t'. induction t as [|[i s] t IH]; intros [|[i' s'] t'] H H' E; cbn [map app fst snd] in E.
  - injection E as -> ->. auto.
  - exfalso. apply (f_equal (fun l => List.length (fst (hd ([], []) l)))) in E. cbn [hd fst] in E. rewrite bfi_length in E. discriminate.
  - exfalso. apply (f_equal (fun l => List.length (fst (hd ([], []) l)))) in E. cbn [hd fst] in E. rewrite bfi_length in E. discriminate.
  - apply Forall_cons_iff in H. destruct H as [H1 H]. apply Forall_cons_iff in H'. destruct H' as [H1' H'].
    unfold small_idx in H1, H1'. cbn [fst] in H1, H1'. rewrite !to_int_small in E by assumption.
    remember (bytesFromInt i) as bi eqn:Hbi. remember (bytesFromInt i') as bi' eqn:Hbi'. injection E as E1 E2 E3. rewrite Hbi, Hbi' in E1.
    apply bfi_inj in E1; [|lia|lia]. destruct (IH t' H H' E3) as [-> [-> ->]]. subst. auto.
Qed.
Lemma lin_list_inj label cs : forall cs', Forall (fun c => Forall small_idx (fst c)) cs -> Forall (fun c => Forall small_idx (fst c)) cs' ->
  flat_map (fun c : lin_constraint => lin_messages label (fst c) (snd c)) cs =
  flat_map (fun c : lin_constraint => lin_messages label (fst c) (snd c)) cs' -> cs = cs'.
Proof.
  induction cs as [|[t e] cs IH]; intros [|[t' e'] cs'] H H' E; cbn [flat_map fst snd] in E; try discriminate; [reflexivity|].
  apply Forall_cons_iff in H. destruct H as [H1 H]. apply Forall_cons_iff in H'. destruct H' as [H1' H'].
  unfold lin_messages at 1 3 in E. rewrite <- !app_comm_cons, <- !app_assoc in E. cbn [app] in E. injection E as E.
  apply terms_parse in E; [|exact H1|exact H1']. destruct E as [-> [-> E]]. f_equal. now apply IH.
Qed.
Definition idx64 (i : Z) : Prop := 0 <= i < 2 ^ 64.
Lemma indexes_inj (l : list Z) : forall l', Forall idx64 l -> Forall idx64 l' -> flat_map bytesFromInt l = flat_map bytesFromInt l' -> l = l'.
Proof.
  induction l as [|i l IH]; intros [|i' l'] H H' E; cbn [flat_map] in E; [reflexivity| | |].
  - exfalso. apply (f_equal (@List.length Z)) in E. rewrite app_length, bfi_length in E. discriminate.
  - exfalso. apply (f_equal (@List.length Z)) in E. rewrite app_length, bfi_length in E. discriminate.
  - apply app_same_length in E; [|now rewrite !bfi_length]. destruct E as [E1 E2].
    apply Forall_cons_iff in H. destruct H as [H1 H]. apply Forall_cons_iff in H'. destruct H' as [H1' H'].
    apply bfi_inj in E1; [|assumption|assumption]. f_equal; [assumption|]. now apply IH.
Qed.
Lemma quad_list_inj label cs : forall cs', Forall (fun c => Forall idx64 (fst c)) cs -> Forall (fun c => Forall idx64 (fst c)) cs' ->
  flat_map (fun c : quad_constraint => quad_messages label (fst c) (snd c)) cs =
  flat_map (fun c : quad_constraint => quad_messages label (fst c) (snd c)) cs' -> cs = cs'.
Proof.
  induction cs as [|[t e] cs IH]; intros [|[t' e'] cs'] H H' E; cbn [flat_map fst snd] in E; try discriminate; [reflexivity|].
  apply Forall_cons_iff in H. destruct H as [H1 H]. apply Forall_cons_iff in H'. destruct H' as [H1' H'].
  unfold quad_messages at 1 3 in E. cbn [app] in E. injection E as E1 E2 E3. cbn [fst snd] in *.
  apply indexes_inj in E1; [|assumption|assumption]. subst. f_equal. now apply IH.
Qed.
Lemma commit_all_app f u : forall c v, commit_all f c (u ++ v) = obind (commit_all f c u) (fun c => commit_all f c v).
Proof.
  induction u as [|[l m] u IH]; intros c v; cbn [commit_all app obind]; [reflexivity|].
  destruct (commit_bytes f c l m) as [c1| | |]; cbn [obind]; try reflexivity. apply IH.
Qed.
Definition appends (ms : list (list Z * list Z)) : list call := map (fun x => Append (fst x) (snd x)) ms.
Lemma exec_appends f ms : forall c, exec f c (appends ms) = obind (commit_all f c ms) (fun c => Ret ([], c)).
Proof.
  induction ms as [|[l m] ms IH]; intros c; cbn [appends map commit_all exec fst snd obind]; [reflexivity|].
  destruct (commit_bytes f c l m) as [c1| | |]; cbn [obind]; try reflexivity. apply IH.
Qed.
Lemma appends_inj u : forall v, appends u = appends v -> u = v.
Proof.
  induction u as [|[l m] u IH]; intros [|[l' m'] v] E; cbn [appends map fst snd] in E; try discriminate; [reflexivity|].
  injection E as -> -> E. f_equal. now apply IH.
Qed.
Definition lins_messages label := flat_map (fun c : lin_constraint => lin_messages label (fst c) (snd c)).
Definition quads_messages label := flat_map (fun c : quad_constraint => quad_messages label (fst c) (snd c)).
Lemma processLins_all f label cs : forall c, processLins f c label cs = commit_all f c (lins_messages label cs).
Proof.
  induction cs as [|x cs IH]; intros c; cbn [processLins lins_messages flat_map]; [reflexivity|]. rewrite commit_all_app. unfold processLin.
  destruct (commit_all f c _) as [c1| | |]; cbn [obind]; try reflexivity. apply IH.
Qed.
Lemma processQuads_all f label cs : forall c, processQuads f c label cs = commit_all f c (quads_messages label cs).
Proof.
  induction cs as [|x cs IH]; intros c; cbn [processQuads quads_messages flat_map]; [reflexivity|]. rewrite commit_all_app. unfold processQuad.
  destruct (commit_all f c _) as [c1| | |]; cbn [obind]; try reflexivity. apply IH.
Qed.
Lemma messages_inj f c ms ms' l l' n n' c1 c1' d d' c2 c2' : perm_ok f -> in_bounds c ->
  Forall (fun x => bytes_ok (fst x) /\ bytes_ok (snd x)) ms -> Forall (fun x => bytes_ok (fst x) /\ bytes_ok (snd x)) ms' ->
  bytes_ok l -> bytes_ok l' ->
  commit_all f c ms = Ret c1 -> commit_all f c ms' = Ret c1' ->
  challenge_bytes f c1 l n = Ret (d, c2) -> challenge_bytes f c1' l' n' = Ret (d', c2') ->
  log c2 = log c2' -> ms = ms'.
Proof.
  intros Hf H M M' Bl Bl' E1 E1' E2 E2' EL.
  assert (OK : forall m q k, Forall (fun x => bytes_ok (fst x) /\ bytes_ok (snd x)) m -> bytes_ok q -> Forall call_ok (appends m ++ [Challenge q k])).
  { intros m q k Hm Hq. apply Forall_app. split; [|constructor; [exact Hq|constructor]]. unfold appends. apply Forall_forall. intros x Hx.
    apply in_map_iff in Hx. destruct Hx as [y [<- Hy]]. rewrite Forall_forall in Hm. exact (Hm y Hy). }
  assert (X : forall m q k a1 b a2, commit_all f c m = Ret a1 -> challenge_bytes f a1 q k = Ret (b, a2) ->
     exec f c (appends m ++ [Challenge q k]) = Ret ([b], a2)).
  { intros m q k a1 b a2 H1 H2. rewrite exec_app, exec_appends, H1. cbn [obind exec fst snd]. rewrite H2. reflexivity. }
  destruct (history_inj f Hf c _ _ l l' n n' _ _ c2 c2' H (OK _ _ _ M Bl) (OK _ _ _ M' Bl') (X _ _ _ _ _ _ E1 E2) (X _ _ _ _ _ _ E1' E2') EL) as [K _].
  now apply appends_inj.
Qed.
Definition lin_bytes (c : lin_constraint) : Prop := Forall (fun x => bytes_ok (snd x)) (fst c) /\ bytes_ok (snd c).
Definition quad_bytes (c : quad_constraint) : Prop := bytes_ok (snd c).
Lemma lins_messages_ok label cs : bytes_ok label -> Forall lin_bytes cs -> Forall (fun x => bytes_ok (fst x) /\ bytes_ok (snd x)) (lins_messages label cs).
Proof.
  intros Hl H. unfold lins_messages. apply Forall_forall. intros x Hx. apply in_flat_map in Hx. destruct Hx as [y [Hy Hx]].
  rewrite Forall_forall in H. destruct (H y Hy) as [H1 H2]. destruct Hx as [<-|Hx]; [split; [exact Hl|constructor]|].
  apply in_app_iff in Hx. destruct Hx as [Hx|[<-|[]]]; [|split; [apply lit_bytes|exact H2]].
  apply in_map_iff in Hx. destruct Hx as [z [<- Hz]]. split; [apply bfi_ok|]. rewrite Forall_forall in H1. exact (H1 z Hz).
Qed.
Lemma flat_bfi_ok l : bytes_ok (flat_map bytesFromInt l).
Proof. apply Forall_forall. intros x Hx. apply in_flat_map in Hx. destruct Hx as [y [_ Hx]]. pose proof (bfi_ok y) as K. unfold bytes_ok in K. rewrite Forall_forall in K. now apply K. Qed.
Lemma quads_messages_ok label cs : bytes_ok label -> Forall quad_bytes cs -> Forall (fun x => bytes_ok (fst x) /\ bytes_ok (snd x)) (quads_messages label cs).
Proof.
  intros Hl H. unfold quads_messages. apply Forall_forall. intros x Hx. apply in_flat_map in Hx. destruct Hx as [y [Hy Hx]].
  rewrite Forall_forall in H. specialize (H y Hy). destruct Hx as [<-|[<-|[<-|[]]]].
  - split; [exact Hl|constructor].
  - split; [apply lit_bytes|apply flat_bfi_ok].
  - split; [apply lit_bytes|exact H].
Qed.

Lemma two_draws f : perm_ok f -> exists label c r d r',
  bytes_ok label /\ transcript_init f label = Ret c /\
  rng_finalize f (rng_init c) (repeat 7 32) = Ret r /\
  rng_random_bytes f r 1 = Ret (d, r') /\ rng_random_bytes f r' 1 = Abort.
Proof.
  intros Hf. assert (Hl : bytes_ok [1]) by (repeat constructor; unfold is_byte; lia).
  destruct (run_ok f Hf [1] [] Hl (Forall_nil _)) as [o [c [E B]]].
  unfold run in E. apply obind_ret_inv in E. destruct E as [c0 [E0 E]]. cbn [exec] in E. injection E as _ ->.
  assert (He : bytes_ok (repeat 7 32)) by (apply Forall_forall; intros x Hx; apply repeat_spec in Hx; subst; unfold is_byte; lia).
  destruct (finalize_ok f Hf (rng_init c) (repeat 7 32) B eq_refl He) as [r [Er [Br [Fr Gr]]]].
  destruct (first_draw f Hf r 1 Br Fr Gr) as [d [r' [Ed _]]].
  exists [1], c, r, d, r'. repeat (split; [assumption|]). exact (second_draw f r 1 d r' Ed 1).
Qed.
