(** Proofs: complete proofs and main on the actual transcript, binding. *)
From Coq Require Import String.
From Coq Require Import ZArith List Lia Bool.
From Verif Require Import Outcome Bytes Fp FSum GroupMod Ring Prime25519 MerlinModel MerlinSpec MerlinMore ConstraintsModel PedersenModel BulletproofModel
  AlgebraModel AlgebraProofs TernaryModel RegevModel RegevPfModel RegevAggModel RegevRunModel ParamsModel MainModel SpongeModel FsSpec FsProofs FsMore SimProofs TransSpec HashSpec HashProofs HashTrace.
Import ListNotations.
Open Scope Z_scope.

Section Main.
Context {p : Z} {ell : nat} {G : gmod p}.
Variables R1 R2 : rmerlin G.
Variable rel : mst R1 -> mst R2 -> Prop.
Hypothesis HS : simulates R1 R2 rel.
Hypothesis HB : forall a b l n, rel a b -> crel rel (rm_bytes R1 a l n) (rm_bytes R2 b l n).
Hypothesis HC : forall a b l m, rel a b -> rel (rm_commit R1 a l m) (rm_commit R2 b l m).
Definition relib (lb : libs R1) (m : mst R2) : libs R2 :=
  Libs (l_jac lb) (l_pp lb) (l_sp lb) (l_ker lb) (l_base lb) (l_getG lb) (l_getH lb) m (l_pick lb) (l_com lb) (l_rnd lb).
Definition qrel (a : list nat * cfg ell G * @pstate p ell G R1 * round p ell) (b : list nat * cfg ell G * @pstate p ell G R2 * round p ell) : Prop :=
  fst (fst (fst a)) = fst (fst (fst b)) /\ snd (fst (fst a)) = snd (fst (fst b)) /\ prel R1 R2 rel (snd (fst a)) (snd (fst b)) /\ snd a = snd b.
Lemma sim_mainPrepare lb m f bits JL LY SJ k n s1 s2 (tp : tape p ell) : rel (l_mer lb) m ->
  omatch qrel (mainPrepare R1 lb f bits JL LY SJ k n s1 s2 tp) (mainPrepare R2 (relib lb m) f bits JL LY SJ k n s1 s2 tp).
Proof.
  intros H. unfold mainPrepare. cbn [relib l_jac l_pp l_sp l_ker l_base l_getG l_getH l_pick l_com l_rnd].
  apply omatch_same. intros gpk _. apply omatch_same. intros M _. cbv zeta. apply omatch_same. intros b _. apply omatch_same. intros idx _.
  apply omatch_same. intros [gpk1 keys] _. apply omatch_same. intros cts _. apply omatch_same. intros [sk kgn] _. apply omatch_same. intros dec _.
  apply omatch_same. intros errs _. apply omatch_same. intros pt3 _. apply omatch_same. intros [[[[[ct1 ct2] er] n1] n2] d] _. apply omatch_same. intros ctM _.
  apply omatch_same. intros ctV _.
  eapply omatch_bind.
  - apply (sim_key0 R1 R2 rel). split; [reflexivity|exact H].
  - intros s t K. apply omatch_same. intros lag _. cbn. split; [reflexivity|]. split; [reflexivity|]. split; [exact K|reflexivity].
Qed.
Lemma sim_mainRun lb m f bits JL LY SJ k n s1 s2 (tp : tape p ell) : rel (l_mer lb) m ->
  mainRun R1 lb f bits JL LY SJ k n s1 s2 tp = mainRun R2 (relib lb m) f bits JL LY SJ k n s1 s2 tp.
Proof.
  intros H. apply omatch_eq. unfold mainRun. eapply omatch_bind; [apply (sim_mainPrepare lb m); exact H|].
  intros [[[errs c] s] i] [[[errs' c'] t] i'] (E1 & E2 & K & E3). change (errs = errs') in E1. change (c = c') in E2. change (i = i') in E3. subst errs' c' i'. cbn [fst snd] in K.
  eapply omatch_bind; [apply (sim_round R1 R2 rel HS HB HC c (l_pick lb) s t i K)|].
  intros [s3 ok] [t3 ok'] [_ E]. change (ok = ok') in E. subst ok'. reflexivity.
Qed.
End Main.

Section S.
Variable f : list Z -> list Z.
Hypothesis Hf : perm_ok f.
Context {p : Z} {ell : nat} {G : gmod p}.
Variable pbytes : G -> list Z.
Hypothesis Hpb : forall g, bytes_ok (pbytes g).
Variable uniform : list Z -> G.
Notation R := (real_regev f Hf pbytes Hpb uniform).
Notation H s := (hashing pbytes uniform f (strobe_of (s : context))).
Notation pstate := (@pstate p ell G R).
Lemma reached_nil (s : context) : reached f Hf pbytes Hpb uniform (strobe_of s) s ([] : list (item G)).
Proof. exists []. reflexivity. Qed.
Lemma start (st : pstate) : prel R (H (pmer st)) (reached f Hf pbytes Hpb uniform (strobe_of (pmer st : context))) st (with_transcript st ([] : mst (H (pmer st)))).
Proof. split; [reflexivity|]. apply reached_nil. Qed.
Lemma hash_rounds (c : cfg ell G) pick (st : pstate) is :
  agree (fun (a : pstate * list (bool * bool)) (b : @RegevPfModel.pstate p ell G (H (pmer st)) * list (bool * bool)) => snd a = snd b /\ fst b = with_transcript (fst a) (pmer (fst b)) /\
      exists outs, exec f (strobe_of (pmer st : context)) (history_calls pbytes (pmer (fst b))) = Ret (outs, strobe_of (pmer (fst a) : context)))
    (proofRounds R c pick st is) (proofRounds (H (pmer st)) c pick (with_transcript (R' := H (pmer st)) st []) is).
Proof.
  pose proof (sim_rounds R (H (pmer st)) _ (real_simulates f Hf pbytes Hpb uniform _) (real_bytes f Hf pbytes Hpb uniform _) (real_commit f Hf pbytes Hpb uniform _) c pick is _ _ (start st)) as K.
  destruct (proofRounds R c pick st is) as [[s oks]| | |], (proofRounds (H (pmer st)) c pick (with_transcript (R' := H (pmer st)) st []) is) as [[t oks']| | |]; cbn [omatch] in K; try contradiction; try exact I.
  destruct K as [[E K] E']. cbn [agree fst snd] in *. split; [exact E'|]. split; [exact E|exact K].
Qed.
Lemma hash_steps (Hp : 2 <= p) (c : cfg ell G) (st s : pstate) i : proofSteps R c st i = Ret s ->
  exists outs, exec f (strobe_of (pmer st : context)) (history_calls pbytes (steps_items c (pcom s) (pz s))) = Ret (outs, strobe_of (pmer s : context)).
Proof.
  intros E. pose proof (sim_steps R (H (pmer st)) _ (real_simulates f Hf pbytes Hpb uniform _) (real_bytes f Hf pbytes Hpb uniform _) (real_commit f Hf pbytes Hpb uniform _) c _ _ i (start st)) as K.
  rewrite E in K. destruct (proofSteps (H (pmer st)) c (with_transcript (R' := H (pmer st)) st []) i) as [t| | |] eqn:Et; cbn [omatch] in K; try contradiction.
  destruct K as [Es K]. apply (steps_exact Hp) in Et. cbn [with_transcript pmer app] in Et. rewrite Es in Et. cbn [moved pmer pcom pz] in Et. destruct K as [outs K]. exists outs.
  change (pmer t : list (item G)) with (pmer t : list (item G)) in K. rewrite <- Et. exact K.
Qed.

(** *** Binding. *)
Lemma app_inj_len {A} (a : list A) : forall a' b b', length a = length a' -> a ++ b = a' ++ b' -> a = a' /\ b = b'.
Proof.
  induction a as [|x a IH]; intros [|x' a'] b b' L E; try discriminate L; [now split|]. injection E as -> E. injection L as L. destruct (IH _ _ _ L E) as [-> ->]. now split.
Qed.
Definition msgs (l : list call) : list (list Z) := flat_map (fun a => match a with Append _ m => [m] | _ => [] end) l.
Lemma elt_bytes_range (Hp : 2 <= p) (e : elt p ell) : map (fun z => z mod 256) (elt_bytes e) = elt_bytes e.
Proof.
  unfold elt_bytes. rewrite concat_map, map_map. f_equal. apply map_ext. intros i. rewrite <- (map_id (le_bytes _ _)) at 2. apply map_ext_in. intros z Hz.
  apply Z.mod_small. exact (proj1 (Forall_forall _ _) (le_bytes_ok _ _) z Hz).
Qed.
Lemma elt_bytes_inj (Hp : 2 <= p) (e e' : elt p ell) : elt_bytes e = elt_bytes e' -> e = e'.
Proof.
  intros E. rewrite <- !(elt_bytes_eq Hp) in E. assert (A := proj2 (element_roundtrip Hp e (bytesPerScalar p * ell) ltac:(lia))).
  rewrite E, (proj2 (element_roundtrip Hp e' (bytesPerScalar p * ell) ltac:(lia))) in A. now injection A as ->.
Qed.
Lemma reply_msgs (Hp : 2 <= p) (z : list (elt p ell)) : msgs (history_calls pbytes (reply_items z)) = map elt_bytes z.
Proof.
  destruct z as [|e z]; [reflexivity|]. cbn [reply_items history_calls flat_map item_calls app msgs map]. rewrite (elt_bytes_range Hp). f_equal.
  induction z as [|e' z IH]; [reflexivity|]. cbn [map flat_map item_calls app]. rewrite (elt_bytes_range Hp). f_equal. exact IH.
Qed.
Lemma msgs_app a b : msgs (a ++ b) = msgs a ++ msgs b. Proof. apply flat_map_app. Qed.
Lemma steps_msgs (Hp : 2 <= p) (c : cfg ell G) com z : msgs (history_calls pbytes (steps_items c com z)) = map (fun x => pbytes (com x)) sent ++ map elt_bytes z.
Proof.
  unfold steps_items. cbv zeta. rewrite !history_app, !msgs_app, (reply_msgs Hp), !app_assoc. unfold history_calls, msgs.
  cbn [flat_map item_calls app]. rewrite app_nil_r. reflexivity.
Qed.
Lemma steps_last (c : cfg ell G) com z : exists cs, history_calls pbytes (steps_items c com z) = cs ++ [Challenge (lit "SmallnessChallenge") (elt_size (p := p) (ell := ell))].
Proof.
  unfold steps_items. cbv zeta. rewrite !app_assoc, history_app. eexists. reflexivity.
Qed.
Lemma steps_calls_ok (c : cfg ell G) com z : Forall call_ok (history_calls pbytes (steps_items c com z)).
Proof.
  assert (A : forall l, Forall (fun i : item G => match i with IPoint _ _ | ICommit _ _ | IBytes _ _ => True | _ => False end) l -> Forall call_ok (history_calls pbytes l)).
  { induction 1 as [|i l Hi Hl IH]; [constructor|]. unfold history_calls. cbn [flat_map]. apply Forall_app. split; [|exact IH].
    destruct i; cbn [item_calls]; try contradiction; constructor; try constructor; try apply lit_bytes; try apply Hpb.
    unfold bytes_ok. rewrite Forall_map. apply Forall_forall. intros x _. apply Z.mod_pos_bound. reflexivity. }
  apply A. unfold steps_items. cbv zeta. rewrite !Forall_app. repeat split; try (repeat constructor).
  destruct z as [|e z]; cbn [reply_items]; constructor; [exact I|]. rewrite Forall_map. apply Forall_forall. intros x _. exact I.
Qed.
Lemma hash_binding (Hp : 2 <= p) (Hi : forall g h, pbytes g = pbytes h -> g = h) (c c' : cfg ell G) (st s st' s' : pstate) i i' tag tag' pre pre' o o' :
  run f (lit tag) pre = Ret (o, strobe_of (pmer st : context)) -> run f (lit tag') pre' = Ret (o', strobe_of (pmer st' : context)) ->
  Forall call_ok pre -> Forall call_ok pre' -> length pre = length pre' ->
  proofSteps R c st i = Ret s -> proofSteps R c' st' i' = Ret s' ->
  log (strobe_of (pmer s : context)) = log (strobe_of (pmer s' : context)) ->
  lit tag = lit tag' /\ pre = pre' /\ map (pcom s) sent = map (pcom s') sent /\ pz s = pz s' /\
  strobe_of (pmer s : context) = strobe_of (pmer s' : context).
Proof.
  intros E E' B B' L K K' EL. apply (hash_steps Hp) in K as [u K]. apply (hash_steps Hp) in K' as [u' K'].
  destruct (steps_last c (pcom s) (pz s)) as [cs Q], (steps_last c' (pcom s') (pz s')) as [cs' Q'].
  assert (W : forall tag pre o (x : context) c com z u y, run f (lit tag) pre = Ret (o, strobe_of x) -> exec f (strobe_of x) (history_calls pbytes (steps_items c com z)) = Ret (u, y) ->
     run f (lit tag) (pre ++ history_calls pbytes (steps_items (ell := ell) c com z)) = Ret (o ++ u, y)).
  { clear. intros tag pre o x c com z u y A B. unfold run in *. destruct (transcript_init f (lit tag)) as [t| | |]; try discriminate. cbn [obind] in *. exact (exec_more f _ _ _ _ _ _ _ A B). }
  pose proof (W _ _ _ _ _ _ _ _ _ E K) as V. pose proof (W _ _ _ _ _ _ _ _ _ E' K') as V'. 
  assert (O : Forall call_ok (pre ++ history_calls pbytes (steps_items c (pcom s) (pz s)))) by (apply Forall_app; split; [exact B|apply steps_calls_ok]).
  assert (O' : Forall call_ok (pre' ++ history_calls pbytes (steps_items c' (pcom s') (pz s')))) by (apply Forall_app; split; [exact B'|apply steps_calls_ok]).
  pose proof V as V0. pose proof V' as V0'.
  rewrite Q, app_assoc in V, O. rewrite Q', app_assoc in V', O'.
  destruct (run_inj f Hf _ _ _ _ _ _ _ _ _ _ _ _ (lit_bytes tag) (lit_bytes tag') O O' V V' EL) as (T & EC & _ & _).
  apply app_inj_len in EC as [EP EC]; [|exact L]. split; [exact T|]. split; [exact EP|].
  assert (M : history_calls pbytes (steps_items c (pcom s) (pz s)) = history_calls pbytes (steps_items c' (pcom s') (pz s'))) by (rewrite Q, Q', EC; reflexivity).
  assert (N := f_equal msgs M). rewrite !(steps_msgs Hp) in N. apply app_inj_len in N as [N1 N2]; [|now rewrite !map_length].
  split; [|split].
  - revert N1. generalize sent. induction l as [|x l IH]; intros N1; [reflexivity|]. cbn [map] in *. injection N1 as N1 N3. apply Hi in N1. now rewrite N1, (IH N3).
  - revert N2. generalize (pz s) (pz s'). induction l as [|x l IH]; intros [|y l'] N2; try discriminate; [reflexivity|]. cbn [map] in N2. injection N2 as N2 N3. apply (elt_bytes_inj Hp) in N2. now rewrite N2, (IH l' N3).
  - rewrite T, EP, M, V0' in V0. now injection V0 as _ <-.
Qed.
End S.

Section M.
Variable f : list Z -> list Z.
Hypothesis Hf : perm_ok f.
Context {G : gmod P25519}.
Variable pbytes : G -> list Z.
Hypothesis Hpb : forall g, bytes_ok (pbytes g).
Variable uniform : list Z -> G.
Notation R := (real_regev f Hf pbytes Hpb uniform).
Lemma hash_main (lb : libs R) fp arg tp : main R lb fp arg tp = main (hashing pbytes uniform f (strobe_of (l_mer lb : context))) (with_libs (R' := hashing pbytes uniform f (strobe_of (l_mer lb : context))) lb []) fp arg tp.
Proof.
  unfold main. destruct (setParams fp 252 2 (parties arg)) as [[[k s1] s2]| | |]; try reflexivity. cbn [obind].
  exact (sim_mainRun R (hashing pbytes uniform f (strobe_of (l_mer lb : context))) _ (real_simulates f Hf pbytes Hpb uniform _) (real_bytes f Hf pbytes Hpb uniform _) (real_commit f Hf pbytes Hpb uniform _)
    lb [] fp 252 256%nat 128%nat 16 k (parties arg) s1 s2 tp (reached_nil f Hf pbytes Hpb uniform (l_mer lb))).
Qed.
Lemma init_run tag : run f (lit tag) [] = Ret ([], strobe_of (real_init f Hf tag)).
Proof. unfold run, real_init. rewrite (next_ret _ (start_ok f Hf (lit tag) (lit_bytes tag))) at 1. reflexivity. Qed.
End M.
