(** Proofs: whole proofs on the actual transcript, and what their transcript determines. *)
From Coq Require Import String Ascii.
From Coq Require Import ZArith List Lia Bool.
From Verif Require Import Outcome Bytes Fp GroupMod MerlinModel MerlinSpec MerlinMore ConstraintsModel ConstraintsSpec PedersenModel PedersenProofs BulletproofModel
  BulletproofApi RegevPfModel SpongeModel FsSpec FsProofs.
Import ListNotations.
Open Scope Z_scope.

Lemma flat_dec n : {flat_ok n} + {~ flat_ok n}.
Proof.
  unfold flat_ok. destruct (le_dec 1 n) as [A|A]; [|right; lia]. destruct (Z_le_gt_dec (Z.of_nat n) (2 ^ 20)); [left|right]; lia.
Qed.
Lemma lit_inj s : forall s', lit s = lit s' -> s = s'.
Proof.
  unfold lit. induction s as [|a s IH]; intros [|b s'] E; cbn [list_ascii_of_string map] in E; try discriminate; [reflexivity|].
  injection E as E1 E2. apply Nat2Z.inj in E1. apply (f_equal ascii_of_nat) in E1. rewrite !ascii_nat_embedding in E1. subst b. now rewrite (IH s' E2).
Qed.

Section S.
Variable f : list Z -> list Z.
Hypothesis Hf : perm_ok f.
Context {p : Z} {G : gmod p}.
Variable pbytes : G -> list Z.
Hypothesis Hpb : forall g, bytes_ok (pbytes g).
Variable uniform : list Z -> G.
Notation real := (real f Hf pbytes Hpb uniform).
Notation real_init := (real_init f Hf).
Notation replay := (@replay p G uniform).
Notation F := (Fp p).
Variable base : G.
Variable hash : string -> G.

Lemma rounds_ok Ls : forall n Rs, Forall call_ok (round_calls pbytes n Ls Rs).
Proof.
  induction Ls as [|L Ls IH]; intros n [|R Rs]; cbn [round_calls]; try constructor; try apply Forall_nil.
  - split; [apply lit_bytes|apply Hpb].
  - constructor; [split; [apply lit_bytes|apply Hpb]|]. constructor; [apply lit_bytes|apply IH].
Qed.
Lemma open_ok C : Forall call_ok (open_calls pbytes C).
Proof. constructor; [split; [apply lit_bytes|apply Hpb]|]. constructor; [apply lit_bytes|constructor]. Qed.
Lemma lin_calls_ok (c : lincon p) : Forall call_ok (lin_calls c).
Proof.
  unfold lin_calls. constructor; [split; [apply lit_bytes|constructor]|]. apply Forall_app. split.
  - rewrite Forall_map. apply Forall_forall. intros t _. split; apply le_bytes_ok.
  - constructor; [split; [apply lit_bytes|apply le_bytes_ok]|constructor].
Qed.
Lemma concat_le_ok l : bytes_ok (concat (map (le_bytes 8) l)).
Proof. induction l as [|a l IH]; cbn [map concat]; [constructor|]. apply Forall_app. split; [apply le_bytes_ok|exact IH]. Qed.
Lemma quad_calls_ok l (c : quadcon p) : Forall call_ok (quad_calls l c).
Proof.
  unfold quad_calls. constructor; [split; [apply lit_bytes|constructor]|]. constructor; [split; [apply lit_bytes|apply concat_le_ok]|].
  constructor; [split; [apply lit_bytes|apply le_bytes_ok]|constructor].
Qed.
Lemma quad_rest_ok n (pf : quadpf G) : Forall call_ok (quad_rest pbytes n pf).
Proof.
  unfold quad_rest. apply Forall_app. split; [apply open_ok|]. apply Forall_app. split; [apply rounds_ok|].
  constructor; [split; [apply lit_bytes|apply Hpb]|]. constructor; [split; [apply lit_bytes|apply Hpb]|]. constructor; [apply lit_bytes|constructor].
Qed.
Lemma lin_history_ok c (pf : linpf G) : Forall call_ok (linear_history pbytes c pf).
Proof.
  unfold linear_history. apply Forall_app. split; [apply lin_calls_ok|]. apply Forall_app. split; [apply open_ok|]. apply Forall_app. split; [apply rounds_ok|].
  constructor; [split; [apply lit_bytes|apply Hpb]|]. constructor; [apply lit_bytes|constructor].
Qed.
Lemma quad_history_ok c (pf : quadpf G) : Forall call_ok (quadratic_history pbytes c pf).
Proof. unfold quadratic_history. apply Forall_app. split; [apply quad_calls_ok|apply quad_rest_ok]. Qed.
Lemma norm_history_ok c (pf : quadpf G) : Forall call_ok (norm_history pbytes c pf).
Proof.
  unfold norm_history. apply Forall_app. split; [apply quad_calls_ok|]. apply Forall_app.
  split; [constructor; [apply lit_bytes|constructor]|apply quad_rest_ok].
Qed.
Lemma flat63 n : flat_ok n -> (1 <= n)%nat /\ Z.of_nat n <= 2 ^ 63.
Proof. intros [A B]. split; [exact A|]. assert (2 ^ 20 < 2 ^ 63) by reflexivity. lia. Qed.
Lemma flatLin_inv tag (c : lincon p) xes s : flatLin hash tag c xes = Ret s -> flat_ok (length (lterms c)) /\ length (fl_gens s) = length (lterms c).
Proof.
  intros E. destruct (flat_dec (length (lterms c))) as [A|A]; [|rewrite (flatLin_throw hash tag c xes (or_introl A)) in E; discriminate].
  split; [exact A|]. assert (xes = [] \/ keys xes = keys (lterms c)) as K.
  { destruct (list_eq_dec Z.eq_dec (keys xes) (keys (lterms c))) as [B|B]; [right; exact B|]. destruct xes as [|x xes]; [left; reflexivity|].
    rewrite (flatLin_throw hash tag c (x :: xes)) in E; [discriminate|]. right. split; [discriminate|exact B]. }
  rewrite (flatLin_ret hash tag c xes A K) in E. injection E as <-. cbn [fl_gens]. unfold keys. now rewrite !map_length.
Qed.
Lemma flatQuad_inv tag (c : quadcon p) xs ys s : flatQuad hash tag c xs ys = Ret s -> flat_ok (length (qidx c)) /\ length (fq_gs s) = length (qidx c).
Proof.
  intros E. destruct (flat_dec (length (qidx c))) as [A|A]; [|rewrite (flatQuad_throw hash tag c xs ys (or_introl A)) in E; discriminate].
  split; [exact A|]. assert ((xs = [] /\ ys = []) \/ (keys xs = qidx c /\ keys ys = qidx c)) as K.
  { destruct (list_eq_dec Z.eq_dec (keys xs) (qidx c)) as [B|B]; destruct (list_eq_dec Z.eq_dec (keys ys) (qidx c)) as [B'|B'];
      [right; now split| | |];
      (destruct xs as [|x xs]; [destruct ys as [|y ys]; [left; now split|]|];
       rewrite flatQuad_throw in E; [discriminate|right; split; [first [left; discriminate|right; discriminate]|tauto]|
                                     discriminate|right; split; [first [left; discriminate|right; discriminate]|tauto]]). }
  rewrite (flatQuad_ret hash tag c xs ys A K) in E. injection E as <-. cbn [fq_gs]. now rewrite map_length.
Qed.

Theorem lin_verify tag (c : lincon p) (pf : linpf G) : Forall (fun t => 0 <= fst t < 2 ^ 31) (lterms c) ->
  length (lpLs pf) = log2roundUpN (length (lterms c)) -> length (lpRs pf) = log2roundUpN (length (lterms c)) ->
  exists outs ce, run f (lit tag) (linear_history pbytes c pf) = Ret (outs, ce) /\
    verifyLinearTag base real hash real_init tag c pf = verifyLinearTag base replay hash (fun _ => outs) tag c pf.
Proof.
  intros Hi KL KR. destruct (run_ok f Hf (lit tag) _ (lit_bytes tag) (lin_history_ok c pf)) as (outs & ce & E & _).
  exists outs, ce. split; [exact E|]. rewrite (run_real f Hf) in E. unfold linear_history in E. rewrite (sim_lin f Hf pbytes Hpb uniform _ c _ Hi) in E.
  unfold verifyLinearTag. destruct (flatLin hash tag c []) as [s| | |] eqn:Es; try reflexivity. cbn [obind].
  destruct (flatLin_inv tag c [] s Es) as [A B]. destruct (flat63 _ A) as [A1 A2]. rewrite B.
  change (m_lin replay outs "constraint" c) with outs.
  apply (vl_sim f Hf pbytes Hpb uniform base _ outs ce pf _ _ _ _ _ [] A1 A2 KL KR). rewrite app_nil_r. exact E.
Qed.
Theorem lin_prove tag (c : lincon p) xes r bl blS (pf : linpf G) : Forall (fun t => 0 <= fst t < 2 ^ 31) (lterms c) ->
  proveLinearTag base real hash real_init tag c xes r bl blS = Ret pf ->
  length (lpLs pf) = log2roundUpN (length (lterms c)) /\ length (lpRs pf) = log2roundUpN (length (lterms c)) /\
  exists outs ce, run f (lit tag) (linear_history pbytes c pf) = Ret (outs, ce) /\
    proveLinearTag base replay hash (fun _ => outs) tag c xes r bl blS = Ret pf.
Proof.
  intros Hi H. unfold proveLinearTag in H. apply obind_ret_inv in H. destruct H as (s & Es & H). apply obind_ret_inv in H. destruct H as (C & EC & H).
  destruct (flatLin_inv tag c xes s Es) as [A B]. destruct (flat63 _ A) as [A1 A2]. rewrite B in EC, H.
  destruct (pl_sim f Hf pbytes Hpb uniform base _ _ _ _ _ _ _ _ _ pf A1 A2 H) as (K & KL & KR & S).
  split; [exact KL|]. split; [exact KR|].
  destruct (run_ok f Hf (lit tag) _ (lit_bytes tag) (lin_history_ok c pf)) as (outs & ce & E & _).
  exists outs, ce. split; [exact E|]. rewrite (run_real f Hf) in E. unfold linear_history in E. rewrite (sim_lin f Hf pbytes Hpb uniform _ c _ Hi) in E.
  unfold proveLinearTag. rewrite Es. cbn [obind]. rewrite B, EC. cbn [obind]. change (m_lin replay outs "constraint" c) with outs.
  apply (S outs ce []). rewrite app_nil_r. exact E.
Qed.
Theorem quad_verify tag (c : quadcon p) (pf : quadpf G) :
  length (qpLs pf) = log2roundUpN (length (qidx c)) -> length (qpRs pf) = log2roundUpN (length (qidx c)) ->
  exists outs ce, run f (lit tag) (quadratic_history pbytes c pf) = Ret (outs, ce) /\
    verifyQuadraticTag base real hash real_init tag c pf = verifyQuadraticTag base replay hash (fun _ => outs) tag c pf.
Proof.
  intros KL KR. destruct (run_ok f Hf (lit tag) _ (lit_bytes tag) (quad_history_ok c pf)) as (outs & ce & E & _).
  exists outs, ce. split; [exact E|]. rewrite (run_real f Hf) in E. unfold quadratic_history in E. rewrite (sim_quad f Hf pbytes Hpb uniform) in E.
  unfold verifyQuadraticTag. destruct (flatQuad hash tag c [] []) as [s| | |] eqn:Es; try reflexivity. cbn [obind].
  destruct (flatQuad_inv tag c [] [] s Es) as [A B]. destruct (flat63 _ A) as [A1 A2]. rewrite B.
  change (m_quad replay outs "constraint" c) with outs.
  apply (vq_sim f Hf pbytes Hpb uniform base _ outs ce pf _ _ _ _ _ _ [] A1 A2 KL KR). rewrite app_nil_r. exact E.
Qed.
Theorem quad_prove tag (c : quadcon p) xs ys r bl blST blUV (pf : quadpf G) :
  proveQuadraticTag base real hash real_init tag c xs ys r bl blST blUV = Ret pf ->
  length (qpLs pf) = log2roundUpN (length (qidx c)) /\ length (qpRs pf) = log2roundUpN (length (qidx c)) /\
  exists outs ce, run f (lit tag) (quadratic_history pbytes c pf) = Ret (outs, ce) /\
    proveQuadraticTag base replay hash (fun _ => outs) tag c xs ys r bl blST blUV = Ret pf.
Proof.
  intros H. unfold proveQuadraticTag in H. apply obind_ret_inv in H. destruct H as (s & Es & H). apply obind_ret_inv in H. destruct H as (C & EC & H).
  destruct (flatQuad_inv tag c xs ys s Es) as [A B]. destruct (flat63 _ A) as [A1 A2]. rewrite B in EC, H.
  destruct (pq_sim f Hf pbytes Hpb uniform base _ _ _ _ _ _ _ _ _ _ _ pf A1 A2 H) as (K & KL & KR & S).
  split; [exact KL|]. split; [exact KR|].
  destruct (run_ok f Hf (lit tag) _ (lit_bytes tag) (quad_history_ok c pf)) as (outs & ce & E & _).
  exists outs, ce. split; [exact E|]. rewrite (run_real f Hf) in E. unfold quadratic_history in E. rewrite (sim_quad f Hf pbytes Hpb uniform) in E.
  unfold proveQuadraticTag. rewrite Es. cbn [obind]. rewrite B, EC. cbn [obind]. change (m_quad replay outs "constraint" c) with outs.
  apply (S outs ce []). rewrite app_nil_r. exact E.
Qed.
Theorem norm_verify tag idxs (q : F) (pf : quadpf G) :
  length (qpLs pf) = log2roundUpN (length idxs) -> length (qpRs pf) = log2roundUpN (length idxs) ->
  exists outs ce, run f (lit tag) (norm_history pbytes (QuadCon idxs q) pf) = Ret (outs, ce) /\
    verifyNormSquared base real hash real_init tag idxs q pf = verifyNormSquared base replay hash (fun _ => outs) tag idxs q pf.
Proof.
  intros KL KR. destruct (run_ok f Hf (lit tag) _ (lit_bytes tag) (norm_history_ok (QuadCon idxs q) pf)) as (outs & ce & E & _).
  exists outs, ce. split; [exact E|]. rewrite (run_real f Hf) in E. unfold norm_history in E. rewrite (sim_quad f Hf pbytes Hpb uniform) in E.
  cbn [app] in E. apply (sim_chal f Hf pbytes Hpb uniform) in E. destruct E as (x & s1 & ds1 & X1 & X2 & E).
  unfold verifyNormSquared. destruct (flatQuad hash tag (QuadCon idxs q) [] []) as [s| | |] eqn:Es; try reflexivity. cbn [obind].
  destruct (flatQuad_inv tag _ [] [] s Es) as [A B]. destruct (flat63 _ A) as [A1 A2]. cbn [qidx] in A1, A2, B, E. rewrite B, X1.
  change (m_quad replay outs "normSquared" (QuadCon idxs q)) with outs. rewrite X2.
  apply (vq_sim f Hf pbytes Hpb uniform base _ ds1 ce pf _ _ _ _ _ _ [] A1 A2 KL KR). rewrite app_nil_r. exact E.
Qed.
Theorem norm_prove tag (vec : pvec p) r bl blST blUV e (pf : quadpf G) :
  proveNormSquared base real hash tag (real_init tag) vec r bl blST blUV = Ret (e, pf) ->
  length (qpLs pf) = log2roundUpN (length vec) /\ length (qpRs pf) = log2roundUpN (length vec) /\
  exists outs ce, run f (lit tag) (norm_history pbytes (QuadCon (keys vec) e) pf) = Ret (outs, ce) /\
    proveNormSquared base replay hash tag outs vec r bl blST blUV = Ret (e, pf).
Proof.
  intros H. unfold proveNormSquared in H. set (c := QuadCon (map fst vec) _) in H. apply obind_ret_inv in H. destruct H as (s & Es & H).
  destruct (m_chal real (m_quad real (real_init tag) "normSquared" c) "x") as [x s1] eqn:Ex.
  apply obind_ret_inv in H. destruct H as ([[wG wH] e1] & En & H). apply obind_ret_inv in H. destruct H as (C & EC & H).
  apply obind_ret_inv in H. destruct H as (pf' & Ep & H). injection H as He ->.
  destruct (flatQuad_inv tag c vec vec s Es) as [A B]. destruct (flat63 _ A) as [A1 A2]. rewrite B in EC, Ep.
  destruct (pq_sim f Hf pbytes Hpb uniform base _ _ _ _ _ _ _ _ _ _ _ pf A1 A2 Ep) as (K & KL & KR & S).
  assert (Ln : length (qidx c) = length vec) by apply map_length. rewrite Ln in KL, KR.
  split; [exact KL|]. split; [exact KR|].
  assert (Ec : QuadCon (keys vec) e = c) by (rewrite <- He; reflexivity). rewrite Ec.
  destruct (run_ok f Hf (lit tag) _ (lit_bytes tag) (norm_history_ok c pf)) as (outs & ce & E & _).
  exists outs, ce. split; [exact E|]. rewrite (run_real f Hf) in E. unfold norm_history in E. rewrite (sim_quad f Hf pbytes Hpb uniform) in E.
  cbn [app] in E. apply (sim_chal f Hf pbytes Hpb uniform) in E. destruct E as (x' & s1' & ds1 & X1 & X2 & E). rewrite Ex in X1. injection X1 as <- <-.
  unfold proveNormSquared. fold c. rewrite Es. cbn [obind]. change (m_quad replay outs "normSquared" c) with outs. rewrite X2, En. cbn [obind].
  rewrite B, EC. cbn [obind]. rewrite (S ds1 ce []) by (rewrite app_nil_r; exact E). cbn [obind]. rewrite <- He. reflexivity.
Qed.

Theorem lin_both tag (c : lincon p) xes r bl blS (pf : linpf G) : Forall (fun t => 0 <= fst t < 2 ^ 31) (lterms c) ->
  proveLinearTag base real hash real_init tag c xes r bl blS = Ret pf ->
  exists outs ce, run f (lit tag) (linear_history pbytes c pf) = Ret (outs, ce) /\
    proveLinearTag base replay hash (fun _ => outs) tag c xes r bl blS = Ret pf /\
    verifyLinearTag base real hash real_init tag c pf = verifyLinearTag base replay hash (fun _ => outs) tag c pf.
Proof.
  intros Hi H. destruct (lin_prove tag c xes r bl blS pf Hi H) as (KL & KR & outs & ce & R & P). destruct (lin_verify tag c pf Hi KL KR) as (outs' & ce' & R' & V).
  rewrite R in R'. injection R' as <- <-. exists outs, ce. now repeat split.
Qed.
Lemma run_outs tag cs outs ce : Forall call_ok cs -> run f (lit tag) cs = Ret (outs, ce) ->
  map (@length Z) outs = flat_map (fun a => match a with Append _ _ => [] | Challenge _ n => [n] end) cs.
Proof.
  intros Hc R. rewrite (run_real f Hf) in R. assert (X := exec_outs f Hf cs _ _ _ R (strobe_ok _) Hc). clear - X.
  induction X as [|d n u v [H _] _ IH]; [reflexivity|]. cbn [map]. now rewrite H, IH.
Qed.
Theorem calls_real (s : context) l : let one a := exec f (strobe_of s) [a] in
  (forall g, one (Append (lit l) (pbytes g)) = Ret ([], strobe_of (m_point real s l g))) /\
  (forall x : F, one (Append (lit l) (le_bytes 32 (fval x))) = obind (processScalar f (strobe_of s) (lit l) (sbytes x)) (fun c => Ret ([], c))) /\
  (forall m, bytes_ok m -> one (Append (lit l) m) = Ret ([], strobe_of (rm_commit (real_regev f Hf pbytes Hpb uniform) s l m))) /\
  (exists d, one (Challenge (lit l) 64) = Ret ([d], strobe_of (snd (m_chal real s l))) /\ fst (m_chal real s l) = toF p (le_val d)) /\
  (exists d, one (Challenge (lit l) 32) = Ret ([d], strobe_of (snd (m_gen real s l))) /\ fst (m_gen real s l) = uniform d) /\
  (forall n, one (Challenge (lit l) n) = Ret ([fst (rm_bytes (real_regev f Hf pbytes Hpb uniform) s l n)], strobe_of (snd (rm_bytes (real_regev f Hf pbytes Hpb uniform) s l n)))).
Proof.
  cbv zeta. split; [intros g; rewrite (sim_point f Hf pbytes Hpb uniform); reflexivity|]. split; [reflexivity|]. split; [|split; [|split]].
  - intros m Hm. cbn [exec]. assert (E : map u8 m = m).
    { clear - Hm. induction Hm as [|b m Hb _ IH]; [reflexivity|]. cbn [map]. rewrite IH. f_equal. apply Z.mod_small. exact Hb. }
    change (rm_commit (real_regev f Hf pbytes Hpb uniform) s l m) with (c_append f Hf s (lit l) (map u8 m) (lit_bytes l) (u8_ok m)).
    unfold c_append. rewrite <- E at 1. rewrite (next_ret _ (append_ok f Hf (strobe_of s) (lit l) (map u8 m) (strobe_ok s) (lit_bytes l) (u8_ok m))) at 1. reflexivity.
  - eexists. cbn [exec]. change (challenge_bytes f (strobe_of s) (lit l) 64) with (newChallenge f (strobe_of s) (lit l)).
    rewrite (value_ret _ (ex_ret _ _ (challenge_ok f Hf s l))) at 1. cbn [obind fst snd]. split; reflexivity.
  - eexists. cbn [exec]. change (challenge_bytes f (strobe_of s) (lit l) 32) with (newGenerator f (strobe_of s) (lit l)).
    rewrite (value_ret _ (ex_ret _ _ (generator_ok f Hf s l))) at 1. cbn [obind fst snd]. split; reflexivity.
  - intros n. cbn [exec]. rewrite (c_draw_ret f Hf s (lit l) n (lit_bytes l)) at 1. reflexivity.
Qed.

(** *** What the transcript determines *)
Hypothesis Hinj : forall g h, pbytes g = pbytes h -> g = h.
Hypothesis Hp : 0 < p <= 2 ^ 256.
Lemma scalar_inj (a b : F) : le_bytes 32 (fval a) = le_bytes 32 (fval b) -> a = b.
Proof.
  intros E. apply (f_equal le_val) in E. assert (A := fval_range p a (proj1 Hp)). assert (B := fval_range p b (proj1 Hp)).
  assert (X : 256 ^ Z.of_nat 32 = 2 ^ 256) by reflexivity.
  rewrite !le_val_bytes_small in E by (rewrite X; lia). now apply Fp_eq.
Qed.
Lemma index_inj a b : 0 <= a < 2 ^ 64 -> 0 <= b < 2 ^ 64 -> le_bytes 8 a = le_bytes 8 b -> a = b.
Proof. intros A B E. apply bfi_inj; [exact A|exact B|]. now rewrite !bytesFromInt_le. Qed.
Lemma lin_calls_inj (c c' : lincon p) t t' : Forall (fun t => 0 <= fst t < 2 ^ 31) (lterms c) -> Forall (fun t => 0 <= fst t < 2 ^ 31) (lterms c') ->
  lin_calls c ++ t = lin_calls c' ++ t' -> c = c' /\ t = t'.
Proof.
  destruct c as [ts e]. destruct c' as [ts' e']. unfold lin_calls. cbn [lterms leq]. intros H H' E.
  apply (f_equal (@tl call)) in E. cbn [app tl] in E. revert ts' H' E.
  induction H as [|[i a] ts Hi _ IH]; intros ts' H' E; destruct H' as [|[i' a'] ts' Hi' H']; cbn [map app fst snd] in E.
  - assert (E1 := f_equal (fun l => match l with Append _ m :: _ => m | _ => [] end) E). cbv beta iota in E1.
    assert (E2 := f_equal (@tl call) E). cbn [tl] in E2. rewrite (scalar_inj _ _ E1). now split.
  - assert (E1 := f_equal (fun l => match l with Append m _ :: _ => length m | _ => O end) E). cbv beta iota in E1. rewrite le_bytes_length in E1. discriminate.
  - assert (E1 := f_equal (fun l => match l with Append m _ :: _ => length m | _ => O end) E). cbv beta iota in E1. rewrite le_bytes_length in E1. discriminate.
  - apply (f_equal (fun l => (hd (Append [] []) l, tl l))) in E. cbn [hd tl] in E.
    assert (E0 : Append (le_bytes 8 i) (le_bytes 32 (fval a)) = Append (le_bytes 8 i') (le_bytes 32 (fval a'))) by exact (f_equal fst E).
    assert (E1 := f_equal snd E). cbn [snd] in E1.
    assert (E2 : le_bytes 8 i = le_bytes 8 i') by (exact (f_equal (fun c => match c with Append l _ => l | _ => [] end) E0)).
    assert (E3 : le_bytes 32 (fval a) = le_bytes 32 (fval a')) by (exact (f_equal (fun c => match c with Append _ l => l | _ => [] end) E0)).
    cbn [fst] in Hi, Hi'. apply index_inj in E2; [|lia|lia]. apply scalar_inj in E3. destruct (IH ts' H' E1) as [A B]. injection A as A1 A2. subst. now split.
Qed.
Lemma indexes_inj' l : forall l', Forall (fun i => 0 <= i < 2 ^ 64) l -> Forall (fun i => 0 <= i < 2 ^ 64) l' ->
  concat (map (le_bytes 8) l) = concat (map (le_bytes 8) l') -> l = l'.
Proof.
  intros l' H H' E. apply indexes_inj; [exact H|exact H'|]. rewrite !flat_map_concat_map.
  now rewrite !(map_ext bytesFromInt (le_bytes 8)) by exact bytesFromInt_le.
Qed.
Lemma quad_calls_inj l (c c' : quadcon p) t t' : Forall (fun i => 0 <= i < 2 ^ 64) (qidx c) -> Forall (fun i => 0 <= i < 2 ^ 64) (qidx c') ->
  quad_calls l c ++ t = quad_calls l c' ++ t' -> c = c' /\ t = t'.
Proof.
  destruct c as [ts e]. destruct c' as [ts' e']. unfold quad_calls. cbn [qidx qeq app]. intros H H' E.
  assert (E1 := f_equal (fun l => match l with _ :: Append _ m :: _ => m | _ => [] end) E).
  assert (E2 := f_equal (fun l => match l with _ :: _ :: Append _ m :: _ => m | _ => [] end) E).
  assert (E3 := f_equal (skipn 3) E). cbn [skipn] in E3. cbv beta iota in E1, E2.
  rewrite (indexes_inj' ts ts' H H' E1), (scalar_inj _ _ E2). now split.
Qed.
Definition stop (t : list call) : Prop := exists l m u, t = Append (lit l) m :: u /\ forall s, l <> (s ++ "L")%string.
Lemma rounds_inj Ls : forall Rs Ls' Rs' n n' t t', length Rs = length Ls -> length Rs' = length Ls' -> stop t -> stop t' ->
  round_calls pbytes n Ls Rs ++ t = round_calls pbytes n' Ls' Rs' ++ t' -> Ls = Ls' /\ Rs = Rs' /\ t = t'.
Proof.
  induction Ls as [|L Ls IH]; intros [|R Rs] [|L' Ls'] [|R' Rs'] n n' t t' K K' S S' E; try discriminate K; try discriminate K'; cbn [round_calls app] in E.
  - now repeat split.
  - destruct S as (l & m & u & -> & N). assert (X := f_equal (fun l => match l with Append m _ :: _ => m | _ => [] end) E). cbv beta iota in X.
    apply lit_inj in X. destruct (N _ X).
  - destruct S' as (l & m & u & -> & N). assert (X := f_equal (fun l => match l with Append m _ :: _ => m | _ => [] end) E). cbv beta iota in X.
    apply lit_inj in X. symmetry in X. destruct (N _ X).
  - assert (X1 := f_equal (fun l => match l with Append _ m :: _ => m | _ => [] end) E). cbv beta iota in X1.
    assert (X2 := f_equal (fun l => match l with _ :: Append _ m :: _ => m | _ => [] end) E). cbv beta iota in X2.
    assert (X3 := f_equal (skipn 3) E). cbn [skipn] in X3. apply Hinj in X1, X2. cbn [length] in K, K'.
    destruct (IH Rs Ls' Rs' _ _ t t' ltac:(lia) ltac:(lia) S S' X3) as (-> & -> & ->). subst. now repeat split.
Qed.
Lemma stop_S m u : stop (Append (lit "S") m :: u).
Proof.
  exists "S"%string, m, u. split; [reflexivity|]. intros [|a s] E; cbn in E; [discriminate|]. injection E as _ E. destruct s; discriminate.
Qed.
Lemma stop_S1 m u : stop (Append (lit "S1") m :: u).
Proof.
  exists "S1"%string, m, u. split; [reflexivity|]. intros [|a s] E; cbn in E; [discriminate|]. injection E as _ E.
  destruct s as [|b s]; cbn in E; [discriminate|]. injection E as _ E. destruct s; discriminate.
Qed.
Lemma hd_app_last {A} (u v : list A) a b : u ++ [a] = v ++ [b] -> u = v /\ a = b.
Proof. apply app_inj_tail. Qed.

Definition lin_front (c : lincon p) (pf : linpf G) : list call :=
  lin_calls c ++ open_calls pbytes (lpC pf) ++ round_calls pbytes (length (lterms c)) (lpLs pf) (lpRs pf) ++ [Append (lit "S") (pbytes (lpS pf))].
Lemma lin_front_eq c (pf : linpf G) : linear_history pbytes c pf = lin_front c pf ++ [Challenge (lit "x") 64].
Proof. unfold linear_history, lin_front. rewrite <- !app_assoc. reflexivity. Qed.
Theorem lin_binding tag tag' (c c' : lincon p) (pf pf' : linpf G) o o' ce ce' :
  Forall (fun t => 0 <= fst t < 2 ^ 31) (lterms c) -> Forall (fun t => 0 <= fst t < 2 ^ 31) (lterms c') ->
  length (lpRs pf) = length (lpLs pf) -> length (lpRs pf') = length (lpLs pf') ->
  run f (lit tag) (linear_history pbytes c pf) = Ret (o, ce) -> run f (lit tag') (linear_history pbytes c' pf') = Ret (o', ce') ->
  log ce = log ce' -> tag = tag' /\ c = c' /\ lin_public pf = lin_public pf' /\ o = o'.
Proof.
  intros Hi Hi' K K' R R' EL. assert (O := lin_history_ok c pf). assert (O' := lin_history_ok c' pf').
  assert (RR := R). assert (RR' := R').
  rewrite lin_front_eq in R, R', O, O'. destruct (run_inj f Hf _ _ _ _ _ _ _ _ _ _ _ _ (lit_bytes tag) (lit_bytes tag') O O' R R' EL) as (A & B & _).
  apply lit_inj in A. unfold lin_front in B. destruct (lin_calls_inj c c' _ _ Hi Hi' B) as [-> B'].
  unfold open_calls in B'. cbn [app] in B'.
  assert (X1 := f_equal (fun l => match l with Append _ m :: _ => m | _ => [] end) B'). cbv beta iota in X1. apply Hinj in X1.
  assert (X2 := f_equal (skipn 2) B'). cbn [skipn] in X2.
  destruct (rounds_inj _ _ _ _ _ _ _ _ K K' (stop_S _ _) (stop_S _ _) X2) as (E1 & E2 & E3).
  assert (X3 := f_equal (fun l => match l with Append _ m :: _ => m | _ => [] end) E3). cbv beta iota in X3. apply Hinj in X3.
  split; [exact A|]. split; [reflexivity|]. split; [unfold lin_public; now rewrite X1, E1, E2, X3|].
  subst tag'. unfold linear_history in RR, RR'. rewrite X1, E1, E2, X3, RR' in RR. injection RR as -> _. reflexivity.
Qed.
Definition quad_front l (c : quadcon p) (m : list call) (pf : quadpf G) : list call :=
  quad_calls l c ++ m ++ open_calls pbytes (qpC pf) ++ round_calls pbytes (length (qidx c)) (qpLs pf) (qpRs pf) ++
  [Append (lit "S1") (pbytes (qpS1 pf)); Append (lit "S2") (pbytes (qpS2 pf))].
Lemma quad_front_inj l m tag tag' (c c' : quadcon p) (pf pf' : quadpf G) o o' ce ce' :
  Forall call_ok (quad_front l c m pf ++ [Challenge (lit "x") 64]) -> Forall call_ok (quad_front l c' m pf' ++ [Challenge (lit "x") 64]) ->
  Forall (fun i => 0 <= i < 2 ^ 64) (qidx c) -> Forall (fun i => 0 <= i < 2 ^ 64) (qidx c') ->
  length (qpRs pf) = length (qpLs pf) -> length (qpRs pf') = length (qpLs pf') ->
  run f (lit tag) (quad_front l c m pf ++ [Challenge (lit "x") 64]) = Ret (o, ce) -> run f (lit tag') (quad_front l c' m pf' ++ [Challenge (lit "x") 64]) = Ret (o', ce') ->
  log ce = log ce' -> tag = tag' /\ c = c' /\ quad_public pf = quad_public pf' /\ o = o'.
Proof.
  intros O O' Hi Hi' K K' R R' EL. assert (RR := R). assert (RR' := R').
  destruct (run_inj f Hf _ _ _ _ _ _ _ _ _ _ _ _ (lit_bytes tag) (lit_bytes tag') O O' R R' EL) as (A & B & _).
  apply lit_inj in A. assert (BB := B). unfold quad_front in B. destruct (quad_calls_inj l c c' _ _ Hi Hi' B) as [-> B'].
  apply app_inv_head in B'. unfold open_calls in B'. cbn [app] in B'.
  assert (X1 := f_equal (fun l => match l with Append _ m :: _ => m | _ => [] end) B'). cbv beta iota in X1. apply Hinj in X1.
  assert (X2 := f_equal (skipn 2) B'). cbn [skipn] in X2.
  destruct (rounds_inj _ _ _ _ _ _ _ _ K K' (stop_S1 _ _) (stop_S1 _ _) X2) as (E1 & E2 & E3).
  assert (X3 := f_equal (fun l => match l with Append _ m :: _ => m | _ => [] end) E3). cbv beta iota in X3. apply Hinj in X3.
  assert (X4 := f_equal (fun l => match l with _ :: Append _ m :: _ => m | _ => [] end) E3). cbv beta iota in X4. apply Hinj in X4.
  split; [exact A|]. split; [reflexivity|]. split; [unfold quad_public; now rewrite X1, E1, E2, X3, X4|].
  subst tag'. rewrite BB, RR' in RR. injection RR as -> _. reflexivity.
Qed.
Lemma quad_history_eq c (pf : quadpf G) : quadratic_history pbytes c pf = quad_front "constraint" c [] pf ++ [Challenge (lit "x") 64].
Proof. unfold quadratic_history, quad_rest, quad_front. rewrite <- !app_assoc. reflexivity. Qed.
Lemma norm_history_eq c (pf : quadpf G) : norm_history pbytes c pf = quad_front "normSquared" c [Challenge (lit "x") 64] pf ++ [Challenge (lit "x") 64].
Proof. unfold norm_history, quad_rest, quad_front. rewrite <- !app_assoc. reflexivity. Qed.
Theorem quad_binding tag tag' (c c' : quadcon p) (pf pf' : quadpf G) o o' ce ce' :
  Forall (fun i => 0 <= i < 2 ^ 64) (qidx c) -> Forall (fun i => 0 <= i < 2 ^ 64) (qidx c') ->
  length (qpRs pf) = length (qpLs pf) -> length (qpRs pf') = length (qpLs pf') ->
  run f (lit tag) (quadratic_history pbytes c pf) = Ret (o, ce) -> run f (lit tag') (quadratic_history pbytes c' pf') = Ret (o', ce') ->
  log ce = log ce' -> tag = tag' /\ c = c' /\ quad_public pf = quad_public pf' /\ o = o'.
Proof. assert (O := quad_history_ok c pf). assert (O' := quad_history_ok c' pf'). rewrite !quad_history_eq in *. now apply quad_front_inj. Qed.
Theorem norm_binding tag tag' (c c' : quadcon p) (pf pf' : quadpf G) o o' ce ce' :
  Forall (fun i => 0 <= i < 2 ^ 64) (qidx c) -> Forall (fun i => 0 <= i < 2 ^ 64) (qidx c') ->
  length (qpRs pf) = length (qpLs pf) -> length (qpRs pf') = length (qpLs pf') ->
  run f (lit tag) (norm_history pbytes c pf) = Ret (o, ce) -> run f (lit tag') (norm_history pbytes c' pf') = Ret (o', ce') ->
  log ce = log ce' -> tag = tag' /\ c = c' /\ quad_public pf = quad_public pf' /\ o = o'.
Proof. assert (O := norm_history_ok c pf). assert (O' := norm_history_ok c' pf'). rewrite !norm_history_eq in *. now apply quad_front_inj. Qed.
End S.
