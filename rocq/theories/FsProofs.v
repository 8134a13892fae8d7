(** Proofs: the proofs on the actual transcript. *)
From Coq Require Import String.
From Coq Require Import ZArith List Lia Bool.
From Verif Require Import Outcome Bytes Fp GroupMod MerlinModel MerlinSpec MerlinMore ConstraintsModel PedersenModel PedersenProofs BulletproofModel
  SpongeModel FsSpec.
Import ListNotations.
Open Scope Z_scope.

Definition omatch {A B} (Q : A -> B -> Prop) (o : outcome A) (o' : outcome B) : Prop :=
  match o, o' with
  | Ret a, Ret b => Q a b | Throw, Throw | UB, UB | Abort, Abort => True | _, _ => False
  end.
Lemma omatch_bind {A B A' B'} (Q : A -> B -> Prop) (Q' : A' -> B' -> Prop) o o' k k' :
  omatch Q o o' -> (forall a b, Q a b -> omatch Q' (k a) (k' b)) -> omatch Q' (obind o k) (obind o' k').
Proof. intros H K. destruct o, o'; cbn in *; auto; contradiction. Qed.
Lemma omatch_same {A A' B'} (Q' : A' -> B' -> Prop) (o : outcome A) k k' :
  (forall a, o = Ret a -> omatch Q' (k a) (k' a)) -> omatch Q' (obind o k) (obind o k').
Proof. intros K. destruct o; cbn; auto. Qed.
Lemma omatch_eq {A} (o o' : outcome A) : omatch eq o o' -> o = o'.
Proof. destruct o, o'; cbn; intros; subst; auto; contradiction. Qed.

(** n, half of the next power of two, and the number of rounds. *)
Definition shape (n h k : nat) : Prop := match k with O => (n <= 1)%nat | S k' => (1 < n)%nat /\ h = (2 ^ k')%nat end.
Lemma shape_pow k : shape (2 ^ k) (2 ^ k / 2) k.
Proof.
  destruct k as [|k]; cbn [shape]; [cbn; lia|]. split.
  - change (1 < 2 ^ S k)%nat. assert (1 <= 2 ^ k)%nat by (clear; induction k; cbn; lia). cbn [Nat.pow]. lia.
  - rewrite Nat.pow_succ_r', Nat.mul_comm, Nat.div_mul; lia.
Qed.
Lemma shape_start n : (1 <= n)%nat -> Z.of_nat n <= 2 ^ 63 -> shape n (next2powerN n / 2) (log2roundUpN n).
Proof.
  intros H1 H2. destruct (Nat.eq_dec n 1) as [->|N].
  - destruct log2N_1 as [-> ->]. cbn. lia.
  - destruct (pow2_between n) as [k Hk]; [lia|]. destruct (log2N_pow k n) as [-> ->]; [eapply pow2_le_63; [apply Hk|exact H2]|exact Hk|].
    cbn [shape]. split; [lia|]. rewrite Nat.pow_succ_r', Nat.mul_comm, Nat.div_mul; lia.
Qed.
Lemma skipn_cons {A} (l : list A) i a t : skipn i l = a :: t -> oget l i = Ret a /\ skipn (S i) l = t.
Proof.
  revert l. induction i as [|i IH]; intros l E; [cbn in E; subst l; split; reflexivity|].
  destruct l as [|b l]; [cbn in E; discriminate|]. cbn [skipn] in E. destruct (IH l E) as [E1 E2]. split; [exact E1|exact E2].
Qed.

Section S.
Variable f : list Z -> list Z.
Hypothesis Hf : perm_ok f.
Context {p : Z} {G : gmod p}.
Variable pbytes : G -> list Z.
Hypothesis Hpb : forall g, bytes_ok (pbytes g).
Variable uniform : list Z -> G.
Notation real := (real f Hf pbytes Hpb uniform).
Notation real_init := (real_init f Hf).
Notation replay := (@replay p G uniform).
Notation F := (Fp p).
Variable base : G.

Lemma sim_point s l g cs : exec f (strobe_of s) (Append (lit l) (pbytes g) :: cs) = exec f (strobe_of (m_point real s l g)) cs.
Proof.
  cbn [exec]. change (commit_bytes f (strobe_of s) (lit l) (pbytes g)) with (processPoint f (strobe_of s) (lit l) (pbytes g)).
  rewrite (next_ret _ (point_ok f Hf pbytes Hpb s l g)). reflexivity.
Qed.
Lemma sim_draw s l n o H cs ds ce : o = challenge_bytes f (strobe_of s) (lit l) n -> exec f (strobe_of s) (Challenge (lit l) n :: cs) = Ret (ds, ce) ->
  hd [] ds = fst (value o H) /\ exec f (snd (value o H)) cs = Ret (tl ds, ce).
Proof.
  intros E X. cbn [exec] in X. rewrite <- E in X. rewrite (value_ret o H) in X at 1. cbn [obind] in X.
  apply obind_ret_inv in X. destruct X as ((r1 & r2) & X1 & X2). cbn [fst snd] in X2. injection X2 as <- <-. cbn [hd tl]. split; [reflexivity|exact X1].
Qed.
Lemma sim_chal s l cs ds ce : exec f (strobe_of s) (Challenge (lit l) 64 :: cs) = Ret (ds, ce) ->
  exists x s' ds', m_chal real s l = (x, s') /\ m_chal replay ds l = (x, ds') /\ exec f (strobe_of s') cs = Ret (ds', ce).
Proof.
  intros E. destruct (sim_draw s l 64 (newChallenge f (strobe_of s) (lit l)) (ex_ret _ _ (challenge_ok f Hf s l)) cs ds ce eq_refl E) as [A B].
  eexists _, _, _. split; [reflexivity|]. cbn [m_chal FsSpec.replay]. rewrite A. split; [reflexivity|exact B].
Qed.
Lemma sim_gen s l cs ds ce : exec f (strobe_of s) (Challenge (lit l) 32 :: cs) = Ret (ds, ce) ->
  exists x s' ds', m_gen real s l = (x, s') /\ m_gen replay ds l = (x, ds') /\ exec f (strobe_of s') cs = Ret (ds', ce).
Proof.
  intros E. destruct (sim_draw s l 32 (newGenerator f (strobe_of s) (lit l)) (ex_ret _ _ (generator_ok f Hf s l)) cs ds ce eq_refl E) as [A B].
  eexists _, _, _. split; [reflexivity|]. cbn [m_gen FsSpec.replay]. rewrite A. split; [reflexivity|exact B].
Qed.
Lemma sim_appends s ms o H cs : commit_all f (strobe_of s) ms = o -> exec f (strobe_of s) (appends ms ++ cs) = exec f (strobe_of (next o H)) cs.
Proof.
  intros E. rewrite exec_app, exec_appends, E, (next_ret o H) at 1. cbn [obind fst snd app].
  destruct (exec f (strobe_of (next o H)) cs) as [[a b]| | |]; reflexivity.
Qed.
Lemma lin_calls_eq (c : lincon p) : Forall (fun t => 0 <= fst t < 2 ^ 31) (lterms c) ->
  lin_calls c = appends (lin_messages (lit "constraint") (lin_data c) (sbytes (leq c))).
Proof.
  intros Hi. unfold lin_calls, appends, lin_messages, lin_data. cbn [map]. rewrite map_app, !map_map. cbn [map fst snd]. f_equal. f_equal.
  apply map_ext_in. intros t Ht. rewrite Forall_forall in Hi. rewrite to_int_small, bytesFromInt_le by (apply Hi; exact Ht). reflexivity.
Qed.
Lemma quad_calls_eq l (c : quadcon p) : quad_calls l c = appends (quad_messages (lit l) (qidx c) (sbytes (qeq c))).
Proof.
  unfold quad_calls, appends, quad_messages. cbn [map fst snd]. 
  rewrite flat_map_concat_map, (map_ext bytesFromInt (le_bytes 8)); [reflexivity|exact bytesFromInt_le].
Qed.
Lemma sim_lin s (c : lincon p) cs : Forall (fun t => 0 <= fst t < 2 ^ 31) (lterms c) ->
  exec f (strobe_of s) (lin_calls c ++ cs) = exec f (strobe_of (m_lin real s "constraint" c)) cs.
Proof. intros Hi. rewrite (lin_calls_eq c Hi). apply (sim_appends s _ _ (lin_ok f Hf s "constraint" c)). reflexivity. Qed.
Lemma sim_quad s l (c : quadcon p) cs :
  exec f (strobe_of s) (quad_calls l c ++ cs) = exec f (strobe_of (m_quad real s l c)) cs.
Proof. rewrite (quad_calls_eq l c). apply (sim_appends s _ _ (quad_ok f Hf s l c)). reflexivity. Qed.
Lemma run_real tag cs : run f (lit tag) cs = exec f (strobe_of (real_init tag)) cs.
Proof. unfold run. rewrite (next_ret _ (start_ok f Hf (lit tag) (lit_bytes tag))) at 1. reflexivity. Qed.

(** *** Verifiers *)
Definition vrel (ce : strobe) (tail : list call) (a : context * list F * list F * list F) (b : list (list Z) * list F * list F * list F) : Prop :=
  match a, b with (s, x1, x2, x3), (ds, y1, y2, y3) => x1 = y1 /\ x2 = y2 /\ x3 = y3 /\ exec f (strobe_of s) tail = Ret (ds, ce) end.
Lemma vl_loop Ls Rs : forall k fuel s ds bs n h ii ce tail Ls' Rs', skipn ii Ls = Ls' -> skipn ii Rs = Rs' ->
  length Ls' = k -> length Rs' = k -> shape n h k ->
  exec f (strobe_of s) (round_calls pbytes n Ls' Rs' ++ tail) = Ret (ds, ce) ->
  omatch (vrel ce tail) (verifyLinear_loop real fuel s Ls Rs bs n h ii) (verifyLinear_loop replay fuel ds Ls Rs bs n h ii).
Proof.
  induction k as [|k IH]; intros fuel s ds bs n h ii ce tail Ls' Rs' EL ER KL KR Hs E.
  - destruct Ls'; [|discriminate]. cbn [shape] in Hs. cbn [round_calls app] in E.
    destruct fuel; cbn [verifyLinear_loop]; rewrite (proj2 (Nat.leb_le n 1) Hs); cbn; auto.
  - destruct Ls' as [|L Ls']; [discriminate|]. destruct Rs' as [|R Rs']; [discriminate|]. cbn [length] in KL, KR.
    injection KL as KL. injection KR as KR. cbn [shape] in Hs. destruct Hs as [Hn Hh].
    destruct fuel as [|fuel]; cbn [verifyLinear_loop]; rewrite (proj2 (Nat.leb_gt n 1) Hn); [exact I|].
    destruct (skipn_cons Ls ii L Ls' EL) as [OL EL']. destruct (skipn_cons Rs ii R Rs' ER) as [OR ER'].
    rewrite OL, OR. cbn [obind]. cbn [round_calls app] in E. rewrite sim_point, sim_point in E.
    apply sim_chal in E. destruct E as (x & s' & ds' & E1 & E2 & E). unfold nlabel. rewrite E1.
    change (m_point replay (m_point replay ds (to_string (Z.of_nat n) ++ "L") L) "R" R) with ds. rewrite E2.
    apply omatch_same. intros xi _. apply omatch_same. intros bs' _.
    rewrite KL in E. rewrite <- Hh in E. eapply omatch_bind.
    + eapply IH; [exact EL'|exact ER'|exact KL|exact KR| |exact E]. subst h. apply shape_pow.
    + intros [[[a1 a2] a3] a4] [[[b1 b2] b3] b4] (-> & -> & -> & X). cbn. auto.
Qed.
Definition qrel (ce : strobe) (tail : list call) (a : context * list F * list F) (b : list (list Z) * list F * list F) : Prop :=
  match a, b with (s, x1, x2), (ds, y1, y2) => x1 = y1 /\ x2 = y2 /\ exec f (strobe_of s) tail = Ret (ds, ce) end.
Lemma vq_loop Ls Rs : forall k fuel s ds n h ii ce tail Ls' Rs', skipn ii Ls = Ls' -> skipn ii Rs = Rs' ->
  length Ls' = k -> length Rs' = k -> shape n h k ->
  exec f (strobe_of s) (round_calls pbytes n Ls' Rs' ++ tail) = Ret (ds, ce) ->
  omatch (qrel ce tail) (verifyQuadratic_loop real fuel s Ls Rs n h ii) (verifyQuadratic_loop replay fuel ds Ls Rs n h ii).
Proof.
  induction k as [|k IH]; intros fuel s ds n h ii ce tail Ls' Rs' EL ER KL KR Hs E.
  - destruct Ls'; [|discriminate]. cbn [shape] in Hs. cbn [round_calls app] in E.
    destruct fuel; cbn [verifyQuadratic_loop]; rewrite (proj2 (Nat.leb_le n 1) Hs); cbn; auto.
  - destruct Ls' as [|L Ls']; [discriminate|]. destruct Rs' as [|R Rs']; [discriminate|]. cbn [length] in KL, KR.
    injection KL as KL. injection KR as KR. cbn [shape] in Hs. destruct Hs as [Hn Hh].
    destruct fuel as [|fuel]; cbn [verifyQuadratic_loop]; rewrite (proj2 (Nat.leb_gt n 1) Hn); [exact I|].
    destruct (skipn_cons Ls ii L Ls' EL) as [OL EL']. destruct (skipn_cons Rs ii R Rs' ER) as [OR ER'].
    rewrite OL, OR. cbn [obind]. cbn [round_calls app] in E. rewrite sim_point, sim_point in E.
    apply sim_chal in E. destruct E as (x & s' & ds' & E1 & E2 & E). unfold nlabel. rewrite E1.
    change (m_point replay (m_point replay ds (to_string (Z.of_nat n) ++ "L") L) "R" R) with ds. rewrite E2.
    apply omatch_same. intros xi _.
    rewrite KL in E. rewrite <- Hh in E. eapply omatch_bind.
    + eapply IH; [exact EL'|exact ER'|exact KL|exact KR| |exact E]. subst h. apply shape_pow.
    + intros [[a1 a2] a3] [[b1 b2] b3] (-> & -> & X). cbn. auto.
Qed.

Lemma vl_sim s ds ce (pf : linpf G) bs gs n eq off tail : (1 <= n)%nat -> Z.of_nat n <= 2 ^ 63 ->
  length (lpLs pf) = log2roundUpN n -> length (lpRs pf) = log2roundUpN n ->
  exec f (strobe_of s) (open_calls pbytes (lpC pf) ++ round_calls pbytes n (lpLs pf) (lpRs pf) ++
     [Append (lit "S") (pbytes (lpS pf)); Challenge (lit "x") 64] ++ tail) = Ret (ds, ce) ->
  verifyLinear base real pf bs gs n eq s off = verifyLinear base replay pf bs gs n eq ds off.
Proof.
  intros H1 H2 KL KR E. apply omatch_eq. unfold verifyLinear. unfold open_calls in E. cbn [app] in E. rewrite sim_point in E.
  apply sim_gen in E. destruct E as (Fg & s1 & ds1 & E1 & E2 & E). rewrite E1. change (m_point replay ds "C" (lpC pf)) with ds. rewrite E2.
  rewrite KL, KR, Nat.eqb_refl. cbn [negb orb].
  eapply omatch_bind.
  - eapply vl_loop; [reflexivity|reflexivity|exact KL|exact KR|apply shape_start; assumption|exact E].
  - intros [[[a1 a2] a3] a4] [[[b1 b2] b3] b4] (-> & -> & -> & X).
    apply omatch_same. intros mL _. apply omatch_same. intros mR _. rewrite sim_point in X.
    apply sim_chal in X. destruct X as (x & s' & ds' & X1 & X2 & X). rewrite X1. change (m_point replay b1 "S" (lpS pf)) with b1. rewrite X2.
    apply omatch_same. intros xi _. apply omatch_same. intros o _. apply omatch_same. intros t _. apply omatch_same. intros b0 _. reflexivity.
Qed.
Lemma vq_sim s ds ce (pf : quadpf G) gs hs n eq offu offv tail : (1 <= n)%nat -> Z.of_nat n <= 2 ^ 63 ->
  length (qpLs pf) = log2roundUpN n -> length (qpRs pf) = log2roundUpN n ->
  exec f (strobe_of s) (quad_rest pbytes n pf ++ tail) = Ret (ds, ce) ->
  verifyQuadratic base real pf gs hs n eq s offu offv = verifyQuadratic base replay pf gs hs n eq ds offu offv.
Proof.
  intros H1 H2 KL KR E. apply omatch_eq. unfold verifyQuadratic. unfold quad_rest, open_calls in E. rewrite <- !app_assoc in E. cbn [app] in E. rewrite sim_point in E.
  apply sim_gen in E. destruct E as (Fg & s1 & ds1 & E1 & E2 & E). rewrite E1. change (m_point replay ds "C" (qpC pf)) with ds. rewrite E2.
  rewrite KL, KR, Nat.eqb_refl. cbn [negb orb].
  eapply omatch_bind.
  - eapply vq_loop; [reflexivity|reflexivity|exact KL|exact KR|apply shape_start; assumption|exact E].
  - intros [[a1 a2] a3] [[b1 b2] b3] (-> & -> & X).
    apply omatch_same. intros mL _. apply omatch_same. intros mR _. apply omatch_same. intros tG _. apply omatch_same. intros tH _. rewrite sim_point, sim_point in X.
    apply sim_chal in X. destruct X as (x & s' & ds' & X1 & X2 & X). rewrite X1.
    change (m_point replay (m_point replay b1 "S1" (qpS1 pf)) "S2" (qpS2 pf)) with b1. rewrite X2. reflexivity.
Qed.

(** *** Provers *)
Definition lp_with (ds : list (list Z)) (res : lpstate real) : lpstate replay :=
  LPState replay ds (ls_as _ res) (ls_bs _ res) (ls_gs _ res) (ls_r _ res) (ls_Ls _ res) (ls_Rs _ res).
Lemma pl_loop : forall k fuel Fg bl s as_ bs gs r n h res, shape n h k ->
  proveLinear_loop base real fuel Fg bl s as_ bs gs r n h = Ret res ->
  length (ls_Ls _ res) = k /\ length (ls_Rs _ res) = k /\
  forall ds ce tail, exec f (strobe_of s) (round_calls pbytes n (ls_Ls _ res) (ls_Rs _ res) ++ tail) = Ret (ds, ce) ->
  exists ds', proveLinear_loop base replay fuel Fg bl ds as_ bs gs r n h = Ret (lp_with ds' res) /\
    exec f (strobe_of (ls_st _ res)) tail = Ret (ds', ce).
Proof.
  induction k as [|k IH]; intros fuel Fg bl s as_ bs gs r n h res Hs E.
  - cbn [shape] in Hs. destruct fuel; cbn [proveLinear_loop] in *; rewrite (proj2 (Nat.leb_le n 1) Hs) in *; injection E as <-;
      (split; [reflexivity|split; [reflexivity|]]; cbn [ls_Ls ls_Rs ls_st round_calls app]; intros ds ce tail X; exists ds; split; [reflexivity|exact X]).
  - cbn [shape] in Hs. destruct Hs as [Hn Hh].
    destruct fuel as [|fuel]; cbn [proveLinear_loop] in *; rewrite (proj2 (Nat.leb_gt n 1) Hn) in *; [discriminate|].
    destruct (bl 0%nat) as [s0 t0].
    apply obind_ret_inv in E. destruct E as (mL & EmL & E). rewrite EmL. cbn [obind].
    apply obind_ret_inv in E. destruct E as (iL & EiL & E). rewrite EiL. cbn [obind].
    apply obind_ret_inv in E. destruct E as (mR & EmR & E). rewrite EmR. cbn [obind].
    apply obind_ret_inv in E. destruct E as (iR & EiR & E). rewrite EiR. cbn [obind].
    unfold nlabel in *.
    set (L := gadd (gadd (gmul base s0) mL) (gmul Fg iL)) in *. set (R := gadd (gadd (gmul base t0) mR) (gmul Fg iR)) in *.
    set (s1 := m_point real (m_point real s (to_string (Z.of_nat n) ++ "L") L) "R" R) in *.
    destruct (m_chal real s1 "x") as [x s2] eqn:Ex.
    apply obind_ret_inv in E. destruct E as (xi & Exi & E).
    apply obind_ret_inv in E. destruct E as (as' & Eas & E).
    apply obind_ret_inv in E. destruct E as (bs' & Ebs & E).
    apply obind_ret_inv in E. destruct E as (gs' & Egs & E).
    apply obind_ret_inv in E. destruct E as (res' & Er & E). injection E as <-.
    assert (Hs' : shape h (h / 2) k) by (subst h; apply shape_pow).
    destruct (IH _ _ _ _ _ _ _ _ _ _ _ Hs' Er) as (KL & KR & S).
    cbn [ls_Ls ls_Rs ls_st]. split; [cbn; now rewrite KL|]. split; [cbn; now rewrite KR|].
    intros ds ce tail X. cbn [round_calls app] in X. rewrite sim_point, sim_point in X. fold s1 in X.
    apply sim_chal in X. destruct X as (x' & s' & ds' & X1 & X2 & X). rewrite Ex in X1. injection X1 as <- <-.
    change (m_point replay (m_point replay ds (to_string (Z.of_nat n) ++ "L") L) "R" R) with ds. rewrite X2.
    rewrite KL, <- Hh in X. destruct (S ds' ce tail X) as (ds2 & S1 & S2).
    exists ds2. rewrite Exi. cbn [obind]. rewrite Eas. cbn [obind]. rewrite Ebs. cbn [obind]. rewrite Egs. cbn [obind]. rewrite S1. split; [reflexivity|exact S2].
Qed.
Lemma pl_sim s bl blS C r as_ bs gs n pf : (1 <= n)%nat -> Z.of_nat n <= 2 ^ 63 ->
  proveLinear base real C r s bl blS as_ bs gs n = Ret pf ->
  lpC pf = C /\ length (lpLs pf) = log2roundUpN n /\ length (lpRs pf) = log2roundUpN n /\
  forall ds ce tail, exec f (strobe_of s) (open_calls pbytes (lpC pf) ++ round_calls pbytes n (lpLs pf) (lpRs pf) ++
     [Append (lit "S") (pbytes (lpS pf)); Challenge (lit "x") 64] ++ tail) = Ret (ds, ce) ->
  proveLinear base replay C r ds bl blS as_ bs gs n = Ret pf.
Proof.
  intros H1 H2 E. unfold proveLinear in *. destruct (m_gen real (m_point real s "C" C) "F") as [Fg s1] eqn:Eg.
  apply obind_ret_inv in E. destruct E as (res & El & E). destruct blS as [s0 t0].
  destruct (pl_loop _ _ _ _ _ _ _ _ _ _ _ _ (shape_start n H1 H2) El) as (KL & KR & S).
  apply obind_ret_inv in E. destruct E as (g0 & Eg0 & E).
  apply obind_ret_inv in E. destruct E as (b0 & Eb0 & E).
  apply obind_ret_inv in E. destruct E as (a0 & Ea0 & E).
  match type of E with context [m_point real (ls_st _ res) "S" ?A] => set (S0 := A) in * end.
  destruct (m_chal real (m_point real (ls_st _ res) "S" S0) "x") as [x s2] eqn:Ex. injection E as <-. cbn [lpC lpLs lpRs lpS].
  split; [reflexivity|]. split; [exact KL|]. split; [exact KR|]. intros ds ce tail X. unfold open_calls in X. cbn [app] in X.
  rewrite sim_point in X. apply sim_gen in X. destruct X as (Fg' & s' & ds' & X1 & X2 & X). rewrite Eg in X1. injection X1 as <- <-.
  change (m_point replay ds "C" C) with ds. rewrite X2. destruct (S ds' ce _ X) as (ds2 & S1 & S2). rewrite S1. cbn [obind lp_with ls_gs ls_bs ls_as ls_st ls_r ls_Ls ls_Rs].
  rewrite Eg0. cbn [obind]. rewrite Eb0. cbn [obind]. rewrite Ea0. cbn [obind]. fold S0.
  rewrite sim_point in S2. apply sim_chal in S2. destruct S2 as (x' & s3 & ds3 & X1' & X2' & _). rewrite Ex in X1'. injection X1' as <- <-.
  change (m_point replay ds2 "S" S0) with ds2. rewrite X2'. reflexivity.
Qed.
Definition qp_with (ds : list (list Z)) (res : qpstate real) : qpstate replay :=
  QPState replay ds (qs_as _ res) (qs_bs _ res) (qs_gs _ res) (qs_hs _ res) (qs_r _ res) (qs_Ls _ res) (qs_Rs _ res).
Lemma pq_loop : forall k fuel Fg bl s gs as_ hs bs r n h res, shape n h k ->
  proveQuadratic_loop base real fuel Fg bl s gs as_ hs bs r n h = Ret res ->
  length (qs_Ls _ res) = k /\ length (qs_Rs _ res) = k /\
  forall ds ce tail, exec f (strobe_of s) (round_calls pbytes n (qs_Ls _ res) (qs_Rs _ res) ++ tail) = Ret (ds, ce) ->
  exists ds', proveQuadratic_loop base replay fuel Fg bl ds gs as_ hs bs r n h = Ret (qp_with ds' res) /\
    exec f (strobe_of (qs_st _ res)) tail = Ret (ds', ce).
Proof.
  induction k as [|k IH]; intros fuel Fg bl s gs as_ hs bs r n h res Hs E.
  - cbn [shape] in Hs. destruct fuel; cbn [proveQuadratic_loop] in *; rewrite (proj2 (Nat.leb_le n 1) Hs) in *; injection E as <-;
      (split; [reflexivity|split; [reflexivity|]]; cbn [qs_Ls qs_Rs qs_st round_calls app]; intros ds ce tail X; exists ds; split; [reflexivity|exact X]).
  - cbn [shape] in Hs. destruct Hs as [Hn Hh].
    destruct fuel as [|fuel]; cbn [proveQuadratic_loop] in *; rewrite (proj2 (Nat.leb_gt n 1) Hn) in *; [discriminate|].
    destruct (bl 0%nat) as [s0 t0].
    apply obind_ret_inv in E. destruct E as (mL & EmL & E). rewrite EmL. cbn [obind].
    apply obind_ret_inv in E. destruct E as (mL2 & EmL2 & E). rewrite EmL2. cbn [obind].
    apply obind_ret_inv in E. destruct E as (iL & EiL & E). rewrite EiL. cbn [obind].
    apply obind_ret_inv in E. destruct E as (mR & EmR & E). rewrite EmR. cbn [obind].
    apply obind_ret_inv in E. destruct E as (mR2 & EmR2 & E). rewrite EmR2. cbn [obind].
    apply obind_ret_inv in E. destruct E as (iR & EiR & E). rewrite EiR. cbn [obind].
    unfold nlabel in *.
    match type of E with context [m_point real s (to_string (Z.of_nat n) ++ "L") ?A] => set (L := A) in * end.
    match type of E with context [m_point real (m_point real s (to_string (Z.of_nat n) ++ "L") L) "R" ?A] => set (R := A) in * end.
    set (s1 := m_point real (m_point real s (to_string (Z.of_nat n) ++ "L") L) "R" R) in *.
    destruct (m_chal real s1 "x") as [x s2] eqn:Ex.
    apply obind_ret_inv in E. destruct E as (xi & Exi & E).
    apply obind_ret_inv in E. destruct E as (as' & Eas & E).
    apply obind_ret_inv in E. destruct E as (bs' & Ebs & E).
    apply obind_ret_inv in E. destruct E as (gs' & Egs & E).
    apply obind_ret_inv in E. destruct E as (hs' & Ehs & E).
    apply obind_ret_inv in E. destruct E as (res' & Er & E). injection E as <-.
    assert (Hs' : shape h (h / 2) k) by (subst h; apply shape_pow).
    destruct (IH _ _ _ _ _ _ _ _ _ _ _ _ Hs' Er) as (KL & KR & S).
    cbn [qs_Ls qs_Rs qs_st]. split; [cbn; now rewrite KL|]. split; [cbn; now rewrite KR|].
    intros ds ce tail X. cbn [round_calls app] in X. rewrite sim_point, sim_point in X. fold s1 in X.
    apply sim_chal in X. destruct X as (x' & s' & ds' & X1 & X2 & X). rewrite Ex in X1. injection X1 as <- <-.
    change (m_point replay (m_point replay ds (to_string (Z.of_nat n) ++ "L") L) "R" R) with ds. rewrite X2.
    rewrite KL, <- Hh in X. destruct (S ds' ce tail X) as (ds2 & S1 & S2).
    exists ds2. rewrite Exi. cbn [obind]. rewrite Eas. cbn [obind]. rewrite Ebs. cbn [obind]. rewrite Egs. cbn [obind]. rewrite Ehs. cbn [obind].
    rewrite S1. split; [reflexivity|exact S2].
Qed.
Lemma pq_sim s bl blST blUV C r gs as_ hs bs n pf : (1 <= n)%nat -> Z.of_nat n <= 2 ^ 63 ->
  proveQuadratic base real C r s bl blST blUV gs as_ hs bs n = Ret pf ->
  qpC pf = C /\ length (qpLs pf) = log2roundUpN n /\ length (qpRs pf) = log2roundUpN n /\
  forall ds ce tail, exec f (strobe_of s) (quad_rest pbytes n pf ++ tail) = Ret (ds, ce) ->
  proveQuadratic base replay C r ds bl blST blUV gs as_ hs bs n = Ret pf.
Proof.
  intros H1 H2 E. unfold proveQuadratic in *. destruct (m_gen real (m_point real s "C" C) "F") as [Fg s1] eqn:Eg.
  apply obind_ret_inv in E. destruct E as (res & El & E). unfold proveQuadratic_last in *. destruct blST as [s0 t0]. destruct blUV as [u0 v0].
  destruct (pq_loop _ _ _ _ _ _ _ _ _ _ _ _ _ (shape_start n H1 H2) El) as (KL & KR & S).
  apply obind_ret_inv in E. destruct E as (g0 & Eg0 & E).
  apply obind_ret_inv in E. destruct E as (h0 & Eh0 & E).
  apply obind_ret_inv in E. destruct E as (a0 & Ea0 & E).
  apply obind_ret_inv in E. destruct E as (b0 & Eb0 & E).
  match type of E with context [m_point real (qs_st _ res) "S1" ?A] => set (S1 := A) in * end.
  match type of E with context [m_point real (m_point real (qs_st _ res) "S1" S1) "S2" ?A] => set (S2 := A) in * end.
  destruct (m_chal real (m_point real (m_point real (qs_st _ res) "S1" S1) "S2" S2) "x") as [x s2] eqn:Ex. injection E as <-. unfold quad_rest. cbn [qpC qpLs qpRs qpS1 qpS2].
  split; [reflexivity|]. split; [exact KL|]. split; [exact KR|]. intros ds ce tail X. unfold open_calls in X. rewrite <- !app_assoc in X. cbn [app] in X.
  rewrite sim_point in X. apply sim_gen in X. destruct X as (Fg' & s' & ds' & X1 & X2 & X). rewrite Eg in X1. injection X1 as <- <-.
  change (m_point replay ds "C" C) with ds. rewrite X2. destruct (S ds' ce _ X) as (ds2 & Sa & Sb). rewrite Sa. cbn [obind qp_with qs_gs qs_bs qs_as qs_hs qs_st qs_r qs_Ls qs_Rs].
  rewrite Eg0. cbn [obind]. rewrite Eh0. cbn [obind]. rewrite Ea0. cbn [obind]. rewrite Eb0. cbn [obind]. fold S1 S2.
  rewrite sim_point, sim_point in Sb. apply sim_chal in Sb. destruct Sb as (x' & s3 & ds3 & X1' & X2' & _). rewrite Ex in X1'. injection X1' as <- <-.
  change (m_point replay (m_point replay ds2 "S1" S1) "S2" S2) with ds2. rewrite X2'. reflexivity.
Qed.
End S.
