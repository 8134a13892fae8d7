(** Two transcripts that stay related give the same proofs: the proof system uses
    the transcript only through its interface. *)
From Coq Require Import String.
From Coq Require Import ZArith List Bool Lia.
From Verif Require Import Outcome Fp GroupMod Ring ConstraintsModel PedersenModel BulletproofModel
  AlgebraModel TernaryModel RegevModel RegevPfModel RegevAggModel RegevRunModel FsProofs.
Import ListNotations.
Open Scope Z_scope.

(** Equal first components, related second ones. *)
Definition crel {A S1 S2} (rel : S1 -> S2 -> Prop) (a : A * S1) (b : A * S2) : Prop := fst a = fst b /\ rel (snd a) (snd b).

Section BP.
Context {p : Z} {G : gmod p}.
Notation F := (Fp p).
Variables M1 M2 : merlin G.
Variable rel : mst M1 -> mst M2 -> Prop.
Record simulates : Prop := Sim {
  sim_pt : forall a b l g, rel a b -> rel (m_point M1 a l g) (m_point M2 b l g);
  sim_ch : forall a b l, rel a b -> crel rel (m_chal M1 a l) (m_chal M2 b l);
  sim_gn : forall a b l, rel a b -> crel rel (m_gen M1 a l) (m_gen M2 b l);
  sim_ln : forall a b l con, rel a b -> rel (m_lin M1 a l con) (m_lin M2 b l con);
  sim_qd : forall a b l con, rel a b -> rel (m_quad M1 a l con) (m_quad M2 b l con) }.
Hypothesis HS : simulates.
Variable base : G.

Ltac pts := repeat apply (sim_pt HS); assumption.
Ltac chal :=
  match goal with
  | |- omatch _ (let '(_, _) := m_chal _ ?a ?l in _) (let '(_, _) := m_chal _ ?b _ in _) =>
      let H := fresh "H" in assert (H : crel rel (m_chal M1 a l) (m_chal M2 b l)) by (apply (sim_ch HS); pts);
      destruct (m_chal M1 a l), (m_chal M2 b l); destruct H as [? ?]; cbn [fst snd] in *; subst
  | |- omatch _ (let '(_, _) := m_gen _ ?a ?l in _) (let '(_, _) := m_gen _ ?b _ in _) =>
      let H := fresh "H" in assert (H : crel rel (m_gen M1 a l) (m_gen M2 b l)) by (apply (sim_gn HS); pts);
      destruct (m_gen M1 a l), (m_gen M2 b l); destruct H as [? ?]; cbn [fst snd] in *; subst
  end.
Ltac same := apply omatch_same; intros ? _.

Definition lrel (a : lpstate M1) (b : lpstate M2) : Prop :=
  rel (ls_st M1 a) (ls_st M2 b) /\ ls_as M1 a = ls_as M2 b /\ ls_bs M1 a = ls_bs M2 b /\ ls_gs M1 a = ls_gs M2 b /\ ls_r M1 a = ls_r M2 b /\
  ls_Ls M1 a = ls_Ls M2 b /\ ls_Rs M1 a = ls_Rs M2 b.
Lemma sim_pl_loop fuel : forall Fg bl s t as_ bs gs r n h, rel s t ->
  omatch lrel (proveLinear_loop base M1 fuel Fg bl s as_ bs gs r n h) (proveLinear_loop base M2 fuel Fg bl t as_ bs gs r n h).
Proof.
  induction fuel as [|fuel IH]; intros Fg bl s t as_ bs gs r n h Hr; cbn [proveLinear_loop]; (destruct (n <=? 1)%nat; [cbn; repeat split; assumption|]); [exact I|].
  cbv zeta. destruct (bl O) as [u v]. do 4 same. chal. do 4 same.
  eapply omatch_bind; [apply IH; assumption|]. intros x y (H1 & H2 & H3 & H4 & H5 & H6 & H7). cbn. unfold lrel. cbn. rewrite H2, H3, H4, H5, H6, H7. repeat split. exact H1.
Qed.
Lemma sim_proveLinear C r s t bl blS as_ bs gs n : rel s t ->
  proveLinear base M1 C r s bl blS as_ bs gs n = proveLinear base M2 C r t bl blS as_ bs gs n.
Proof.
  intros Hr. apply omatch_eq. unfold proveLinear. cbv zeta. chal. eapply omatch_bind; [apply sim_pl_loop; assumption|].
  intros x y (H1 & H2 & H3 & H4 & H5 & H6 & H7). destruct blS as [u v]. rewrite H2, H3, H4, H5, H6, H7. do 3 same. chal. reflexivity.
Qed.
Definition vlrel (a : mst M1 * list F * list F * list F) (b : mst M2 * list F * list F * list F) : Prop :=
  match a, b with (s, x1, x2, x3), (t, y1, y2, y3) => rel s t /\ x1 = y1 /\ x2 = y2 /\ x3 = y3 end.
Lemma sim_vl_loop fuel : forall s t Ls Rs bs n h ii, rel s t ->
  omatch vlrel (verifyLinear_loop M1 fuel s Ls Rs bs n h ii) (verifyLinear_loop M2 fuel t Ls Rs bs n h ii).
Proof.
  induction fuel as [|fuel IH]; intros s t Ls Rs bs n h ii Hr; cbn [verifyLinear_loop]; (destruct (n <=? 1)%nat; [cbn; repeat split; assumption|]); [exact I|].
  cbv zeta. do 2 same. chal. do 2 same. eapply omatch_bind; [apply IH; assumption|].
  intros [[[c1 c2] c3] c4] [[[d1 d2] d3] d4] (H1 & -> & -> & ->). cbn. repeat split. exact H1.
Qed.
Lemma sim_verifyLinear pf bs gs n eq s t wo : rel s t -> verifyLinear base M1 pf bs gs n eq s wo = verifyLinear base M2 pf bs gs n eq t wo.
Proof.
  intros Hr. apply omatch_eq. unfold verifyLinear. cbv zeta. chal. destruct (negb _ || negb _); [exact I|].
  eapply omatch_bind; [apply sim_vl_loop; assumption|]. intros [[[c1 c2] c3] c4] [[[d1 d2] d3] d4] (H1 & -> & -> & ->). do 2 same. chal. do 4 same. reflexivity.
Qed.
Definition qprel (a : qpstate M1) (b : qpstate M2) : Prop :=
  rel (qs_st M1 a) (qs_st M2 b) /\ qs_as M1 a = qs_as M2 b /\ qs_bs M1 a = qs_bs M2 b /\ qs_gs M1 a = qs_gs M2 b /\ qs_hs M1 a = qs_hs M2 b /\
  qs_r M1 a = qs_r M2 b /\ qs_Ls M1 a = qs_Ls M2 b /\ qs_Rs M1 a = qs_Rs M2 b.
Lemma sim_pq_loop fuel : forall Fg bl s t gs as_ hs bs r n h, rel s t ->
  omatch qprel (proveQuadratic_loop base M1 fuel Fg bl s gs as_ hs bs r n h) (proveQuadratic_loop base M2 fuel Fg bl t gs as_ hs bs r n h).
Proof.
  induction fuel as [|fuel IH]; intros Fg bl s t gs as_ hs bs r n h Hr; cbn [proveQuadratic_loop]; (destruct (n <=? 1)%nat; [cbn; repeat split; assumption|]); [exact I|].
  cbv zeta. destruct (bl O) as [u v]. do 6 same. chal. do 5 same.
  eapply omatch_bind; [apply IH; assumption|]. intros x y (H1 & H2 & H3 & H4 & H5 & H6 & H7 & H8). cbn. unfold qprel. cbn. rewrite H2, H3, H4, H5, H6, H7, H8. repeat split. exact H1.
Qed.
Lemma sim_proveQuadratic C r s t bl blST blUV gs as_ hs bs n : rel s t ->
  proveQuadratic base M1 C r s bl blST blUV gs as_ hs bs n = proveQuadratic base M2 C r t bl blST blUV gs as_ hs bs n.
Proof.
  intros Hr. apply omatch_eq. unfold proveQuadratic. cbv zeta. chal. eapply omatch_bind; [apply sim_pq_loop; assumption|].
  intros x y (H1 & H2 & H3 & H4 & H5 & H6 & H7 & H8). unfold proveQuadratic_last. cbv zeta. destruct blST as [u v], blUV as [u' v'].
  rewrite H2, H3, H4, H5, H6, H7, H8. do 4 same. chal. reflexivity.
Qed.
Definition vqrel (a : mst M1 * list F * list F) (b : mst M2 * list F * list F) : Prop :=
  match a, b with (s, x1, x2), (t, y1, y2) => rel s t /\ x1 = y1 /\ x2 = y2 end.
Lemma sim_vq_loop fuel : forall s t Ls Rs n h ii, rel s t ->
  omatch vqrel (verifyQuadratic_loop M1 fuel s Ls Rs n h ii) (verifyQuadratic_loop M2 fuel t Ls Rs n h ii).
Proof.
  induction fuel as [|fuel IH]; intros s t Ls Rs n h ii Hr; cbn [verifyQuadratic_loop]; (destruct (n <=? 1)%nat; [cbn; repeat split; assumption|]); [exact I|].
  cbv zeta. do 2 same. chal. same. eapply omatch_bind; [apply IH; assumption|].
  intros [[c1 c2] c3] [[d1 d2] d3] (H1 & -> & ->). cbn. repeat split. exact H1.
Qed.
Lemma sim_verifyQuadratic pf gs hs n eq s t uo vo : rel s t -> verifyQuadratic base M1 pf gs hs n eq s uo vo = verifyQuadratic base M2 pf gs hs n eq t uo vo.
Proof.
  intros Hr. apply omatch_eq. unfold verifyQuadratic. cbv zeta. chal. destruct (negb _ || negb _); [exact I|].
  eapply omatch_bind; [apply sim_vq_loop; assumption|]. intros [[c1 c2] c3] [[d1 d2] d3] (H1 & -> & ->). do 4 same. chal. reflexivity.
Qed.
End BP.

Section Steps.
Context {p : Z} {ell : nat} {G : gmod p}.
Notation F := (Fp p).
Notation E := (elt p ell).
Variables R1 R2 : rmerlin G.
Variable rel : mst R1 -> mst R2 -> Prop.
Hypothesis HS : simulates R1 R2 rel.
Hypothesis HB : forall a b l n, rel a b -> crel rel (rm_bytes R1 a l n) (rm_bytes R2 b l n).
Hypothesis HC : forall a b l m, rel a b -> rel (rm_commit R1 a l m) (rm_commit R2 b l m).
Variable c : cfg ell G.
Notation ps1 := (@pstate p ell G R1).
Notation ps2 := (@pstate p ell G R2).

(** The same state except for the transcript. *)
Definition moved (s : ps1) (m : mst R2) : ps2 :=
  PS (pidx s) (pcom s) (prnd s) (plin s) (pnorm s) (plinW s) (pqG s) (pqH s) (pcomp s) (pz s) m.
Definition prel (s : ps1) (t : ps2) : Prop := t = moved s (pmer t) /\ rel (pmer s) (pmer t).

Lemma prel_mer s t : prel s t -> rel (pmer s) (pmer t). Proof. now intros [_ H]. Qed.
Lemma prel_set_mer s t m m' : prel s t -> rel m m' -> prel (set_mer R1 s m) (set_mer R2 t m').
Proof. intros [E _] H. split; [rewrite E; reflexivity|exact H]. Qed.
Lemma prel_absorb s t l x : prel s t -> prel (absorb R1 s l x) (absorb R2 t l x).
Proof. intros H. assert (E := f_equal pcom (proj1 H)). unfold absorb. apply prel_set_mer; [exact H|]. rewrite E. cbn. apply (sim_pt _ _ _ HS), (proj2 H). Qed.
Lemma prel_com s t x g r : prel s t -> prel (set_com R1 s x g r) (set_com R2 t x g r).
Proof. intros [E H]. split; [rewrite E; reflexivity|exact H]. Qed.
Lemma prel_lin s t l : prel s t -> prel (set_lin R1 s l) (set_lin R2 t l).
Proof. intros [E H]. split; [rewrite E; reflexivity|exact H]. Qed.
Lemma prel_z s t l : prel s t -> prel (set_z R1 s l) (set_z R2 t l).
Proof. intros [E H]. split; [rewrite E; reflexivity|exact H]. Qed.
Lemma prel_wit s t x v : prel s t -> prel (wit R1 s x v) (wit R2 t x v).
Proof. intros [E H]. split; [rewrite E; reflexivity|exact H]. Qed.
Lemma prel_witS s t x v : prel s t -> prel (witS R1 s x v) (witS R2 t x v).
Proof. intros [E H]. split; [rewrite E; reflexivity|exact H]. Qed.
Lemma prel_witQ s t x v : prel s t -> prel (witQ R1 s x v) (witQ R2 t x v).
Proof. intros [E H]. split; [rewrite E; reflexivity|exact H]. Qed.
Lemma prel_next s t : prel s t -> prel (prepareForNextProof R1 s) (prepareForNextProof R2 t).
Proof. intros [E H]. split; [rewrite E; reflexivity|exact H]. Qed.
Lemma prel_idx s t : prel s t -> pidx s = pidx t. Proof. intros [E _]. now rewrite E. Qed.
Lemma sim_comS s t x v r : prel s t -> omatch prel (comS R1 c s x v r) (comS R2 c t x v r).
Proof. intros H. unfold comS, genAt. rewrite (prel_idx _ _ H). apply omatch_same. intros g _. now apply prel_com. Qed.
Lemma sim_comE s t x v r : prel s t -> omatch prel (comE R1 c s x v r) (comE R2 c t x v r).
Proof. intros H. unfold comE, genAt. rewrite (prel_idx _ _ H). apply omatch_same. intros g _. now apply prel_com. Qed.
Lemma sim_com2 s t x v r : prel s t -> omatch prel (com2 R1 c s x v r) (com2 R2 c t x v r).
Proof. intros H. unfold com2, genAt. rewrite (prel_idx _ _ H). apply omatch_same. intros g _. now apply prel_com. Qed.
Lemma sim_norm s t i b x y : prel s t -> omatch prel (norm R1 c s i b x y) (norm R2 c t i b x y).
Proof.
  intros [E H]. unfold norm. rewrite E at 1 2 3. cbn [moved pnorm pidx]. apply omatch_same. intros q _. split; [rewrite E; reflexivity|exact H].
Qed.
Lemma sim_copy s t x v : prel s t -> omatch prel (copy R1 s x v) (copy R2 t x v).
Proof.
  intros [E H]. unfold copy. rewrite E at 1 2. cbn [moved pcomp pidx]. apply omatch_same. intros q _. split; [rewrite E; reflexivity|exact H].
Qed.
Lemma on_block_ext (l : list (lincon p)) off f f' : (forall b, f b = f' b) -> on_block (ell := ell) l off f = on_block (ell := ell) l off f'.
Proof. intros H. unfold on_block. destruct (sub l off ell) as [b| | |]; cbn [obind]; [rewrite H|..]; reflexivity. Qed.
Lemma sim_block s t off f f' : prel s t -> (forall b, f b = f' b) -> omatch prel (block R1 s off f) (block R2 t off f').
Proof.
  intros H X. unfold block. rewrite (proj1 H) at 1. cbn [moved plin]. rewrite (on_block_ext _ _ _ _ X).
  apply omatch_same. intros q _. now apply prel_lin.
Qed.
Lemma sim_ternary m m' l n k : rel m m' -> omatch (crel rel) (ternaryE (ell := ell) R1 m l n k) (ternaryE (ell := ell) R2 m' l n k).
Proof.
  intros H. unfold ternaryE, newTernaryEMatrix. cbv zeta. destruct (HB m m' l (ell * ((n * k + 3) / 4))%nat H) as [E X]. rewrite E.
  apply omatch_same. intros Y _. split; [reflexivity|exact X].
Qed.
Lemma sim_element m m' l : rel m m' -> omatch (crel rel) (newElement (ell := ell) R1 m l) (newElement (ell := ell) R2 m' l).
Proof.
  intros H. unfold newElement. cbv zeta. destruct (HB m m' l (bytesPerScalar p * ell)%nat H) as [E X]. rewrite E.
  apply omatch_same. intros Y _. split; [reflexivity|exact X].
Qed.
Lemma sim_process m m' l (v : list E) : rel m m' -> rel (processVector R1 m l v) (processVector R2 m' l v).
Proof.
  intros H. destruct v as [|e v]; [exact H|]. cbn [processVector]. cbv zeta. apply (HC _ _ l (elementBytes e (bytesPerScalar p * ell))) in H.
  revert H. generalize (rm_commit R1 m l (elementBytes e (bytesPerScalar p * ell))), (rm_commit R2 m' l (elementBytes e (bytesPerScalar p * ell))).
  induction v as [|e' v IH]; intros a b H; [exact H|]. cbn [fold_left]. apply IH. now apply HC.
Qed.

(** The state relation of the goal from the one of the context. *)
Ltac pst := first [ eassumption | apply prel_absorb; pst | apply prel_wit; pst | apply prel_witS; pst | apply prel_witQ; pst
                  | apply prel_set_mer; [pst | first [assumption | apply prel_mer; pst]] ].
Ltac mer := first [assumption | apply prel_mer; pst].
Ltac blk := eapply sim_block; [pst|let b := fresh "b" in intros b; cbv beta zeta; unfold expand, make;
  match goal with H : prel _ _ |- _ => rewrite (prel_idx _ _ H) end; reflexivity].
(** One statement of a step. *)
Ltac one :=
  match goal with
  | |- omatch ?Q (let s := ?v in @?b s) (let t := ?v' in @?b' t) =>
      let n := fresh "s" in let n' := fresh "t" in let X := fresh "X" in
      assert (X : prel v v') by pst; change (omatch Q (b v) (b' v'));
      set (n := v) in *; set (n' := v') in *; clearbody n n'; cbv beta
  | |- omatch _ (obind (ternaryE _ _ _ _ _) _) _ => eapply omatch_bind; [apply sim_ternary; mer|let x := fresh "x" in let m := fresh "m" in let x' := fresh "x" in let m' := fresh "m" in let E := fresh "E" in let K := fresh "K" in
      intros [x m] [x' m'] [E K]; change (x = x') in E; change (rel m m') in K; subst x']
  | |- omatch _ (obind (newElement _ _ _) _) _ => eapply omatch_bind; [apply sim_element; mer|let x := fresh "x" in let m := fresh "m" in let x' := fresh "x" in let m' := fresh "m" in let E := fresh "E" in let K := fresh "K" in
      intros [x m] [x' m'] [E K]; change (x = x') in E; change (rel m m') in K; subst x']
  | |- omatch _ (obind (comS _ _ _ _ _ _) _) _ => eapply omatch_bind; [apply sim_comS; pst|intros ? ? ?]
  | |- omatch _ (obind (comE _ _ _ _ _ _) _) _ => eapply omatch_bind; [apply sim_comE; pst|intros ? ? ?]
  | |- omatch _ (obind (com2 _ _ _ _ _ _) _) _ => eapply omatch_bind; [apply sim_com2; pst|intros ? ? ?]
  | |- omatch _ (obind (norm _ _ _ _ _ _ _) _) _ => eapply omatch_bind; [apply sim_norm; pst|intros ? ? ?]
  | |- omatch _ (obind (copy _ _ _ _) _) _ => eapply omatch_bind; [apply sim_copy; pst|intros ? ? ?]
  | |- omatch _ (obind (block _ _ _ _) _) _ => eapply omatch_bind; [blk|intros ? ? ?]
  | |- omatch _ (obind _ _) _ => let x := fresh "x" in apply omatch_same; intros x _; try (match type of x with (_ * _)%type => destruct x end)
  | |- omatch _ (copy _ _ _ _) _ => apply sim_copy; pst
  end.
Lemma sim_dec s t rnd ctMat ctVec pt sk noise : prel s t ->
  omatch prel (proveDecryption R1 c s rnd ctMat ctVec pt sk noise) (proveDecryption R2 c t rnd ctMat ctVec pt sk noise).
Proof. intros H. cbv beta delta [proveDecryption]. repeat one. Qed.
Lemma sim_enc s t rnd ct1 ct2 pt er n1 n2 : prel s t ->
  omatch prel (proveEncryption R1 c s rnd ct1 ct2 pt er n1 n2) (proveEncryption R2 c t rnd ct1 ct2 pt er n1 n2).
Proof. intros H. cbv beta delta [proveEncryption]. repeat one. Qed.
Lemma sim_key s t rnd pk sk noise : prel s t -> omatch prel (proveKeyGen R1 c s rnd pk sk noise) (proveKeyGen R2 c t rnd pk sk noise).
Proof. intros H. cbv beta delta [proveKeyGen]. repeat one. Qed.
Lemma omapM_ext {A B} (g g' : A -> outcome B) l : (forall a, g a = g' a) -> omapM g l = omapM g' l.
Proof. intros H. induction l as [|a l IH]; [reflexivity|]. cbn [omapM]. rewrite H, IH. reflexivity. Qed.
Lemma sim_share s t lag p1 p2 : prel s t -> omatch prel (proveReShare R1 c s lag p1 p2) (proveReShare R2 c t lag p1 p2).
Proof.
  intros H. unfold proveReShare. assert (L : plin t = plin s) by now rewrite (proj1 H). rewrite L. destruct (negb _ || _ || _ || _); [exact I|]. destruct (negb _); [exact I|].
  rewrite (omapM_ext (reshare_con R1 c s lag) (reshare_con R2 c t lag)).
  - apply omatch_same. intros cs _. now apply prel_lin.
  - intros row. unfold reshare_con. now rewrite (prel_idx _ _ H).
Qed.
Definition trel (a : ps1 * list E * tematrix) (b : ps2 * list E * tematrix) : Prop := prel (fst (fst a)) (fst (fst b)) /\ snd (fst a) = snd (fst b) /\ snd a = snd b.
Lemma sim_sml_loop ys rs n : forall k s t, prel s t -> omatch trel (smallness_loop R1 c n k s ys rs) (smallness_loop R2 c n k t ys rs).
Proof.
  induction n as [|n IH]; intros k s t H; [exact I|]. cbn [smallness_loop]. cbv zeta.
  eapply omatch_bind; [apply sim_comE; exact H|]. intros s1 t1 H1. clear H.
  assert (P : pcom t1 = pcom s1) by now rewrite (proj1 H1). assert (Q : pcomp t1 = pcomp s1) by now rewrite (proj1 H1). rewrite P, Q.
  eapply omatch_bind; [apply sim_ternary, (sim_pt _ _ _ HS), (proj2 H1)|]. intros [X m] [X' m'] [E K]. change (X = X') in E. change (rel m m') in K. subst X'.
  apply omatch_same. intros u _. apply omatch_same. intros z _. destruct (_ && _).
  - split; [|split; reflexivity]. apply prel_set_mer; [now apply prel_z|exact K].
  - apply IH. now apply prel_z.
Qed.
Lemma sim_sml s t ys rs : prel s t -> omatch prel (proveSmallness R1 c s ys rs) (proveSmallness R2 c t ys rs).
Proof.
  intros H. cbv beta delta [proveSmallness]. assert (Q : pcomp t = pcomp s) by now rewrite (proj1 H). rewrite Q. destruct (negb _); [exact I|].
  eapply omatch_bind; [apply sim_sml_loop; exact H|]. intros [[s1 y] X] [[t1 y'] X'] (H1 & E1 & E2). cbn [fst snd] in H1. change (y = y') in E1. change (X = X') in E2.
  subst y' X'. clear H Q. assert (Z : pz t1 = pz s1) by now rewrite (proj1 H1).
  match goal with |- omatch ?Q (let a := ?v in @?b a) (let a' := ?v' in @?b' a') => assert (H2 : prel v v') by (apply prel_set_mer; [exact H1|rewrite Z; apply sim_process, (proj2 H1)]); 
    change (omatch Q (b v) (b' v')); set (s2 := v) in *; set (t2 := v') in *; clearbody s2 t2; cbv beta end. clear Z.
  one. one. assert (Z : pz t0 = pz s0) by now rewrite (proj1 X0). one. one. rewrite Z. eapply omatch_bind; [blk|]. intros s3 t3 H3. apply prel_wit. exact H3.
Qed.
Lemma sim_steps s t i : prel s t -> omatch prel (proofSteps R1 c s i) (proofSteps R2 c t i).
Proof.
  intros H. unfold proofSteps. eapply omatch_bind; [apply sim_dec; exact H|]. intros s1 t1 H1. eapply omatch_bind; [apply sim_enc; exact H1|]. intros s2 t2 H2.
  eapply omatch_bind; [apply sim_key; exact H2|]. intros s3 t3 H3. eapply omatch_bind; [apply sim_share; exact H3|]. intros s4 t4 H4. apply sim_sml. exact H4.
Qed.

Variable pick : list (cursor p) -> nat.
Ltac chal :=
  match goal with
  | |- omatch _ (let '(_, _) := m_chal _ ?a ?l in _) (let '(_, _) := m_chal _ ?b _ in _) =>
      let x := fresh "x" in let m := fresh "m" in let x' := fresh "x" in let m' := fresh "m" in let E := fresh "E" in let K := fresh "K" in
      assert (E : crel rel (m_chal R1 a l) (m_chal R2 b l)) by (apply (sim_ch _ _ _ HS); assumption);
      destruct (m_chal R1 a l) as [x m], (m_chal R2 b l) as [x' m']; destruct E as [E K]; change (x = x') in E; change (rel m m') in K; subst x'
  end.
Definition arel {A} (a : ps1 * A) (b : ps2 * A) : Prop := prel (fst a) (fst b) /\ snd a = snd b.
Lemma sim_agg1 s t : prel s t -> omatch arel (aggregateVerifier1 R1 pick s) (aggregateVerifier1 R2 pick t).
Proof.
  intros [E H]. unfold aggregateVerifier1. rewrite E. cbn [moved plin pnorm pidx pcom prnd plinW pqG pqH pcomp pz pmer]. chal.
  apply omatch_same. intros rv1 _. apply omatch_same. intros lin _. chal. apply omatch_same. intros rv2 _. apply omatch_same. intros quad _. apply omatch_same. intros terms _.
  destruct (splitPtxtVec terms (qidx quad)) as [[as_ bs] w]. destruct (negb _); [exact I|]. apply omatch_same. intros com _. cbn. split; [|reflexivity].
  split; [reflexivity|exact K0].
Qed.
Lemma sim_agg2 m m' w (a : rtv G) : rel m m' ->
  omatch (fun x y => rel (fst x) (fst y) /\ snd x = snd y) (aggregateVerifier2 R1 m w a) (aggregateVerifier2 R2 m' w a).
Proof.
  intros H. unfold aggregateVerifier2. chal. apply omatch_same. intros uv _. destruct (negb _); [exact I|]. apply omatch_same. intros uu _. chal. cbv zeta.
  apply omatch_same. intros A _. apply omatch_same. intros [[as' dG] dH] _. cbn. split; [exact K0|reflexivity].
Qed.
Lemma sim_agg s t w : prel s t -> omatch arel (aggregateProver R1 c pick s w) (aggregateProver R2 c pick t w).
Proof.
  intros H. unfold aggregateProver. eapply omatch_bind; [apply sim_agg1; exact H|]. intros [s1 a] [t1 a'] [H1 E1]. change (a = a') in E1. subst a'. cbn [fst] in H1. cbv beta iota zeta.
  destruct H1 as [E1 K1]. rewrite E1. cbn [moved plin pnorm pidx pcom prnd plinW pqG pqH pcomp pz pmer].
  apply omatch_same. intros rnd _. destruct (negb _); [exact I|]. apply omatch_same. intros wG _.
  eapply omatch_bind; [apply sim_agg2; exact K1|]. intros [m a2] [m' a2'] [K E2]. change (a2 = a2') in E2. subst a2'. cbn [fst] in K. cbv beta iota.
  apply omatch_same. intros qG _. apply omatch_same. intros qH _. cbn. split; [|reflexivity]. split; [reflexivity|exact K].
Qed.
(** What the final proofs get. *)
Definition frel (a : ps1 * flatdata R1) (b : ps2 * flatdata R2) : Prop :=
  prel (fst a) (fst b) /\ rel (fmL (snd a)) (fmL (snd b)) /\ rel (fmQ (snd a)) (fmQ (snd b)) /\
  snd b = (let d := snd a in Flat (fmL (snd b)) (fmQ (snd b)) (flinCom d) (fquadCom d) (flRnd d) (fqRnd d) (flinEq d) (fquadEq d) (flinGs d) (flinStmnt d) (flinWtns d)
    (fquadGs d) (fquadHs d) (foffG d) (foffH d) (fqwG d) (fqwH d)).
Lemma sim_prepare s t w : prel s t -> omatch frel (prepareProofs R1 c pick s w) (prepareProofs R2 c pick t w).
Proof.
  intros H. unfold prepareProofs. eapply omatch_bind; [apply sim_agg; exact H|]. intros [s1 a] [t1 a'] [H1 E1]. change (a = a') in E1. subst a'. cbn [fst] in H1. cbv beta iota zeta.
  destruct H1 as [E1 K1]. unfold flattenLinPrv. rewrite E1. cbn [moved plin pnorm pidx pcom prnd plinW pqG pqH pcomp pz pmer].
  destruct (negb _); [exact I|]. destruct (flattenLinVer c (rv a)) as [[gs stm]| | |]; cbn [obind]; try exact I. cbv beta iota.
  unfold flattenQuadPrv. cbn [plin pnorm pidx pcom prnd plinW pqG pqH pcomp pz pmer].
  match goal with |- omatch _ (obind (obind ?o _) _) _ => destruct o as [q| | |]; cbn [obind]; try exact I end.
  match goal with |- omatch _ (obind (obind ?o _) _) _ => destruct o as [ws| | |]; cbn [obind]; try exact I end.
  destruct q as [[[qgs qhs] og] oh]. destruct ws as [wg wh]. cbn [obind]. cbn [omatch]. repeat split; cbn.
  - exact K1.
  - apply (sim_ln _ _ _ HS). exact K1.
  - apply (sim_qd _ _ _ HS). exact K1.
Qed.
Lemma sim_run s t w b : prel s t -> omatch arel (runProofs R1 c pick s w b) (runProofs R2 c pick t w b).
Proof.
  intros H. unfold runProofs. eapply omatch_bind; [apply sim_prepare; exact H|]. intros [s1 d] [t1 d'] (H1 & H2 & H3 & E). cbn [fst snd] in *.
  assert (V : proveVerify R1 c d b = proveVerify R2 c d' b).
  { unfold proveVerify. rewrite E. cbn [flinCom fquadCom flRnd fqRnd flinEq fquadEq flinGs flinStmnt flinWtns fquadGs fquadHs foffG foffH fqwG fqwH fmL fmQ]. cbv zeta.
    rewrite (sim_proveLinear R1 R2 rel HS (cbase c) _ _ _ _ _ _ _ _ _ _ H2). apply omatch_eq. apply omatch_same. intros pfL _.
    rewrite (sim_verifyLinear R1 R2 rel HS (cbase c) _ _ _ _ _ _ _ _ H2). apply omatch_same. intros okL _.
    rewrite (sim_proveQuadratic R1 R2 rel HS (cbase c) _ _ _ _ _ _ _ _ _ _ _ _ H3). apply omatch_same. intros pfQ _.
    rewrite (sim_verifyQuadratic R1 R2 rel HS (cbase c) _ _ _ _ _ _ _ _ _ H3). apply omatch_same. intros okQ _. reflexivity. }
  rewrite V. apply omatch_same. intros ok _. split; [exact H1|reflexivity].
Qed.
Lemma sim_round s t i : prel s t -> omatch arel (proofRound R1 c pick s i) (proofRound R2 c pick t i).
Proof. intros H. unfold proofRound. eapply omatch_bind; [apply sim_steps; exact H|]. intros s1 t1 H1. now apply sim_run. Qed.
Lemma sim_rounds is : forall s t, prel s t -> omatch arel (proofRounds R1 c pick s is) (proofRounds R2 c pick t is).
Proof.
  induction is as [|i is IH]; intros s t H; cbn [proofRounds]; [split; [exact H|reflexivity]|].
  eapply omatch_bind; [apply sim_round; exact H|]. intros [s1 ok] [t1 ok'] [H1 E]. change (ok = ok') in E. subst ok'. cbn [fst] in H1.
  eapply omatch_bind; [apply IH, prel_next, H1|]. intros [s2 oks] [t2 oks'] [H2 E]. change (oks = oks') in E. subst oks'. split; [exact H2|reflexivity].
Qed.
Lemma sim_key0 s t sk r : prel s t -> omatch prel (commitKey R1 c s sk r) (commitKey R2 c t sk r).
Proof.
  intros [E H]. unfold commitKey. rewrite E. cbn [moved plin pnorm pidx pcom prnd plinW pqG pqH pcomp pz pmer]. apply omatch_same. intros g _. split; [reflexivity|exact H].
Qed.
End Steps.
