(** C04-C13: properties of /repo/src/dlproofs/constraints.cpp and
    /repo/include/constraints.hpp.  Only statements, one-line proofs,
    non-vacuity examples and Print Assumptions. *)
From Coq Require Import ZArith Znumtheory List Bool Lia Permutation.
From Verif Require Import Outcome Fp FSum ConstraintsModel ConstraintsSpec
  ConstraintsProofs ConstraintsMerge ConstraintsOther Prime25519.
Import ListNotations.
Open Scope Z_scope.

Notation s17 := (@toF 17).
Definition ex_c1 : lincon 17 := LinCon [(1, s17 2); (4, s17 5)] (s17 3).
Definition ex_c2 : lincon 17 := LinCon [(1, s17 15); (2, s17 1); (7, s17 6)] (s17 9).
Lemma ex_wf : Forall wf_lin [ex_c1; ex_c2].
Proof.
  repeat constructor; cbn; repeat split; try (intros e He; repeat (destruct He as [<-|He]; [cbn; lia|]); destruct He).
Qed.
(** vals of a result, for computing examples *)
Definition show_lin (o : outcome (lincon 17)) : outcome (list (Z * Z) * Z) :=
  omap (fun m => (map (fun e => (fst e, fval (snd e))) (lterms m), fval (leq m))) o.
Definition show_quad (o : outcome (quadcon 17)) : outcome (list Z * Z) :=
  omap (fun m => (qidx m, fval (qeq m))) o.

(** C04 *)
Theorem C04_merge_coefficients :
  forall (p : Z) (pick : list (cursor p) -> nat), queue_order pick ->
  forall (cs : list (lincon p)) (coeffs : list (Fp p)), Forall wf_lin cs ->
  (length cs <> length coeffs <-> lin_merge pick cs coeffs = Throw) /\
  (length cs = length coeffs ->
   exists m, lin_merge pick cs coeffs = Ret m /\
     ksorted (lterms m) /\
     (forall k, coef (lterms m) k = comb_coef cs coeffs k) /\
     (forall k, In k (keys (lterms m)) <->
                comb_coef cs coeffs k <> 0%F \/ is_max_index cs coeffs k)).
Proof.
  intros p pick Hp cs coeffs Hwf. split; [symmetry; apply lin_merge_throw|].
  intros Hl. destruct (lin_merge_spec pick Hp cs coeffs Hl Hwf) as (m & H1 & H2 & H3 & H4 & _).
  exists m. tauto.
Qed.
Example C04_example : Forall wf_lin [ex_c1; ex_c2] /\
  queue_order (@min_index 17) /\
  show_lin (lin_merge (@min_index 17) [ex_c1; ex_c2] [s17 1; s17 1])
  = Ret ([(2, 1); (4, 5); (7, 6)], 12).
Proof. split; [exact ex_wf|]. split; [apply min_index_order|reflexivity]. Qed.
Print Assumptions C04_merge_coefficients.

(** C05: false of the code; an unsatisfiable constraint without terms vanishes. *)
Theorem C05_merge_rhs_refuted :
  exists (p : Z) (cs : list (lincon p)) (coeffs : list (Fp p)) (m : lincon p),
    prime p /\ Forall wf_lin cs /\ length cs = length coeffs /\
    Forall (fun c => c <> 0%F) coeffs /\
    lin_merge min_index cs coeffs = Ret m /\
    leq m <> comb_rhs cs coeffs /\
    (forall w, ~ Forall (fun c => lin_sat c w) cs) /\
    (exists w, lin_sat m w).
Proof.
  exists 17, [LinCon [] (s17 1); ex_c1], [s17 1; s17 1].
  eexists. split; [exact prime_17|]. split.
  { constructor; [exact I|]. pose proof ex_wf as H. inversion H; subst. constructor; [assumption|constructor]. }
  split; [reflexivity|]. split.
  { repeat constructor; intros H; apply (f_equal (@fval 17)) in H; vm_compute in H; discriminate. }
  split; [reflexivity|]. split.
  { intros H. apply (f_equal (@fval 17)) in H. vm_compute in H. discriminate. }
  split.
  { intros w H. inversion H as [|? ? Hs _]; subst. unfold lin_sat in Hs. cbn in Hs.
    apply (f_equal (@fval 17)) in Hs. vm_compute in Hs. discriminate. }
  exists (fun k => if k =? 4 then s17 4 else 0%F). unfold lin_sat. apply Fp_eq. vm_compute. reflexivity.
Qed.
Print Assumptions C05_merge_rhs_refuted.

(** C05 for constraints that have at least one term (or right-hand side 0);
    missing: constraints with no terms and a non-zero right-hand side, for
    which C05_merge_rhs_refuted shows that the claim fails. *)
Theorem C05_merge_rhs_partial :
  forall (p : Z) (pick : list (cursor p) -> nat), queue_order pick ->
  forall (cs : list (lincon p)) (coeffs : list (Fp p)) m,
  Forall wf_lin cs -> length cs = length coeffs ->
  lin_merge pick cs coeffs = Ret m ->
  Forall (fun c => lterms c <> [] \/ leq c = 0%F) cs ->
  leq m = comb_rhs cs coeffs.
Proof.
  intros p pick Hp cs coeffs m Hwf Hl Hm Hne.
  destruct (lin_merge_spec pick Hp cs coeffs Hl Hwf) as (m' & H1 & _ & _ & _ & H5).
  rewrite Hm in H1. injection H1 as <-. rewrite H5. now apply merge_eq_full.
Qed.
Example C05_example : Forall (fun c : lincon 17 => lterms c <> [] \/ leq c = 0%F) [ex_c1; ex_c2].
Proof. repeat (constructor; [left; discriminate|]); constructor. Qed.
Print Assumptions C05_merge_rhs_partial.

(** C06 *)
Theorem C06_merge_complete :
  forall (p : Z) (pick : list (cursor p) -> nat), queue_order pick ->
  forall (cs : list (lincon p)) (coeffs : list (Fp p)) m w,
  length cs = length coeffs -> Forall wf_lin cs -> lin_merge pick cs coeffs = Ret m ->
  Forall (fun c => lin_sat c w) cs -> lin_sat m w.
Proof. intros; eapply lin_merge_complete; eassumption. Qed.
Print Assumptions C06_merge_complete.

Theorem C06_merge_sound :
  forall (p : Z), prime p ->
  forall (pick : list (cursor p) -> nat), queue_order pick ->
  forall (cs : list (lincon p)) w (rs : list (Fp p)),
  Forall wf_lin cs -> Forall (fun c => lterms c <> []) cs ->
  ~ Forall (fun c => lin_sat c w) cs ->
  NoDup rs ->
  Forall (fun r => exists m, lin_merge pick cs (powers r (length cs)) = Ret m /\ lin_sat m w) rs ->
  (length rs < length cs)%nat.
Proof. intros; eapply lin_merge_sound; eassumption. Qed.
Example C06_example :
  let w := fun k => if k =? 4 then s17 4 else 0%F in
  lin_sat ex_c1 w /\ ~ Forall (fun c => lin_sat c w) [ex_c1; ex_c2] /\
  Forall (fun c : lincon 17 => lterms c <> []) [ex_c1; ex_c2] /\
  (* the challenge 0 is the one bad challenge *)
  exists m, lin_merge min_index [ex_c1; ex_c2] (powers 0%F 2) = Ret m /\ lin_sat m w.
Proof.
  cbv zeta. split; [apply Fp_eq; vm_compute; reflexivity|]. split.
  { intros H. inversion H as [|? ? _ H2]; subst. inversion H2 as [|? ? H3 _]; subst.
    apply (f_equal (@fval 17)) in H3. vm_compute in H3. discriminate. }
  split; [repeat constructor; discriminate|].
  eexists. split; [reflexivity|]. apply Fp_eq. vm_compute. reflexivity.
Qed.
Print Assumptions C06_merge_sound.

(** C07 *)
Theorem C07_quad_merge :
  forall (p : Z) (qs : list (quadcon p)) (coeffs : list (Fp p)),
  Forall wf_quad qs ->
  (length qs <> length coeffs <-> quad_merge qs coeffs = Throw) /\
  (length qs = length coeffs ->
   exists m, quad_merge qs coeffs = Ret m /\ zsorted (qidx m) /\
    (forall k, In k (qidx m) <-> exists q, In q qs /\ In k (qidx q)) /\
    qeq m = fsum (map (fun e => (qeq (fst e) * snd e * snd e)%F) (combine qs coeffs)) /\
    (all_disjoint qs -> forall u v su sv : Z -> Fp p,
       Forall (fun q => quad_sat q u v) qs ->
       (forall q c k, In (q, c) (combine qs coeffs) -> In k (qidx q) ->
                      su k = (c * u k)%F /\ sv k = (c * v k)%F) ->
       quad_sat m su sv)).
Proof.
  intros p qs coeffs Hwf. split; [symmetry; apply quad_merge_throw|]. intros Hl.
  destruct (quad_merge_spec qs coeffs Hl Hwf) as (m & H1 & H2 & H3 & H4 & _).
  exists m. repeat split; try assumption; try apply H3.
  intros Hd u v su sv Hs Hsc. exact (quad_merge_complete qs coeffs m u v Hl Hwf Hd H1 Hs su sv Hsc).
Qed.
Example C07_example :
  let q1 := QuadCon [1; 5] (s17 5) : quadcon 17 in
  let q2 := QuadCon [2] (s17 9) : quadcon 17 in
  let u := fun k => if k =? 1 then s17 1 else if k =? 5 then s17 2 else s17 3 in
  all_disjoint [q1; q2] /\ quad_sat q1 u u /\ quad_sat q2 u u /\
  show_quad (quad_merge [q1; q2] [s17 2; s17 3]) = Ret ([1; 2; 5], (5 * 4 + 9 * 9) mod 17).
Proof.
  cbv zeta. repeat split; try (apply Fp_eq; vm_compute; reflexivity).
  - intros k q' [<-|[]] H1 H2. cbn in H1, H2. lia.
  - intros k q' [].
Qed.
Print Assumptions C07_quad_merge.

(** C08: false of the code: some disjoint pairs run into undefined behaviour
    (the loop tests the iterator into [other] against the end of [this]). *)
Theorem C08_quad_add_refuted :
  exists (p : Z) (q other : quadcon p),
    prime p /\ wf_quad q /\ wf_quad other /\
    (forall k, In k (qidx q) -> ~ In k (qidx other)) /\ quad_add q other = UB.
Proof.
  exists 17, (QuadCon [1; 5] 0%F), (QuadCon [3] 0%F). split; [exact prime_17|].
  repeat split; try reflexivity; cbn; intros; intuition lia.
Qed.
Print Assumptions C08_quad_add_refuted.

(** C08, exact characterisation of all outcomes.  Missing with respect to the
    full claim: the pairs in [add_ub] (undefined), and pairs in which exactly
    one index set is empty, whose own right-hand side is dropped. *)
Theorem C08_quad_add_partial :
  forall (p : Z) (q other : quadcon p), wf_quad q -> wf_quad other ->
  (qidx q <> [] -> qidx other <> [] ->
     (exists k, In k (qidx q) /\ In k (qidx other)) -> quad_add q other = Throw) /\
  (add_ub q other -> quad_add q other = UB) /\
  (~ (exists k, In k (qidx q) /\ In k (qidx other)) -> ~ add_ub q other ->
     exists r, quad_add q other = Ret r /\ wf_quad r /\
       (forall k, In k (qidx r) <-> In k (qidx q) \/ In k (qidx other)) /\
       (qidx q <> [] -> qidx other <> [] -> qeq r = (qeq q + qeq other)%F) /\
       (qidx other = [] -> r = q) /\ (qidx q = [] -> qidx other <> [] -> r = other)).
Proof. intros; now apply quad_add_spec. Qed.
Example C08_example :
  show_quad (quad_add (QuadCon [1; 5] (s17 3)) (QuadCon [2; 9] (s17 4))) = Ret ([1; 2; 5; 9], 7) /\
  show_quad (quad_add (QuadCon [1; 5] (s17 3)) (QuadCon [2; 5; 9] (s17 4))) = Throw /\
  show_quad (quad_add (QuadCon [1; 5] (s17 3)) (QuadCon [7; 9] (s17 4))) = Ret ([1; 5; 7; 9], 7).
Proof. repeat split. Qed.
Print Assumptions C08_quad_add_partial.

(** C09 *)
Theorem C09_addTerm_history :
  forall (p : Z) (ts : list (Z * Fp p)) (c : lincon p), wf_lin c ->
  let c' := fold_left (fun c e => addTerm c (fst e) (snd e)) ts c in
  wf_lin c' /\ leq c' = leq c /\
  (forall k, coef (lterms c') k = (coef (lterms c) k + coef ts k)%F) /\
  (forall k, In k (keys (lterms c')) <-> In k (keys (lterms c)) \/ In k (keys ts)).
Proof. intros; now apply addTerms_spec. Qed.
Print Assumptions C09_addTerm_history.
Theorem C09_addTerm_order :
  forall (p : Z) (ts ts' : list (Z * Fp p)) (c : lincon p), wf_lin c -> Permutation ts ts' ->
  fold_left (fun c e => addTerm c (fst e) (snd e)) ts c
  = fold_left (fun c e => addTerm c (fst e) (snd e)) ts' c.
Proof. intros; now apply addTerms_order. Qed.
Print Assumptions C09_addTerm_order.
Theorem C09_addIdx_history :
  forall (p : Z) (is : list Z) (q : quadcon p), wf_quad q ->
  (NoDup is /\ (forall i, In i is -> ~ In i (qidx q)) ->
     exists q', addIdxs q is = Ret q' /\ wf_quad q' /\ qeq q' = qeq q /\
       forall k, In k (qidx q') <-> In k is \/ In k (qidx q)) /\
  (~ (NoDup is /\ (forall i, In i is -> ~ In i (qidx q))) -> addIdxs q is = Throw).
Proof. intros; now apply addIdxs_spec. Qed.
Example C09_example :
  show_quad (addIdxs (QuadCon [4] (s17 1)) [9; 2; 3]) = Ret ([2; 3; 4; 9], 1) /\
  show_quad (addIdxs (QuadCon [4] (s17 1)) [9; 2; 9]) = Throw /\
  show_lin (Ret (fold_left (fun c e => addTerm c (fst e) (snd e)) [(9, s17 16); (2, s17 3); (9, s17 5)] ex_c1))
  = Ret ([(1, 2); (2, 3); (4, 5); (9, 4)], 3).
Proof. repeat split. Qed.
Print Assumptions C09_addIdx_history.

(** C10 *)
Theorem C10_innerProduct :
  forall (p : Z) (v1 v2 : pvec p) (ks : list Z), ksorted v1 -> ksorted v2 ->
  NoDup ks -> (forall k, In k ks <-> In k (keys v1) /\ In k (keys v2)) ->
  innerProduct v1 v2 = fsum (map (fun k => (coef v1 k * coef v2 k)%F) ks).
Proof. intros; now apply innerProduct_spec. Qed.
Print Assumptions C10_innerProduct.
Theorem C10_innerProduct_symmetric :
  forall (p : Z) (v1 v2 : pvec p), ksorted v1 -> ksorted v2 -> innerProduct v1 v2 = innerProduct v2 v1.
Proof. intros; now apply innerProduct_sym. Qed.
Example C10_example :
  fval (innerProduct [(1, s17 2); (4, s17 5); (6, s17 7)] [(0, s17 3); (1, s17 6); (6, s17 2)]) = (2 * 6 + 7 * 2) mod 17.
Proof. reflexivity. Qed.
Print Assumptions C10_innerProduct_symmetric.

(** C11 *)
Theorem C11_split :
  forall (p : Z) (src : pvec p) (s : list Z) i d n, ksorted src -> zsorted s ->
  (forall k, In k (keys src) -> 0 <= k) -> (forall k, In k s -> 0 <= k) ->
  splitPtxtVec src s = (i, d, n) ->
  i = filter (fun e => existsb (Z.eqb (fst e)) s) src /\
  d = filter (fun e => negb (existsb (Z.eqb (fst e)) s)) src /\
  Permutation src (i ++ d) /\
  1 <= n /\ (forall k, In k (keys src) \/ In k s -> k < n) /\
  (n = 1 /\ src = [] /\ s = [] \/ In (n - 1) (keys src) \/ In (n - 1) s).
Proof. intros; now apply splitPtxtVec_spec. Qed.
Example C11_example :
  let '(i, d, n) := splitPtxtVec [(1, s17 2); (4, s17 5); (6, s17 7)] [0; 4; 5] in
  (keys i, keys d, n) = ([4], [1; 6], 7).
Proof. reflexivity. Qed.
Print Assumptions C11_split.

(** C12 *)
Theorem C12_makeAlmostDisjoint :
  forall (p : Z) (lin : lincon p) (quad : quadcon p) (s : Fp p),
  wf_lin lin -> wf_quad quad ->
  Forall in_range31 (keys (lterms lin)) -> Forall in_range31 (qidx quad) ->
  exists lin' quad' nk,
    makeAlmostDisjoint lin quad s = Ret (lin', quad', nk) /\
    wf_lin lin' /\ wf_quad quad' /\
    (* nk is fresh and is the only shared variable *)
    ~ In nk (qidx quad) /\
    (forall k, In k (keys (lterms lin')) <-> k = nk \/ (In k (keys (lterms lin)) /\ ~ In k (qidx quad))) /\
    ~ In nk (keys (lterms lin)) /\
    (forall k, In k (qidx quad') <-> k = nk \/ In k (qidx quad)) /\
    coef (lterms lin') nk = 1%F /\
    (forall k, k <> nk -> ~ In k (qidx quad) -> coef (lterms lin') k = coef (lterms lin) k) /\
    forall x y : Z -> Fp p,
      lin_sat lin' (new_x lin quad nk x) /\
      (quad_sat quad' (new_x lin quad nk x) (new_y lin s nk y) <->
       (quad_val (qidx quad) x y - qeq quad = s * (lin_val (lterms lin) x - leq lin))%F).
Proof. intros; now apply makeAlmostDisjoint_spec. Qed.
Print Assumptions C12_makeAlmostDisjoint.

(** Converse direction: any witness of the new pair with second component s of
    the fresh variable satisfies the combined equation of the old pair. *)
Theorem C12_makeAlmostDisjoint_back :
  forall (p : Z) (lin : lincon p) (quad : quadcon p) (s : Fp p) lin' quad' nk (x y : Z -> Fp p),
  wf_lin lin -> wf_quad quad ->
  Forall in_range31 (keys (lterms lin)) -> Forall in_range31 (qidx quad) ->
  makeAlmostDisjoint lin quad s = Ret (lin', quad', nk) ->
  lin_sat lin' x -> quad_sat quad' x y -> y nk = s ->
  (quad_val (qidx quad) x (fun k => y k + s * coef (lterms lin) k) - qeq quad
   = s * (lin_val (lterms lin) x - leq lin))%F.
Proof. intros; eapply makeAlmostDisjoint_back; eassumption. Qed.
Print Assumptions C12_makeAlmostDisjoint_back.

(** The combined equation for two different scalars gives both constraints. *)
Theorem C12_two_scalars :
  forall (p : Z), prime p -> forall (lin : lincon p) (quad : quadcon p) (s1 s2 : Fp p) x y,
  s1 <> s2 ->
  (quad_val (qidx quad) x y - qeq quad = s1 * (lin_val (lterms lin) x - leq lin))%F ->
  (quad_val (qidx quad) x y - qeq quad = s2 * (lin_val (lterms lin) x - leq lin))%F ->
  lin_sat lin x /\ quad_sat quad x y.
Proof. intros p Hp; intros; eapply (two_scalars Hp); eassumption. Qed.
Example C12_example :
  let lin := LinCon [(1, s17 2); (4, s17 5)] (s17 12) : lincon 17 in
  let quad := QuadCon [4; 6] (s17 9) : quadcon 17 in
  let x := fun k => s17 (match k with 1 => 1 | 4 => 2 | _ => 3 end) in
  let y := fun k => s17 (match k with 4 => 3 | _ => 1 end) in
  lin_sat lin x /\ quad_sat quad x y /\
  match makeAlmostDisjoint lin quad (s17 7) with
  | Ret (l', q', nk) => nk = 7 /\ keys (lterms l') = [1; 7] /\ qidx q' = [4; 6; 7] /\
      lin_sat l' (new_x lin quad nk x) /\ quad_sat q' (new_x lin quad nk x) (new_y lin (s17 7) nk y)
  | _ => False
  end.
Proof. cbv zeta. repeat split; apply Fp_eq; vm_compute; reflexivity. Qed.
Print Assumptions C12_two_scalars.

(** Outside the index range the int arithmetic of largestKey is wrong: the
    "fresh" index collides (here index 2^32+5 is truncated to 5). *)
Theorem C12_large_index_refuted :
  exists (p : Z) (lin : lincon p) (quad : quadcon p) (s : Fp p) lin' quad' nk,
    prime p /\ wf_lin lin /\ wf_quad quad /\
    Forall (fun k => 0 <= k < 2 ^ 64) (keys (lterms lin)) /\
    Forall (fun k => 0 <= k < 2 ^ 64) (qidx quad) /\
    makeAlmostDisjoint lin quad s = Ret (lin', quad', nk) /\ In nk (qidx quad).
Proof.
  exists 17, (LinCon [(3, s17 1)] 0%F), (QuadCon [6; 2 ^ 32 + 5] 0%F), 0%F. eexists _, _, 6.
  split; [exact prime_17|]. split; [|split; [|split; [|split; [|split]]]].
  - split; [intros e []|exact I].
  - split; [intros e [<-|[]]; reflexivity|]. split; [intros e []|exact I].
  - constructor; [cbn; lia|constructor].
  - constructor; [lia|]. constructor; [lia|constructor].
  - reflexivity.
  - now left.
Qed.
Print Assumptions C12_large_index_refuted.

(** C13 *)
Theorem C13_checkConstraint :
  forall (p : Z) (c : lincon p) (q : quadcon p) (w xs ys : pvec p),
  wf_lin c -> wf_quad q -> ksorted w -> ksorted xs -> ksorted ys ->
  (checkLin c w = true <->
     (forall k, In k (keys (lterms c)) <-> In k (keys w)) /\ lin_sat c (coef w)) /\
  (checkLinLoose c w = true <->
     (forall k, coef (lterms c) k <> 0%F -> In k (keys w)) /\ lin_sat c (coef w)) /\
  (checkQuad q xs ys = true <->
     (forall k, In k (qidx q) <-> In k (keys xs)) /\ (forall k, In k (qidx q) <-> In k (keys ys)) /\
     quad_sat q (coef xs) (coef ys)) /\
  (checkQuadLoose q xs ys = true <->
     (forall k, In k (qidx q) -> In k (keys xs) /\ In k (keys ys)) /\ quad_sat q (coef xs) (coef ys)).
Proof.
  intros. split; [now apply checkLin_spec|]. split; [now apply checkLinLoose_spec|].
  split; [now apply checkQuad_spec|now apply checkQuadLoose_spec].
Qed.
Example C13_example :
  checkLin ex_c1 [(1, s17 1); (4, s17 7)] = true /\
  checkLin ex_c1 [(1, s17 1); (4, s17 8)] = false /\
  checkLin ex_c1 [(1, s17 1); (3, s17 1); (4, s17 7)] = false /\
  checkLinLoose ex_c1 [(1, s17 1); (3, s17 1); (4, s17 7)] = true /\
  checkQuad (QuadCon [2; 3] (s17 8)) [(2, s17 1); (3, s17 2)] [(2, s17 4); (3, s17 2)] = true.
Proof. repeat split. Qed.
Print Assumptions C13_checkConstraint.
