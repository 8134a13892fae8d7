(** Properties C44-C46: the layer of variables, constraints and commitments
    under the proofs about encryption. *)
From Coq Require Import ZArith List Lia Bool.
From Verif Require Import Outcome Fp FSum GroupMod Ring ConstraintsModel ConstraintsSpec ConstraintsProofs PedersenModel
  AlgebraModel AlgebraSpec TernaryModel RegevModel RegevPfModel RegevPfSpec RegevPfBase RegevPfLin RegevPfCom BulletproofExamples.
Import ListNotations.
Open Scope Z_scope.

(** C44 *)
Theorem C44_layout J L ell kay enn tee idx : 0 < J -> 0 < L -> 0 < ell -> 0 < kay -> 0 < enn -> 0 < tee ->
  setIndexes J L ell kay enn tee = Ret idx -> is_layout (vlen J L ell kay enn tee) idx.
Proof. intros H1 H2 H3 H4 H5 H6 H. apply good_is_layout; [assumption|]. now apply good_set. Qed.
Print Assumptions C44_layout.
Theorem C44_succeeds J L ell kay enn tee : 0 < J -> 0 < L -> 0 < ell -> 0 < kay -> 0 < enn -> 0 < tee ->
  ((exists idx, setIndexes J L ell kay enn tee = Ret idx) <->
   10 * (J + 4) + 3 * (kay * ell) + tee + enn + L < 2 ^ 31).
Proof.
  intros H1 H2 H3 H4 H5 H6. rewrite setIndexes_ok by assumption.
  replace (10 * (J + 4)) with (10 * J + 40) by ring. reflexivity.
Qed.
Print Assumptions C44_succeeds.
(** The generators: every place k of a variable has getG(k); the places of the variables
    under norm constraints, which come first, also have getH(k); the last H belongs to w. *)
Theorem C44_generators p (G : gmod p) (getG getH : Z -> G) J L ell kay enn tee idx : 0 < J -> 0 < L -> 0 < ell -> 0 < kay -> 0 < enn -> 0 < tee ->
  setIndexes J L ell kay enn tee = Ret idx ->
  let Gs := fst (computeGenerators getG getH idx) in let Hs := snd (computeGenerators getG getH idx) in
  Z.of_nat (length Gs) = idx WW + 1 /\
  (forall x k, idx x <= k < idx x + vlen J L ell kay enn tee x ->
     nth_error Gs (Z.to_nat k) = Some (getG k) /\
     if is_norm x then k < Z.of_nat (length Hs) - 1 /\ nth_error Hs (Z.to_nat k) = Some (getH k) else Z.of_nat (length Hs) - 1 <= k) /\
  nth_error Hs (length Hs - 1) = Some (getH (idx WW)).
Proof.
  intros H1 H2 H3 H4 H5 H6 H. pose proof (good_set _ _ _ _ _ _ _ H1 H2 H3 H4 H5 H6 H) as (_ & HG & HW & _).
  pose proof (C44_layout _ _ _ _ _ _ _ H1 H2 H3 H4 H5 H6 H) as (_ & HC & n & HN). destruct (setIndexes_inv _ _ _ _ _ _ _ H) as [Hi _].
  assert (ES : idx Sk1 = npos J Sk1) by (rewrite Hi; reflexivity). assert (S0 : 0 <= idx Sk1) by (rewrite ES; cbn [npos]; lia).
  cbv zeta. cbn [computeGenerators fst snd]. rewrite app_length, !map_length, !seq_length. cbn [length].
  assert (W0 : idx Sk1 <= idx WW) by (rewrite ES; apply HG; reflexivity).
  split; [lia|]. split.
  - intros x k Hk. assert (0 <= k <= idx WW) by (apply HC; exists x; exact Hk). split.
    + rewrite nth_error_map, (nth_error_nth' _ 0%nat) by (rewrite seq_length; lia). cbn [option_map]. rewrite seq_nth by lia. f_equal. f_equal. lia.
    + pose proof (HN x) as Q. pose proof (HN Sk1) as Q1. cbn [is_norm is_comp is_pad orb] in Q1. destruct (is_norm x) eqn:En.
      * split; [lia|]. rewrite nth_error_app1 by (rewrite map_length, seq_length; lia).
        rewrite nth_error_map, (nth_error_nth' _ 0%nat) by (rewrite seq_length; lia). cbn [option_map]. rewrite seq_nth by lia. f_equal. f_equal. lia.
      * pose proof (HG x En). lia.
  - rewrite nth_error_app2 by (rewrite map_length, seq_length; lia). rewrite map_length, seq_length. replace (Z.to_nat (idx Sk1) + 1 - 1 - Z.to_nat (idx Sk1))%nat with 0%nat by lia. reflexivity.
Qed.
Print Assumptions C44_generators.
(** Any number of further proofs with the same object. *)
Theorem C44_next_proofs p ell (G : gmod p) (R : rmerlin G) (c : cfg ell G) (st : @pstate p ell G R) n :
  (0 < JLDIM c)%nat -> (0 < LINYDIM c)%nat -> (0 < ell)%nat -> 0 < kay (cgk c) -> 0 < enn (cgk c) -> 0 < tee (cgk c) ->
  setIndexes (Z.of_nat (JLDIM c)) (Z.of_nat (LINYDIM c)) (Z.of_nat ell) (kay (cgk c)) (enn (cgk c)) (tee (cgk c)) = Ret (pidx st) ->
  is_layout (clen c) (pidx (Nat.iter n (prepareForNextProof R) st)).
Proof.
  intros H1 H2 H3 H4 H5 H6 H. apply good_is_layout; [lia|]. apply layout_good; try assumption.
  eapply layout_iter; [apply layout_set; exact H|]. intros x. apply prep_iter_idx.
Qed.
Print Assumptions C44_next_proofs.
Example C44_example : exists idx, setIndexes 256 128 2 2944 256 126 = Ret idx /\ idx Sk1 = 2600 /\ idx WW = 20774 /\
  idx DCompHi = 0 /\ idx KPadLo = 2596.
Proof. eexists. split; [vm_compute; reflexivity|]. repeat split; vm_compute; reflexivity. Qed.
Example C44_overflow_example : setIndexes 256 128 2 357913941 256 126 = UB.
Proof. vm_compute. reflexivity. Qed.

(** C45: the ell constraints as one equation in the ring. *)
Theorem C45_expand p ell (b b' : list (lincon p)) idx (v : list (elt p ell)) from to w :
  length b = ell -> Forall wf_lin b -> expandConstraints b idx v from to = Ret b' ->
  let n := (match to with Some t => t | None => length v end - from)%nat in
  length b' = ell /\ Forall wf_lin b' /\ rhsE (ell := ell) b' = rhsE b /\
  lhsE b' w = eadd (lhsE b w) (sumE n (fun i => emul (nth (from + i) v e0) (readV w idx i))).
Proof.
  intros H1 H2 H. destruct (expandConstraints_spec b idx v from to b' (conj H1 H2) H) as ([A1 A2] & A3 & A4 & _).
  repeat split; auto.
Qed.
Print Assumptions C45_expand.
Theorem C45_make p ell (b b' : list (lincon p)) idx (v : list (elt p ell)) from to w :
  length b = ell -> Forall wf_lin b -> makeConstraints b idx v from to = Ret b' ->
  let n := (match to with Some t => t | None => length v end - from)%nat in
  length b' = ell /\ Forall wf_lin b' /\ rhsE (ell := ell) b' = rhsE b /\
  lhsE b' w = eadd (lhsE b w) (sumE n (fun i => escale (w (idx + Z.of_nat i)) (nth (from + i) v e0))).
Proof.
  intros H1 H2 H. destruct (makeConstraints_spec b idx v from to b' (conj H1 H2) H) as ([A1 A2] & A3 & A4 & _).
  repeat split; auto.
Qed.
Print Assumptions C45_make.
(** From empty constraints: they hold iff the inner product over the ring has
    the given value. *)
Theorem C45_holds_iff p ell (b b' : list (lincon p)) idx (v : list (elt p ell)) e w :
  length b = ell -> expandConstraints (setEqsTo (clearBlock b) e) idx v 0 None = Ret b' ->
  ((forall c, In c b' -> lin_sat c w) <-> sumE (length v) (fun i => emul (nth i v e0) (readV w idx i)) = e).
Proof.
  intros Hb H. destruct (clear_spec b Hb) as (C1 & C2 & _). destruct (setEqsTo_spec _ e C1) as (S1 & S2 & S3 & _).
  destruct (expandConstraints_spec _ idx v 0 None b' S1 H) as ([A1 A2] & A3 & A4 & _).
  specialize (A4 w). rewrite S3, C2, eadd_0_l, Nat.sub_0_r in A4. cbn [Nat.add] in A4. rewrite S2 in A3.
  rewrite <- A4, <- A3. rewrite <- (block_sat_iff b' 0 b' w A1 (fun i _ => eq_refl)). split.
  - intros Hc i Hi. exists (nth i b' (LinCon [] 0%F)). split; [now apply nth_error_nth'; rewrite A1|].
    apply Hc, nth_In. now rewrite A1.
  - intros Hc c Hin. apply (In_nth_error) in Hin as [i Hi].
    assert (i < ell)%nat by (rewrite <- A1; apply nth_error_Some; congruence).
    destruct (Hc i H0) as [c' [E S]]. cbn [Nat.add] in E. congruence.
Qed.
Print Assumptions C45_holds_iff.
Theorem C45_make_holds_iff p ell (b b' : list (lincon p)) idx (v : list (elt p ell)) e w :
  length b = ell -> makeConstraints (setEqsTo (clearBlock b) e) idx v 0 None = Ret b' ->
  ((forall c, In c b' -> lin_sat c w) <-> sumE (length v) (fun i => escale (w (idx + Z.of_nat i)) (nth i v e0)) = e).
Proof.
  intros Hb H. destruct (clear_spec b Hb) as (C1 & C2 & _). destruct (setEqsTo_spec _ e C1) as (S1 & S2 & S3 & _).
  destruct (makeConstraints_spec _ idx v 0 None b' S1 H) as ([A1 A2] & A3 & A4 & _).
  specialize (A4 w). rewrite S3, C2, eadd_0_l, Nat.sub_0_r in A4. cbn [Nat.add] in A4. rewrite S2 in A3.
  rewrite <- A4, <- A3. rewrite <- (block_sat_iff b' 0 b' w A1 (fun i _ => eq_refl)). split.
  - intros Hc i Hi. exists (nth i b' (LinCon [] 0%F)). split; [now apply nth_error_nth'; rewrite A1|].
    apply Hc, nth_In. now rewrite A1.
  - intros Hc c Hin. apply (In_nth_error) in Hin as [i Hi].
    assert (i < ell)%nat by (rewrite <- A1; apply nth_error_Some; congruence).
    destruct (Hc i H0) as [c' [E S]]. cbn [Nat.add] in E. congruence.
Qed.
Print Assumptions C45_make_holds_iff.
(** Both always return on whole vectors. *)
Theorem C45_total p ell (b : list (lincon p)) idx (v : list (elt p ell)) :
  (exists b', expandConstraints b idx v 0 None = Ret b') /\ (exists b', makeConstraints b idx v 0 None = Ret b').
Proof. rewrite expandConstraints_all, makeConstraints_all. eauto. Qed.
Print Assumptions C45_total.
(* (2 + 3X) * (x5 + x6 X) = 10 + 15 X modulo X^2 + 1: holds for x5 = 5, x6 = 0, not for x6 = 1 *)
Definition ex_e (a b : Z) : elt 17 2 := mkE 2 (fun i => if (i =? 0)%nat then s17 a else s17 b).
Example C45_example : exists b', expandConstraints (setEqsTo (clearBlock [emptyLin; emptyLin]) (ex_e 10 15)) 5 [ex_e 2 3] 0 None = Ret b' /\
  (forall c, In c b' -> lin_sat c (fun k => if k =? 5 then s17 5 else s17 0)) /\
  ~ (forall c, In c b' -> lin_sat c (fun k => if k =? 5 then s17 5 else s17 1)).
Proof.
  destruct (C45_total 17 2 (setEqsTo (clearBlock [emptyLin; emptyLin]) (ex_e 10 15)) 5 [ex_e 2 3]) as [[b' H] _].
  exists b'. split; [exact H|]. rewrite !(C45_holds_iff 17 2 [emptyLin; emptyLin] b' 5 [ex_e 2 3] (ex_e 10 15)) by (exact H || reflexivity). split.
  - apply elt_eq. apply (f_equal2 cons (x1 := s17 10)); [apply Fp_eq; vm_compute; reflexivity|].
    apply (f_equal2 cons (x1 := s17 15)); [apply Fp_eq; vm_compute; reflexivity|reflexivity].
  - intros C. apply (f_equal (fun e => fval (coeff e 0))) in C. vm_compute in C. discriminate.
Qed.

(** C46: slices of element vectors (one and two generator lists). *)
Theorem C46_elements p ell (G : gmod p) (base : G) (v : list (elt p ell)) gi Gs r from to : (from <= to <= length v)%nat ->
  commitE base v gi Gs r from (Some to) =
    if (length Gs <? gi + ell * (to - from))%nat then Throw
    else Ret (gadd (gmul base r) (gdot (skipn gi Gs) (coeffs_of (firstn (to - from) (skipn from v))))).
Proof. apply commitE_slice. Qed.
Print Assumptions C46_elements.
Theorem C46_elements_two p ell (G : gmod p) (base : G) (v : list (elt p ell)) gi Gs Hs r from to : (from <= to <= length v)%nat ->
  let n := (ell * (to - from))%nat in
  let xs := coeffs_of (firstn (to - from) (skipn from v)) in
  commitE2 base v gi Gs Hs r from (Some to) =
    if (length Gs <? gi + n)%nat || (length Hs <? gi + n)%nat then Throw
    else Ret (gadd (gmul base r) (gadd (gdot (skipn gi Gs) xs) (gdot (skipn gi Hs) xs))).
Proof. apply commitE2_slice. Qed.
Print Assumptions C46_elements_two.
(** Prefixes of scalar vectors. *)
Theorem C46_scalars_partial p (G : gmod p) (base : G) (v : list (Fp p)) gi Gs r to : (to <= length v)%nat ->
  commitS base v gi Gs r 0 (Some to) =
    if (length Gs <? gi + to)%nat then Throw else Ret (gadd (gmul base r) (gdot (skipn gi Gs) (firstn to v))).
Proof. apply commitS_prefix. Qed.
Print Assumptions C46_scalars_partial.
(** Every other slice of a scalar vector writes outside the array. *)
Theorem C46_refuted : (exists (G : gmod 17) (base : G) (v : list (Fp 17)) (gi : nat) (Gs : list G) (r : Fp 17) (from to : nat),
    (from <= to <= length v)%nat /\ (gi + (to - from) <= length Gs)%nat /\ commitS base v gi Gs r from (Some to) = UB) /\
  (forall p (G : gmod p) (base : G) v gi Gs r from to, (0 < from < to)%nat -> (to <= length v)%nat ->
     (gi + (to - from) <= length Gs)%nat -> commitS base v gi Gs r from (Some to) = UB).
Proof.
  split.
  - exists (Fp_gmod 17), (s17 1), [s17 1; s17 2], 0%nat, [s17 3], (s17 0), 1%nat, 2%nat.
    split; [cbn; lia|]. split; [cbn; lia|]. apply commitS_offset; cbn; lia.
  - intros. now apply commitS_offset.
Qed.
Print Assumptions C46_refuted.
Example C46_example : commitE (G := Fp_gmod 17) (s17 2) [ex_e 1 2; ex_e 3 4; ex_e 5 6] 1 [s17 1; s17 2; s17 3; s17 4; s17 5] (s17 7) 1 (Some 3%nat)
  = Ret (s17 (2 * 7 + 2 * 3 + 3 * 4 + 4 * 5 + 5 * 6)).
Proof. rewrite C46_elements by (cbn; lia). cbn [length Nat.ltb Nat.leb]. apply f_equal. apply Fp_eq. vm_compute. reflexivity. Qed.
