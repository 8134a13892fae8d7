(** Layout, expansion of ring constraints, slices of commitments. *)
From Coq Require Import ZArith List Bool Lia Ring.
From Verif Require Import Outcome Fp FSum GroupMod Ring ConstraintsModel ConstraintsSpec ConstraintsProofs ConstraintsOther
  PedersenModel AlgebraModel AlgebraSpec TernaryModel RegevModel RegevPfModel RegevPfSpec.
Import ListNotations.
Open Scope Z_scope.

(** *** setIndexes *)
Definition npos (J : Z) (x : var) : Z :=
  match x with
  | DCompHi => 0 | DPadHi => J | DCompLo => J + 4 | DPadLo => 2 * J + 4
  | RComp => 2 * J + 8 | RPad => 3 * J + 8
  | EComp1Hi => 3 * J + 12 | EPad1Hi => 4 * J + 12 | EComp1Lo => 4 * J + 16 | EPad1Lo => 5 * J + 16
  | EComp2Hi => 5 * J + 20 | EPad2Hi => 6 * J + 20 | EComp2Lo => 6 * J + 24 | EPad2Lo => 7 * J + 24
  | Sk2Comp => 7 * J + 28 | Sk2Pad => 8 * J + 28
  | KCompHi => 8 * J + 32 | KPadHi => 9 * J + 32 | KCompLo => 9 * J + 36 | KPadLo => 10 * J + 36
  | _ => 10 * J + 40
  end.
Definition pos (J L kl n t : Z) (x : var) : Z :=
  match x with
  | Sk1 => 10 * J + 40 | Sk2 => 10 * J + 40 + kl | RR => 10 * J + 40 + 2 * kl | Pt1 => 10 * J + 40 + 3 * kl
  | Pt2 => 10 * J + 40 + 3 * kl + t | YY => 10 * J + 40 + 3 * kl + t + n | WW => 10 * J + 40 + 3 * kl + t + n + L
  | _ => npos J x
  end.
Lemma as_int_inv z r : as_int z = Ret r -> r = z /\ - 2 ^ 31 <= z < 2 ^ 31.
Proof.
  unfold as_int. destruct (Z.leb_spec (- 2 ^ 31) z), (Z.ltb_spec z (2 ^ 31)); cbn [andb]; intros H1; try discriminate.
  injection H1 as <-. lia.
Qed.
Fixpoint before (l : list (var * Z)) (x : var) : Z :=
  match l with [] => 0 | (v, len) :: l' => if var_eq_dec x v then 0 else len + before l' x end.
Lemma upd_same {A} (f : var -> A) v a : upd f v a v = a.
Proof. unfold upd. destruct (var_eq_dec v v); congruence. Qed.
Lemma upd_other {A} (f : var -> A) v a x : x <> v -> upd f v a x = f x.
Proof. unfold upd. destruct (var_eq_dec x v); congruence. Qed.
Lemma assign_inv l : forall from f g, NoDup (map fst l) -> ~ In WW (map fst l) -> assign l from f = Ret g ->
  g WW = from + before l WW /\ (l <> [] -> g WW < 2 ^ 31) /\ forall x, x <> WW -> g x = if in_dec var_eq_dec x (map fst l) then from + before l x else f x.
Proof.
  induction l as [|[v len] l IH]; intros from f g Hn Hw H.
  - cbn [assign] in H. injection H as <-. cbn [before map in_dec]. split; [rewrite upd_same; lia|]. split; [congruence|].
    intros x Hx. now rewrite upd_other.
  - cbn [assign] in H. apply obind_ret_inv in H as [z [E H]]. apply as_int_inv in E as [-> E].
    cbn [map fst] in Hn, Hw. inversion Hn as [|? ? Hv Hn']; subst.
    assert (Hw' : ~ In WW (map fst l)) by (intros ?; apply Hw; now right).
    destruct (IH _ _ _ Hn' Hw' H) as (A1 & A2 & A3). cbn [before]. split; [|split].
    + rewrite A1. destruct (var_eq_dec WW v) as [<-|]; [exfalso; apply Hw; now left|lia].
    + intros _. destruct l as [|q l]; [|now apply A2]. rewrite A1. cbn [before]. lia.
    + intros x Hx. rewrite (A3 x Hx). cbn [map fst].
      destruct (in_dec var_eq_dec x (map fst l)) as [Hi|Hi].
      * destruct (in_dec var_eq_dec x (v :: map fst l)) as [_|Hc]; [|exfalso; apply Hc; now right].
        destruct (var_eq_dec x v) as [->|]; [contradiction|lia].
      * destruct (in_dec var_eq_dec x (v :: map fst l)) as [Hc|Hc].
        -- destruct Hc as [->|Hc]; [|contradiction]. rewrite upd_same. destruct (var_eq_dec x x); [lia|congruence].
        -- rewrite upd_other; [reflexivity|]. intros ->. apply Hc. now left.
Qed.
Lemma layout_names J L l k n t : map fst (layout J L l k n t) =
  [DCompHi; DPadHi; DCompLo; DPadLo; RComp; RPad; EComp1Hi; EPad1Hi; EComp1Lo; EPad1Lo; EComp2Hi; EPad2Hi; EComp2Lo; EPad2Lo;
   Sk2Comp; Sk2Pad; KCompHi; KPadHi; KCompLo; KPadLo; Sk1; Sk2; RR; Pt1; Pt2; YY].
Proof. reflexivity. Qed.
Lemma before_pos J L l k n t x : before (layout J L l k n t) x = pos J L (k * l) n t x.
Proof. destruct x; cbv -[Z.add Z.mul]; ring. Qed.
Lemma all_named J L l k n t x : x <> WW -> In x (map fst (layout J L l k n t)).
Proof. rewrite layout_names. destruct x; intros H; try congruence; cbn; tauto. Qed.
Lemma setIndexes_inv J L l k n t idx : setIndexes J L l k n t = Ret idx ->
  (forall x, idx x = pos J L (k * l) n t x) /\ pos J L (k * l) n t WW < 2 ^ 31.
Proof.
  unfold setIndexes. intros H. apply obind_ret_inv in H as [kl [_ H]].
  apply assign_inv in H.
  - destruct H as (H1 & H2 & H3). rewrite before_pos in H1. rewrite Z.add_0_l in H1. split.
    + intros x. destruct (var_eq_dec x WW) as [->|Hx]; [exact H1|].
      rewrite (H3 x Hx). destruct (in_dec _ _ _) as [_|Hc]; [|exfalso; apply Hc; now apply all_named].
      now rewrite before_pos.
    + rewrite <- H1. apply H2. unfold layout. discriminate.
  - rewrite layout_names. repeat constructor; cbn; intuition congruence.
  - rewrite layout_names. cbn. intuition congruence.
Qed.
(** Facts used below; they survive the exchange of the two key ranges. *)
Definition good_idx (J L l k n t : Z) (idx : var -> Z) : Prop :=
  (forall x, is_norm x = true -> idx x = npos J x) /\
  (forall x, is_norm x = false -> npos J Sk1 <= idx x) /\
  (forall x, x <> WW -> idx x + vlen J L l k n t x <= idx WW) /\
  idx WW < 2 ^ 31 /\ idx WW = pos J L (k * l) n t WW /\
  (forall x y, x <> y -> idx x + vlen J L l k n t x <= idx y \/ idx y + vlen J L l k n t y <= idx x) /\
  (forall j, 0 <= j <= idx WW -> exists x, idx x <= j < idx x + vlen J L l k n t x).

Lemma good_set J L l k n t idx : 0 < J -> 0 < L -> 0 < l -> 0 < k -> 0 < n -> 0 < t ->
  setIndexes J L l k n t = Ret idx -> good_idx J L l k n t idx.
Proof.
  intros HJ HL Hl Hk Hn Ht H. apply setIndexes_inv in H as [Hp Hw].
  assert (Hkl : 0 < k * l) by nia. unfold good_idx. rewrite (Hp WW).
  split; [|split; [|split; [|split; [|split; [|split]]]]].
  - intros x Hx. rewrite Hp. destruct x; try discriminate; reflexivity.
  - intros x Hx. rewrite Hp. destruct x; try discriminate; cbn [pos npos]; lia.
  - intros x Hx. rewrite Hp. destruct x; try congruence; cbn [pos npos vlen is_comp is_pad]; unfold vlen; cbn [is_comp is_pad]; lia.
  - exact Hw.
  - reflexivity.
  - intros x y Hxy. rewrite !Hp. unfold vlen.
    destruct x; destruct y; try congruence; cbn [pos npos is_comp is_pad]; lia.
  - intros j Hj. cbn [pos] in Hj, Hw.
    assert (G : forall x, (pos J L (k * l) n t x <=? j) && (j <? pos J L (k * l) n t x + vlen J L l k n t x) = true ->
                exists x, idx x <= j < idx x + vlen J L l k n t x).
    { intros x Hx. exists x. rewrite Hp. apply andb_true_iff in Hx as [H1 H2]. apply Z.leb_le in H1. apply Z.ltb_lt in H2. lia. }
    assert (T : forall x y, pos J L (k * l) n t x + vlen J L l k n t x = pos J L (k * l) n t y ->
                pos J L (k * l) n t x <= j -> (exists x, idx x <= j < idx x + vlen J L l k n t x) \/ pos J L (k * l) n t y <= j).
    { intros x y H1 H2. destruct (Z_lt_le_dec j (pos J L (k * l) n t y)) as [H3|H3]; [left|now right].
      apply (G x). apply andb_true_iff. rewrite Z.leb_le, Z.ltb_lt. lia. }
    assert (H0 : pos J L (k * l) n t DCompHi <= j) by (cbn [pos npos]; lia).
    repeat match goal with
    | H : pos J L (k * l) n t ?x <= j |- _ =>
      let y := match x with
        | DCompHi => DPadHi | DPadHi => DCompLo | DCompLo => DPadLo | DPadLo => RComp | RComp => RPad | RPad => EComp1Hi
        | EComp1Hi => EPad1Hi | EPad1Hi => EComp1Lo | EComp1Lo => EPad1Lo | EPad1Lo => EComp2Hi | EComp2Hi => EPad2Hi
        | EPad2Hi => EComp2Lo | EComp2Lo => EPad2Lo | EPad2Lo => Sk2Comp | Sk2Comp => Sk2Pad | Sk2Pad => KCompHi
        | KCompHi => KPadHi | KPadHi => KCompLo | KCompLo => KPadLo | KPadLo => Sk1 | Sk1 => Sk2 | Sk2 => RR
        | RR => Pt1 | Pt1 => Pt2 | Pt2 => YY | YY => WW end in
      let H' := fresh in
      destruct (T x y) as [H'|H']; [cbn [pos npos vlen]; unfold vlen; cbn [is_comp is_pad]; lia|exact H|exact H'|clear H]
    end.
    apply (G WW). unfold vlen. cbn [is_comp is_pad pos] in *. rewrite andb_true_iff, Z.leb_le, Z.ltb_lt. lia.
Qed.
Lemma good_swap J L l k n t idx idx' : good_idx J L l k n t idx -> (forall x, idx' x = swap_sk idx x) ->
  good_idx J L l k n t idx'.
Proof.
  intros (H1 & H2 & H3 & H4 & H5 & H6 & H7) E. unfold good_idx. rewrite (E WW). cbn [swap_sk].
  split; [|split; [|split; [|split; [|split; [|split]]]]]; try assumption.
  - intros x Hx. rewrite E. destruct x; try discriminate; cbn [swap_sk]; now apply H1.
  - intros x Hx. rewrite E. destruct x; try discriminate; cbn [swap_sk]; now apply H2.
  - intros x Hx. rewrite E. destruct x; cbn [swap_sk]; try (now apply H3).
    + change (vlen J L l k n t Sk1) with (vlen J L l k n t Sk2). now apply H3.
    + change (vlen J L l k n t Sk2) with (vlen J L l k n t Sk1). now apply H3.
  - intros x y Hxy. rewrite !E.
    set (s := fun x => match x with Sk1 => Sk2 | Sk2 => Sk1 | _ => x end).
    assert (A : forall x, swap_sk idx x = idx (s x)) by (intros []; reflexivity).
    assert (B : forall x, vlen J L l k n t x = vlen J L l k n t (s x)) by (intros []; reflexivity).
    rewrite !A, (B x), (B y). apply H6. destruct x; destruct y; cbn; congruence.
  - intros j Hj. destruct (H7 j Hj) as [x Hx].
    exists (match x with Sk1 => Sk2 | Sk2 => Sk1 | _ => x end). rewrite E. destruct x; cbn [swap_sk]; exact Hx.
Qed.
Lemma good_is_layout J L l k n t idx : 0 < J -> good_idx J L l k n t idx -> is_layout (vlen J L l k n t) idx.
Proof.
  intros HJ (H1 & H2 & H3 & H4 & H5 & H6 & H7). split; [|split].
  - intros x y j Hx Hy. destruct (var_eq_dec x y) as [|N]; [assumption|]. destruct (H6 x y N); lia.
  - intros j. split; [apply H7|]. intros [x Hx].
    assert (0 <= idx x).
    { destruct (is_norm x) eqn:N.
      - rewrite (H1 x N). destruct x; try discriminate; cbn [npos]; lia.
      - pose proof (H2 x N). cbn [npos] in *. lia. }
    destruct (var_eq_dec x WW) as [->|N]; [unfold vlen in Hx; cbn in Hx; lia|]. specialize (H3 x N). lia.
  - exists (npos J Sk1). intros x. destruct (is_norm x) eqn:N.
    + rewrite (H1 x N). unfold vlen. destruct x; try discriminate; cbn [npos is_comp is_pad]; lia.
    + now apply H2.
Qed.
(** setIndexes succeeds exactly when the last index is an int. *)
Lemma assign_ok l : forall from f, 0 <= from -> Forall (fun e => 0 <= snd e) l ->
  from + before l WW < 2 ^ 31 -> ~ In WW (map fst l) -> exists g, assign l from f = Ret g.
Proof.
  induction l as [|[v len] l IH]; intros from f H0 Hf Hw Hn; cbn [assign]; [eauto|].
  inversion Hf as [|? ? Hl Hf']; subst. cbn [snd] in Hl. cbn [before] in Hw. cbn [map fst] in Hn.
  destruct (var_eq_dec WW v) as [<-|]; [exfalso; apply Hn; now left|].
  assert (B : 0 <= before l WW). { clear - Hf'. induction l as [|[u m] l IH]; cbn [before]; [lia|]. apply Forall_cons_iff in Hf' as [Hm Hf']. cbn [snd] in Hm. specialize (IH Hf'). destruct (var_eq_dec WW u); lia. }
  unfold as_int. rewrite (proj2 (Z.leb_le (- 2 ^ 31) (from + len))), (proj2 (Z.ltb_lt (from + len) (2 ^ 31))) by lia.
  cbn [andb obind]. apply IH; [lia|assumption|lia|]. intros ?. apply Hn. now right.
Qed.
Lemma setIndexes_ok J L l k n t : 0 < J -> 0 < L -> 0 < l -> 0 < k -> 0 < n -> 0 < t ->
  ((exists idx, setIndexes J L l k n t = Ret idx) <-> 10 * J + 40 + 3 * (k * l) + t + n + L < 2 ^ 31).
Proof.
  intros HJ HL Hl Hk Hn Ht. assert (Hkl : 0 < k * l) by nia. split.
  - intros [idx H]. now apply setIndexes_inv in H as [_ H].
  - intros H. unfold setIndexes, as_int at 1.
    rewrite (proj2 (Z.leb_le (- 2 ^ 31) (k * l))), (proj2 (Z.ltb_lt (k * l) (2 ^ 31))) by lia. cbn [andb obind].
    apply assign_ok; [lia| |rewrite before_pos; cbn [pos]; lia|rewrite layout_names; cbn; intuition congruence].
    unfold layout. repeat constructor; cbn [snd]; lia.
Qed.
Lemma prep_iter_idx {p ell} {G : gmod p} (R : rmerlin G) (n : nat) (st : @pstate p ell G R) x :
  pidx (Nat.iter n (prepareForNextProof R) st) x = Nat.iter n swap_sk (pidx st) x.
Proof.
  revert x. induction n as [|n IH]; intros x; [reflexivity|].
  change (Nat.iter (S n) (prepareForNextProof R) st) with (prepareForNextProof R (Nat.iter n (prepareForNextProof R) st)).
  change (Nat.iter (S n) swap_sk (pidx st) x) with (swap_sk (Nat.iter n swap_sk (pidx st)) x).
  unfold prepareForNextProof. cbn [pidx]. destruct x; unfold upd; cbn -[Nat.iter]; apply IH.
Qed.
Lemma layout_good {p ell} {G : gmod p} (c : cfg ell G) idx : (0 < JLDIM c)%nat -> (0 < LINYDIM c)%nat -> (0 < ell)%nat ->
  0 < kay (cgk c) -> 0 < enn (cgk c) -> 0 < tee (cgk c) -> layout_of c idx ->
  good_idx (Z.of_nat (JLDIM c)) (Z.of_nat (LINYDIM c)) (Z.of_nat ell) (kay (cgk c)) (enn (cgk c)) (tee (cgk c)) idx.
Proof.
  intros H1 H2 H3 H4 H5 H6 H. induction H as [idx H|idx idx' _ IH H].
  - apply good_set; try lia; assumption.
  - eapply good_swap; eassumption.
Qed.
Lemma layout_iter {p ell} {G : gmod p} (c : cfg ell G) n : forall idx idx', layout_of c idx -> (forall x, idx' x = Nat.iter n swap_sk idx x) -> layout_of c idx'.
Proof.
  induction n as [|n IH]; intros idx idx' H E.
  - cbn in E. assert (layout_of c (swap_sk idx)) by (eapply layout_swap; [exact H|reflexivity]).
    eapply layout_swap; [exact H0|]. intros x. rewrite E. destruct x; reflexivity.
  - eapply layout_swap; [apply (IH idx (Nat.iter n swap_sk idx) H); reflexivity|exact E].
Qed.
