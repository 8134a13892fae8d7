(** Proofs about Shamir sharing. *)
From Coq Require Import ZArith Znumtheory List Lia Bool Field.
From Verif Require Import NumTheory Outcome Fp FSum Poly LinAlg ShamirModel ShamirSpec.
Import ListNotations.
Open Scope Z_scope.
Local Open Scope fp_scope.

Section Gen.
Context {p : Z}.
Notation F := (Fp p).
Add Ring FpRingS : (@Fp_ring p).

Lemma nInner_dot (a b : list F) : nInner a b = dot a b.
Proof. reflexivity. Qed.

Lemma poly_at_peval (c : list F) x : poly_at c x = peval c x.
Proof.
  unfold poly_at. induction c as [|a c IH]; [reflexivity|].
  cbn [length seq map fsum nth peval]. rewrite <- seq_shift, map_map. cbn [nth].
  rewrite <- IH, <- fsum_map_scale. f_equal; [cbn; ring|].
  apply fsum_map_ext. intros i _. cbn. ring.
Qed.
Lemma map_poly_at (c : list F) xs : map (poly_at c) xs = map (peval c) xs.
Proof. apply map_ext. apply poly_at_peval. Qed.

Lemma seq_dot (r x : list F) : (length r = length x)%nat ->
  fsum (map (fun k => nth k r 0 * nth k x 0) (seq 0 (length r))) = dot r x.
Proof.
  revert x; induction r as [|a r IH]; intros [|b x] H; cbn [length] in H; try lia; [reflexivity|].
  cbn [length seq map fsum dot nth]. rewrite <- seq_shift, map_map. cbn [nth].
  rewrite IH by lia. reflexivity.
Qed.
Lemma seq_dot_g {A} (d : A) (f : A -> F) (x : list F) (m : list A) : (length x = length m)%nat ->
  fsum (map (fun i => nth i x 0 * f (nth i m d)) (seq 0 (length m))) = dot x (map f m).
Proof.
  revert x; induction m as [|r m IH]; intros [|b x] H; cbn [length] in H; try lia; [reflexivity|].
  cbn [length seq map fsum dot nth]. rewrite <- seq_shift, map_map. cbn [nth].
  rewrite IH by lia. reflexivity.
Qed.
Lemma row_times_dot (r x : list F) : length r = length x -> row_times r x = dot r x.
Proof. apply seq_dot. Qed.
Lemma times_col_dot (x : list F) m j : length x = length m ->
  times_col x m j = dot x (map (fun r => nth j r 0) m).
Proof. intros H. unfold times_col, entry. exact (seq_dot_g [] (fun r => nth j r 0) x m H). Qed.

Lemma gen_row_nth k (v ep : F) j : (j < k)%nat -> nth j (gen_row k v ep) 0 = v * ep ^ j.
Proof.
  revert v j; induction k as [|k IH]; intros v j H; [lia|].
  destruct j as [|j]; cbn [gen_row nth]; [cbn; ring|].
  rewrite IH by lia. cbn. ring.
Qed.
Lemma fpow_0_S j : (0 : F) ^ (S j) = 0.
Proof. cbn. ring. Qed.

(** Columns of the generating matrix. *)
Lemma genMatrix_col thr evs (m : list (list F)) : genMatrix thr evs = Ret m ->
  (0 < thr)%Z /\ length m = S (length evs) /\
  forall j, (j < Z.to_nat thr)%nat ->
    map (fun r => nth j r 0) m = map (fun a => a ^ j) (0 :: map (toF p) evs).
Proof.
  unfold genMatrix. destruct (Z.ltb_spec thr 0); [discriminate|].
  destruct (Z.eqb_spec thr 0); [discriminate|]. intros E. injection E as <-.
  split; [lia|]. split; [cbn; now rewrite map_length|].
  intros j Hj. cbn [map]. f_equal.
  - destruct j as [|j]; [reflexivity|]. cbn [nth].
    rewrite fpow_0_S. generalize (Z.to_nat thr - 1)%nat. intros n0. revert j Hj.
    induction n0 as [|n0 IH]; intros [|j] Hj; cbn; try reflexivity. apply IH. lia.
  - rewrite !map_map. apply map_ext. intros e. rewrite gen_row_nth by assumption. ring.
Qed.

(** x * M = 0 in columns < t makes x orthogonal to all evaluation vectors of
    polynomials with at most t coefficients. *)
Lemma dot_powers_poly (x xs : list F) (t : nat) :
  (forall j, (j < t)%nat -> dot x (map (fun a => a ^ j) xs) = 0) ->
  forall c, (length c <= t)%nat -> dot x (map (peval c) xs) = 0.
Proof.
  intros H c Hc.
  assert (G : forall c k, (forall j, (j < length c)%nat -> dot x (map (fun a => a ^ (k + j)%nat) xs) = 0) ->
            dot x (map (fun a => a ^ k * peval c a) xs) = 0).
  { clear. intros c. induction c as [|b c IH]; intros k H.
    - clear H. revert xs; induction x as [|y x IHx]; intros [|a xs]; cbn; try reflexivity.
      cbn in IHx. rewrite IHx. ring.
    - replace (dot x (map (fun a => a ^ k * peval (b :: c) a) xs))
        with (b * dot x (map (fun a => a ^ k) xs) + dot x (map (fun a => a ^ (S k) * peval c a) xs)).
      + rewrite IH.
        * pose proof (H O) as H0. rewrite Nat.add_0_r in H0. rewrite H0 by (cbn; lia). ring.
        * intros j Hj. pose proof (H (S j)) as H1. rewrite Nat.add_succ_r in H1. apply H1. cbn. lia.
      + clear. revert xs; induction x as [|y x IHx]; intros [|a xs]; cbn [dot map]; try ring.
        rewrite <- IHx. cbn [peval fpow]. ring. }
  specialize (G c O). cbn in G.
  etransitivity; [|apply G; intros j Hj; apply H; lia].
  f_equal. apply map_ext. intros a. ring.
Qed.
Lemma sharing_shape evs (s : F) rs :
  length (newSharing evs s rs) = S (length evs) /\ nth 0 (newSharing evs s rs) 0 = s.
Proof. split; [cbn; now rewrite !map_length|]. cbn. ring. Qed.

End Gen.

Section Proofs.
Context {p : Z} (Hp : prime p).
Notation F := (Fp p).
Add Field FpFieldS : (Fp_field Hp).

Lemma toF_inj_range a b : (0 <= a < p)%Z -> (0 <= b < p)%Z -> toF p a = toF p b -> a = b.
Proof.
  intros Ha Hb E. apply toF_eq_iff in E. now rewrite !Z.mod_small in E by assumption.
Qed.
Lemma good_nodup evs : good_points (p := p) evs -> NoDup (0 :: map (toF p) evs).
Proof.
  intros [Hnd Hr]. constructor.
  - intros H. apply in_map_iff in H. destruct H as (e & E & He).
    rewrite Forall_forall in Hr. specialize (Hr e He).
    pose proof (p_ge_2 Hp).
    assert (e = 0%Z) by (apply toF_inj_range; [lia|lia|exact E]). lia.
  - induction evs as [|e evs IH]; cbn; constructor; inversion Hnd; subst; inversion Hr; subst.
    + intros H. apply in_map_iff in H. destruct H as (e' & E & He').
      assert (Hr' := proj1 (Forall_forall _ _) H4 e' He'). cbn in Hr'.
      assert (e' = e) by (apply toF_inj_range; [lia|lia|exact E]). subst. contradiction.
    + now apply IH.
Qed.

Lemma nodup_app_l {A} (a b : list A) : NoDup (a ++ b) -> NoDup a.
Proof.
  induction a as [|x a IH]; cbn; intros Hn; constructor; inversion Hn; subst; auto.
  intros Hi. apply H1. apply in_or_app. now left.
Qed.

Lemma nth_map_seq {A} (f : nat -> A) n k d : (k < n)%nat -> nth k (map f (seq 0 n)) d = f k.
Proof.
  intros Hk. rewrite (nth_indep _ d (f O)) by (now rewrite map_length, seq_length).
  rewrite map_nth, seq_nth by assumption. reflexivity.
Qed.

(** *** C02 *)
Section Kernel.
Variables (thr : Z) (evs : list Z) (m H : list (list F)).
Hypothesis Hgood : good_points (p := p) evs.
Hypothesis Hgen : genMatrix thr evs = Ret m.
Let t := Z.to_nat thr.
Let xs : list F := 0 :: map (toF p) evs.

Lemma xs_len : length xs = length m.
Proof. destruct (genMatrix_col _ _ _ Hgen) as (_ & Hl & _). unfold xs. cbn. now rewrite map_length, Hl. Qed.
Lemma xs_nodup : NoDup xs.
Proof. now apply good_nodup. Qed.
Lemma tcol x j : length x = length m -> (j < t)%nat ->
  times_col x m j = dot x (map (fun a => a ^ j) xs).
Proof.
  intros Hx Hj. destruct (genMatrix_col _ _ _ Hgen) as (_ & Hl & Hc).
  rewrite times_col_dot by assumption. now rewrite Hc.
Qed.
Lemma left_kernel_orth x : length x = length m -> (forall j, (j < t)%nat -> times_col x m j = 0) ->
  forall c, (length c <= t)%nat -> dot x (map (peval c) xs) = 0.
Proof.
  intros Hx Hj c Hc. apply (dot_powers_poly x xs t); [|assumption].
  intros j Hjt. rewrite <- tcol by assumption. now apply Hj.
Qed.
Lemma powers_poly j a : peval (repeat (0 : F) j ++ [1]) a = a ^ j.
Proof. rewrite peval_app, peval_repeat0, repeat_length. cbn. ring. Qed.
Lemma orth_left_kernel x : length x = length m ->
  (forall c, (length c <= t)%nat -> dot x (map (peval c) xs) = 0) ->
  forall j, (j < t)%nat -> times_col x m j = 0.
Proof.
  intros Hx Hc j Hj. rewrite tcol by assumption.
  rewrite <- (Hc (repeat 0 j ++ [1])) by (rewrite app_length, repeat_length; cbn; lia).
  f_equal. apply map_ext. intros a. now rewrite powers_poly.
Qed.

(** The polynomial that is 1 at the point a and 0 at the other points of l. *)
Definition delta (l : list F) (a : F) : list F :=
  interp (map (fun b => (b, if feqb b a then 1 else 0)) l).
Lemma delta_length l a : length (delta l a) = length l.
Proof. unfold delta. now rewrite interp_length, map_length. Qed.
Lemma delta_spec l a b : NoDup l -> In b l -> peval (delta l a) b = if feqb b a then 1 else 0.
Proof.
  intros Hnd Hb. unfold delta.
  pose proof (interp_spec Hp (map (fun b => (b, if feqb b a then 1 else 0)) l)) as Hi.
  rewrite map_map in Hi. cbn [fst] in Hi. rewrite map_id in Hi. specialize (Hi Hnd).
  rewrite Forall_forall in Hi. apply (Hi (b, if feqb b a then 1 else 0)).
  apply in_map_iff. eauto.
Qed.

(** first t points / the others *)
Let lo := firstn t xs.
Let hi := skipn t xs.
Lemma lo_hi : xs = lo ++ hi.
Proof. symmetry. apply firstn_skipn. Qed.
Lemma lo_len_le : (length lo <= t)%nat.
Proof. unfold lo. rewrite firstn_length. lia. Qed.
Lemma hi_len : length hi = (length m - t)%nat.
Proof. unfold hi. rewrite skipn_length, xs_len. reflexivity. Qed.
Lemma lo_nodup : NoDup lo.
Proof. pose proof xs_nodup as Hn. rewrite lo_hi in Hn. now apply nodup_app_l in Hn. Qed.

(** A vector in the left kernel which is zero beyond t is zero. *)
Lemma dot_delta (y : list F) l a c : NoDup l -> length y = length l ->
  (forall b, In b l -> peval c b = if feqb b a then 1 else 0) ->
  forall k, nth_error l k = Some a -> dot y (map (peval c) l) = nth k y 0.
Proof.
  revert y. induction l as [|b l IH]; intros [|z y] Hnd Hl Hc k Hk; cbn in Hl; try lia.
  - destruct k; discriminate.
  - inversion Hnd as [|? ? Hni Hnd']; subst. cbn [map dot]. rewrite (Hc b) by now left.
    destruct k as [|k]; cbn in Hk.
    + injection Hk as <-. rewrite feqb_refl. cbn [nth].
      replace (dot y (map (peval c) l)) with (0 : F); [ring|]. symmetry.
      assert (G : Forall (fun v => v = 0) (map (peval c) l)).
      { apply Forall_forall. intros v Hv. apply in_map_iff in Hv. destruct Hv as (b' & <- & Hb').
        rewrite Hc by now right. destruct (feqb b' b) eqn:E; [|reflexivity].
        apply feqb_eq in E. subst. contradiction. }
      clear -G Hp. revert y. induction G as [|v vs Hv _ IHv]; intros y; destruct y; cbn; try reflexivity.
      rewrite Hv, IHv. ring.
    + destruct (feqb b a) eqn:E.
      { apply feqb_eq in E. subst. exfalso. apply Hni. eapply nth_error_In. eassumption. }
      cbn [nth]. rewrite (IH y Hnd') with (k := k); [ring|lia| |assumption].
      intros b' Hb'. apply Hc. now right.
Qed.
Lemma left_kernel_zero x : length x = length m ->
  (forall c, (length c <= t)%nat -> dot x (map (peval c) xs) = 0) ->
  (forall k, (t <= k)%nat -> nth k x 0 = 0) -> forall k, nth k x 0 = 0.
Proof.
  intros Hx Hc Hz k. destruct (le_lt_dec t k) as [Hk|Hk]; [now apply Hz|].
  destruct (le_lt_dec (length x) k) as [Hk2|Hk2]; [now apply nth_overflow|].
  assert (Hkl : (k < length lo)%nat) by (unfold lo; rewrite firstn_length, xs_len; lia).
  destruct (nth_error lo k) as [a|] eqn:Ea; [|apply nth_error_None in Ea; lia].
  pose proof (Hc (delta lo a)) as H0. rewrite delta_length in H0. specialize (H0 lo_len_le).
  assert (Hxs : x = firstn t x ++ skipn t x) by (symmetry; apply firstn_skipn).
  rewrite Hxs, lo_hi, map_app, dot_app in H0.
  2:{ rewrite map_length. unfold lo. rewrite !firstn_length, xs_len, Hx. lia. }
  rewrite (dot_delta _ lo a (delta lo a) lo_nodup) with (k := k) in H0.
  - replace (dot (skipn t x) (map (peval (delta lo a)) hi)) with (0 : F) in H0.
    + assert (Hn : nth k (firstn t x) 0 = nth k x 0).
      { rewrite Hxs at 2. rewrite app_nth1; [reflexivity|]. rewrite firstn_length. lia. }
      rewrite Hn in H0. transitivity (nth k x 0 + 0); [ring|exact H0].
    + symmetry. assert (G : Forall (fun v => v = 0) (skipn t x)).
      { apply Forall_forall. intros v Hv. apply (In_nth _ _ 0) in Hv. destruct Hv as (i & Hi & <-).
        rewrite skipn_length in Hi.
        assert (E : nth i (skipn t x) 0 = nth (t + i) x 0).
        { rewrite Hxs at 2. rewrite app_nth2 by (rewrite firstn_length; lia).
          f_equal. rewrite firstn_length. lia. }
        rewrite E. apply Hz. lia. }
      clear -G Hp. generalize (map (peval (delta lo a)) hi).
      induction G as [|v vs Hv _ IHv]; intros y; destruct y; cbn; try reflexivity.
      rewrite Hv, IHv. ring.
  - unfold lo. rewrite !firstn_length, xs_len. lia.
  - intros b Hb. apply delta_spec; [exact lo_nodup|exact Hb].
  - exact Ea.
Qed.

(** The explicit parity check for the point number t+i. *)
Definition unit_at (n i : nat) : list F := map (fun k => if (k =? i)%nat then 1 else 0) (seq 0 n).
Lemma unit_at_length n i : length (unit_at n i) = n.
Proof. unfold unit_at. now rewrite map_length, seq_length. Qed.
Lemma unit_at_nth n i k : (k < n)%nat -> nth k (unit_at n i) 0 = if (k =? i)%nat then 1 else 0.
Proof.
  intros Hk. unfold unit_at. now rewrite nth_map_seq.
Qed.
Lemma dot_unit n i y : length y = n -> (i < n)%nat -> dot (unit_at n i) y = nth i y 0.
Proof.
  intros Hy Hi. rewrite <- seq_dot by (now rewrite unit_at_length). rewrite unit_at_length.
  rewrite (fsum_single Hp (seq 0 n) _ i).
  - rewrite unit_at_nth, Nat.eqb_refl by assumption. ring.
  - apply seq_NoDup.
  - apply in_seq. lia.
  - intros j Hj Hne. apply in_seq in Hj. rewrite unit_at_nth by lia.
    apply Nat.eqb_neq in Hne. rewrite Hne. ring.
Qed.
Definition check (i : nat) : list F :=
  map (fun a => - peval (delta lo a) (nth i hi 0)) lo ++ unit_at (length hi) i.
Lemma check_length i : length (check i) = length m.
Proof.
  unfold check. rewrite app_length, map_length, unit_at_length, <- app_length, <- lo_hi. apply xs_len.
Qed.
(** Lagrange interpolation from the first t points. *)
Lemma interp_lo c b : (length c <= length lo)%nat ->
  peval c b = fsum (map (fun a => peval (delta lo a) b * peval c a) lo).
Proof.
  intros Hc.
  set (S := psum_all (map (fun a => pscale (peval c a) (delta lo a)) lo)).
  assert (HS : forall x, peval S x = fsum (map (fun a => peval (delta lo a) x * peval c a) lo)).
  { intros x. unfold S. rewrite peval_psum_all, map_map. apply fsum_map_ext. intros a _.
    rewrite peval_pscale. ring. }
  rewrite <- HS. apply (poly_agree Hp _ _ lo); [exact lo_nodup|assumption| |].
  - apply psum_all_length. apply Forall_forall. intros l Hl. apply in_map_iff in Hl.
    destruct Hl as (a & <- & _). rewrite pscale_length, delta_length. lia.
  - apply Forall_forall. intros r Hr. rewrite HS. symmetry.
    rewrite (fsum_single Hp lo _ r lo_nodup Hr).
    + rewrite delta_spec, feqb_refl by (exact lo_nodup || assumption). ring.
    + intros a Ha Hne. rewrite delta_spec by (exact lo_nodup || assumption).
      assert (E : feqb r a = false) by (apply feqb_neq; congruence). rewrite E. ring.
Qed.
Lemma dot_map_sum (f g : F -> F) (l : list F) : dot (map f l) (map g l) = fsum (map (fun a => f a * g a) l).
Proof. induction l as [|a l IH]; cbn; [reflexivity|]. now rewrite IH. Qed.
Lemma check_dot i y : length y = length m -> (i < length hi)%nat ->
  dot (check i) y = nth (length lo + i) y 0
     - dot (map (fun a => peval (delta lo a) (nth i hi 0)) lo) (firstn (length lo) y).
Proof.
  intros Hy Hi. unfold check.
  assert (E : y = firstn (length lo) y ++ skipn (length lo) y) by (symmetry; apply firstn_skipn).
  assert (Hlm : (length lo + length hi = length m)%nat) by (rewrite <- app_length, <- lo_hi; apply xs_len).
  rewrite E at 1. rewrite dot_app by (rewrite map_length, firstn_length; lia).
  rewrite dot_unit by (try assumption; rewrite skipn_length; lia).
  assert (E2 : nth (length lo + i) y 0 = nth i (skipn (length lo) y) 0).
  { rewrite E at 1. rewrite app_nth2 by (rewrite firstn_length; lia). f_equal. rewrite firstn_length. lia. }
  rewrite E2.
  replace (dot (map (fun a => - peval (delta lo a) (nth i hi 0)) lo) (firstn (length lo) y))
    with (- dot (map (fun a => peval (delta lo a) (nth i hi 0)) lo) (firstn (length lo) y)); [ring|].
  generalize (firstn (length lo) y) as z. generalize lo at 2 4 as l.
  induction l as [|a l IH]; intros [|w z]; cbn [map dot]; try ring. rewrite <- IH. ring.
Qed.
Lemma hi_nonempty_lo : hi <> [] -> length lo = t.
Proof.
  intros Hh. unfold lo. rewrite firstn_length. unfold hi in Hh.
  destruct (le_lt_dec t (length xs)); [lia|]. exfalso. apply Hh. apply skipn_all2. lia.
Qed.
Lemma check_orth i : (i < length hi)%nat ->
  forall c, (length c <= t)%nat -> dot (check i) (map (peval c) xs) = 0.
Proof.
  intros Hi c Hc.
  assert (Hlo : length lo = t) by (apply hi_nonempty_lo; intros E; rewrite E in Hi; cbn in Hi; lia).
  rewrite check_dot by (try assumption; now rewrite map_length, xs_len).
  rewrite lo_hi, map_app, firstn_app, map_length, Nat.sub_diag, firstn_O, app_nil_r.
  rewrite firstn_all2 by (now rewrite map_length).
  rewrite app_nth2 by (rewrite map_length; lia).
  rewrite map_length. replace (length lo + i - length lo)%nat with i by lia.
  rewrite (nth_indep _ 0 (peval c 0)) by (now rewrite map_length). rewrite map_nth.
  rewrite dot_map_sum, <- interp_lo by lia. ring.
Qed.

Lemma valid_iff x : length x = length m -> (valid_sharing t evs x <->
  exists c, length c = t /\ x = map (peval c) xs).
Proof.
  intros Hx. unfold valid_sharing. fold xs.
  split; intros (c & Hc & E); exists c; (split; [assumption|]); rewrite E; now rewrite map_poly_at.
Qed.

(** A vector is a valid sharing iff all explicit checks hold. *)
Lemma checks_valid x : length x = length m ->
  (forall i, (i < length hi)%nat -> dot (check i) x = 0) -> exists c, length c = t /\ x = map (peval c) xs.
Proof.
  intros Hx Hc.
  set (q := interp (combine lo (firstn (length lo) x))).
  assert (Hlm : (length lo + length hi = length m)%nat) by (rewrite <- app_length, <- lo_hi; apply xs_len).
  assert (Hcl : length (combine lo (firstn (length lo) x)) = length lo).
  { rewrite combine_length, firstn_length. lia. }
  assert (Hql : length q = length lo) by (unfold q; now rewrite interp_length).
  assert (Hfst : forall (a b : list F), length a = length b -> map fst (combine a b) = a).
  { clear. induction a as [|y a IH]; intros [|z b] H; cbn in *; try discriminate; [reflexivity|]. f_equal. auto. }
  assert (Hq : map (peval q) lo = firstn (length lo) x).
  { pose proof (interp_spec Hp (combine lo (firstn (length lo) x))) as Hi.
    rewrite Hfst in Hi by (rewrite firstn_length; lia). specialize (Hi lo_nodup). fold q in Hi.
    assert (Hlx : length lo = length (firstn (length lo) x)) by (rewrite firstn_length; lia).
    revert Hlx Hi. generalize (firstn (length lo) x) as y. generalize lo as l. generalize q.
    clear. intros q l. induction l as [|a l IH]; intros [|b y] Hl Hi; cbn in *; try discriminate; [reflexivity|].
    inversion Hi; subst. cbn in *. f_equal; auto. }
  exists (q ++ repeat 0 (t - length q)). split.
  { rewrite app_length, repeat_length, Hql. pose proof lo_len_le. lia. }
  assert (Hpad : map (peval (q ++ repeat 0 (t - length q))) xs = map (peval q) xs).
  { apply map_ext. intros a. apply peval_pad. }
  rewrite Hpad, lo_hi, map_app, Hq.
  transitivity (firstn (length lo) x ++ skipn (length lo) x); [symmetry; apply firstn_skipn|].
  f_equal. apply (nth_ext _ _ 0 (peval q 0)).
  { rewrite skipn_length, map_length. lia. }
  intros i Hi. rewrite skipn_length in Hi.
  rewrite map_nth.
  assert (Hih : (i < length hi)%nat) by lia.
  specialize (Hc i Hih). rewrite check_dot in Hc by assumption.
  apply (proj1 (fsub_eq_0 _ _)) in Hc. rewrite <- Hq in Hc. rewrite dot_map_sum in Hc.
  rewrite (interp_lo q) by lia. rewrite <- Hc.
  assert (E : x = firstn (length lo) x ++ skipn (length lo) x) by (symmetry; apply firstn_skipn).
  rewrite E at 2. rewrite app_nth2 by (rewrite firstn_length; lia). f_equal. rewrite firstn_length. lia.
Qed.

Hypothesis Hker : kernel_basis H m t.

Lemma H_row_len r : In r H -> length r = length m.
Proof. intros Hr. destruct Hker as [H1 _]. rewrite Forall_forall in H1. now apply H1. Qed.

Lemma parity_check x : length x = S (length evs) ->
  (Forall (fun r => row_times r x = 0) H <-> valid_sharing t evs x).
Proof.
  intros Hx0.
  assert (Hx : length x = length m).
  { destruct (genMatrix_col _ _ _ Hgen) as (_ & Hl & _). congruence. }
  rewrite valid_iff by assumption. destruct Hker as (H1 & H2 & _). rewrite Forall_forall in H1. split.
  - intros HF. apply checks_valid; [assumption|]. intros i Hi.
    destruct (H2 (check i)) as (cs & Hcs & Hcomb).
    + apply check_length.
    + apply orth_left_kernel; [apply check_length|]. now apply check_orth.
    + rewrite Forall_forall in HF.
      (* check i = sum cs_k H_k *)
      rewrite <- seq_dot by (now rewrite check_length). rewrite check_length.
      rewrite (fsum_map_ext _ (fun k => fsum (map (fun l => nth l cs 0 * (nth k (nth l H []) 0 * nth k x 0)) (seq 0 (length H))))).
      2:{ intros k Hk. apply in_seq in Hk. rewrite Hcomb by lia. unfold times_col, entry.
          rewrite <- fsum_map_scale_r. apply fsum_map_ext. intros l _. ring. }
      rewrite fsum_swap. rewrite fsum_map_0; [reflexivity|]. intros l Hl. apply in_seq in Hl.
      rewrite fsum_map_scale.
      assert (Hin : In (nth l H []) H) by (apply nth_In; lia).
      specialize (HF _ Hin). unfold row_times in HF. rewrite (H_row_len _ Hin) in HF.
      rewrite HF. ring.
  - intros (c & Hc & ->). apply Forall_forall. intros r Hr. destruct (H1 r Hr) as [Hrl Hrc].
    rewrite row_times_dot by (now rewrite map_length, xs_len).
    apply left_kernel_orth; [assumption|assumption|lia].
Qed.

(** The number of parity checks. *)
Lemma kernel_rows : (length H + t = length m)%nat \/ (length m < t /\ H = [])%nat.
Proof.
  destruct Hker as (H1 & H2 & H3). rewrite Forall_forall in H1.
  assert (Hle : (length H <= length hi)%nat).
  { destruct (le_lt_dec (length H) (length hi)) as [|Hlt]; [assumption|exfalso].
    destruct (dependent Hp (length hi) (map (fun r k => nth (length lo + k) r 0) H)) as (cs & Hl & Hz & Hc).
    { now rewrite map_length. }
    rewrite map_length in Hl.
    assert (Hcs0 : cs = repeat 0 (length H)).
    { apply H3; [assumption|].
      set (x := map (fun k => times_col cs H k) (seq 0 (length m))).
      assert (Hxl : length x = length m) by (unfold x; now rewrite map_length, seq_length).
      assert (Hxn : forall k, (k < length m)%nat -> nth k x 0 = times_col cs H k).
      { intros k Hk. unfold x. now rewrite nth_map_seq. }
      intros k Hk. rewrite <- Hxn by assumption.
      apply left_kernel_zero; [assumption| |].
      - intros c Hcl. rewrite <- seq_dot by (now rewrite map_length, xs_len). rewrite Hxl.
        rewrite (fsum_map_ext _ (fun k => fsum (map (fun l => nth l cs 0 * (nth k (nth l H []) 0 * nth k (map (peval c) xs) 0)) (seq 0 (length H))))).
        2:{ intros k' Hk'. apply in_seq in Hk'. rewrite Hxn by lia. unfold times_col, entry.
            rewrite <- fsum_map_scale_r. apply fsum_map_ext. intros l _. ring. }
        rewrite fsum_swap. apply fsum_map_0. intros l Hl'. apply in_seq in Hl'.
        rewrite fsum_map_scale.
        assert (Hin : In (nth l H []) H) by (apply nth_In; lia).
        destruct (H1 _ Hin) as [Hrl Hrc].
        pose proof (left_kernel_orth _ Hrl Hrc c Hcl) as H0.
        rewrite <- seq_dot in H0 by (now rewrite map_length, xs_len). rewrite Hrl in H0. rewrite H0. ring.
      - intros k' Hk'. destruct (le_lt_dec (length m) k') as [Hge|Hlt'].
        + apply nth_overflow. lia.
        + rewrite Hxn by assumption.
          assert (Hlo : length lo = t).
          { apply hi_nonempty_lo. intros E. pose proof hi_len as Hh. rewrite E in Hh. cbn in Hh. lia. }
          specialize (Hc (k' - t)%nat). rewrite hi_len in Hc.
          rewrite times_col_dot by assumption. unfold comb in Hc. rewrite map_map, Hlo in Hc.
          replace (t + (k' - t))%nat with k' in Hc by lia. apply Hc. lia. }
    apply Hz. rewrite Hcs0. unfold pzero. apply Forall_forall. intros v Hv. now apply repeat_spec in Hv. }
  assert (Hge : (length hi <= length H)%nat).
  { destruct (le_lt_dec (length hi) (length H)) as [|Hlt]; [assumption|exfalso].
    assert (Hcoef : exists ds, length ds = length hi /\ forall i, (i < length hi)%nat ->
        length (nth i ds []) = length H /\
        forall k, (k < length m)%nat -> nth k (check i) 0 = times_col (nth i ds []) H k).
    { assert (G : forall n, (n <= length hi)%nat -> exists ds, length ds = n /\ forall i, (i < n)%nat ->
        length (nth i ds []) = length H /\
        forall k, (k < length m)%nat -> nth k (check i) 0 = times_col (nth i ds []) H k).
      { induction n as [|n IH]; intros Hn.
        - exists []. split; [reflexivity|]. intros; lia.
        - destruct IH as (ds & Hl & Hd); [lia|].
          destruct (H2 (check n)) as (cs & Hcs & Hcomb).
          + apply check_length.
          + apply orth_left_kernel; [apply check_length|]. apply check_orth. lia.
          + exists (ds ++ [cs]). split; [rewrite app_length; cbn; lia|].
            intros i Hi. destruct (Nat.eq_dec i n) as [->|Hne].
            * rewrite app_nth2, Hl, Nat.sub_diag by lia. cbn [nth]. now split.
            * rewrite app_nth1 by lia. apply Hd. lia. }
      apply G. lia. }
    destruct Hcoef as (ds & Hdl & Hd).
    destruct (dependent Hp (length H) (map (fun d l => nth l d 0) ds)) as (cs & Hl & Hz & Hc).
    { rewrite map_length. lia. }
    rewrite map_length in Hl. apply Hz. unfold pzero. apply Forall_forall. intros v Hv.
    apply (In_nth _ _ 0) in Hv. destruct Hv as (i & Hi & <-).
    (* entry |lo|+i of sum_k cs_k check_k is cs_i and also 0 *)
    assert (Hlm : (length lo + length hi = length m)%nat) by (rewrite <- app_length, <- lo_hi; apply xs_len).
    assert (E1 : fsum (map (fun k => nth k cs 0 * nth (length lo + i) (check k) 0) (seq 0 (length cs))) = nth i cs 0).
    { rewrite (fsum_single Hp (seq 0 (length cs)) _ i).
      - unfold check. rewrite app_nth2 by (rewrite map_length; lia). rewrite map_length.
        replace (length lo + i - length lo)%nat with i by lia.
        rewrite unit_at_nth, Nat.eqb_refl by lia. ring.
      - apply seq_NoDup.
      - apply in_seq. lia.
      - intros j Hj Hne. unfold check. rewrite app_nth2 by (rewrite map_length; lia). rewrite map_length.
        replace (length lo + i - length lo)%nat with i by lia.
        rewrite unit_at_nth by lia. assert (Hij : (i =? j)%nat = false) by (apply Nat.eqb_neq; congruence).
        rewrite Hij. ring. }
    rewrite <- E1.
    rewrite (fsum_map_ext _ (fun k => fsum (map (fun l => nth l (nth k ds []) 0 * nth k cs 0 * nth (length lo + i) (nth l H []) 0) (seq 0 (length H))))).
    2:{ intros k Hk. apply in_seq in Hk. destruct (Hd k) as [_ Hk2]; [lia|].
        rewrite Hk2 by lia. unfold times_col, entry. rewrite <- fsum_map_scale.
        apply fsum_map_ext. intros l _. ring. }
    rewrite fsum_swap. apply fsum_map_0. intros l Hl'. apply in_seq in Hl'.
    rewrite (fsum_map_ext _ (fun k => nth k cs 0 * nth l (nth k ds []) 0 * nth (length lo + i) (nth l H []) 0)).
    2:{ intros k _. ring. }
    rewrite fsum_map_scale_r.
    specialize (Hc l ltac:(lia)). unfold comb in Hc. rewrite map_map in Hc.
    rewrite <- (seq_dot_g [] (fun d => nth l d 0)) in Hc by assumption.
    rewrite Hl. rewrite Hc. ring. }
  rewrite hi_len in *. destruct (le_lt_dec t (length m)); [left; lia|right].
  split; [lia|]. destruct H; [reflexivity|cbn in Hle; lia].
Qed.
End Kernel.

(** A kernel basis always exists (so the statements above are not vacuous). *)
Lemma kernel_check thr evs (m : list (list F)) : good_points (p := p) evs -> genMatrix thr evs = Ret m ->
  kernel_basis (map (check thr evs) (seq 0 (length (skipn (Z.to_nat thr) (0 :: map (toF p) evs))))) m (Z.to_nat thr).
Proof.
  intros Hg Hm. set (xs := 0 :: map (toF p) evs).
  set (hi := skipn (Z.to_nat thr) xs). set (lo := firstn (Z.to_nat thr) xs).
  assert (Hlm : (length lo + length hi = length m)%nat).
  { unfold lo, hi, xs. rewrite <- app_length, firstn_skipn.
    destruct (genMatrix_col _ _ _ Hm) as (_ & Hl & _). cbn. now rewrite map_length, Hl. }
  repeat split.
  - apply Forall_forall. intros r Hr. apply in_map_iff in Hr. destruct Hr as (i & <- & Hi).
    apply in_seq in Hi. split; [now apply check_length|].
    apply (orth_left_kernel thr evs); [assumption|now apply check_length|].
    apply (check_orth thr evs m); [assumption|assumption|]. exact (proj2 Hi).
  - intros x Hx Hk. exists (skipn (length lo) x).
    rewrite map_length, seq_length. split; [rewrite skipn_length; lia|].
    (* x minus the combination is in the kernel and vanishes beyond t *)
    set (c := skipn (length lo) x).
    assert (Hcl : length c = length hi) by (unfold c; rewrite skipn_length; lia).
    set (Hm' := map (check thr evs) (seq 0 (length hi))).
    assert (HmN : length Hm' = length hi) by (unfold Hm'; now rewrite map_length, seq_length).
    assert (Hrow : forall l, (l < length hi)%nat -> nth l Hm' [] = check thr evs l).
    { intros l Hl. unfold Hm'. now rewrite nth_map_seq. }
    set (y := map (fun k => nth k x 0 - times_col c Hm' k) (seq 0 (length m))).
    assert (Hyl : length y = length m) by (unfold y; now rewrite map_length, seq_length).
    assert (Hyn : forall k, (k < length m)%nat -> nth k y 0 = nth k x 0 - times_col c Hm' k).
    { intros k Hkl. unfold y. now rewrite nth_map_seq. }
    assert (Hy0 : forall k, nth k y 0 = 0).
    { apply (left_kernel_zero thr evs m Hg Hm); [assumption| |].
      - intros q Hq. rewrite <- seq_dot by (rewrite Hyl; rewrite map_length; symmetry; now apply xs_len with (thr := thr)).
        rewrite Hyl.
        rewrite (fsum_map_ext _ (fun k => nth k x 0 * nth k (map (peval q) xs) 0 -
           fsum (map (fun l => nth l c 0 * (nth k (check thr evs l) 0 * nth k (map (peval q) xs) 0)) (seq 0 (length hi))))).
        2:{ intros k Hkk. apply in_seq in Hkk. rewrite Hyn by lia. unfold times_col, entry. fold xs.
            rewrite HmN.
            rewrite (fsum_map_ext (fun l => nth l c 0 * (nth k (check thr evs l) 0 * nth k (map (peval q) xs) 0))
                      (fun l => nth l c 0 * nth k (nth l Hm' []) 0 * nth k (map (peval q) xs) 0)).
            2:{ intros l Hl. apply in_seq in Hl. rewrite Hrow by lia. ring. }
            rewrite (fsum_map_scale_r (fun l => nth l c 0 * nth k (nth l Hm' []) 0)). ring. }
        rewrite fsum_map_sub. rewrite fsum_swap.
        rewrite (fsum_map_0 (fun l => fsum _)).
        + pose proof (left_kernel_orth thr evs m Hm x Hx Hk q Hq) as H0. fold xs in H0.
          rewrite <- seq_dot in H0 by (rewrite map_length; unfold xs; rewrite Hx; symmetry; now apply xs_len with (thr := thr)).
          rewrite Hx in H0. rewrite H0. ring.
        + intros l Hl. apply in_seq in Hl. rewrite fsum_map_scale.
          pose proof (check_orth thr evs m Hg Hm l (proj2 Hl) q Hq) as H0. fold xs in H0.
          rewrite <- seq_dot in H0.
          2:{ rewrite check_length with (m := m) by assumption. rewrite map_length. unfold xs. symmetry. now apply xs_len with (thr := thr). }
          rewrite check_length with (m := m) in H0 by assumption. rewrite H0. ring.
      - intros k Hkt. destruct (le_lt_dec (length m) k) as [Hge|Hlt]; [apply nth_overflow; lia|].
        assert (Hlo : length lo = Z.to_nat thr).
        { unfold lo. rewrite firstn_length. unfold xs. rewrite (xs_len thr evs m Hm). lia. }
        rewrite Hyn by assumption. unfold times_col, entry. rewrite HmN.
        rewrite (fsum_single Hp (seq 0 (length hi)) _ (k - length lo)%nat).
        + rewrite Hrow by lia. unfold check. fold xs. fold hi. fold lo.
          rewrite app_nth2 by (rewrite map_length; lia). rewrite map_length.
          rewrite unit_at_nth, Nat.eqb_refl by lia.
          assert (E : nth (k - length lo) c 0 = nth k x 0).
          { unfold c. rewrite <- (firstn_skipn (length lo) x) at 2.
            rewrite app_nth2 by (rewrite firstn_length; lia). f_equal. rewrite firstn_length. lia. }
          rewrite E. ring.
        + apply seq_NoDup.
        + apply in_seq. lia.
        + intros j Hj Hne. apply in_seq in Hj. rewrite Hrow by lia. unfold check. fold xs. fold hi. fold lo.
          rewrite app_nth2 by (rewrite map_length; lia). rewrite map_length.
          rewrite unit_at_nth by lia.
          assert (Hij : (k - length lo =? j)%nat = false) by (apply Nat.eqb_neq; congruence).
          rewrite Hij. ring. }
    intros k Hkl. specialize (Hy0 k). rewrite Hyn in Hy0 by assumption.
    now apply (proj1 (fsub_eq_0 _ _)) in Hy0.
  - intros cs Hcs Hk. rewrite map_length, seq_length in *.
    apply (nth_ext _ _ 0 0); [now rewrite repeat_length|].
    intros i Hi. rewrite nth_repeat.
    specialize (Hk (length lo + i)%nat ltac:(lia)).
    etransitivity; [|exact Hk]. unfold times_col, entry. rewrite map_length, seq_length.
    assert (Hrow : forall l, (l < length hi)%nat -> nth l (map (check thr evs) (seq 0 (length hi))) [] = check thr evs l).
    { intros l Hl. now rewrite nth_map_seq. }
    symmetry. rewrite (fsum_single Hp (seq 0 (length hi)) _ i).
    + rewrite Hrow by lia. unfold check. fold xs. fold hi. fold lo.
      rewrite app_nth2 by (rewrite map_length; lia). rewrite map_length.
      replace (length lo + i - length lo)%nat with i by lia.
      rewrite unit_at_nth, Nat.eqb_refl by lia. ring.
    + apply seq_NoDup.
    + apply in_seq. lia.
    + intros j Hj Hne. apply in_seq in Hj. rewrite Hrow by lia. unfold check. fold xs. fold hi. fold lo.
      rewrite app_nth2 by (rewrite map_length; lia). rewrite map_length.
      replace (length lo + i - length lo)%nat with i by lia.
      rewrite unit_at_nth by lia.
      assert (Hij : (i =? j)%nat = false) by (apply Nat.eqb_neq; congruence). rewrite Hij. ring.
Qed.
Lemma kernel_exists thr evs (m : list (list F)) : good_points (p := p) evs ->
  genMatrix thr evs = Ret m -> exists H, kernel_basis H m (Z.to_nat thr).
Proof. intros Hg Hm. eexists. exact (kernel_check thr evs m Hg Hm). Qed.
End Proofs.
