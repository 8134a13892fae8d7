(** The operations of the proof steps return, for vectors of the right sizes. *)
From Coq Require Import String.
From Coq Require Import ZArith List Bool Lia Ring.
From Verif Require Import Outcome Fp FSum GroupMod Ring ConstraintsModel ConstraintsSpec ConstraintsProofs ConstraintsOther
  PedersenModel PedersenProofs BulletproofModel FourSquaresModel FourSquaresSpec FourSquaresProofs AlgebraModel AlgebraSpec AlgebraProofs AlgebraMore
  TernaryModel TernarySpec TernaryProofs
  RegevModel RegevSpec RegevPfModel RegevPfSpec RegevPfBase RegevPfLin RegevPfCom RegevStSpec RegevPfState RegevPfEff RegevPfPost RegevPfSat
  StepSpec ProgressSpec NormInt.
Import ListNotations.
Open Scope Z_scope.

(** Digits. *)
Lemma hi_digit_unique r x hi lo : 0 < r -> x = lo + r * hi -> - r < 2 * lo <= r -> hi = hi_digit r x.
Proof.
  intros Hr -> Hlo. unfold hi_digit. rewrite <- (Z.div_unique (r - 2 * (lo + r * hi)) (2 * r) (- hi) (r - 2 * lo)); lia.
Qed.

Section B.
Context {p : Z} {ell : nat} {G : gmod p}.
Notation F := (Fp p).
Notation E := (elt p ell).
Variable R : rmerlin G.
Variable c : cfg ell G.
Notation pstate := (@pstate p ell G R).
Hypothesis Hc : wf_cfg c.
Hypothesis Hlib : good_libs R c.
Let He : (0 < ell)%nat := proj1 Hc.

Lemma ternaryE_ok m label n k : (0 < n)%nat -> Nat.divide 4 k ->
  exists X m' f, ternaryE (ell := ell) R m label n k = Ret (X, m') /\ is_temat ell X n k f.
Proof.
  intros Hn [q ->]. destruct Hlib as (Hb & Hx & _).
  destruct (newTernaryEMatrix_ok (fun b => fst (rm_bytes R m label b)) (fun k => Hx m label k) (fun k => Hb m label k) ell n (q * 4) He Hn) as [[_ H] _].
  destruct H as [X HX].
  - unfold slack. rewrite Nat.mod_mul by lia. cbn. lia.
  - assert (Ht : ternaryE (ell := ell) R m label n (q * 4) = Ret (X, snd (rm_bytes R m label (ell * ((n * (q * 4) + 3) / 4))%nat))).
    { unfold ternaryE. rewrite HX. reflexivity. }
    destruct (ternaryE_inv R Hb m label n (q * 4) X _ He Hn Ht) as [f Hf]. eauto.
Qed.

Lemma from_bytes_ok k : forall buf len n, (n <= length buf)%nat -> exists cs, elementFromBytes_loop (p := p) k buf len n = Ret cs.
Proof.
  induction k as [|k IH]; intros buf len n Hn; [now exists []|]. cbn [elementFromBytes_loop].
  destruct (0 <? n)%nat; [|now exists []].
  set (len' := if (n <? len)%nat then n else len).
  assert (Hl : (len' <= n)%nat) by (unfold len'; destruct (Nat.ltb_spec n len); lia).
  unfold scalarFromBytes. destruct (Nat.ltb_spec (length buf) len'); [lia|]. cbn [obind].
  destruct (IH (skipn len' buf) len' (n - len')%nat) as [cs Ec]; [rewrite skipn_length; lia|]. rewrite Ec. cbn [obind]. eauto.
Qed.
Lemma newElement_ok m label : exists e m', newElement (ell := ell) R m label = Ret (e, m').
Proof.
  unfold newElement, elementFromBytes. destruct Hlib as (_ & Hx & _).
  destruct (from_bytes_ok ell (fst (rm_bytes R m label (bytesPerScalar p * ell))) (bytesPerScalar p) (bytesPerScalar p * ell)) as [cs Ec];
    [rewrite Hx; lia|]. rewrite Ec. cbn [obind]. eauto.
Qed.

Lemma left_ok (v : list E) X n m f : is_temat ell X n m f -> length v = n -> leftVecMultTE v X = Ret (vec m (compL n v f)).
Proof. intros H1 H2. now apply leftVecMultTE_spec. Qed.
Lemma right_ok (v : list E) X n m f : is_temat ell X n m f -> length v = m -> rightVecMultTE X v = Ret (vec n (compR m v f)).
Proof.
  intros H1 H2. rewrite (rightVecMultTE_spec v X n m f He H1 H2). f_equal. unfold matvecR, vec. apply map_ext. intros i.
  unfold compR, sumE. f_equal. apply map_ext. intros j. apply emul_comm.
Qed.
Lemma vec_len m (v : nat -> E) : length (vec m v) = m.
Proof. unfold vec. now rewrite map_length, seq_length. Qed.

Lemma coeffs_len (v : list E) : length (coeffs_of v) = (length v * ell)%nat.
Proof. apply coeffs_length. Qed.
Lemma coeffs_nth (v : list E) i k : (i < length v)%nat -> (k < ell)%nat -> nth (i * ell + k) (coeffs_of v) 0%F = coeff (nth i v e0) k.
Proof.
  revert i. induction v as [|e v IH]; intros i Hi Hk; [cbn in Hi; lia|].
  change (coeffs_of (e :: v)) with (conv_svec e ++ coeffs_of v). destruct i as [|i].
  - cbn [Nat.mul Nat.add nth]. rewrite app_nth1 by (rewrite conv_svec_length; lia). now apply conv_svec_nth.
  - rewrite Nat.mul_succ_l. rewrite app_nth2 by (rewrite conv_svec_length; lia). rewrite conv_svec_length.
    replace (i * ell + ell + k - ell)%nat with (i * ell + k)%nat by lia. cbn [nth]. apply IH; [cbn in Hi; lia|assumption].
Qed.
Lemma digits_ok (v : list E) : exists hi lo, breakTwoDigits [] [] v (radix c) = Ret (hi, lo) /\ length hi = length v /\ length lo = length v /\
  map balanced (coeffs_of hi) = map (hi_digit (radix c)) (map balanced (coeffs_of v)) /\
  Forall (fun z => - radix c < 2 * z <= radix c) (map balanced (coeffs_of lo)).
Proof.
  pose proof Hc as (_ & _ & _ & _ & _ & _ & _ & _ & _ & Hp & Hr).
  assert (Hp2 : 2 <= p) by lia. assert (Hr2 : 2 <= radix c) by lia.
  destruct (break_loop_spec Hp2 (radix c) v Hr2 Hp (proj2 Hr) (resizeE [] (length v)) (resizeE [] (length v)))
    as (hi & lo & EE & L1 & L2 & H); try apply resizeE_length.
  exists hi, lo. split; [exact EE|]. split; [exact L1|]. split; [exact L2|].
  assert (D : forall q, (q < length v * ell)%nat -> exists i k, (i < length v)%nat /\ (k < ell)%nat /\ q = (i * ell + k)%nat).
  { intros q Hq. exists (q / ell)%nat, (q mod ell)%nat. split; [apply Nat.div_lt_upper_bound; lia|].
    split; [apply Nat.mod_upper_bound; lia|]. rewrite Nat.mul_comm. apply Nat.div_mod. lia. }
  split.
  - rewrite map_map. apply (nth_ext _ _ 0 0); [rewrite !map_length, !coeffs_len, L1; reflexivity|].
    rewrite map_length, coeffs_len, L1. intros q Hq. destruct (D q Hq) as (i & k & Hi & Hk & ->).
    rewrite (nth_indep _ 0 (balanced (0%F : F))) by (rewrite map_length, coeffs_len, L1; lia). rewrite map_nth.
    rewrite (nth_indep _ 0 (hi_digit (radix c) (balanced (0%F : F)))) by (rewrite map_length, coeffs_len; lia).
    rewrite (map_nth (fun x => hi_digit (radix c) (balanced x))). rewrite !coeffs_nth by lia.
    destruct (H i k Hi Hk) as (A & B & _). eapply hi_digit_unique; [lia|exact A|exact B].
  - apply Forall_forall. intros z Hz. apply In_nth with (d := 0) in Hz as (q & Hq & <-). rewrite map_length, coeffs_len, L2 in Hq.
    destruct (D q Hq) as (i & k & Hi & Hk & ->).
    rewrite (nth_indep _ 0 (balanced (0%F : F))) by (rewrite map_length, coeffs_len, L2; lia). rewrite map_nth, coeffs_nth by lia.
    destruct (H i k Hi Hk) as (_ & B & _). exact B.
Qed.

Lemma pad_ok (v : list E) b : sum_sq (map balanced (coeffs_of v)) <= b * b ->
  exists pd, pad c v b = Ret pd /\ (length pd * ell = 4)%nat.
Proof.
  intros H. destruct Hlib as (_ & _ & Hj & Hp). unfold pad, pad2exactNorm_ev, pad2exactNorm_e, normSquared_e, conv_bivec.
  change (flat_map conv_svec v) with (coeffs_of v). rewrite normSquaredBI_spec.
  destruct (decompose4_good (cjac c) (cpp c) (csp c) Hj Hp (b * b - sum_sq (map balanced (coeffs_of v))) ltac:(lia)) as [four [E4 _]].
  rewrite E4. cbn [obind]. rewrite resizeE_length, Nat.ltb_irrefl.
  eexists. split; [reflexivity|]. rewrite app_length, map_length, seq_length, skipn_length, resizeE_length, Nat.sub_diag, Nat.add_0_r.
  apply pad_extra_exact; apply Hc.
Qed.
Lemma pad_no (v : list E) b : ~ sum_sq (map balanced (coeffs_of v)) <= b * b -> pad c v b = Throw.
Proof.
  intros H. unfold pad, pad2exactNorm_ev, pad2exactNorm_e, normSquared_e, conv_bivec.
  change (flat_map conv_svec v) with (coeffs_of v). rewrite normSquaredBI_spec.
  unfold decompose4. rewrite (proj2 (Z.ltb_lt _ _)) by lia. reflexivity.
Qed.
Lemma sum_sq_le l b : Forall (fun z => z * z <= b) l -> sum_sq l <= Z.of_nat (length l) * b.
Proof.
  induction 1 as [|z l Hz _ IH]; [cbn; lia|]. change (sum_sq (z :: l)) with (z * z + sum_sq l). cbn [length]. lia.
Qed.
(** The low digits always fit. *)
Lemma lo_fits (lo : list E) : jl_sqrt c -> length lo = jl c -> Forall (fun z => - radix c < 2 * z <= radix c) (map balanced (coeffs_of lo)) ->
  sum_sq (map balanced (coeffs_of lo)) <= loBound c * loBound c.
Proof.
  intros Hs Hl H. pose proof Hc as (_ & _ & _ & _ & _ & _ & _ & _ & _ & Hp & Hr).
  assert (S4 : 4 * sum_sq (map balanced (coeffs_of lo)) <= Z.of_nat (JLDIM c) * (radix c * radix c)).
  { pose proof (jl_eq c Hc) as J. rewrite <- J, <- Hl, <- coeffs_len, <- (map_length balanced).
    induction H as [|z l Hz _ IH]; [cbn; lia|]. change (sum_sq (z :: l)) with (z * z + sum_sq l). cbn [length].
    assert (4 * (z * z) <= radix c * radix c) by nia. lia. }
  unfold loBound, jl_sqrt in *. nia.
Qed.
Lemma hib_ok B n : hiBound c B n = Ret (B / radix c + Z.sqrt_up n).
Proof.
  pose proof Hc as (_ & _ & _ & _ & _ & _ & _ & _ & _ & Hp & Hr). unfold hiBound. rewrite (proj2 (Z.eqb_neq _ _)) by lia. reflexivity.
Qed.
Lemma jl_pos : (0 < jl c)%nat.
Proof. pose proof (jl_eq c Hc). pose proof Hc as (_ & _ & _ & _ & HJ & _). nia. Qed.
Lemma powers_ok (x : E) n : (0 < n)%nat -> exists v, powerVectorE x n = Ret v /\ length v = n.
Proof.
  intros H. unfold powerVectorE. rewrite (proj2 (Nat.eqb_neq n 0)) by lia. eexists. split; [reflexivity|]. apply pow_loop_E.
Qed.
Lemma matVec_ok (M : mat E) v n m : mat_dims M n m -> length v = m -> exists r, matVec M v = Ret r /\ length r = n.
Proof.
  intros (D1 & D2 & _) H. unfold matVec. rewrite D2, H, Nat.eqb_refl. cbn [negb]. eexists. split; [reflexivity|]. now rewrite map_length.
Qed.
Lemma vecMat_ok (M : mat E) v n m : mat_dims M n m -> length v = n -> exists r, vecMat v M = Ret r /\ length r = m.
Proof.
  intros (D1 & D2 & _) H. unfold vecMat. rewrite D1, H, Nat.eqb_refl. cbn [negb]. eexists. split; [reflexivity|].
  now rewrite map_length, seq_length.
Qed.

(** *** State *)
(** The indexes and the lengths do not change. *)
Definition shape (st : pstate) : (var -> Z) * nat * nat * nat := (pidx st, length (plin st), length (pnorm st), length (pcomp st)).
Variable st0 : pstate.
Hypothesis Hroom : room c st0.

Lemma shape_inv (st : pstate) : shape st = shape st0 ->
  pidx st = pidx st0 /\ length (plin st) = length (plin st0) /\ length (pnorm st) = length (pnorm st0) /\ length (pcomp st) = length (pcomp st0).
Proof. unfold shape. intros H. injection H as H1 H2 H3 H4. auto. Qed.
Lemma idx_room x : x <> WW -> 0 <= pidx st0 x /\ pidx st0 x + clen c x <= Z.of_nat (length (cGs c)).
Proof.
  intros Hx. destruct Hroom as (Hl & Hg & _). destruct (lay_good c Hc _ Hl) as (A1 & A2 & A3 & _). specialize (A3 x Hx). unfold clen.
  split; [|lia]. destruct (is_norm x) eqn:N.
  - rewrite (A1 x N). pose proof Hc as (_ & _ & _ & _ & H & _). destruct x; try discriminate; cbn [npos]; lia.
  - pose proof (A2 x N). pose proof Hc as (_ & _ & _ & _ & HJ & _). cbn [npos] in *. lia.
Qed.
Lemma idx_norm x : is_norm x = true -> pidx st0 x + clen c x <= 10 * (Z.of_nat (JLDIM c) + 4) /\ 0 < clen c x.
Proof.
  intros Hx. destruct Hroom as (Hl & _). destruct (lay_good c Hc _ Hl) as (A1 & _). rewrite (A1 x Hx).
  pose proof Hc as (_ & _ & _ & _ & HJ & _).
  destruct x; try discriminate Hx; unfold clen, vlen; cbn [is_comp is_pad npos]; lia.
Qed.
Lemma norm_ww x : is_norm x = true -> x <> WW.
Proof. intros H ->. discriminate. Qed.

Lemma comS_ok (st : pstate) x v r : shape st = shape st0 -> x <> WW -> Z.of_nat (length v) = clen c x ->
  exists st', comS R c st x v r = Ret st' /\ shape st' = shape st0 /\ pmer st' = pmer st /\ pcom st' x = com_point c (pidx st0 x) v r.
Proof.
  intros Hs Hx Hv. destruct (shape_inv st Hs) as (Hi & _). destruct (idx_room x Hx) as [H1 H2].
  unfold comS. rewrite commitS_all. unfold genAt. rewrite Hi.
  destruct (Nat.ltb_spec (length (cGs c)) (Z.to_nat (pidx st0 x) + length v)); [lia|]. cbn [obind]. eexists. split; [reflexivity|].
  split; [exact Hs|]. split; [reflexivity|]. cbn [pcom set_com]. unfold upd. destruct (var_eq_dec x x); [reflexivity|congruence].
Qed.
Lemma comE_ok (st : pstate) x v r : shape st = shape st0 -> x <> WW -> Z.of_nat (length v * ell) = clen c x ->
  exists st', comE R c st x v r = Ret st' /\ shape st' = shape st0 /\ pmer st' = pmer st /\ pcom st' x = com_point c (pidx st0 x) (coeffs_of v) r /\
    forall y, y <> x -> pcom st' y = pcom st y.
Proof.
  intros Hs Hx Hv. destruct (shape_inv st Hs) as (Hi & _). destruct (idx_room x Hx) as [H1 H2].
  unfold comE. rewrite commitE_all. unfold genAt. rewrite Hi.
  destruct (Nat.ltb_spec (length (cGs c)) (Z.to_nat (pidx st0 x) + ell * length v)); [lia|]. cbn [obind]. eexists. split; [reflexivity|].
  split; [exact Hs|]. split; [reflexivity|]. cbn [pcom set_com]. unfold upd. split; [destruct (var_eq_dec x x); [reflexivity|congruence]|].
  intros y Hy. destruct (var_eq_dec y x); [congruence|reflexivity].
Qed.
Lemma com2_ok (st : pstate) x v r : shape st = shape st0 -> is_norm x = true -> Z.of_nat (length v * ell) = clen c x ->
  exists st', com2 R c st x v r = Ret st' /\ shape st' = shape st0.
Proof.
  intros Hs Hx Hv. destruct (shape_inv st Hs) as (Hi & _). destruct (idx_room x (norm_ww x Hx)) as [H1 H2]. destruct (idx_norm x Hx) as [H3 H4].
  destruct Hroom as (_ & _ & Hh & _).
  unfold com2. rewrite commitE2_all. unfold genAt. rewrite Hi.
  destruct (Nat.ltb_spec (length (cGs c)) (Z.to_nat (pidx st0 x) + ell * length v)); [lia|].
  destruct (Nat.ltb_spec (length (cHs c)) (Z.to_nat (pidx st0 x) + ell * length v)); [lia|]. cbn [orb obind]. eexists. split; [reflexivity|exact Hs].
Qed.
Lemma norm_ok (st : pstate) i b x xp : shape st = shape st0 -> (i < 10)%nat -> exists st', norm R c st i b x xp = Ret st' /\ shape st' = shape st0.
Proof.
  intros Hs Hi. destruct (shape_inv st Hs) as (_ & _ & Hn & _). destruct Hroom as (_ & _ & _ & _ & H10 & _).
  unfold norm, set_norm, oget. destruct (nth_error (pnorm st) i) as [q|] eqn:Eq; [|apply nth_error_None in Eq; lia]. cbn [obind].
  unfold oset. rewrite (proj2 (Nat.ltb_lt _ _)) by lia. cbn [obind]. eexists. split; [reflexivity|].
  unfold shape in *. cbn [pidx plin pnorm pcomp set_norms]. rewrite list_set_length. exact Hs.
Qed.
Lemma copy_at_ok (v : list E) : forall l a, (a + length v <= length l)%nat -> exists l', copy_at l a v = Ret l' /\ length l' = length l.
Proof.
  induction v as [|e v IH]; intros l a H; cbn [copy_at length] in *; [eauto|].
  unfold oset. rewrite (proj2 (Nat.ltb_lt _ _)) by lia. cbn [obind].
  destruct (IH (list_set l a e) (S a)) as (l' & E1 & E2); [rewrite list_set_length; lia|]. exists l'. split; [exact E1|].
  now rewrite list_set_length in E2.
Qed.
Lemma copy_ok (st : pstate) x v : shape st = shape st0 -> is_norm x = true -> Z.of_nat (length v * ell) = clen c x ->
  exists st', copy R st x v = Ret st' /\ shape st' = shape st0.
Proof.
  intros Hs Hx Hv. destruct (shape_inv st Hs) as (Hi & _ & _ & Hl). destruct (idx_room x (norm_ww x Hx)) as [H1 _]. destruct (idx_norm x Hx) as [H3 H4].
  destruct Hroom as (_ & _ & _ & _ & _ & Hcp). unfold copy.
  destruct (copy_at_ok v (pcomp st) (Z.to_nat (pidx st x / Z.of_nat ell))) as (l' & E1 & E2).
  - rewrite Hi, Hl, Hcp. rewrite <- (Nat2Z.id (10 * (JLDIM c + 4) / ell)), Nat2Z.inj_div.
    assert (pidx st0 x / Z.of_nat ell + Z.of_nat (length v) <= Z.of_nat (10 * (JLDIM c + 4)) / Z.of_nat ell).
    { rewrite <- Z.div_add by lia. apply Z.div_le_mono; lia. }
    assert (0 <= pidx st0 x / Z.of_nat ell) by (apply Z.div_pos; lia). lia.
  - rewrite E1. cbn [obind]. eexists. split; [reflexivity|]. unfold shape in *. cbn [pidx plin pnorm pcomp set_comp]. rewrite E2. exact Hs.
Qed.
Lemma block_ok (st : pstate) off f : shape st = shape st0 -> (off + ell <= 7 * ell)%nat ->
  (forall b, length b = ell -> exists b', f b = Ret b' /\ length b' = ell) ->
  exists st', block R st off f = Ret st' /\ shape st' = shape st0 /\ pmer st' = pmer st.
Proof.
  intros Hs Ho Hf. destruct (shape_inv st Hs) as (_ & Hl & _). destruct Hroom as (_ & _ & _ & H7 & _).
  unfold block, on_block, sub. rewrite (proj2 (Nat.leb_le _ _)) by lia. cbn [obind].
  assert (L : length (firstn ell (skipn off (plin st))) = ell) by (rewrite firstn_length, skipn_length; lia).
  destruct (Hf _ L) as (b' & E1 & E2). rewrite E1. cbn [obind]. eexists. split; [reflexivity|]. split; [|reflexivity].
  unfold shape in *. cbn [pidx plin pnorm pcomp set_lin]. rewrite !app_length, L, E2, firstn_length, skipn_length.
  replace (Nat.min off (length (plin st)) + (ell + (length (plin st) - (off + ell))))%nat with (length (plin st)) by lia. exact Hs.
Qed.
(** Building blocks keep the number of constraints. *)
Lemma mapi_len {A B} (f : nat -> A -> B) l : length (mapi f l) = length l.
Proof. unfold mapi. rewrite map_length, combine_length, seq_length. lia. Qed.
Lemma expand_len (es : list E) : forall (b : list (lincon p)) i, length (expand_loop (ell := ell) b i es) = length b.
Proof. induction es as [|e es IH]; intros b i; [reflexivity|]. cbn [expand_loop]. rewrite IH. apply mapi_len. Qed.
Lemma expand_ok (st : pstate) x (v : list E) (b : list (lincon p)) : length b = ell -> exists b', expand R st x v b = Ret b' /\ length b' = ell.
Proof. intros H. unfold expand. rewrite expandConstraints_all. eexists. split; [reflexivity|]. now rewrite expand_len. Qed.
Lemma expand0_ok (v : list E) i (b : list (lincon p)) : length b = ell -> exists b', expandConstraints b i v 0 None = Ret b' /\ length b' = ell.
Proof. intros H. rewrite expandConstraints_all. eexists. split; [reflexivity|]. now rewrite expand_len. Qed.
Lemma make_ok (st : pstate) x (v : list E) (b : list (lincon p)) : length b = ell -> exists b', make R st x v b = Ret b' /\ length b' = ell.
Proof. intros H. unfold make. rewrite makeConstraints_all. eexists. split; [reflexivity|]. unfold make_all. now rewrite mapi_len. Qed.
Lemma clear_len (b : list (lincon p)) (e : E) : length b = ell -> length (setEqsTo (clearBlock b) e) = ell.
Proof. intros H. unfold setEqsTo. rewrite mapi_len. unfold clearBlock. now rewrite map_length. Qed.
Lemma seteq_len (b : list (lincon p)) (e : E) : length b = ell -> length (setEqsTo b e) = ell.
Proof. intros H. unfold setEqsTo. now rewrite mapi_len. Qed.
End B.
