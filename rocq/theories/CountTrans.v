(** The same count when the vector is multiplied from the right: one entry in each
    row of the challenge matrix. *)
From Coq Require Import ZArith Znumtheory Lia List Bool Arith.
From Verif Require Import Outcome Fp FSum Ring TernaryModel TernarySpec TernaryProofs
  AlgebraModel AlgebraSpec AlgebraProofs AlgebraMore RegevModel CountSpec CountProofs CountTernary.
Import ListNotations.
Open Scope Z_scope.

(** The byte with two of its bits cleared. *)
Definition clear_sym (t : nat) (b : Z) : Z := Z.land b (Z.lnot (Z.shiftl 3 (2 * Z.of_nat t))).
Definition cleared (t : nat) : list Z := filter (fun b => clear_sym t b =? b) all_bytes.
Definition uncur (f : Z -> Z -> Z) (x : Z * Z) : Z := f (fst x) (snd x).
Lemma byte_sum_at t (f : Z -> Z -> Z) : (t < 4)%nat ->
  zs (fun b => f (clear_sym t b) (trit [b] t)) all_bytes = zs (fun r => 2 * f r 0 + f r 1 + f r (-1)) (cleared t).
Proof.
  intros Ht. transitivity (zs (uncur f) (map (fun b => (clear_sym t b, trit [b] t)) all_bytes)); [rewrite zs_map; reflexivity|].
  transitivity (zs (uncur f) (flat_map (fun r => [(r, 0); (r, 1); (r, -1); (r, 0)]) (cleared t))).
  - set (l := map _ _). set (l' := flat_map _ _).
    destruct t as [|[|[|[|t]]]]; [| | | |lia].
    all: (let x := eval vm_compute in l in change l with x); (let x := eval vm_compute in l' in change l' with x);
      unfold zs, uncur; cbn [fold_right fst snd]; ring.
  - rewrite zs_flat_map. apply zs_ext. intros r _. unfold zs, uncur. cbn [fold_right fst snd]. ring.
Qed.
Lemma byte_count_le t (f : Z -> bool) (g : Z -> Z -> bool) : (t < 4)%nat ->
  (forall b, 0 <= b < 256 -> f b = true -> g (clear_sym t b) (trit [b] t) = true) ->
  (forall r, 2 * ind (g r 0) + ind (g r 1) + ind (g r (-1)) <= 2) ->
  2 * zs (fun b => ind (f b)) all_bytes <= 256.
Proof.
  intros Ht Hf Hg.
  assert (H : zs (fun b => ind (f b)) all_bytes <= zs (fun r => 2 * ind (g r 0) + ind (g r 1) + ind (g r (-1))) (cleared t)).
  { rewrite <- (byte_sum_at t (fun r x => ind (g r x)) Ht). apply zs_le. intros b Hb. apply in_all_bytes in Hb.
    destruct (f b) eqn:E; [rewrite (Hf b Hb E); cbn; lia|]. cbn. destruct (g _ _); cbn; lia. }
  assert (H2 : zs (fun r => 2 * ind (g r 0) + ind (g r 1) + ind (g r (-1))) (cleared t) <= 128).
  { transitivity (zs (fun _ => 2) (cleared t)); [apply zs_le; intros; apply Hg|]. rewrite zs_const.
    assert (L : length (cleared t) = 64%nat) by (destruct t as [|[|[|[|t]]]]; [reflexivity|reflexivity|reflexivity|reflexivity|lia]).
    rewrite L. lia. }
  lia.
Qed.
Lemma one_trit a b t (f : list Z -> bool) (g : list Z -> list Z -> Z -> Z -> bool) : (t < 4)%nat ->
  (forall x c w, bytes x -> bytes w -> length x = a -> length w = b -> 0 <= c < 256 ->
     f (x ++ [c] ++ w) = true -> g x w (clear_sym t c) (trit [c] t) = true) ->
  (forall x w r, 2 * ind (g x w r 0) + ind (g x w r 1) + ind (g x w r (-1)) <= 2) ->
  2 * count f (strings (a + (1 + b))) <= 256 ^ Z.of_nat (a + (1 + b)).
Proof.
  intros Ht Hf Hg. apply count_mid_le. intros x w Bx Bw Lx Lw. rewrite count_zs.
  change (strings 1) with (flat_map (fun b => map (cons b) [[]]) all_bytes). rewrite zs_flat_map.
  rewrite (zs_ext _ (fun c => ind (f (x ++ [c] ++ w)))).
  - change (256 ^ Z.of_nat 1) with 256. apply (byte_count_le t _ (g x w) Ht); [|apply Hg]. intros c Hc. now apply Hf.
  - intros c _. cbn [map zs fold_right]. unfold zs. cbn [fold_right]. lia.
Qed.
Definition chunk (rb j : nat) (s : list Z) : list Z := firstn rb (skipn (j * rb) s).
Lemma chunk_0 rb x y : length x = rb -> chunk rb 0 (x ++ y) = x.
Proof. intros <-. unfold chunk. cbn [Nat.mul skipn]. now rewrite firstn_app, Nat.sub_diag, firstn_O, app_nil_r, firstn_all. Qed.
Lemma chunk_S rb j x y : length x = rb -> chunk rb (S j) (x ++ y) = chunk rb j y.
Proof.
  intros H. unfold chunk. f_equal. cbn [Nat.mul]. rewrite skipn_app, H. rewrite skipn_all2 by lia. cbn [app]. f_equal. lia.
Qed.
Lemma rows_count rb M : forall g : nat -> list Z -> bool,
  (forall j, (j < M)%nat -> 2 * count (g j) (strings rb) <= 256 ^ Z.of_nat rb) ->
  2 ^ Z.of_nat M * zs (fun s => zprod (fun j => ind (g j (chunk rb j s))) 0 M) (strings (M * rb)) <= 256 ^ Z.of_nat (M * rb).
Proof.
  induction M as [|M IH]; intros g Hg; [cbn; lia|]. cbn [Nat.mul]. rewrite zs_strings_app.
  set (R := zs (fun s => zprod (fun j => ind (g (S j) (chunk rb j s))) 0 M) (strings (M * rb))).
  rewrite (zs_ext _ (fun x => R * ind (g 0%nat x))).
  - rewrite zs_scale, <- count_zs. specialize (IH (fun j => g (S j)) (fun j Hj => Hg (S j) ltac:(lia))). fold R in IH.
    specialize (Hg 0%nat ltac:(lia)). rewrite Nat2Z.inj_succ, Z.pow_succ_r by lia. rewrite Nat2Z.inj_add, Z.pow_add_r by lia.
    assert (0 <= count (g 0%nat) (strings rb)) by (unfold count; lia).
    assert (0 <= R).
    { unfold R. rewrite <- (zs_zero (strings (M * rb))). apply zs_le. intros s _. apply (zprod_bound _ 1); [lia|]. intros j _. unfold ind. destruct (g _ _); lia. }
    assert (0 < 2 ^ Z.of_nat M) by (apply Z.pow_pos_nonneg; lia). nia.
  - intros x Hx. apply in_strings in Hx. destruct Hx as [Lx _]. unfold R. rewrite Z.mul_comm, <- zs_scale. apply zs_ext. intros y _.
    cbn [zprod]. rewrite chunk_0 by assumption. f_equal. change 1%nat with (1 + 0)%nat. rewrite zprod_shift. apply zprod_ext.
    intros j _. cbn [Nat.add]. now rewrite chunk_S.
Qed.
Lemma rows_count_le rb M b (f : list Z -> bool) (g : list Z -> nat -> list Z -> bool) :
  (forall s w, bytes s -> bytes w -> length s = (M * rb)%nat -> length w = b -> f (s ++ w) = true ->
     forall j, (j < M)%nat -> g w j (chunk rb j s) = true) ->
  (forall w j, bytes w -> length w = b -> (j < M)%nat -> 2 * count (g w j) (strings rb) <= 256 ^ Z.of_nat rb) ->
  2 ^ Z.of_nat M * count f (strings (M * rb + b)) <= 256 ^ Z.of_nat (M * rb + b).
Proof.
  intros Hf Hg. change (M * rb + b)%nat with (0 + (M * rb + b))%nat. apply count_mid_le. intros x w _ Bw Lx Lw.
  destruct x; [|discriminate Lx]. cbn [app]. rewrite count_zs.
  etransitivity; [|apply (rows_count rb M (g w)); intros j Hj; now apply Hg].
  apply Z.mul_le_mono_nonneg_l; [lia|]. apply zs_le. intros s Hs. apply in_strings in Hs. destruct Hs as [Ls Bs].
  rewrite zprod_ind. destruct (f (s ++ w)) eqn:E; [|cbn; destruct (forallb _ _); cbn; lia].
  rewrite (proj2 (forallb_forall _ _)); [cbn; lia|]. intros j Hj. apply in_seq in Hj. apply (Hf s w Bs Bw Ls Lw E). lia.
Qed.
(** Clearing two bits. *)
Lemma clear_sym_all : forallb (fun b => forallb (fun t => forallb (fun t' =>
  trit [clear_sym t b] t' =? (if (t =? t')%nat then 0 else trit [b] t')) (seq 0 4)) (seq 0 4)) all_bytes = true.
Proof. vm_compute. reflexivity. Qed.
Lemma clear_sym_trit b t t' : 0 <= b < 256 -> (t < 4)%nat -> (t' < 4)%nat ->
  trit [clear_sym t b] t' = if (t =? t')%nat then 0 else trit [b] t'.
Proof.
  intros Hb Ht Ht'. pose proof clear_sym_all as H. rewrite forallb_forall in H. specialize (H b (proj2 (in_all_bytes b) Hb)).
  rewrite forallb_forall in H. specialize (H t ltac:(apply in_seq; lia)). rewrite forallb_forall in H.
  specialize (H t' ltac:(apply in_seq; lia)). now apply Z.eqb_eq in H.
Qed.
Lemma trit_at x c w t : (t < 4)%nat -> trit (x ++ [c] ++ w) (4 * length x + t) = trit [c] t.
Proof.
  intros Ht. unfold trit. replace ((4 * length x + t) / 4)%nat with (length x) by (apply (Nat.div_unique _ 4 _ t); lia).
  replace ((4 * length x + t) mod 4)%nat with t by (apply (Nat.mod_unique _ 4 (length x)); lia).
  rewrite app_nth2, Nat.sub_diag by lia. cbn [app nth]. rewrite Nat.div_small, Nat.mod_small by lia. reflexivity.
Qed.
Lemma trit_clear x c w t i : 0 <= c < 256 -> (t < 4)%nat -> i <> (4 * length x + t)%nat ->
  trit (x ++ [clear_sym t c] ++ w) i = trit (x ++ [c] ++ w) i.
Proof.
  intros Hc Ht Hi. destruct (Nat.eq_dec (i / 4) (length x)) as [E|E].
  - pose proof (Nat.div_mod i 4 ltac:(lia)) as D. pose proof (Nat.mod_upper_bound i 4 ltac:(lia)) as U. rewrite E in D. rewrite D, !trit_at by assumption.
    rewrite clear_sym_trit by assumption. destruct (Nat.eqb_spec t (i mod 4)); [lia|reflexivity].
  - unfold trit. assert (N : nth (i / 4) (x ++ [clear_sym t c] ++ w) 0 = nth (i / 4) (x ++ [c] ++ w) 0).
    { destruct (Nat.lt_ge_cases (i / 4) (length x)); [now rewrite !app_nth1|]. rewrite !(app_nth2 x) by assumption.
      destruct (i / 4 - length x)%nat eqn:D; [lia|reflexivity]. }
    now rewrite N.
Qed.
Lemma trit_chunk rb j s w i : (i < 4 * rb)%nat -> (j * rb + rb <= length s)%nat -> trit (skipn (j * rb) (s ++ w)) i = trit (chunk rb j s) i.
Proof.
  intros Hi Hl. assert (i / 4 < rb)%nat by (apply Nat.div_lt_upper_bound; lia). unfold trit, chunk.
  assert (N : nth (i / 4) (skipn (j * rb) (s ++ w)) 0 = nth (i / 4) (firstn rb (skipn (j * rb) s)) 0).
  { rewrite nth_skipn, app_nth1 by lia. rewrite <- nth_skipn. rewrite <- (firstn_skipn rb (skipn (j * rb) s)) at 1.
    rewrite app_nth1; [reflexivity|]. rewrite firstn_length, skipn_length. lia. }
  now rewrite N.
Qed.

Section T.
Context {p : Z} {ell : nat}.
Hypothesis Hp : 2 <= p.
Hypothesis He : (0 < ell)%nat.
Notation F := (Fp p).
Notation E := (elt p ell).
Add Ring CUf : (@Fp_ring p).
Add Ring CUe : (elt_ring (p := p) He).

Definition tval (v y : list E) (M q : nat) (buf : list Z) (j : nat) : E :=
  eadd (esum (map (fun i => emul (ofdigits (fun k => trit (skipn ((k * M + j) * q) buf) i)) (nth i v e0)) (seq 0 (length v))))
       (nth j y e0).
Definition tvalr (v y : list E) (M q : nat) (row w : list Z) (j : nat) : E :=
  eadd (esum (map (fun i => emul (ofdigits (fun k => if (k =? 0)%nat then trit row i else trit (skipn (((k - 1) * M + j) * q) w) i)) (nth i v e0)) (seq 0 (length v))))
       (nth j y e0).
Lemma replyT_ok_iff B (v y : list E) M q buf : length v = (4 * q)%nat -> (0 < M)%nat -> length y = M -> bytes buf ->
  length buf = (ell * (M * q))%nat ->
  reply_okT B v y M buf = true <->
  0 <= B /\ forall j i, (j < M)%nat -> (i < ell)%nat -> Z.abs (balanced (coeff (tval v y M q buf j) i)) <= B.
Proof.
  intros Hv HM Hy Hb Hl. unfold reply_okT, newTernaryEMatrix. rewrite Hv.
  destruct (setFromBytesE_spec (ell := ell) buf M (4 * q) HM (bytes_nth buf Hb)) as [X [EX HX]].
  { rewrite rowBytes_4. lia. }
  rewrite EX. cbn [obind]. rewrite (rightVecMultTE_spec v X _ _ _ He HX Hv). cbn [obind].
  unfold vecAdd, matvecR. rewrite map_length, seq_length, Hy, Nat.eqb_refl. cbn [negb obind].
  rewrite Z.leb_le, (linf_le Hp He). apply and_iff_compat_l.
  set (u := map _ (seq 0 M)).
  assert (Lu : length u = length y) by (unfold u; now rewrite map_length, seq_length, Hy).
  assert (Nz : forall j, (j < M)%nat -> nth j (zipWith eadd u y) e0 = tval v y M q buf j).
  { intros j Hj. rewrite (zipWith_nth' eadd e0 e0 e0) by lia. unfold tval. f_equal. unfold u.
    rewrite (nth_map_seq0 (p := p) He) by assumption. rewrite Hv. apply esum_map_ext. intros i _. f_equal. unfold ofdigits.
    apply coeff_ext. intros k Hk. rewrite !coeff_mkE. destruct (k <? ell)%nat; [|reflexivity]. rewrite rowBytes_4. now rewrite entry_trit. }
  split.
  - intros H j i Hj Hi. rewrite <- Nz by assumption. apply H; [|assumption]. apply nth_In. rewrite zipWith_len; lia.
  - intros H e i Hin Hi. destruct (In_nth _ _ e0 Hin) as [j [Hj <-]]. rewrite zipWith_len in Hj by assumption.
    rewrite Nz by lia. apply H; [lia|assumption].
Qed.
Lemma tval_row v y M q s w j : length v = (4 * q)%nat -> length s = (M * q)%nat -> (j < M)%nat ->
  tval v y M q (s ++ w) j = tvalr v y M q (chunk q j s) w j.
Proof.
  intros Hv Hs Hj. unfold tval, tvalr. f_equal. apply esum_map_ext. intros i Hi. apply in_seq in Hi. f_equal.
  apply coeff_ext. intros k Hk. unfold ofdigits. rewrite !coeff_mkE. destruct (k <? ell)%nat; [|reflexivity]. f_equal.
  destruct k as [|k]; cbn [Nat.eqb].
  - apply trit_chunk; [lia|nia].
  - rewrite skipn_app, Hs. rewrite skipn_all2 by nia. cbn [app]. f_equal. f_equal. nia.
Qed.
Lemma tvalr_split (v y : list E) M q x c u w j t : length v = (4 * q)%nat -> (4 * length x + t < 4 * q)%nat -> (t < 4)%nat -> 0 <= c < 256 ->
  tvalr v y M q (x ++ [c] ++ u) w j =
  eadd (tvalr v y M q (x ++ [clear_sym t c] ++ u) w j) (escale (toF p (trit [c] t)) (nth (4 * length x + t) v e0)).
Proof.
  intros Hv Hi0 Ht Hc. unfold tvalr. set (i0 := (4 * length x + t)%nat) in *.
  rewrite (esum_upd He _ (fun i => emul (ofdigits (fun k => if (k =? 0)%nat then trit (x ++ [clear_sym t c] ++ u) i else trit (skipn (((k - 1) * M + j) * q) w) i)) (nth i v e0)) i0
    (escale (toF p (trit [c] t)) (nth i0 v e0))).
  - ring.
  - apply seq_NoDup.
  - apply in_seq. lia.
  - intros i _ Hne. f_equal. apply coeff_ext. intros k Hk. unfold ofdigits. rewrite !coeff_mkE. destruct (k <? ell)%nat; [|reflexivity].
    destruct (k =? 0)%nat; [|reflexivity]. now rewrite trit_clear.
  - rewrite <- (econst_scale (toF p (trit [c] t)) _ He), <- emul_add_l. f_equal. apply coeff_ext. intros k Hk. unfold ofdigits.
    rewrite coeff_eadd, !coeff_mkE, coeff_econst. rewrite (proj2 (Nat.ltb_lt k ell)), (proj2 (Nat.ltb_lt 0 ell)) by assumption.
    destruct k as [|k]; cbn [Nat.eqb andb].
    + unfold i0. rewrite !trit_at by assumption. rewrite clear_sym_trit, Nat.eqb_refl by assumption. change (toF p 0) with (@f0 p). ring.
    + ring.
Qed.

Theorem replyT_fraction B (v y : list E) M q i0 c0 z : (0 < M)%nat -> length v = (4 * q)%nat -> (i0 < length v)%nat -> (c0 < ell)%nat -> length y = M ->
  is_balanced (coeff (nth i0 v e0) c0) z -> 2 * B < Z.abs z ->
  2 ^ Z.of_nat M * count (reply_okT B v y M) (strings (ell * ((M * length v + 3) / 4))) <=
  256 ^ Z.of_nat (ell * ((M * length v + 3) / 4)).
Proof.
  intros HM Hv Hi Hc Hy Hz HB. rewrite Hv, size_4.
  replace (ell * (M * q))%nat with (M * q + (ell - 1) * (M * q))%nat by nia.
  set (a := coeff (nth i0 v e0) c0) in *.
  apply (rows_count_le q M _ _ (fun w j row => Z.abs (balanced (coeff (tvalr v y M q row w j) c0)) <=? B)).
  - intros s w Bs Bw Ls Lw Hok j Hj. apply Z.leb_le. rewrite <- tval_row by assumption.
    apply (replyT_ok_iff B v y M q) in Hok; try assumption.
    + now apply Hok.
    + apply Forall_app. now split.
    + rewrite app_length. nia.
  - intros w j Bw Lw Hj. pose proof (Nat.div_mod i0 4 ltac:(lia)) as D. pose proof (Nat.mod_upper_bound i0 4 ltac:(lia)) as U.
    assert (i0 / 4 < q)%nat by (apply Nat.div_lt_upper_bound; lia).
    match goal with |- 2 * count ?f (strings q) <= _ => set (ff := f) end.
    set (L := q). assert (HL : L = (i0 / 4 + (1 + (q - i0 / 4 - 1)))%nat) by (unfold L; lia). change (2 * count ff (strings L) <= 256 ^ Z.of_nat L). clearbody L. unfold ff.
    set (b0 := fun x u r => coeff (tvalr v y M q (x ++ [r] ++ u) w j) c0).
    rewrite HL. apply (one_trit _ _ (i0 mod 4) _ (fun x u r t => Z.abs (balanced (b0 x u r + toF p t * a)%F) <=? B) U).
    + intros x c u Bx Bu Lx Lu Hcb Hok. apply Z.leb_le in Hok. apply Z.leb_le.
      rewrite (tvalr_split v y M q x c u w j (i0 mod 4)) in Hok by (try assumption; lia).
      rewrite coeff_eadd, coeff_escale in Hok. rewrite Lx in Hok. rewrite <- D in Hok. exact Hok.
    + intros x u r. set (b := b0 x u r).
      assert (Ea : balanced a = z) by (apply (is_balanced_unique Hp a); [now apply balanced_spec|assumption]).
      change (toF p 0) with (@f0 p). replace (b + 0 * a)%F with b by ring.
      assert (H1 : Z.abs (balanced (b + toF p 1 * a)%F) <= B -> Z.abs (balanced b) <= B -> False).
      { intros K1 K2. pose proof (balanced_sub Hp (b + toF p 1 * a)%F b) as T. change (toF p 1) with (@f1 p) in *.
        replace (b + 1 * a - b)%F with a in T by ring. lia. }
      assert (H2 : Z.abs (balanced (b + toF p (-1) * a)%F) <= B -> Z.abs (balanced b) <= B -> False).
      { intros K1 K2. pose proof (balanced_sub Hp b (b + toF p (-1) * a)%F) as T. rewrite toF_m1 in *.
        replace (b - (b + - (1) * a))%F with a in T by ring. lia. }
      unfold ind.
      destruct (Z.leb_spec (Z.abs (balanced b)) B), (Z.leb_spec (Z.abs (balanced (b + toF p 1 * a)%F)) B),
        (Z.leb_spec (Z.abs (balanced (b + toF p (-1) * a)%F)) B); tauto || lia.
Qed.
End T.
