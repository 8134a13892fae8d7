(** Consequences of a proof step's effect, given the layout of the variables. *)
From Coq Require Import String.
From Coq Require Import ZArith List Bool Lia Ring.
From Verif Require Import Outcome Fp FSum GroupMod Ring ConstraintsModel ConstraintsSpec ConstraintsProofs ConstraintsOther
  PedersenModel PedersenProofs BulletproofModel AlgebraModel AlgebraSpec AlgebraProofs AlgebraMore TernaryModel TernarySpec TernaryProofs
  RegevModel RegevSpec RegevPfModel RegevPfSpec RegevPfBase RegevPfLin RegevPfCom RegevStSpec RegevPfState RegevDecrypt RegevPfEff.
Import ListNotations.
Open Scope Z_scope.

Lemma NoDup_app_intro {A} (l l' : list A) : NoDup l -> NoDup l' -> (forall x, In x l -> ~ In x l') -> NoDup (l ++ l').
Proof.
  induction 1 as [|a l Ha Hl IH]; intros H' D; cbn; [assumption|]. constructor.
  - rewrite in_app_iff. intros [K|K]; [now apply Ha|]. apply (D a); [now left|assumption].
  - apply IH; [assumption|]. intros x Hx. apply D. now right.
Qed.
Section Post.
Context {p : Z} {ell : nat} {G : gmod p}.
Notation F := (Fp p).
Notation E := (elt p ell).
Variable R : rmerlin G.
Variable c : cfg ell G.
Notation pstate := (@pstate p ell G R).
Hypothesis Hc : wf_cfg c.
Add Ring Fpost : (@Fp_ring p).

Section Lay.
Variable idx : var -> Z.
Hypothesis Hlay : layout_of c idx.
Lemma lay_good : good_idx (Z.of_nat (JLDIM c)) (Z.of_nat (LINYDIM c)) (Z.of_nat ell) (kay (cgk c)) (enn (cgk c)) (tee (cgk c)) idx.
Proof. destruct Hc as (H1 & _ & _ & _ & H2 & H3 & H4 & H5 & H6 & _). now apply layout_good. Qed.
Lemma clen_pos x : 0 < clen c x.
Proof.
  destruct Hc as (H1 & _ & _ & _ & H2 & H3 & H4 & H5 & H6 & _). unfold clen, vlen.
  assert (0 < kay (cgk c) * Z.of_nat ell) by nia. destruct x; cbn [is_comp is_pad]; lia.
Qed.
Lemma lay_pos x : 0 <= idx x.
Proof.
  destruct lay_good as (A1 & A2 & _). destruct (is_norm x) eqn:N.
  - rewrite (A1 x N). destruct x; try discriminate; cbn [npos]; lia.
  - pose proof (A2 x N) as A. cbn [npos] in A. lia.
Qed.
Lemma lay_top x : idx x + clen c x <= 2 ^ 31.
Proof.
  destruct lay_good as (_ & _ & A3 & A4 & _). destruct (var_eq_dec x WW) as [->|N].
  - change (clen c WW) with 1. lia.
  - specialize (A3 x N). fold (clen c x) in A3. lia.
Qed.
Lemma lay_top64 x : idx x + clen c x <= 2 ^ 64.
Proof. pose proof (lay_top x). lia. Qed.
Lemma lay_disj x y : x <> y -> idx x + clen c x <= idx y \/ idx y + clen c y <= idx x.
Proof. destruct lay_good as (_ & _ & _ & _ & _ & A6 & _). apply A6. Qed.
Lemma lay_aligned x : is_norm x = true -> exists q, idx x = Z.of_nat ell * Z.of_nat q.
Proof.
  intros N. destruct lay_good as (A1 & _). rewrite (A1 x N). destruct Hc as (_ & [a Ha] & [b Hb] & _).
  rewrite Hb. assert (H4 : 4 = Z.of_nat a * Z.of_nat ell) by lia.
  assert (D : exists u v, npos (Z.of_nat (b * ell)) x = u * Z.of_nat (b * ell) + v * 4 /\ 0 <= u /\ 0 <= v).
  { destruct x; try discriminate; cbn [npos]; try (exists 0, 0; lia); try (exists 1, 0; lia).
    - exists 1, 1; lia.
    - exists 2, 1; lia.
    - exists 2, 2; lia.
    - exists 3, 2; lia.
    - exists 3, 3; lia.
    - exists 4, 3; lia.
    - exists 4, 4; lia.
    - exists 5, 4; lia.
    - exists 5, 5; lia.
    - exists 6, 5; lia.
    - exists 6, 6; lia.
    - exists 7, 6; lia.
    - exists 7, 7; lia.
    - exists 8, 7; lia.
    - exists 8, 8; lia.
    - exists 9, 8; lia.
    - exists 9, 9; lia.
    - exists 10, 9; lia. }
  destruct D as (u & v & -> & Hu & Hv). exists (Z.to_nat (u * Z.of_nat b + v * Z.of_nat a)).
  rewrite Z2Nat.id by nia. rewrite Nat2Z.inj_mul. rewrite H4 at 1. ring.
Qed.
Lemma clen_aligned x : is_norm x = true -> exists q, clen c x = Z.of_nat q * Z.of_nat ell.
Proof.
  intros N. destruct Hc as (_ & [a Ha] & [b Hb] & _). unfold clen, vlen. unfold is_norm in N.
  destruct (is_comp x); [exists b; lia|]. cbn [orb] in N. rewrite N. exists a. lia.
Qed.
End Lay.

Lemma layout_ext idx idx' : layout_of c idx -> idx' = idx -> layout_of c idx'.
Proof. now intros H ->. Qed.

Lemma stores_readV (m : pvec p) i0 (v : list E) i : stores m i0 (coeffs_of v) -> (i < length v)%nat -> readV (coef m) i0 i = nth i v e0.
Proof.
  intros H Hi. apply coeff_ext. intros j Hj. unfold readV, readE. rewrite coeff_mkE, (proj2 (Nat.ltb_lt _ _)) by assumption.
  assert (Hl : (i * ell + j < length (coeffs_of v))%nat) by (rewrite coeffs_length; nia).
  destruct (H _ Hl) as [_ H2]. replace (i0 + Z.of_nat i * Z.of_nat ell + Z.of_nat j) with (i0 + Z.of_nat (i * ell + j)) by lia.
  rewrite H2. apply nth_error_nth. apply flat_nth; [|assumption]. now apply nth_error_nth'.
Qed.

Section E1.
Variables st st' : pstate.
Variable rnd : var -> F.
Variables (ws qs o1 o2 : list (var * list F)) (cps : list (var * list E)) (nms : list (nat * (Z * var * var))) (offs : list nat).
Hypothesis Heff : eff R c st st' rnd ws qs o1 o2 cps nms offs.
Hypothesis Hst : wf_state c st.
Hypothesis Hws : fits (clen c) ws.
Hypothesis Hwn : NoDup (map fst ws).
Hypothesis Hqs : fits (clen c) qs.
Hypothesis Hqn : NoDup (map fst qs).
Hypothesis Hnn : NoDup (map fst nms).

Let Hl : layout_of c (pidx st) := proj1 Hst.
Lemma eff_lay : layout_of c (pidx st').
Proof. eapply layout_ext; [exact Hl|apply Heff]. Qed.
Lemma eff_W_spec :
  ksorted (plinW st') /\
  (forall x v, In (x, v) ws -> stores (plinW st') (pidx st' x) v) /\
  (forall k, (forall x, In x (map fst ws) -> ~ in_var c st x k) -> coef (plinW st') k = coef (plinW st) k) /\
  (forall k, In k (keys (plinW st')) <-> In k (keys (plinW st)) \/ exists x, In x (map fst ws) /\ in_var c st x k).
Proof.
  pose proof Hst as HH; destruct HH as (_ & Hs & _).
  destruct (wrs_spec (clen c) (pidx st) (lay_pos _ Hl) (lay_top64 _ Hl) (lay_disj _ Hl) ws (plinW st) Hs Hws Hwn) as (A1 & A2 & A3 & A4).
  rewrite (eff_W _ _ _ _ _ _ _ _ _ _ _ _ Heff), (eff_idx _ _ _ _ _ _ _ _ _ _ _ _ Heff).
  split; [exact A1|]. split; [|split; [exact A3|exact A4]].
  intros x v Hx j Hj. unfold fits in Hws. rewrite Forall_forall in Hws. pose proof (Hws _ Hx) as L. cbn [fst snd] in L. split.
  - apply A4. right. exists x. split; [apply in_map_iff; exists (x, v); split; [reflexivity|exact Hx]|]. unfold inr. lia.
  - rewrite (A2 x v (Z.of_nat j) Hx) by lia. now rewrite Nat2Z.id.
Qed.
Lemma eff_Q_spec :
  ksorted (pqG st') /\
  (forall x v, In (x, v) qs -> stores (pqG st') (pidx st' x) v) /\
  (forall k, (forall x, In x (map fst qs) -> ~ in_var c st x k) -> coef (pqG st') k = coef (pqG st) k) /\
  (forall k, In k (keys (pqG st')) <-> In k (keys (pqG st)) \/ exists x, In x (map fst qs) /\ in_var c st x k).
Proof.
  pose proof Hst as HH; destruct HH as (_ & _ & Hs & _).
  destruct (wrs_spec (clen c) (pidx st) (lay_pos _ Hl) (lay_top64 _ Hl) (lay_disj _ Hl) qs (pqG st) Hs Hqs Hqn) as (A1 & A2 & A3 & A4).
  rewrite (eff_Q _ _ _ _ _ _ _ _ _ _ _ _ Heff), (eff_idx _ _ _ _ _ _ _ _ _ _ _ _ Heff).
  split; [exact A1|]. split; [|split; [exact A3|exact A4]].
  intros x v Hx j Hj. unfold fits in Hqs. rewrite Forall_forall in Hqs. pose proof (Hqs _ Hx) as L. cbn [fst snd] in L. split.
  - apply A4. right. exists x. split; [apply in_map_iff; exists (x, v); split; [reflexivity|exact Hx]|]. unfold inr. lia.
  - rewrite (A2 x v (Z.of_nat j) Hx) by lia. now rewrite Nat2Z.id.
Qed.
Lemma range_spec s x : zsorted s -> clen c x < 2 ^ 31 -> pidx st x + clen c x < 2 ^ 31 ->
  zsorted (addRange2Set s (pidx st x) (clen c x)) /\ forall k, In k (addRange2Set s (pidx st x) (clen c x)) <-> In k s \/ in_var c st x k.
Proof.
  intros Hs H1 H2. apply addRange_spec; [assumption|now apply lay_pos| |assumption]. pose proof (clen_pos x). lia.
Qed.
Lemma norm_top x : x <> WW -> pidx st x + clen c x < 2 ^ 31.
Proof. intros N. destruct (lay_good _ Hl) as (_ & _ & A3 & A4 & _). specialize (A3 x N). fold (clen c x) in A3. lia. Qed.
(** The norm constraints. *)
Lemma eff_norm i b x xp vx vp : In (i, (b, x, xp)) nms -> is_comp x = true -> is_pad xp = true ->
  In (x, vx) qs -> In (xp, vp) qs -> norm_fresh c st i x xp ->
  exists q, nth_error (pnorm st') i = Some q /\ wf_quad q /\ qeq q = toF p (b * b) /\
    (forall k, In k (qidx q) <-> in_var c st x k \/ in_var c st xp k) /\
    quad_val (qidx q) (coef (pqG st')) (coef (pqG st')) = fsum (map (fun a => (a * a)%F) (vx ++ vp)).
Proof.
  intros Hi Hx Hxp Hvx Hvp [q0 [Hq0 Hin]].
  destruct (norms_spec c _ _ _ _ (eff_nm _ _ _ _ _ _ _ _ _ _ _ _ Heff) Hnn) as (_ & N & _).
  destruct (N _ _ _ _ Hi) as (q & Hq & Hq'). rewrite Hq in Hq0. injection Hq0 as ->.
  assert (Wq : zsorted (qidx q0)).
  { pose proof Hst as HH; destruct HH as (_ & _ & _ & _ & W). rewrite Forall_forall in W. apply W. now apply nth_error_In in Hq. }
  assert (Nx : x <> WW) by (intros ->; discriminate). assert (Nxp : xp <> WW) by (intros ->; discriminate).
  pose proof (norm_top x Nx) as Tx. pose proof (norm_top xp Nxp) as Txp.
  assert (Lx : clen c x = Z.of_nat (JLDIM c)) by (unfold clen, vlen; now rewrite Hx).
  assert (Lxp : clen c xp = 4) by (unfold clen, vlen; rewrite Hxp; destruct xp; try discriminate; reflexivity).
  rewrite <- Lx, <- Lxp in Hq'.
  destruct (range_spec (qidx q0) x Wq) as [S1 M1]; [pose proof (lay_pos _ Hl x); lia|assumption|].
  destruct (range_spec _ xp S1) as [S2 M2]; [pose proof (lay_pos _ Hl xp); lia|assumption|].
  eexists. split; [exact Hq'|]. cbn [qidx qeq]. split; [exact S2|]. split; [reflexivity|].
  assert (M : forall k, In k (addRange2Set (addRange2Set (qidx q0) (pidx st x) (clen c x)) (pidx st xp) (clen c xp)) <-> in_var c st x k \/ in_var c st xp k).
  { intros k. rewrite M2, M1. specialize (Hin k). tauto. }
  split; [exact M|].
  destruct eff_Q_spec as (_ & Q & _). rewrite (eff_idx _ _ _ _ _ _ _ _ _ _ _ _ Heff) in Q.
  pose proof Hqs as Fq. unfold fits in Fq. rewrite Forall_forall in Fq. pose proof (Fq _ Hvx) as Kx. pose proof (Fq _ Hvp) as Kp. cbn [fst snd] in Kx, Kp.
  set (u := coef (pqG st')) in *. unfold quad_val.
  set (rg := fun (y : var) (n : nat) => map (fun j => pidx st y + Z.of_nat j) (seq 0 n)).
  assert (P : Permutation.Permutation (addRange2Set (addRange2Set (qidx q0) (pidx st x) (clen c x)) (pidx st xp) (clen c xp))
                (rg x (length vx) ++ rg xp (length vp))).
  { assert (IR : forall y v, Z.of_nat (length v) = clen c y -> forall k, In k (rg y (length (v : list F))) <-> in_var c st y k).
    { intros y v Hv k. unfold rg, in_var. rewrite in_map_iff. split.
      - intros [j [<- Hj]]. apply in_seq in Hj. lia.
      - intros Hk. exists (Z.to_nat (k - pidx st y)). split; [lia|]. apply in_seq. lia. }
    apply Permutation.NoDup_Permutation.
    - now apply zsorted_NoDup.
    - apply NoDup_app_intro.
      + apply FinFun.Injective_map_NoDup; [intros a b' H; lia|apply seq_NoDup].
      + apply FinFun.Injective_map_NoDup; [intros a b' H; lia|apply seq_NoDup].
      + intros k H1 H2. apply IR in H1; [|assumption]. apply IR in H2; [|assumption]. unfold in_var in *.
        assert (N0 : x <> xp) by (intros ->; destruct xp; discriminate). destruct (lay_disj _ Hl x xp N0); lia.
    - intros k. rewrite M, in_app_iff, (IR x vx Kx), (IR xp vp Kp). reflexivity. }
  rewrite (fsum_perm _ _ (Permutation.Permutation_map _ P)). rewrite !map_app. rewrite !fsum_app.
  assert (V : forall y v, In (y, v) qs -> map (fun k => (u k * u k)%F) (rg y (length v)) = map (fun a => (a * a)%F) v).
  { intros y v Hy. unfold rg. rewrite map_map. apply nth_ext with (d := 0%F) (d' := 0%F); [now rewrite !map_length, seq_length|].
    intros n Hn. rewrite map_length, seq_length in Hn.
    rewrite (nth_map_lt _ _ _ _ 0%nat) by (now rewrite seq_length). rewrite (nth_map_lt _ _ _ _ 0%F) by assumption.
    rewrite seq_nth by assumption. cbn [Nat.add]. destruct (Q y v Hy n Hn) as [_ Q2]. unfold u; now rewrite Q2. }
  rewrite (V x vx Hvx), (V xp vp Hvp). reflexivity.
Qed.
Lemma eff_norm_other i : ~ In i (map fst nms) -> nth_error (pnorm st') i = nth_error (pnorm st) i.
Proof. apply (norms_spec c _ _ _ _ (eff_nm _ _ _ _ _ _ _ _ _ _ _ _ Heff) Hnn). Qed.

Hypothesis Hnc : Forall (fun n => is_comp (snd (fst (snd n))) = true /\ is_pad (snd (snd n)) = true) nms.
Lemma is_comp_not_WW x : is_comp x = true -> x <> WW. Proof. intros H ->. discriminate. Qed.
Lemma is_pad_not_WW x : is_pad x = true -> x <> WW. Proof. intros H ->. discriminate. Qed.
Lemma clen_comp x : is_comp x = true -> clen c x = Z.of_nat (JLDIM c).
Proof. intros H. unfold clen, vlen. now rewrite H. Qed.
Lemma clen_pad x : is_pad x = true -> clen c x = 4.
Proof. intros H. unfold clen, vlen. rewrite H. destruct x; try discriminate; reflexivity. Qed.
Lemma eff_wfst : wf_state c st'.
Proof.
  pose proof Hst as (H1 & H2 & H3 & H4 & H5). split; [exact eff_lay|]. split; [apply eff_W_spec|]. split; [apply eff_Q_spec|].
  split; [apply (eff_wf _ _ _ _ _ _ _ _ _ _ _ _ Heff H4)|].
  destruct (norms_spec c _ _ _ _ (eff_nm _ _ _ _ _ _ _ _ _ _ _ _ Heff) Hnn) as (_ & N & N').
  rewrite Forall_forall. intros q Hq. apply In_nth_error in Hq as [i Hi].
  destruct (in_dec Nat.eq_dec i (map fst nms)) as [D|D].
  - apply in_map_iff in D as [[i' [[b x] xp]] [Ei D]]. cbn [fst] in Ei. subst i'.
    rewrite Forall_forall in Hnc. destruct (Hnc _ D) as [C1 C2]. cbn [fst snd] in C1, C2.
    destruct (N _ _ _ _ D) as (q0 & Hq0 & Hq'). rewrite Hi in Hq'. injection Hq' as ->. unfold wf_quad. cbn [qidx].
    rewrite <- (clen_comp x C1), <- (clen_pad xp C2).
    pose proof (norm_top x (is_comp_not_WW _ C1)). pose proof (norm_top xp (is_pad_not_WW _ C2)).
    pose proof (lay_pos _ Hl x). pose proof (lay_pos _ Hl xp).
    apply range_spec; [|lia|lia]. apply range_spec; [|lia|lia].
    rewrite Forall_forall in H5. apply (H5 q0). now apply nth_error_In in Hq0.
  - rewrite (N' _ D) in Hi. rewrite Forall_forall in H5. apply H5. now apply nth_error_In in Hi.
Qed.

Definition cfits (cs : list (var * list E)) : Prop :=
  Forall (fun xv => is_norm (fst xv) = true /\ Z.of_nat (length (snd xv)) * Z.of_nat ell = clen c (fst xv)) cs.
Definition cpos (x : var) : nat := Z.to_nat (pidx st x / Z.of_nat ell).
Lemma cpos_disj x y i j : is_norm x = true -> is_norm y = true -> x <> y ->
  Z.of_nat i * Z.of_nat ell < clen c x -> Z.of_nat j * Z.of_nat ell < clen c y -> (cpos x + i <> cpos y + j)%nat.
Proof.
  intros Nx Ny D Hi Hj. destruct Hc as (He & _).
  destruct (lay_aligned _ Hl x Nx) as [a Ha], (lay_aligned _ Hl y Ny) as [b Hb].
  destruct (clen_aligned x Nx) as [n Hn], (clen_aligned y Ny) as [m Hm].
  unfold cpos. rewrite Ha, Hb, !(Z.mul_comm (Z.of_nat ell)), !Z.div_mul, !Nat2Z.id by lia.
  rewrite Hn in Hi. rewrite Hm in Hj. assert (Hi' : (i < n)%nat) by nia. assert (Hj' : (j < m)%nat) by nia.
  destruct (lay_disj _ Hl x y D) as [K|K]; rewrite Ha, Hb, ?Hn, ?Hm in K.
  - assert (a + n <= b)%nat by nia. lia.
  - assert (b + m <= a)%nat by nia. lia.
Qed.
Lemma copies_spec cs : forall l l', copies (pidx st) cs l l' -> cfits cs -> NoDup (map fst cs) ->
  length l' = length l /\
  (forall x v i, In (x, v) cs -> (i < length v)%nat -> nth_error l' (cpos x + i) = nth_error v i) /\
  (forall x i, is_norm x = true -> ~ In x (map fst cs) -> Z.of_nat i * Z.of_nat ell < clen c x ->
     nth_error l' (cpos x + i) = nth_error l (cpos x + i)).
Proof.
  induction cs as [|[x v] cs IH]; intros l l' H Hf Hn; cbn [copies] in H.
  - subst. split; [reflexivity|]. split; [intros ? ? ? []|reflexivity].
  - destruct H as [l1 [H1 H]]. inversion Hf as [|? ? F1 F2]; subst. inversion Hn as [|? ? N1 N2]; subst. cbn [fst snd] in F1, N1.
    destruct F1 as [Nx Lx]. destruct (IH _ _ H F2 N2) as (B0 & B1 & B2). fold (cpos x) in H1. apply copy_at_inv in H1 as (A0 & A1 & A2).
    destruct Hc as (He & _).
    split; [congruence|]. split.
    + intros y u i [K|K] Hi; [|now apply B1]. injection K as <- <-. rewrite B2; [|assumption|assumption|nia].
      rewrite A2. rewrite (proj2 (Nat.leb_le _ _)), (proj2 (Nat.ltb_lt _ _)) by lia. cbn [andb]. f_equal. lia.
    + intros y i Ny D Hi. cbn [map fst In] in D. rewrite B2; [|assumption|tauto|assumption]. rewrite A2.
      destruct (Nat.leb_spec (cpos x) (cpos y + i)), (Nat.ltb_spec (cpos y + i) (cpos x + length v)); cbn [andb]; try reflexivity.
      exfalso. apply (cpos_disj x y (cpos y + i - cpos x) i); try assumption; [intuition congruence| |lia]. nia.
Qed.
Lemma eff_synced x v : cfits cps -> NoDup (map fst cps) -> In (x, v) cps -> In (x, coeffs_of v) ws -> synced c st' x.
Proof.
  intros Hf Hn Hx Hw i Hi. destruct eff_W_spec as (_ & W & _). specialize (W x _ Hw).
  destruct (copies_spec _ _ _ (eff_cp _ _ _ _ _ _ _ _ _ _ _ _ Heff) Hf Hn) as (_ & C1 & _).
  rewrite (eff_idx _ _ _ _ _ _ _ _ _ _ _ _ Heff) in *. unfold cfits in Hf. rewrite Forall_forall in Hf.
  destruct (Hf _ Hx) as [Nx Lx]. cbn [fst snd] in Nx, Lx. assert (Hl' : (i < length v)%nat) by (destruct Hc as (He & _); nia).
  fold (cpos x). rewrite (C1 _ _ _ Hx Hl'). rewrite (stores_readV _ _ _ _ W Hl'). now apply nth_error_nth'.
Qed.
Lemma readV_ext (u w : Z -> F) i0 i : (forall j, (j < ell)%nat -> u (i0 + Z.of_nat i * Z.of_nat ell + Z.of_nat j) = w (i0 + Z.of_nat i * Z.of_nat ell + Z.of_nat j)) ->
  readV u i0 i = readV w i0 i :> E.
Proof.
  intros H. apply coeff_ext. intros j Hj. unfold readV, readE. rewrite !coeff_mkE, !(proj2 (Nat.ltb_lt _ _)) by assumption. now apply H.
Qed.
Lemma eff_frame x k : ~ In x (map fst ws) -> in_var c st x k -> coef (plinW st') k = coef (plinW st) k.
Proof.
  intros Hx Hk. apply eff_W_spec. intros y Hy Hk'. unfold in_var in *.
  assert (D : x <> y) by congruence. destruct (lay_disj _ Hl x y D); lia.
Qed.
Lemma eff_synced_other x : cfits cps -> NoDup (map fst cps) -> is_norm x = true -> ~ In x (map fst cps) -> ~ In x (map fst ws) ->
  synced c st x -> synced c st' x.
Proof.
  intros Hf Hn Nx H1 H2 Hs i Hi. specialize (Hs i Hi).
  destruct (copies_spec _ _ _ (eff_cp _ _ _ _ _ _ _ _ _ _ _ _ Heff) Hf Hn) as (_ & _ & C2).
  rewrite (eff_idx _ _ _ _ _ _ _ _ _ _ _ _ Heff) in *. fold (cpos x) in *. rewrite (C2 x i Nx H1 Hi), Hs. f_equal.
  apply readV_ext. intros j Hj. symmetry. apply (eff_frame x); [assumption|]. unfold in_var.
  destruct (clen_aligned x Nx) as [n E]. rewrite E in *. assert ((i < n)%nat) by nia. nia.
Qed.
End E1.
End Post.
