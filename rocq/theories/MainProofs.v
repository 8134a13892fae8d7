(** Complete runs of main. *)
From Coq Require Import String.
From Coq Require Import ZArith Znumtheory List Bool Lia Ring.
From Verif Require Import NumTheory Outcome Fp FSum GroupMod Ring ConstraintsModel ConstraintsSpec FourSquaresModel FourSquaresSpec BulletproofModel
  AlgebraModel AlgebraSpec AlgebraProofs TernaryModel TernarySpec RegevModel RegevSpec RegevProofs RegevDecrypt RegevMore
  ShamirModel ShamirSpec ShamirProofs ShamirSecret RegevPfModel RegevPfSpec RegevStSpec RegevPfBase RegevPfCom RegevPfEff
  RegevAggModel RegevAggSpec RegevRunModel RegevRunSpec RegevRunProofs StepSpec ProgressSpec ParamsModel
  PropRegevSt MainModel MainSpec.
Import ListNotations.
Open Scope Z_scope.

(** *** Lists of outcomes *)
Lemma omapM_cases {A B} (f : A -> outcome B) (P : A -> B -> Prop) l :
  (forall a, In a l -> (exists b, f a = Ret b /\ P a b) \/ f a = Throw) ->
  (exists bs, omapM f l = Ret bs /\ Forall2 P l bs) \/ omapM f l = Throw.
Proof.
  induction l as [|a l IH]; intros H; [left; exists []; split; [reflexivity|constructor]|].
  cbn [omapM]. destruct (H a (or_introl eq_refl)) as [(b & -> & Pb)| ->]; [|now right]. cbn [obind].
  destruct IH as [(bs & -> & F)| ->]; [intros x Hx; apply H; now right| |now right].
  left. exists (b :: bs). split; [reflexivity|now constructor].
Qed.
Lemma omapM_all {A B} (f : A -> outcome B) (g : A -> B) l : (forall a, In a l -> f a = Ret (g a)) -> omapM f l = Ret (map g l).
Proof.
  induction l as [|a l IH]; intros H; [reflexivity|]. cbn [omapM map]. rewrite (H a (or_introl eq_refl)). cbn [obind].
  rewrite IH; [reflexivity|]. intros x Hx. apply H. now right.
Qed.
Lemma Forall2_seq {B} (P : nat -> B -> Prop) n : forall a bs, Forall2 P (seq a n) bs ->
  length bs = n /\ forall i d, (i < n)%nat -> P (a + i)%nat (nth i bs d).
Proof.
  induction n as [|n IH]; intros a bs H; cbn [seq] in H; inversion H; subst; [split; [reflexivity|intros; lia]|].
  destruct (IH (S a) _ H4) as [L K]. split; [cbn; congruence|]. intros [|i] d Hi; cbn [nth]; [now rewrite Nat.add_0_r|].
  rewrite Nat.add_succ_r. apply (K i d). lia.
Qed.
Lemma oget_nth {A} (l : list A) i d : (i < length l)%nat -> oget l i = Ret (nth i l d).
Proof. intros H. apply oget_ret. now apply nth_error_nth'. Qed.

Lemma filter_none {A} (g : A -> bool) l : (forall a, g a = false) -> filter g l = [].
Proof. intros H. induction l as [|a l IH]; [reflexivity|]. cbn [filter]. now rewrite H. Qed.

(** *** Points *)
Lemma interval_points n : 0 <= n -> interval 1 (n + 1) = points n.
Proof.
  intros Hn. unfold interval, points. replace (n + 1 - 1) with n by lia.
  rewrite <- seq_shift, map_map. apply map_ext. intros i. lia.
Qed.
Lemma points_len n : length (points n) = Z.to_nat n.
Proof. unfold points. now rewrite map_length, seq_length. Qed.
Lemma points_nodup n : NoDup (points n).
Proof.
  unfold points. apply FinFun.Injective_map_NoDup; [|apply seq_NoDup]. intros a b H. lia.
Qed.
Lemma points_in n e : In e (points n) <-> 1 <= e <= n.
Proof.
  unfold points. rewrite in_map_iff. split.
  - intros (i & <- & Hi). apply in_seq in Hi. lia.
  - intros H. exists (Z.to_nat e). split; [lia|]. apply in_seq. lia.
Qed.
Lemma points_good p n : 0 <= n -> n < p -> n < 2 ^ 31 -> good_points (p := p) (points n).
Proof.
  intros H0 H1 H2. split; [apply points_nodup|]. apply Forall_forall. intros e He. apply points_in in He. lia.
Qed.
Lemma points_nth n i : (i < Z.to_nat n)%nat -> nth i (points n) 0 = Z.of_nat (S i).
Proof. intros H. unfold points. change 0 with (Z.of_nat 0) at 1. rewrite map_nth. rewrite seq_nth by assumption. reflexivity. Qed.

(** *** Keys *)
Section Keys.
Context {p : Z} {ell : nat}.
Notation F := (Fp p).
Notation E := (elt p ell).
Notation GKt := (globalKey p ell).
Add Ring Fr : (@Fp_ring p).
Hypothesis Hp : 2 <= p.

Lemma holds_wf (gk0 gk : GKt) have : wf_key gk0 -> Forall (fun pk => length pk = Z.to_nat (kay gk0)) have ->
  (length have <= Z.to_nat (enn gk0))%nat -> holds gk0 gk have -> wf_key gk.
Proof.
  intros (W1 & W2 & W3 & W4 & W5 & B1 & B2 & B3) HF HL (H1 & H2 & H3 & H4 & H5 & H6 & H7 & H8 & H9).
  unfold wf_key. rewrite H1, H2, H4, H5, H6. repeat (split; [assumption|]).
  split; [rewrite H9, app_length, skipn_length; lia|]. split; [congruence|]. rewrite H9. apply Forall_app. split; [assumption|].
  apply Forall_forall. intros row Hr. rewrite Forall_forall in B3. apply B3. rewrite <- (firstn_skipn (length have)). apply in_or_app. now right.
Qed.

(** What was generated for a party. *)
Definition made (gk0 : GKt) (t : nat -> Z * Z) (k : list E * list E) (pk : list E) : Prop :=
  exists gk pos', wf_key gk /\ gkA gk = gkA gk0 /\ kay gk = kay gk0 /\ sigmaEnc1 gk = sigmaEnc1 gk0 /\
    internalKeyGen gk t 0 = Ret (fst k, pk, snd k, pos').

Lemma genAll_cases (gk0 : GKt) : 8 <= p -> wf_key gk0 -> enn gk0 < 2 ^ 31 -> 2 * 2 ^ sigmaEnc1 gk0 <= p -> 4 * kay gk0 * Z.of_nat ell < 2 ^ 31 ->
  forall ts gk have, Forall (fun pk => length pk = Z.to_nat (kay gk0)) have -> (length have + length ts <= Z.to_nat (enn gk0))%nat -> holds gk0 gk have ->
  (exists gk' ks pks, genAll ts gk = Ret (gk', ks) /\ holds gk0 gk' (have ++ pks) /\ length ks = length ts /\ length pks = length ts /\
     Forall (fun pk => length pk = Z.to_nat (kay gk0)) pks /\
     forall j d1 d2 d3, (j < length ts)%nat -> made gk0 (nth j ts d1) (nth j ks d2) (nth j pks d3)) \/ genAll ts gk = Throw.
Proof.
  intros Hp8 Hwf0 Hn Hs Hkb. induction ts as [|t ts IH]; intros gk have HF HL HH.
  - left. exists gk, [], []. split; [reflexivity|]. rewrite app_nil_r. split; [exact HH|]. repeat (split; [try reflexivity; constructor|]). cbn. intros; lia.
  - cbn [length] in HL. assert (Hwf : wf_key gk) by (apply (holds_wf gk0 gk have Hwf0 HF ltac:(lia) HH)).
    pose proof HH as (H1 & H2 & H3 & H4 & H5 & H6 & H7 & H8 & H9).
    cbn [genAll]. destruct (keygen_cases gk t 0 Hwf ltac:(unfold RegevMore.kb; rewrite H1; exact Hkb)) as [(t0 & u & pk & _ & _ & EK)|[EK _]]; [|right; rewrite EK; reflexivity].
    destruct (keygen_spec Hp gk t 0 _ _ _ _ Hp8 Hwf ltac:(rewrite H4; exact Hs) EK) as (K1 & K2 & _ & _ & K5).
    rewrite EK. cbn [obind].
    assert (Lpk : length pk = Z.to_nat (kay gk0)).
    { rewrite K5, zipWith_length; rewrite map_length, seq_length; rewrite ?H1 in *; congruence. }
    assert (PK := addPK_ok gk0 gk have pk ltac:(destruct Hwf0 as (? & _); lia) ltac:(destruct Hwf0 as (_ & ? & _); lia)
      ltac:(destruct Hwf0 as (_ & _ & _ & _ & _ & B1 & _); exact B1) ltac:(lia) HH).
    rewrite Lpk, Nat.eqb_refl in PK. rewrite (proj2 (Nat.ltb_lt (length have) _)) in PK by lia. cbn [andb] in PK. destruct PK as (gk' & EA & HH').
    rewrite EA. cbn [obind].
    destruct (IH gk' (have ++ [pk])) as [(gk2 & ks & pks & EG & HH2 & L1 & L2 & FF & K)|EG].
    + apply Forall_app. split; [exact HF|]. constructor; [exact Lpk|constructor].
    + rewrite app_length. cbn [length]. lia.
    + exact HH'.
    + left. rewrite EG. cbn [obind]. eexists gk2, _, (pk :: pks). split; [reflexivity|]. rewrite <- app_assoc in HH2. split; [exact HH2|].
      split; [cbn; congruence|]. split; [cbn; congruence|]. split; [constructor; assumption|].
      intros [|j] d1 d2 d3 Hj; cbn [nth].
      * eexists gk, _. split; [exact Hwf|]. split; [congruence|]. split; [congruence|]. split; [congruence|]. cbn [fst snd]. exact EK.
      * apply K. cbn in Hj. lia.
    + right. rewrite EG. reflexivity.
Qed.

Variable bits : Z.
Notation D := (2 ^ (bits / Z.of_nat ell)).
(** The noise found in decryption is what the proof of decryption is about. *)
Lemma decrypt_full (gk0 gk : GKt) rndK posK rndE posE i sk pk noise pos1 ptxt ct1 ct2 r e1 e2 pos2 W old :
  (2 <= ell)%nat -> Z.of_nat ell <= bits -> 8 <= p -> 8 <= D -> wf_key gk -> wf_key gk0 ->
  gkA gk0 = gkA gk -> kay gk0 = kay gk -> sigmaEnc1 gk0 = sigmaEnc1 gk ->
  internalKeyGen gk0 rndK posK = Ret (sk, pk, noise, pos1) ->
  0 <= i < enn gk -> nth_error (mrows (gkB gk)) (Z.to_nat i) = Some pk ->
  internalEncrypt bits gk ptxt rndE posE = Ret (ct1, ct2, r, e1, e2, pos2) ->
  0 <= W ->
  (2 ^ (2 * sigmaEnc1 gk) * kay gk * Z.of_nat ell / 2) * (4 * kay gk * Z.of_nat ell) <= W * W ->
  2 * ((2 * W + 2 ^ sigmaEnc2 gk) * (D + 1)) < p ->
  2 * (2 * W + 2 ^ sigmaEnc2 gk) <= D ^ (Z.of_nat ell - 1) ->
  2 * 2 ^ sigmaEnc1 gk <= p ->
  exists dn, internalDecrypt bits gk sk i ct1 ct2 old = Ret (nth (Z.to_nat i) ptxt 0%F, dn) /\
    dn = esub (esub (nth (Z.to_nat i) ct2 e0) (edot sk ct1)) (escale (nth (Z.to_nat i) ptxt 0%F) (gElement bits)).
Proof.
  intros Hell Hbits Hp8 HD8 Hwf Hwf0 EA EK ES HK Hi Hpk HE HW HWW Hbig Htop Hs1.
  destruct (decrypt_spec bits Hp gk0 gk rndK posK rndE posE i sk pk noise pos1 ptxt ct1 ct2 r e1 e2 pos2 W old
    Hell Hbits Hp8 HD8 Hwf Hwf0 EA EK ES HK Hi Hpk HE HW HWW Hbig Htop Hs1) as [e [_ [Be C]]].
  exists (of_ints e). split; [exact C|]. rewrite Be.
  assert (Hs2pos : 0 < 2 ^ sigmaEnc2 gk) by (apply Z.pow_pos_nonneg; [lia|destruct Hwf as [_ [_ [_ [H _]]]]; lia]).
  assert (Hs2 : 2 * 2 ^ sigmaEnc2 gk <= p) by nia.
  destruct (keygen_spec Hp gk0 rndK posK sk pk noise pos1 Hp8 Hwf0 ltac:(rewrite ES; lia) HK) as [K1 [K2 [K3 [K4 K5]]]].
  rewrite EA, EK, ES in *.
  destruct (encrypt_spec bits Hp gk ptxt rndE posE ct1 ct2 r e1 e2 pos2 Hp8 Hwf Hs1 Hs2 HE)
    as [C0 [C1 [C2 [C3 [C4 [C5 [C6 [C7 [C8 C9]]]]]]]]].
  destruct Hwf as [Hk [Hn [Hsg1 [Hsg2 [HA HB]]]]].
  specialize (C9 (Z.to_nat i) ltac:(lia)). rewrite (nth_error_nth _ _ _ Hpk) in C9.
  rewrite C7, C9, K5. destruct HA as [HA1 [HA2 HA3]].
  rewrite edot_add_r by (rewrite ?map_length; congruence).
  rewrite (edot_assoc sk r (gkA gk) (Z.to_nat (kay gk)) (Z.to_nat (kay gk))) by (try (split; [assumption|split; assumption]); congruence).
  rewrite edot_add_l by (rewrite map_length, seq_length; congruence).
  apply coeff_ext. intros j _. rewrite ?coeff_esub, ?coeff_eadd, ?coeff_esub, ?coeff_eadd. ring.
Qed.
End Keys.

Lemma nInner_seq {p} (a b : list (Fp p)) n : length a = n -> length b = n ->
  nInner a b = fsum (map (fun j => (nth j a 0 * nth j b 0)%F) (seq 0 n)).
Proof. intros Ha Hb. rewrite nInner_dot, <- Ha. symmetry. apply seq_dot. congruence. Qed.

Lemma position_points n i : (i < Z.to_nat n)%nat -> position (Z.of_nat (S i)) (points n) = i.
Proof.
  intros H. assert (I : In (Z.of_nat (S i)) (points n)) by (apply points_in; lia).
  destruct (position_nth _ _ I) as [L E]. rewrite points_len in L. rewrite points_nth in E by exact L. lia.
Qed.
Lemma shares_combine {p} n t (s : Fp p) rs lag : prime p -> 0 <= n -> n < p -> n < 2 ^ 31 -> 0 < t <= n -> Z.of_nat (length rs) = t - 1 ->
  lagrangeCoeffs (points t) = Ret lag -> length lag = Z.to_nat t ->
  fsum (map (fun j => (nth j lag 0 * nth (j + 1) (newSharing (points n) s rs) 0)%F) (seq 0 (Z.to_nat t))) = s.
Proof.
  intros Hp Hn Hnp Hni Ht Hrs HL HLL.
  pose proof (reconstruct Hp (points n) s rs (points t) (points_good p n Hn Hnp Hni) (points_nodup t)
    ltac:(intros e He; apply points_in in He; apply points_in; lia) ltac:(rewrite points_len; lia)) as H.
  unfold getSecret in H. rewrite HL in H. cbn [obind] in H. injection H as H. eapply eq_trans; [|exact H].
  rewrite (nInner_seq _ _ (Z.to_nat t)) by (rewrite ?map_length, ?points_len; congruence).
  apply fsum_map_ext. intros j Hj. apply in_seq in Hj. f_equal.
  rewrite (nth_map_lt _ _ _ _ 0) by (rewrite points_len; lia). rewrite points_nth by lia. unfold share_of. rewrite position_points by lia.
  now rewrite Nat.add_1_r.
Qed.
Lemma lagrange_ret {p} t : prime p -> 0 <= t -> t < p -> t < 2 ^ 31 -> exists lag : list (Fp p), lagrangeCoeffs (points t) = Ret lag /\ length lag = Z.to_nat t.
Proof.
  intros Hp H0 H1 H2. assert (R : Forall (@ShamirSecret.in_range p) (points t)) by (apply Forall_forall; intros e He; apply points_in in He; unfold ShamirSecret.in_range; lia).
  eexists. unfold lagrangeCoeffs. rewrite (lag_outer_spec Hp _ _ R R). split; [reflexivity|]. now rewrite map_length, points_len.
Qed.

(** *** The preparation *)

Section Cancel.
Context {p : Z} {ell : nat}.
Add Ring FpMain : (@Fp_ring p).
Lemma esub_add (a b : elt p ell) : esub (eadd a b) a = b.
Proof. apply coeff_ext. intros i _. rewrite coeff_esub, coeff_eadd. ring. Qed.
Lemma esub_add2 (a b d : elt p ell) : esub (esub (eadd a (eadd b d)) a) b = d.
Proof. apply coeff_ext. intros i _. rewrite !coeff_esub, !coeff_eadd. ring. Qed.
Lemma peval_zero (a : Fp p) (l : list (Fp p)) : peval (a :: l) 0%F = a.
Proof. cbn [peval]. ring. Qed.
End Cancel.

Section Prep.
Context {p : Z} {ell : nat} {G : gmod p}.
Notation F := (Fp p).
Notation E := (elt p ell).
Notation GKt := (globalKey p ell).
Variable R : rmerlin G.
Variable lb : libs R.
Variable f : fpu.
Variables bits k n s1 s2 W SJ : Z.
Variables JL LY : nat.
Variable tp : tape p ell.
Notation thr := (threshold ell n).

Definition ready_for (x : list nat * cfg ell G * @pstate p ell G R * round p ell) : Prop :=
  let '(errs, c, st, i) := x in
  errs = [] /\ good_setup R c (points n) thr /\ good_libs R c /\ jl_sqrt c /\ room c st /\ round_dims c i /\ round_true c (points n) thr i /\
  (i_pk i < Enn c)%nat /\ length (i_lag i) = Tee c /\ cHm c <> [] /\ fresh c st /\ opens1 c st Sk1 (coeffs_of (i_sk1 i)) /\
  kay (cgk c) = k /\ enn (cgk c) = n /\ JLDIM c = JL /\ LINYDIM c = LY.

Lemma prepare_cases b : prime p -> consts_ok ell JL LY SJ -> params_ok p ell bits k n s1 s2 W -> libs_ok R lb thr n -> tape_ok tp thr (LY / ell) ->
  verifierBounds f (Z.of_nat ell) (Z.of_nat JL) 4 k n s1 s2 = Ret b -> 2 <= v_radix b < p ->
  10 * Z.of_nat JL + 40 + 3 * (k * Z.of_nat ell) + thr + n + Z.of_nat LY < 2 ^ 31 ->
  (exists x, mainPrepare R lb f bits JL LY SJ k n s1 s2 tp = Ret x /\ ready_for x) \/ mainPrepare R lb f bits JL LY SJ k n s1 s2 tp = Throw.
Proof.
  intros Hprime (Hell & E4 & EJ & EL & HJ & HY & HSJ) (Hk & Hn & Hnp & Hs1 & Hs2 & Hbits & Hp8 & HD8 & HW & HWW & Hbig & Htop & Hs1p)
    (LB & LE & LJ & LP & LQ & M & HM & HKB) (TR & TY) HV HR HI.
  assert (Hp2 : 2 <= p) by lia.
  assert (El4 : (ell <= 4)%nat) by (apply Nat.divide_pos_le; [lia|exact E4]).
  destruct (proj2 (new_ret (p := p) (ell := ell) k n s1 s2 (t_A tp) ltac:(lia) ltac:(lia)) ltac:(lia)) as [gk0 Hnew].
  destruct (new_spec k n s1 s2 None (t_A tp) gk0 ltac:(lia) Hnew) as [N1 [N2 [N3 [N4 [N5 [N6 [N7 [N8 [N9 [N10 [N11 [N12 [N13 N14]]]]]]]]]]]]].
  assert (NT : tee gk0 = thr).
  { clear -Hnew Hn Hell. unfold newGlobalKey in Hnew. destruct (_ || _)%bool; [discriminate|]. destruct (negb _); [discriminate|].
    unfold threshold. remember (Z.quot (n - 1) (2 * Z.of_nat ell) * Z.of_nat ell) as t eqn:Et. apply obind_ret_inv in Hnew as (A & _ & H). injection H as <-.
    cbn [tee]. rewrite Et, Z.quot_div_nonneg by lia. reflexivity. }
  assert (Hwf0 : wf_key gk0) by (unfold wf_key; rewrite N1, N2, N3, N4; repeat (split; [lia|]); split; assumption).
  rewrite NT in N13, N14.
  destruct (proj2 (setIndexes_ok (Z.of_nat JL) (Z.of_nat LY) (Z.of_nat ell) k n thr ltac:(lia) ltac:(lia) ltac:(lia) ltac:(lia) ltac:(lia) ltac:(lia)) HI) as [idx HIdx].
  unfold mainPrepare. rewrite Hnew. cbn [obind]. rewrite N1, N2, NT, (interval_points n) by lia. rewrite HM. cbn [obind]. rewrite HV. cbn [obind]. rewrite HIdx. cbn [obind].
  set (ts := map (t_key tp) (seq 0 (Z.to_nat n))).
  assert (Lts : length ts = Z.to_nat n) by (unfold ts; now rewrite map_length, seq_length).
  assert (Hkb : 4 * kay gk0 * Z.of_nat ell < 2 ^ 31) by (rewrite N1; assert (Z.of_nat ell <= 4) by lia; nia).
  destruct (genAll_cases Hp2 gk0 Hp8 Hwf0 ltac:(lia) ltac:(rewrite N3; exact Hs1p) Hkb ts gk0 [] ltac:(constructor) ltac:(cbn; lia)
    ltac:(unfold holds; cbn [length app skipn]; rewrite N5; repeat split)) as [(gk & ks & pks & EG & HH & L1 & L2 & FF & MK)|EG]; [|right; rewrite EG; reflexivity].
  rewrite EG. cbn [obind]. cbn [app] in HH.
  assert (Hwf : wf_key gk) by (apply (holds_wf gk0 gk pks Hwf0 FF ltac:(lia) HH)).
  destruct HH as (H1 & H2 & H3 & H4 & H5 & H6 & H7 & H8 & H9). rewrite N1 in H1. rewrite N2 in H2. rewrite NT in H3. rewrite N3 in H4. rewrite N4 in H5.
  rewrite H1, H2, H3, (interval_points n) by lia.
  set (sshr := newSharing (points n) (t_s tp) (t_rs tp)).
  assert (Lss : length sshr = S (Z.to_nat n)) by (unfold sshr, newSharing; now rewrite map_length; cbn [length]; rewrite map_length, points_len).
  set (N := Z.to_nat n) in *. set (T := Z.to_nat thr) in *.
  assert (HT : (T <= N)%nat) by (unfold T, N; lia).
  (* encryption *)
  assert (HE : (exists cts, encAll bits gk sshr (t_enc tp) = Ret cts /\ Forall2 (fun i x => exists ct1 ct2 r e1 e2 pos,
      x = (repeat (nth (i + 1) sshr 0%F) N, ct1, ct2) /\ internalEncrypt bits gk (repeat (nth (i + 1) sshr 0%F) N) (t_enc tp i) 0 = Ret (ct1, ct2, r, e1, e2, pos)) (seq 0 N) cts)
      \/ encAll bits gk sshr (t_enc tp) = Throw).
  { unfold encAll. rewrite H2. fold N. apply omapM_cases. intros i Hi. apply in_seq in Hi. rewrite (oget_nth sshr (i + 1) 0%F) by lia. cbn [obind].
    destruct (encrypt_cases bits gk (repeat (nth (i + 1) sshr 0%F) N) (t_enc tp i) 0 Hwf ltac:(unfold RegevMore.kb; rewrite H1, <- N1; exact Hkb)
      ltac:(rewrite repeat_length, H2; reflexivity)) as [(t0 & u & w & c1 & c2 & _ & _ & _ & EE)|[EE _]]; rewrite EE; [left|right; reflexivity].
    cbn [obind]. eexists. split; [reflexivity|]. do 6 eexists. split; reflexivity. }
  destruct HE as [(cts & HE & FE)|HE]; rewrite HE; [|right; reflexivity]. cbn [obind].
  destruct (Forall2_seq _ N 0 cts FE) as [Lc FC]. cbn [Nat.add] in FC. clear FE.
  set (d0 := ([], [], []) : list F * list E * list E) in *.
  set (C1 := fun i => snd (fst (nth i cts d0))). set (C2 := fun i => snd (nth i cts d0)).
  assert (FC' : forall i, (i < N)%nat -> nth i cts d0 = (repeat (nth (i + 1) sshr 0%F) N, C1 i, C2 i) /\
    exists r e1 e2 pos, internalEncrypt bits gk (repeat (nth (i + 1) sshr 0%F) N) (t_enc tp i) 0 = Ret (C1 i, C2 i, r, e1, e2, pos)).
  { intros i Hi. destruct (FC i d0 Hi) as (ct1 & ct2 & r & e1 & e2 & pos & EX & EE). unfold C1, C2. rewrite EX. cbn [fst snd]. split; [reflexivity|]. eauto. }
  clear FC. assert (OC : forall i, (i < N)%nat -> oget cts i = Ret (repeat (nth (i + 1) sshr 0%F) N, C1 i, C2 i)).
  { intros i Hi. rewrite (oget_nth cts i d0) by lia. now rewrite (proj1 (FC' i Hi)). }
  clearbody C1 C2.
  assert (Hs2p : 2 * 2 ^ s2 <= p).
  { assert (0 < 2 ^ s2) by (apply Z.pow_pos_nonneg; lia). set (D := 2 ^ (bits / Z.of_nat ell)) in *. nia. }
  assert (LC : forall i, (i < N)%nat -> length (C1 i) = Z.to_nat k /\ length (C2 i) = N).
  { intros i Hi. destruct (FC' i Hi) as (_ & r & e1 & e2 & pos & EE).
    destruct (encrypt_spec bits Hp2 gk _ _ _ _ _ _ _ _ _ Hp8 Hwf ltac:(rewrite H4; exact Hs1p) ltac:(rewrite H5; exact Hs2p) EE) as (_ & A1 & A2 & _ & _ & _ & _ & A7 & A8 & _).
    destruct Hwf as (_ & _ & _ & _ & [DA _] & _). rewrite H1 in *. rewrite H2 in *. split; [|exact A8].
    rewrite A7, zipWith_length; rewrite map_length; congruence. }
  (* the key of party 1 *)
  assert (H1N : (1 < N)%nat) by (unfold N; lia).
  rewrite (oget_nth ks 1 ([], [])) by lia. cbn [obind]. pose proof (MK 1%nat (fun _ => (0, 0)) ([], []) [] ltac:(lia)) as MK1.
  destruct (nth 1 ks ([], [])) as [sk kn] eqn:EKn. destruct MK1 as (gkk & pos' & WFk & AK & KK & SK & KG). cbn [fst snd] in KG.
  destruct (keygen_spec Hp2 gkk _ _ _ _ _ _ Hp8 WFk ltac:(rewrite SK, N3; exact Hs1p) KG) as (KG1 & KG2 & _ & _ & KG5). rewrite KK, N1 in KG1, KG2, KG5. rewrite AK in KG5.
  (* decryption *)
  assert (HPK : nth_error (mrows (gkB gk)) (Z.to_nat 1) = Some (nth 1 pks [])).
  { rewrite H9. change (Z.to_nat 1) with 1%nat. rewrite nth_error_app1 by lia. apply nth_error_nth'. lia. }
  assert (HD : (exists dec, decAll bits gk sk 1 cts = Ret dec /\ Forall2 (fun i x => x = (nth (i + 1) sshr 0%F,
      esub (esub (nth 1 (C2 i) e0) (edot sk (C1 i))) (escale (nth (i + 1) sshr 0%F) (gElement bits)))) (seq 0 T) dec) \/ decAll bits gk sk 1 cts = Throw).
  { unfold decAll. rewrite H3. fold T. apply omapM_cases. intros i Hi. apply in_seq in Hi. rewrite OC by lia. cbn [obind].
    destruct (FC' i ltac:(lia)) as (_ & r & e1 & e2 & pos & EE).
    destruct (decrypt_full Hp2 bits gkk gk _ _ _ _ 1 sk _ kn pos' _ _ _ _ _ _ _ W e0 Hell Hbits Hp8 HD8 Hwf WFk ltac:(congruence) ltac:(congruence) ltac:(congruence) KG
      ltac:(lia) HPK EE HW ltac:(rewrite H1, H4; exact HWW) ltac:(rewrite H5; exact Hbig) ltac:(rewrite H5; exact Htop) ltac:(rewrite H4; exact Hs1p)) as (dn & DE & DN).
    left. eexists. split; [exact DE|]. rewrite DN. change (Z.to_nat 1) with 1%nat. rewrite (nth_indep _ _ (nth (i + 1) sshr 0%F)) by (rewrite repeat_length; lia).
    rewrite nth_repeat. reflexivity. }
  change (Z.of_nat 1) with 1.
  destruct HD as [(dec & HD & FD)|HD]; rewrite HD; [|right; reflexivity]. cbn [obind].
  destruct (Forall2_seq _ T 0 dec FD) as [Ld FD']. cbn [Nat.add] in FD'. clear FD.
  assert (P2 : forall i, (i < T)%nat -> nth i (map fst dec) 0%F = nth (i + 1) sshr 0%F).
  { intros i Hi. rewrite (nth_map_lt fst dec i 0%F (0%F, e0)) by lia. now rewrite (FD' i (0%F, e0) Hi). }
  assert (DN : forall i, (i < T)%nat -> nth i (map snd dec) e0 = esub (esub (nth 1 (C2 i) e0) (edot sk (C1 i))) (escale (nth (i + 1) sshr 0%F) (gElement bits))).
  { intros i Hi. rewrite (nth_map_lt snd dec i e0 (0%F, e0)) by lia. now rewrite (FD' i (0%F, e0) Hi). }
  assert (HErr : decErrors 1 T (map fst dec) cts = Ret []).
  { unfold decErrors. rewrite (omapM_all _ (fun _ => false)).
    - cbn [obind]. f_equal. apply filter_none. intros i. clear. revert i. induction (seq 0 T) as [|a l IH]; intros [|i]; cbn [map nth]; auto.
    - intros i Hi. apply in_seq in Hi. rewrite (oget_nth _ i 0%F) by (rewrite map_length; lia). cbn [obind]. rewrite OC by lia. cbn [obind].
      rewrite (oget_nth _ 1 (nth (i + 1) sshr 0%F)) by (rewrite repeat_length; lia). cbn [obind]. rewrite nth_repeat, P2 by lia.
      now rewrite (proj2 (feqb_eq _ _) eq_refl). }
  rewrite HErr. cbn [obind].
  rewrite (omapM_all _ (fun j => nth (j + 1) sshr 0%F)) by (intros j Hj; apply in_seq in Hj; apply oget_nth; lia). cbn [obind].
  set (pt3 := map (fun j => nth (j + 1) sshr 0%F) (seq 0 N)).
  assert (Lp3 : length pt3 = N) by (unfold pt3; now rewrite map_length, seq_length).
  destruct (encrypt_cases bits gk pt3 (t_enc2 tp) 0 Hwf ltac:(unfold RegevMore.kb; rewrite H1, <- N1; exact Hkb) ltac:(rewrite Lp3, H2; reflexivity))
    as [(t0 & u & w & c1 & c2 & _ & _ & _ & EE)|[EE _]]; rewrite EE; [|right; reflexivity]. cbn [obind].
  match type of EE with _ = Ret (_, _, ?a, ?b0, ?c0, _) => set (er := a) in *; set (n1 := b0) in *; set (n2 := c0) in * end.
  destruct (encrypt_spec bits Hp2 gk _ _ _ _ _ _ _ _ _ Hp8 Hwf ltac:(rewrite H4; exact Hs1p) ltac:(rewrite H5; exact Hs2p) EE) as (_ & A1 & A2 & A3 & _ & _ & _ & A7 & A8 & A9).
  rewrite H1 in A1, A2. rewrite H2 in A3, A8, A9. fold N in A3, A8, A9. clearbody er n1 n2. clear EE t0 u w.
  assert (EM : ctMatrix (Z.to_nat k) T cts = Ret (Mat (map (fun j => map (fun i => nth j (C1 i) e0) (seq 0 T)) (seq 0 (Z.to_nat k))) T)).
  { unfold ctMatrix. rewrite (omapM_all _ (fun j => map (fun i => nth j (C1 i) e0) (seq 0 T))); [reflexivity|]. intros j Hj. apply in_seq in Hj.
    apply omapM_all. intros i Hi. apply in_seq in Hi. rewrite OC by lia. cbn [obind]. apply oget_nth. destruct (LC i ltac:(lia)) as [-> _]. lia. }
  assert (EV : ctVector 1 T cts = Ret (map (fun i => nth 1 (C2 i) e0) (seq 0 T))).
  { unfold ctVector. apply omapM_all. intros i Hi. apply in_seq in Hi. rewrite OC by lia. cbn [obind]. apply oget_nth. destruct (LC i ltac:(lia)) as [_ ->]. exact H1N. }
  rewrite EM. cbn [obind]. rewrite EV. cbn [obind].
  set (gens := computeGenerators (l_getG lb) (l_getH lb) idx). set (c := mkCfg R lb bits JL LY SJ gk (l_ker lb M) b gens). set (st := mkState R lb JL idx n thr).
  assert (LK : length (l_ker lb M) = (S N - T)%nat).
  { destruct (genMatrix_col _ _ _ HM) as (_ & Hl & _). rewrite points_len in Hl. fold N in Hl.
    destruct (kernel_rows Hprime thr (points n) M (l_ker lb M) (points_good p n ltac:(lia) Hnp ltac:(lia)) HM HKB) as [EK|[EK _]]; fold T in EK; lia. }
  assert (KC : kay (cgk c) = k) by exact H1. assert (NC : enn (cgk c) = n) by exact H2. assert (TC : tee (cgk c) = thr) by exact H3.
  assert (LO : layout_of c idx) by (apply layout_set; rewrite KC, NC, TC; exact HIdx).
  destruct (good_set (Z.of_nat JL) (Z.of_nat LY) (Z.of_nat ell) k n thr idx ltac:(lia) ltac:(lia) ltac:(lia) ltac:(lia) ltac:(lia) ltac:(lia) HIdx)
    as (GI1 & GI2 & GI3 & GI4 & GI5 & _).
  assert (GW : 0 <= idx WW) by (rewrite GI5; cbn [pos]; nia).
  assert (LG : Z.of_nat (length (cGs c)) = idx WW + 1).
  { unfold c, mkCfg, gens, computeGenerators. cbn [cGs fst]. rewrite map_length, seq_length. lia. }
  assert (HF : fresh c st).
  { unfold fresh, st, mkState. cbn [pidx plin pnorm plinW pqG pqH]. split; [exact LO|]. split.
    - f_equal. unfold c, mkCfg. cbn [cHm]. rewrite LK. unfold N, T. lia.
    - repeat split. exact LG. }
  destruct (commitKey R c st sk (t_skRnd tp)) as [st'| | |] eqn:ECK; cycle 1.
  { right. reflexivity. }
  1,2: exfalso; revert ECK; unfold commitKey; rewrite commitE_all; destruct (_ <? _)%nat; discriminate.
  destruct (commitKey_opens R c st st' sk (t_skRnd tp) HF ECK) as [HF' HO]. cbn [obind].
  rewrite (interval_points thr) by lia.
  destruct (lagrange_ret (p := p) thr Hprime ltac:(lia) ltac:(lia) ltac:(lia)) as (lag & EL' & LL). rewrite EL'. cbn [obind].
  left. eexists. split; [reflexivity|].
  unfold ready_for. cbn [i_pk i_lag i_sk1]. split; [reflexivity|].
  assert (KD : key_dims c).
  { unfold key_dims. rewrite KC, NC. destruct Hwf as (_ & _ & _ & _ & DA & DB). rewrite H1 in DA, DB. rewrite H2 in DB. split; assumption. }
  split. { split; [|split; [exact LB|split; [exact LJ|split; [exact LP|split; [exact KD|split; [|split; [|split]]]]]]].
    - unfold wf_cfg. rewrite KC, NC, TC. unfold c, mkCfg. cbn [JLDIM LINYDIM radix]. split; [lia|]. split; [exact E4|].
      split; [apply Nat.divide_trans with (4 * ell)%nat; [exists 4%nat; lia|exact EJ]|].
      split; [apply Nat.divide_trans with (4 * ell)%nat; [exists 4%nat; lia|exact EL]|]. repeat (split; [lia|]). apply HR.
    - apply points_good; lia.
    - rewrite NC. apply points_len.
    - rewrite NC. unfold c, mkCfg. cbn [cHm]. destruct HKB as [HKB _]. revert HKB. apply Forall_impl. intros r [Hr _]. rewrite Hr.
      destruct (genMatrix_col _ _ _ HM) as (_ & Hl & _). rewrite points_len in Hl. exact Hl.
    - exists M. split; [exact HM|exact HKB]. }
  split. { split; [exact LB|]. split; [exact LE|]. split; [exact LJ|exact LP]. }
  split. { exact HSJ. }
  assert (HF2 := HF'). destruct HF2 as (F1 & F2 & F3 & _ & _ & _ & F7).
  assert (PI : pidx st' = idx /\ pcomp st' = repeat e0 (10 * (JL + 4) / ell)).
  { unfold commitKey in ECK. apply obind_ret_inv in ECK as (com & _ & ECK). injection ECK as <-. split; reflexivity. }
  destruct PI as [PI1 PI2].
  split.
  { unfold room. split; [exact F1|]. split; [lia|]. split.
    - unfold c, mkCfg, gens, computeGenerators. cbn [cHs snd JLDIM]. rewrite app_length, map_length, seq_length. specialize (GI2 Sk1 eq_refl). cbn [npos] in GI2. lia.
    - rewrite F2, F3, PI2, !repeat_length. unfold c, mkCfg. cbn [JLDIM]. split; [lia|]. split; [lia|reflexivity]. }
  split.
  { unfold round_dims, dec_dims, enc_dims. cbn [i_ctMat i_ctVec i_pt1 i_sk1 i_dn i_ct1 i_ct2 i_pt2 i_er i_n1 i_n2 i_kn i_sk2 i_ys]. rewrite KC, NC, TC. fold N T.
    split; [split; [|split; [|split; [|split]]]|].
    - unfold mat_dims. cbn [mrows mcols]. rewrite map_length, seq_length. split; [reflexivity|]. split; [reflexivity|].
      apply Forall_forall. intros row Hr. apply in_map_iff in Hr as (j & <- & _). now rewrite map_length, seq_length.
    - now rewrite map_length, seq_length.
    - now rewrite map_length.
    - exact KG1.
    - now rewrite map_length.
    - split; [split; [|repeat split; assumption]|split; [exact KG2|split; [exact KG1|exact TY]]].
      destruct Hwf as (_ & _ & _ & _ & [DA _] & _). rewrite H1 in DA. rewrite A7, zipWith_length; rewrite map_length; congruence. }
  split.
  { unfold round_true. cbn [i_ctMat i_ctVec i_pt1 i_sk1 i_dn i_ct1 i_ct2 i_pt2 i_er i_n1 i_n2 i_kn i_sk2 i_pk i_lag].
    assert (AA : gkA (cgk c) = gkA gk) by reflexivity. assert (BB : gkB (cgk c) = gkB gk) by reflexivity.
    pose proof Hwf as (_ & _ & _ & _ & (DA1 & DA2 & DA3) & (DB1 & DB2 & DB3)). rewrite H1 in *. rewrite H2 in *. fold N in DB1.
    split; [|split; [|split; [|split]]].
    - unfold decrypts. rewrite KC, TC. fold T. intros i Hi. rewrite DN by exact Hi. rewrite P2 by exact Hi.
      rewrite (nth_map_lt _ _ _ _ 0%nat) by (rewrite seq_length; lia). rewrite seq_nth by lia. cbn [Nat.add]. f_equal. f_equal.
      unfold edot, sumE. rewrite KG1. apply f_equal, map_ext_in. intros j Hj. apply in_seq in Hj. unfold mget. cbn [mrows].
      rewrite (nth_map_lt _ _ _ _ 0%nat) by (rewrite seq_length; lia). rewrite seq_nth by lia. cbn [Nat.add].
      rewrite (nth_map_lt _ _ _ _ 0%nat) by (rewrite seq_length; lia). rewrite seq_nth by lia. cbn [Nat.add]. apply emul_comm.
    - unfold encrypts1. rewrite KC. intros i Hi. rewrite A7.
      rewrite (zipWith_nth eadd e0 e0 e0) by (rewrite ?map_length; lia). rewrite (nth_map_lt _ _ _ _ []) by lia.
      rewrite edot_sumE. unfold mget. rewrite AA. rewrite Forall_forall in DA3.
      rewrite (DA3 (nth i (mrows (gkA gk)) [])) by (apply nth_In; lia). symmetry. apply esub_add.
    - unfold encrypts2. rewrite KC, NC. fold N. intros i Hi. rewrite A9 by exact Hi.
      rewrite edot_sumE. unfold mget. rewrite BB. rewrite Forall_forall in DB3.
      rewrite (DB3 (nth i (mrows (gkB gk)) [])) by (apply nth_In; lia). symmetry. apply esub_add2.
    - unfold is_keypair. rewrite KC. intros i Hi. unfold mget. rewrite BB, AA, H6.
      change (Z.to_nat 1) with 1%nat in HPK. rewrite (nth_error_nth _ _ [] HPK), KG5.
      rewrite (zipWith_nth eadd e0 e0 e0) by (rewrite ?map_length, ?seq_length; lia).
      rewrite (nth_map_lt _ _ _ _ 0%nat) by (rewrite seq_length; lia). rewrite seq_nth by lia. cbn [Nat.add].
      rewrite edot_sumE, KG1. eapply eq_trans; [symmetry; apply (esub_add (sumE (Z.to_nat k) (fun q => emul (nth q sk e0) (nth q (column e0 (gkA gk0) i) e0))))|]. f_equal.
      unfold sumE. apply f_equal, map_ext_in. intros j Hj. apply in_seq in Hj. rewrite emul_comm. f_equal.
      unfold column. rewrite H6 in DA1. now rewrite (nth_map_lt _ _ _ _ []) by lia.
    - rewrite TC. fold T.
      assert (EF : fsum (map (fun j => (nth j lag 0 * nth j (map fst dec) 0)%F) (seq 0 T)) = t_s tp).
      { eapply eq_trans; [|exact (shares_combine n thr (t_s tp) (t_rs tp) lag Hprime ltac:(lia) Hnp ltac:(lia) ltac:(lia) TR EL' LL)].
        apply f_equal, map_ext_in. intros j Hj. apply in_seq in Hj. rewrite P2 by lia. reflexivity. }
      rewrite EF. replace (t_s tp :: pt3) with sshr.
      + replace T with (S (length (t_rs tp))) by lia. apply newSharing_valid.
      + apply nth_ext with (d := 0%F) (d' := 0%F); [cbn [length]; lia|]. intros j Hj. destruct j as [|j].
        * unfold sshr, newSharing. cbn [map nth]. apply peval_zero.
        * cbn [nth]. unfold pt3. rewrite (nth_map_lt _ _ _ _ 0%nat) by (rewrite seq_length; lia). rewrite seq_nth by lia.
          f_equal. lia. }
  split. { rewrite NC. exact H1N. }
  split. { rewrite TC. exact LL. }
  split. { unfold c, mkCfg. cbn [cHm]. intros E0. rewrite E0 in LK. cbn [length] in LK. lia. }
  split; [exact HF'|]. split; [exact HO|]. repeat split; assumption || reflexivity.
Qed.
End Prep.
