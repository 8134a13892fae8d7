(** The five steps together: what the recorded constraints mean. *)
From Coq Require Import String.
From Coq Require Import ZArith Znumtheory List Bool Lia.
From Verif Require Import NumTheory Outcome Fp FSum GroupMod Ring ConstraintsModel ConstraintsSpec FourSquaresModel FourSquaresSpec BulletproofModel
  AlgebraModel AlgebraSpec TernaryModel TernarySpec RegevModel ShamirModel ShamirSpec RegevPfModel RegevPfSpec RegevStSpec
  RegevPfBase RegevPfState RegevPfPost RegevPfShare RegevAggModel RegevAggSpec RegevRunModel RegevRunSpec RegevRunProofs PropRegevSt CountSpec StepSpec PropStep RegevSoundSpec RegevAggSound WholeSpec.
Import ListNotations.
Open Scope Z_scope.

Section K.
Context {p : Z} {ell : nat} {G : gmod p} {R : rmerlin G}.
Variable c : cfg ell G.
Notation pstate := (@pstate p ell G R).
Variables (s s' : pstate) (ws cs : list var) (ns os : list nat).
Hypothesis Hf : step_frame c s s' ws cs ns os.
Variable w : Z -> Fp p.
Lemma block_keep off : Forall (fun con => lin_sat con w) (plin s') -> (off + ell <= length (plin s'))%nat ->
  (forall r, (r < ell)%nat -> forall o, In o os -> ~ (o <= off + r < o + ell)%nat) -> block_sat (ell := ell) (plin s) off w.
Proof.
  intros H L D r Hr. destruct Hf as (_ & _ & _ & _ & _ & _ & K & _). specialize (K (off + r)%nat (D r Hr)).
  destruct (nth_error (plin s') (off + r)) as [con|] eqn:Q; [|apply nth_error_None in Q; lia].
  exists con. split; [now symmetry|]. rewrite Forall_forall in H. apply H. eapply nth_error_In. exact Q.
Qed.
Lemma norm_keep n : Forall (fun q => quad_sat q w w) (pnorm s') -> (n < length (pnorm s'))%nat -> ~ In n ns -> norm_sat s n w.
Proof.
  intros H L D. destruct Hf as (_ & _ & _ & _ & _ & K & _). specialize (K n D).
  destruct (nth_error (pnorm s') n) as [q|] eqn:Q; [|apply nth_error_None in Q; lia].
  exists q. split; [now symmetry|]. rewrite Forall_forall in H. apply H. eapply nth_error_In. exact Q.
Qed.
End K.

Section W.
Context {p : Z} {ell : nat} {G : gmod p} {R : rmerlin G}.
Hypothesis Hp : prime p.
Variable c : cfg ell G.
Variables (evs : list Z) (thr : Z).
Hypothesis Hs : good_setup R c evs thr.
Hypothesis Hx : exact_transcript R.
Variable i : round p ell.
Hypothesis Hd : round_dims c i.
Notation pstate := (@pstate p ell G R).
Notation F := (Fp p).
Notation roff := (map (fun j => (7 * ell + j)%nat) (seq 0 (length (cHm c)))).
Hypothesis D1 : Nat.divide 4 (JLDIM c / ell).
Hypothesis D2 : Nat.divide 4 (LINYDIM c / ell).
Hypothesis D3 : Nat.divide 4 (Z.to_nat (kay (cgk c))).
Hypothesis D4 : Nat.divide 4 (Z.to_nat (enn (cgk c))).

Lemma steps_sound st st5 : fresh c st -> proofSteps R c st i = Ret st5 ->
  exists s1 s2 s3 s4 hd h1 h2 hk,
    proveDecryption R c st (i_rnd i) (i_ctMat i) (i_ctVec i) (i_pt1 i) (i_sk1 i) (i_dn i) = Ret s1 /\
    proveEncryption R c s1 (i_rnd i) (i_ct1 i) (i_ct2 i) (i_pt2 i) (i_er i) (i_n1 i) (i_n2 i) = Ret s2 /\
    proveKeyGen R c s2 (i_rnd i) (i_pk i) (i_sk2 i) (i_kn i) = Ret s3 /\
    proveReShare R c s3 (i_lag i) (i_pt1 i) (i_pt2 i) = Ret s4 /\
    proveSmallness R c s4 (i_ys i) (i_rs i) = Ret st5 /\
    hiBound c (B_dNoise c) (kk c) = Ret hd /\ hiBound c (B_eNoise1 c) (kk c) = Ret h1 /\ hiBound c (B_eNoise2 c) (nn c) = Ret h2 /\
    hiBound c (B_kNoise c) (kk c) = Ret hk /\
    (no_wrap c [hd; h1; h2; hk; loBound c; B_r c; B_sk c] -> forall w,
      Forall (fun con => lin_sat con w) (plin st5) -> Forall (fun q => quad_sat q w w) (pnorm st5) ->
      let b h := loBound c + radix c * h in
      statement_holds c st i evs (Z.to_nat thr) (b hd) (b h1) (b h2) (b hk) w \/
      lucky_round c st s1 s2 s3 s4 st5 i (b hd) (b h1) (b h2) (b hk) w).
Proof.
  intros (Fl & FL & FN & FW & FG & FH & FGs) Run.
  destruct (cfg_parts c evs thr Hs) as (Hc & Hb & Hj & Hpp & Hk).
  destruct Hs as (_ & _ & _ & _ & _ & Gp & Lev & Hrows & M & GM & Kb).
  destruct Hd as (Dd & De & Dk1 & Dk2 & Dy).
  unfold proofSteps in Run.
  apply obind_ret_inv in Run as (s1 & R1 & Run). apply obind_ret_inv in Run as (s2 & R2 & Run).
  apply obind_ret_inv in Run as (s3 & R3 & Run). apply obind_ret_inv in Run as (s4 & R4 & R5).
  assert (Pl : (0 < ell)%nat) by apply Hc.
  assert (W0 : wf_state c st).
  { split; [exact Fl|]. rewrite FW, FG, FL, FN. split; [exact Logic.I|]. split; [exact Logic.I|].
    split; apply Forall_forall; intros a Ha; apply repeat_spec in Ha as ->; exact Logic.I. }
  assert (NF : forall n x y, (n < 10)%nat -> norm_fresh c st n x y).
  { intros n x y Hn. exists emptyQuad. split; [rewrite FN; now apply nth_error_repeat|intros k []]. }
  destruct (C47_state R c _ _ _ _ _ _ _ _ Hc Hb W0 Hj Hpp Dd R1) as (_ & _ & _ & _ & F1 & W1).
  assert (BE : block_empty (ell := ell) (plin s1) (rLin (ell := ell))).
  { intros r Hr. exists 0%F. destruct F1 as (_ & _ & _ & _ & _ & _ & H & _). rewrite H.
    - rewrite FL. apply nth_error_repeat. unfold rLin. lia.
    - intros o [<-|[]]. unfold dLin, rLin. lia. }
  destruct (C48_state R c _ _ _ _ _ _ _ _ _ Hc Hb W1 Hj Hpp Hk De BE R2) as (_ & _ & _ & _ & _ & F2 & W2).
  assert (NF1 : forall n x y, (n < 10)%nat -> ~ In n [0; 1]%nat -> norm_fresh c s1 n x y).
  { intros n v1 v2 Hn Hi. destruct (NF n v1 v2 Hn) as (q & Q1 & Q2). exists q. destruct F1 as (E & _ & _ & _ & _ & H & _).
    rewrite H by exact Hi. split; [exact Q1|]. unfold in_var. now rewrite E. }
  destruct (C49_state R c _ _ _ _ _ _ Hc Hb W2 Hj Hpp Hk Dk1 Dk2 R3) as (_ & _ & _ & F3 & W3).
  pose proof (frame_trans c _ _ _ _ _ _ _ _ _ _ _ F1 F2) as F02.
  assert (NF2 : forall n x y, (n < 10)%nat -> ~ In n ([0; 1]%nat ++ [2; 3; 4; 5; 6]%nat)%list -> norm_fresh c s2 n x y).
  { intros n v1 v2 Hn Hi. destruct (NF n v1 v2 Hn) as (q & Q1 & Q2). exists q. destruct F02 as (E & _ & _ & _ & _ & H & _).
    rewrite H by exact Hi. split; [exact Q1|]. unfold in_var. now rewrite E. }
  destruct (C50_state R c _ _ _ _ _ R4) as (E4 & E4' & E4l).
  assert (F4 : step_frame c s3 s4 [] [] [] roff) by (apply rows_frame; assumption).
  assert (W4 : wf_state c s4).
  { destruct W3 as (V1 & V2 & V3 & V4 & V5). rewrite E4. split; [exact V1|]. split; [exact V2|]. split; [exact V3|].
    split; [|exact V5]. cbn [plin set_lin]. eapply reshare_wf; eassumption. }
  destruct (C51_honest R c _ _ _ _ Hc Hb W4 Dy R5) as (_ & _ & _ & F5 & _ & W5).
  pose proof (frame_trans c _ _ _ _ _ _ _ _ _ _ _ F4 F5) as F35.
  pose proof (frame_trans c _ _ _ _ _ _ _ _ _ _ _ F3 F35) as F25.
  pose proof (frame_trans c _ _ _ _ _ _ _ _ _ _ _ F2 F25) as F15.
  pose proof (frame_trans c _ _ _ _ _ _ _ _ _ _ _ F1 F15) as F05.
  assert (L5 : length (plin st5) = (7 * ell + length (cHm c))%nat).
  { destruct F05 as (_ & _ & _ & _ & _ & _ & _ & L & _). rewrite L, FL. apply repeat_length. }
  assert (N5 : length (pnorm st5) = 10%nat).
  { destruct F05 as (_ & _ & _ & _ & _ & _ & _ & _ & L & _). rewrite L, FN. apply repeat_length. }
  destruct (C83_decryption R c st s1 _ _ _ _ _ _ s4 st5 _ _ Hc Hb Hx Hj Hpp W0 D1 D2 Dd (NF 0%nat _ _ ltac:(lia)) (NF 1%nat _ _ ltac:(lia)) R1 Dy R5)
    as (hd & fd & xd & fs & xs & Hhd & Cd & Cs & Sd).
  destruct (C83_encryption R c s1 s2 _ _ _ _ _ _ _ s4 st5 _ _ Hc Hb Hx Hj Hpp W1 D3 D4 D2 Hk De BE
    (NF1 2%nat _ _ ltac:(lia) ltac:(cbn; lia)) (NF1 3%nat _ _ ltac:(lia) ltac:(cbn; lia)) (NF1 4%nat _ _ ltac:(lia) ltac:(cbn; lia))
    (NF1 5%nat _ _ ltac:(lia) ltac:(cbn; lia)) (NF1 6%nat _ _ ltac:(lia) ltac:(cbn; lia)) R2 Dy R5)
    as (h1 & h2 & f1 & f2 & f3 & x1 & x2 & x3 & fs' & xs' & Hh1 & Hh2 & Ce & Cs' & Se).
  destruct (C83_keygen R c s2 s3 _ _ _ _ s4 st5 _ _ Hc Hb Hx Hj Hpp W2 D1 D2 Hk Dk1 Dk2
    (NF2 7%nat _ _ ltac:(lia) ltac:(cbn; lia)) (NF2 8%nat _ _ ltac:(lia) ltac:(cbn; lia)) (NF2 9%nat _ _ ltac:(lia) ltac:(cbn; lia)) R3 Dy R5)
    as (hk & g1 & g2 & y1 & y2 & fs'' & xs'' & Hhk & Ck & Cs'' & Sk).
  exists s1, s2, s3, s4, hd, h1, h2, hk. repeat (split; [assumption|]).
  intros (HW1 & HW2 & HW3) w Hl Hq b.
  assert (HW : forall bs, (forall z, In z bs -> In z [hd; h1; h2; hk; loBound c; B_r c; B_sk c]) -> no_wrap c bs).
  { intros bs Hbs. split; [exact HW1|]. split; [exact HW2|]. apply Forall_forall. intros z Hz. rewrite Forall_forall in HW3. apply HW3, Hbs, Hz. }
  assert (Esml : block_sat (ell := ell) (plin st5) (smlnsLin (ell := ell)) w).
  { intros r Hr. destruct (nth_error (plin st5) (smlnsLin (ell := ell) + r)) as [con|] eqn:Q; [|apply nth_error_None in Q; unfold smlnsLin in Q; lia].
    exists con. split; [reflexivity|]. rewrite Forall_forall in Hl. apply Hl. eapply nth_error_In. exact Q. }
  assert (Bd : block_sat (ell := ell) (plin s1) dLin w).
  { apply (block_keep c _ _ _ _ _ _ F15 w dLin Hl); [unfold dLin; lia|]. intros r Hr. voff Hr. }
  assert (Be1 : block_sat (ell := ell) (plin s2) (eLin1 (ell := ell)) w).
  { apply (block_keep c _ _ _ _ _ _ F25 w _ Hl); [unfold eLin1; lia|]. intros r Hr. voff Hr. }
  assert (Be2 : block_sat (ell := ell) (plin s2) (eLin2 (ell := ell)) w).
  { apply (block_keep c _ _ _ _ _ _ F25 w _ Hl); [unfold eLin2; lia|]. intros r Hr. voff Hr. }
  assert (Be3 : block_sat (ell := ell) (plin s2) (rLin (ell := ell)) w).
  { apply (block_keep c _ _ _ _ _ _ F25 w _ Hl); [unfold rLin; lia|]. intros r Hr. voff Hr. }
  assert (Bk1 : block_sat (ell := ell) (plin s3) (kLin (ell := ell)) w).
  { apply (block_keep c _ _ _ _ _ _ F35 w _ Hl); [unfold kLin; lia|]. intros r Hr. voff Hr. }
  assert (Bk2 : block_sat (ell := ell) (plin s3) (sk2Lin (ell := ell)) w).
  { apply (block_keep c _ _ _ _ _ _ F35 w _ Hl); [unfold sk2Lin; lia|]. intros r Hr. voff Hr. }
  assert (Br : rows_sat (plin s4) (reShrLin (ell := ell)) (length (cHm c)) w).
  { intros r Hr. destruct F5 as (_ & _ & _ & _ & _ & _ & K & _). rewrite <- K.
    - destruct (nth_error (plin st5) (reShrLin (ell := ell) + r)) as [con|] eqn:Q; [|apply nth_error_None in Q; unfold reShrLin in Q; lia].
      exists con. split; [reflexivity|]. rewrite Forall_forall in Hl. apply Hl. eapply nth_error_In. exact Q.
    - intros o [<-|[]]. unfold reShrLin, smlnsLin. lia. }
  assert (VS : valid_sharing (Z.to_nat thr) evs (reshared c st (i_lag i) w)).
  { apply (C50_valid R c s3 s4 _ _ _ evs thr M Hp Gp GM Kb Lev Hrows R4 w) in Br. unfold reshared in *.
    destruct F3 as (P3 & _). destruct F02 as (P2 & _). rewrite P3, P2 in Br. exact Br. }
  destruct (Sd (HW [hd; loBound c] ltac:(cbn; tauto)) w Bd) as [Kd|Kd].
  1,2: apply (norm_keep c _ _ _ _ _ _ F15 w _ Hq); [lia|cbn; lia].
  1: exact Esml.
  2: { right. right. right. right. exists fs, xs. split; assumption. }
  destruct (Se (HW [h1; h2; loBound c; B_r c] ltac:(cbn; tauto)) w Be1 Be2 Be3) as [(Ke1 & Ke2 & Ke3)|Ke].
  1: { intros n Hn. apply (norm_keep c _ _ _ _ _ _ F25 w _ Hq); [lia|cbn; lia]. }
  1: exact Esml.
  2: { right. right. right. right. exists fs', xs'. split; assumption. }
  destruct (Sk (HW [hk; loBound c; B_sk c] ltac:(cbn; tauto)) w Bk1 Bk2) as [(Kk1 & Kk2)|Kk].
  1,2,3: apply (norm_keep c _ _ _ _ _ _ F35 w _ Hq); [lia|cbn; lia].
  1: exact Esml.
  2: { right. right. right. right. exists fs'', xs''. split; assumption. }
  destruct Kd as [Kd|Kd]; [|right; left; exists fd, xd; split; assumption].
  destruct Ke1 as [Ke1|Ke1]; [|right; right; left; exists f1, f2, f3, x1, x2, x3; split; [exact Ce|left; exact Ke1]].
  destruct Ke2 as [Ke2|Ke2]; [|right; right; left; exists f1, f2, f3, x1, x2, x3; split; [exact Ce|right; left; exact Ke2]].
  destruct Ke3 as [Ke3|Ke3]; [|right; right; left; exists f1, f2, f3, x1, x2, x3; split; [exact Ce|right; right; exact Ke3]].
  destruct Kk1 as [Kk1|Kk1]; [|right; right; right; left; exists g1, g2, y1, y2; split; [exact Ck|left; exact Kk1]].
  destruct Kk2 as [Kk2|Kk2]; [|right; right; right; left; exists g1, g2, y1, y2; split; [exact Ck|right; exact Kk2]].
  left. destruct F1 as (P1 & _). destruct F02 as (P2 & _).
  unfold statement_holds. split; [exact Kd|]. unfold enc_noise1, enc_noise2, key_noise in *. rewrite P1 in Ke1, Ke2, Ke3. rewrite P2 in Kk1, Kk2.
  split; [exact Ke1|]. split; [exact Ke2|]. split; [exact Ke3|]. split; [exact Kk1|]. split; [exact Kk2|exact VS].
Qed.
End W.

Section D.
Context {p : Z} {ell : nat} {G : gmod p} {R : rmerlin G}.
Lemma forall_dec {A} (P : A -> Prop) l : (forall x, In x l -> P x \/ ~ P x) -> Forall P l \/ ~ Forall P l.
Proof.
  induction l as [|x l IH]; intros H; [now left; constructor|]. destruct (H x (or_introl eq_refl)) as [K|K]; [|right; intros Q; inversion Q; contradiction].
  destruct IH as [Q|Q]; [intros y Hy; apply H; now right|now left; constructor|right; intros X; inversion X; contradiction].
Qed.
Lemma constraints_dec (st : @pstate p ell G R) g y : constraints_hold st g y \/ ~ constraints_hold st g y.
Proof.
  assert (FD : forall a b : Fp p, a = b \/ a <> b) by (intros a b; destruct (feqb a b) eqn:E; [left; now apply feqb_eq|right; intros X; apply feqb_eq in X; congruence]).
  destruct (forall_dec (fun con => lin_sat con y) (plin st)) as [A|A]; [intros; apply FD| |right; intros (X & _); contradiction].
  destruct (forall_dec (fun k => g k = y k) (norm_idx st)) as [B|B]; [intros; apply FD| |right; intros (_ & X & _); apply B; now apply Forall_forall].
  destruct (forall_dec (fun q => quad_sat q g y) (pnorm st)) as [C|C]; [intros; apply FD| |right; intros (_ & _ & X); contradiction].
  left. split; [exact A|]. split; [now apply Forall_forall|exact C].
Qed.
Lemma norm_idx_in (st : @pstate p ell G R) q k : In q (pnorm st) -> In k (qidx q) -> In k (norm_idx st).
Proof.
  intros Hq Hk. destruct (RegevAggSound.zinsert_all_sorted (flat_map qidx (pnorm st)) [] Logic.I) as [_ B]. unfold norm_idx. apply B. right. apply in_flat_map. now exists q.
Qed.
Hypothesis Hp : prime p.
Add Field FpFldW : (Fp_field Hp).
Lemma residual_zero (st : @pstate p ell G R) g y rl rn u rho : constraints_hold st g y -> residual st g y rl rn u rho = 0%F.
Proof.
  intros (A & B & C). unfold residual. rewrite (lin_zero Hp st y A), (gap_zero Hp st g y rn B).
  rewrite peval_pzero; [ring|].
  unfold pzero, norm_residuals. rewrite Forall_map. eapply Forall_impl; [|exact C]. intros q E. now apply fsub_eq_0.
Qed.
End D.
