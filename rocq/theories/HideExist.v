(** For all secrets there is randomness with which a step shows the same. *)
From Coq Require Import String.
From Coq Require Import ZArith List Bool Lia Ring.
From Verif Require Import Outcome Fp FSum GroupMod Ring ConstraintsModel ConstraintsSpec
  PedersenModel BulletproofModel AlgebraModel AlgebraSpec TernaryModel TernarySpec
  RegevModel RegevSpec RegevPfModel RegevPfSpec RegevStSpec RegevPfState RegevPfSml StepSpec ProgressSpec ProgressBase ZkSpec HideSpec HideRuns HideSteps.
Import ListNotations.
Open Scope Z_scope.

Section D.
Context {p : Z} {ell : nat} {G : gmod p}.
Notation F := (Fp p).
Notation E := (elt p ell).
Variable R : rmerlin G.
Variable c : cfg ell G.
Notation pstate := (@pstate p ell G R).
Add Ring Fhide : (@Fp_ring p).
Hypothesis Hb : generates (cbase c).

Lemma pick_point (g C : G) : exists r, gadd (gmul (cbase c) r) g = C.
Proof. destruct Hb as [A _]. destruct (A (gadd C (gopp g))) as [r Hr]. exists r. rewrite Hr. gsolve. Qed.
Lemma pick1 i (v : list F) C : exists r, com_point c i v r = C /\ forall C', is_com1 c i v r C' -> C' = C.
Proof. destruct (pick_point (gdot (skipn (Z.to_nat i) (cGs c)) v) C) as [r Hr]. exists r. split; [exact Hr|]. intros C' [_ ->]. exact Hr. Qed.
Lemma pick2 i (o : outcome (list E)) C : exists r, forall v C', o = Ret v -> is_com2 c i (coeffs_of v) r C' -> C' = C.
Proof.
  destruct o as [v| | |]; [|exists 0%F; intros; discriminate ..].
  destruct (pick_point (gadd (gdot (skipn (Z.to_nat i) (cGs c)) (coeffs_of v)) (gdot (skipn (Z.to_nat i) (cHs c)) (coeffs_of v))) C) as [r Hr].
  exists r. intros v' C' Q (_ & _ & ->). injection Q as <-. exact Hr.
Qed.
Lemma uniq1 i (v : list F) r r' C : is_com1 c i v r C -> is_com1 c i v r' C -> r = r'.
Proof.
  intros [_ ->] [_ K]. destruct Hb as [_ B]. apply B.
  apply (f_equal (fun g => gadd g (gopp (gdot (skipn (Z.to_nat i) (cGs c)) v)))) in K.
  etransitivity; [|etransitivity; [exact K|]]; gsolve.
Qed.
Lemma uniq2 i (v : list F) r r' C : is_com2 c i v r C -> is_com2 c i v r' C -> r = r'.
Proof.
  intros (_ & _ & ->) (_ & _ & K). destruct Hb as [_ B]. apply B.
  apply (f_equal (fun g => gadd g (gopp (gadd (gdot (skipn (Z.to_nat i) (cGs c)) v) (gdot (skipn (Z.to_nat i) (cHs c)) v))))) in K.
  etransitivity; [|etransitivity; [exact K|]]; gsolve.
Qed.

Lemma dec_hide (s1 s1' s2 : pstate) rnd1 ctMat ctVec pt1 pt2 sk1 sk2 n1 n2 :
  proveDecryption R c s1 rnd1 ctMat ctVec pt1 sk1 n1 = Ret s1' -> same_view s1 s2 ->
  exists rnd2, com_point c (pidx s2 Pt1) pt2 (rnd2 Pt1) = pcom s1' Pt1 /\
    forall s2', proveDecryption R c s2 rnd2 ctMat ctVec pt2 sk2 n2 = Ret s2' -> same_view s1' s2'.
Proof.
  intros H [HS HV]. pose proof H as H1.
  apply dec_run in H as (C1 & C2 & C3 & C4 & C5 & X & m1 & comp & hi & lo & hib & padHi & padLo & x & m2 & xvec & Rx & ctRx & lin & q1 & q2 &
    Q1 & EX & _ & _ & Eh & _ & _ & _ & _ & _ & _ & _ & _ & _ & _ & _ & _ & _ & V).
  apply view_inv in V as [_ V]. pose proof (stmt_inv R _ _ HS) as (I1 & _ & _ & _ & I5).
  set (od := let! k := leftVecMultTE n2 X in breakTwoDigits [] [] k (radix c)).
  set (oh := let! d := od in Ret (fst d)). set (ol := let! d := od in Ret (snd d)).
  destruct (pick1 (pidx s2 Pt1) pt2 C1) as [r1 [F1 P1]].
  destruct (pick2 (pidx s2 DCompHi) oh C2) as [r2 P2].
  destruct (pick2 (pidx s2 DPadHi) (let! h := oh in pad c h hib) C3) as [r3 P3].
  destruct (pick2 (pidx s2 DCompLo) ol C4) as [r4 P4].
  destruct (pick2 (pidx s2 DPadLo) (let! h := ol in pad c h (loBound c)) C5) as [r5 P5].
  exists (fun v => match v with Pt1 => r1 | DCompHi => r2 | DPadHi => r3 | DCompLo => r4 | DPadLo => r5 | _ => 0%F end).
  split; [rewrite V; exact F1|]. intros s2' H2. pose proof H2 as H2'.
  apply dec_run in H2 as (C1' & C2' & C3' & C4' & C5' & X' & m1' & comp' & hi' & lo' & hib' & padHi' & padLo' & x' & m2' & xvec' & Rx' & ctRx' & lin' & q1' & q2' &
    Q1' & EX' & Ec' & Ed' & Eh' & Ep1 & Ep2 & Q2' & Q3' & Q4' & Q5' & _ & _ & _ & _ & _ & _ & _ & V').
  apply view_inv in V' as [_ V']. apply P1 in Q1'. subst C1'. rewrite I5 in EX. same EX EX'. same Eh Eh'.
  assert (O1 : oh = Ret hi') by (unfold oh, od; rewrite Ec'; cbn [obind]; now rewrite Ed').
  assert (O2 : ol = Ret lo') by (unfold ol, od; rewrite Ec'; cbn [obind]; now rewrite Ed').
  apply (P2 _ _ O1) in Q2'. apply (P4 _ _ O2) in Q4'. rewrite O1 in P3. rewrite O2 in P5.
  apply (P3 _ _ Ep1) in Q3'. apply (P5 _ _ Ep2) in Q5'. subst C2' C3' C4' C5'.
  assert (SC : same_coms s1' s2') by (unfold same_coms; rewrite V, V'; repeat apply upd_ext; exact HV).
  split; [|exact SC]. exact (dec_pub R c _ _ _ _ _ _ _ _ _ _ _ _ _ _ H1 H2' HS SC).
Qed.

Lemma enc_hide (s1 s1' s2 : pstate) rnd1 ct1 ct2 pt1 pt2 er1 er2 a1 a2 b1 b2 :
  proveEncryption R c s1 rnd1 ct1 ct2 pt1 er1 a1 b1 = Ret s1' -> same_view s1 s2 ->
  exists rnd2, com_point c (pidx s2 Pt2) pt2 (rnd2 Pt2) = pcom s1' Pt2 /\ com_point c (pidx s2 RR) (coeffs_of er2) (rnd2 RR) = pcom s1' RR /\
    forall s2', proveEncryption R c s2 rnd2 ct1 ct2 pt2 er2 a2 b2 = Ret s2' -> same_view s1' s2'.
Proof.
  intros H [HS HV]. pose proof H as H1.
  apply enc_run in H as (C1 & C2 & D1 & D2 & D3 & D4 & D5 & D6 & D7 & D8 & D9 & D10 & X1 & m1 & X2 & m2 & X3 & m3 & k1 & k2 & kR & h1 & l1 & h2 & l2 & hib1 & hib2 &
    padR & pd1h & pd1l & pd2h & pd2l & x1 & n1 & xv1 & y1 & y1A & lin1 & x2 & n2 & xv2 & y2 & y2B & lin2 & x3 & n3 & xv3 & y3 & lin3 & q1 & q2 & q3 & q4 & q5 &
    (_ & _ & EX1 & EX2 & EX3) & (_ & _ & _ & _ & _ & Eh1 & Eh2 & _) & _ & _ & _ & V).
  apply view_inv in V as [_ V]. pose proof (stmt_inv R _ _ HS) as (I1 & _ & _ & _ & I5).
  set (o1 := let! k := rightVecMultTE X1 a2 in breakTwoDigits [] [] k (radix c)).
  set (o2 := let! k := rightVecMultTE X2 b2 in breakTwoDigits [] [] k (radix c)).
  set (oR := rightVecMultTE X3 er2).
  set (o1h := let! d := o1 in Ret (fst d)). set (o1l := let! d := o1 in Ret (snd d)).
  set (o2h := let! d := o2 in Ret (fst d)). set (o2l := let! d := o2 in Ret (snd d)).
  destruct (pick1 (pidx s2 Pt2) pt2 C1) as [r1 [F1 P1]]. destruct (pick1 (pidx s2 RR) (coeffs_of er2) C2) as [r2 [F2 P2]].
  destruct (pick2 (pidx s2 RComp) oR D1) as [t1 T1]. destruct (pick2 (pidx s2 RPad) (let! h := oR in pad c h (B_r c)) D2) as [t2 T2].
  destruct (pick2 (pidx s2 EComp1Hi) o1h D3) as [t3 T3]. destruct (pick2 (pidx s2 EPad1Hi) (let! h := o1h in pad c h hib1) D4) as [t4 T4].
  destruct (pick2 (pidx s2 EComp1Lo) o1l D5) as [t5 T5]. destruct (pick2 (pidx s2 EPad1Lo) (let! h := o1l in pad c h (loBound c)) D6) as [t6 T6].
  destruct (pick2 (pidx s2 EComp2Hi) o2h D7) as [t7 T7]. destruct (pick2 (pidx s2 EPad2Hi) (let! h := o2h in pad c h hib2) D8) as [t8 T8].
  destruct (pick2 (pidx s2 EComp2Lo) o2l D9) as [t9 T9]. destruct (pick2 (pidx s2 EPad2Lo) (let! h := o2l in pad c h (loBound c)) D10) as [t10 T10].
  exists (fun v => match v with Pt2 => r1 | RR => r2 | RComp => t1 | RPad => t2 | EComp1Hi => t3 | EPad1Hi => t4 | EComp1Lo => t5 | EPad1Lo => t6
    | EComp2Hi => t7 | EPad2Hi => t8 | EComp2Lo => t9 | EPad2Lo => t10 | _ => 0%F end).
  split; [rewrite V; exact F1|]. split; [rewrite V; exact F2|]. intros s2' H2. pose proof H2 as H2'.
  apply enc_run in H2 as (C1' & C2' & D1' & D2' & D3' & D4' & D5' & D6' & D7' & D8' & D9' & D10' & X1' & m1' & X2' & m2' & X3' & m3' & k1' & k2' & kR' & h1' & l1' & h2' & l2' & hib1' & hib2' &
    padR' & pd1h' & pd1l' & pd2h' & pd2l' & x1' & n1' & xv1' & y1' & y1A' & lin1' & x2' & n2' & xv2' & y2' & y2B' & lin2' & x3' & n3' & xv3' & y3' & lin3' & q1' & q2' & q3' & q4' & q5' &
    (Q1 & Q2 & EX1' & EX2' & EX3') & (Ek1 & Ek2 & EkR & Ed1 & Ed2 & Eh1' & Eh2' & EpR & Ep1 & Ep2 & Ep3 & Ep4) &
    (S1 & S2 & S3 & S4 & S5 & S6 & S7 & S8 & S9 & S10) & _ & _ & V').
  apply view_inv in V' as [_ V']. apply P1 in Q1. apply P2 in Q2. subst C1' C2'. rewrite I5 in EX1. same EX1 EX1'. same EX2 EX2'. same EX3 EX3'. same Eh1 Eh1'. same Eh2 Eh2'.
  assert (O1 : o1h = Ret h1') by (unfold o1h, o1; rewrite Ek1; cbn [obind]; now rewrite Ed1).
  assert (O2 : o1l = Ret l1') by (unfold o1l, o1; rewrite Ek1; cbn [obind]; now rewrite Ed1).
  assert (O3 : o2h = Ret h2') by (unfold o2h, o2; rewrite Ek2; cbn [obind]; now rewrite Ed2).
  assert (O4 : o2l = Ret l2') by (unfold o2l, o2; rewrite Ek2; cbn [obind]; now rewrite Ed2).
  assert (O5 : oR = Ret kR') by exact EkR.
  rewrite O5 in T2. rewrite O1 in T4. rewrite O2 in T6. rewrite O3 in T8. rewrite O4 in T10.
  apply (T1 _ _ O5) in S1. apply (T2 _ _ EpR) in S2. apply (T3 _ _ O1) in S3. apply (T4 _ _ Ep1) in S4. apply (T5 _ _ O2) in S5. apply (T6 _ _ Ep2) in S6.
  apply (T7 _ _ O3) in S7. apply (T8 _ _ Ep3) in S8. apply (T9 _ _ O4) in S9. apply (T10 _ _ Ep4) in S10.
  subst D1' D2' D3' D4' D5' D6' D7' D8' D9' D10'.
  assert (SC : same_coms s1' s2') by (unfold same_coms; rewrite V, V'; repeat apply upd_ext; exact HV).
  split; [|exact SC]. exact (enc_pub R c _ _ _ _ _ _ _ _ _ _ _ _ _ _ _ _ H1 H2' HS SC).
Qed.

Lemma key_hide (s1 s1' s2 : pstate) rnd1 pk sk1 sk2 n1 n2 :
  proveKeyGen R c s1 rnd1 pk sk1 n1 = Ret s1' -> same_view s1 s2 ->
  exists rnd2, com_point c (pidx s2 Sk2) (coeffs_of sk2) (rnd2 Sk2) = pcom s1' Sk2 /\
    forall s2', proveKeyGen R c s2 rnd2 pk sk2 n2 = Ret s2' -> same_view s1' s2'.
Proof.
  intros H [HS HV]. pose proof H as H1.
  apply key_run in H as (C & D1 & D2 & D3 & D4 & D5 & D6 & X1 & m1 & X2 & m2 & ek & sk & hi & lo & hib & skPad & pH & pL & x1 & r1 & xv1 & R1x & bRow & AR & lin1 &
    x2 & r2 & xv2 & R2x & lin2 & q1 & q2 & q3 & (_ & EX1 & EX2) & (_ & _ & _ & Eh & _) & _ & _ & _ & V).
  apply view_inv in V as [_ V]. pose proof (stmt_inv R _ _ HS) as (I1 & _ & _ & _ & I5).
  set (od := let! k := leftVecMultTE n2 X1 in breakTwoDigits [] [] k (radix c)).
  set (oh := let! d := od in Ret (fst d)). set (ol := let! d := od in Ret (snd d)). set (os := leftVecMultTE sk2 X2).
  destruct (pick1 (pidx s2 Sk2) (coeffs_of sk2) C) as [t0 [F0 T0]].
  destruct (pick2 (pidx s2 Sk2Comp) os D1) as [t1 T1]. destruct (pick2 (pidx s2 Sk2Pad) (let! h := os in pad c h (B_sk c)) D2) as [t2 T2].
  destruct (pick2 (pidx s2 KCompHi) oh D3) as [t3 T3]. destruct (pick2 (pidx s2 KPadHi) (let! h := oh in pad c h hib) D4) as [t4 T4].
  destruct (pick2 (pidx s2 KCompLo) ol D5) as [t5 T5]. destruct (pick2 (pidx s2 KPadLo) (let! h := ol in pad c h (loBound c)) D6) as [t6 T6].
  exists (fun v => match v with Sk2 => t0 | Sk2Comp => t1 | Sk2Pad => t2 | KCompHi => t3 | KPadHi => t4 | KCompLo => t5 | KPadLo => t6 | _ => 0%F end).
  split; [rewrite V; exact F0|]. intros s2' H2. pose proof H2 as H2'.
  apply key_run in H2 as (C' & D1' & D2' & D3' & D4' & D5' & D6' & X1' & m1' & X2' & m2' & ek' & sk' & hi' & lo' & hib' & skPad' & pH' & pL' & x1' & r1' & xv1' & R1x' & bRow' & AR' & lin1' &
    x2' & r2' & xv2' & R2x' & lin2' & q1' & q2' & q3' & (Q & EX1' & EX2') & (Ek & Es & Ed & Eh' & EpS & Ep1 & Ep2) & (S1 & S2 & S3 & S4 & S5 & S6) & _ & _ & V').
  apply view_inv in V' as [_ V']. apply T0 in Q. subst C'. rewrite I5 in EX1. same EX1 EX1'. same EX2 EX2'. same Eh Eh'.
  assert (O1 : oh = Ret hi') by (unfold oh, od; rewrite Ek; cbn [obind]; now rewrite Ed).
  assert (O2 : ol = Ret lo') by (unfold ol, od; rewrite Ek; cbn [obind]; now rewrite Ed).
  assert (O3 : os = Ret sk') by exact Es.
  rewrite O3 in T2. rewrite O1 in T4. rewrite O2 in T6.
  apply (T1 _ _ O3) in S1. apply (T2 _ _ EpS) in S2. apply (T3 _ _ O1) in S3. apply (T4 _ _ Ep1) in S4. apply (T5 _ _ O2) in S5. apply (T6 _ _ Ep2) in S6.
  subst D1' D2' D3' D4' D5' D6'.
  assert (SC : same_coms s1' s2') by (unfold same_coms; rewrite V, V'; repeat apply upd_ext; exact HV).
  split; [|exact SC]. exact (key_pub R c _ _ _ _ _ _ _ _ _ _ _ H1 H2' HS SC).
Qed.
Lemma zip_back : forall (z u : list E), length z = length u -> zipWith eadd u (zipWith esub z u) = z.
Proof.
  induction z as [|a z IH]; intros [|b u] H; cbn in H; try lia; cbn [zipWith]; [reflexivity|]. f_equal; [|apply IH; lia].
  apply coeff_ext. intros i _. rewrite coeff_eadd, coeff_esub. ring.
Qed.
Lemma zipsub_len : forall (z u : list E), length z = length u -> length (zipWith esub z u) = length z.
Proof. induction z as [|a z IH]; intros [|b u] H; cbn in *; try lia. f_equal. apply IH. lia. Qed.
Lemma zipadd_len : forall (u v : list E), length u = length v -> length (zipWith eadd u v) = length u.
Proof. induction u as [|a u IH]; intros [|b v] H; cbn in *; try lia. f_equal. apply IH. lia. Qed.

Notation nRows := (10 * (JLDIM c + PAD_SIZE) / ell)%nat.
Notation nCols := (LINYDIM c / ell)%nat.
Hypothesis Hc : wf_cfg c.
Hypothesis Hbt : byte_transcript R.

(** The mask is the reply minus the compressed vector. *)
Lemma sml_hide (s1 s1' s2 : pstate) ys1 rs1 :
  proveSmallness R c s1 ys1 rs1 = Ret s1' -> same_view s1 s2 -> length (pcomp s2) = nRows ->
  exists X m f u2 y2 r2,
    ternaryE (ell := ell) R (m_point R (pmer s2) "smallnessPf" (pcom s1' YY)) "Smallness" nRows nCols = Ret (X, m) /\
    is_temat ell X nRows nCols f /\ u2 = vec nCols (compL nRows (pcomp s2) f) /\
    length y2 = nCols /\ zipWith eadd u2 y2 = pz s1' /\ y2 = zipWith esub (pz s1') u2 /\ lInftyNorm (pz s1') <= B_smallness c /\
    com_point c (pidx s2 YY) (coeffs_of y2) r2 = pcom s1' YY /\
    forall s2', proveSmallness R c s2 (fun _ => y2) (fun _ => r2) = Ret s2' -> same_view s1' s2'.
Proof.
  intros H [HS HV] HL. pose proof H as H1.
  apply sml_run in H as (t & X & m1 & u & x & m2 & xvec & Rx & lin & L1 & _ & _ & EX & Eu & Ez & _ & Hz & _ & _ & _ & _ & _ & V).
  pose proof (stmt_inv R _ _ HS) as (I1 & _ & _ & _ & I5). rewrite I5 in EX.
  assert (He : (0 < ell)%nat) by apply Hc.
  destruct (ternaryE_inv R Hbt _ _ _ _ _ _ He (rows_pos c Hc) EX) as [f Hf].
  assert (El : forall v, length v = nRows -> leftVecMultTE v X = Ret (vec nCols (compL nRows v f))) by (intros v Hv; now apply (left_ok c Hc)).
  rewrite (El _ L1) in Eu. injection Eu as <-.
  assert (Lz : length (pz s1') = nCols).
  { unfold vecAdd in Ez. rewrite vec_len in Ez. destruct (Nat.eqb_spec nCols (length (ys1 t))) as [Q|Q]; [|discriminate].
    cbn [negb] in Ez. injection Ez as <-. rewrite zipadd_len; rewrite vec_len; [reflexivity|exact Q]. }
  set (u2 := vec nCols (compL nRows (pcomp s2) f)).
  assert (Lu : length u2 = nCols) by apply vec_len.
  set (y2 := zipWith esub (pz s1') u2).
  assert (Ly : length y2 = nCols) by (unfold y2; rewrite zipsub_len; congruence).
  destruct (pick1 (pidx s2 YY) (coeffs_of y2) (pcom s1' YY)) as [r2 [F2 P]].
  exists X, m1, f, u2, y2, r2. split; [exact EX|]. split; [exact Hf|]. split; [reflexivity|]. split; [exact Ly|].
  assert (Eback : zipWith eadd u2 y2 = pz s1') by (apply zip_back; congruence).
  split; [exact Eback|]. split; [reflexivity|]. split; [exact Hz|]. split; [exact F2|]. intros s2' H2. pose proof H2 as H2'.
  apply sml_run in H2 as (t' & X' & m1' & u' & x' & m2' & xvec' & Rx' & lin' & _ & Q & _ & EX' & Eu' & Ez' & _ & _ & _ & _ & _ & _ & _ & V').
  apply P in Q. rewrite Q in EX'. same EX EX'. rewrite (El _ HL) in Eu'. injection Eu' as <-.
  change (vecAdd u2 y2 = Ret (pz s2')) in Ez'. unfold vecAdd in Ez'. rewrite Lu, Ly, Nat.eqb_refl in Ez'. cbn [negb] in Ez'. rewrite Eback in Ez'. injection Ez' as Ez'.
  split; [exact (sml_pub R c _ _ _ _ _ _ _ _ H1 H2' HS (eq_sym Q) Ez')|].
  intros v. destruct (var_eq_dec v YY) as [->|Hv]; [symmetry; exact Q|]. rewrite V, V' by assumption. apply HV.
Qed.
End D.
