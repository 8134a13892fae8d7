(** Two runs of a step: with the same commitments everything public is the same, and for
    all secrets there is randomness with which the commitments are the same. *)
From Coq Require Import String.
From Coq Require Import ZArith List Bool Lia.
From Verif Require Import Outcome Fp FSum GroupMod Ring ConstraintsModel ConstraintsSpec
  PedersenModel BulletproofModel AlgebraModel AlgebraSpec TernaryModel TernarySpec
  RegevModel RegevSpec RegevPfModel RegevPfSpec RegevStSpec ZkSpec HideSpec HideRuns.
Import ListNotations.
Open Scope Z_scope.

(** Two results of the same computation. *)
Ltac same E1 E2 :=
  let K := fresh in
  pose proof (eq_trans (eq_sym E1) E2) as K; clear E2; injection K; clear K; intros; subst.

Section D.
Context {p : Z} {ell : nat} {G : gmod p}.
Notation F := (Fp p).
Notation E := (elt p ell).
Variable R : rmerlin G.
Variable c : cfg ell G.
Notation pstate := (@pstate p ell G R).

Lemma view_inv (st : pstate) i l q z m co : view R st = ((i, l, q, z, m), co) ->
  statement st = (i, l, q, z, m) /\ pcom st = co.
Proof. intros H. split; [exact (f_equal fst H)|exact (f_equal snd H)]. Qed.
Lemma upd_ext {A} (f g : var -> A) x a : (forall y, f y = g y) -> forall y, upd f x a y = upd g x a y.
Proof. intros H y. unfold upd. destruct (var_eq_dec y x); [reflexivity|apply H]. Qed.
Lemma stmt_inv (s1 s2 : pstate) : statement s1 = statement s2 ->
  pidx s1 = pidx s2 /\ plin s1 = plin s2 /\ pnorm s1 = pnorm s2 /\ pz s1 = pz s2 /\ pmer s1 = pmer s2.
Proof. intros H. repeat split; [exact (f_equal (fun x => fst (fst (fst (fst x)))) H)|exact (f_equal (fun x => snd (fst (fst (fst x)))) H)|exact (f_equal (fun x => snd (fst (fst x))) H)|exact (f_equal (fun x => snd (fst x)) H)|exact (f_equal snd H)]. Qed.

Lemma dec_pub (s1 s2 s1' s2' : pstate) rnd1 rnd2 ctMat ctVec pt1 pt2 sk1 sk2 n1 n2 :
  proveDecryption R c s1 rnd1 ctMat ctVec pt1 sk1 n1 = Ret s1' ->
  proveDecryption R c s2 rnd2 ctMat ctVec pt2 sk2 n2 = Ret s2' ->
  statement s1 = statement s2 -> same_coms s1' s2' -> statement s1' = statement s2'.
Proof.
  intros H H' HS HC.
  apply dec_run in H as (C1 & C2 & C3 & C4 & C5 & X & m1 & comp & hi & lo & hib & padHi & padLo & x & m2 & xvec & Rx & ctRx & lin & q1 & q2 &
    Q1 & EX & _ & _ & Eh & _ & _ & _ & _ & _ & _ & Ex & Exv & ER & Et & Hl & N1 & N2 & V).
  apply dec_run in H' as (C1' & C2' & C3' & C4' & C5' & X' & m1' & comp' & hi' & lo' & hib' & padHi' & padLo' & x' & m2' & xvec' & Rx' & ctRx' & lin' & q1' & q2' &
    Q1' & EX' & _ & _ & Eh' & _ & _ & _ & _ & _ & _ & Ex' & Exv' & ER' & Et' & Hl' & N1' & N2' & V').
  apply view_inv in V as [-> V]. apply view_inv in V' as [-> V']. unfold same_coms in HC. rewrite V, V' in HC.
  pose proof (HC Pt1) as K1. pose proof (HC DCompHi) as K2. pose proof (HC DPadHi) as K3. pose proof (HC DCompLo) as K4. pose proof (HC DPadLo) as K5.
  cbn in K1, K2, K3, K4, K5. subst C1' C2' C3' C4' C5'. clear V V' HC Q1 Q1'.
  apply stmt_inv in HS as (I1 & I2 & I3 & I4 & I5). rewrite <- I1, <- I2, <- I3, <- I4, <- I5 in *.
  same EX EX'. same Eh Eh'. same Ex Ex'. same Exv Exv'. same ER ER'. same Et Et'. same Hl Hl'. same N1 N1'. same N2 N2'.
  reflexivity.
Qed.
Lemma enc_pub (s1 s2 s1' s2' : pstate) rnd1 rnd2 ct1 ct2 pt1 pt2 er1 er2 a1 a2 b1 b2 :
  proveEncryption R c s1 rnd1 ct1 ct2 pt1 er1 a1 b1 = Ret s1' ->
  proveEncryption R c s2 rnd2 ct1 ct2 pt2 er2 a2 b2 = Ret s2' ->
  statement s1 = statement s2 -> same_coms s1' s2' -> statement s1' = statement s2'.
Proof.
  intros H H' HS HC.
  apply enc_run in H as (C1 & C2 & D1 & D2 & D3 & D4 & D5 & D6 & D7 & D8 & D9 & D10 & X1 & m1 & X2 & m2 & X3 & m3 & k1 & k2 & kR & h1 & l1 & h2 & l2 & hib1 & hib2 &
    padR & pd1h & pd1l & pd2h & pd2l & x1 & n1 & xv1 & y1 & y1A & lin1 & x2 & n2 & xv2 & y2 & y2B & lin2 & x3 & n3 & xv3 & y3 & lin3 & q1 & q2 & q3 & q4 & q5 &
    (_ & _ & EX1 & EX2 & EX3) & (_ & _ & _ & _ & _ & Eh1 & Eh2 & _) & _ &
    (Ex1 & Exv1 & Ey1 & EyA & L1 & Ex2 & Exv2 & Ey2 & EyB & L2 & Ex3 & Exv3 & Ey3 & L3) & (N1 & N2 & N3 & N4 & N5) & V).
  apply enc_run in H' as (C1' & C2' & D1' & D2' & D3' & D4' & D5' & D6' & D7' & D8' & D9' & D10' & X1' & m1' & X2' & m2' & X3' & m3' & k1' & k2' & kR' & h1' & l1' & h2' & l2' & hib1' & hib2' &
    padR' & pd1h' & pd1l' & pd2h' & pd2l' & x1' & n1' & xv1' & y1' & y1A' & lin1' & x2' & n2' & xv2' & y2' & y2B' & lin2' & x3' & n3' & xv3' & y3' & lin3' & q1' & q2' & q3' & q4' & q5' &
    (_ & _ & EX1' & EX2' & EX3') & (_ & _ & _ & _ & _ & Eh1' & Eh2' & _) & _ &
    (Ex1' & Exv1' & Ey1' & EyA' & L1' & Ex2' & Exv2' & Ey2' & EyB' & L2' & Ex3' & Exv3' & Ey3' & L3') & (N1' & N2' & N3' & N4' & N5') & V').
  apply view_inv in V as [-> V]. apply view_inv in V' as [-> V']. unfold same_coms in HC. rewrite V, V' in HC.
  pose proof (HC Pt2) as K1. pose proof (HC RR) as K2. pose proof (HC RComp) as K3. pose proof (HC RPad) as K4. pose proof (HC EComp1Hi) as K5.
  pose proof (HC EPad1Hi) as K6. pose proof (HC EComp1Lo) as K7. pose proof (HC EPad1Lo) as K8.
  pose proof (HC EComp2Hi) as K9. pose proof (HC EPad2Hi) as K10. pose proof (HC EComp2Lo) as K11. pose proof (HC EPad2Lo) as K12.
  cbn in K1, K2, K3, K4, K5, K6, K7, K8, K9, K10, K11, K12. subst C1' C2' D1' D2' D3' D4' D5' D6' D7' D8' D9' D10'. clear V V' HC.
  apply stmt_inv in HS as (I1 & I2 & I3 & I4 & I5). rewrite <- I1, <- I2, <- I3, <- I4, <- I5 in *.
  same EX1 EX1'. same EX2 EX2'. same EX3 EX3'. same Eh1 Eh1'. same Eh2 Eh2'. same Ex1 Ex1'. same Exv1 Exv1'. same Ey1 Ey1'. same EyA EyA'. same L1 L1'.
  same Ex2 Ex2'. same Exv2 Exv2'. same Ey2 Ey2'. same EyB EyB'. same L2 L2'. same Ex3 Ex3'. same Exv3 Exv3'. same Ey3 Ey3'. same L3 L3'.
  same N1 N1'. same N2 N2'. same N3 N3'. same N4 N4'. same N5 N5'. reflexivity.
Qed.

Lemma key_pub (s1 s2 s1' s2' : pstate) rnd1 rnd2 pk sk1 sk2 n1 n2 :
  proveKeyGen R c s1 rnd1 pk sk1 n1 = Ret s1' -> proveKeyGen R c s2 rnd2 pk sk2 n2 = Ret s2' ->
  statement s1 = statement s2 -> same_coms s1' s2' -> statement s1' = statement s2'.
Proof.
  intros H H' HS HC.
  apply key_run in H as (C & D1 & D2 & D3 & D4 & D5 & D6 & X1 & m1 & X2 & m2 & ek & sk & hi & lo & hib & skPad & pH & pL & x1 & r1 & xv1 & R1x & bRow & AR & lin1 &
    x2 & r2 & xv2 & R2x & lin2 & q1 & q2 & q3 & (_ & EX1 & EX2) & (_ & _ & _ & Eh & _) & _ &
    (Ex1 & Exv1 & ER1 & Eb & EA & L1 & Ex2 & Exv2 & ER2 & L2) & (N1 & N2 & N3) & V).
  apply key_run in H' as (C' & D1' & D2' & D3' & D4' & D5' & D6' & X1' & m1' & X2' & m2' & ek' & sk' & hi' & lo' & hib' & skPad' & pH' & pL' & x1' & r1' & xv1' & R1x' & bRow' & AR' & lin1' &
    x2' & r2' & xv2' & R2x' & lin2' & q1' & q2' & q3' & (_ & EX1' & EX2') & (_ & _ & _ & Eh' & _) & _ &
    (Ex1' & Exv1' & ER1' & Eb' & EA' & L1' & Ex2' & Exv2' & ER2' & L2') & (N1' & N2' & N3') & V').
  apply view_inv in V as [-> V]. apply view_inv in V' as [-> V']. unfold same_coms in HC. rewrite V, V' in HC.
  pose proof (HC Sk2) as K1. pose proof (HC Sk2Comp) as K2. pose proof (HC Sk2Pad) as K3. pose proof (HC KCompHi) as K4. pose proof (HC KPadHi) as K5.
  pose proof (HC KCompLo) as K6. pose proof (HC KPadLo) as K7.
  cbn in K1, K2, K3, K4, K5, K6, K7. subst C' D1' D2' D3' D4' D5' D6'. clear V V' HC.
  apply stmt_inv in HS as (I1 & I2 & I3 & I4 & I5). rewrite <- I1, <- I2, <- I3, <- I4, <- I5 in *.
  same EX1 EX1'. same EX2 EX2'. same Eh Eh'. same Ex1 Ex1'. same Exv1 Exv1'. same ER1 ER1'. same Eb Eb'. same EA EA'. same L1 L1'.
  same Ex2 Ex2'. same Exv2 Exv2'. same ER2 ER2'. same L2 L2'. same N1 N1'. same N2 N2'. same N3 N3'. reflexivity.
Qed.

Lemma share_pub (s1 s2 s1' s2' : pstate) lag pt1 pt1' pt2 pt2' :
  proveReShare R c s1 lag pt1 pt2 = Ret s1' -> proveReShare R c s2 lag pt1' pt2' = Ret s2' ->
  statement s1 = statement s2 -> statement s1' = statement s2'.
Proof.
  intros H H' HS. apply share_run in H as (cs & Ec & V). apply share_run in H' as (cs' & Ec' & V').
  apply view_inv in V as [-> V]. apply view_inv in V' as [-> V']. apply stmt_inv in HS as (I1 & I2 & I3 & I4 & I5).
  assert (K : omapM (reshare_con R c s2 lag) (cHm c) = omapM (reshare_con R c s1 lag) (cHm c)).
  { unfold reshare_con. rewrite I1. reflexivity. }
  rewrite K in Ec'. same Ec Ec'. rewrite I1, I2, I3, I4, I5. reflexivity.
Qed.
Lemma share_coms (st st' : pstate) lag pt1 pt2 : proveReShare R c st lag pt1 pt2 = Ret st' -> pcom st' = pcom st.
Proof. intros H. apply share_run in H as (cs & Ec & V). now apply view_inv in V as [_ V]. Qed.

Lemma sml_pub (s1 s2 s1' s2' : pstate) ys1 ys2 rs1 rs2 :
  proveSmallness R c s1 ys1 rs1 = Ret s1' -> proveSmallness R c s2 ys2 rs2 = Ret s2' ->
  statement s1 = statement s2 -> pcom s1' YY = pcom s2' YY -> pz s1' = pz s2' -> statement s1' = statement s2'.
Proof.
  intros H H' HS HC HZ.
  apply sml_run in H as (t & X & m1 & u & x & m2 & xvec & Rx & lin & _ & _ & _ & EX & _ & _ & _ & _ & Ex & Exv & ER & L & -> & _).
  apply sml_run in H' as (t' & X' & m1' & u' & x' & m2' & xvec' & Rx' & lin' & _ & _ & _ & EX' & _ & _ & _ & _ & Ex' & Exv' & ER' & L' & -> & _).
  apply stmt_inv in HS as (I1 & I2 & I3 & I4 & I5). rewrite <- I1, <- I2, <- I3, <- I5, <- HC, <- HZ in *.
  same EX EX'. same Ex Ex'. same Exv Exv'. same ER ER'. same L L'. reflexivity.
Qed.
End D.
