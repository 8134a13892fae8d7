(** All five steps: what two runs show, and the randomness for a given view. *)
From Coq Require Import String.
From Coq Require Import ZArith List Bool Lia.
From Verif Require Import Outcome Fp FSum GroupMod Ring ConstraintsModel ConstraintsSpec BulletproofModel AlgebraModel
  TernaryModel TernarySpec RegevModel RegevPfModel RegevPfSpec RegevStSpec RegevAggModel RegevRunModel ZkSpec HideSpec HideRuns HideSteps HideExist HideRun.
Import ListNotations.
Open Scope Z_scope.

Section D.
Context {p : Z} {ell : nat} {G : gmod p}.
Notation F := (Fp p).
Notation E := (elt p ell).
Variable R : rmerlin G.
Variable c : cfg ell G.
Notation pstate := (@pstate p ell G R).

Ltac frame V Hv := apply view_inv in V as [_ ->]; unfold upd; repeat match goal with |- context [var_eq_dec ?v ?x] => destruct (var_eq_dec v x); [subst v; exfalso; apply Hv; cbn; tauto|] end; reflexivity.
Lemma dec_frame (s t : pstate) rnd a b d e n v : proveDecryption R c s rnd a b d e n = Ret t -> ~ In v dec_vars -> pcom t v = pcom s v.
Proof.
  intros H Hv. apply dec_run in H as (C1 & C2 & C3 & C4 & C5 & X & m1 & comp & hi & lo & hib & padHi & padLo & x & m2 & xvec & Rx & ctRx & lin & q1 & q2 &
    _ & _ & _ & _ & _ & _ & _ & _ & _ & _ & _ & _ & _ & _ & _ & _ & _ & _ & V). frame V Hv.
Qed.
Lemma enc_frame (s t : pstate) rnd a b d e n n' v : proveEncryption R c s rnd a b d e n n' = Ret t -> ~ In v enc_vars -> pcom t v = pcom s v.
Proof.
  intros H Hv. apply enc_run in H as (C1 & C2 & D1 & D2 & D3 & D4 & D5 & D6 & D7 & D8 & D9 & D10 & X1 & m1 & X2 & m2 & X3 & m3 & k1 & k2 & kR & h1 & l1 & h2 & l2 & hib1 & hib2 &
    padR & pd1h & pd1l & pd2h & pd2l & x1 & n1 & xv1 & y1 & y1A & lin1 & x2 & n2 & xv2 & y2 & y2B & lin2 & x3 & n3 & xv3 & y3 & lin3 & q1 & q2 & q3 & q4 & q5 & _ & _ & _ & _ & _ & V). frame V Hv.
Qed.
Lemma key_frame (s t : pstate) rnd a b d v : proveKeyGen R c s rnd a b d = Ret t -> ~ In v key_vars -> pcom t v = pcom s v.
Proof.
  intros H Hv. apply key_run in H as (C & D1 & D2 & D3 & D4 & D5 & D6 & X1 & m1 & X2 & m2 & ek & sk & hi & lo & hib & skPad & pH & pL & x1 & r1 & xv1 & R1x & bRow & AR & lin1 &
    x2 & r2 & xv2 & R2x & lin2 & q1 & q2 & q3 & _ & _ & _ & _ & _ & V). frame V Hv.
Qed.
Lemma sml_frame (s t : pstate) ys rs v : proveSmallness R c s ys rs = Ret t -> v <> YY -> pcom t v = pcom s v.
Proof. intros H Hv. apply sml_run in H as (t' & X & m1 & u & x & m2 & xvec & Rx & lin & _ & _ & _ & _ & _ & _ & _ & _ & _ & _ & _ & _ & _ & V). now apply V. Qed.
Definition var_in (v : var) (l : list var) : {In v l} + {~ In v l} := in_dec var_eq_dec v l.
Ltac nin := cbn; intuition discriminate.
(** Two runs of the first four steps, and of all five. *)
Lemma four_frame (s h : pstate) i v : fourSteps c s i = Ret h -> ~ In v dec_vars -> ~ In v enc_vars -> ~ In v key_vars -> pcom h v = pcom s v.
Proof.
  intros H N1 N2 N3. apply four_inv in H as (d & e & k & D & E1 & K & R1). rewrite (share_coms R c _ _ _ _ _ R1), (key_frame _ _ _ _ _ _ _ K N3), (enc_frame _ _ _ _ _ _ _ _ _ _ E1 N2).
  exact (dec_frame _ _ _ _ _ _ _ _ _ D N1).
Qed.
Lemma four_pub (s1 s2 h1 h2 : pstate) i1 i2 : fourSteps c s1 i1 = Ret h1 -> fourSteps c s2 i2 = Ret h2 -> same_public i1 i2 ->
  same_view s1 s2 -> same_coms h1 h2 -> statement h1 = statement h2.
Proof.
  intros F1 F2 (P1 & P2 & P3 & P4 & P5 & P6) [HS HC] HT.
  apply four_inv in F1 as (d1 & e1 & k1 & D1 & E1 & K1 & R1). apply four_inv in F2 as (d2 & e2 & k2 & D2 & E2 & K2 & R2).
  rewrite <- P1, <- P2 in D2. rewrite <- P3, <- P4 in E2. rewrite <- P5 in K2. rewrite <- P6 in R2.
  assert (Ck : same_coms k1 k2) by (intros v; rewrite <- (share_coms R c _ _ _ _ _ R1), <- (share_coms R c _ _ _ _ _ R2); apply HT).
  assert (Cd : same_coms d1 d2).
  { intros v. destruct (var_in v dec_vars) as [Hv|Hv]; [|rewrite (dec_frame _ _ _ _ _ _ _ _ _ D1 Hv), (dec_frame _ _ _ _ _ _ _ _ _ D2 Hv); apply HC].
    assert (N1 : ~ In v enc_vars /\ ~ In v key_vars) by (repeat (destruct Hv as [<-|Hv]; [nin|]); destruct Hv).
    destruct N1 as (N1 & N2). rewrite <- (enc_frame _ _ _ _ _ _ _ _ _ _ E1 N1), <- (enc_frame _ _ _ _ _ _ _ _ _ _ E2 N1), <- (key_frame _ _ _ _ _ _ _ K1 N2), <- (key_frame _ _ _ _ _ _ _ K2 N2). apply Ck. }
  assert (Ce : same_coms e1 e2).
  { intros v. destruct (var_in v enc_vars) as [Hv|Hv]; [|rewrite (enc_frame _ _ _ _ _ _ _ _ _ _ E1 Hv), (enc_frame _ _ _ _ _ _ _ _ _ _ E2 Hv); apply Cd].
    assert (N2 : ~ In v key_vars) by (repeat (destruct Hv as [<-|Hv]; [nin|]); destruct Hv).
    rewrite <- (key_frame _ _ _ _ _ _ _ K1 N2), <- (key_frame _ _ _ _ _ _ _ K2 N2). apply Ck. }
  pose proof (dec_pub R c _ _ _ _ _ _ _ _ _ _ _ _ _ _ D1 D2 HS Cd) as Sd.
  pose proof (enc_pub R c _ _ _ _ _ _ _ _ _ _ _ _ _ _ _ _ E1 E2 Sd Ce) as Se.
  pose proof (key_pub R c _ _ _ _ _ _ _ _ _ _ _ K1 K2 Se Ck) as Sk.
  exact (share_pub R c _ _ _ _ _ _ _ _ _ R1 R2 Sk).
Qed.
Lemma four_view (s1 s2 h1 h2 t1 t2 : pstate) i1 i2 : fourSteps c s1 i1 = Ret h1 -> fourSteps c s2 i2 = Ret h2 -> same_public i1 i2 ->
  proveSmallness R c h1 (i_ys i1) (i_rs i1) = Ret t1 -> proveSmallness R c h2 (i_ys i2) (i_rs i2) = Ret t2 -> same_view s1 s2 -> same_coms t1 t2 -> same_view h1 h2.
Proof.
  intros F1 F2 SP S1 S2 HV HT. assert (HC : same_coms h1 h2).
  { intros v. destruct (var_eq_dec v YY) as [->|Hv].
    - rewrite (four_frame _ _ _ YY F1), (four_frame _ _ _ YY F2) by nin. apply HV.
    - rewrite <- (sml_frame _ _ _ _ _ S1 Hv), <- (sml_frame _ _ _ _ _ S2 Hv). apply HT. }
  split; [exact (four_pub _ _ _ _ _ _ F1 F2 SP HV HC)|exact HC].
Qed.
Lemma steps_pub (s1 s2 t1 t2 : pstate) i1 i2 : proofSteps R c s1 i1 = Ret t1 -> proofSteps R c s2 i2 = Ret t2 -> same_public i1 i2 ->
  same_view s1 s2 -> same_coms t1 t2 -> pz t1 = pz t2 -> statement t1 = statement t2.
Proof.
  intros H1 H2 SP HV HT HZ. rewrite four_five in H1, H2.
  apply obind_ret_inv in H1 as (h1 & F1 & S1). apply obind_ret_inv in H2 as (h2 & F2 & S2).
  exact (sml_pub R c _ _ _ _ _ _ _ _ S1 S2 (proj1 (four_view _ _ _ _ _ _ _ _ F1 F2 SP S1 S2 HV HT)) (HT YY) HZ).
Qed.

Hypothesis Hb : generates (cbase c).
(** The randomness is determined by the commitments and the secrets. *)
Lemma dec_once (s t t' : pstate) rnd rnd' a b d e n : proveDecryption R c s rnd a b d e n = Ret t -> proveDecryption R c s rnd' a b d e n = Ret t' ->
  same_coms t t' -> forall v, In v dec_vars -> rnd v = rnd' v.
Proof.
  intros H H' HC v Hv.
  apply dec_run in H as (C1 & C2 & C3 & C4 & C5 & X & m1 & comp & hi & lo & hib & padHi & padLo & x & m2 & xvec & Rx & ctRx & lin & q1 & q2 &
    Q1 & EX & Ec & Ed & Eh & Ep1 & Ep2 & Q2 & Q3 & Q4 & Q5 & _ & _ & _ & _ & _ & _ & _ & V).
  apply dec_run in H' as (C1' & C2' & C3' & C4' & C5' & X' & m1' & comp' & hi' & lo' & hib' & padHi' & padLo' & x' & m2' & xvec' & Rx' & ctRx' & lin' & q1' & q2' &
    Q1' & EX' & Ec' & Ed' & Eh' & Ep1' & Ep2' & Q2' & Q3' & Q4' & Q5' & _ & _ & _ & _ & _ & _ & _ & V').
  apply view_inv in V as [_ V]. apply view_inv in V' as [_ V']. unfold same_coms in HC. rewrite V, V' in HC.
  pose proof (HC Pt1) as K1. pose proof (HC DCompHi) as K2. pose proof (HC DPadHi) as K3. pose proof (HC DCompLo) as K4. pose proof (HC DPadLo) as K5.
  cbn in K1, K2, K3, K4, K5. subst C1' C2' C3' C4' C5'. clear V V' HC.
  same EX EX'. same Ec Ec'. same Ed Ed'. same Eh Eh'. same Ep1 Ep1'. same Ep2 Ep2'.
  repeat (destruct Hv as [<-|Hv]; [first [eapply (uniq1 c Hb); eassumption|eapply (uniq2 c Hb); eassumption]|]). destruct Hv.
Qed.
Lemma enc_once (s t t' : pstate) rnd rnd' a b d e n n' : proveEncryption R c s rnd a b d e n n' = Ret t -> proveEncryption R c s rnd' a b d e n n' = Ret t' ->
  same_coms t t' -> forall v, In v enc_vars -> rnd v = rnd' v.
Proof.
  intros H H' HC v Hv.
  apply enc_run in H as (C1 & C2 & D1 & D2 & D3 & D4 & D5 & D6 & D7 & D8 & D9 & D10 & X1 & m1 & X2 & m2 & X3 & m3 & k1 & k2 & kR & h1 & l1 & h2 & l2 & hib1 & hib2 &
    padR & pd1h & pd1l & pd2h & pd2l & x1 & nn1 & xv1 & y1 & y1A & lin1 & x2 & nn2 & xv2 & y2 & y2B & lin2 & x3 & nn3 & xv3 & y3 & lin3 & q1 & q2 & q3 & q4 & q5 &
    (Q1 & Q2 & EX1 & EX2 & EX3) & (Ek1 & Ek2 & EkR & Ed1 & Ed2 & Eh1 & Eh2 & EpR & Ep1 & Ep2 & Ep3 & Ep4) &
    (S1 & S2 & S3 & S4 & S5 & S6 & S7 & S8 & S9 & S10) & _ & _ & V).
  apply enc_run in H' as (C1' & C2' & D1' & D2' & D3' & D4' & D5' & D6' & D7' & D8' & D9' & D10' & X1' & m1' & X2' & m2' & X3' & m3' & k1' & k2' & kR' & h1' & l1' & h2' & l2' & hib1' & hib2' &
    padR' & pd1h' & pd1l' & pd2h' & pd2l' & x1' & nn1' & xv1' & y1' & y1A' & lin1' & x2' & nn2' & xv2' & y2' & y2B' & lin2' & x3' & nn3' & xv3' & y3' & lin3' & q1' & q2' & q3' & q4' & q5' &
    (Q1' & Q2' & EX1' & EX2' & EX3') & (Ek1' & Ek2' & EkR' & Ed1' & Ed2' & Eh1' & Eh2' & EpR' & Ep1' & Ep2' & Ep3' & Ep4') &
    (S1' & S2' & S3' & S4' & S5' & S6' & S7' & S8' & S9' & S10') & _ & _ & V').
  apply view_inv in V as [_ V]. apply view_inv in V' as [_ V']. unfold same_coms in HC. rewrite V, V' in HC.
  assert (C1 = C1') by exact (HC Pt2). assert (C2 = C2') by exact (HC RR). assert (D1 = D1') by exact (HC RComp). assert (D2 = D2') by exact (HC RPad).
  assert (D3 = D3') by exact (HC EComp1Hi). assert (D4 = D4') by exact (HC EPad1Hi). assert (D5 = D5') by exact (HC EComp1Lo). assert (D6 = D6') by exact (HC EPad1Lo).
  assert (D7 = D7') by exact (HC EComp2Hi). assert (D8 = D8') by exact (HC EPad2Hi). assert (D9 = D9') by exact (HC EComp2Lo). assert (D10 = D10') by exact (HC EPad2Lo).
  subst C1' C2' D1' D2' D3' D4' D5' D6' D7' D8' D9' D10'. clear V V' HC.
  same EX1 EX1'. same EX2 EX2'. same EX3 EX3'. same Ek1 Ek1'. same Ek2 Ek2'. same EkR EkR'. same Ed1 Ed1'. same Ed2 Ed2'. same Eh1 Eh1'. same Eh2 Eh2'.
  same EpR EpR'. same Ep1 Ep1'. same Ep2 Ep2'. same Ep3 Ep3'. same Ep4 Ep4'.
  repeat (destruct Hv as [<-|Hv]; [first [eapply (uniq1 c Hb); eassumption|eapply (uniq2 c Hb); eassumption]|]). destruct Hv.
Qed.
Lemma key_once (s t t' : pstate) rnd rnd' a b d : proveKeyGen R c s rnd a b d = Ret t -> proveKeyGen R c s rnd' a b d = Ret t' ->
  same_coms t t' -> forall v, In v key_vars -> rnd v = rnd' v.
Proof.
  intros H H' HC v Hv.
  apply key_run in H as (C & D1 & D2 & D3 & D4 & D5 & D6 & X1 & m1 & X2 & m2 & ek & sk & hi & lo & hib & skPad & pH & pL & x1 & r1 & xv1 & R1x & bRow & AR & lin1 &
    x2 & r2 & xv2 & R2x & lin2 & q1 & q2 & q3 & (Q & EX1 & EX2) & (Ek & Es & Ed & Eh & EpS & Ep1 & Ep2) & (S1 & S2 & S3 & S4 & S5 & S6) & _ & _ & V).
  apply key_run in H' as (C' & D1' & D2' & D3' & D4' & D5' & D6' & X1' & m1' & X2' & m2' & ek' & sk' & hi' & lo' & hib' & skPad' & pH' & pL' & x1' & r1' & xv1' & R1x' & bRow' & AR' & lin1' &
    x2' & r2' & xv2' & R2x' & lin2' & q1' & q2' & q3' & (Q' & EX1' & EX2') & (Ek' & Es' & Ed' & Eh' & EpS' & Ep1' & Ep2') & (S1' & S2' & S3' & S4' & S5' & S6') & _ & _ & V').
  apply view_inv in V as [_ V]. apply view_inv in V' as [_ V']. unfold same_coms in HC. rewrite V, V' in HC.
  assert (C = C') by exact (HC Sk2). assert (D1 = D1') by exact (HC Sk2Comp). assert (D2 = D2') by exact (HC Sk2Pad).
  assert (D3 = D3') by exact (HC KCompHi). assert (D4 = D4') by exact (HC KPadHi). assert (D5 = D5') by exact (HC KCompLo). assert (D6 = D6') by exact (HC KPadLo).
  subst C' D1' D2' D3' D4' D5' D6'. clear V V' HC.
  same EX1 EX1'. same EX2 EX2'. same Ek Ek'. same Es Es'. same Ed Ed'. same Eh Eh'. same EpS EpS'. same Ep1 Ep1'. same Ep2 Ep2'.
  repeat (destruct Hv as [<-|Hv]; [first [eapply (uniq1 c Hb); eassumption|eapply (uniq2 c Hb); eassumption]|]). destruct Hv.
Qed.
End D.
