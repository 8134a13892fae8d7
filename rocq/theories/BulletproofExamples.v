(** Concrete instances used by the examples in PropBulletproof.v: small fields,
    free modules, transcript trees built by running the (honest or cheating)
    prover on scripted challenges. *)
From Coq Require Import String.
From Coq Require Import ZArith List Bool Lia.
From Verif Require Import Outcome Fp GroupMod FSum ConstraintsModel PedersenModel BulletproofModel
  BulletproofForgery FreeMod BulletproofSpec.
Import ListNotations.
Open Scope Z_scope.

Notation s17 := (@toF 17).
(** nine independent generators in F_17^9 *)
Definition G9 : gmod 17 := free 17 9.
Definition gen9 (i : nat) : G9 := nth i (basis 17 9) gzero.
Definition base9 : G9 := gen9 0.
Definition F9 : G9 := gen9 1.
Definition F9' : G9 := gen9 2.
Definition gs9 : list G9 := [gen9 3; gen9 4; gen9 5].
Definition hs9 : list G9 := [gen9 6; gen9 7; gen9 8].

Definition blind (i : nat) : Fp 17 * Fp 17 := (s17 (Z.of_nat i + 5), s17 (3 * Z.of_nat i + 2)).
Definition blS9 : Fp 17 * Fp 17 := (s17 7, s17 9).
Definition blU9 : Fp 17 * Fp 17 := (s17 4, s17 11).

Definition get {A} (d : A) (o : outcome A) : A := match o with Ret a => a | _ => d end.
Definition lp0 : linpf G9 := LinPf gzero [] [] gzero 0%F 0%F.
Definition qp0 : quadpf G9 := QuadPf gzero [] [] gzero gzero 0%F 0%F 0%F.

Section Build.
Variable lrun : list (Fp 17) -> linpf G9.
Fixpoint lbuild (depth : nat) (pre : list (Fp 17)) : ltree G9 :=
  match depth with
  | O => let q1 := lrun (pre ++ [s17 1]) in let q2 := lrun (pre ++ [s17 2]) in
         LLeaf (lpS q1) (s17 1) (lpa q1) (lpr q1) (s17 2) (lpa q2) (lpr q2)
  | S d => let q := lrun (pre ++ repeat (s17 1) (S depth)) in
         LNode (nth (length pre) (lpLs q) gzero) (nth (length pre) (lpRs q) gzero) (s17 1) (s17 2) (s17 3)
           (lbuild d (pre ++ [s17 1])) (lbuild d (pre ++ [s17 2])) (lbuild d (pre ++ [s17 3]))
  end.
Variable qrun : list (Fp 17) -> quadpf G9.
Fixpoint qbuild (depth : nat) (pre : list (Fp 17)) : qtree G9 :=
  match depth with
  | O => let q1 := qrun (pre ++ [s17 1]) in
         QLeaf (qpS1 q1) (qpS2 q1) (map (fun x => let q := qrun (pre ++ [x]) in (x, (qpa q, qpb q, qpr q)))
           [s17 1; s17 2; s17 3; s17 4; s17 5])
  | S d => let q := qrun (pre ++ repeat (s17 1) (S depth)) in
         QNode (nth (length pre) (qpLs q) gzero) (nth (length pre) (qpRs q) gzero) (s17 1) (s17 2) (s17 3) (s17 4)
           (qbuild d (pre ++ [s17 1])) (qbuild d (pre ++ [s17 2])) (qbuild d (pre ++ [s17 3])) (qbuild d (pre ++ [s17 4]))
  end.
End Build.

(** boolean versions of acceptance *)
Definition is_true (o : outcome bool) : bool := match o with Ret b => b | _ => false end.
Definition lacceptb (base Fg : G9) gs bs eq off C (t : ltree G9) : bool :=
  forallb (fun q => is_true (verifyLinear base (script Fg) (LinPf C (lt_Ls q) (lt_Rs q) (lt_S q) (lt_a q) (lt_r q))
      bs gs (length gs) eq (lt_xs q ++ [lt_x q]) off)) (lpaths t).
Definition qacceptb (base Fg : G9) gs hs eq offu offv C (t : qtree G9) : bool :=
  forallb (fun q => is_true (verifyQuadratic base (script Fg)
      (QuadPf C (qt_Ls q) (qt_Rs q) (qt_S1 q) (qt_S2 q) (qt_a q) (qt_b q) (qt_r q))
      gs hs (length gs) eq (qt_xs q ++ [qt_x q]) offu offv)) (qpaths t).
Lemma is_true_ret o : is_true o = true -> o = Ret true.
Proof. destruct o; cbn; congruence. Qed.
Lemma lacceptb_ok base Fg gs bs eq off C t : lacceptb base Fg gs bs eq off C t = true ->
  laccepting base Fg gs bs eq off C t.
Proof. intros H q Hq. unfold lacceptb in H. rewrite forallb_forall in H. now apply is_true_ret, H. Qed.
Lemma qacceptb_ok base Fg gs hs eq offu offv C t : qacceptb base Fg gs hs eq offu offv C t = true ->
  qaccepting base Fg gs hs eq offu offv C t.
Proof. intros H q Hq. unfold qacceptb in H. rewrite forallb_forall in H. now apply is_true_ret, H. Qed.

(** ** linear, n = 3, witness (2,3,4), coefficients (5,6,7), value 56 = 5, offsets (1,1,0) *)
Definition w9 : list (Fp 17) := [s17 2; s17 3; s17 4].
Definition b9 : list (Fp 17) := [s17 5; s17 6; s17 7].
Definition off9 : list (Fp 17) := [s17 1; s17 1; s17 0].
Definition C9 : G9 := gadd (gadd (gmul base9 (s17 8)) (gdot gs9 w9)) (gdot gs9 off9).
Definition lrun9 (Fg : G9) (xs : list (Fp 17)) : linpf G9 :=
  get lp0 (proveLinear base9 (script Fg) C9 (s17 8) xs blind blS9 w9 b9 gs9 3).
Definition ltree9 (Fg : G9) : ltree G9 := lbuild (lrun9 Fg) 2 [].

(** ** quadratic, n = 2 *)
Definition gs2 : list G9 := [gen9 3; gen9 4].
Definition hs2 : list G9 := [gen9 6; gen9 7].
Definition u2 : list (Fp 17) := [s17 2; s17 3].
Definition v2 : list (Fp 17) := [s17 5; s17 6].
Definition C2 : G9 := gadd (gadd (gmul base9 (s17 8)) (gdot gs2 u2)) (gdot hs2 v2).
Definition qrun2 (Fg : G9) (xs : list (Fp 17)) : quadpf G9 :=
  get qp0 (proveQuadratic base9 (script Fg) C2 (s17 8) xs blind blS9 blU9 gs2 u2 hs2 v2 2).
Definition qtree2 (Fg : G9) : qtree G9 := qbuild (qrun2 Fg) 1 [].

(** ** quadratic, n = 3: the cheating prover on u = v = 0, false value 1 *)
Definition z3 : list (Fp 17) := repeat 0%F 3.
Definition C3 : G9 := gmul base9 (s17 8).
Definition qrun3 (Fg : G9) (xs : list (Fp 17)) : quadpf G9 :=
  get qp0 (cheatQuadratic base9 (script Fg) C3 (s17 8) xs blind blS9 blU9 gs9 z3 hs9 z3 3 (s17 1)).
Definition qtree3 (Fg : G9) : qtree G9 := qbuild (qrun3 Fg) 2 [].

Lemma gens9_indep : indep 17 (base9 :: F9 :: F9' :: gs9 ++ hs9).
Proof. exact (basis_indep 17 9). Qed.

(** A toy Fiat-Shamir transcript: the state is a counter, challenge i is i mod 16 + 1. *)
Definition toyM {p : Z} (G : gmod p) (Fg : G) : merlin G :=
  Merlin p G nat (fun st _ _ => S st) (fun st _ => (toF p (Z.of_nat st mod 16 + 1), S st))
    (fun st _ => (Fg, S st)) (fun st _ _ => S st) (fun st _ _ => S st).

Lemma toyM_ok (G : gmod 17) (Fg : G) : forall st l, fst (m_chal (toyM G Fg) st l) <> 0%F.
Proof.
  intros st l H. apply (f_equal (@fval 17)) in H. cbn [fst m_chal toyM] in H.
  change (fval (0%F : Fp 17)) with 0 in H. cbn [toF fval] in H.
  pose proof (Z.mod_pos_bound (Z.of_nat st) 16 ltac:(lia)). rewrite Z.mod_small in H by lia. lia.
Qed.
Lemma gens3_indep : indep 17 [base9; F9; F9'].
Proof.
  intros cs Hl H. assert (Hx := gens9_indep (cs ++ repeat 0%F 6)). destruct cs as [|c0 [|c1 [|c2 [|]]]]; try discriminate.
  specialize (Hx eq_refl).
  assert (E : gdot (base9 :: F9 :: F9' :: gs9 ++ hs9) ([c0; c1; c2] ++ repeat 0%F 6) = gzero).
  { change (base9 :: F9 :: F9' :: gs9 ++ hs9) with ([base9; F9; F9'] ++ (gs9 ++ hs9)).
    rewrite gdot_app by reflexivity. rewrite gdot_0, gadd_0_r. exact H. }
  specialize (Hx E). apply Forall_app in Hx. apply Hx.
Qed.
(** generators for the norm example *)
Definition hash21 (s : string) : G9 := if String.eqb s (gen_label_size "t" KG 0) then F9 else F9'.
