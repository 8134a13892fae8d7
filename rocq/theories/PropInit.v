(** Property C112: start-up of the curve layer. *)
From Coq Require Import ZArith List Bool Lia.
From Verif Require Import Outcome Bytes Fp GroupMod Prime25519 Scalar25519Model Scalar25519Proofs InitModel InitSpec.
Import ListNotations.
Open Scope Z_scope.

Section S.
Context {G : gmod P25519}.
Variables (so : sodium) (B : G) (pt : G -> list Z).
Hypothesis E : encodes so B pt.
Local Lemma eqb_pt a b : bytes_eqb (pt a) (pt b) = true <-> a = b.
Proof. rewrite bytes_eqb_eq. split; [apply (enc_inj _ _ _ E)|now intros ->]. Qed.

(** If libsodium is initialised here and succeeds, the constants are right. *)
Theorem C112_start : so_init so = 0 -> exists w, startUp so (loaded false) = Ret w /\ started B pt w.
Proof.
  intros H. unfold startUp, pointInit, sodium_init, loaded. cbn [w_first w_base w_ident w_ready negb newPoint]. rewrite H. cbn [Z.eqb negb].
  change (setInteger 1) with (Ret (le_bytes 32 1)). cbn [obind]. rewrite (enc_base _ _ _ E). cbn [w_first w_base w_ident w_ready]. unfold pointSub. cbn [w_ident].
  destruct (bytes_eqb (pt B) (repeat 0 32)) eqn:Q; [apply bytes_eqb_eq in Q; now apply (enc_nonzero _ _ _ E) in Q|].
  rewrite (enc_sub _ _ _ E). cbn [obind fst snd]. eexists. split; [reflexivity|]. repeat split. cbn. now rewrite gopp_r.
Qed.
(** From then on a new point is the neutral element, the operators that compare
    with identityPoint are those of the group, and calling init again changes nothing. *)
Theorem C112_after : forall w, started B pt w ->
  newPoint w = pt gzero /\ pointInit so w = Ret (pt gzero, w) /\
  (forall a b, pointAdd so w (pt a) (pt b) = Ret (pt (gadd a b))) /\
  (forall a b, pointSub so w (pt a) (pt b) = Ret (pt (gadd a (gopp b)))).
Proof.
  intros w (Hb & Hi & Hf & Hr). split; [exact Hi|]. split; [unfold pointInit; rewrite Hf; cbn; unfold newPoint; now rewrite Hi|]. split; intros a b.
  - unfold pointAdd. rewrite Hi. destruct (bytes_eqb (pt b) (pt gzero)) eqn:Q; [apply eqb_pt in Q; subst b; now rewrite gadd_0_r|].
    destruct (bytes_eqb (pt a) (pt gzero)) eqn:Q'; [apply eqb_pt in Q'; subst a; now rewrite gadd_0_l|]. now rewrite (enc_add _ _ _ E).
  - unfold pointSub. rewrite Hi. destruct (bytes_eqb (pt b) (pt gzero)) eqn:Q; [|now rewrite (enc_sub _ _ _ E)].
    apply eqb_pt in Q. subst b. now rewrite <- (gopp_unique gzero gzero (gadd_0_l gzero)), gadd_0_r.
Qed.
(** A failing libsodium ends the program before main. *)
Theorem C112_fails : so_init so <> 0 -> startUp so (loaded false) = Throw.
Proof.
  intros H. unfold startUp, pointInit, sodium_init, loaded. cbn [w_first w_base w_ident w_ready negb newPoint].
  destruct (Z.eqb_spec (so_init so) 0); [contradiction|]. reflexivity.
Qed.
(** But so does a libsodium that is ready because other code initialised it ... *)
Theorem C112_ready_throws : startUp so (loaded true) = Throw.
Proof. reflexivity. Qed.
(** ... and a point constructed before this file's initialisers have run is not the
    neutral element, nor any element of the group. *)
Theorem C112_early : forall ready, (forall a, newPoint (loaded ready) <> pt a) /\
  forall w, started B pt w -> newPoint (loaded ready) <> newPoint w.
Proof.
  intros ready. assert (N : forall a, newPoint (loaded ready) <> pt a) by (intros a Q; now apply (enc_nonzero _ _ _ E a)).
  split; [exact N|]. intros w (_ & Hi & _). unfold newPoint at 2. rewrite Hi. apply N.
Qed.
End S.
Print Assumptions C112_start.
Print Assumptions C112_after.
Print Assumptions C112_fails.
Print Assumptions C112_ready_throws.
Print Assumptions C112_early.

(* scalars instead of points, written as 32 bytes plus one; the generator is 9 *)
Definition toy_pt (a : Fp_gmod P25519) : list Z := le_bytes 32 (fval (a : Fp P25519) + 1).
Definition toy_of (l : list Z) : Fp_gmod P25519 := toF P25519 (le_val l - 1).
Definition toy_base : Fp_gmod P25519 := toF P25519 9.
Definition toy_sodium (r : Z) : sodium := Sodium r (fun n => Some (toy_pt (toF P25519 (9 * le_val n))))
  (fun a b => Some (toy_pt (gadd (toy_of a) (toy_of b)))) (fun a b => Some (toy_pt (gadd (toy_of a) (gopp (toy_of b))))).
Lemma toy_val (a : Fp P25519) : le_val (toy_pt a) = fval a + 1.
Proof.
  unfold toy_pt. apply le_val_bytes_small. pose proof (fval_range _ a eq_refl) as H. assert (P25519 < 256 ^ Z.of_nat 32) by reflexivity. lia.
Qed.
Lemma toy_back (a : Fp P25519) : toy_of (toy_pt a) = a.
Proof. unfold toy_of. rewrite toy_val. apply Fp_eq. rewrite fval_toF. pose proof (fval_range _ a eq_refl). rewrite Z.mod_small by lia. lia. Qed.
Lemma toy_encodes r : encodes (toy_sodium r) toy_base toy_pt.
Proof.
  split.
  - intros a b H. rewrite <- (toy_back a), <- (toy_back b). now rewrite H.
  - intros a H. apply (f_equal le_val) in H. rewrite toy_val, le_val_repeat0 in H. pose proof (fval_range _ (a : Fp P25519) eq_refl). lia.
  - reflexivity.
  - intros a b. cbn [toy_sodium so_add]. now rewrite !toy_back.
  - intros a b. cbn [toy_sodium so_sub]. now rewrite !toy_back.
Qed.
Example C112_example : exists w, startUp (toy_sodium 0) (loaded false) = Ret w /\ started toy_base toy_pt w /\ w_base w <> w_ident w.
Proof.
  destruct (C112_start _ _ _ (toy_encodes 0) eq_refl) as (w & E & S). exists w. split; [exact E|]. split; [exact S|].
  destruct S as (-> & -> & _). intros Q. apply (enc_inj _ _ _ (toy_encodes 0)) in Q. apply (f_equal (fun a : Fp P25519 => fval a)) in Q. vm_compute in Q. discriminate Q.
Qed.
(** Hence not every start with a working libsodium succeeds, and not every point is
    born as an element of the group. *)
Theorem C112_refuted : exists (so : sodium) (B : Fp_gmod P25519) (pt : Fp_gmod P25519 -> list Z), encodes so B pt /\ so_init so = 0 /\
  startUp so (loaded true) = Throw /\ forall a, newPoint (loaded false) <> pt a.
Proof.
  exists (toy_sodium 0), toy_base, toy_pt. split; [apply toy_encodes|]. split; [reflexivity|]. split; [apply C112_ready_throws|].
  apply (C112_early _ _ _ (toy_encodes 0)).
Qed.
Print Assumptions C112_refuted.
