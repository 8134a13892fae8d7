(** Property C97: what commitments and proofs reveal. *)
From Coq Require Import String.
From Coq Require Import ZArith Znumtheory List Bool Lia.
From Verif Require Import Outcome Fp GroupMod FSum PedersenModel BulletproofModel BulletproofSpec BulletproofProofs BulletproofQuad BulletproofExamples ZkSpec ZkProofs.
Import ListNotations.
Open Scope Z_scope.

Section C97.
Context {p : Z} {G : gmod p}.
Notation F := (Fp p).
Notation rnds n := (log2roundUpN n).
(** Commitments: any other vector has the same commitment for exactly one randomness. *)
Theorem C97_commit (base : G) gs (xs ys : list F) n r f alpha : prime p -> generates base ->
  (n <= length gs)%nat -> length xs = n -> length ys = n ->
  exists r', commit base gs ys n r' f alpha = commit base gs xs n r f alpha /\
    forall r2, commit base gs ys n r2 f alpha = commit base gs xs n r f alpha -> r2 = r'.
Proof. intros Hp Hb Hg Hx Hy. exact (commit_hides Hp base Hb gs xs ys n r f alpha Hg Hx Hy). Qed.

(** Linear proofs.  The proofs that the honest prover can send are exactly the accepted
    ones, whatever its witness is ... *)
Theorem C97_linear (base : G) (M : merlin G) (as_ bs : list F) gs n eq st off r C pf : prime p -> generates base ->
  (forall m l, fst (m_chal M m l) <> 0%F) -> (1 <= n)%nat -> Z.of_nat n <= 2 ^ 63 ->
  length as_ = n -> length bs = n -> length gs = n -> offlen off n ->
  dot bs as_ = eq -> C = gadd (gadd (gmul base r) (gdot gs as_)) (offp gs off) ->
  (exists bl blS, proveLinear base M C r st bl blS as_ bs gs n = Ret pf) <->
  (lpC pf = C /\ verifyLinear base M pf bs gs n eq st off = Ret true).
Proof.
  intros Hp Hb Hz H1 H63 Ha Hbs Hg Ho He HC. split.
  - intros (bl & blS & E). destruct (linear_complete Hp base M as_ bs gs n eq st off r bl blS C H1 H63 Ha Hbs Hg Ho He HC) as [[E' N]|(pf' & E' & A & _ & _ & [B|[_ N]])]; try contradiction.
    assert (pf' = pf) by congruence. subst pf'. split; assumption.
  - intros [A B]. exact (linear_hit Hp base Hb M as_ bs gs n eq st off r C pf H1 H63 Ha Hbs Hg Ho He HC A B).
Qed.
(** ... and each for exactly one choice of the blinding values, so that a proof made with
    uniform blinding values is uniform among the accepted ones. *)
Theorem C97_linear_unique (base : G) (M : merlin G) (as_ bs : list F) gs n st r C bl bl' blS blS' pf : prime p -> generates base ->
  (1 <= n)%nat -> Z.of_nat n <= 2 ^ 63 -> length as_ = n -> length bs = n -> length gs = n ->
  proveLinear base M C r st bl blS as_ bs gs n = Ret pf -> proveLinear base M C r st bl' blS' as_ bs gs n = Ret pf ->
  same_upto (rnds n) bl bl' /\ blS = blS'.
Proof. intros Hp Hb. exact (linear_once Hp base Hb M as_ bs gs n st r C bl bl' blS blS' pf). Qed.
(** The simulator: for given challenges, its transcripts are those of the prover. *)
Theorem C97_linear_simulator (base Fg : G) (as_ bs : list F) gs n eq off r C xs x Ls Rs a t : prime p -> generates base ->
  (1 <= n)%nat -> Z.of_nat n <= 2 ^ 63 -> length as_ = n -> length bs = n -> length gs = n -> offlen off n ->
  dot bs as_ = eq -> C = gadd (gadd (gmul base r) (gdot gs as_)) (offp gs off) ->
  length xs = rnds n -> length Ls = rnds n -> length Rs = rnds n -> Forall (fun y => y <> 0%F) (x :: xs) ->
  exists bl blS, proveLinear base (script Fg) C r (xs ++ [x]) bl blS as_ bs gs n = Ret (simLinear base Fg C bs gs eq off xs x Ls Rs a t).
Proof.
  intros Hp Hb H1 H63 Ha Hbs Hg Ho He HC Hx HL HR Hz.
  apply (linear_hit Hp base Hb (script Fg) as_ bs gs n eq (xs ++ [x]) off r C (simLinear base Fg C bs gs eq off xs x Ls Rs a t) H1 H63 Ha Hbs Hg Ho He HC eq_refl).
  exact (sim_lin_ok Hp base Fg C bs gs n eq off xs x Ls Rs a t H1 H63 Hbs Hg Ho Hx HL HR Hz).
Qed.
(** Quadratic proofs: the same. *)
Theorem C97_quadratic (base : G) (M : merlin G) (as_ bs : list F) gs hs n eq st offu offv r C pf : prime p -> generates base ->
  (forall m l, fst (m_chal M m l) <> 0%F) -> (1 <= n)%nat -> Z.of_nat n <= 2 ^ 63 ->
  length as_ = n -> length bs = n -> length gs = n -> length hs = n -> offlen offu n -> offlen offv n ->
  dot as_ bs = eq -> C = gadd (gadd (gadd (gmul base r) (gdot gs as_)) (gdot hs bs)) (gadd (offp gs offu) (offp hs offv)) ->
  (exists bl blST blUV, proveQuadratic base M C r st bl blST blUV gs as_ hs bs n = Ret pf) <->
  (qpC pf = C /\ verifyQuadratic base M pf gs hs n eq st offu offv = Ret true).
Proof.
  intros Hp Hb Hz H1 H63 Ha Hbs Hg Hh Hou Hov He HC. split.
  - intros (bl & blS & blUV & E). destruct (quadratic_complete Hp base M as_ bs gs hs n eq st offu offv r bl blS blUV C H1 H63 Ha Hbs Hg Hh Hou Hov He HC) as [[E' N]|(pf' & E' & A & _ & _ & B)]; [contradiction|].
    assert (pf' = pf) by congruence. subst pf'. split; assumption.
  - intros [A B]. exact (quadratic_hit Hp base Hb M as_ bs gs hs n eq st offu offv r C pf H1 H63 Ha Hbs Hg Hh Hou Hov He HC (chal_ok_last M st n pf Hz) A B).
Qed.
Theorem C97_quadratic_unique (base : G) (M : merlin G) (as_ bs : list F) gs hs n st r C bl bl' blST blST' blUV blUV' pf : prime p -> generates base ->
  (forall m l, fst (m_chal M m l) <> 0%F) -> (1 <= n)%nat -> Z.of_nat n <= 2 ^ 63 -> length as_ = n -> length bs = n -> length gs = n -> length hs = n ->
  proveQuadratic base M C r st bl blST blUV gs as_ hs bs n = Ret pf -> proveQuadratic base M C r st bl' blST' blUV' gs as_ hs bs n = Ret pf ->
  same_upto (rnds n) bl bl' /\ blST = blST' /\ blUV = blUV'.
Proof. intros Hp Hb Hz H1 H63 Ha Hbs Hg Hh. exact (quadratic_once Hp base Hb M as_ bs gs hs n st r C bl bl' blST blST' blUV blUV' pf H1 H63 Ha Hbs Hg Hh (chal_ok_last M st n pf Hz)). Qed.
Theorem C97_quadratic_simulator (base Fg : G) (as_ bs : list F) gs hs n eq offu offv r C xs x Ls Rs S2 a b t : prime p -> generates base ->
  (1 <= n)%nat -> Z.of_nat n <= 2 ^ 63 -> length as_ = n -> length bs = n -> length gs = n -> length hs = n -> offlen offu n -> offlen offv n ->
  dot as_ bs = eq -> C = gadd (gadd (gadd (gmul base r) (gdot gs as_)) (gdot hs bs)) (gadd (offp gs offu) (offp hs offv)) ->
  length xs = rnds n -> length Ls = rnds n -> length Rs = rnds n -> Forall (fun y => y <> 0%F) (x :: xs) ->
  let sim := simQuadratic base Fg C gs hs eq offu offv xs x Ls Rs S2 a b t in
  exists bl blST blUV, proveQuadratic base (script Fg) C r (xs ++ [x]) bl blST blUV gs as_ hs bs n = Ret sim /\
    forall bl' blST' blUV', proveQuadratic base (script Fg) C r (xs ++ [x]) bl' blST' blUV' gs as_ hs bs n = Ret sim -> same_upto (rnds n) bl bl' /\ blST = blST' /\ blUV = blUV'.
Proof.
  intros Hp Hb H1 H63 Ha Hbs Hg Hh Hou Hov He HC Hx HL HR Hz sim.
  assert (N : last_nz (script Fg) (xs ++ [x]) n sim).
  { refine (sim_quad_nz base Fg C gs hs n eq offu offv xs x Ls Rs S2 a b t _ _ _ sim eq_refl eq_refl eq_refl); [now inversion Hz|congruence|congruence]. }
  destruct (quadratic_hit Hp base Hb (script Fg) as_ bs gs hs n eq (xs ++ [x]) offu offv r C sim H1 H63 Ha Hbs Hg Hh Hou Hov He HC N eq_refl) as (bl & blS & blU & E).
  { exact (sim_quad_ok Hp base Fg C gs hs n eq offu offv xs x Ls Rs S2 a b t H1 H63 Hg Hh Hou Hov Hx HL HR Hz). }
  exists bl, blS, blU. split; [exact E|]. intros bl' blS' blU' E'.
  exact (quadratic_once Hp base Hb (script Fg) as_ bs gs hs n (xs ++ [x]) r C bl bl' blS blS' blU blU' sim H1 H63 Ha Hbs Hg Hh N E E').
Qed.
(** Two witnesses of one statement: whatever proof is sent with one of them can be sent
    with the other. *)
Theorem C97_indistinguishable (base : G) (M : merlin G) (as1 as2 bs : list F) gs n eq st off r1 r2 C bl1 blS1 pf : prime p -> generates base ->
  (forall m l, fst (m_chal M m l) <> 0%F) -> (1 <= n)%nat -> Z.of_nat n <= 2 ^ 63 ->
  length as1 = n -> length as2 = n -> length bs = n -> length gs = n -> offlen off n -> dot bs as1 = eq -> dot bs as2 = eq ->
  C = gadd (gadd (gmul base r1) (gdot gs as1)) (offp gs off) -> C = gadd (gadd (gmul base r2) (gdot gs as2)) (offp gs off) ->
  proveLinear base M C r1 st bl1 blS1 as1 bs gs n = Ret pf -> exists bl2 blS2, proveLinear base M C r2 st bl2 blS2 as2 bs gs n = Ret pf.
Proof.
  intros Hp Hb Hz H1 H63 Ha1 Ha2 Hbs Hg Ho He1 He2 HC1 HC2 E.
  apply (C97_linear base M as2 bs gs n eq st off r2 C pf); try assumption. apply (C97_linear base M as1 bs gs n eq st off r1 C pf); try assumption. eauto.
Qed.
End C97.
Print Assumptions C97_commit.
Print Assumptions C97_linear.
Print Assumptions C97_linear_unique.
Print Assumptions C97_linear_simulator.
Print Assumptions C97_quadratic.
Print Assumptions C97_quadratic_unique.
Print Assumptions C97_quadratic_simulator.
Print Assumptions C97_indistinguishable.

(** In the field with 17 elements, which 3 generates: two witnesses of one statement
    with three variables. *)
Example C97_example : let G := Fp_gmod 17 in let base := (s17 3 : G) in
  let gs := ([s17 2; s17 5; s17 7] : list G) in let bs := [s17 1; s17 1; s17 1] in
  generates base /\ dot bs [s17 1; s17 2; s17 3] = s17 6 /\ dot bs [s17 4; s17 0; s17 2] = s17 6 /\
  gadd (gmul base (s17 0)) (gdot gs [s17 1; s17 2; s17 3]) = gadd (gmul base (s17 15)) (gdot gs [s17 4; s17 0; s17 2]) /\
  Forall (fun y => y <> 0%F) [s17 4; s17 5; s17 6] /\ log2roundUpN 3 = 2%nat.
Proof.
  cbv zeta. split; [split|].
  - intros g. exists (@fmul 17 (s17 6) g). apply Fp_eq. cbn [gmul Fp_gmod gcar].
    assert (E : (s17 3 * (s17 6 * g))%F = ((s17 3 * s17 6) * g)%F) by (apply fmul_assoc). rewrite E.
    replace (s17 3 * s17 6)%F with (1%F : Fp 17) by (apply Fp_eq; vm_compute; reflexivity). f_equal. apply fmul_1_l.
  - intros a b E. cbn [gmul Fp_gmod gcar] in E.
    assert (Q : forall c : Fp 17, (s17 6 * (s17 3 * c))%F = c).
    { intros c. rewrite fmul_assoc. replace (s17 6 * s17 3)%F with (1%F : Fp 17) by (apply Fp_eq; vm_compute; reflexivity). apply fmul_1_l. }
    rewrite <- (Q a), <- (Q b). now rewrite E.
  - split; [apply Fp_eq; vm_compute; reflexivity|]. split; [apply Fp_eq; vm_compute; reflexivity|].
    split; [apply Fp_eq; vm_compute; reflexivity|]. split; [|vm_compute; reflexivity].
    repeat constructor; intros Q; apply (f_equal fval) in Q; vm_compute in Q; discriminate Q.
Qed.
