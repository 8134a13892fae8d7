(** C14-C17: /repo/include/pedersen.hpp and /repo/src/dlproofs/naive.cpp.
    Only statements, short proofs, examples and Print Assumptions. *)
From Coq Require Import String.
From Coq Require Import ZArith List Bool Lia.
From Verif Require Import Outcome Fp GroupMod FSum ConstraintsModel PedersenModel PedersenSpec PedersenProofs.
Import ListNotations.
Open Scope Z_scope.

Local Notation s17 := (@toF 17).

(** C14 *)
Theorem C14_next2power : forall n, 0 <= n < 2 ^ 64 ->
  (1 <= n <= 2 ^ 63 -> least_pow2 n (log2roundUp n) (next2power n)) /\
  (2 ^ 63 < n -> next2power n = 0 /\ log2roundUp n = 64) /\
  (n = 0 -> next2power n = 0 /\ log2roundUp n = 0).
Proof.
  intros n Hn. split; [|split].
  - intros H. destruct (next2power_spec n H) as [E1 E2].
    destruct (log2roundUp_spec n ltac:(lia)) as (H1 & H2 & H3).
    unfold least_pow2. rewrite E1. repeat split; try lia. exact H3.
  - intros H. split; [apply next2power_wrap; lia|].
    destruct (log2roundUp_spec n ltac:(lia)) as (H1 & H2 & H3).
    destruct (Z.eq_dec (log2roundUp n) 64) as [|E]; [assumption|].
    assert (2 ^ log2roundUp n <= 2 ^ 63) by (apply Z.pow_le_mono_r; lia). lia.
  - intros ->. split; reflexivity.
Qed.
Example C14_example : next2power 2601 = 4096 /\ log2roundUp 2601 = 12 /\
  next2power (2 ^ 63) = 2 ^ 63 /\ next2power (2 ^ 63 + 1) = 0 /\ next2power 4 = 4.
Proof. repeat split; vm_compute; reflexivity. Qed.
Print Assumptions C14_next2power.

(** C15.  [exp2_loop xs gs n (next2power n / 2)] is the sequence of
    foldGenerators calls made by proveLinear / proveQuadratic (n, nOver2) ->
    (nOver2, nOver2/2). *)
Theorem C15_fold_equals_expansion :
  forall (p : Z) (G : gmod p) (gs : list G) (xs : list (Fp p)) (a : Fp p),
  (1 <= length gs)%nat -> Z.of_nat (length gs) <= 2 ^ 63 ->
  length xs = log2roundUpN (length gs) ->
  exists g, exp2_loop xs gs (length gs) (next2powerN (length gs) / 2) = Ret [g] /\
    expSubsetProduct gs (length gs) xs a None = Ret (gmul g a).
Proof. intros p G gs xs a H1 H2 H3. exact (fold_exp gs xs a H1 H2 H3). Qed.

Theorem C15_expansion_entries :
  forall (p : Z) (xs : list (Fp p)) (n : nat) (a : Fp p),
  (1 <= n <= 2 ^ length xs)%nat -> Z.of_nat n <= 2 ^ 63 ->
  exists z, subsetProduct n xs (length xs) a = Ret z /\ length z = n /\
    (forall i, (i < n)%nat -> nth_error z i = Some (a * subset_prod xs i)%F) /\
    nth_error z 0 = Some a.
Proof. intros p xs n a H1 H2. exact (subsetProduct_entries xs n a H1 H2). Qed.

(** The "old version" agrees with the new one for n >= 2; for n = 1 it shifts
    by a negative amount. *)
Theorem C15_old_version :
  forall (p : Z) (G : gmod p) (gs : list G) (xs : list (Fp p)),
  (2 <= length gs)%nat -> Z.of_nat (length gs) <= 2 ^ 63 ->
  length xs = log2roundUpN (length gs) ->
  expSubsetProduct2 gs (length gs) xs = expSubsetProduct gs (length gs) xs 1%F None.
Proof. intros p G gs xs H1 H2 H3. exact (exp2_eq gs xs H1 H2 H3). Qed.

Definition ex_gs : list (Fp_gmod 17) := [s17 3; s17 5; s17 7; s17 11; s17 2].
Definition ex_xs : list (Fp 17) := [s17 2; s17 3; s17 4].
Example C15_example :
  length ex_xs = log2roundUpN (length ex_gs) /\
  omap (@fval 17) (expSubsetProduct ex_gs 5 ex_xs (s17 6) None) = Ret 9 /\
  omap (map (@fval 17)) (subsetProduct 5 ex_xs 3 (s17 6)) = Ret [6; 7; 1; 4; 12] /\
  omap (map (@fval 17)) (exp2_loop ex_xs ex_gs 5 4) = Ret [10].
Proof. repeat split; vm_compute; reflexivity. Qed.
Print Assumptions C15_fold_equals_expansion.
Print Assumptions C15_expansion_entries.
Print Assumptions C15_old_version.

(** C16 *)
Theorem C16_verify_commit :
  forall (p : Z) (G : gmod p) (base : G) (c : G) (gs : list G) (xs : list (Fp p)) r f alpha,
  length gs = length xs ->
  (verifyCom base c gs xs (length gs) r f alpha = Ret true <->
   commit base gs xs (length gs) r f alpha = Ret c).
Proof.
  intros p G base c gs xs r f alpha Hl. rewrite commit_ret by auto. rewrite verifyCom_ret by auto.
  split; [now intros ->|]. intros H. injection H as <-. reflexivity.
Qed.
Theorem C16_verify_commit2 :
  forall (p : Z) (G : gmod p) (base : G) (c : G) (gs : list G) (xs : list (Fp p)) hs ys r f alpha,
  length gs = length xs -> length hs = length gs -> length ys = length gs ->
  (verifyCom2 base c gs xs hs ys (length gs) r f alpha = Ret true <->
   commit2 base gs xs hs ys (length gs) r f alpha = Ret c).
Proof.
  intros p G base c gs xs hs ys r f alpha H1 H2 H3. unfold verifyCom2. rewrite commit2_ret by auto. cbn [obind].
  split; intros H; injection H as H.
  - apply geqb_eq in H. now rewrite H.
  - subst c. now rewrite geqb_refl.
Qed.
Theorem C16_homomorphic :
  forall (p : Z) (G : gmod p) (base : G) (gs : list G) (xs ys : list (Fp p)) r s f alpha beta,
  length gs = length xs -> length gs = length ys ->
  exists c d e,
    commit base gs xs (length gs) r f alpha = Ret c /\
    commit base gs ys (length gs) s f beta = Ret d /\
    commit base gs (vadd xs ys) (length gs) (r + s)%F f (alpha + beta)%F = Ret e /\
    e = gadd c d.
Proof. intros p G base gs xs ys r s f alpha beta H1 H2. exact (commit_add base gs xs ys r s f alpha beta H1 H2). Qed.
Theorem C16_two_generators :
  forall (p : Z) (G : gmod p) (base : G) (gs hs : list G) (xs : list (Fp p)) r f alpha,
  length gs = length xs -> length hs = length gs ->
  commit2 base gs xs hs xs (length gs) r f alpha =
  commit base (map (fun e => gadd (fst e) (snd e)) (combine gs hs)) xs (length gs) r f alpha.
Proof. intros p G base gs hs xs r f alpha H1 H2. exact (commit2_one base gs hs xs r f alpha H1 H2). Qed.
Example C16_example :
  omap (@fval 17) (commit (G := Fp_gmod 17) (s17 1) ex_gs [s17 1; s17 2; s17 3; s17 4; s17 5] 5 (s17 9) (s17 8) (s17 2)) = Ret 11 /\
  verifyCom (G := Fp_gmod 17) (s17 1) (s17 12) ex_gs [s17 1; s17 2; s17 3; s17 4; s17 5] 5 (s17 9) (s17 8) (s17 2) = Ret false.
Proof. split; vm_compute; reflexivity. Qed.
Print Assumptions C16_verify_commit.
Print Assumptions C16_verify_commit2.
Print Assumptions C16_homomorphic.
Print Assumptions C16_two_generators.

(** C17: false for size_t indexes (narrowed to int); true below 2^31. *)
Theorem C17_labels_refuted :
  exists tag k idx idx', 0 <= idx < 2 ^ 64 /\ 0 <= idx' < 2 ^ 64 /\ idx <> idx' /\
    gen_label_size tag k idx = gen_label_size tag k idx'.
Proof.
  exists "RegevProofs"%string, KG, 7, (2 ^ 32 + 7). repeat split; try (vm_compute; congruence).
Qed.
Theorem C17_labels_partial :
  forall tag k idx tag' k' idx',
  0 <= idx < 2 ^ 31 -> 0 <= idx' < 2 ^ 31 ->
  gen_label_size tag k idx = gen_label_size tag' k' idx' -> tag = tag' /\ k = k' /\ idx = idx'.
Proof.
  intros tag k idx tag' k' idx' H H' E. apply gen_label_inj in E.
  destruct E as (E1 & E2 & E3). unfold int_of_size in E3. rewrite !Z.mod_small in E3 by lia.
  repeat split; auto; lia.
Qed.
(** all int arguments, including negative ones *)
Theorem C17_labels_int :
  forall tag k i tag' k' i', gen_label tag k i = gen_label tag' k' i' -> tag = tag' /\ k = k' /\ i = i'.
Proof. exact gen_label_inj. Qed.
Example C17_example : gen_label_size "RegevProofs" KH 2600 = "RegevProofsH2600"%string /\
  gen_label "a" KG (-12) = "aG-12"%string /\ gen_label_size "aG1" KG 2 = "aG1G2"%string.
Proof. repeat split. Qed.
Print Assumptions C17_labels_refuted.
Print Assumptions C17_labels_partial.
Print Assumptions C17_labels_int.
