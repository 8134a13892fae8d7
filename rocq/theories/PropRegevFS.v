(** Property C69: do the challenges depend on the statement? *)
From Coq Require Import String.
From Coq Require Import ZArith Znumtheory List Bool Lia.
From Verif Require Import NumTheory Outcome Fp FSum GroupMod Ring ConstraintsModel ConstraintsMerge BulletproofModel
  AlgebraModel AlgebraSpec AlgebraMore TernaryModel RegevModel RegevPfModel RegevPfSpec RegevStSpec RegevPfToy PropRegevSt RegevPfFS
  RegevAggModel RegevAggSpec RegevRunModel RegevRunSpec RegevRunProofs RegevRunToy RegevPfFSMore PropFourSquares.
Import ListNotations.
Open Scope Z_scope.

Section C69.
Context {p : Z} {ell : nat} {G : gmod p}.
Variable R : rmerlin G.
Variable c : cfg ell G.
Notation pstate := (@pstate p ell G R).
Notation E := (elt p ell).
(** Two runs with the same witness for any two statements: all commitments are the
    same and so is the transcript at the end, from which everything later is drawn. *)
Theorem C69_decryption (st s1 s2 : pstate) rnd ctMat ctMat' (ctVec ctVec' : list E) pt sk noise :
  proveDecryption R c st rnd ctMat ctVec pt sk noise = Ret s1 -> proveDecryption R c st rnd ctMat' ctVec' pt sk noise = Ret s2 ->
  pmer s1 = pmer s2 /\ pcom s1 = pcom s2.
Proof. intros H1 H2. pose proof (dec_public R c st s1 s2 rnd ctMat ctMat' ctVec ctVec' pt sk noise H1 H2) as Q. injection Q as A B C. now split. Qed.
Theorem C69_encryption (st s1 s2 : pstate) rnd (ct1 ct2 ct1' ct2' : list E) pt er n1 n2 :
  proveEncryption R c st rnd ct1 ct2 pt er n1 n2 = Ret s1 -> proveEncryption R c st rnd ct1' ct2' pt er n1 n2 = Ret s2 ->
  pmer s1 = pmer s2 /\ pcom s1 = pcom s2.
Proof. intros H1 H2. pose proof (enc_public R c st s1 s2 rnd ct1 ct2 ct1' ct2' pt er n1 n2 H1 H2) as Q. injection Q as A B C. now split. Qed.
Theorem C69_keygen (st s1 s2 : pstate) rnd pk pk' (sk noise : list E) :
  proveKeyGen R c st rnd pk sk noise = Ret s1 -> proveKeyGen R c st rnd pk' sk noise = Ret s2 ->
  pmer s1 = pmer s2 /\ pcom s1 = pcom s2.
Proof. intros H1 H2. pose proof (key_public R c st s1 s2 rnd pk pk' sk noise H1 H2) as Q. injection Q as A B C. now split. Qed.
(** Consequence: once the challenges are known, the statement can be moved in a
    whole line of other statements (d ranges over the ring) for which the very same
    proof state results. *)
Theorem C69_adaptive_decryption (st st' : pstate) rnd ctMat a b (l : list E) pt sk noise : (0 < ell)%nat ->
  proveDecryption R c st rnd ctMat (a :: b :: l) pt sk noise = Ret st' ->
  exists u v, forall d, proveDecryption R c st rnd ctMat (eadd a (emul v d) :: eadd b (eopp (emul u d)) :: l) pt sk noise = Ret st'.
Proof. intros He H. exact (dec_adaptive R c He st st' rnd ctMat (a :: b :: l) pt sk noise H). Qed.
Theorem C69_adaptive_encryption (st st' : pstate) rnd ct1 a b (l : list E) pt er n1 n2 : (0 < ell)%nat ->
  proveEncryption R c st rnd ct1 (a :: b :: l) pt er n1 n2 = Ret st' ->
  exists u v, forall d, proveEncryption R c st rnd ct1 (eadd a (emul v d) :: eadd b (eopp (emul u d)) :: l) pt er n1 n2 = Ret st'.
Proof. intros He H. exact (enc_adaptive R c He st st' rnd ct1 (a :: b :: l) pt er n1 n2 H). Qed.
(** The same for the other part of a ciphertext. *)
Theorem C69_adaptive_encryption_first (st st' : pstate) rnd a b (l ct2 : list E) pt er n1 n2 : (0 < ell)%nat ->
  proveEncryption R c st rnd (a :: b :: l) ct2 pt er n1 n2 = Ret st' ->
  exists u v, forall d, proveEncryption R c st rnd (eadd a (emul v d) :: eadd b (eopp (emul u d)) :: l) ct2 pt er n1 n2 = Ret st'.
Proof. intros He H. exact (enc1_adaptive R c He st st' rnd (a :: b :: l) ct2 pt er n1 n2 H). Qed.
(** The same for the public key of party i: [with_pk c i row] has row in its place. *)
Theorem C69_adaptive_keygen (st st' : pstate) rnd i a b (l sk noise : list E) : (0 < ell)%nat ->
  nth_error (mrows (gkB (cgk c))) i = Some (a :: b :: l) -> proveKeyGen R c st rnd i sk noise = Ret st' ->
  exists u v, forall d, proveKeyGen R (with_pk c i (eadd a (emul v d) :: eadd b (eopp (emul u d)) :: l)) st rnd i sk noise = Ret st'.
Proof.
  intros He Hr H. refine (key_adaptive R c He st st' rnd i (a :: b :: l) sk noise _ H). unfold oget. now rewrite Hr.
Qed.
End C69.
Print Assumptions C69_adaptive_encryption_first.
Print Assumptions C69_adaptive_keygen.
Print Assumptions C69_decryption.
Print Assumptions C69_encryption.
Print Assumptions C69_keygen.
Print Assumptions C69_adaptive_decryption.
Print Assumptions C69_adaptive_encryption.

(** On the small configuration: the ciphertext moved by (50 v, - 50 u). *)
Definition t_ct2' := [eadd (nth 0 t_ct2 e0) (e2 0 (-50)); eadd (nth 1 t_ct2 e0) (e2 (-50) 0)].
Definition t_adapt : round 101 2 :=
  Round toyRnd t_ctMat t_ctVec t_pt1 t_sk t_dn t_ct1 t_ct2' t_pt2 t_r t_n1 t_n2 0 t_sk2 t_kn t_lag
    (fun _ => [e2 3 4; e2 5 6; e2 0 1; e2 2 2]) (fun _ => f101 5) (f101 9) t_bl.
(** The whole proof is accepted for this ciphertext too, although the noise it
    would need is far above the bound 6. *)
Theorem C69_refuted : exists s st1 st2, toyK 1 = Ret s /\
  proofRound toyR toyC min_index s t_round = Ret (st1, (true, true)) /\ round_true toyC [1; 2] 2 t_round /\
  proofRound toyR toyC min_index s t_adapt = Ret (st2, (true, true)) /\
  (forall n2, length n2 = 2%nat -> encrypts2 toyC (i_ct2 t_adapt) (i_pt2 t_adapt) (i_er t_adapt) n2 -> n2 = [e2 1 (-49); e2 (-50) 1]) /\
  i_ct2 t_adapt <> i_ct2 t_round.
Proof.
  destruct (run_ok (toyK 1) (fun s => match proofRound toyR toyC min_index s t_round, proofRound toyR toyC min_index s t_adapt with
    | Ret (_, (true, true)), Ret (_, (true, true)) => true | _, _ => false end)) as (s & H & K); [vm_compute; reflexivity|].
  destruct (proofRound toyR toyC min_index s t_round) as [[st1 [[] []]]| | |] eqn:E1; try discriminate.
  destruct (proofRound toyR toyC min_index s t_adapt) as [[st2 [[] []]]| | |] eqn:E2; try discriminate.
  exists s, st1, st2. split; [exact H|]. split; [exact E1|]. split; [exact toy_rtrue|]. split; [exact E2|]. split.
  - intros [|a [|b [|]]] L D; try discriminate. pose proof (D 0%nat ltac:(cbn; lia)) as D0. pose proof (D 1%nat ltac:(cbn; lia)) as D1.
    cbn [nth] in D0, D1. rewrite D0, D1. f_equal; [fpeq|f_equal; fpeq].
  - intros Q. apply (f_equal (fun l => fval (coeff (nth 1 l e0) 0))) in Q. vm_compute in Q. discriminate.
Qed.
Print Assumptions C69_refuted.
(** Two runs of the first step with different statements. *)
Example C69_example : exists s1 s2, proveDecryption toyR toyC toyS toyRnd t_ctMat t_ctVec t_pt1 t_sk t_dn = Ret s1 /\
  proveDecryption toyR toyC toyS toyRnd (Mat [[e2 1 2]] 1) [e2 3 4] t_pt1 t_sk t_dn = Ret s2 /\ pmer s1 = pmer s2.
Proof.
  destruct (run_ok (proveDecryption toyR toyC toyS toyRnd t_ctMat t_ctVec t_pt1 t_sk t_dn) (fun _ => true)) as (s1 & H1 & _); [vm_compute; reflexivity|].
  destruct (run_ok (proveDecryption toyR toyC toyS toyRnd (Mat [[e2 1 2]] 1) [e2 3 4] t_pt1 t_sk t_dn) (fun _ => true)) as (s2 & H2 & _); [vm_compute; reflexivity|].
  exists s1, s2. split; [exact H1|]. split; [exact H2|]. exact (proj1 (C69_decryption toyR toyC _ _ _ _ _ _ _ _ _ _ _ H1 H2)).
Qed.

(** Two entries per key: a correct key pair, and the key moved by (v, - u), whose
    noise with this secret would be (31 + 35 X, -48 + 11 X).  Both are proved. *)
Definition twoC : cfg 2 G101 :=
  Cfg 101 2%nat G101 8%nat 8%nat 3 jac_ex pp_ex sp_ex (f101 3)
    (GK 2 2 1 2 3 2 (Mat [[e2 7 9; e2 1 4]; [e2 3 3; e2 5 8]] 2) (Mat [[e2 8 9; e2 1 5]; [e2 1 2; e2 0 1]] 2)) (e2 10 0) [[f101 1; f101 (-2); f101 1]]
    (map (fun i => f101 (Z.of_nat i * 5 + 2)) (seq 0 260)) (map (fun i => f101 (Z.of_nat i * 3 + 1)) (seq 0 260))
    3 9 9 9 9 9 9 1000.
Definition twoS : @RegevPfModel.pstate 101 2 G101 toyR :=
  PS (match setIndexes 8 8 2 2 2 1 with Ret i => i | _ => fun _ => 0 end) (fun _ => gzero) (fun _ => f101 0) (repeat (emptyLin) 15) (repeat emptyQuad 10)
     [] [] [] (repeat e0 200) [] (1 : mst toyR).
Definition two_row := [e2 38 44; e2 (-47) 15].
Example C69_keygen_example : exists s s',
  proveKeyGen toyR twoC twoS toyRnd 0 [e2 1 0; e2 0 0] [e2 1 0; e2 0 1] = Ret s /\ is_keypair twoC 0 [e2 1 0; e2 0 0] [e2 1 0; e2 0 1] /\
  proveKeyGen toyR (with_pk twoC 0 two_row) twoS toyRnd 0 [e2 1 0; e2 0 0] [e2 1 0; e2 0 1] = Ret s' /\
  is_keypair (with_pk twoC 0 two_row) 0 [e2 1 0; e2 0 0] [e2 31 35; e2 (-48) 11] /\
  map (fun c => fval (leq c)) (plin s) = map (fun c => fval (leq c)) (plin s') /\ (pmer s : Z) = (pmer s' : Z).
Proof.
  destruct (run2_ok (proveKeyGen toyR twoC twoS toyRnd 0 [e2 1 0; e2 0 0] [e2 1 0; e2 0 1])
    (fun s => let! s' := proveKeyGen toyR (with_pk twoC 0 two_row) twoS toyRnd 0 [e2 1 0; e2 0 0] [e2 1 0; e2 0 1] in Ret (s, s'))
    (fun q => if list_eq_dec Z.eq_dec (map (fun c => fval (leq c)) (plin (fst q))) (map (fun c => fval (leq c)) (plin (snd q))) then ((pmer (fst q) : Z) =? (pmer (snd q) : Z)) else false))
    as (s & [s0 s'] & H1 & H2 & K); [vm_compute; reflexivity|].
  apply obind_ret_inv in H2 as (s1 & H2 & Q). injection Q as -> ->. exists s0, s'. cbn [fst snd] in K.
  destruct (list_eq_dec Z.eq_dec _ _) as [L|]; [|discriminate K]. apply Z.eqb_eq in K.
  split; [exact H1|]. split; [intros [|[|i]] Hi; [fpeq|fpeq|exfalso; cbn in Hi; lia]|].
  split; [exact H2|]. split; [intros [|[|i]] Hi; [fpeq|fpeq|exfalso; cbn in Hi; lia]|]. split; [exact L|exact K].
Qed.
