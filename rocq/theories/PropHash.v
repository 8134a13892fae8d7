(** Property C107: complete proofs on the actual transcript. *)
From Coq Require Import String.
From Coq Require Import ZArith List Bool Lia.
From Verif Require Import Outcome Bytes Fp GroupMod FSum Ring Prime25519 MerlinModel MerlinSpec ConstraintsModel BulletproofModel RegevModel RegevPfModel RegevAggModel RegevRunModel
  ParamsModel MainModel SpongeModel FsMore KeccakModel PropMerlin RegevPfToy RegevRunToy PropFs TransSpec HashSpec HashProofs HashMore.
Import ListNotations.
Open Scope Z_scope.

(** [f] is the permutation, [pbytes] the bytes of a point, [uniform] the point made of
    32 bytes.  [actual] is the interface of the proofs implemented by the STROBE
    transcript; [remembered s] is one whose state is the list of everything that
    happened since the context s and whose challenges are computed from that list. *)
Section C107.
Variable f : list Z -> list Z.
Hypothesis Hf : perm_ok f.
Context {p : Z} {ell : nat} {G : gmod p}.
Variable pbytes : G -> list Z.
Hypothesis Hpb : forall g, bytes_ok (pbytes g).
Variable uniform : list Z -> G.
Notation actual := (real_regev f Hf pbytes Hpb uniform).
Notation remembered s := (hashing pbytes uniform f (strobe_of (s : context))).
Notation pstate := (@pstate p ell G actual).

(** Any number of complete proofs: steps, aggregation, final proofs and their
    verification. *)
Theorem C107_rounds (c : cfg ell G) pick (st : pstate) rounds :
  agree (fun (a : pstate * list (bool * bool)) (b : @RegevPfModel.pstate p ell G (remembered (pmer st)) * list (bool * bool)) =>
      snd a = snd b /\ fst b = with_transcript (fst a) (pmer (fst b)) /\
      exists outs, exec f (strobe_of (pmer st : context)) (history_calls pbytes (pmer (fst b))) = Ret (outs, strobe_of (pmer (fst a) : context)))
    (proofRounds actual c pick st rounds) (proofRounds (remembered (pmer st)) c pick (with_transcript (R' := remembered (pmer st)) st []) rounds).
Proof. exact (hash_rounds f Hf pbytes Hpb uniform c pick st rounds). Qed.
(** What the five steps send and draw, written down from the commitments and the
    masked reply of the proof, leads the actual transcript to its final state. *)
Theorem C107_history (c : cfg ell G) (st s : pstate) i : 2 <= p -> proofSteps actual c st i = Ret s ->
  exists outs, exec f (strobe_of (pmer st : context)) (history_calls pbytes (steps_items c (pcom s) (pz s))) = Ret (outs, strobe_of (pmer s : context)).
Proof. intros Hp. exact (hash_steps f Hf pbytes Hpb uniform Hp c st s i). Qed.
(** Two proofs whose final states have the same inputs to the permutation have the
    same tag, calls before, commitments and masked reply. *)
Theorem C107_binding (c c' : cfg ell G) (st s st' s' : pstate) i i' tag tag' pre pre' o o' :
  2 <= p -> (forall g h, pbytes g = pbytes h -> g = h) ->
  run f (lit tag) pre = Ret (o, strobe_of (pmer st : context)) -> run f (lit tag') pre' = Ret (o', strobe_of (pmer st' : context)) ->
  Forall call_ok pre -> Forall call_ok pre' -> length pre = length pre' ->
  proofSteps actual c st i = Ret s -> proofSteps actual c' st' i' = Ret s' ->
  log (strobe_of (pmer s : context)) = log (strobe_of (pmer s' : context)) ->
  tag = tag' /\ pre = pre' /\ map (pcom s) sent = map (pcom s') sent /\ pz s = pz s' /\ strobe_of (pmer s : context) = strobe_of (pmer s' : context).
Proof.
  intros Hp Hi A A' B B' L K K' E. destruct (hash_binding f Hf pbytes Hpb uniform Hp Hi c c' st s st' s' i i' tag tag' pre pre' o o' A A' B B' L K K' E) as [T Q].
  split; [exact (lit_inj _ _ T)|exact Q].
Qed.
End C107.
Print Assumptions C107_rounds.
Print Assumptions C107_history.
Print Assumptions C107_binding.
(** main, with the permutation of the program. *)
Theorem C107_main (G : gmod P25519) (pbytes : G -> list Z) (Hpb : forall g, bytes_ok (pbytes g)) (uniform : list Z -> G)
    (lb : libs (real_regev keccakf keccakf_perm_ok pbytes Hpb uniform)) fp arg tp :
  main (real_regev keccakf keccakf_perm_ok pbytes Hpb uniform) lb fp arg tp =
  main (hashing pbytes uniform keccakf (strobe_of (l_mer lb : context))) (with_libs (R' := hashing pbytes uniform keccakf (strobe_of (l_mer lb : context))) lb []) fp arg tp.
Proof. exact (hash_main keccakf keccakf_perm_ok pbytes Hpb uniform lb fp arg tp). Qed.
Print Assumptions C107_main.

(** *** An instance: the configuration of RegevPfToy, scalars modulo 101 as points,
    one byte for a point, the toy permutation. *)
Definition b101 (g : G101) : list Z := [fval (g : Fp 101)].
Lemma b101_ok g : bytes_ok (b101 g).
Proof. assert (A := fval_range 101 g eq_refl). constructor; [unfold is_byte; lia|constructor]. Qed.
Definition u101 (d : list Z) : G101 := toF 101 (le_val d).
Definition R101 : rmerlin G101 := real_regev toyf toyf_ok b101 b101_ok u101.
Definition K101 : outcome (@pstate 101 2 G101 R101) :=
  commitKey R101 toyC (PS toyIdx (fun _ => gzero) (fun _ => f101 0) (repeat emptyLin 15) (repeat emptyQuad 10) [] [] [] (repeat e0 30) [] (real_init toyf toyf_ok "toy" : mst R101)) t_sk (f101 6).
(** The steps succeed; their history leads to the final state, and it consists of 25
    points, 14 challenges of different sizes and 4 ring elements. *)
Example C107_example : exists st s outs, K101 = Ret st /\ proofSteps R101 toyC st t_round = Ret s /\
  exec toyf (strobe_of (pmer st : context)) (history_calls b101 (steps_items toyC (pcom s) (pz s))) = Ret (outs, strobe_of (pmer s : context)) /\
  length (pz s) = 4%nat /\ length (steps_items toyC (pcom s) (pz s)) = 43%nat /\
  (exists o, run toyf (lit "toy") [] = Ret (o, strobe_of (pmer st : context))) /\ (forall g h, b101 g = b101 h -> g = h).
Proof.
  assert (K : match K101 with Ret st => match proofSteps R101 toyC st t_round with Ret s => (length (pz s) =? 4)%nat | _ => false end | _ => false end = true) by (vm_compute; reflexivity).
  destruct K101 as [st| | |] eqn:E; try discriminate K. destruct (proofSteps R101 toyC st t_round) as [s| | |] eqn:E1; try discriminate K. apply Nat.eqb_eq in K.
  destruct (C107_history toyf toyf_ok b101 b101_ok u101 toyC st s t_round ltac:(lia) E1) as [outs H].
  exists st, s, outs. split; [reflexivity|]. split; [exact E1|]. split; [exact H|]. split; [exact K|]. split.
  - destruct (pz s) as [|z0 [|z1 [|z2 [|z3 [|]]]]]; try discriminate K. reflexivity.
  - split.
    + unfold K101, commitKey in E. match type of E with obind ?o _ = _ => destruct o; try discriminate E end. injection E as <-. exists []. cbn [pmer].
      exact (init_run toyf toyf_ok "toy").
    + intros g h X. unfold b101 in X. apply (f_equal (fun l => nth 0 l 0)) in X. cbn [nth] in X. now apply Fp_eq.
Qed.
