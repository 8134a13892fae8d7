(** Properties C55-C60: the Fiat-Shamir transcript. *)
From Coq Require Import ZArith String List Lia Bool.
From Verif Require Import Outcome Bytes KeccakModel KeccakProofs MerlinModel MerlinSpec MerlinProofs MerlinInj MerlinMore.
Import ListNotations.
Open Scope Z_scope.

Theorem keccakf_perm_ok : perm_ok keccakf.
Proof. intros s [H1 H2]. destruct (keccakf_ok s H2 H1) as [A [B _]]. split; assumption. Qed.

(** C55, partial: every history of appends and challenges, and one draw from an
    rng built in any way from it.  Missing: a second draw, see the refutation. *)
Theorem C55_history_partial f label calls : perm_ok f -> bytes_ok label -> Forall call_ok calls ->
  exists outs c, run f label calls = Ret (outs, c) /\ in_bounds c /\
    Forall2 (fun d n => List.length d = n /\ bytes_ok d) outs
      (flat_map (fun a => match a with Append _ _ => [] | Challenge _ n => [n] end) calls).
Proof.
  intros Hf Hl Hc. destruct (run_ok f Hf label calls Hl Hc) as [o [c [E B]]]. exists o, c. split; [exact E|]. split; [exact B|].
  unfold run in E. apply obind_ret_inv in E. destruct E as [c0 [E0 E]]. apply (exec_outs f Hf calls c0 o c E); [|exact Hc].
  destruct (run_ok f Hf label [] Hl (Forall_nil _)) as [o' [c' [E' B']]]. unfold run in E'. rewrite E0 in E'. injection E' as _ ->. exact B'.
Qed.
Print Assumptions C55_history_partial.
Theorem C55_rng_partial f c witnesses entropy n : perm_ok f -> in_bounds c ->
  Forall (fun x => bytes_ok (fst x) /\ bytes_ok (snd x)) witnesses -> bytes_ok entropy ->
  exists d r, (let! r := rng_commit_all f (rng_init c) witnesses in let! r := rng_finalize f r entropy in rng_random_bytes f r n) = Ret (d, r) /\
    List.length d = n /\ bytes_ok d /\ in_bounds (rctx r).
Proof. intros Hf. apply rng_ok. exact Hf. Qed.
Print Assumptions C55_rng_partial.
Theorem C55_keccak_partial label calls : bytes_ok label -> Forall call_ok calls ->
  exists outs c, run keccakf label calls = Ret (outs, c) /\ in_bounds c.
Proof. intros Hl Hc. destruct (C55_history_partial keccakf label calls keccakf_perm_ok Hl Hc) as [o [c [E [B _]]]]. eauto. Qed.
Print Assumptions C55_keccak_partial.
(** Every second draw fails an assertion. *)
Theorem C55_second_draw f r n d r' m : rng_random_bytes f r n = Ret (d, r') -> rng_random_bytes f r' m = Abort.
Proof. intros H. exact (second_draw f r n d r' H m). Qed.
Print Assumptions C55_second_draw.
Theorem C55_refuted : exists label c r d r',
  bytes_ok label /\ transcript_init keccakf label = Ret c /\
  rng_finalize keccakf (rng_init c) (repeat 7 32) = Ret r /\
  rng_random_bytes keccakf r 1 = Ret (d, r') /\ rng_random_bytes keccakf r' 1 = Abort.
Proof. exact (two_draws keccakf keccakf_perm_ok). Qed.
Print Assumptions C55_refuted.
(** A run over several blocks: 400 absorbed bytes, 200 squeezed. *)
Example C55_example :
  match run keccakf [1; 2] [Append [3] (repeat 9 400); Challenge [4] 200; Append [] []] with
  | Ret ([d], c) => List.length d = 200%nat /\ List.length (log c) = 10%nat /\ pos c = 6 /\ pos_begin c = 5
  | _ => False
  end.
Proof. vm_compute. repeat split. Qed.

(** C56. *)
Theorem C56_absorb f c u v more : meta_ad f c (u ++ v) more = (let! c := meta_ad f c u more in meta_ad f c v true).
Proof. apply meta_ad_app. Qed.
Print Assumptions C56_absorb.
Theorem C56_ad f c u v more : ad f c (u ++ v) more = (let! c := ad f c u more in ad f c v true).
Proof. apply ad_app. Qed.
Print Assumptions C56_ad.
Theorem C56_key f c u v more : key f c (u ++ v) more = (let! c := key f c u more in key f c v true).
Proof. apply key_app. Qed.
Print Assumptions C56_key.
Theorem C56_squeeze f c n m more : prf f c (n + m) more =
  (let! x := prf f c n more in let! y := prf f (snd x) m true in Ret (fst x ++ fst y, snd y)).
Proof. apply prf_app. Qed.
Print Assumptions C56_squeeze.
Example C56_example : match transcript_init keccakf [5] with
  | Ret c => match meta_ad keccakf c (repeat 1 100 ++ repeat 2 100) false, prf keccakf c (100 + 100) false with
             | Ret c1, Ret (d, c2) => cur_flags c1 = 6 /\ List.length (log c1) = 5%nat /\ List.length d = 200%nat
             | _, _ => False
             end
  | _ => False
  end.
Proof. vm_compute. repeat split. Qed.

(** C57: the states handed to the permutation up to the next challenge determine
    the name of the protocol, all labels, messages and challenges before, and the
    label and (mod 2^32) length of the challenge. *)
Theorem C57_framing f label label' calls calls' l l' n n' o o' c c' : perm_ok f ->
  bytes_ok label -> bytes_ok label' ->
  Forall call_ok (calls ++ [Challenge l n]) -> Forall call_ok (calls' ++ [Challenge l' n']) ->
  run f label (calls ++ [Challenge l n]) = Ret (o, c) -> run f label' (calls' ++ [Challenge l' n']) = Ret (o', c') ->
  log c = log c' -> label = label' /\ calls = calls' /\ l = l' /\ Z.of_nat n mod 2 ^ 32 = Z.of_nat n' mod 2 ^ 32.
Proof. intros Hf. apply run_inj. exact Hf. Qed.
Print Assumptions C57_framing.
(** The same from any common state. *)
Theorem C57_from f c calls calls' l l' n n' o o' c1 c1' : perm_ok f -> in_bounds c ->
  Forall call_ok (calls ++ [Challenge l n]) -> Forall call_ok (calls' ++ [Challenge l' n']) ->
  exec f c (calls ++ [Challenge l n]) = Ret (o, c1) -> exec f c (calls' ++ [Challenge l' n']) = Ret (o', c1') ->
  log c1 = log c1' -> calls = calls' /\ l = l' /\ Z.of_nat n mod 2 ^ 32 = Z.of_nat n' mod 2 ^ 32.
Proof. intros Hf. apply history_inj. exact Hf. Qed.
Print Assumptions C57_from.
Theorem C57_keccak label label' calls calls' l l' n n' o o' c c' :
  bytes_ok label -> bytes_ok label' ->
  Forall call_ok (calls ++ [Challenge l n]) -> Forall call_ok (calls' ++ [Challenge l' n']) ->
  run keccakf label (calls ++ [Challenge l n]) = Ret (o, c) -> run keccakf label' (calls' ++ [Challenge l' n']) = Ret (o', c') ->
  log c = log c' -> label = label' /\ calls = calls' /\ l = l' /\ Z.of_nat n mod 2 ^ 32 = Z.of_nat n' mod 2 ^ 32.
Proof. apply C57_framing. exact keccakf_perm_ok. Qed.
Print Assumptions C57_keccak.
(** Moving a byte from the label to the message changes the blocks. *)
Example C57_example :
  match run keccakf [1] [Append [1; 2] [3]; Challenge [4] 2], run keccakf [1] [Append [1] [2; 3]; Challenge [4] 2] with
  | Ret (o, c), Ret (o', c') => log c <> log c' /\ o <> o'
  | _, _ => False
  end.
Proof. vm_compute. split; discriminate. Qed.

(** C58: the round trip holds exactly below 2^31 and in the top 2^31. *)
Theorem C58_exact z : 0 <= z < 2 ^ 64 ->
  intFromBytes (bytesFromInt z) = Ret z <-> z < 2 ^ 31 \/ 2 ^ 64 - 2 ^ 31 <= z.
Proof.
  intros H. rewrite (int_roundtrip z H), <- (to_int_id z H). split; [intros E; now injection E|intros ->; reflexivity].
Qed.
Print Assumptions C58_exact.
Theorem C58_refuted : exists z, 0 <= z < 2 ^ 64 /\ intFromBytes (bytesFromInt z) <> Ret z.
Proof. exists (2 ^ 31). split; [lia|]. rewrite C58_exact by lia. lia. Qed.
Print Assumptions C58_refuted.
Example C58_example : intFromBytes (bytesFromInt 123456789) = Ret 123456789 /\
  intFromBytes (bytesFromInt 3000000000) = Ret 18446744072414584320.
Proof. split; vm_compute; reflexivity. Qed.

(** C59: linear constraints, indexes below 2^31. *)
Theorem C59_lin_partial f c label cs cs' c1 c1' l l' n n' d d' c2 c2' : perm_ok f -> in_bounds c -> bytes_ok label -> bytes_ok l -> bytes_ok l' ->
  Forall (fun x => Forall (fun t => 0 <= fst t < 2 ^ 31) (fst x)) cs -> Forall (fun x => Forall (fun t => 0 <= fst t < 2 ^ 31) (fst x)) cs' ->
  Forall (fun x => Forall (fun t => bytes_ok (snd t)) (fst x) /\ bytes_ok (snd x)) cs ->
  Forall (fun x => Forall (fun t => bytes_ok (snd t)) (fst x) /\ bytes_ok (snd x)) cs' ->
  processLins f c label cs = Ret c1 -> processLins f c label cs' = Ret c1' ->
  challenge_bytes f c1 l n = Ret (d, c2) -> challenge_bytes f c1' l' n' = Ret (d', c2') ->
  log c2 = log c2' -> cs = cs'.
Proof.
  intros Hf H Bl B1 B2 I1 I2 K1 K2 E1 E1' E2 E2' EL. rewrite processLins_all in E1, E1'.
  apply (lin_list_inj label cs cs' I1 I2). exact (messages_inj f c _ _ l l' n n' c1 c1' d d' c2 c2' Hf H (lins_messages_ok label cs Bl K1)
    (lins_messages_ok label cs' Bl K2) B1 B2 E1 E1' E2 E2' EL).
Qed.
Print Assumptions C59_lin_partial.
(** The index 2^32 + 1 is treated as 1, for every transcript. *)
Theorem C59_refuted : exists t t' e, t <> t' /\ Forall (fun x => 0 <= fst x < 2 ^ 64) (t ++ t') /\
  forall f c label, processLin f c label t e = processLin f c label t' e.
Proof.
  exists [(1, [5])], [(2 ^ 32 + 1, [5])], [0]. split; [discriminate|]. split; [repeat constructor; cbn; lia|]. reflexivity.
Qed.
Print Assumptions C59_refuted.
(** Quadratic constraints, all 64-bit indexes. *)
Theorem C59_quad f c label cs cs' c1 c1' l l' n n' d d' c2 c2' : perm_ok f -> in_bounds c -> bytes_ok label -> bytes_ok l -> bytes_ok l' ->
  Forall (fun x => Forall (fun i => 0 <= i < 2 ^ 64) (fst x)) cs -> Forall (fun x => Forall (fun i => 0 <= i < 2 ^ 64) (fst x)) cs' ->
  Forall (fun x => bytes_ok (snd x)) cs -> Forall (fun x => bytes_ok (snd x)) cs' ->
  processQuads f c label cs = Ret c1 -> processQuads f c label cs' = Ret c1' ->
  challenge_bytes f c1 l n = Ret (d, c2) -> challenge_bytes f c1' l' n' = Ret (d', c2') ->
  log c2 = log c2' -> cs = cs'.
Proof.
  intros Hf H Bl B1 B2 I1 I2 K1 K2 E1 E1' E2 E2' EL. rewrite processQuads_all in E1, E1'.
  apply (quad_list_inj label cs cs' I1 I2). exact (messages_inj f c _ _ l l' n n' c1 c1' d d' c2 c2' Hf H (quads_messages_ok label cs Bl K1)
    (quads_messages_ok label cs' Bl K2) B1 B2 E1 E1' E2 E2' EL).
Qed.
Print Assumptions C59_quad.
(** With a cheap permutation, which meets the hypothesis too. *)
Lemma rev_perm_ok : perm_ok (@rev Z).
Proof. intros s [H1 H2]. split; [now rewrite rev_length|now apply Forall_rev]. Qed.
Example C59_example :
  match transcript_init (@rev Z) [9] with
  | Ret c => match processLins (@rev Z) c [7] [([(0, [1]); (5, [2])], [3])], processLins (@rev Z) c [7] [([(0, [1])], [3]); ([(5, [2])], [3])],
                   processQuads (@rev Z) c [7] [([0; 5], [3])] with
             | Ret c1, Ret c2, Ret c3 => log c1 <> log c2 /\ log c1 <> log c3
             | _, _, _ => False
             end
  | _ => False
  end.
Proof. vm_compute. split; discriminate. Qed.

(** C60. *)
Theorem C60_unchanged f c label n xes ys entropy : perm_ok f -> in_bounds c -> bytes_ok label -> Forall bytes_ok xes -> bytes_ok entropy ->
  match ys with None => True | Some ys => Forall bytes_ok ys end ->
  exists u v, newBlindingFactors f c label n xes ys entropy = Ret (c, (u, v)) /\
    List.length u = 64%nat /\ List.length v = 64%nat /\ bytes_ok u /\ bytes_ok v.
Proof. intros Hf. apply blinding_ok. exact Hf. Qed.
Print Assumptions C60_unchanged.
(** A prover drawing blinding factors at any point gets the challenges of the verifier. *)
Theorem C60_same_challenges f c calls : perm_ok f -> in_bounds c -> Forall pcall_ok calls ->
  pexec f c calls = exec f c (public calls) /\ exists outs c', exec f c (public calls) = Ret (outs, c').
Proof.
  intros Hf H Hc. split; [now apply prover_verifier|].
  destruct (exec_bounds f Hf c (public calls) H) as [o [c' [E _]]]; [|eauto].
  clear - Hc. induction Hc as [|a calls Ha _ IH]; [constructor|]. destruct a; cbn [public]; [constructor; assumption|assumption].
Qed.
Print Assumptions C60_same_challenges.
Example C60_example :
  match transcript_init (@rev Z) [9] with
  | Ret c => match pexec (@rev Z) c [Blind [1] [[2]; [3]] (Some [[4]; [5]]) (repeat 6 32); Public (Challenge [8] 2)], newBlindingFactors (@rev Z) c [1] 2 [[2]; [3]] None (repeat 6 32) with
             | Ret ([d], _), Ret (_, (u, v)) => List.length d = 2%nat /\ u <> v
             | _, _ => False
             end
  | _ => False
  end.
Proof. vm_compute. split; [reflexivity|discriminate]. Qed.
