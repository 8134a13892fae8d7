(** Property C108: the random bytes of the prover. *)
From Coq Require Import ZArith String List Lia.
From Verif Require Import Outcome Bytes KeccakModel MerlinModel MerlinSpec PropMerlin RngSpec RngProofs.
Import ListNotations.
Open Scope Z_scope.

(** The blinding factors are the two halves of 128 bytes drawn after all witnesses, in
    order, under the label and their positions; the transcript stays. *)
Theorem C108_factors f c label xes ys e : match ys with None => True | Some ys => List.length ys = List.length xes end ->
  newBlindingFactors f c label (List.length xes) xes ys e =
  let! (d, _) := drawing f c (numbered label (xes ++ match ys with None => [] | Some ys => ys end)) e 128 in Ret (c, (firstn 64 d, skipn 64 d)).
Proof. exact (factors f c label xes ys e). Qed.
Print Assumptions C108_factors.
(** Two drawings with the same inputs to the permutation belong to the same tag,
    history, witnesses and entropy. *)
Theorem C108_binding f tag tag' pre pre' ms ms' e e' n n' o o' c c' d d' r r' : perm_ok f -> bytes_ok tag -> bytes_ok tag' ->
  Forall call_ok pre -> Forall call_ok pre' -> labelled_ok ms -> labelled_ok ms' -> bytes_ok e -> bytes_ok e' ->
  run f tag pre = Ret (o, c) -> run f tag' pre' = Ret (o', c') -> drawing f c ms e n = Ret (d, r) -> drawing f c' ms' e' n' = Ret (d', r') ->
  log (rctx r) = log (rctx r') ->
  tag = tag' /\ pre = pre' /\ ms = ms' /\ firstn 32 e = firstn 32 e' /\ Z.of_nat n mod 2 ^ 32 = Z.of_nat n' mod 2 ^ 32.
Proof. intros Hf. exact (drawing_binding f Hf tag tag' pre pre' ms ms' e e' n n' o o' c c' d d' r r'). Qed.
Print Assumptions C108_binding.
Theorem C108_witnesses label label' ws ws' : numbered label ws = numbered label' ws' -> ws = ws' /\ (ws <> [] -> label = label').
Proof. apply numbered_inj. Qed.
Print Assumptions C108_witnesses.
(** No drawing has the inputs of a challenge, in whatever transcript. *)
Theorem C108_apart f tag tag' pre calls ms e n l k o o' c c' d r : perm_ok f -> bytes_ok tag -> bytes_ok tag' ->
  Forall call_ok pre -> Forall call_ok (calls ++ [Challenge l k]) -> labelled_ok ms -> bytes_ok e ->
  run f tag pre = Ret (o, c) -> drawing f c ms e n = Ret (d, r) -> run f tag' (calls ++ [Challenge l k]) = Ret (o', c') ->
  log (rctx r) <> log c'.
Proof. intros Hf. exact (drawing_apart f Hf tag tag' pre calls ms e n l k o o' c c' d r). Qed.
Print Assumptions C108_apart.
(** A vector is its entries, the label going to the first. *)
Theorem C108_vector f c label v : processScalarVector f c label v = let! (_, c1) := exec f c (vector_calls label v) in Ret c1.
Proof. exact (vector f c label v). Qed.
Print Assumptions C108_vector.
Theorem C108_vector_calls label label' v v' : vector_calls label v = vector_calls label' v' -> v = v' /\ (v <> [] -> label = label').
Proof. apply vector_calls_inj. Qed.
Print Assumptions C108_vector_calls.

(** Reversal in the place of the permutation: changing the last witness changes the
    inputs although label, entropy and transcript are the same. *)
Example C108_example :
  match run (@rev Z) [9] [Append [1] [2]] with
  | Ret (_, c) =>
      match drawing (@rev Z) c (numbered [1] [[2]; [3]; [4]]) (repeat 6 32) 4, drawing (@rev Z) c (numbered [1] [[2]; [3]; [5]]) (repeat 6 32) 4 with
      | Ret (d, r), Ret (d', r') => List.length d = 4%nat /\ List.length d' = 4%nat /\ log (rctx r) <> log (rctx r')
      | _, _ => False
      end
  | _ => False
  end.
Proof. vm_compute. split; [reflexivity|split; [reflexivity|discriminate]]. Qed.
(** With ys the positions go on; a pair of vectors counts as one of twice the length. *)
Example C108_numbered : numbered [7] ([[2]; [3]] ++ [[4]; [5]]) =
  [([7], [2]); (le_bytes 8 1, [3]); (le_bytes 8 2, [4]); (le_bytes 8 3, [5])] /\
  vector_calls [7] [[2]; [3]] = [Append [7] [2]; Append [] [3]].
Proof. split; reflexivity. Qed.
