(** Property C103: the transcript never forgets. *)
From Coq Require Import ZArith List Lia Bool.
From Verif Require Import Outcome Bytes KeccakModel KeccakProofs PermProofs MerlinModel MerlinSpec MerlinProofs MerlinMore StrobeProofs PropMerlin ForgetSpec ForgetProofs.
Import ListNotations.
Open Scope Z_scope.

(** Keccak-f as coded is one-to-one on states of 200 bytes. *)
Theorem C103_permutation : injective keccakf.
Proof. intros s t [Ls Bs] [Lt Bt]. now apply keccakf_inj. Qed.
Print Assumptions C103_permutation.

(** Two transcripts at the same place, given the same calls and giving the same challenges:
    they end at the same place, and if they end with the same state they began with it. *)
Theorem C103_history f calls c1 c2 outs c1' c2' : perm_ok f -> injective f -> Forall call_ok calls ->
  in_bounds c1 -> in_bounds c2 -> same_place c1 c2 ->
  exec f c1 calls = Ret (outs, c1') -> exec f c2 calls = Ret (outs, c2') ->
  same_place c1' c2' /\ (st c1' = st c2' -> st c1 = st c2).
Proof. intros Hf Hi. now apply exec_inj. Qed.
Print Assumptions C103_history.

(** Data that differ within one block of 166 bytes, whatever comes before and after. *)
Theorem C103_window f a u v b c c1 c2 : perm_ok f -> injective f ->
  bytes_ok a -> bytes_ok u -> bytes_ok v -> bytes_ok b -> length u = length v -> u <> v -> in_bounds c ->
  (pos c + Z.of_nat (length a)) mod 166 + Z.of_nat (length u) <= 166 ->
  absorb f c (a ++ u ++ b) = Ret c1 -> absorb f c (a ++ v ++ b) = Ret c2 ->
  same_place c1 c2 /\ st c1 <> st c2.
Proof. intros Hf Hi. now apply absorb_middle. Qed.
Print Assumptions C103_window.

(** One byte of one message changed: a challenge differs, or the final state does. *)
Theorem C103_byte label pre l a x y b post o c o' c' :
  bytes_ok label -> Forall call_ok pre -> Forall call_ok post -> bytes_ok l -> bytes_ok a -> bytes_ok b -> is_byte x -> is_byte y -> x <> y ->
  run keccakf label (pre ++ Append l (a ++ [x] ++ b) :: post) = Ret (o, c) ->
  run keccakf label (pre ++ Append l (a ++ [y] ++ b) :: post) = Ret (o', c') ->
  o <> o' \/ st c <> st c'.
Proof. exact (run_byte keccakf keccakf_perm_ok C103_permutation label pre l a x y b post o c o' c'). Qed.
Print Assumptions C103_byte.

(** A challenge after the changed byte, and more messages after it. *)
Example C103_example : let m z := Append [109] (repeat 5 200 ++ [z] ++ [8; 9]) in let pre := [Challenge [99] 64] in let post := [Challenge [100] 32; Append [110] [1]] in
  exists o c o' c', run keccakf [120] (pre ++ m 0 :: post) = Ret (o, c) /\ run keccakf [120] (pre ++ m 255 :: post) = Ret (o', c') /\ (o <> o' \/ st c <> st c').
Proof.
  intros m pre post. assert (B5 : bytes_ok (repeat 5 200)) by (apply Forall_forall; intros z Hz; apply repeat_spec in Hz; subst z; split; [discriminate|reflexivity]).
  assert (B : bytes_ok [120] /\ bytes_ok [99] /\ bytes_ok [100] /\ bytes_ok [109] /\ bytes_ok [110] /\ bytes_ok [1] /\ bytes_ok [8; 9]).
  { repeat split; repeat constructor; try discriminate. }
  destruct B as (b1 & b2 & b3 & b4 & b5 & b6 & b7).
  assert (Hpre : Forall call_ok pre) by (constructor; [exact b2|constructor]). assert (Hpost : Forall call_ok post) by (constructor; [exact b3|constructor; [split; [exact b5|exact b6]|constructor]]).
  assert (Hm : forall z, is_byte z -> Forall call_ok (pre ++ m z :: post)).
  { intros z Hz. apply Forall_app. split; [exact Hpre|]. constructor; [|exact Hpost]. split; [exact b4|]. apply Forall_app. split; [exact B5|]. constructor; [exact Hz|exact b7]. }
  assert (Z0 : is_byte 0) by (split; [discriminate|reflexivity]). assert (Z1 : is_byte 255) by (split; [discriminate|reflexivity]).
  destruct (C55_keccak_partial [120] _ b1 (Hm 0 Z0)) as (o & c & E & _). destruct (C55_keccak_partial [120] _ b1 (Hm 255 Z1)) as (o' & c' & E' & _).
  exists o, c, o', c'. split; [exact E|]. split; [exact E'|].
  exact (C103_byte [120] pre [109] (repeat 5 200) 0 255 [8; 9] post o c o' c' b1 Hpre Hpost b4 B5 b7 Z0 Z1 ltac:(discriminate) E E').
Qed.
(** Further apart than one block, an injective function is not enough: with the identity, the
    first byte and the one 166 places later fall on the same byte of the state. *)
Example C103_example_window : let u := 1 :: repeat 0 166 in let v := repeat 0 166 ++ [1] in let c := Strobe (repeat 0 200) 0 0 0 [] in
  perm_ok (fun s => s) /\ injective (fun s => s) /\ length u = length v /\ u <> v /\ in_bounds c /\
  exists c1 c2, absorb (fun s => s) c u = Ret c1 /\ absorb (fun s => s) c v = Ret c2 /\ st c1 = st c2.
Proof.
  split; [now intros s|]. split; [now intros s t|]. split; [reflexivity|]. split; [discriminate|]. split.
  { split; [split; [reflexivity|]|cbn; lia]. apply Forall_forall. intros z Hz. apply repeat_spec in Hz. subst z. split; [discriminate|reflexivity]. }
  eexists. eexists. split; [vm_compute; reflexivity|]. split; [vm_compute; reflexivity|]. reflexivity.
Qed.
