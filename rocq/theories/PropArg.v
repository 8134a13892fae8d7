(** Property C111: the command line of main. *)
From Coq Require Import ZArith List Bool Lia.
From Verif Require Import Outcome MainModel ArgModel ArgSpec ArgProofs.
Import ListNotations.
Open Scope Z_scope.

Theorem C111_stoi : forall s z, stoi s = Ret z <-> number_at s z /\ in_int z.
Proof. exact stoi_ret. Qed.
Print Assumptions C111_stoi.
(** The number of parties is the one asked for if it is in range; 512 for another
    int or without an argument.  Further arguments are ignored. *)
Theorem C111_parties : forall a rest z, number_at a z -> in_int z ->
  mainParties (a :: rest) = Ret (if (32 <=? z) && (z <=? 4096) then z else 512).
Proof.
  intros a rest z N I. unfold mainParties. rewrite (proj2 (stoi_ret a z) (conj N I)). cbn [obind]. f_equal. unfold parties.
  destruct (Z.ltb_spec z 32), (Z.ltb_spec 4096 z), (Z.leb_spec 32 z), (Z.leb_spec z 4096); cbn; lia.
Qed.
Print Assumptions C111_parties.
Theorem C111_default : mainParties [] = Ret 512.
Proof. reflexivity. Qed.
Print Assumptions C111_default.
(** It throws (and nobody catches) exactly when there is no number that is an int. *)
Theorem C111_throws : forall a rest, mainParties (a :: rest) = Throw <-> ~ exists z, number_at a z /\ in_int z.
Proof.
  intros a rest. unfold mainParties. split.
  - intros H [z Hz]. rewrite (proj2 (stoi_ret a z) Hz) in H. discriminate.
  - intros H. destruct (stoi_total a) as [->|[z E]]; [reflexivity|]. exfalso. apply H. exists z. now apply stoi_ret.
Qed.
Print Assumptions C111_throws.
Theorem C111_range : forall args, mainParties args = Throw \/ exists n, mainParties args = Ret n /\ 32 <= n <= 4096.
Proof.
  intros [|a rest]; [right; exists 512; split; [reflexivity|lia]|].
  destruct (stoi_total a) as [E|[z E]]; [left; unfold mainParties; now rewrite E|]. right. apply stoi_ret in E as [N I].
  rewrite (C111_parties a rest z N I). eexists. split; [reflexivity|]. destruct (Z.leb_spec 32 z), (Z.leb_spec z 4096); cbn; lia.
Qed.
Print Assumptions C111_range.

(* " +64x", then "-7", then "99999999999" and "x" *)
Example C111_example : number_at [32; 43; 54; 52; 120] 64 /\ mainParties [[32; 43; 54; 52; 120]] = Ret 64.
Proof.
  split; [|reflexivity]. exists [32], [43], [54; 52], [120]. split; [reflexivity|]. split; [repeat constructor|]. split; [discriminate|].
  split; [repeat constructor; discriminate|]. split; [|left; auto]. intros c l H. injection H as <- <-. unfold digit. lia.
Qed.
Example C111_example_other : mainParties [[45; 55]] = Ret 512 /\ mainParties [[57; 57; 57; 57; 57; 57; 57; 57; 57; 57; 57]] = Throw /\ mainParties [[120]] = Throw.
Proof. repeat split; reflexivity. Qed.
