(** Linear algebra over F_p: more than m vectors with m entries are linearly
    dependent. *)
From Coq Require Import ZArith Znumtheory List Lia Bool Field.
From Verif Require Import NumTheory Fp FSum.
Import ListNotations.
Local Open Scope fp_scope.

Section LinAlg.
Context {p : Z} (Hp : prime p).
Notation F := (Fp p).
Add Field FpFieldL : (Fp_field Hp).

(** Vectors are given by their entries as a function of the index. *)
Definition comb (cs : list F) (vs : list (nat -> F)) (j : nat) : F :=
  dot cs (map (fun v => v j) vs).

Lemma comb_mid cA cB c0 A B v0 j : length cA = length A ->
  comb (cA ++ c0 :: cB) (A ++ v0 :: B) j = c0 * v0 j + comb (cA ++ cB) (A ++ B) j.
Proof.
  intros H. unfold comb. rewrite !map_app. cbn [map].
  rewrite !dot_app by now rewrite map_length. cbn [dot]. ring.
Qed.
Lemma comb_reduce cs (vs : list (nat -> F)) (v0 : nat -> F) m j : v0 m <> 0 ->
  comb cs (map (fun w k => w k - w m / v0 m * v0 k) vs) j
  = comb cs vs j - comb cs vs m / v0 m * v0 j.
Proof.
  intros H. unfold comb. rewrite map_map.
  revert vs. induction cs as [|c cs IH]; intros [|w vs]; cbn [dot map]; try (field; assumption).
  rewrite IH. field. assumption.
Qed.

Lemma dependent (m : nat) : forall vs : list (nat -> F), (m < length vs)%nat ->
  exists cs, length cs = length vs /\ ~ pzero cs /\ forall j, (j < m)%nat -> comb cs vs j = 0.
Proof.
  induction m as [|m IH]; intros vs Hlen.
  - exists (repeat 1 (length vs)). split; [apply repeat_length|]. split; [|intros; lia].
    destruct vs; cbn in Hlen; [lia|]. cbn. intros H. apply Forall_inv in H.
    now apply (f1_neq_0 Hp) in H.
  - destruct (existsb (fun v => negb (feqb (v m) 0)) vs) eqn:E.
    + apply existsb_exists in E. destruct E as (v0 & Hin & Hv0).
      apply negb_true_iff, feqb_neq in Hv0.
      apply in_split in Hin. destruct Hin as (A & B & ->).
      rewrite app_length in Hlen. cbn [length] in Hlen.
      destruct (IH (map (fun w k => w k - w m / v0 m * v0 k) (A ++ B))) as (cs & Hl & Hz & Hc).
      { rewrite map_length, app_length. lia. }
      rewrite map_length, app_length in Hl.
      set (cA := firstn (length A) cs). set (cB := skipn (length A) cs).
      assert (HcA : length cA = length A) by (unfold cA; rewrite firstn_length; lia).
      assert (HcB : length cB = length B) by (unfold cB; rewrite skipn_length; lia).
      assert (Hcs : cs = cA ++ cB) by (unfold cA, cB; symmetry; apply firstn_skipn).
      exists (cA ++ (- (comb cs (A ++ B) m / v0 m)) :: cB). repeat split.
      * rewrite !app_length. cbn [length]. lia.
      * intros Hpz. apply Hz. rewrite Hcs. unfold pzero in *. rewrite Forall_app in Hpz |- *.
        destruct Hpz as [H1 H2]. split; [assumption|]. now apply Forall_inv_tail in H2.
      * intros j Hj. rewrite comb_mid by assumption. rewrite <- Hcs.
        destruct (Nat.eq_dec j m) as [->|Hne].
        -- field. assumption.
        -- assert (Hj' : (j < m)%nat) by lia. specialize (Hc j Hj').
           rewrite comb_reduce in Hc by assumption.
           apply (proj1 (fsub_eq_0 _ _)) in Hc. rewrite Hc at 1. field. assumption.
    + destruct (IH vs) as (cs & Hl & Hz & Hc); [lia|].
      exists cs. repeat split; try assumption. intros j Hj.
      destruct (Nat.eq_dec j m) as [->|Hne]; [|apply Hc; lia].
      unfold comb. replace (map (fun v => v m) vs) with (repeat (0 : F) (length vs)).
      * clear -Hp. generalize (length vs). induction cs as [|c cs IHc]; intros [|n]; cbn; try reflexivity.
        rewrite IHc. ring.
      * clear -Hp E. induction vs as [|v vs IHv]; [reflexivity|]. cbn in *.
        apply orb_false_iff in E. destruct E as [E1 E2].
        apply negb_false_iff, feqb_eq in E1. rewrite E1. f_equal. auto.
Qed.
End LinAlg.
