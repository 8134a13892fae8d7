(** The free Z_p-module of rank k, used for counterexamples in which the
    generators must satisfy no linear relation. *)
From Coq Require Import ZArith Znumtheory List Lia Bool Ring.
From Verif Require Import Outcome Fp GroupMod FSum.
Import ListNotations.

Section Prod.
Context {p : Z}.
Variables A B : gmod p.
Program Definition prod_gmod : gmod p :=
  {| gcar := (gcar p A * gcar p B)%type;
     gzero := (gzero, gzero);
     gadd := fun a b => (gadd (fst a) (fst b), gadd (snd a) (snd b));
     gopp := fun a => (gopp (fst a), gopp (snd a));
     gmul := fun a c => (gmul (fst a) c, gmul (snd a) c);
     geqb := fun a b => geqb (fst a) (fst b) && geqb (snd a) (snd b) |}.
Next Obligation. cbn. f_equal; apply gadd_comm. Qed.
Next Obligation. cbn. f_equal; apply gadd_assoc. Qed.
Next Obligation. cbn. f_equal; apply gadd_0_l. Qed.
Next Obligation. cbn. f_equal; apply gopp_r. Qed.
Next Obligation. cbn. f_equal; apply gmul_add_r. Qed.
Next Obligation. cbn. f_equal; apply gmul_add_l. Qed.
Next Obligation. cbn. f_equal; apply gmul_mul. Qed.
Next Obligation. cbn. f_equal; apply gmul_1. Qed.
Next Obligation.
  cbn. rewrite andb_true_iff, !geqb_eq. split; [intros [-> ->]; reflexivity|].
  intros H; injection H; auto.
Qed.
End Prod.

Section Free.
Variable p : Z.
Notation F := (Fp p).
Program Definition unit_gmod : gmod p :=
  {| gcar := unit; gzero := tt; gadd := fun _ _ => tt; gopp := fun _ => tt;
     gmul := fun _ _ => tt; geqb := fun _ _ => true |}.
Next Obligation. now destruct a. Qed.
Next Obligation. now destruct g. Qed.
Next Obligation. split; [|reflexivity]. now destruct a, b. Qed.

Fixpoint free (k : nat) : gmod p :=
  match k with
  | O => unit_gmod
  | S k' => prod_gmod (Fp_gmod p) (free k')
  end.
(** its standard basis *)
Fixpoint basis (k : nat) : list (free k) :=
  match k return list (free k) with
  | O => []
  | S k' => ((@f1 p, gzero) : free (S k')) :: map (fun v => ((@f0 p, v) : free (S k'))) (basis k')
  end.
Add Ring FpRfree : (@Fp_ring p).

Definition indep {G : gmod p} (gs : list G) : Prop :=
  forall cs, length cs = length gs -> gdot gs cs = gzero -> Forall (fun c => c = 0%F) cs.

Lemma basis_length k : length (basis k) = k.
Proof.
  induction k as [|k IH]; [reflexivity|]. cbn [basis length]. f_equal.
  etransitivity; [apply map_length|exact IH].
Qed.

Lemma gdot_inj k (l : list (free k)) (cs : list F) :
  @gdot p (free (S k)) (map (fun v => ((@f0 p, v) : free (S k))) l) cs = (@f0 p, gdot l cs).
Proof.
  revert cs; induction l as [|v l IH]; intros [|c cs]; cbn; try reflexivity.
  rewrite IH. cbn. f_equal.
Qed.
Lemma basis_indep k : indep (basis k).
Proof.
  induction k as [|k IH]; intros cs Hl H.
  - destruct cs; [constructor|discriminate].
  - destruct cs as [|c cs]; [discriminate|]. cbn [basis] in H, Hl.
    cbn [gdot] in H. rewrite gdot_inj in H. cbn in H. apply pair_equal_spec in H. destruct H as [H1 H2].
    constructor.
    + rewrite <- H1. assert (E : forall c : F, c = (1 * c + 0)%F) by (intros; ring). apply E.
    + apply IH; [cbn [length] in Hl; injection Hl as Hl; rewrite Hl; apply map_length|].
      rewrite <- H2. rewrite gmul_0_l, gadd_0_l. reflexivity.
Qed.

Lemma indep_unique {G : gmod p} (gs : list G) cs cs' : indep gs ->
  length cs = length gs -> length cs' = length gs -> gdot gs cs = gdot gs cs' -> cs = cs'.
Proof.
  intros Hi H1 H2 H.
  assert (Hz : Forall (fun c => c = 0%F) (vadd cs (map (fun x => (x * - (1))%F) cs'))).
  { apply Hi.
    - rewrite vadd_length; [assumption|]. rewrite map_length. congruence.
    - rewrite gdot_vadd by (rewrite map_length; congruence). rewrite gdot_scale, H. gsolve. }
  clear H Hi. revert gs cs' H1 H2 Hz. induction cs as [|c cs IH]; intros [|g gs] [|c' cs'] H1 H2 Hz; cbn in *; try discriminate; [reflexivity|].
  inversion Hz as [|? ? E Hz']. f_equal.
  - apply (proj1 (fsub_eq_0 _ _)). rewrite <- E. ring.
  - apply (IH gs); try lia. exact Hz'.
Qed.
End Free.
