(** Each proof step bounds its noise, except for lucky challenges. *)
From Coq Require Import String.
From Coq Require Import ZArith Znumtheory Lia List Bool Arith.
From Verif Require Import Outcome Fp FSum GroupMod Ring TernaryModel TernarySpec TernaryProofs
  AlgebraModel AlgebraSpec AlgebraProofs AlgebraMore ConstraintsModel ConstraintsSpec BulletproofModel RegevModel RegevPfModel RegevPfSpec RegevPfBase
  RegevStSpec CountSpec CountTernary StepSpec StepSound NormInt.
Import ListNotations.
Open Scope Z_scope.

Section G.
Context {p : Z} {ell : nat} {G : gmod p} {R : rmerlin G}.
Hypothesis Hp : 2 <= p.
Hypothesis He : (0 < ell)%nat.
Hypothesis Hb : byte_transcript R.
Hypothesis Hx : exact_transcript R.
Notation F := (Fp p).
Notation E := (elt p ell).
Add Ring SMe : (elt_ring (p := p) He).

Lemma compressed_mask cols rows x X (t n : nat -> E) : compressed_eq cols rows x X t n -> compressed_eq cols rows x X (fun j => esub (t j) (nomask j)) n.
Proof.
  unfold compressed_eq, nomask. intros H. etransitivity; [|exact H]. unfold sumE. apply esum_map_ext. intros j _. f_equal. ring.
Qed.
Lemma caught_left_intro m0 m1 label B n m (noise mask tgt : nat -> E) f (x : E) Ms : (0 < n)%nat -> Nat.divide 4 m -> 0 <= B ->
  ternaryE (ell := ell) R m0 label n m = Ret (Ms, m1) -> is_temat ell Ms n m f ->
  within B m tgt -> compressed_eq m n x (Xent f) (fun j => esub (tgt j) (mask j)) noise ->
  caught_left R m0 label B n m noise mask tgt f x.
Proof.
  intros Hn (q & ->) HB HT Hf Ht Heq. rewrite (Nat.mul_comm q 4) in *. destruct (challenge_bytes He m0 m1 label n q Ms f Hb Hx Hn HT Hf) as (B1 & B2 & B3).
  unfold caught_left. destruct (within_em Hp He (2 * B) n noise) as [W|W]; [now left|right].
  destruct (step_left Hp He B n q noise tgt mask f _ x Hn HB B1 B2 B3 Ht Heq) as [S|S]; [left; split; assumption|now right].
Qed.
Lemma caught_right_intro m0 m1 label B n m (noise mask tgt : nat -> E) f (x : E) Ms : (0 < m)%nat -> Nat.divide 4 n -> 0 <= B ->
  ternaryE (ell := ell) R m0 label m n = Ret (Ms, m1) -> is_temat ell Ms m n f ->
  within B m tgt -> compressed_eq m n x (fun i j => Xent f j i) (fun j => esub (tgt j) (mask j)) noise ->
  caught_right R m0 label B n m noise mask tgt f x.
Proof.
  intros Hn (q & ->) HB HT Hf Ht Heq. rewrite (Nat.mul_comm q 4) in *. destruct (challenge_bytes He m0 m1 label m q Ms f Hb Hx Hn HT Hf) as (B1 & B2 & B3).
  unfold caught_right. destruct (within_em Hp He (2 * B) (4 * q) noise) as [W|W]; [now left|right].
  destruct (step_right Hp He B m q noise tgt mask f _ x Hn HB B1 B2 B3 Ht Heq) as [S|S]; [left; split; assumption|now right].
Qed.
Lemma linf_within B (v : list E) n : lInftyNorm v <= B -> length v = n -> within B n (fun j => nth j v e0).
Proof.
  intros H L. apply (linf_le Hp He) in H. destruct H as [_ H]. apply (within_iff Hp). intros i k Hi Hk. apply H; [|assumption]. apply nth_In. lia.
Qed.
End G.

(** Smallness and the norm constraints bound the compressed vectors. *)
Section N.
Context {p : Z} {ell : nat} {G : gmod p} {R : rmerlin G}.
Variable c : cfg ell G.
Hypothesis Hc : wf_cfg c.
Notation JL := (Z.of_nat (JLDIM c)).
Notation small w := (scalars_within (2 * B_smallness c) (fun k => 0 <= k < 10 * (JL + 4)) w).
Lemma one_within (st : @pstate p ell G R) i b x xpad w bs : layout_of c (pidx st) -> is_comp x = true -> is_pad xpad = true ->
  norm_done c st i b x xpad -> norm_sat st i w -> no_wrap c bs -> In b bs -> small w -> within (ell := ell) b (JLDIM c / ell) (readV w (pidx st x)).
Proof.
  intros Hl Hx Hpad Hn Hs (H0 & H1 & H2) Hin HW. rewrite Forall_forall in H2. specialize (H2 b Hin).
  eapply (comp_readV c Hc); [assumption|]. apply (comp_bound c Hc st i b x xpad w (2 * B_smallness c)); try assumption; lia.
Qed.
Lemma two_within (st : @pstate p ell G R) i i' lo hi lob hib xl xpl xh xph w bs : layout_of c (pidx st) ->
  is_comp xl = true -> is_pad xpl = true -> is_comp xh = true -> is_pad xph = true ->
  norm_done c st i hi xh xph -> norm_done c st i' lo xl xpl -> norm_sat st i w -> norm_sat st i' w -> no_wrap c bs -> In lo bs -> In hi bs ->
  lob = pidx st xl -> hib = pidx st xh ->
  small w -> 0 <= lo + radix c * hi /\ within (lo + radix c * hi) (JLDIM c / ell) (two_dig (ell := ell) c w lob hib).
Proof.
  intros Hl A1 A2 A3 A4 N1 N2 S1 S2 HW I1 I2 -> -> Hs. pose proof (cfg_p c Hc) as Hp. pose proof (cfg_ell c Hc) as He.
  pose proof HW as (_ & _ & Hb). rewrite Forall_forall in Hb. pose proof (Hb _ I1). pose proof (Hb _ I2).
  assert (0 <= radix c) by (destruct Hc as (_ & _ & _ & _ & _ & _ & _ & _ & _ & _ & K); lia). split; [nia|].
  unfold two_dig. apply (within_digits Hp He _ hi (radix c) _ (readV w (pidx st xl)) (readV w (pidx st xh))); [assumption|lia| |]; [exact (one_within st _ _ _ _ w bs Hl A1 A2 N2 S2 HW I1 Hs)|exact (one_within st _ _ _ _ w bs Hl A3 A4 N1 S1 HW I2 Hs)].
Qed.
End N.
