(** Proofs of wrong decryptions. *)
From Coq Require Import String.
From Coq Require Import ZArith Znumtheory List Bool Lia Ring.
From Verif Require Import Outcome Fp FSum GroupMod Ring ConstraintsModel ConstraintsSpec BulletproofModel FourSquaresSpec AlgebraModel AlgebraSpec AlgebraProofs
  TernaryModel TernarySpec TernaryProofs RegevModel RegevSpec RegevMore RegevPfModel RegevPfSpec RegevStSpec RegevPfState RegevPfSat CountTernary StepSpec StepSound
  ProgressSpec ProgressBase ProgressDec ProgressAll WrongSpec PropRegevSt.
Import ListNotations.
Open Scope Z_scope.

Section W.
Context {p : Z} {G : gmod p}.
Notation F := (Fp p).
Notation E := (elt p 2).
Hypothesis Hpr : prime p.
Let Hp : 2 <= p := prime_ge_2 p Hpr.
Add Ring WF : (@Fp_ring p).
Let He2 : (0 < 2)%nat := Nat.lt_0_succ 1.
Add Ring WE : (elt_ring (p := p) He2).

Lemma ints2 n (v : nat -> E) : ints n v = flat_map (fun j => [balanced (coeff (v j) 0); balanced (coeff (v j) 1)]) (seq 0 n).
Proof.
  unfold ints, coeffs_of, vec. generalize (seq 0 n). induction l as [|j l IH]; [reflexivity|]. cbn [map flat_map]. rewrite map_app. cbn [seq map app]. do 2 f_equal. exact IH.
Qed.
Definition g2 (D : Z) (f : nat -> nat -> nat -> Z) (j : nat) : list Z := [f 0%nat 0%nat j - D * f 1%nat 0%nat j; f 1%nat 0%nat j + D * f 0%nat 0%nat j].
Lemma g_weight D f n : sum_sq (flat_map (g2 D f) (seq 0 n)) = row_weight n f * (1 + D * D).
Proof.
  unfold row_weight. generalize (seq 0 n). induction l as [|j l IH]; [reflexivity|]. cbn [flat_map g2 app map fold_right]. rewrite !sq_cons. rewrite IH. ring.
Qed.
Lemma gX0 D f j : coeff (emul (gadget D) (Xent f 0 j) : E) 0 = toF p (f 0%nat 0%nat j - D * f 1%nat 0%nat j).
Proof.
  destruct (emul2 Hpr (gadget D) (Xent f 0 j : E)) as [-> _]. unfold gadget, Xent, ofdigits. rewrite !coeff_mkE. cbn [Nat.ltb Nat.leb]. 
  rewrite <- !toF_mul, <- toF_sub. f_equal. change (Z.of_nat 0) with 0. change (Z.of_nat 1) with 1. rewrite Z.pow_0_r, Z.pow_1_r. ring.
Qed.
Lemma gX1 D f j : coeff (emul (gadget D) (Xent f 0 j) : E) 1 = toF p (f 1%nat 0%nat j + D * f 0%nat 0%nat j).
Proof.
  destruct (emul2 Hpr (gadget D) (Xent f 0 j : E)) as [_ ->]. unfold gadget, Xent, ofdigits. rewrite !coeff_mkE. cbn [Nat.ltb Nat.leb]. 
  rewrite <- !toF_mul, <- toF_add. f_equal. change (Z.of_nat 0) with 0. change (Z.of_nat 1) with 1. rewrite Z.pow_0_r, Z.pow_1_r. ring.
Qed.
Lemma bal_sub (a b : F) z : toF p z = b -> balanced (a - b)%F * balanced (a - b)%F <= (balanced a - z) * (balanced a - z).
Proof.
  intros H. assert (Q : toF p (balanced a - z) = (a - b)%F).
  { rewrite toF_sub, H. f_equal. apply (balanced_spec Hp a). }
  pose proof (balanced_min Hp _ _ Q). nia.
Qed.
Lemma shift_sq D f (v : nat -> E) l :
  sum_sq (flat_map (fun j => [balanced (coeff (esub (v j) (emul (gadget D) (Xent f 0 j))) 0); balanced (coeff (esub (v j) (emul (gadget D) (Xent f 0 j))) 1)]) l) <=
  sum_sq (flat_map (fun j => [balanced (coeff (v j) 0); balanced (coeff (v j) 1)]) l) - 2 * dotZ (flat_map (fun j => [balanced (coeff (v j) 0); balanced (coeff (v j) 1)]) l) (flat_map (g2 D f) l)
   + sum_sq (flat_map (g2 D f) l).
Proof.
  induction l as [|j l IH]; [cbn; lia|]. cbn [flat_map g2 app dotZ]. rewrite !sq_cons.
  rewrite !coeff_esub. 
  pose proof (bal_sub (coeff (v j) 0) _ _ (eq_sym (gX0 D f j))). pose proof (bal_sub (coeff (v j) 1) _ _ (eq_sym (gX1 D f j))). 
  lia.
Qed.
Lemma dot_opp u v : dotZ u v * dotZ u v = - dotZ u v * - dotZ u v.
Proof. ring. Qed.
Lemma shift_norm D f (v : nat -> E) n A S : 0 <= A -> 0 <= S -> sum_sq (ints n v) <= A * A -> row_weight n f * (1 + D * D) <= S * S ->
  sum_sq (ints n (fun j => esub (v j) (emul (gadget D) (Xent f 0 j)))) <= (A + S) * (A + S).
Proof.
  intros HA HS H1 H2. rewrite ints2 in *. pose proof (shift_sq D f v (seq 0 n)) as H. rewrite g_weight in H.
  set (u := flat_map (fun j => [balanced (coeff (v j) 0); balanced (coeff (v j) 1)]) (seq 0 n)) in *.
  pose proof (cauchy u (flat_map (g2 D f) (seq 0 n))) as C. rewrite g_weight in C. set (d := dotZ _ _) in *.
  pose proof (sq_nonneg u). assert (0 <= row_weight n f * (1 + D * D)) by (rewrite <- g_weight; apply sq_nonneg).
  assert (- d <= A * S).
  { apply sq_le; [|nia]. replace (- d * - d) with (d * d) by ring. etransitivity; [exact C|]. replace (A * S * (A * S)) with ((A * A) * (S * S)) by ring.
    apply Z.mul_le_mono_nonneg; assumption. }
  lia.
Qed.

Variable R : rmerlin G.
Variable c : cfg 2 G.
Notation pstate := (@pstate p 2 G R).
Hypothesis Hc : wf_cfg c.

Lemma compL_shift n (e : E) (es : list E) D f j : (0 < n)%nat ->
  compL n (esub e (gadget D) :: es) f j = esub (compL n (e :: es) f j) (emul (gadget D) (Xent f 0 j)).
Proof.
  intros Hn. unfold compL, sumE. destruct n as [|n]; [lia|]. cbn [seq map esum].
  assert (Q : esum (map (fun i => emul (nth i (esub e (gadget D) :: es) e0) (Xent f i j)) (seq 1 n)) = esum (map (fun i => emul (nth i (e :: es) e0) (Xent f i j)) (seq 1 n))).
  { apply esum_map_ext. intros i Hi. apply in_seq in Hi. destruct i as [|i]; [lia|reflexivity]. }
  rewrite Q. change (nth 0 (esub e (gadget D) :: es) e0) with (esub e (gadget D)). change (nth 0 (e :: es) e0) with e. ring.
Qed.

Lemma wrong_dec (st : pstate) rnd ctMat ctVec a pts skey e es D X m f B1 S :
  good_libs R c -> jl_sqrt c -> room c st -> Nat.divide 4 (JLDIM c / 2) ->
  Z.of_nat (JLDIM c) <= 4 * ((Z.sqrt_up (kk c) - 1) * (Z.sqrt_up (kk c) - 1)) -> 1 <= Z.sqrt_up (kk c) ->
  dec_dims c ctMat ctVec (a :: pts) skey (e :: es) ->
  ternaryE (ell := 2) R (m_point R (pmer st) "RegevDecPtxt" (com_point c (pidx st Pt1) ((a + 1)%F :: pts) (rnd Pt1))) "RegevDecX" (Tee c) (JLDIM c / 2) = Ret (X, m) ->
  is_temat 2 X (Tee c) (JLDIM c / 2) f ->
  0 <= B1 -> 0 <= S -> fits c B1 (compL (Tee c) (e :: es) f) -> row_weight (JLDIM c / 2) f * (1 + D * D) <= S * S -> B1 + S <= B_dNoise c ->
  exists st', proveDecryption R c st rnd ctMat ctVec ((a + 1)%F :: pts) skey (esub e (gadget D) :: es) = Ret st'.
Proof.
  intros Hl Hs Hr H4 HJ H1 (D1 & D2 & D3 & D4 & D5) EX Hf HB HS Hfit Hw HBS.
  assert (Ht : 0 < tee (cgk c)) by apply Hc.
  destruct (dec_ret R c Hc Hl Hs st Hr rnd ctMat ctVec ((a + 1)%F :: pts) skey (esub e (gadget D) :: es) H4) as (X' & m' & f' & EX' & Hf' & C & _).
  { repeat split; try apply D1; assumption. }
  destruct C as (st' & C & _); [|now exists st'].
  unfold jl in EX', Hf'. rewrite EX in EX'. injection EX' as <- <-.
  assert (Ev : vec (JLDIM c / 2) (compL (Tee c) (esub e (gadget D) :: es) f') = vec (JLDIM c / 2) (compL (Tee c) (esub e (gadget D) :: es) f)).
  { pose proof (left_ok c Hc _ X _ _ f Hf (D5 : length (esub e (gadget D) :: es) = Tee c)) as A1.
    rewrite (left_ok c Hc _ X _ _ f' Hf' (D5 : length (esub e (gadget D) :: es) = Tee c)) in A1. exact (f_equal (fun o => match o with Ret v => v | _ => [] end) A1). }
  unfold hi_fits, ints. rewrite Ev. change (map balanced (coeffs_of (vec (JLDIM c / 2) (compL (Tee c) (esub e (gadget D) :: es) f)))) with (ints (JLDIM c / 2) (compL (Tee c) (esub e (gadget D) :: es) f)).
  apply (hi_of_norm c Hc (B_dNoise c) (kk c) _ ltac:(lia) HJ H1). unfold fits in *.
  assert (Ei : ints (JLDIM c / 2) (compL (Tee c) (esub e (gadget D) :: es) f) = ints (JLDIM c / 2) (fun j => esub (compL (Tee c) (e :: es) f j) (emul (gadget D) (Xent f 0 j)))).
  { unfold ints, vec. do 2 f_equal. apply map_ext. intros j. apply compL_shift. lia. }
  rewrite Ei. pose proof (shift_norm D f _ (JLDIM c / 2) B1 S HB HS Hfit Hw). nia.
Qed.
End W.
