(** Property C85: is the plaintext of a decryption proof the decryption of the
    ciphertext? *)
From Coq Require Import String.
From Coq Require Import ZArith Znumtheory List Bool Lia Ring.
From Verif Require Import NumTheory Outcome Fp FSum GroupMod Ring Prime25519 ConstraintsModel ConstraintsSpec BulletproofModel FourSquaresModel FourSquaresSpec
  AlgebraModel AlgebraSpec AlgebraProofs TernaryModel TernarySpec RegevModel RegevSpec RegevPfModel RegevPfSpec RegevStSpec RegevPfSml CountSpec StepSpec StepSound StepToy
  ProgressSpec ProgressBase ProgressDec ProgressAll WrongSpec WrongProofs PropFourSquares PropRegev PropRegevSt PropStep.
Import ListNotations.
Open Scope Z_scope.
Open Scope string_scope.

(** The noisy plaintext that decryption decodes: sum_k ctMat[k][i]*sk[k] - ctVec[i]. *)
Definition noisy {p ell} (ctMat : mat (elt p ell)) (ctVec : list (elt p ell)) (k : nat) (sk : nat -> elt p ell) (i : nat) : elt p ell :=
  esub (sumE k (fun j => emul (mget e0 ctMat j i) (sk j))) (nth i ctVec e0).

Section N.
Context {p : Z} {ell : nat}.
Hypothesis He : (0 < ell)%nat.
Add Ring NE : (elt_ring (p := p) He).
Lemma noisy_neg (g a b : elt p ell) : eopp (eadd g (esub (esub a b) g)) = esub b a.
Proof. ring. Qed.
Lemma esub_one (g x : elt p ell) (a : Fp p) : esub (esub x (escale a g)) g = esub x (escale (a + 1)%F g).
Proof. rewrite escale_add_l, escale_1. ring. Qed.
End N.
Section N1.
Context {p : Z}.
Add Ring NF : (@Fp_ring p).
Lemma succ_ne (a : Fp p) : 2 <= p -> (a + 1)%F <> a.
Proof.
  intros Hp H. assert (Q : toF p 1 = toF p 0). { transitivity ((a + 1) - a)%F; [change (toF p 1) with (1%F : Fp p); ring|rewrite H; change (toF p 0) with (0%F : Fp p); ring]. }
  apply toF_eq_iff in Q. rewrite !Z.mod_small in Q by lia. discriminate.
Qed.
End N1.
(** Noise within B is decoded if 4B is below Delta^(ell-1) and 2(1+Delta)B below p. *)
Lemma decode_within p ell bits (old : elt p ell) x (e : elt p ell) B (He : (0 < ell)%nat) :
  let D := 2 ^ (bits / Z.of_nat ell) in
  2 <= p -> (2 <= ell)%nat -> Z.of_nat ell <= bits -> D < p -> 0 <= B ->
  (forall k z, (k < ell)%nat -> is_balanced (coeff e k) z -> Z.abs z <= B) -> 2 * B < D ^ (Z.of_nat ell - 1) -> 2 * ((1 + D) * B) < p ->
  decodePtxt bits old (eopp (eadd (escale x (gadget D)) e)) = Ret (x, e).
Proof.
  intros D Hp H2 Hb HD HB Hw H3 H4.
  assert (Q : e = of_ints (fun k => balanced (coeff e k))).
  { apply coeff_ext. intros k Hk. unfold of_ints. rewrite coeff_mkE. destruct (Nat.ltb_spec k ell); [|lia]. symmetry. apply (balanced_spec Hp). }
  assert (W : forall k, (k < ell)%nat -> - B <= balanced (coeff e k) <= B).
  { intros k Hk. pose proof (Hw k _ Hk (balanced_spec Hp _)). lia. }
  assert (D0 : 0 < D) by (unfold D; apply Z.pow_pos_nonneg; [lia|apply Z.div_pos; lia]).
  rewrite Q at 1. replace (Ret (x, e)) with (Ret (x, of_ints (fun k => balanced (coeff e k)) : elt p ell)) by now rewrite <- Q. apply C40_decode; try assumption.
  - intros i Hi. pose proof (W i ltac:(lia)). pose proof (W (S i) ltac:(lia)). nia.
  - pose proof (W (ell - 1)%nat ltac:(lia)). fold D. lia.
Qed.

(** ** The part that holds: if the bound on the noise is small enough *)
(** Every assignment that satisfies the constraints of the decryption and the
    smallness step carries the decrypted values (under the key it carries),
    unless the challenges were lucky. *)
Theorem C85_partial {p ell} {G : gmod p} (R : rmerlin G) (c : cfg ell G) st st1 rnd ctMat ctVec ptxt skey noise st2 st3 ys rs bits :
  let D := 2 ^ (bits / Z.of_nat ell) in
  (2 <= ell)%nat -> Z.of_nat ell <= bits -> D < p -> cg c = gadget D ->
  wf_cfg c -> byte_transcript R -> exact_transcript R -> jacobi_ok (cjac c) -> prime_test_sound (cpp c) -> wf_state c st ->
  Nat.divide 4 (Jl c ell) -> Nat.divide 4 (LINYDIM c / ell) ->
  dec_dims c ctMat ctVec ptxt skey noise -> norm_fresh c st 0 DCompHi DPadHi -> norm_fresh c st 1 DCompLo DPadLo ->
  proveDecryption R c st rnd ctMat ctVec ptxt skey noise = Ret st1 ->
  (forall t, length (ys t) = (LINYDIM c / ell)%nat) -> proveSmallness R c st2 ys rs = Ret st3 ->
  exists hib f x f' x', hiBound c (B_dNoise c) (kk c) = Ret hib /\ dec_challenges c st st1 f x /\ sml_challenges c st2 st3 f' x' /\
    let B := loBound c + radix c * hib in
    (no_wrap c [hib; loBound c] -> 0 <= B -> 4 * B < D ^ (Z.of_nat ell - 1) -> 4 * ((1 + D) * B) < p -> forall w,
     block_sat (ell := ell) (plin st1) dLin w -> norm_sat st1 0 w -> norm_sat st1 1 w -> block_sat (ell := ell) (plin st3) (smlnsLin (ell := ell)) w ->
     (forall i old, (i < Tee c)%nat ->
        decodePtxt bits old (noisy ctMat ctVec (Kay c) (readV w (pidx st Sk1)) i) = Ret (w (pidx st Pt1 + Z.of_nat i), dec_noise c st ctMat ctVec w i)) \/
     lucky_left (ell := ell) B (Tee c) (Jl c ell) (dec_noise c st ctMat ctVec w) nomask
       (fst (rm_bytes R (m_point R (pmer st) "RegevDecPtxt" (pcom st1 Pt1)) "RegevDecX" (ell * ((Tee c * Jl c ell + 3) / 4))%nat)) \/
     vanishes (Jl c ell) (fun j => esub (esub (two_dig (ell := ell) c w (pidx st DCompLo) (pidx st DCompHi) j) e0)
       (sumE (Tee c) (fun i => emul (dec_noise c st ctMat ctVec w i) (Xent f i j)))) x \/
     sml_escape c st2 st3 f' x' w).
Proof.
  intros D H2 Hb HD Hg Hc Hby Hx Hj Hpp Hs H4 H4' Hd N0 N1 H Hy Hsm.
  destruct (C83_decryption R c st st1 rnd ctMat ctVec ptxt skey noise st2 st3 ys rs Hc Hby Hx Hj Hpp Hs H4 H4' Hd N0 N1 H Hy Hsm) as (hib & f & x & f' & x' & E1 & E2 & E3 & M).
  exists hib, f, x, f', x'. split; [exact E1|]. split; [exact E2|]. split; [exact E3|]. cbv zeta. intros NW HB B1 B2 w S0 S1 S2 S3.
  destruct (M NW w S0 S1 S2 S3) as [[W|[L|V]]|Q]; [left|right; left; exact L|right; right; left; exact V|right; right; right; exact Q].
  intros i old Hi. assert (Hp : 2 <= p) by (pose proof Hc as (_ & _ & _ & _ & _ & _ & _ & _ & _ & Q & _); lia).
  assert (He : (0 < ell)%nat) by lia.
  replace (noisy ctMat ctVec (Kay c) (readV w (pidx st Sk1)) i) with
    (eopp (eadd (escale (w (pidx st Pt1 + Z.of_nat i)) (gadget D)) (dec_noise c st ctMat ctVec w i))).
  2:{ unfold noisy, dec_noise. rewrite Hg. apply noisy_neg. exact He. }
  apply (decode_within p ell bits old _ _ (2 * (loBound c + radix c * hib)) He Hp H2 Hb HD); fold D; try lia.
  intros k z Hk Hz. exact (W i k z Hi Hk Hz).
Qed.
Print Assumptions C85_partial.

(** ** The part that does not *)
(** An honest decryption of a to noise e; the same ciphertext "decrypts" to a+1
    with noise e-g.  If the matrix drawn after the commitment to a+1 has a first
    row of weight W with W*(1+Delta^2) <= S^2, the honest noise compresses to norm
    at most B1, and B1+S <= B_dNoise, then the step succeeds for a+1, and records a
    witness that satisfies all its constraints. *)
Theorem C85_wrong {p} {G : gmod p} (R : rmerlin G) (c : cfg 2 G) st rnd ctMat ctVec a pts skey e es bits X m f B1 S :
  let D := 2 ^ (bits / 2) in
  prime p -> 2 <= bits -> D < p -> cg c = gadget D ->
  wf_cfg c -> good_libs R c -> jl_sqrt c -> room c st -> wf_state c st -> Nat.divide 4 (JLDIM c / 2) ->
  Z.of_nat (JLDIM c) <= 4 * ((Z.sqrt_up (kk c) - 1) * (Z.sqrt_up (kk c) - 1)) -> 1 <= Z.sqrt_up (kk c) ->
  norm_fresh c st 0 DCompHi DPadHi -> norm_fresh c st 1 DCompLo DPadLo ->
  dec_dims c ctMat ctVec (a :: pts) skey (e :: es) -> decrypts c ctMat ctVec (a :: pts) skey (e :: es) ->
  (forall k z, (k < 2)%nat -> is_balanced (coeff e k) z -> 2 * Z.abs z < D /\ 2 * ((1 + D) * Z.abs z) < p) ->
  ternaryE (ell := 2) R (m_point R (pmer st) "RegevDecPtxt" (com_point c (pidx st Pt1) ((a + 1)%F :: pts) (rnd Pt1))) "RegevDecX" (Tee c) (JLDIM c / 2) = Ret (X, m) ->
  is_temat 2 X (Tee c) (JLDIM c / 2) f ->
  0 <= B1 -> 0 <= S -> fits c B1 (compL (Tee c) (e :: es) f) -> row_weight (JLDIM c / 2) f * (1 + D * D) <= S * S -> B1 + S <= B_dNoise c ->
  (forall old, decodePtxt bits old (noisy ctMat ctVec (Kay c) (fun k => nth k skey e0) 0) = Ret (a, e)) /\
  (a + 1)%F <> a /\
  exists st' hib, proveDecryption R c st rnd ctMat ctVec ((a + 1)%F :: pts) skey (esub e (gadget D) :: es) = Ret st' /\
    hiBound c (B_dNoise c) (kk c) = Ret hib /\
    block_sat (ell := 2) (plin st') dLin (coef (plinW st')) /\
    norm_done c st' 0 hib DCompHi DPadHi /\ norm_done c st' 1 (loBound c) DCompLo DPadLo.
Proof.
  intros D Hp Hb HD Hg Hc Hl Hsq Hr Hs H4 HJ H1 N0 N1 Hd Hdec Hsm EX Hf HB1 HS Hfit Hw HBS.
  pose proof (prime_ge_2 p Hp) as Hp2. pose proof Hd as (D1 & D2 & D3 & D4 & D5). assert (Ht : 0 < tee (cgk c)) by apply Hc.
  split; [|split].
  - intros old. specialize (Hdec 0%nat ltac:(lia)). cbn [nth] in Hdec.
    replace (noisy ctMat ctVec (Kay c) (fun k => nth k skey e0) 0) with (eopp (eadd (escale a (gadget D)) e)).
    2:{ rewrite Hdec, Hg. unfold noisy. apply noisy_neg. lia. }
    set (B := Z.max (Z.abs (balanced (coeff e 0))) (Z.abs (balanced (coeff e 1)))).
    destruct (Hsm 0%nat _ ltac:(lia) (balanced_spec Hp2 (coeff e 0))) as [A1 A2].
    destruct (Hsm 1%nat _ ltac:(lia) (balanced_spec Hp2 (coeff e 1))) as [A3 A4].
    change D with (2 ^ (bits / Z.of_nat 2)). apply (decode_within p 2 bits old a e B ltac:(lia) Hp2 ltac:(lia) ltac:(lia) HD); fold D; try (subst B; lia).
    + intros k z Hk Hz. rewrite <- (is_balanced_unique Hp2 _ _ _ (balanced_spec Hp2 _) Hz). subst B. destruct k as [|[|k]]; lia.
  - now apply succ_ne.
  - destruct (wrong_dec Hp R c Hc st rnd ctMat ctVec a pts skey e es D X m f B1 S Hl Hsq Hr H4 HJ H1 Hd EX Hf HB1 HS Hfit Hw HBS) as (st' & E1).
    assert (Hd' : dec_dims c ctMat ctVec ((a + 1)%F :: pts) skey (esub e (gadget D) :: es)) by (repeat split; try apply D1; assumption).
    destruct Hl as (Hby & Hx & Hj & Hpp).
    destruct (C47_norms R c st st' rnd _ _ _ _ _ Hc Hby Hs Hj Hpp Hd' E1 N0 N1) as (hib & Eh & Nd0 & Nd1).
    exists st', hib. split; [exact E1|]. split; [exact Eh|]. split; [|split; assumption].
    apply (C47_linear R c st st' rnd _ _ _ _ _ Hc Hby Hs Hj Hpp Hd' E1).
    intros [|i] Hi; [|exact (Hdec (Datatypes.S i) Hi)]. cbn [nth]. pose proof (Hdec 0%nat Hi) as Q. cbn [nth] in Q. rewrite Q, Hg. apply esub_one. lia.
Qed.
Print Assumptions C85_wrong.
(** With the code's modulus, Delta = 2^126, JLDIM = 256 and bound (31*2^125 is less
    than B_dNoise for every n, see DESIGN.md): it is enough that at most 225 of the
    256 digits in the first row are non-zero (each is with probability 1/2) and
    that the honest noise is compressed to a norm below 2^125 (it is 2^124.2 at
    most).  So the wrong plaintext is provable, except with small probability. *)
Theorem C85_code {G : gmod P25519} (R : rmerlin G) (c : cfg 2 G) st rnd ctMat ctVec a pts skey e es X m f :
  cg c = gadget (2 ^ 126) -> JLDIM c = 256%nat -> 31 * 2 ^ 125 <= B_dNoise c -> 81 <= kk c ->
  wf_cfg c -> good_libs R c -> jl_sqrt c -> room c st -> wf_state c st ->
  norm_fresh c st 0 DCompHi DPadHi -> norm_fresh c st 1 DCompLo DPadLo ->
  dec_dims c ctMat ctVec (a :: pts) skey (e :: es) -> decrypts c ctMat ctVec (a :: pts) skey (e :: es) ->
  (forall k z, (k < 2)%nat -> is_balanced (coeff e k) z -> Z.abs z < 2 ^ 125) ->
  ternaryE (ell := 2) R (m_point R (pmer st) "RegevDecPtxt" (com_point c (pidx st Pt1) ((a + 1)%F :: pts) (rnd Pt1))) "RegevDecX" (Tee c) 128 = Ret (X, m) ->
  is_temat 2 X (Tee c) 128 f -> row_weight 128 f <= 225 -> fits c (2 ^ 125 - 16) (compL (Tee c) (e :: es) f) ->
  (forall old, decodePtxt 252 old (noisy ctMat ctVec (Kay c) (fun k => nth k skey e0) 0) = Ret (a, e)) /\
  (a + 1)%F <> a /\
  exists st' hib, proveDecryption R c st rnd ctMat ctVec ((a + 1)%F :: pts) skey (esub e (gadget (2 ^ 126)) :: es) = Ret st' /\
    hiBound c (B_dNoise c) (kk c) = Ret hib /\
    block_sat (ell := 2) (plin st') dLin (coef (plinW st')) /\
    norm_done c st' 0 hib DCompHi DPadHi /\ norm_done c st' 1 (loBound c) DCompLo DPadLo.
Proof.
  intros Hg HJ HB Hkk Hc Hl Hsq Hr Hs N0 N1 Hd Hdec Hsm EX Hf Hw Hfit.
  assert (EJ : (JLDIM c / 2 = 128)%nat) by (rewrite HJ; reflexivity).
  assert (Hq : 9 <= Z.sqrt_up (kk c)) by (change 9 with (Z.sqrt_up 81); apply Z.sqrt_up_le_mono; exact Hkk).
  apply (C85_wrong R c st rnd ctMat ctVec a pts skey e es 252 X m f (2 ^ 125 - 16) (15 * (2 ^ 126 + 1)));
    rewrite ?EJ; change (252 / 2) with 126; try assumption.
  - exact P25519_is_prime.
  - lia.
  - reflexivity.
  - exists 32%nat. reflexivity.
  - rewrite HJ. change (Z.of_nat 256) with 256. nia.
  - lia.
  - intros k z Hk Hz. pose proof (Hsm k z Hk Hz). unfold P25519. lia.
  - lia.
  - lia.
  - lia.
  - lia.
Qed.
Print Assumptions C85_code.

(** ** A closed instance *)
(** kappa = 8, Delta = 2^10, the ratio of the code's bound to Delta/2 (31), radix 64;
    vC is the same with a bound that is small enough for C85_partial. *)
Definition wCfg (r B : Z) : cfg 2 GQ :=
  Cfg PQ 2%nat GQ 8%nat 8%nat 4 jac_ex pp_ex sp_ex (fq 3) (GK 8 4 1 2 3 2 qA qB) (gadget 1024) (cHm qC) (cGs qC) (cHs qC) r B 30 30 30 30 30 9000.
Definition wC : cfg 2 GQ := wCfg 64 (31 * 2 ^ 9).
Definition vC : cfg 2 GQ := wCfg 3 30.
Definition wIdx : var -> Z := match setIndexes 8 8 2 8 4 1 with Ret i => i | _ => fun _ => 0 end.
Definition wS : @pstate PQ 2 GQ qR :=
  PS wIdx (fun _ => gzero) (fun _ => fq 0) (repeat (emptyLin) 15) (repeat emptyQuad 10) [] [] [] (repeat e0 60) [] (1 : mst qR).
Definition w_sk := (q_sk ++ q_sk)%list.
Definition w_ctMat : mat (elt PQ 2) := Mat (map (fun i => [q2 (33 + i) (44 - 5 * i)]) [0; 1; 2; 3; 4; 5; 6; 7]) 1.
Definition w_e := q2 2 (-1).
Definition w_ctVec := [eadd (eadd (sumE 8 (fun k => emul (mget e0 w_ctMat k 0) (nth k w_sk e0))) w_e) (escale (fq 4) (gadget 1024))].
Definition w_ys (_ : nat) : list (elt PQ 2) := [q2 3 4; q2 5 6; q2 0 1; q2 2 2].
Definition w_rs (_ : nat) : Fp PQ := fq 5.
Lemma w_cfg r B : 2 <= r < PQ -> wf_cfg (wCfg r B).
Proof. intros H. repeat split; cbn; try lia; try (vm_compute; reflexivity); try (vm_compute; discriminate); [exists 2%nat; lia|exists 4%nat; lia|exists 4%nat; lia]. Qed.
Lemma w_libs r B : good_libs qR (wCfg r B).
Proof. split; [exact q_bytes|]; split; [exact q_exact|]; split; [exact jac_ex_ok|exact pp_ex_sound]. Qed.
Lemma w_layout r B : layout_of (wCfg r B) (pidx wS).
Proof. apply layout_set. vm_compute. reflexivity. Qed.
Lemma w_room r B : room (wCfg r B) wS.
Proof. split; [apply w_layout|]. repeat split; try (vm_compute; reflexivity); apply Nat.leb_le; vm_compute; reflexivity. Qed.
Lemma w_state r B : wf_state (wCfg r B) wS.
Proof.
  split; [apply w_layout|]. repeat split; try exact I.
  - apply Forall_forall. intros c Hc. apply repeat_spec in Hc as ->. exact I.
  - apply Forall_forall. intros c Hc. apply repeat_spec in Hc as ->. exact I.
Qed.
Lemma w_fresh r B i x y : (i < 10)%nat -> norm_fresh (wCfg r B) wS i x y.
Proof. intros H. exists emptyQuad. split; [cbn [wS pnorm]; now apply nth_error_repeat|]. intros k []. Qed.
Lemma w_dims r B a e : dec_dims (wCfg r B) w_ctMat w_ctVec [a] w_sk [e].
Proof. repeat split; repeat constructor. Qed.
Lemma w_nowrap r B bs : Forall (fun b => 0 <= b < 1000) bs -> no_wrap (wCfg r B) bs.
Proof.
  intros H. split; [vm_compute; discriminate|]. split; [vm_compute; reflexivity|]. eapply Forall_impl; [|exact H].
  cbv beta. intros b Hb. unfold PQ. nia.
Qed.
Lemma w_noise k z : (k < 2)%nat -> is_balanced (coeff w_e k) z -> Z.abs z <= 2.
Proof.
  intros Hk Hz. assert (Hp : 2 <= PQ) by (unfold PQ; lia). rewrite <- (is_balanced_unique Hp _ _ _ (balanced_spec Hp _) Hz).
  destruct k as [|[|k]]; [vm_compute; discriminate..|lia].
Qed.

Lemma w_decodes old : decodePtxt 20 old (noisy w_ctMat w_ctVec 8 (fun k => nth k w_sk e0) 0) = Ret (fq 4, w_e).
Proof.
  replace (noisy w_ctMat w_ctVec 8 (fun k => nth k w_sk e0) 0) with (eopp (eadd (escale (fq 4) (gadget (2 ^ (20 / Z.of_nat 2)))) w_e)).
  - refine (decode_within PQ 2 20 old (fq 4) w_e 2 _ _ _ _ _ _ w_noise _ _).
    + apply Nat.ltb_lt. reflexivity.
    + apply Z.leb_le. reflexivity.
    + apply le_n.
    + apply Z.leb_le. reflexivity.
    + apply Z.ltb_lt. reflexivity.
    + apply Z.leb_le. reflexivity.
    + apply Z.ltb_lt. reflexivity.
    + apply Z.ltb_lt. reflexivity.
  - apply coeff_ext. intros i Hi. apply feqb_eq. destruct i as [|[|i]]; [vm_compute; reflexivity..|exfalso; revert Hi; clear; lia].
Qed.

(** Two runs for the same ciphertext, key and randomness, both of which record a
    witness that satisfies all constraints: one for what the ciphertext decrypts to, the
    other for that plus one. *)
Theorem C85_refuted : exists s1 s1' s2 s2' : @pstate PQ 2 GQ qR,
  wf_cfg wC /\ good_libs qR wC /\ wf_state wC wS /\ room wC wS /\ cg wC = gadget (2 ^ (20 / Z.of_nat 2)) /\
  B_dNoise wC = 31 * (2 ^ (20 / Z.of_nat 2) / 2) /\ hiBound wC (B_dNoise wC) (kk wC) = Ret 252 /\ loBound wC = 256 /\ no_wrap wC [252; 256] /\
  (forall old, decodePtxt 20 old (noisy w_ctMat w_ctVec (Kay wC) (fun k => nth k w_sk e0) 0) = Ret (fq 4, w_e)) /\
  proveDecryption qR wC wS qRnd w_ctMat w_ctVec [fq 4] w_sk [w_e] = Ret s1 /\ proveSmallness qR wC s1 w_ys w_rs = Ret s1' /\
  proveDecryption qR wC wS qRnd w_ctMat w_ctVec [fq 5] w_sk [esub w_e (gadget 1024)] = Ret s2 /\ proveSmallness qR wC s2 w_ys w_rs = Ret s2' /\
  (forall s s' a, In (s, s', a) [(s1, s1', fq 4); (s2, s2', fq 5)] ->
    block_sat (ell := 2) (plin s) dLin (coef (plinW s')) /\ norm_sat s 0 (coef (plinW s')) /\ norm_sat s 1 (coef (plinW s')) /\
    block_sat (ell := 2) (plin s') (smlnsLin (ell := 2)) (coef (plinW s')) /\
    coef (plinW s') (pidx wS Pt1) = a /\ (forall k, (k < 8)%nat -> readV (coef (plinW s')) (pidx wS Sk1) k = nth k w_sk e0)) /\
  fq 5 <> fq 4.
Proof.
  assert (L1 : (dLin <= 13)%nat) by (apply Nat.leb_le; reflexivity). assert (L2 : (smlnsLin (ell := 2) <= 13)%nat) by (apply Nat.leb_le; reflexivity).
  assert (L3 : (0 < 10)%nat) by lia. assert (L4 : (1 < 10)%nat) by lia.
  set (chk := fun (a : Fp PQ) (s s' : @pstate PQ 2 GQ qR) => q_ok s s' && feqb (coef (plinW s') (pidx wS Pt1)) a &&
    forallb (fun k => forallb (fun i => feqb (coeff (readV (coef (plinW s')) (pidx wS Sk1) k : elt PQ 2) i) (coeff (nth k w_sk e0) i)) [0; 1]%nat) (seq 0 8)).
  assert (CS : forall a s s', chk a s s' = true -> q_ok s s' = true /\ coef (plinW s') (pidx wS Pt1) = a /\
    (forall k, (k < 8)%nat -> readV (coef (plinW s')) (pidx wS Sk1) k = nth k w_sk e0)).
  { subst chk. cbv beta. intros a s s' H. apply andb_prop in H as [H H3]. apply andb_prop in H as [H1 H2]. split; [exact H1|].
    split; [now apply feqb_eq|]. intros k Hk. rewrite forallb_forall in H3. specialize (H3 k ltac:(apply in_seq; lia)).
    rewrite forallb_forall in H3. apply coeff_ext. intros i Hi. apply feqb_eq. apply H3. destruct i as [|[|i]]; cbn; auto; lia. }
  destruct (run3_ok (proveDecryption qR wC wS qRnd w_ctMat w_ctVec [fq 4] w_sk [w_e]) (fun s => proveSmallness qR wC s w_ys w_rs) (chk (fq 4)))
    as (s1 & s1' & A1 & A2 & A3); [vm_compute; reflexivity|].
  destruct (run3_ok (proveDecryption qR wC wS qRnd w_ctMat w_ctVec [fq 5] w_sk [esub w_e (gadget 1024)]) (fun s => proveSmallness qR wC s w_ys w_rs) (chk (fq 5)))
    as (s2 & s2' & B1 & B2 & B3); [vm_compute; reflexivity|].
  exists s1, s1', s2, s2'. split; [apply w_cfg; unfold PQ; lia|]. split; [apply w_libs|]. split; [apply w_state|]. split; [apply w_room|].
  split; [reflexivity|]. split; [reflexivity|]. split; [vm_compute; reflexivity|]. split; [vm_compute; reflexivity|]. split; [apply w_nowrap; repeat constructor; lia|].
  split.
  { exact w_decodes. }
  split; [exact A1|]. split; [exact A2|]. split; [exact B1|]. split; [exact B2|]. split.
  - apply CS in A3 as (A3 & A4 & A5). apply CS in B3 as (B3 & B4 & B5).
    intros s s' a [H|[H|[]]]; injection H as <- <- <-.
    + destruct (q_ok_sound _ _ A3) as [X Y]. split; [exact (proj1 (X _ L1))|]. split; [exact (Y _ L3)|]. split; [exact (Y _ L4)|]. split; [exact (proj2 (X _ L2))|]. split; assumption.
    + destruct (q_ok_sound _ _ B3) as [X Y]. split; [exact (proj1 (X _ L1))|]. split; [exact (Y _ L3)|]. split; [exact (Y _ L4)|]. split; [exact (proj2 (X _ L2))|]. split; assumption.
  - intros H. apply (f_equal (@fval PQ)) in H. discriminate.
Qed.
Print Assumptions C85_refuted.

(** The hypotheses of C85_partial (with a small bound) and of C85_wrong. *)
Example C85_partial_example : exists s1 s1',
  wf_cfg vC /\ good_libs qR vC /\ wf_state vC wS /\ Nat.divide 4 (Jl vC 2) /\ Nat.divide 4 (LINYDIM vC / 2) /\ cg vC = gadget (2 ^ (20 / Z.of_nat 2)) /\
  dec_dims vC w_ctMat w_ctVec [fq 4] w_sk [w_e] /\ norm_fresh vC wS 0 DCompHi DPadHi /\ norm_fresh vC wS 1 DCompLo DPadLo /\
  proveDecryption qR vC wS qRnd w_ctMat w_ctVec [fq 4] w_sk [w_e] = Ret s1 /\ proveSmallness qR vC s1 w_ys w_rs = Ret s1' /\
  hiBound vC (B_dNoise vC) (kk vC) = Ret 14 /\ loBound vC = 12 /\ no_wrap vC [14; 12] /\ 4 * (12 + 3 * 14) < 2 ^ 10 /\ 4 * ((1 + 2 ^ 10) * (12 + 3 * 14)) < PQ /\
  block_sat (ell := 2) (plin s1) dLin (coef (plinW s1')) /\ norm_sat s1 0 (coef (plinW s1')) /\ norm_sat s1 1 (coef (plinW s1')) /\
  block_sat (ell := 2) (plin s1') (smlnsLin (ell := 2)) (coef (plinW s1')).
Proof.
  assert (L1 : (dLin <= 13)%nat) by (apply Nat.leb_le; reflexivity). assert (L2 : (smlnsLin (ell := 2) <= 13)%nat) by (apply Nat.leb_le; reflexivity).
  assert (L3 : (0 < 10)%nat) by lia. assert (L4 : (1 < 10)%nat) by lia.
  destruct (run3_ok (proveDecryption qR vC wS qRnd w_ctMat w_ctVec [fq 4] w_sk [w_e]) (fun s => proveSmallness qR vC s w_ys w_rs) q_ok)
    as (s1 & s1' & A1 & A2 & A3); [vm_compute; reflexivity|].
  exists s1, s1'. split; [apply w_cfg; unfold PQ; lia|]. split; [apply w_libs|]. split; [apply w_state|].
  split; [exists 1%nat; reflexivity|]. split; [exists 1%nat; reflexivity|]. split; [reflexivity|]. split; [apply w_dims|].
  split; [apply w_fresh; lia|]. split; [apply w_fresh; lia|]. split; [exact A1|]. split; [exact A2|].
  split; [vm_compute; reflexivity|]. split; [vm_compute; reflexivity|]. split; [apply w_nowrap; repeat constructor; lia|].
  split; [vm_compute; reflexivity|]. split; [vm_compute; reflexivity|].
  destruct (q_ok_sound _ _ A3) as [X Y]. split; [exact (proj1 (X _ L1))|]. split; [exact (Y _ L3)|]. split; [exact (Y _ L4)|]. exact (proj2 (X _ L2)).
Qed.
Definition w_m := m_point qR (pmer wS) "RegevDecPtxt" (com_point wC (pidx wS Pt1) [(fq 4 + 1)%F] (qRnd Pt1)).
Definition w_X : tematrix := match ternaryE (ell := 2) qR w_m "RegevDecX" (Tee wC) (JLDIM wC / 2) with Ret (X, _) => X | _ => [] end.
Definition w_f (k i j : nat) : Z :=
  match nth_error w_X k with Some M => match nth_error M i with Some r => match trow_get r j with Ret z => z | _ => 2 end | None => 2 end | None => 2 end.
Example C85_wrong_example : exists m,
  wf_cfg wC /\ good_libs qR wC /\ jl_sqrt wC /\ room wC wS /\ wf_state wC wS /\ Nat.divide 4 (JLDIM wC / 2) /\
  Z.of_nat (JLDIM wC) <= 4 * ((Z.sqrt_up (kk wC) - 1) * (Z.sqrt_up (kk wC) - 1)) /\
  norm_fresh wC wS 0 DCompHi DPadHi /\ norm_fresh wC wS 1 DCompLo DPadLo /\
  dec_dims wC w_ctMat w_ctVec [fq 4] w_sk [w_e] /\ decrypts wC w_ctMat w_ctVec [fq 4] w_sk [w_e] /\
  (forall k z, (k < 2)%nat -> is_balanced (coeff w_e k) z -> 2 * Z.abs z < 1024 /\ 2 * ((1 + 1024) * Z.abs z) < PQ) /\
  ternaryE (ell := 2) qR w_m "RegevDecX" (Tee wC) (JLDIM wC / 2) = Ret (w_X, m) /\ is_temat 2 w_X (Tee wC) (JLDIM wC / 2) w_f /\
  fits wC 100 (compL (Tee wC) [w_e] w_f) /\ row_weight (JLDIM wC / 2) w_f * (1 + 1024 * 1024) <= 2897 * 2897 /\ 100 + 2897 <= B_dNoise wC.
Proof.
  eexists. split; [apply w_cfg; unfold PQ; lia|]. split; [apply w_libs|]. split; [unfold jl_sqrt; cbn; lia|]. split; [apply w_room|]. split; [apply w_state|].
  split; [exists 1%nat; reflexivity|]. split; [vm_compute; discriminate|]. split; [apply w_fresh; lia|]. split; [apply w_fresh; lia|]. split; [apply w_dims|].
  split. { intros i Hi. assert (i = 0)%nat as -> by (cbn in Hi; lia). apply coeff_ext. intros k Hk. apply feqb_eq. destruct k as [|[|k]]; [vm_compute; reflexivity..|lia]. }
  split. { intros k z Hk Hz. pose proof (w_noise k z Hk Hz). unfold PQ. lia. }
  split; [unfold w_X; reflexivity|].
  split.
  { split; [vm_compute; reflexivity|]. intros k M HM.
    assert (K : (k < 2)%nat). { apply Nat.lt_le_trans with (length w_X); [apply nth_error_Some; congruence|vm_compute; auto]. }
    split.
    - assert (Q : match nth_error w_X k with Some M => tNumRows M = 1%nat /\ tNumCols M = 4%nat /\
        match nth_error M 0 with Some r => tlen r = 4%nat /\ forall j, (j < 4)%nat -> exists z, trow_get r j = Ret z | None => False end | None => False end).
      { destruct k as [|[|k]]; [..|lia]; (vm_compute; repeat split; intros [|[|[|[|j]]]] Hj; eauto; exfalso; revert Hj; clear; lia). }
      rewrite HM in Q. destruct Q as (Q1 & Q2 & Q3). split; [exact Q1|]. split; [exact Q2|]. intros i Hi. assert (i = 0)%nat as -> by (cbn in Hi; lia).
      unfold w_f. rewrite HM. destruct (nth_error M 0) as [r|] eqn:E; [|contradiction]. destruct Q3 as [Q3 Q4]. exists r. split; [reflexivity|]. split; [exact Q3|].
      intros j Hj. destruct (Q4 j Hj) as [z ->]. reflexivity.
    - intros i j Hi Hj. assert (i = 0)%nat as -> by (cbn in Hi; lia). change (JLDIM wC / 2)%nat with 4%nat in Hj.
      destruct k as [|[|k]]; [..|lia]; destruct j as [|[|[|[|j]]]]; try lia; vm_compute; auto. }
  split; [apply Z.leb_le; vm_compute; reflexivity|]. split; [apply Z.leb_le; vm_compute; reflexivity|vm_compute; discriminate].
Qed.
