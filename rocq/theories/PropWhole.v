(** Property C92: what a complete proof shows. *)
From Coq Require Import String.
From Coq Require Import ZArith Znumtheory List Bool Lia.
From Verif Require Import NumTheory Outcome Fp FSum GroupMod Ring Prime25519 ConstraintsModel ConstraintsSpec ConstraintsMerge ConstraintsOther BulletproofModel AlgebraSpec
  FourSquaresModel FourSquaresSpec RegevModel ShamirSpec RegevPfModel RegevPfSpec RegevStSpec RegevAggModel RegevAggSpec RegevAggProofs RegevAggOpen RegevAggAccept RegevSoundSpec RegevAggSound RegevRunModel RegevRunSpec
  CountSpec StepSpec StepToy ProgressSpec ParamsModel ParamsSpec MainModel MainSpec MainProofs MainToy PropRegevAgg PropRegevSound PropParams PropMain WholeSpec WholeProofs.
Import ListNotations.
Open Scope Z_scope.
Notation b_of c h := (loBound c + radix c * h).

Section C92.
Context {p : Z} {ell : nat} {G : gmod p}.
Variable R : rmerlin G.
Notation pstate := (@pstate p ell G R).
Notation F := (Fp p).

(** Values of the committed variables that meet all constraints recorded by the five
    steps: what the proof is about is true of them, or a challenge was lucky. *)
Theorem C92_steps (c : cfg ell G) evs thr i (st st5 : pstate) : prime p -> good_setup R c evs thr -> exact_transcript R -> round_dims c i ->
  Nat.divide 4 (JLDIM c / ell) -> Nat.divide 4 (LINYDIM c / ell) -> Nat.divide 4 (Z.to_nat (kay (cgk c))) -> Nat.divide 4 (Z.to_nat (enn (cgk c))) ->
  fresh c st -> proofSteps R c st i = Ret st5 ->
  exists s1 s2 s3 s4 hd h1 h2 hk,
    proveDecryption R c st (i_rnd i) (i_ctMat i) (i_ctVec i) (i_pt1 i) (i_sk1 i) (i_dn i) = Ret s1 /\
    proveEncryption R c s1 (i_rnd i) (i_ct1 i) (i_ct2 i) (i_pt2 i) (i_er i) (i_n1 i) (i_n2 i) = Ret s2 /\
    proveKeyGen R c s2 (i_rnd i) (i_pk i) (i_sk2 i) (i_kn i) = Ret s3 /\
    proveReShare R c s3 (i_lag i) (i_pt1 i) (i_pt2 i) = Ret s4 /\
    proveSmallness R c s4 (i_ys i) (i_rs i) = Ret st5 /\
    hiBound c (B_dNoise c) (kk c) = Ret hd /\ hiBound c (B_eNoise1 c) (kk c) = Ret h1 /\ hiBound c (B_eNoise2 c) (nn c) = Ret h2 /\
    hiBound c (B_kNoise c) (kk c) = Ret hk /\
    (no_wrap c [hd; h1; h2; hk; loBound c; B_r c; B_sk c] -> forall w,
      Forall (fun con => lin_sat con w) (plin st5) -> Forall (fun q => quad_sat q w w) (pnorm st5) ->
      statement_holds c st i evs (Z.to_nat thr) (b_of c hd) (b_of c h1) (b_of c h2) (b_of c hk) w \/
      lucky_round c st s1 s2 s3 s4 st5 i (b_of c hd) (b_of c h1) (b_of c h2) (b_of c hk) w).
Proof. intros Hp Hs Hx Hd D1 D2 D3 D4. exact (steps_sound Hp c evs thr Hs Hx i Hd D1 D2 D3 D4 st st5). Qed.

(** The same for values g on the generators G and y on the generators H that only
    meet the two equations proved at the end.  (w: the value of the new variable.) *)
Theorem C92_aggregate (c : cfg ell G) evs thr i (st st5 st' : pstate) pick wRnd ap : prime p -> good_setup R c evs thr -> exact_transcript R -> round_dims c i ->
  Nat.divide 4 (JLDIM c / ell) -> Nat.divide 4 (LINYDIM c / ell) -> Nat.divide 4 (Z.to_nat (kay (cgk c))) -> Nat.divide 4 (Z.to_nat (enn (cgk c))) ->
  fresh c st -> proofSteps R c st i = Ret st5 ->
  queue_order pick -> wf_system st5 -> all_disjoint (pnorm st5) -> Forall (fun con => lterms con <> [] \/ leq con = 0%F) (plin st5) ->
  aggregateProver R c pick st5 wRnd = Ret (st', ap) ->
  exists s1 s2 s3 s4 hd h1 h2 hk,
    proveDecryption R c st (i_rnd i) (i_ctMat i) (i_ctVec i) (i_pt1 i) (i_sk1 i) (i_dn i) = Ret s1 /\
    proveEncryption R c s1 (i_rnd i) (i_ct1 i) (i_ct2 i) (i_pt2 i) (i_er i) (i_n1 i) (i_n2 i) = Ret s2 /\
    proveKeyGen R c s2 (i_rnd i) (i_pk i) (i_sk2 i) (i_kn i) = Ret s3 /\
    proveReShare R c s3 (i_lag i) (i_pt1 i) (i_pt2 i) = Ret s4 /\
    proveSmallness R c s4 (i_ys i) (i_rs i) = Ret st5 /\
    hiBound c (B_dNoise c) (kk c) = Ret hd /\ hiBound c (B_eNoise1 c) (kk c) = Ret h1 /\ hiBound c (B_eNoise2 c) (nn c) = Ret h2 /\
    hiBound c (B_kNoise c) (kk c) = Ret hk /\
    (no_wrap c [hd; h1; h2; hk; loBound c; B_r c; B_sk c] -> forall (g y : Z -> F) w,
      lin_sat (rlin (rv ap)) (lvalG st5 y w) ->
      quad_sat (rquad (rv ap)) (qvalG st5 (rv ap) g w) (qvalH st5 (rv ap) y) ->
      statement_holds c st i evs (Z.to_nat thr) (b_of c hd) (b_of c h1) (b_of c h2) (b_of c hk) y \/
      lucky_round c st s1 s2 s3 s4 st5 i (b_of c hd) (b_of c h1) (b_of c h2) (b_of c hk) y \/
      lucky_aggregation st5 g y).
Proof.
  intros Hp Hs Hx Hd D1 D2 D3 D4 FR E Hq Wf Dj Ne Ea.
  destruct (C92_steps c evs thr i st st5 Hp Hs Hx Hd D1 D2 D3 D4 FR E) as (s1 & s2 & s3 & s4 & hd & h1 & h2 & hk & A1 & A2 & A3 & A4 & A5 & B1 & B2 & B3 & B4 & C).
  exists s1, s2, s3, s4, hd, h1, h2, hk. repeat (split; [assumption|]). intros Nw g y w HL HQ.
  pose proof (C77_residual c pick st5 st' wRnd ap g y w Hp Hq Wf Dj Ne Ea HL) as Z0.
  unfold quad_sat in HQ. rewrite HQ in Z0.
  destruct (constraints_dec st5 g y) as [[H1 [H2 H3]]|H].
  - destruct (C Nw y H1) as [S|S]; [|now left|right; now left].
    rewrite Forall_forall in *. intros q Hin. specialize (H3 q Hin). unfold quad_sat in *. rewrite <- H3. apply quad_val_ext.
    intros k Hk. split; [|reflexivity]. symmetry. apply H2. now apply (norm_idx_in st5 q).
  - right. right. split; [exact H|]. rewrite <- Z0. now apply fsub_eq_0.
Qed.
End C92.

(** The parameters of the code, for any number of parties that setParams and the
    constructor of the verifier accept: the bounds on the noise are a number smaller
    than P/4, so that the claims are not void. *)
Theorem C92_code f n : 5 <= n <= 2 ^ 20 -> fpu_ok f n ->
  exists k s1 s2 b, setParams f 252 2 n = Ret (k, s1, s2) /\ verifierBounds f 2 256 4 k n s1 s2 = Ret b /\
    forall (G : gmod P25519) (R : rmerlin G) (c : cfg 2 G) evs thr i (st st5 st' : @pstate P25519 2 G R) pick wRnd ap, built c k n b -> LINYDIM c = 128%nat -> (4 | k) -> (4 | n) ->
      good_setup R c evs thr -> exact_transcript R -> round_dims c i -> fresh c st -> proofSteps R c st i = Ret st5 ->
      queue_order pick -> wf_system st5 -> all_disjoint (pnorm st5) -> Forall (fun con => lterms con <> [] \/ leq con = 0%F) (plin st5) ->
      aggregateProver R c pick st5 wRnd = Ret (st', ap) ->
      exists s1 s2 s3 s4 hd h1 h2 hk,
        proveDecryption R c st (i_rnd i) (i_ctMat i) (i_ctVec i) (i_pt1 i) (i_sk1 i) (i_dn i) = Ret s1 /\
        proveEncryption R c s1 (i_rnd i) (i_ct1 i) (i_ct2 i) (i_pt2 i) (i_er i) (i_n1 i) (i_n2 i) = Ret s2 /\
        proveKeyGen R c s2 (i_rnd i) (i_pk i) (i_sk2 i) (i_kn i) = Ret s3 /\
        proveReShare R c s3 (i_lag i) (i_pt1 i) (i_pt2 i) = Ret s4 /\
        proveSmallness R c s4 (i_ys i) (i_rs i) = Ret st5 /\
        Forall (fun h => 4 * b_of c h < P25519) [hd; h1; h2; hk] /\
        forall (g y : Z -> Fp P25519) w,
          lin_sat (rlin (rv ap)) (lvalG st5 y w) ->
          quad_sat (rquad (rv ap)) (qvalG st5 (rv ap) g w) (qvalH st5 (rv ap) y) ->
          statement_holds c st i evs (Z.to_nat thr) (b_of c hd) (b_of c h1) (b_of c h2) (b_of c hk) y \/
          lucky_round c st s1 s2 s3 s4 st5 i (b_of c hd) (b_of c h1) (b_of c h2) (b_of c hk) y \/
          lucky_aggregation st5 g y.
Proof.
  intros Hn Hf. destruct (C87_bounds f n Hn Hf) as (k & s1 & s2 & b & HS & HV & _ & _ & HB).
  assert (Hn1 : 5 <= n < 2 ^ 30) by lia. destruct (C86_params f n Hn1 Hf) as (k' & s1' & s2' & HS' & Hk & _).
  rewrite HS in HS'. injection HS' as <- <- <-.
  exists k, s1, s2, b. split; [exact HS|]. split; [exact HV|].
  intros G R c evs thr i st st5 st' pick wRnd ap Bu LY [u K4] [v N4] Gs Hx Hd FR E Hq Wf Dj Ne Ea.
  destruct (HB G c Bu) as (_ & _ & _ & _ & hd' & h1' & h2' & hk' & X1 & X2 & X3 & X4 & (W1 & W2 & W3) & LT).
  destruct Bu as (Bk & Bn & BJ & _).
  assert (D1 : Nat.divide 4 (JLDIM c / 2)) by (rewrite BJ; exists 32%nat; reflexivity).
  assert (D2 : Nat.divide 4 (LINYDIM c / 2)) by (rewrite LY; exists 16%nat; reflexivity).
  assert (D3 : Nat.divide 4 (Z.to_nat (kay (cgk c)))) by (rewrite Bk; exists (Z.to_nat u); lia).
  assert (D4 : Nat.divide 4 (Z.to_nat (enn (cgk c)))) by (rewrite Bn; exists (Z.to_nat v); lia).
  destruct (C92_aggregate R c evs thr i st st5 st' pick wRnd ap P25519_is_prime Gs Hx Hd D1 D2 D3 D4 FR E Hq Wf Dj Ne Ea)
    as (t1 & t2 & t3 & t4 & hd & h1 & h2 & hk & A1 & A2 & A3 & A4 & A5 & B1 & B2 & B3 & B4 & C).
  rewrite X1 in B1. rewrite X2 in B2. rewrite X3 in B3. rewrite X4 in B4. injection B1 as <-. injection B2 as <-. injection B3 as <-. injection B4 as <-.
  exists t1, t2, t3, t4, hd', h1', h2', hk'. repeat (split; [assumption|]). apply C. split; [exact W1|]. split; [exact W2|].
  rewrite Forall_forall in *. intros z Hz. apply W3. clear -Hz. cbn [In] in *. intuition.
Qed.
Print Assumptions C92_steps.
Print Assumptions C92_aggregate.
Print Assumptions C92_code.

(** *** Example *)
(** 8 parties: the hypotheses hold, the bounds are small enough, and there are values
    that meet the two equations, namely the prover's. *)
Definition w_chk (c : cfg 2 GQ) (st5 : @pstate PQ 2 GQ qR) : bool :=
  forallb (fun con => match lterms con with [] => feqb (leq con) 0%F | _ => true end) (plin st5) && negb (feqb (chal_norm st5) 0%F) &&
  match hiBound c (B_dNoise c) (kk c), hiBound c (B_eNoise1 c) (kk c), hiBound c (B_eNoise2 c) (nn c), hiBound c (B_kNoise c) (kk c) with
  | Ret hd, Ret h1, Ret h2, Ret hk =>
      (0 <=? B_smallness c) && ((Z.of_nat (JLDIM c) + 4) * ((2 * B_smallness c) * (2 * B_smallness c)) <? PQ) &&
      forallb (fun b => (0 <=? b) && (b * b <? PQ)) [hd; h1; h2; hk; loBound c; B_r c; B_sk c]
  | _, _, _, _ => false
  end.
Definition w_run : bool :=
  match prepQ with
  | Ret (_, c, st, i) => match proofSteps qR c st i with Ret st5 => w_chk c st5 | _ => false end
  | _ => false
  end.
Lemma w_run_ok : w_run = true.
Proof. vm_compute. reflexivity. Qed.
Example C92_example : exists c st i st5 st' ap g y w hd h1 h2 hk,
  prepQ = Ret ([], c, st, i) /\ prime PQ /\ good_setup qR c (points 8) 2 /\ exact_transcript qR /\ round_dims c i /\
  Nat.divide 4 (JLDIM c / 2) /\ Nat.divide 4 (LINYDIM c / 2) /\ Nat.divide 4 (Z.to_nat (kay (cgk c))) /\ Nat.divide 4 (Z.to_nat (enn (cgk c))) /\
  fresh c st /\ proofSteps qR c st i = Ret st5 /\
  queue_order (@min_index PQ) /\ wf_system st5 /\ all_disjoint (pnorm st5) /\ Forall (fun con => lterms con <> [] \/ leq con = 0%F) (plin st5) /\
  aggregateProver qR c min_index st5 (fq 2) = Ret (st', ap) /\
  (hiBound c (B_dNoise c) (kk c) = Ret hd /\ hiBound c (B_eNoise1 c) (kk c) = Ret h1 /\ hiBound c (B_eNoise2 c) (nn c) = Ret h2 /\
   hiBound c (B_kNoise c) (kk c) = Ret hk /\ no_wrap c [hd; h1; h2; hk; loBound c; B_r c; B_sk c]) /\
  lin_sat (rlin (rv ap)) (lvalG st5 y w) /\ quad_sat (rquad (rv ap)) (qvalG st5 (rv ap) g w) (qvalH st5 (rv ap) y).
Proof.
  assert (C : consts_ok 2 8 8 2) by (repeat split; try lia; [exists 2%nat|exists 1%nat|exists 1%nat]; reflexivity).
  assert (Q : params_ok PQ 2 16 4 8 2 3 46) by (vm_compute; repeat split; reflexivity || discriminate).
  assert (T : tape_ok tpQ (threshold 2 8) 4) by (split; [reflexivity|intros t; reflexivity]).
  assert (B : exists b, verifierBounds fQ (Z.of_nat 2) (Z.of_nat 8) 4 4 8 2 3 = Ret b /\ v_radix b = 8) by (eexists; split; vm_compute; reflexivity).
  destruct B as (b & B1 & B2).
  pose proof (prepare_cases qR lbQ fQ 16 4 8 2 3 46 2 8 8 tpQ b PQ_prime C Q q_libs T B1 ltac:(rewrite B2; unfold PQ; lia) ltac:(vm_compute; reflexivity)) as PC.
  fold prepQ in PC. pose proof w_run_ok as WR. pose proof (proj1 (run_chk_sound _ q_run_ok)) as LR. unfold w_run in WR.
  destruct PC as [([[[errs c] st] i] & E & RD)|E]; rewrite E in WR; [|discriminate WR].
  destruct RD as (-> & GS & GL & JS & RM & DI & TR & IP & IL & HM & FR & OP & KK & NN & JJ & LL).
  destruct (proofSteps qR c st i) as [st5| | |] eqn:E5; try discriminate WR.
  destruct (LR _ _ _ _ _ E E5) as [PF AM].
  pose proof (C70_steps c _ _ i st st5 PQ_prime GS DI TR FR OP E5 PF) as [SU [AH1 AH2]]. pose proof (proj1 GS) as Hc.
  pose proof (rd_wf c Hc st5 SU) as W1. pose proof (rd_disj c Hc st5 SU) as W2. destruct (rd_rec c Hc st5 SU) as [W3 W4].
  unfold w_chk in WR. apply andb_true_iff in WR as [K K2]. apply andb_true_iff in K as [K1 K3].
  destruct (C52_succeeds c min_index st5 (fq 2) PQ_prime (min_index_order PQ) Hc SU AM) as [(st' & ap & Ea)|[_ Z0]]; [|rewrite Z0 in K3; discriminate K3].
  destruct (final PQ_prime c min_index (min_index_order PQ) st5 st' (fq 2) ap W1 W2 Ea) as [fi].
  destruct (fin_linW c min_index st5 st' (fq 2) ap W1 (conj W3 W4) fi) as (_ & _ & CL & CW).
  set (w0 := coef (plinW st') (pidx st5 WW)).
  destruct (hiBound c (B_dNoise c) (kk c)) as [hd| | |] eqn:H1; try discriminate K2.
  destruct (hiBound c (B_eNoise1 c) (kk c)) as [h1| | |] eqn:H2; try discriminate K2.
  destruct (hiBound c (B_eNoise2 c) (nn c)) as [h2| | |] eqn:H3; try discriminate K2.
  destruct (hiBound c (B_kNoise c) (kk c)) as [hk| | |] eqn:H4; try discriminate K2.
  apply andb_true_iff in K2 as [K2 K2c]. apply andb_true_iff in K2 as [K2a K2b].
  assert (NE : Forall (fun con => lterms con <> [] \/ leq con = 0%F) (plin st5)).
  { rewrite forallb_forall in K1. apply Forall_forall. intros con Hin. specialize (K1 con Hin). destruct (lterms con); [right; now apply feqb_eq|left; discriminate]. }
  assert (LS : lin_sat (rlin (rv ap)) (lvalG st5 (coef (plinW st5)) w0)).
  { pose proof (fin_lin_sat PQ_prime c min_index st5 st' (fq 2) ap W1 (conj W3 W4) fi) as X. unfold lin_sat in *. rewrite <- X. apply lin_val_ext. intros k Hk. unfold lvalG.
    destruct (Z.eqb_spec k (pidx st5 WW)) as [->|Nk]; [reflexivity|]. symmetry. apply CL.
    rewrite (fn_lin _ _ _ _ _ _ fi) in Hk. cbn [lterms] in Hk. unfold keys in Hk; rewrite map_app in Hk. apply in_app_iff in Hk as [Hk|[Hk|[]]]; [exact Hk|]. cbn in Hk. congruence. }
  exists c, st, i, st5, st', ap, (coef (plinW st5)), (coef (plinW st5)), w0, hd, h1, h2, hk.
  split; [exact E|]. split; [exact PQ_prime|]. split; [exact GS|]. split; [exact q_exact|]. split; [exact DI|].
  split; [rewrite JJ; exists 1%nat; reflexivity|]. split; [rewrite LL; exists 1%nat; reflexivity|].
  split; [rewrite KK; exists 1%nat; reflexivity|]. split; [rewrite NN; exists 2%nat; reflexivity|].
  split; [exact FR|]. split; [exact E5|]. split; [exact (min_index_order PQ)|]. split; [exact W1|]. split; [exact W2|]. split; [exact NE|]. split; [exact Ea|].
  split.
  { repeat (split; [assumption|]). split; [now apply Z.leb_le|]. split; [now apply Z.ltb_lt|]. rewrite forallb_forall in K2c. apply Forall_forall. intros z Hz.
    specialize (K2c z Hz). apply andb_true_iff in K2c as [A1 A2]. split; [now apply Z.leb_le|now apply Z.ltb_lt]. }
  split; [exact LS|].
  apply fsub_eq_0. rewrite (C77_residual c min_index st5 st' (fq 2) ap (coef (plinW st5)) (coef (plinW st5)) w0 PQ_prime (min_index_order PQ) W1 W2 NE Ea LS).
  apply (residual_zero PQ_prime). split; [exact AH1|]. split; [reflexivity|].
  rewrite Forall_forall in *. intros q Hq. specialize (AH2 q Hq). unfold quad_sat in *. rewrite <- AH2. apply quad_val_ext. intros k Hk. split; symmetry; exact (W4 q k Hq Hk).
Qed.
Print Assumptions C92_example.
