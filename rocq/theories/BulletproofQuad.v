(** Completeness of the quadratic proof, and an exact description of its
    verifier. *)
From Coq Require Import String.
From Coq Require Import ZArith Znumtheory List Bool Lia Ring Field.
From Verif Require Import Outcome Fp GroupMod FSum ConstraintsModel PedersenModel PedersenSpec
  PedersenProofs BulletproofModel BulletproofProofs.
Import ListNotations.
Open Scope Z_scope.

Section Quad.
Context {p : Z} {G : gmod p}.
Variable Hp : prime p.
Notation F := (Fp p).
Add Field FpFq : (Fp_field Hp).
Implicit Types gs hs : list G.
Variable base : G.
Variable M : merlin G.

Definition qcom (Fg : G) (r : F) gs hs (as_ bs : list F) : G :=
  gadd (gadd (gadd (gmul base r) (gdot gs as_)) (gdot hs bs)) (gmul Fg (dot as_ bs)).
Definition QL (Fg : G) gs hs (as_ bs : list F) h (s : F) : G :=
  gadd (gadd (gadd (gmul base s) (gdot (skipn h gs) as_)) (gdot hs (skipn h bs)))
       (gmul Fg (dot as_ (skipn h bs))).
Definition QR (Fg : G) gs hs (as_ bs : list F) h (t : F) : G :=
  gadd (gadd (gadd (gmul base t) (gdot gs (skipn h as_))) (gdot (skipn h hs) bs))
       (gmul Fg (dot (skipn h as_) bs)).

Lemma dot_lo (a b : list F) h n : length a = n -> length b = n -> (h <= n)%nat -> (n <= 2 * h)%nat ->
  dot (skipn h a) b = dot (skipn h a) (firstn h b).
Proof.
  intros H1 H2 H3 H4. rewrite <- !gdot_F. apply (@gdot_lo p (Fp_gmod p)) with n; assumption.
Qed.
Lemma dot_lo2 (a b : list F) h n : length a = n -> length b = n -> (h <= n)%nat -> (n <= 2 * h)%nat ->
  dot a (skipn h b) = dot (firstn h a) (skipn h b).
Proof.
  intros H1 H2 H3 H4. rewrite <- !gdot_F. apply (@gdot_lo2 p (Fp_gmod p)) with n; assumption.
Qed.

Lemma qcom_fold Fg r gs hs as_ bs h n s t x :
  length gs = n -> length hs = n -> length as_ = n -> length bs = n -> (h <= n)%nat -> (n <= 2 * h)%nat -> x <> 0%F ->
  gadd (qcom Fg r gs hs as_ bs)
       (gadd (gmul (QL Fg gs hs as_ bs h s) x) (gmul (QR Fg gs hs as_ bs h t) (finv x)))
  = qcom Fg (r + (s * x + t * finv x))%F (fold1 gs h x) (fold1 hs h (finv x))
         (foldF as_ h (finv x)) (foldF bs h x).
Proof.
  intros Hg Hh Ha Hb Hn Hn2 Hx. unfold qcom, QL, QR, fold1, foldF.
  rewrite !gdot_fold by (rewrite ?skipn_length, ?firstn_length; lia).
  rewrite dot_fold by (rewrite ?skipn_length, ?firstn_length; lia).
  rewrite (gdot_split gs as_ h), (gdot_split hs bs h) by lia. rewrite (dot_split as_ bs h) by lia.
  rewrite (gdot_lo gs as_ h n), (gdot_lo2 gs as_ h n) by assumption.
  rewrite (gdot_lo hs bs h n), (gdot_lo2 hs bs h n) by assumption.
  rewrite (dot_lo as_ bs h n), (dot_lo2 as_ bs h n) by assumption.
  assert (Ex : (x * finv x = 1)%F) by (field; assumption).
  assert (Ex' : (finv x * x = 1)%F) by (field; assumption).
  rewrite ?Ex, ?Ex'. gred; try ring; field; assumption.
Qed.

Lemma proveQuadratic_loop_eq fuel Fg bl st gs as_ hs bs r n h :
  (1 < n)%nat -> (h <= n)%nat -> (n <= 2 * h)%nat ->
  length gs = n -> length hs = n -> length as_ = n -> length bs = n ->
  proveQuadratic_loop base M (S fuel) Fg bl st gs as_ hs bs r n h =
  let L := QL Fg gs hs as_ bs h (fst (bl O)) in
  let R := QR Fg gs hs as_ bs h (snd (bl O)) in
  let '(x, st) := m_chal M (m_point M (m_point M st (nlabel n ++ "L") L) "R" R) "x" in
  let! xInv := finvert x in
  let! res := proveQuadratic_loop base M fuel Fg (fun i => bl (S i)) st (fold1 gs h x) (foldF as_ h xInv)
                (fold1 hs h xInv) (foldF bs h x) (r + (fst (bl O) * x + snd (bl O) * xInv))%F h (h / 2) in
  Ret (QPState M (qs_st M res) (qs_as M res) (qs_bs M res) (qs_gs M res) (qs_hs M res) (qs_r M res)
         (L :: qs_Ls M res) (R :: qs_Rs M res)).
Proof.
  intros H1 H2 H3 Hg Hh Ha Hb. cbn [proveQuadratic_loop].
  replace (n <=? 1)%nat with false by (symmetry; apply Nat.leb_gt; lia).
  destruct (bl O) as [s t]. cbn [fst snd].
  rewrite !multiExp_ret by (rewrite ?skipn_length; lia). cbn [obind].
  rewrite !innerProd_ret by (rewrite ?skipn_length; lia). cbn [obind].
  assert (E1 : forall A (l : list A), length l = n -> firstn (n - h) (skipn h l) = skipn h l).
  { intros A l Hl. apply firstn_all2. rewrite skipn_length. lia. }
  rewrite !E1 by assumption.
  assert (E2 : forall (gs : list G) (as_ : list F), length gs = n -> gdot (skipn h gs) (firstn (n - h) as_) = gdot (skipn h gs) as_).
  { intros gs' as' Hl. rewrite (gdot_firstn_r _ as'). f_equal. f_equal. rewrite skipn_length. lia. }
  assert (E4 : forall (gs : list G) (as_ : list F), length as_ = n -> gdot (firstn (n - h) gs) (skipn h as_) = gdot gs (skipn h as_)).
  { intros gs' as' Hl. rewrite (gdot_firstn gs'). f_equal. f_equal. rewrite skipn_length. lia. }
  assert (E3 : dot (skipn h as_) (firstn (n - h) bs) = dot (skipn h as_) bs).
  { rewrite (dot_firstn_r _ bs). f_equal. f_equal. rewrite skipn_length. lia. }
  assert (E5 : dot (firstn (n - h) as_) (skipn h bs) = dot as_ (skipn h bs)).
  { rewrite (dot_firstn_l as_). f_equal. f_equal. rewrite skipn_length. lia. }
  rewrite !E2, !E4, E3, E5 by assumption.
  fold (QL Fg gs hs as_ bs h s). fold (QR Fg gs hs as_ bs h t).
  destruct (m_chal M _ _) as [x st']. destruct (finvert x) as [xi| | |]; cbn [obind]; try reflexivity.
  rewrite !foldScalars_ret by lia. cbn [obind]. rewrite !foldGenerators_ret by lia. reflexivity.
Qed.

(** ** The verifier *)
Lemma verifyQuadratic_loop_eq fuel st Ls Rs n h ii L R :
  (1 < n)%nat ->
  nth_error Ls ii = Some L -> nth_error Rs ii = Some R ->
  verifyQuadratic_loop M (S fuel) st Ls Rs n h ii =
  let '(x, st) := m_chal M (m_point M (m_point M st (nlabel n ++ "L") L) "R" R) "x" in
  let! xInv := finvert x in
  let! res := verifyQuadratic_loop M fuel st Ls Rs h (h / 2) (S ii) in
  let '(st', xes, xInvs) := res in
  Ret (st', x :: xes, xInv :: xInvs).
Proof.
  intros H1 HL HR. cbn [verifyQuadratic_loop].
  replace (n <=? 1)%nat with false by (symmetry; apply Nat.leb_gt; lia).
  unfold oget. rewrite HL, HR. reflexivity.
Qed.

Lemma vquad_loop m : forall fuel st Ls Rs preL preR n,
  (m <= fuel)%nat -> rounds m n -> length Ls = m -> length Rs = m ->
  length preL = length preR ->
  verifyQuadratic_loop M fuel st (preL ++ Ls) (preR ++ Rs) n (2 ^ m / 2) (length preL) =
  let '(xs, st') := run_chals M st n Ls Rs in
  if forallb nzb xs then Ret (st', xs, map finv xs) else Throw.
Proof.
  induction m as [|m IH]; intros fuel st Ls Rs preL preR n Hf Hr HL HR Hpre.
  - apply length_zero_iff_nil in HL. apply length_zero_iff_nil in HR. rewrite HL, HR.
    apply rounds_0 in Hr. rewrite Hr in *. destruct fuel; reflexivity.
  - destruct Ls as [|L Ls]; [discriminate|]. destruct Rs as [|R Rs]; [discriminate|].
    cbn [length] in HL, HR. injection HL as HL. injection HR as HR.
    destruct fuel as [|fuel]; [lia|].
    destruct (rounds_S m n Hr) as (A1 & A2 & A3 & A4 & A5 & A6). rewrite A4.
    rewrite (verifyQuadratic_loop_eq fuel st _ _ n (2 ^ m) (length preL) L R); try lia.
    2:{ rewrite nth_error_app2, Nat.sub_diag by lia. reflexivity. }
    2:{ rewrite nth_error_app2 by lia. rewrite Hpre, Nat.sub_diag. reflexivity. }
    cbn [run_chals]. destruct (m_chal M _ _) as [x st'].
    rewrite finvert_nzb. destruct (nzb x) eqn:Ex.
    2:{ cbn [obind]. destruct (run_chals M st' _ Ls Rs). cbn [forallb]. rewrite Ex. reflexivity. }
    cbn [obind]. specialize (IH fuel st' Ls Rs (preL ++ [L]) (preR ++ [R]) (2 ^ m)%nat).
    rewrite !app_length in IH. cbn [length] in IH. rewrite <- !app_assoc in IH. cbn [app] in IH.
    replace (length preL + 1)%nat with (S (length preL)) in IH by lia.
    rewrite IH; try lia; try assumption.
    rewrite HL. destruct (run_chals M st' (2 ^ m) Ls Rs) as [xs st''].
    cbn [forallb map]. rewrite Ex. cbn [andb]. destruct (forallb nzb xs); reflexivity.
Qed.

Definition quad_eqn (Fg : G) gs hs offu offv (C : G) Ls Rs xs S1 S2 x a b r : Prop :=
  gadd (gadd C (addLR Ls Rs xs)) (gmul (gadd S1 (gmul S2 x)) x)
  = gadd (gadd (gadd (gmul base r) (gadd (gmul (gdot gs (zvec xs)) a) (off_val gs offu)))
               (gadd (gmul (gdot hs (zvec (map finv xs))) b) (off_val hs offv)))
         (gmul Fg (a * b)%F).

Lemma expSubset_off gs n (xs : list F) a off : (1 <= n)%nat -> Z.of_nat n <= 2 ^ 63 ->
  length gs = n -> off_ok off n -> length xs = log2roundUpN n ->
  expSubsetProduct gs n xs a off = Ret (gadd (gmul (gdot gs (zvec xs)) a) (off_val gs off)).
Proof.
  intros H1 H63 Hg Ho Hx. destruct off as [o|]; cbn [off_ok off_val] in *.
  - now rewrite expSubsetProduct_off_ret by (auto; lia).
  - rewrite expSubsetProduct_ret by (auto; lia). now rewrite gadd_0_r.
Qed.

Lemma verifyQuadratic_char (pf : quadpf G) gs hs n eq st offu offv :
  (1 <= n)%nat -> Z.of_nat n <= 2 ^ 63 -> length gs = n -> length hs = n ->
  off_ok offu n -> off_ok offv n ->
  length (qpLs pf) = log2roundUpN n -> length (qpRs pf) = log2roundUpN n ->
  exists Fg st1 xs st2 x st3,
    m_gen M (m_point M st "C" (qpC pf)) "F" = (Fg, st1) /\
    run_chals M st1 n (qpLs pf) (qpRs pf) = (xs, st2) /\
    m_chal M (m_point M (m_point M st2 "S1" (qpS1 pf)) "S2" (qpS2 pf)) "x" = (x, st3) /\
    length xs = log2roundUpN n /\
    (forallb nzb xs = false -> verifyQuadratic base M pf gs hs n eq st offu offv = Throw) /\
    (forallb nzb xs = true ->
     exists b, verifyQuadratic base M pf gs hs n eq st offu offv = Ret b /\
       (b = true <-> quad_eqn Fg gs hs offu offv (gadd (qpC pf) (gmul Fg eq)) (qpLs pf) (qpRs pf) xs
                      (qpS1 pf) (qpS2 pf) x (qpa pf) (qpb pf) (qpr pf))).
Proof.
  intros H1 H63 Hg Hh Hou Hov HL HR. unfold verifyQuadratic.
  destruct (m_gen M _ _) as [Fg st1] eqn:EF.
  destruct (rounds_log n H1 H63) as [Hr Hn2].
  rewrite HL, HR, Nat.eqb_refl. cbn [negb orb]. rewrite Hn2.
  assert (Hfuel : (log2roundUpN n <= n)%nat).
  { destruct Hr as [_ [E|E]]; [lia|]. pose proof (Nat.pow_gt_lin_r 2 (log2roundUpN n - 1) ltac:(lia)). lia. }
  pose proof (vquad_loop (log2roundUpN n) n st1 (qpLs pf) (qpRs pf) [] [] n
     Hfuel Hr HL HR eq_refl) as EV. cbn [app length] in EV.
  pose proof (run_chals_length M st1 n (qpLs pf) (qpRs pf) ltac:(lia)) as Hlx.
  rewrite EV. destruct (run_chals M st1 n (qpLs pf) (qpRs pf)) as [xs st2] eqn:ER. cbn [fst] in Hlx.
  destruct (m_chal M (m_point M (m_point M st2 "S1" (qpS1 pf)) "S2" (qpS2 pf)) "x") as [x st3] eqn:EX.
  exists Fg, st1, xs, st2, x, st3. split; [reflexivity|]. split; [exact ER|]. split; [exact EX|].
  split; [lia|]. destruct (forallb nzb xs); cbn [obind].
  2:{ split; [reflexivity|discriminate]. }
  split; [discriminate|]. intros _.
  rewrite (multiExp_all (qpLs pf)) by (rewrite ?map_length; lia). cbn [obind].
  rewrite (multiExp_all (qpRs pf)) by (rewrite ?map_length; lia). cbn [obind].
  rewrite (expSubset_off gs) by (assumption || lia). cbn [obind].
  rewrite (expSubset_off hs) by (rewrite ?map_length; assumption || lia). cbn [obind].
  rewrite EX. eexists. split; [reflexivity|]. rewrite geqb_eq. reflexivity.
Qed.

(** ** The prover's loop *)
Definition quad_loop_ok st gs hs as_ bs r n m Fg (res : qpstate M) : Prop :=
  exists xs a b g h,
    length xs = m /\ Forall (fun x => x <> 0%F) xs /\
    qs_as M res = [a] /\ qs_bs M res = [b] /\ qs_gs M res = [g] /\ qs_hs M res = [h] /\
    fold_all xs gs = [g] /\ fold_all (map finv xs) hs = [h] /\
    length (qs_Ls M res) = m /\ length (qs_Rs M res) = m /\
    gadd (qcom Fg r gs hs as_ bs) (addLR (qs_Ls M res) (qs_Rs M res) xs)
      = qcom Fg (qs_r M res) [g] [h] [a] [b] /\
    run_chals M st n (qs_Ls M res) (qs_Rs M res) = (xs, qs_st M res).

Lemma quad_loop m : forall fuel Fg bl st gs as_ hs bs r n,
  (m <= fuel)%nat -> rounds m n -> length gs = n -> length hs = n -> length as_ = n -> length bs = n ->
  (proveQuadratic_loop base M fuel Fg bl st gs as_ hs bs r n (2 ^ m / 2) = Throw /\ ~ chal_ok M) \/
  exists res, proveQuadratic_loop base M fuel Fg bl st gs as_ hs bs r n (2 ^ m / 2) = Ret res /\
    quad_loop_ok st gs hs as_ bs r n m Fg res.
Proof.
  induction m as [|m IH]; intros fuel Fg bl st gs as_ hs bs r n Hf Hr Hg Hh Ha Hb.
  - apply rounds_0 in Hr. rewrite Hr in *. clear Hr. right.
    destruct (list1 _ Hg) as [g ->]. destruct (list1 _ Hh) as [h ->].
    destruct (list1 _ Ha) as [a ->]. destruct (list1 _ Hb) as [b ->].
    exists (QPState M st [a] [b] [g] [h] r [] []). split; [destruct fuel; reflexivity|].
    exists [], a, b, g, h. cbn [qs_as qs_bs qs_gs qs_hs qs_Ls qs_Rs qs_r qs_st].
    repeat split; try reflexivity; try constructor.
    unfold addLR. cbn. gsolve.
  - destruct fuel as [|fuel]; [lia|].
    destruct (rounds_S m n Hr) as (A1 & A2 & A3 & A4 & A5 & A6). rewrite A4.
    rewrite proveQuadratic_loop_eq by lia. cbv zeta.
    set (L := QL Fg gs hs as_ bs (2 ^ m) (fst (bl 0%nat))). set (R := QR Fg gs hs as_ bs (2 ^ m) (snd (bl 0%nat))).
    destruct (m_chal M _ _) as [x st'] eqn:Ec.
    destruct (finvert_cases Hp x) as [[Hx ->]|[Hx Ei]].
    { left. split; [reflexivity|]. intros Hok. specialize (Hok (m_point M (m_point M st (nlabel n ++ "L") L) "R" R) "x"%string).
      rewrite Ec in Hok. now apply Hok. }
    rewrite Ei. cbn [obind].
    destruct (IH fuel Fg (fun i => bl (S i)) st' (fold1 gs (2 ^ m) x) (foldF as_ (2 ^ m) (finv x))
      (fold1 hs (2 ^ m) (finv x)) (foldF bs (2 ^ m) x)
       (r + (fst (bl O) * x + snd (bl O) * finv x))%F (2 ^ m)%nat)
      as [[-> Hbad]|(res & -> & Hres)]; try lia; try assumption;
      try (apply fold1_length; lia); try (apply foldF_length; lia).
    { left. split; [reflexivity|assumption]. }
    right. cbn [obind]. eexists. split; [reflexivity|].
    destruct Hres as (xs & a & b & g & h & R1 & R2 & R3 & R4 & R5 & R5h & R6 & R6h & R7 & R8 & R9 & R10).
    exists (x :: xs), a, b, g, h. cbn [qs_as qs_bs qs_gs qs_hs qs_Ls qs_Rs qs_r qs_st].
    split; [cbn; lia|]. split; [now constructor|]. repeat split; try assumption.
    + cbn [fold_all]. rewrite R1. exact R6.
    + cbn [fold_all map]. rewrite map_length, R1. exact R6h.
    + cbn [length]. lia.
    + cbn [length]. lia.
    + rewrite <- R9. rewrite <- (qcom_fold Fg r gs hs as_ bs (2 ^ m) n (fst (bl 0%nat)) (snd (bl 0%nat)) x) by (assumption || lia).
      fold L R. unfold addLR. cbn [map gdot]. gsolve.
    + cbn [run_chals]. rewrite Ec, R7, R10. reflexivity.
Qed.

(** The last step: whatever loop result satisfies the invariant with respect to
    a target point leads to an accepted proof. *)
Lemma quad_last Fg C T st1 gs hs n (res : qpstate M) blST blUV offu offv xs a b g h eq st :
  (1 <= n)%nat -> Z.of_nat n <= 2 ^ 63 -> length gs = n -> length hs = n ->
  off_ok offu n -> off_ok offv n ->
  m_gen M (m_point M st "C" C) "F" = (Fg, st1) ->
  length xs = log2roundUpN n -> Forall (fun x => x <> 0%F) xs ->
  qs_as M res = [a] -> qs_bs M res = [b] -> qs_gs M res = [g] -> qs_hs M res = [h] ->
  fold_all xs gs = [g] -> fold_all (map finv xs) hs = [h] ->
  length (qs_Ls M res) = log2roundUpN n -> length (qs_Rs M res) = log2roundUpN n ->
  gadd C (gmul Fg eq) = gadd T (gadd (off_val gs offu) (off_val hs offv)) ->
  gadd T (addLR (qs_Ls M res) (qs_Rs M res) xs) = qcom Fg (qs_r M res) [g] [h] [a] [b] ->
  run_chals M st1 n (qs_Ls M res) (qs_Rs M res) = (xs, qs_st M res) ->
  exists pf, proveQuadratic_last base M C Fg blST blUV res = Ret pf /\ qpC pf = C /\
    length (qpLs pf) = log2roundUpN n /\ length (qpRs pf) = log2roundUpN n /\
    verifyQuadratic base M pf gs hs n eq st offu offv = Ret true.
Proof.
  intros H1 H63 Hg Hh Hou Hov EF R1 R2 R3 R4 R5 R5h R6 R6h R7 R8 ET R9 R10.
  destruct (rounds_log n H1 H63) as [Hr Hn2].
  unfold proveQuadratic_last. destruct blST as [s t], blUV as [u v].
  rewrite R3, R4, R5, R5h. cbn [oget nth_error obind].
  set (S1 := gadd _ (gmul Fg (a * t + b * s)%F)). set (S2 := gadd (gmul base v) _).
  destruct (m_chal M (m_point M (m_point M (qs_st M res) "S1" S1) "S2" S2) "x") as [x st3] eqn:EX.
  eexists. split; [reflexivity|]. cbn [qpC qpLs qpRs]. split; [reflexivity|].
  split; [assumption|]. split; [assumption|].
  set (pf := QuadPf C _ _ _ _ _ _ _).
  destruct (verifyQuadratic_char pf gs hs n eq st offu offv H1 H63 Hg Hh Hou Hov R7 R8)
    as (Fg' & st1' & xs' & st2' & x' & st3' & V1 & V2 & V3 & V4 & V5 & V6).
  cbn [pf qpC qpLs qpRs qpS1 qpS2] in V1, V2, V3. rewrite EF in V1. injection V1 as <- <-.
  rewrite R10 in V2. injection V2 as <- <-. rewrite EX in V3. injection V3 as <- <-.
  assert (Enz : forallb nzb xs = true).
  { apply forallb_forall. intros y Hy. rewrite Forall_forall in R2. apply nzb_true. auto. }
  destruct (V6 Enz) as (bb & -> & Hbb). f_equal. apply Hbb.
  unfold quad_eqn. cbn [pf qpC qpLs qpRs qpS1 qpS2 qpa qpb qpr].
  destruct (rounds_zvec _ _ xs Hr R1) as [A B]. rewrite <- Hg in A, B.
  destruct (fold_all_gdot xs gs A B) as [_ EG]. rewrite EG, R6.
  destruct (rounds_zvec _ _ (map finv xs) Hr ltac:(rewrite map_length; exact R1)) as [A' B']. rewrite <- Hh in A', B'.
  destruct (fold_all_gdot (map finv xs) hs A' B') as [_ EH]. rewrite EH, R6h.
  rewrite ET.
  assert (ER : gadd (gadd T (gadd (off_val gs offu) (off_val hs offv))) (addLR (qs_Ls M res) (qs_Rs M res) xs)
      = gadd (qcom Fg (qs_r M res) [g] [h] [a] [b]) (gadd (off_val gs offu) (off_val hs offv))) by (rewrite <- R9; gsolve).
  rewrite ER. unfold S1, S2, qcom. cbn [gdot dot]. gsolve.
Qed.

Theorem quadratic_complete as_ bs gs hs n eq st offu offv r bl blST blUV C :
  (1 <= n)%nat -> Z.of_nat n <= 2 ^ 63 ->
  length as_ = n -> length bs = n -> length gs = n -> length hs = n -> off_ok offu n -> off_ok offv n ->
  dot as_ bs = eq ->
  C = gadd (gadd (gadd (gmul base r) (gdot gs as_)) (gdot hs bs)) (gadd (off_val gs offu) (off_val hs offv)) ->
  (proveQuadratic base M C r st bl blST blUV gs as_ hs bs n = Throw /\ ~ chal_ok M) \/
  exists pf, proveQuadratic base M C r st bl blST blUV gs as_ hs bs n = Ret pf /\ qpC pf = C /\
    length (qpLs pf) = log2roundUpN n /\ length (qpRs pf) = log2roundUpN n /\
    verifyQuadratic base M pf gs hs n eq st offu offv = Ret true.
Proof.
  intros H1 H63 Ha Hb Hg Hh Hou Hov Heq HC. unfold proveQuadratic.
  destruct (m_gen M (m_point M st "C" C) "F") as [Fg st1] eqn:EF.
  destruct (rounds_log n H1 H63) as [Hr Hn2]. rewrite Hn2.
  assert (Hfuel : (log2roundUpN n <= n)%nat).
  { destruct Hr as [_ [E|E]]; [lia|]. pose proof (Nat.pow_gt_lin_r 2 (log2roundUpN n - 1) ltac:(lia)). lia. }
  destruct (quad_loop (log2roundUpN n) n Fg bl st1 gs as_ hs bs r n Hfuel Hr Hg Hh Ha Hb) as [[-> Hbad]|(res & -> & Hres)].
  { left. split; [reflexivity|exact Hbad]. }
  right. destruct Hres as (xs & a & b & g & h & R1 & R2 & R3 & R4 & R5 & R5h & R6 & R6h & R7 & R8 & R9 & R10).
  cbn [obind].
  apply (quad_last Fg C (qcom Fg r gs hs as_ bs) st1 gs hs n res blST blUV offu offv xs a b g h eq st); try assumption.
  rewrite HC, <- Heq. unfold qcom. gsolve.
Qed.
End Quad.
