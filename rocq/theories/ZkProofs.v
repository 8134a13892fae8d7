(** The proofs an honest prover can send are exactly the accepted ones, each for exactly
    one choice of the blinding values. *)
From Coq Require Import String.
From Coq Require Import ZArith Znumtheory List Bool Lia Ring Field.
From Verif Require Import Outcome Fp GroupMod FSum ConstraintsModel PedersenModel PedersenSpec
  PedersenProofs BulletproofModel BulletproofSpec BulletproofProofs BulletproofQuad BulletproofSound ZkSpec.
Import ListNotations.
Open Scope Z_scope.

Section Zk.
Context {p : Z} {G : gmod p}.
Variable Hp : prime p.
Notation F := (Fp p).
Add Field FpFz : (Fp_field Hp).
Implicit Types gs hs : list G.
Variable base : G.
Hypothesis Hbase : generates base.
Variable M : merlin G.

Lemma hit (L a b : G) : exists s, gadd (gadd (gmul base s) a) b = L.
Proof. destruct (proj1 Hbase (gadd L (gopp (gadd a b)))) as [s E]. exists s. rewrite E. gsolve. Qed.
Lemma once (s s' : F) (a b : G) : gadd (gadd (gmul base s) a) b = gadd (gadd (gmul base s') a) b -> s = s'.
Proof.
  intros E. apply (proj2 Hbase). apply (gadd_cancel_l (gadd a b)).
  assert (R : forall u : G, gadd (gadd a b) u = gadd (gadd u a) b) by (intros u; gsolve). now rewrite !R.
Qed.
(** ** Commitments *)
Lemma commit_hides gs (xs ys : list F) n r f alpha : (n <= length gs)%nat -> length xs = n -> length ys = n ->
  exists r', commit base gs ys n r' f alpha = commit base gs xs n r f alpha /\
    forall r2, commit base gs ys n r2 f alpha = commit base gs xs n r f alpha -> r2 = r'.
Proof.
  intros Hg Hx Hy. unfold commit. rewrite !multiExp_ret by lia. cbn [obind].
  destruct (hit (gadd (gadd (gmul base r) (gmul f alpha)) (gdot (firstn n gs) (firstn n xs))) (gmul f alpha) (gdot (firstn n gs) (firstn n ys))) as [r' E].
  exists r'. rewrite E. split; [reflexivity|]. intros r2 E2. injection E2 as E2. rewrite <- E in E2. exact (once _ _ _ _ E2).
Qed.

(** ** Linear proofs *)
Lemma lin_hit m : forall fuel Fg st as_ bs gs r n Ls Rs,
  (m <= fuel)%nat -> rounds m n -> length gs = n -> length as_ = n -> length bs = n -> length Ls = m -> length Rs = m ->
  forallb nzb (fst (run_chals M st n Ls Rs)) = true ->
  exists bl res, proveLinear_loop base M fuel Fg bl st as_ bs gs r n (2 ^ m / 2) = Ret res /\ ls_Ls M res = Ls /\ ls_Rs M res = Rs.
Proof.
  induction m as [|m IH]; intros fuel Fg st as_ bs gs r n Ls Rs Hf Hr Hg Ha Hb HL HR Hz.
  - apply length_zero_iff_nil in HL, HR. subst Ls Rs. apply rounds_0 in Hr. rewrite Hr in *.
    exists (fun _ => (0%F, 0%F)). eexists. split; [destruct fuel; reflexivity|]. split; reflexivity.
  - destruct Ls as [|L Ls]; [discriminate HL|]. destruct Rs as [|R Rs]; [discriminate HR|]. injection HL as HL. injection HR as HR.
    destruct fuel as [|fuel]; [lia|]. destruct (rounds_S m n Hr) as (A1 & A2 & A3 & A4 & A5 & A6). rewrite A4.
    destruct (hit L (gdot (skipn (2 ^ m) gs) as_) (gmul Fg (dot (skipn (2 ^ m) bs) as_))) as [s Es].
    destruct (hit R (gdot gs (skipn (2 ^ m) as_)) (gmul Fg (dot bs (skipn (2 ^ m) as_)))) as [t Et].
    cbn [run_chals] in Hz. destruct (m_chal M _ _) as [x st'] eqn:Ec. rewrite HL in Hz.
    destruct (run_chals M st' (2 ^ m) Ls Rs) as [xs st''] eqn:Er. cbn [fst forallb] in Hz. apply andb_true_iff in Hz as [Hx Hz].
    destruct (IH fuel Fg st' (foldF as_ (2 ^ m) (finv x)) (foldF bs (2 ^ m) x) (fold1 gs (2 ^ m) x) (r + (s * x + t * finv x))%F (2 ^ m)%nat Ls Rs)
      as (bl & res & E & EL & ER); try assumption; try lia; try (apply fold1_length; lia); try (apply foldF_length; lia). { now rewrite Er. }
    exists (fun i => match i with O => (s, t) | S j => bl j end). eexists. split.
    { rewrite proveLinear_loop_eq by lia. cbn [fst snd]. cbv zeta.
      change (LL base Fg gs as_ bs (2 ^ m) s) with (gadd (gadd (gmul base s) (gdot (skipn (2 ^ m) gs) as_)) (gmul Fg (dot (skipn (2 ^ m) bs) as_))).
      change (RR base Fg gs as_ bs (2 ^ m) t) with (gadd (gadd (gmul base t) (gdot gs (skipn (2 ^ m) as_))) (gmul Fg (dot bs (skipn (2 ^ m) as_)))).
      rewrite Es, Et, Ec, finvert_nzb, Hx. cbn [obind].
      match goal with |- context [proveLinear_loop base M fuel Fg ?f] => change f with bl end. rewrite E. cbn [obind]. reflexivity. }
    cbn [ls_Ls ls_Rs]. now rewrite EL, ER.
Qed.
Lemma lin_once m : forall fuel Fg bl bl' st as_ bs gs r n res res',
  (m <= fuel)%nat -> rounds m n -> length gs = n -> length as_ = n -> length bs = n ->
  proveLinear_loop base M fuel Fg bl st as_ bs gs r n (2 ^ m / 2) = Ret res ->
  proveLinear_loop base M fuel Fg bl' st as_ bs gs r n (2 ^ m / 2) = Ret res' ->
  ls_Ls M res = ls_Ls M res' -> ls_Rs M res = ls_Rs M res' -> same_upto m bl bl' /\ res = res'.
Proof.
  induction m as [|m IH]; intros fuel Fg bl bl' st as_ bs gs r n res res' Hf Hr Hg Ha Hb E E' EL ER.
  - apply rounds_0 in Hr. rewrite Hr in *. split; [intros i Hi; lia|].
    assert (Q : forall b, proveLinear_loop base M fuel Fg b st as_ bs gs r 1 (2 ^ 0 / 2) = Ret (LPState M st as_ bs gs r [] [])) by (intros b; destruct fuel; reflexivity).
    rewrite Q in E, E'. congruence.
  - destruct fuel as [|fuel]; [lia|]. destruct (rounds_S m n Hr) as (A1 & A2 & A3 & A4 & A5 & A6). rewrite A4 in E, E'.
    rewrite proveLinear_loop_eq in E by lia. rewrite proveLinear_loop_eq in E' by lia. cbv zeta in E, E'.
    destruct (m_chal M (m_point M (m_point M st (nlabel n ++ "L") (LL base Fg gs as_ bs (2 ^ m) (fst (bl 0%nat)))) "R" (RR base Fg gs as_ bs (2 ^ m) (snd (bl 0%nat)))) "x") as [x st1] eqn:Ec.
    destruct (m_chal M (m_point M (m_point M st (nlabel n ++ "L") (LL base Fg gs as_ bs (2 ^ m) (fst (bl' 0%nat)))) "R" (RR base Fg gs as_ bs (2 ^ m) (snd (bl' 0%nat)))) "x") as [x' st1'] eqn:Ec'.
    apply obind_ret_inv in E as (xi & Ei & E). apply obind_ret_inv in E as (q & Eq & E). injection E as <-.
    apply obind_ret_inv in E' as (xi' & Ei' & E'). apply obind_ret_inv in E' as (q' & Eq' & E'). injection E' as <-.
    cbn [ls_Ls ls_Rs] in EL, ER. injection EL as EL0 EL. injection ER as ER0 ER.
    pose proof (once _ _ _ _ EL0) as Hs. pose proof (once _ _ _ _ ER0) as Ht. rewrite <- Hs, <- Ht, Ec in Ec'. injection Ec' as <- <-.
    assert (xi' = xi) by congruence. subst xi'. rewrite <- Hs, <- Ht in Eq'.
    eapply IH in Eq' as [HI Hq]; [|lia|exact A5|apply fold1_length; lia|apply foldF_length; lia|apply foldF_length; lia|exact Eq|exact EL|exact ER].
    split. { intros [|i] Hi; [|apply (HI i); lia]. destruct (bl 0%nat), (bl' 0%nat); cbn [fst snd] in *; congruence. }
    subst q'. now rewrite EL0, ER0.
Qed.
Lemma fuel_ok n : (1 <= n)%nat -> Z.of_nat n <= 2 ^ 63 -> (log2roundUpN n <= n)%nat.
Proof.
  intros H1 H63. destruct (rounds_log n H1 H63) as [[_ [E|E]] _]; [lia|]. pose proof (Nat.pow_gt_lin_r 2 (log2roundUpN n - 1) ltac:(lia)). lia.
Qed.
Theorem linear_hit as_ bs gs n eq st off r C pf :
  (1 <= n)%nat -> Z.of_nat n <= 2 ^ 63 -> length as_ = n -> length bs = n -> length gs = n -> off_ok off n ->
  dot bs as_ = eq -> C = gadd (gadd (gmul base r) (gdot gs as_)) (off_val gs off) ->
  lpC pf = C -> verifyLinear base M pf bs gs n eq st off = Ret true ->
  exists bl blS, proveLinear base M C r st bl blS as_ bs gs n = Ret pf.
Proof.
  intros H1 H63 Ha Hb Hg Ho Heq HC EC EV. pose proof (fuel_ok n H1 H63) as Hfuel. destruct (rounds_log n H1 H63) as [Hr Hn2].
  assert (HLR : length (lpLs pf) = log2roundUpN n /\ length (lpRs pf) = log2roundUpN n).
  { unfold verifyLinear in EV. destruct (m_gen M _ _) as [Fg st1]. destruct (negb _ || negb _) eqn:Q; [discriminate EV|].
    apply orb_false_iff in Q as [Q1 Q2]. rewrite negb_false_iff, Nat.eqb_eq in Q1, Q2. split; assumption. }
  destruct HLR as [HL HR].
  destruct (verifyLinear_char Hp base M pf bs gs n eq st off H1 H63 Hb Hg Ho HL HR) as (Fg & st1 & xs & st2 & x & st3 & V1 & V2 & V3 & V4 & V5 & V6).
  destruct (forallb nzb xs && nzb x) eqn:Z0; [|rewrite V5 in EV by reflexivity; discriminate EV].
  destruct (V6 eq_refl) as (b0 & Eb & Hb0). rewrite EV in Eb. injection Eb as <-. apply proj1 in Hb0. specialize (Hb0 eq_refl). apply andb_true_iff in Z0 as [Z1 Z2].
  destruct (lin_hit (log2roundUpN n) n Fg st1 as_ bs gs r n (lpLs pf) (lpRs pf) Hfuel Hr Hg Ha Hb HL HR) as (bl & res & E & EL & ER). { now rewrite V2. }
  destruct (lin_loop Hp base M (log2roundUpN n) n Fg bl st1 as_ bs gs r n Hfuel Hr Hg Ha Hb) as [[E' _]|(res' & E' & Hres)]; [congruence|].
  assert (res' = res) by congruence. subst res'. clear E'.
  destruct Hres as (xs' & a & b & g & R1 & R2 & R3 & R4 & R5 & R6 & R7 & R8 & R9 & R10).
  specialize (R10 [] [] eq_refl). cbn [app length] in R10.
  pose proof (vlin_loop M (log2roundUpN n) n st1 (ls_Ls M res) (ls_Rs M res) [] [] bs n Hfuel Hr Hb R7 R8 eq_refl) as EW. cbn [app length] in EW.
  rewrite EL, ER in *. rewrite V2, Z1 in EW. rewrite EW in R10. injection R10 as E1 E2 _ E4. subst xs'.
  rewrite (fold_all_F Hp xs bs (log2roundUpN n) n Hr R1 Hb) in E4. injection E4 as E4.
  exists bl, (lpa pf - a * x, lpr pf - ls_r M res * x)%F. unfold proveLinear. rewrite <- EC at 1. rewrite V1, Hn2, E. cbn [obind].
  rewrite R3, R4, R5. cbn [oget nth_error obind].
  assert (ES : gadd (gadd (gmul g (lpa pf - a * x)%F) (gmul Fg ((lpa pf - a * x) * b)%F)) (gmul base (lpr pf - ls_r M res * x)%F) = lpS pf).
  { unfold lin_eqn in Hb0. rewrite EC in Hb0. destruct (rounds_zvec _ _ xs Hr R1) as [A B]. rewrite <- Hg in A, B.
    destruct (fold_all_gdot xs gs A B) as [_ EG]. rewrite EG, R6, E4 in Hb0. cbn [gdot] in Hb0.
    assert (EC2 : gadd (gadd C (gmul Fg eq)) (addLR (lpLs pf) (lpRs pf) xs) = gadd (com base Fg (ls_r M res) [g] [a] [b]) (off_val gs off)).
    { rewrite <- R9, HC, <- Heq. unfold com. gsolve. }
    rewrite EC2 in Hb0. unfold com in Hb0. cbn [gdot dot] in Hb0.
    match type of Hb0 with gadd _ ?u = ?v => assert (K : lpS pf = gadd v (gopp u)) by (rewrite <- Hb0; gsolve) end. rewrite K. gsolve. }
  rewrite ES, <- E1, V3. destruct pf as [pC pL pR pS pa pr]. cbn [lpC lpLs lpRs lpS lpa lpr] in *. rewrite EL, ER, EC.
  f_equal. f_equal; ring.
Qed.
Theorem linear_once as_ bs gs n st r C bl bl' blS blS' pf :
  (1 <= n)%nat -> Z.of_nat n <= 2 ^ 63 -> length as_ = n -> length bs = n -> length gs = n ->
  proveLinear base M C r st bl blS as_ bs gs n = Ret pf -> proveLinear base M C r st bl' blS' as_ bs gs n = Ret pf ->
  same_upto (log2roundUpN n) bl bl' /\ blS = blS'.
Proof.
  intros H1 H63 Ha Hb Hg E E'. pose proof (fuel_ok n H1 H63) as Hfuel. destruct (rounds_log n H1 H63) as [Hr Hn2].
  unfold proveLinear in E, E'. destruct (m_gen M _ _) as [Fg st1]. rewrite Hn2 in E, E'.
  apply obind_ret_inv in E as (res & E1 & E). apply obind_ret_inv in E' as (res' & E1' & E').
  destruct blS as [s t], blS' as [s' t'].
  apply obind_ret_inv in E as (g & E2 & E). apply obind_ret_inv in E' as (g' & E2' & E').
  apply obind_ret_inv in E as (b & E3 & E). apply obind_ret_inv in E' as (b' & E3' & E').
  apply obind_ret_inv in E as (a & E4 & E). apply obind_ret_inv in E' as (a' & E4' & E').
  destruct (m_chal M (m_point M (ls_st M res) _ _) _) as [x st3] eqn:Ec. destruct (m_chal M (m_point M (ls_st M res') _ _) _) as [x' st3'] eqn:Ec'.
  injection E as <-. assert (E0 : forall u v : linpf G, Ret u = Ret v -> u = v) by congruence. apply E0 in E'. clear E0.
  pose proof (f_equal lpLs E') as EL. pose proof (f_equal lpRs E') as ER. pose proof (f_equal lpS E') as ES. pose proof (f_equal lpa E') as Ea. pose proof (f_equal lpr E') as Er.
  cbn [lpLs lpRs lpS lpa lpr] in EL, ER, ES, Ea, Er.
  destruct (lin_once (log2roundUpN n) n Fg bl bl' st1 as_ bs gs r n res res' Hfuel Hr Hg Ha Hb E1 E1') as [HS ->]; [congruence|congruence|].
  split; [exact HS|]. rewrite ES in Ec'. assert (x' = x) by congruence. subst x'. assert (a' = a) by congruence. subst a'.
  f_equal.
  - transitivity (s' + a * x - a * x)%F; [rewrite Ea; ring|ring].
  - transitivity (t' + ls_r M res' * x - ls_r M res' * x)%F; [rewrite Er; ring|ring].
Qed.

(** ** Quadratic proofs *)
Lemma hit3 (L a b c : G) : exists s, gadd (gadd (gadd (gmul base s) a) b) c = L.
Proof. destruct (proj1 Hbase (gadd L (gopp (gadd (gadd a b) c)))) as [s E]. exists s. rewrite E. gsolve. Qed.
Lemma once3 (s s' : F) (a b c : G) : gadd (gadd (gadd (gmul base s) a) b) c = gadd (gadd (gadd (gmul base s') a) b) c -> s = s'.
Proof.
  intros E. apply (once s s' a (gadd b c)). assert (R : forall u : G, gadd (gadd u a) (gadd b c) = gadd (gadd (gadd u a) b) c) by (intros u; gsolve). now rewrite !R.
Qed.
Lemma quad_hit m : forall fuel Fg st gs as_ hs bs r n Ls Rs,
  (m <= fuel)%nat -> rounds m n -> length gs = n -> length hs = n -> length as_ = n -> length bs = n -> length Ls = m -> length Rs = m ->
  forallb nzb (fst (run_chals M st n Ls Rs)) = true ->
  exists bl res, proveQuadratic_loop base M fuel Fg bl st gs as_ hs bs r n (2 ^ m / 2) = Ret res /\ qs_Ls M res = Ls /\ qs_Rs M res = Rs.
Proof.
  induction m as [|m IH]; intros fuel Fg st gs as_ hs bs r n Ls Rs Hf Hr Hg Hh Ha Hb HL HR Hz.
  - apply length_zero_iff_nil in HL, HR. subst Ls Rs. apply rounds_0 in Hr. rewrite Hr in *.
    exists (fun _ => (0%F, 0%F)). eexists. split; [destruct fuel; reflexivity|]. split; reflexivity.
  - destruct Ls as [|L Ls]; [discriminate HL|]. destruct Rs as [|R Rs]; [discriminate HR|]. injection HL as HL. injection HR as HR.
    destruct fuel as [|fuel]; [lia|]. destruct (rounds_S m n Hr) as (A1 & A2 & A3 & A4 & A5 & A6). rewrite A4.
    destruct (hit3 L (gdot (skipn (2 ^ m) gs) as_) (gdot hs (skipn (2 ^ m) bs)) (gmul Fg (dot as_ (skipn (2 ^ m) bs)))) as [s Es].
    destruct (hit3 R (gdot gs (skipn (2 ^ m) as_)) (gdot (skipn (2 ^ m) hs) bs) (gmul Fg (dot (skipn (2 ^ m) as_) bs))) as [t Et].
    cbn [run_chals] in Hz. destruct (m_chal M _ _) as [x st'] eqn:Ec. rewrite HL in Hz.
    destruct (run_chals M st' (2 ^ m) Ls Rs) as [xs st''] eqn:Er. cbn [fst forallb] in Hz. apply andb_true_iff in Hz as [Hx Hz].
    destruct (IH fuel Fg st' (fold1 gs (2 ^ m) x) (foldF as_ (2 ^ m) (finv x)) (fold1 hs (2 ^ m) (finv x)) (foldF bs (2 ^ m) x) (r + (s * x + t * finv x))%F (2 ^ m)%nat Ls Rs)
      as (bl & res & E & EL & ER); try assumption; try lia; try (apply fold1_length; lia); try (apply foldF_length; lia). { now rewrite Er. }
    exists (fun i => match i with O => (s, t) | S j => bl j end). eexists. split.
    { rewrite proveQuadratic_loop_eq by lia. cbn [fst snd]. cbv zeta.
      change (QL base Fg gs hs as_ bs (2 ^ m) s) with (gadd (gadd (gadd (gmul base s) (gdot (skipn (2 ^ m) gs) as_)) (gdot hs (skipn (2 ^ m) bs))) (gmul Fg (dot as_ (skipn (2 ^ m) bs)))).
      change (QR base Fg gs hs as_ bs (2 ^ m) t) with (gadd (gadd (gadd (gmul base t) (gdot gs (skipn (2 ^ m) as_))) (gdot (skipn (2 ^ m) hs) bs)) (gmul Fg (dot (skipn (2 ^ m) as_) bs))).
      rewrite Es, Et, Ec, finvert_nzb, Hx. cbn [obind].
      match goal with |- context [proveQuadratic_loop base M fuel Fg ?f] => change f with bl end. rewrite E. cbn [obind]. reflexivity. }
    cbn [qs_Ls qs_Rs]. now rewrite EL, ER.
Qed.
Lemma quad_once m : forall fuel Fg bl bl' st gs as_ hs bs r n res res',
  (m <= fuel)%nat -> rounds m n -> length gs = n -> length hs = n -> length as_ = n -> length bs = n ->
  proveQuadratic_loop base M fuel Fg bl st gs as_ hs bs r n (2 ^ m / 2) = Ret res ->
  proveQuadratic_loop base M fuel Fg bl' st gs as_ hs bs r n (2 ^ m / 2) = Ret res' ->
  qs_Ls M res = qs_Ls M res' -> qs_Rs M res = qs_Rs M res' -> same_upto m bl bl' /\ res = res'.
Proof.
  induction m as [|m IH]; intros fuel Fg bl bl' st gs as_ hs bs r n res res' Hf Hr Hg Hh Ha Hb E E' EL ER.
  - apply rounds_0 in Hr. rewrite Hr in *. split; [intros i Hi; lia|].
    assert (Q : forall b, proveQuadratic_loop base M fuel Fg b st gs as_ hs bs r 1 (2 ^ 0 / 2) = Ret (QPState M st as_ bs gs hs r [] [])) by (intros b; destruct fuel; reflexivity).
    rewrite Q in E, E'. congruence.
  - destruct fuel as [|fuel]; [lia|]. destruct (rounds_S m n Hr) as (A1 & A2 & A3 & A4 & A5 & A6). rewrite A4 in E, E'.
    rewrite proveQuadratic_loop_eq in E by lia. rewrite proveQuadratic_loop_eq in E' by lia. cbv zeta in E, E'.
    destruct (m_chal M (m_point M (m_point M st (nlabel n ++ "L") (QL base Fg gs hs as_ bs (2 ^ m) (fst (bl 0%nat)))) "R" (QR base Fg gs hs as_ bs (2 ^ m) (snd (bl 0%nat)))) "x") as [x st1] eqn:Ec.
    destruct (m_chal M (m_point M (m_point M st (nlabel n ++ "L") (QL base Fg gs hs as_ bs (2 ^ m) (fst (bl' 0%nat)))) "R" (QR base Fg gs hs as_ bs (2 ^ m) (snd (bl' 0%nat)))) "x") as [x' st1'] eqn:Ec'.
    apply obind_ret_inv in E as (xi & Ei & E). apply obind_ret_inv in E as (q & Eq & E). injection E as <-.
    apply obind_ret_inv in E' as (xi' & Ei' & E'). apply obind_ret_inv in E' as (q' & Eq' & E'). injection E' as <-.
    cbn [qs_Ls qs_Rs] in EL, ER. injection EL as EL0 EL. injection ER as ER0 ER.
    pose proof (once3 _ _ _ _ _ EL0) as Hs. pose proof (once3 _ _ _ _ _ ER0) as Ht. rewrite <- Hs, <- Ht, Ec in Ec'. injection Ec' as <- <-.
    assert (xi' = xi) by congruence. subst xi'. rewrite <- Hs, <- Ht in Eq'.
    eapply IH in Eq' as [HI Hq]; [|lia|exact A5|apply fold1_length; lia|apply fold1_length; lia|apply foldF_length; lia|apply foldF_length; lia|exact Eq|exact EL|exact ER].
    split. { intros [|i] Hi; [|apply (HI i); lia]. destruct (bl 0%nat), (bl' 0%nat); cbn [fst snd] in *; congruence. }
    subst q'. now rewrite EL0, ER0.
Qed.
(** The last challenge is not zero. *)
Definition last_nz st n (pf : quadpf G) : Prop := forall Fg st1 xs st2 x st3, m_gen M (m_point M st "C" (qpC pf)) "F" = (Fg, st1) ->
  run_chals M st1 n (qpLs pf) (qpRs pf) = (xs, st2) -> m_chal M (m_point M (m_point M st2 "S1" (qpS1 pf)) "S2" (qpS2 pf)) "x" = (x, st3) -> x <> 0%F.
Lemma chal_ok_last st n pf : chal_ok M -> last_nz st n pf.
Proof. intros H Fg st1 xs st2 x st3 _ _ E. specialize (H (m_point M (m_point M st2 "S1" (qpS1 pf)) "S2" (qpS2 pf)) "x"%string). now rewrite E in H. Qed.
Theorem quadratic_hit as_ bs gs hs n eq st offu offv r C pf :
  (1 <= n)%nat -> Z.of_nat n <= 2 ^ 63 -> length as_ = n -> length bs = n -> length gs = n -> length hs = n -> off_ok offu n -> off_ok offv n ->
  dot as_ bs = eq -> C = gadd (gadd (gadd (gmul base r) (gdot gs as_)) (gdot hs bs)) (gadd (off_val gs offu) (off_val hs offv)) ->
  last_nz st n pf -> qpC pf = C -> verifyQuadratic base M pf gs hs n eq st offu offv = Ret true ->
  exists bl blST blUV, proveQuadratic base M C r st bl blST blUV gs as_ hs bs n = Ret pf.
Proof.
  intros H1 H63 Ha Hb Hg Hh Hou Hov Heq HC Hok EC EV. pose proof (fuel_ok n H1 H63) as Hfuel. destruct (rounds_log n H1 H63) as [Hr Hn2].
  assert (HLR : length (qpLs pf) = log2roundUpN n /\ length (qpRs pf) = log2roundUpN n).
  { unfold verifyQuadratic in EV. destruct (m_gen M _ _) as [Fg st1]. destruct (negb _ || negb _) eqn:Q; [discriminate EV|].
    apply orb_false_iff in Q as [Q1 Q2]. rewrite negb_false_iff, Nat.eqb_eq in Q1, Q2. split; assumption. }
  destruct HLR as [HL HR].
  destruct (verifyQuadratic_char base M pf gs hs n eq st offu offv H1 H63 Hg Hh Hou Hov HL HR) as (Fg & st1 & xs & st2 & x & st3 & V1 & V2 & V3 & V4 & V5 & V6).
  destruct (forallb nzb xs) eqn:Z1; [|rewrite V5 in EV by reflexivity; discriminate EV].
  destruct (V6 eq_refl) as (b0 & Eb & Hb0). rewrite EV in Eb. injection Eb as <-. apply proj1 in Hb0. specialize (Hb0 eq_refl).
  pose proof (Hok _ _ _ _ _ _ V1 V2 V3) as Hx.
  destruct (quad_hit (log2roundUpN n) n Fg st1 gs as_ hs bs r n (qpLs pf) (qpRs pf) Hfuel Hr Hg Hh Ha Hb HL HR) as (bl & res & E & EL & ER). { now rewrite V2. }
  destruct (quad_loop Hp base M (log2roundUpN n) n Fg bl st1 gs as_ hs bs r n Hfuel Hr Hg Hh Ha Hb) as [[E' _]|(res' & E' & Hres)]; [congruence|].
  assert (res' = res) by congruence. subst res'. clear E'.
  destruct Hres as (xs' & a & b & g & h & R1 & R2 & R3 & R4 & R5 & R5h & R6 & R6h & R7 & R8 & R9 & R10).
  rewrite EL, ER, V2 in *. injection R10 as <- E1.
  set (s := ((qpa pf - a) * finv x)%F). set (t := ((qpb pf - b) * finv x)%F).
  destruct (proj1 Hbase (gadd (qpS2 pf) (gopp (gmul Fg (s * t)%F)))) as [v Ev].
  set (u := ((qpr pf - qs_r M res) * finv x - v * x)%F).
  exists bl, (s, t), (u, v). unfold proveQuadratic. rewrite <- EC at 1. rewrite V1, Hn2, E. cbn [obind]. unfold proveQuadratic_last.
  rewrite R3, R4, R5, R5h. cbn [oget nth_error obind].
  assert (Xa : (a + s * x = qpa pf)%F) by (unfold s; field; exact Hx).
  assert (Xb : (b + t * x = qpb pf)%F) by (unfold t; field; exact Hx).
  assert (Xr : (qs_r M res + (u + v * x) * x = qpr pf)%F) by (unfold u; field; exact Hx).
  assert (ES2 : gadd (gmul base v) (gmul Fg (s * t)%F) = qpS2 pf) by (rewrite Ev; gsolve).
  assert (ES1 : gadd (gadd (gadd (gmul base u) (gmul g s)) (gmul h t)) (gmul Fg (a * t + b * s)%F) = qpS1 pf).
  { unfold quad_eqn in Hb0. rewrite EC in Hb0. destruct (rounds_zvec _ _ xs Hr R1) as [A B]. rewrite <- Hg in A, B.
    destruct (fold_all_gdot xs gs A B) as [_ EG]. rewrite EG, R6 in Hb0.
    destruct (rounds_zvec _ _ (map finv xs) Hr ltac:(rewrite map_length; exact R1)) as [A' B']. rewrite <- Hh in A', B'.
    destruct (fold_all_gdot (map finv xs) hs A' B') as [_ EH]. rewrite EH, R6h in Hb0. cbn [gdot] in Hb0.
    assert (EC2 : gadd (gadd C (gmul Fg eq)) (addLR (qpLs pf) (qpRs pf) xs) = gadd (qcom base Fg (qs_r M res) [g] [h] [a] [b]) (gadd (off_val gs offu) (off_val hs offv))).
    { rewrite <- R9, HC, <- Heq. unfold qcom. gsolve. }
    rewrite EC2 in Hb0. unfold qcom in Hb0. cbn [gdot dot] in Hb0. rewrite <- ES2, <- Xa, <- Xb, <- Xr in Hb0.
    match type of Hb0 with gadd ?w (gmul (gadd ?s1 ?s2) _) = ?z => assert (K : s1 = gadd (gmul (gadd z (gopp w)) (finv x)) (gopp s2)) end.
    { rewrite <- Hb0. assert (Xi : (x * finv x = 1)%F) by (field; exact Hx). gred; try ring; try (rewrite ?Xi; ring); field; exact Hx. }
    rewrite K. gred; try ring; field; exact Hx. }
  rewrite ES1, ES2, <- E1, V3, Xa, Xb, Xr, EL, ER. destruct pf as [pC pL pR pS1 pS2 pa pb pr]. cbn [qpC qpLs qpRs qpS1 qpS2 qpa qpb qpr] in *. now rewrite EC.
Qed.
Theorem quadratic_once as_ bs gs hs n st r C bl bl' blST blST' blUV blUV' pf :
  (1 <= n)%nat -> Z.of_nat n <= 2 ^ 63 -> length as_ = n -> length bs = n -> length gs = n -> length hs = n -> last_nz st n pf ->
  proveQuadratic base M C r st bl blST blUV gs as_ hs bs n = Ret pf -> proveQuadratic base M C r st bl' blST' blUV' gs as_ hs bs n = Ret pf ->
  same_upto (log2roundUpN n) bl bl' /\ blST = blST' /\ blUV = blUV'.
Proof.
  intros H1 H63 Ha Hb Hg Hh Hok E E'. pose proof (fuel_ok n H1 H63) as Hfuel. destruct (rounds_log n H1 H63) as [Hr Hn2].
  unfold proveQuadratic in E, E'. destruct (m_gen M _ _) as [Fg st1] eqn:EF. rewrite Hn2 in E, E'.
  apply obind_ret_inv in E as (res & E1 & E). apply obind_ret_inv in E' as (res' & E1' & E').
  unfold proveQuadratic_last in E, E'. destruct blST as [s t], blST' as [s' t'], blUV as [u v], blUV' as [u' v'].
  apply obind_ret_inv in E as (g & E2 & E). apply obind_ret_inv in E' as (g' & E2' & E').
  apply obind_ret_inv in E as (h & E2h & E). apply obind_ret_inv in E' as (h' & E2h' & E').
  apply obind_ret_inv in E as (a & E4 & E). apply obind_ret_inv in E' as (a' & E4' & E').
  apply obind_ret_inv in E as (b & E3 & E). apply obind_ret_inv in E' as (b' & E3' & E').
  destruct (m_chal M (m_point M (m_point M (qs_st M res) _ _) _ _) _) as [x st3] eqn:Ec. destruct (m_chal M (m_point M (m_point M (qs_st M res') _ _) _ _) _) as [x' st3'] eqn:Ec'.
  injection E as <-. assert (E0 : forall u v : quadpf G, Ret u = Ret v -> u = v) by congruence. apply E0 in E'. clear E0.
  pose proof (f_equal qpLs E') as EL. pose proof (f_equal qpRs E') as ER. pose proof (f_equal qpS1 E') as ES1. pose proof (f_equal qpS2 E') as ES2.
  pose proof (f_equal qpa E') as Ea. pose proof (f_equal qpb E') as Eb. pose proof (f_equal qpr E') as Er.
  cbn [qpLs qpRs qpS1 qpS2 qpa qpb qpr] in EL, ER, ES1, ES2, Ea, Eb, Er.
  destruct (quad_once (log2roundUpN n) n Fg bl bl' st1 gs as_ hs bs r n res res' Hfuel Hr Hg Hh Ha Hb E1 E1') as [HS ->]; [congruence|congruence|].
  split; [exact HS|]. rewrite ES1, ES2 in Ec'. assert (x' = x) by congruence. subst x'. assert (a' = a) by congruence. subst a'. assert (b' = b) by congruence. subst b'.
  assert (Hx : x <> 0%F).
  { destruct (quad_loop Hp base M (log2roundUpN n) n Fg bl st1 gs as_ hs bs r n Hfuel Hr Hg Hh Ha Hb) as [[Q _]|(q & Q & Hq)]; [congruence|].
    rewrite E1 in Q. injection Q as <-. destruct Hq as (xs & ? & ? & ? & ? & _ & _ & _ & _ & _ & _ & _ & _ & _ & _ & _ & R10).
    eapply Hok; cbn [qpC qpLs qpRs qpS1 qpS2]; [exact EF|exact R10|exact Ec]. }
  assert (Cm : forall c y z : F, (c + y * x = c + z * x)%F -> y = z).
  { intros c y z Q. transitivity ((c + y * x - c) * finv x)%F; [field; exact Hx|]. rewrite Q. field. exact Hx. }
  assert (Hs : s = s') by (symmetry; exact (Cm _ _ _ Ea)). assert (Ht : t = t') by (symmetry; exact (Cm _ _ _ Eb)). subst s' t'. split; [reflexivity|].
  assert (Hv : v = v').
  { apply (proj2 Hbase). apply (gadd_cancel_l (gmul Fg (s * t)%F)). rewrite !(gadd_comm (gmul Fg (s * t)%F)). now symmetry. }
  subst v'. pose proof (Cm _ _ _ Er) as Q. f_equal. transitivity (u' + v * x - v * x)%F; [rewrite Q; ring|ring].
Qed.

(** ** The simulators' transcripts are accepted *)
Lemma weights_zvec (xs : list F) : weights xs = zvec xs.
Proof. reflexivity. Qed.
Lemma sim_lin_ok Fg C bs gs n eq off xs x Ls Rs a r : (1 <= n)%nat -> Z.of_nat n <= 2 ^ 63 -> length bs = n -> length gs = n -> off_ok off n ->
  length xs = log2roundUpN n -> length Ls = log2roundUpN n -> length Rs = log2roundUpN n -> Forall (fun y => y <> 0%F) (x :: xs) ->
  verifyLinear base (script Fg) (simLinear base Fg C bs gs eq off xs x Ls Rs a r) bs gs n eq (xs ++ [x]) off = Ret true.
Proof.
  intros H1 H63 Hb Hg Ho Hx HL HR Hz. inversion_clear Hz as [|y l Z1 Z2]. set (pf := simLinear _ _ _ _ _ _ _ _ _ _ _ _ _).
  destruct (verifyLinear_char Hp base (script Fg) pf bs gs n eq (xs ++ [x]) off H1 H63 Hb Hg Ho HL HR) as (Fg' & st1 & xs' & st2 & x' & st3 & V1 & V2 & V3 & V4 & V5 & V6).
  cbn [script m_gen m_point] in V1. injection V1 as <- <-. cbn [pf simLinear lpLs lpRs] in V2.
  rewrite (BulletproofSound.run_script Fg n xs [x] Ls Rs) in V2 by congruence. injection V2 as <- <-. cbn [script m_chal m_point] in V3. injection V3 as <- <-.
  assert (Q : forallb nzb xs && nzb x = true).
  { apply andb_true_iff. split; [|now apply nzb_true]. apply forallb_forall. intros y Hy. rewrite Forall_forall in Z2. apply nzb_true. auto. }
  destruct (V6 Q) as (b & -> & Hb'). f_equal. apply Hb'. unfold lin_eqn, pf, simLinear. cbn [lpC lpLs lpRs lpS lpa lpr]. unfold addLR.
  change (off_val gs off) with (offp gs off). change (zvec xs) with (weights xs). gsolve.
Qed.
Lemma sim_quad_ok Fg C gs hs n eq offu offv xs x Ls Rs S2 a b r : (1 <= n)%nat -> Z.of_nat n <= 2 ^ 63 -> length gs = n -> length hs = n -> off_ok offu n -> off_ok offv n ->
  length xs = log2roundUpN n -> length Ls = log2roundUpN n -> length Rs = log2roundUpN n -> Forall (fun y => y <> 0%F) (x :: xs) ->
  verifyQuadratic base (script Fg) (simQuadratic base Fg C gs hs eq offu offv xs x Ls Rs S2 a b r) gs hs n eq (xs ++ [x]) offu offv = Ret true.
Proof.
  intros H1 H63 Hg Hh Hou Hov Hx HL HR Hz. inversion_clear Hz as [|y l Z1 Z2]. set (pf := simQuadratic _ _ _ _ _ _ _ _ _ _ _ _ _ _ _ _).
  destruct (verifyQuadratic_char base (script Fg) pf gs hs n eq (xs ++ [x]) offu offv H1 H63 Hg Hh Hou Hov HL HR) as (Fg' & st1 & xs' & st2 & x' & st3 & V1 & V2 & V3 & V4 & V5 & V6).
  cbn [script m_gen m_point] in V1. injection V1 as <- <-. cbn [pf simQuadratic qpLs qpRs] in V2.
  rewrite (BulletproofSound.run_script Fg n xs [x] Ls Rs) in V2 by congruence. injection V2 as <- <-. cbn [script m_chal m_point] in V3. injection V3 as <- <-.
  assert (Q : forallb nzb xs = true). { apply forallb_forall. intros y Hy. rewrite Forall_forall in Z2. apply nzb_true. auto. }
  destruct (V6 Q) as (b' & -> & Hb'). f_equal. apply Hb'. unfold quad_eqn, pf, simQuadratic. cbn [qpC qpLs qpRs qpS1 qpS2 qpa qpb qpr]. unfold addLR.
  change (off_val gs offu) with (offp gs offu). change (off_val hs offv) with (offp hs offv). change (zvec xs) with (weights xs). change (zvec (map finv xs)) with (weights (map finv xs)).
  gred; try ring; field; exact Z1.
Qed.
Lemma sim_quad_nz Fg C gs hs n eq offu offv xs x Ls Rs S2 a b r : x <> 0%F -> length Ls = length xs -> length Rs = length xs ->
  forall pf, qpLs pf = Ls -> qpRs pf = Rs -> pf = simQuadratic base Fg C gs hs eq offu offv xs x Ls Rs S2 a b r ->
  forall Fg' st1 xs' st2 x' st3, m_gen (script Fg) (m_point (script Fg) (xs ++ [x]) "C" (qpC pf)) "F" = (Fg', st1) ->
  run_chals (script Fg) st1 n (qpLs pf) (qpRs pf) = (xs', st2) -> m_chal (script Fg) (m_point (script Fg) (m_point (script Fg) st2 "S1" (qpS1 pf)) "S2" (qpS2 pf)) "x" = (x', st3) -> x' <> 0%F.
Proof.
  intros Hx HL HR pf E1 E2 _ Fg' st1 xs' st2 x' st3 V1 V2 V3. cbn [script m_gen m_point] in V1. injection V1 as <- <-. rewrite E1, E2 in V2.
  rewrite (BulletproofSound.run_script Fg n xs [x] Ls Rs) in V2 by congruence. injection V2 as <- <-. cbn [script m_chal m_point] in V3. injection V3 as <- <-. exact Hx.
Qed.
End Zk.
