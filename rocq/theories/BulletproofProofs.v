(** Completeness of the linear and quadratic proofs, and shape checks. *)
From Coq Require Import String.
From Coq Require Import ZArith Znumtheory List Bool Lia Ring Field.
From Verif Require Import Outcome Fp GroupMod FSum ConstraintsModel PedersenModel PedersenSpec
  PedersenProofs BulletproofModel.
Import ListNotations.
Open Scope Z_scope.

Section Arith.
Context {p : Z} {G : gmod p}.
Notation F := (Fp p).
Add Ring FpRa : (@Fp_ring p).
Implicit Types gs hs : list G.

Lemma gdot_F (a b : list F) : @gdot p (Fp_gmod p) a b = dot a b.
Proof. reflexivity. Qed.

Definition zipF (lo hi : list F) : list F := @zip_add p (Fp_gmod p) lo hi.
Lemma zipF_length lo hi : length (zipF lo hi) = length lo.
Proof. apply (@zip_add_length p (Fp_gmod p)). Qed.

Lemma gdot_zip_r gs (lo hi : list F) : (length hi <= length lo)%nat ->
  gdot gs (zipF lo hi) = gadd (gdot gs lo) (gdot gs hi).
Proof.
  unfold zipF. revert lo hi. induction gs as [|g gs IH]; intros lo hi Hl; [cbn; gsolve|].
  destruct lo as [|a lo], hi as [|b hi]; cbn [zip_add gdot length] in *; try lia; try gsolve.
  rewrite IH by lia. change (@gadd p (Fp_gmod p) a b) with (a + b)%F. gsolve.
Qed.

Lemma gdot_fold (glo ghi : list G) (alo ahi : list F) (x y : F) :
  (length ghi <= length glo)%nat -> (length ahi <= length alo)%nat ->
  gdot (zip_add glo (map (fun g => gmul g x) ghi)) (zipF alo (map (fun a => (a * y)%F) ahi))
  = gadd (gadd (gdot glo alo) (gmul (gdot ghi alo) x))
         (gadd (gmul (gdot glo ahi) y) (gmul (gdot ghi ahi) (x * y)%F)).
Proof.
  intros Hg Ha. rewrite gdot_zip_add by (rewrite map_length; exact Hg).
  rewrite !gdot_zip_r by (rewrite map_length; exact Ha).
  rewrite !gdot_scale_gen, !gdot_scale. gsolve.
Qed.
End Arith.

Section Arith2.
Context {p : Z}.
Notation F := (Fp p).
Lemma dot_fold (blo bhi alo ahi : list F) (x y : F) :
  (length bhi <= length blo)%nat -> (length ahi <= length alo)%nat ->
  dot (zipF blo (map (fun g => (g * x)%F) bhi)) (zipF alo (map (fun a => (a * y)%F) ahi))
  = (dot blo alo + dot bhi alo * x + (dot blo ahi * y + dot bhi ahi * (x * y)))%F.
Proof.
  intros H1 H2. rewrite <- !gdot_F. exact (@gdot_fold p (Fp_gmod p) blo bhi alo ahi x y H1 H2).
Qed.
Lemma fold_dot (a b : list F) c :
  fold_left (fun c e => (c + fst e * snd e)%F) (combine a b) c = (c + dot a b)%F.
Proof. rewrite <- gdot_F. exact (@fold_gdot p (Fp_gmod p) a b c). Qed.
Add Ring FpRb : (@Fp_ring p).
Lemma innerProd_ret (a b : list F) n : (n <= length a)%nat -> (n <= length b)%nat ->
  innerProd a b n = Ret (dot (firstn n a) (firstn n b)).
Proof.
  intros H1 H2. unfold innerProd. rewrite !sub_ret by lia. cbn [obind skipn].
  rewrite fold_dot. f_equal. ring.
Qed.
Lemma foldScalars_ret (v : list F) n x m : (m <= n)%nat -> n = length v ->
  foldScalars v n x m = Ret (zipF (firstn m v) (map (fun a => (a * x)%F) (skipn m v))).
Proof.
  intros Hm ->. unfold foldScalars. rewrite !sub_ret by lia. cbn [obind skipn].
  rewrite (firstn_all2 (skipn m v)) by (rewrite skipn_length; lia). reflexivity.
Qed.
Lemma dot_split (a b : list F) m : length a = length b ->
  dot a b = (dot (firstn m a) (firstn m b) + dot (skipn m a) (skipn m b))%F.
Proof.
  intros Hl. rewrite <- (firstn_skipn m a) at 1. rewrite <- (firstn_skipn m b) at 1.
  apply dot_app. rewrite !firstn_length. lia.
Qed.
Lemma dot_firstn_r (a b : list F) : dot a b = dot a (firstn (length a) b).
Proof. rewrite <- !gdot_F. apply (@gdot_firstn_r p (Fp_gmod p)). Qed.
Lemma dot_firstn_l (a b : list F) : dot a b = dot (firstn (length b) a) b.
Proof. rewrite <- !gdot_F. apply (@gdot_firstn p (Fp_gmod p)). Qed.
End Arith2.

Section Arith3.
Context {p : Z} {G : gmod p}.
Notation F := (Fp p).
Implicit Types gs : list G.
Lemma gdot_split gs (b : list F) m : length gs = length b ->
  gdot gs b = gadd (gdot (firstn m gs) (firstn m b)) (gdot (skipn m gs) (skipn m b)).
Proof.
  intros Hl. rewrite <- (firstn_skipn m gs) at 1. rewrite <- (firstn_skipn m b) at 1.
  apply gdot_app. rewrite !firstn_length. lia.
Qed.
Lemma multiExp_lo gs (xs : list F) m : (m <= length gs)%nat -> (m <= length xs)%nat ->
  multiExp gs m xs = Ret (gdot (firstn m gs) xs).
Proof.
  intros H1 H2. rewrite multiExp_ret by assumption. f_equal.
  rewrite (gdot_firstn_r _ xs), firstn_length. now rewrite Nat.min_l by assumption.
Qed.
End Arith3.

(** [rounds m n]: n > 1 has m = ceil(log2 n) halving rounds. *)
Definition rounds (m n : nat) : Prop := (1 <= n <= 2 ^ m)%nat /\ (m = 0 \/ 2 ^ (m - 1) < n)%nat.
Lemma rounds_log n : (1 <= n)%nat -> Z.of_nat n <= 2 ^ 63 -> rounds (log2roundUpN n) n /\
  next2powerN n = (2 ^ log2roundUpN n)%nat.
Proof.
  intros H1 H2. destruct (log2N_bounds n H1 H2) as (A & B & C). unfold rounds. repeat split; assumption.
Qed.
Lemma rounds_0 n : rounds 0 n -> n = 1%nat.
Proof. intros [H _]. cbn in H. lia. Qed.
Lemma rounds_S m n : rounds (S m) n ->
  (1 < n)%nat /\ (2 ^ m < n)%nat /\ (n <= 2 * 2 ^ m)%nat /\ (2 ^ S m / 2 = 2 ^ m)%nat /\ rounds m (2 ^ m) /\ (0 < 2 ^ m)%nat.
Proof.
  intros [H1 H2]. replace (S m - 1)%nat with m in H2 by lia.
  pose proof (Nat.pow_nonzero 2 m ltac:(lia)). cbn [Nat.pow] in H1. destruct H2 as [|H2]; [lia|].
  split; [lia|]. split; [assumption|]. split; [lia|].
  split; [cbn [Nat.pow]; rewrite Nat.mul_comm, Nat.div_mul by lia; reflexivity|].
  split; [|lia]. split; [lia|]. destruct m as [|m]; [now left|right].
  cbn [Nat.pow]. replace (S m - 1)%nat with m by lia. pose proof (Nat.pow_nonzero 2 m). lia.
Qed.

Section Complete.
Context {p : Z} {G : gmod p}.
Variable Hp : prime p.
Notation F := (Fp p).
Add Field FpFc : (Fp_field Hp).
Implicit Types gs hs : list G.
Variable base : G.
Variable M : merlin G.

(** all challenges are non-zero *)
Definition chal_ok : Prop := forall st l, fst (m_chal M st l) <> 0%F.

Definition com (Fg : G) (r : F) gs (as_ bs : list F) : G :=
  gadd (gadd (gmul base r) (gdot gs as_)) (gmul Fg (dot bs as_)).
Definition addLR (Ls Rs : list G) (xs : list F) : G :=
  gadd (gdot Ls xs) (gdot Rs (map finv xs)).

(** One folding round. *)
Definition LL (Fg : G) gs (as_ bs : list F) h (s : F) : G :=
  gadd (gadd (gmul base s) (gdot (skipn h gs) as_)) (gmul Fg (dot (skipn h bs) as_)).
Definition RR (Fg : G) gs (as_ bs : list F) h (t : F) : G :=
  gadd (gadd (gmul base t) (gdot gs (skipn h as_))) (gmul Fg (dot bs (skipn h as_))).
Definition fold1 gs h (x : F) : list G := zip_add (firstn h gs) (map (fun g => gmul g x) (skipn h gs)).
Definition foldF (v : list F) h (x : F) : list F := zipF (firstn h v) (map (fun a => (a * x)%F) (skipn h v)).

Lemma gdot_lo gs (as_ : list F) h n : length gs = n -> length as_ = n -> (h <= n)%nat -> (n <= 2 * h)%nat ->
  gdot (skipn h gs) as_ = gdot (skipn h gs) (firstn h as_).
Proof.
  intros H1 H2 H3 H4. rewrite (gdot_firstn_r _ as_), (gdot_firstn_r _ (firstn h as_)).
  rewrite firstn_firstn. f_equal. f_equal. rewrite skipn_length. lia.
Qed.
Lemma gdot_lo2 gs (as_ : list F) h n : length gs = n -> length as_ = n -> (h <= n)%nat -> (n <= 2 * h)%nat ->
  gdot gs (skipn h as_) = gdot (firstn h gs) (skipn h as_).
Proof.
  intros H1 H2 H3 H4. rewrite (gdot_firstn gs), (gdot_firstn (firstn h gs)).
  rewrite firstn_firstn. f_equal. f_equal. rewrite skipn_length. lia.
Qed.
Lemma com_fold Fg r gs as_ bs h n s t x :
  length gs = n -> length as_ = n -> length bs = n -> (h <= n)%nat -> (n <= 2 * h)%nat -> x <> 0%F ->
  gadd (com Fg r gs as_ bs)
       (gadd (gmul (LL Fg gs as_ bs h s) x) (gmul (RR Fg gs as_ bs h t) (finv x)))
  = com Fg (r + (s * x + t * finv x))%F (fold1 gs h x) (foldF as_ h (finv x)) (foldF bs h x).
Proof.
  intros Hg Ha Hb Hh Hn Hx. unfold com, LL, RR, fold1, foldF.
  rewrite gdot_fold by (rewrite ?skipn_length, ?firstn_length; lia).
  rewrite dot_fold by (rewrite ?skipn_length, ?firstn_length; lia).
  rewrite (gdot_split gs as_ h) by lia. rewrite (dot_split bs as_ h) by lia.
  rewrite (gdot_lo gs as_ h n), (gdot_lo2 gs as_ h n) by assumption.
  pose proof (@gdot_firstn_r p (Fp_gmod p) (skipn h bs) as_) as E1.
  assert (E2 : dot (skipn h bs) as_ = dot (skipn h bs) (firstn h as_)).
  { rewrite (dot_firstn_r _ as_), (dot_firstn_r _ (firstn h as_)). rewrite firstn_firstn. f_equal. f_equal.
    rewrite skipn_length. lia. }
  assert (E3 : dot bs (skipn h as_) = dot (firstn h bs) (skipn h as_)).
  { rewrite (dot_firstn_l bs), (dot_firstn_l (firstn h bs)). rewrite firstn_firstn. f_equal. f_equal.
    rewrite skipn_length. lia. }
  rewrite E2, E3. clear E1 E2 E3.
  assert (Ex : (x * finv x = 1)%F) by (field; assumption).
  rewrite Ex. gred; try ring; field; assumption.
Qed.

Lemma proveLinear_loop_eq fuel Fg bl st as_ bs gs r n h :
  (1 < n)%nat -> (h <= n)%nat -> (n <= 2 * h)%nat ->
  length gs = n -> length as_ = n -> length bs = n ->
  proveLinear_loop base M (S fuel) Fg bl st as_ bs gs r n h =
  let L := LL Fg gs as_ bs h (fst (bl O)) in
  let R := RR Fg gs as_ bs h (snd (bl O)) in
  let '(x, st) := m_chal M (m_point M (m_point M st (nlabel n ++ "L") L) "R" R) "x" in
  let! xInv := finvert x in
  let! res := proveLinear_loop base M fuel Fg (fun i => bl (S i)) st (foldF as_ h xInv) (foldF bs h x)
                (fold1 gs h x) (r + (fst (bl O) * x + snd (bl O) * xInv))%F h (h / 2) in
  Ret (LPState M (ls_st M res) (ls_as M res) (ls_bs M res) (ls_gs M res) (ls_r M res)
         (L :: ls_Ls M res) (R :: ls_Rs M res)).
Proof.
  intros H1 H2 H3 Hg Ha Hb. cbn [proveLinear_loop].
  replace (n <=? 1)%nat with false by (symmetry; apply Nat.leb_gt; lia).
  destruct (bl O) as [s t]. cbn [fst snd].
  rewrite (multiExp_ret (skipn h gs)) by (rewrite ?skipn_length; lia). cbn [obind].
  rewrite (innerProd_ret (skipn h bs)) by (rewrite ?skipn_length; lia). cbn [obind].
  rewrite (multiExp_ret gs) by (rewrite ?skipn_length; lia). cbn [obind].
  rewrite (innerProd_ret bs) by (rewrite ?skipn_length; lia). cbn [obind].
  assert (E1 : forall A (l : list A), length l = n -> firstn (n - h) (skipn h l) = skipn h l).
  { intros A l Hl. apply firstn_all2. rewrite skipn_length. lia. }
  rewrite !E1 by assumption.
  assert (E2 : gdot (skipn h gs) (firstn (n - h) as_) = gdot (skipn h gs) as_).
  { rewrite (gdot_firstn_r _ as_). f_equal. f_equal. rewrite skipn_length. lia. }
  assert (E3 : dot (skipn h bs) (firstn (n - h) as_) = dot (skipn h bs) as_).
  { rewrite (dot_firstn_r _ as_). f_equal. f_equal. rewrite skipn_length. lia. }
  assert (E4 : gdot (firstn (n - h) gs) (skipn h as_) = gdot gs (skipn h as_)).
  { rewrite (gdot_firstn gs). f_equal. f_equal. rewrite skipn_length. lia. }
  assert (E5 : dot (firstn (n - h) bs) (skipn h as_) = dot bs (skipn h as_)).
  { rewrite (dot_firstn_l bs). f_equal. f_equal. rewrite skipn_length. lia. }
  rewrite E2, E3, E4, E5.
  fold (LL Fg gs as_ bs h s). fold (RR Fg gs as_ bs h t).
  destruct (m_chal M _ _) as [x st']. destruct (finvert x) as [xi| | |]; cbn [obind]; try reflexivity.
  rewrite !foldScalars_ret by lia. cbn [obind]. rewrite foldGenerators_ret by lia. reflexivity.
Qed.

Lemma fold1_length gs h x : (h <= length gs)%nat -> length (fold1 gs h x) = h.
Proof. intros H. unfold fold1. rewrite zip_add_length, firstn_length. lia. Qed.
Lemma foldF_length v h x : (h <= length v)%nat -> length (foldF v h x) = h.
Proof. intros H. unfold foldF. rewrite zipF_length, firstn_length. lia. Qed.

Definition lin_loop_ok fuel Fg st as_ bs gs r n h m (res : lpstate M) : Prop :=
  exists xs a b g,
    length xs = m /\ Forall (fun x => x <> 0%F) xs /\
    ls_as M res = [a] /\ ls_bs M res = [b] /\ ls_gs M res = [g] /\
    fold_all xs gs = [g] /\
    length (ls_Ls M res) = m /\ length (ls_Rs M res) = m /\
    gadd (com Fg r gs as_ bs) (addLR (ls_Ls M res) (ls_Rs M res) xs)
      = com Fg (ls_r M res) [g] [a] [b] /\
    forall preL preR, length preL = length preR ->
      verifyLinear_loop M fuel st (preL ++ ls_Ls M res) (preR ++ ls_Rs M res) bs n h (length preL)
      = Ret (ls_st M res, xs, map finv xs, [b]).

Lemma list1 {A} (l : list A) : length l = 1%nat -> exists a, l = [a].
Proof. destruct l as [|a [|b l]]; cbn; intros; try discriminate; eauto. Qed.

Lemma finvert_cases (x : F) : (x = 0%F /\ finvert x = Throw) \/ (x <> 0%F /\ finvert x = Ret (finv x)).
Proof.
  destruct (fp_dec x 0%F) as [->|H]; [left; split; [reflexivity|now apply finvert_throw]|right; split; [assumption|now apply (finvert_ret Hp)]].
Qed.

Lemma verifyLinear_loop_eq fuel st Ls Rs bs n h ii L R :
  (1 < n)%nat -> (h <= n)%nat -> length bs = n ->
  nth_error Ls ii = Some L -> nth_error Rs ii = Some R ->
  verifyLinear_loop M (S fuel) st Ls Rs bs n h ii =
  let '(x, st) := m_chal M (m_point M (m_point M st (nlabel n ++ "L") L) "R" R) "x" in
  let! xInv := finvert x in
  let! res := verifyLinear_loop M fuel st Ls Rs (foldF bs h x) h (h / 2) (S ii) in
  let '(st', xes, xInvs, bsf) := res in
  Ret (st', x :: xes, xInv :: xInvs, bsf).
Proof.
  intros H1 H2 Hb HL HR. cbn [verifyLinear_loop].
  replace (n <=? 1)%nat with false by (symmetry; apply Nat.leb_gt; lia).
  unfold oget. rewrite HL, HR. cbn [obind]. destruct (m_chal M _ _) as [x st'].
  destruct (finvert x); cbn [obind]; try reflexivity.
  rewrite foldScalars_ret by lia. reflexivity.
Qed.

Lemma lin_loop m : forall fuel Fg bl st as_ bs gs r n,
  (m <= fuel)%nat -> rounds m n -> length gs = n -> length as_ = n -> length bs = n ->
  (proveLinear_loop base M fuel Fg bl st as_ bs gs r n (2 ^ m / 2) = Throw /\ ~ chal_ok) \/
  exists res, proveLinear_loop base M fuel Fg bl st as_ bs gs r n (2 ^ m / 2) = Ret res /\
    lin_loop_ok fuel Fg st as_ bs gs r n (2 ^ m / 2) m res.
Proof.
  induction m as [|m IH]; intros fuel Fg bl st as_ bs gs r n Hf Hr Hg Ha Hb.
  - apply rounds_0 in Hr. rewrite Hr in *. clear Hr. right.
    destruct (list1 _ Hg) as [g ->]. destruct (list1 _ Ha) as [a ->]. destruct (list1 _ Hb) as [b ->].
    exists (LPState M st [a] [b] [g] r [] []). split; [destruct fuel; reflexivity|].
    exists [], a, b, g. cbn [ls_as ls_bs ls_gs ls_Ls ls_Rs ls_r ls_st].
    repeat split; try reflexivity; try constructor.
    + unfold addLR. cbn. gsolve.
    + intros. destruct fuel; reflexivity.
  - destruct fuel as [|fuel]; [lia|].
    destruct (rounds_S m n Hr) as (A1 & A2 & A3 & A4 & A5 & A6). rewrite A4.
    rewrite proveLinear_loop_eq by lia. cbv zeta.
    set (L := LL Fg gs as_ bs (2 ^ m) (fst (bl 0%nat))). set (R := RR Fg gs as_ bs (2 ^ m) (snd (bl 0%nat))).
    destruct (m_chal M _ _) as [x st'] eqn:Ec.
    destruct (finvert_cases x) as [[Hx ->]|[Hx Ei]].
    { left. split; [reflexivity|]. intros Hok. specialize (Hok (m_point M (m_point M st (nlabel n ++ "L") L) "R" R) "x"%string).
      rewrite Ec in Hok. now apply Hok. }
    rewrite Ei. cbn [obind].
    destruct (IH fuel Fg (fun i => bl (S i)) st' (foldF as_ (2 ^ m) (finv x)) (foldF bs (2 ^ m) x)
      (fold1 gs (2 ^ m) x) (r + (fst (bl O) * x + snd (bl O) * finv x))%F (2 ^ m)%nat)
      as [[-> Hbad]|(res & -> & Hres)]; try lia; try assumption;
      try (apply fold1_length; lia); try (apply foldF_length; lia).
    { left. split; [reflexivity|assumption]. }
    right. cbn [obind]. eexists. split; [reflexivity|].
    destruct Hres as (xs & a & b & g & R1 & R2 & R3 & R4 & R5 & R6 & R7 & R8 & R9 & R10).
    exists (x :: xs), a, b, g. cbn [ls_as ls_bs ls_gs ls_Ls ls_Rs ls_r ls_st].
    split; [cbn; lia|]. split; [now constructor|]. repeat split; try assumption.
    + cbn [fold_all]. rewrite R1. exact R6.
    + cbn [length]. lia.
    + cbn [length]. lia.
    + rewrite <- R9. rewrite <- (com_fold Fg r gs as_ bs (2 ^ m) n (fst (bl 0%nat)) (snd (bl 0%nat)) x) by (assumption || lia).
      fold L R. unfold addLR. cbn [map gdot]. gsolve.
    + intros preL preR Hpre.
      rewrite (verifyLinear_loop_eq fuel st _ _ bs n (2 ^ m) (length preL) L R); try lia.
      2:{ rewrite nth_error_app2, Nat.sub_diag by lia. reflexivity. }
      2:{ rewrite nth_error_app2 by lia. rewrite Hpre, Nat.sub_diag. reflexivity. }
      rewrite Ec, Ei. cbn [obind].
      specialize (R10 (preL ++ [L]) (preR ++ [R])). rewrite !app_length in R10. cbn [length] in R10.
      rewrite <- !app_assoc in R10. cbn [app] in R10.
      replace (length preL + 1)%nat with (S (length preL)) in R10 by lia.
      rewrite R10 by lia. reflexivity.
Qed.

(** ** Exact description of the verifier *)
Definition nzb (x : F) : bool := negb (feqb x 0%F).
Lemma nzb_true x : nzb x = true <-> x <> 0%F.
Proof. unfold nzb. rewrite negb_true_iff. apply feqb_neq. Qed.
Lemma finvert_nzb x : finvert x = if nzb x then Ret (finv x) else Throw.
Proof. unfold finvert, nzb. destruct (feqb x 0%F); reflexivity. Qed.

(** The challenges of the halving rounds, given the L's and R's. *)
Fixpoint run_chals (st : mst M) (n : nat) (Ls Rs : list G) : list F * mst M :=
  match Ls, Rs with
  | L :: Ls', R :: Rs' =>
      let '(x, st') := m_chal M (m_point M (m_point M st (nlabel n ++ "L") L) "R" R) "x" in
      let '(xs, st'') := run_chals st' (2 ^ length Ls') Ls' Rs' in (x :: xs, st'')
  | _, _ => ([], st)
  end.
Lemma run_chals_length st n Ls Rs : length Ls = length Rs -> length (fst (run_chals st n Ls Rs)) = length Ls.
Proof.
  revert st n Rs. induction Ls as [|L Ls IH]; intros st n [|R Rs] Hl; cbn in *; try discriminate; [reflexivity|].
  destruct (m_chal M _ _) as [x st']. specialize (IH st' (2 ^ length Ls)%nat Rs ltac:(lia)).
  destruct (run_chals st' _ Ls Rs). cbn in *. lia.
Qed.

Lemma vlin_loop m : forall fuel st Ls Rs preL preR bs n,
  (m <= fuel)%nat -> rounds m n -> length bs = n -> length Ls = m -> length Rs = m ->
  length preL = length preR ->
  verifyLinear_loop M fuel st (preL ++ Ls) (preR ++ Rs) bs n (2 ^ m / 2) (length preL) =
  let '(xs, st') := run_chals st n Ls Rs in
  if forallb nzb xs then Ret (st', xs, map finv xs, @fold_all p (Fp_gmod p) xs bs) else Throw.
Proof.
  induction m as [|m IH]; intros fuel st Ls Rs preL preR bs n Hf Hr Hb HL HR Hpre.
  - apply length_zero_iff_nil in HL. apply length_zero_iff_nil in HR. rewrite HL, HR.
    apply rounds_0 in Hr. rewrite Hr in *. destruct fuel; reflexivity.
  - destruct Ls as [|L Ls]; [discriminate|]. destruct Rs as [|R Rs]; [discriminate|].
    cbn [length] in HL, HR. injection HL as HL. injection HR as HR.
    destruct fuel as [|fuel]; [lia|].
    destruct (rounds_S m n Hr) as (A1 & A2 & A3 & A4 & A5 & A6). rewrite A4.
    rewrite (verifyLinear_loop_eq fuel st _ _ bs n (2 ^ m) (length preL) L R); try lia.
    2:{ rewrite nth_error_app2, Nat.sub_diag by lia. reflexivity. }
    2:{ rewrite nth_error_app2 by lia. rewrite Hpre, Nat.sub_diag. reflexivity. }
    cbn [run_chals]. destruct (m_chal M _ _) as [x st'].
    rewrite finvert_nzb. destruct (nzb x) eqn:Ex.
    2:{ cbn [obind]. destruct (run_chals st' _ Ls Rs). cbn [forallb]. rewrite Ex. reflexivity. }
    cbn [obind]. specialize (IH fuel st' Ls Rs (preL ++ [L]) (preR ++ [R]) (foldF bs (2 ^ m) x) (2 ^ m)%nat).
    rewrite !app_length in IH. cbn [length] in IH. rewrite <- !app_assoc in IH. cbn [app] in IH.
    replace (length preL + 1)%nat with (S (length preL)) in IH by lia.
    rewrite IH; try lia; try assumption; [|apply foldF_length; lia].
    rewrite HL. pose proof (run_chals_length st' (2 ^ m) Ls Rs ltac:(lia)) as Hlx.
    destruct (run_chals st' (2 ^ m) Ls Rs) as [xs st'']. cbn [fst] in Hlx.
    cbn [forallb map fold_all]. rewrite Ex, Hlx, HL. cbn [andb].
    destruct (forallb nzb xs); reflexivity.
Qed.

Lemma rounds_zvec m n (xs : list F) (H : rounds m n) : length xs = m ->
  (1 <= n <= 2 ^ length xs)%nat /\ (2 ^ (length xs - 1) < n \/ xs = [])%nat.
Proof.
  intros Hl. destruct H as [H1 H2]. rewrite Hl. split; [assumption|].
  destruct H2 as [H2|H2]; [right; apply length_zero_iff_nil; lia|now left].
Qed.

Definition off_val gs (off : option (list F)) : G :=
  match off with None => gzero | Some o => gdot gs o end.
Definition off_ok (off : option (list F)) (n : nat) : Prop :=
  match off with None => True | Some o => length o = n end.

(** The verification equation of the linear proof: C is the commitment already
    including F*eq. *)
Definition lin_eqn (Fg : G) gs (bs : list F) off (C : G) Ls Rs xs S x a r : Prop :=
  gadd S (gmul (gadd C (addLR Ls Rs xs)) x)
  = gadd (gadd (gmul base r) (gmul Fg (a * dot bs (zvec xs))%F))
         (gadd (gmul (gdot gs (zvec xs)) a) (gmul (off_val gs off) x)).

Lemma fold_all_F (xs bs : list F) m n : rounds m n -> length xs = m -> length bs = n ->
  @fold_all p (Fp_gmod p) xs bs = [dot bs (zvec xs)].
Proof.
  intros Hr Hx Hb. destruct (rounds_zvec m n xs Hr Hx) as [A B].
  rewrite <- Hb in A, B.
  destruct (@fold_all_gdot p (Fp_gmod p) xs bs A B) as [E1 E2].
  apply list1 in E1. destruct E1 as [b E1]. rewrite E1 in *. f_equal.
  change (@gdot p (Fp_gmod p) bs (zvec xs)) with (dot bs (zvec xs)) in E2. rewrite E2.
  assert (E : forall b : F, b = (b * 1 + 0)%F) by (intros; ring). exact (E b).
Qed.
Lemma gmul_off gs (o : list F) x : gdot gs (map (fun v => (v * x)%F) o) = gmul (gdot gs o) x.
Proof. apply gdot_scale. Qed.

Lemma verifyLinear_char (pf : linpf G) bs gs n eq st off :
  (1 <= n)%nat -> Z.of_nat n <= 2 ^ 63 -> length bs = n -> length gs = n -> off_ok off n ->
  length (lpLs pf) = log2roundUpN n -> length (lpRs pf) = log2roundUpN n ->
  exists Fg st1 xs st2 x st3,
    m_gen M (m_point M st "C" (lpC pf)) "F" = (Fg, st1) /\
    run_chals st1 n (lpLs pf) (lpRs pf) = (xs, st2) /\
    m_chal M (m_point M st2 "S" (lpS pf)) "x" = (x, st3) /\
    length xs = log2roundUpN n /\
    (forallb nzb xs && nzb x = false -> verifyLinear base M pf bs gs n eq st off = Throw) /\
    (forallb nzb xs && nzb x = true ->
     exists b, verifyLinear base M pf bs gs n eq st off = Ret b /\
       (b = true <-> lin_eqn Fg gs bs off (gadd (lpC pf) (gmul Fg eq)) (lpLs pf) (lpRs pf) xs (lpS pf) x (lpa pf) (lpr pf))).
Proof.
  intros H1 H63 Hb Hg Ho HL HR. unfold verifyLinear.
  destruct (m_gen M _ _) as [Fg st1] eqn:EF.
  destruct (rounds_log n H1 H63) as [Hr Hn2].
  rewrite HL, HR, Nat.eqb_refl. cbn [negb orb]. rewrite Hn2.
  assert (Hfuel : (log2roundUpN n <= n)%nat).
  { destruct Hr as [_ [E|E]]; [lia|]. pose proof (Nat.pow_gt_lin_r 2 (log2roundUpN n - 1) ltac:(lia)). lia. }
  pose proof (vlin_loop (log2roundUpN n) n st1 (lpLs pf) (lpRs pf) [] [] bs n
     Hfuel Hr Hb HL HR eq_refl) as EV. cbn [app length] in EV.
  pose proof (run_chals_length st1 n (lpLs pf) (lpRs pf) ltac:(lia)) as Hlx.
  rewrite EV. destruct (run_chals st1 n (lpLs pf) (lpRs pf)) as [xs st2] eqn:ER. cbn [fst] in Hlx.
  destruct (m_chal M (m_point M st2 "S" (lpS pf)) "x") as [x st3] eqn:EX.
  exists Fg, st1, xs, st2, x, st3. split; [reflexivity|]. split; [exact ER|]. split; [exact EX|].
  split; [lia|]. destruct (forallb nzb xs); cbn [andb obind].
  2:{ split; [reflexivity|discriminate]. }
  rewrite (multiExp_all (lpLs pf)) by (rewrite ?map_length; lia). cbn [obind].
  rewrite (multiExp_all (lpRs pf)) by (rewrite ?map_length; lia). cbn [obind].
  rewrite EX, finvert_nzb.
  destruct (nzb x); cbn [obind]; [|split; [reflexivity|discriminate]].
  split; [discriminate|]. intros _.
  rewrite (fold_all_F xs bs (log2roundUpN n) n) by (assumption || lia).
  destruct off as [o|]; cbn [off_ok] in Ho.
  - rewrite sub_all by lia. cbn [obind].
    rewrite expSubsetProduct_off_ret by (rewrite ?map_length; lia). cbn [obind oget nth_error].
    eexists. split; [reflexivity|]. rewrite geqb_eq. unfold lin_eqn, off_val. rewrite gmul_off. reflexivity.
  - cbn [obind]. rewrite expSubsetProduct_ret by (auto; lia). cbn [obind oget nth_error].
    eexists. split; [reflexivity|]. rewrite geqb_eq. unfold lin_eqn, off_val.
    rewrite gmul_0_l, gadd_0_r. reflexivity.
Qed.

(** ** Completeness of the linear proof *)
Lemma gadd_comm_off (C D : G) : gadd (gadd C D) (gopp D) = C.
Proof. gsolve. Qed.

Theorem linear_complete as_ bs gs n eq st off r bl blS C :
  (1 <= n)%nat -> Z.of_nat n <= 2 ^ 63 ->
  length as_ = n -> length bs = n -> length gs = n -> off_ok off n ->
  dot bs as_ = eq ->
  C = gadd (gadd (gmul base r) (gdot gs as_)) (off_val gs off) ->
  (proveLinear base M C r st bl blS as_ bs gs n = Throw /\ ~ chal_ok) \/
  exists pf, proveLinear base M C r st bl blS as_ bs gs n = Ret pf /\ lpC pf = C /\
    length (lpLs pf) = log2roundUpN n /\ length (lpRs pf) = log2roundUpN n /\
    (verifyLinear base M pf bs gs n eq st off = Ret true \/
     (verifyLinear base M pf bs gs n eq st off = Throw /\ ~ chal_ok)).
Proof.
  intros H1 H63 Ha Hb Hg Ho Heq HC. unfold proveLinear.
  destruct (m_gen M (m_point M st "C" C) "F") as [Fg st1] eqn:EF.
  destruct (rounds_log n H1 H63) as [Hr Hn2]. rewrite Hn2.
  assert (Hfuel : (log2roundUpN n <= n)%nat).
  { destruct Hr as [_ [E|E]]; [lia|]. pose proof (Nat.pow_gt_lin_r 2 (log2roundUpN n - 1) ltac:(lia)). lia. }
  destruct (lin_loop (log2roundUpN n) n Fg bl st1 as_ bs gs r n Hfuel Hr Hg Ha Hb) as [[-> Hbad]|(res & -> & Hres)].
  { left. split; [reflexivity|exact Hbad]. }
  right. destruct Hres as (xs & a & b & g & R1 & R2 & R3 & R4 & R5 & R6 & R7 & R8 & R9 & R10).
  destruct blS as [s t]. cbn [obind]. rewrite R5, R4, R3. cbn [oget nth_error obind].
  set (S := gadd (gadd (gmul g s) (gmul Fg (s * b)%F)) (gmul base t)).
  destruct (m_chal M (m_point M (ls_st M res) "S" S) "x") as [x st3] eqn:EX.
  eexists. split; [reflexivity|]. cbn [lpC lpLs lpRs]. split; [reflexivity|].
  split; [assumption|]. split; [assumption|].
  set (pf := LinPf C (ls_Ls M res) (ls_Rs M res) S (s + a * x)%F (t + ls_r M res * x)%F).
  destruct (verifyLinear_char pf bs gs n eq st off H1 H63 Hb Hg Ho R7 R8)
    as (Fg' & st1' & xs' & st2' & x' & st3' & V1 & V2 & V3 & V4 & V5 & V6).
  cbn [pf lpC lpLs lpRs lpS] in V1, V2, V3. rewrite EF in V1. injection V1 as <- <-.
  specialize (R10 [] [] eq_refl). cbn [app length] in R10.
  pose proof (vlin_loop (log2roundUpN n) n st1 (ls_Ls M res) (ls_Rs M res) [] [] bs n
     Hfuel Hr Hb R7 R8 eq_refl) as EV. cbn [app length] in EV. rewrite V2 in EV.
  rewrite R10 in EV. destruct (forallb nzb xs') eqn:Enz; [|discriminate].
  injection EV as E1 E2 E3 E4. rewrite <- E2, <- E1 in *. rewrite EX in V3. injection V3 as <- <-.
  destruct (nzb x) eqn:Ex; cbn [andb] in V5, V6.
  - left. destruct (V6 eq_refl) as (bb & -> & Hbb). f_equal. apply Hbb.
    unfold lin_eqn. cbn [pf lpC lpLs lpRs lpS lpa lpr].
    rewrite (fold_all_F xs bs (log2roundUpN n) n Hr R1 Hb) in E4. injection E4 as E4.
    rewrite <- E4.
    destruct (rounds_zvec _ _ xs Hr R1) as [A B]. rewrite <- Hg in A, B.
    destruct (fold_all_gdot xs gs A B) as [_ EG]. rewrite EG, R6.
    assert (EC : gadd C (gmul Fg eq) = gadd (com Fg r gs as_ bs) (off_val gs off)).
    { rewrite HC, <- Heq. unfold com. gsolve. }
    rewrite EC.
    assert (ER : gadd (gadd (com Fg r gs as_ bs) (off_val gs off)) (addLR (ls_Ls M res) (ls_Rs M res) xs)
      = gadd (com Fg (ls_r M res) [g] [a] [b]) (off_val gs off)) by (rewrite <- R9; gsolve).
    rewrite ER. unfold S, com. cbn [gdot dot]. gsolve.
  - right. split; [now apply V5|]. intros Hok. specialize (Hok (m_point M (ls_st M res) "S" S) "x"%string).
    rewrite EX in Hok. cbn [fst] in Hok. apply nzb_true in Hok. congruence.
Qed.
End Complete.
