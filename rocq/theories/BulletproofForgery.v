(** A cheating prover for the quadratic proof when the vector length is not a
    power of two: it proves <a,b> = eq for an arbitrary eq. *)
From Coq Require Import String.
From Coq Require Import ZArith Znumtheory List Bool Lia Ring Field.
From Verif Require Import Outcome Fp GroupMod FSum ConstraintsModel PedersenModel PedersenSpec
  PedersenProofs BulletproofModel BulletproofProofs BulletproofQuad.
Import ListNotations.
Open Scope Z_scope.

Section Cheat.
Context {p : Z} {G : gmod p}.
Notation F := (Fp p).
Variable base : G.
Variable M : merlin G.

(** unit vector: zeros, then c *)
Definition uvec (k : nat) (c : F) : list F := repeat 0%F k ++ [c].

(** The first round deviates from proveQuadratic in the last coordinate of the
    lower half, which has no partner in the upper half: an extra multiple of its
    G generator goes into L and of its H generator into R.  The rest is honest. *)
Definition cheatQuadratic (C : G) (r : F) (st : mst M) (bl : nat -> F * F) (blST blUV : F * F)
    (gs : list G) (as_ : list F) (hs : list G) (bs : list F) (n : nat) (delta : F)
  : outcome (quadpf G) :=
  let st := m_point M st "C" C in
  let '(Fg, st) := m_gen M st "F" in
  let h := (next2powerN n / 2)%nat in
  let '(s, t) := bl O in
  let L := gadd (QL base Fg gs hs as_ bs h s)
             (gadd (nth (h - 1) gs gzero) (gmul Fg (nth (h - 1) bs 0%F))) in
  let R := gadd (QR base Fg gs hs as_ bs h t)
             (gadd (gmul (nth (h - 1) hs gzero) delta) (gmul Fg (nth (h - 1) as_ 0 * delta)%F)) in
  let '(x, st) := m_chal M (m_point M (m_point M st (nlabel n ++ "L") L) "R" R) "x" in
  let! xInv := finvert x in
  let! res := proveQuadratic_loop base M h Fg (fun i => bl (S i)) st
                (fold1 gs h x) (vadd (foldF as_ h xInv) (uvec (h - 1) x))
                (fold1 hs h xInv) (vadd (foldF bs h x) (uvec (h - 1) (xInv * delta)%F))
                (r + (s * x + t * xInv))%F h (h / 2) in
  proveQuadratic_last base M C Fg blST blUV
    (QPState M (qs_st M res) (qs_as M res) (qs_bs M res) (qs_gs M res) (qs_hs M res) (qs_r M res)
       (L :: qs_Ls M res) (R :: qs_Rs M res)).

Variable Hp : prime p.
Add Field FpFx : (Fp_field Hp).
Implicit Types gs hs : list G.

Lemma uvec_length k c : length (uvec k c) = S k.
Proof. unfold uvec. rewrite app_length, repeat_length. cbn. lia. Qed.
Lemma gdot_uvec gs k c : gdot gs (uvec k c) = gmul (nth k gs gzero) c.
Proof.
  unfold uvec. revert gs; induction k as [|k IH]; intros [|g gs]; cbn; try gsolve.
  - rewrite gdot_nil_r. gsolve.
  - rewrite IH. gsolve.
Qed.
Lemma nth_fold1 gs h x k : (length gs - h <= k)%nat -> (k < h)%nat -> nth k (fold1 gs h x) gzero = nth k gs gzero.
Proof.
  unfold fold1. intros H1 H2.
  assert (E : forall (lo hi : list G) k, (length hi <= k)%nat -> nth k (zip_add lo hi) gzero = nth k lo gzero).
  { induction lo as [|g lo IH]; intros [|g' hi] k' Hk; cbn in *; try reflexivity. destruct k'; [lia|]. apply IH. lia. }
  rewrite E by (rewrite map_length, skipn_length; lia).
  rewrite <- (firstn_skipn h gs) at 2. destruct (le_lt_dec (length gs) k) as [Hl|Hl].
  - rewrite (nth_overflow (firstn h gs)) by (rewrite firstn_length; lia).
    rewrite nth_overflow; [reflexivity|]. rewrite app_length, firstn_length, skipn_length. lia.
  - rewrite app_nth1; [reflexivity|]. rewrite firstn_length. lia.
Qed.
End Cheat.

Section Cheat2.
Context {p : Z} {G : gmod p}.
Notation F := (Fp p).
Variable Hp : prime p.
Add Field FpFy : (Fp_field Hp).
Implicit Types gs hs : list G.
Variable base : G.
Variable M : merlin G.

Lemma dot_uvec (v : list F) k c : dot v (uvec k c) = (nth k v 0 * c)%F.
Proof. rewrite <- gdot_F. apply (@gdot_uvec p (Fp_gmod p) Hp). Qed.
Lemma nth_foldF (v : list F) h x k : (length v - h <= k)%nat -> (k < h)%nat -> nth k (foldF v h x) 0%F = nth k v 0%F.
Proof. apply (@nth_fold1 p (Fp_gmod p)). Qed.
Lemma dot_vadd_r (a b c : list F) : length b = length c -> dot a (vadd b c) = (dot a b + dot a c)%F.
Proof. intros H. rewrite <- !gdot_F. apply (@gdot_vadd p (Fp_gmod p) a b c H). Qed.
Lemma nth_uvec k (c : F) : nth k (uvec k c) 0%F = c.
Proof. unfold uvec. rewrite app_nth2; rewrite repeat_length; [|lia]. now rewrite Nat.sub_diag. Qed.

Theorem quadratic_forgery as_ bs gs hs n delta st offu offv r bl blST blUV C :
  (1 <= n)%nat -> Z.of_nat n <= 2 ^ 63 -> (forall k, n <> 2 ^ k)%nat ->
  length as_ = n -> length bs = n -> length gs = n -> length hs = n -> off_ok offu n -> off_ok offv n ->
  C = gadd (gadd (gadd (gmul base r) (gdot gs as_)) (gdot hs bs)) (gadd (off_val gs offu) (off_val hs offv)) ->
  chal_ok M ->
  exists pf, cheatQuadratic base M C r st bl blST blUV gs as_ hs bs n delta = Ret pf /\ qpC pf = C /\
    verifyQuadratic base M pf gs hs n (dot as_ bs + delta)%F st offu offv = Ret true.
Proof.
  intros H1 H63 Hnp Ha Hb Hg Hh Hou Hov HC Hok. unfold cheatQuadratic.
  destruct (m_gen M (m_point M st "C" C) "F") as [Fg st1] eqn:EF.
  destruct (rounds_log n H1 H63) as [Hr Hn2]. rewrite Hn2.
  destruct (log2roundUpN n) as [|m] eqn:Elog.
  { apply rounds_0 in Hr. exfalso. apply (Hnp 0%nat). exact Hr. }
  destruct (rounds_S m n Hr) as (A1 & A2 & A3 & A4 & A5 & A6). rewrite A4.
  assert (A7 : (n < 2 * 2 ^ m)%nat).
  { specialize (Hnp (S m)). cbn [Nat.pow] in Hnp. lia. }
  set (h := (2 ^ m)%nat) in *. destruct (bl O) as [s t] eqn:Ebl.
  set (L := gadd (QL base Fg gs hs as_ bs h s) _). set (R := gadd (QR base Fg gs hs as_ bs h t) _).
  destruct (m_chal M (m_point M (m_point M st1 (nlabel n ++ "L") L) "R" R) "x") as [x st'] eqn:Ec.
  assert (Hx : x <> 0%F).
  { specialize (Hok (m_point M (m_point M st1 (nlabel n ++ "L") L) "R" R) "x"%string).
    now rewrite Ec in Hok. }
  destruct (finvert_cases Hp x) as [[? _]|[_ Ei]]; [contradiction|]. rewrite Ei. cbn [obind].
  assert (HhF : forall (v : list F) y, length v = n -> length (foldF v h y) = h) by (intros; apply foldF_length; lia).
  assert (Hu : forall c : F, length (uvec (h - 1) c) = h) by (intros; rewrite uvec_length; lia).
  set (as' := vadd (foldF as_ h (finv x)) (uvec (h - 1) x)).
  set (bs' := vadd (foldF bs h x) (uvec (h - 1) (finv x * delta)%F)).
  assert (Has' : length as' = h) by (unfold as'; rewrite vadd_length; rewrite HhF, ?Hu by assumption; reflexivity).
  assert (Hbs' : length bs' = h) by (unfold bs'; rewrite vadd_length; rewrite HhF, ?Hu by assumption; reflexivity).
  set (r' := (r + (s * x + t * finv x))%F).
  assert (Hhm : (m <= h)%nat) by (pose proof (Nat.pow_gt_lin_r 2 m ltac:(lia)); unfold h; lia).
  destruct (quad_loop Hp base M m h Fg (fun i => bl (S i)) st' (fold1 gs h x) as' (fold1 hs h (finv x)) bs' r' h Hhm A5
     (fold1_length gs h x ltac:(lia)) (fold1_length hs h (finv x) ltac:(lia)) Has' Hbs')
    as [[_ Hbad]|(res & Eres & Hres)]; [contradiction|].
  fold h in Eres. rewrite Eres. cbn [obind].
  destruct Hres as (xs & a & b & g & hh & R1 & R2 & R3 & R4 & R5 & R5h & R6 & R6h & R7 & R8 & R9 & R10).
  set (res' := QPState _ _ _ _ _ _ _ _ _).
  assert (HG : forall A (l : list A), length l = n -> (length l - h <= h - 1)%nat) by (intros; lia).
  assert (ELR : gadd (gadd (qcom base Fg r gs hs as_ bs) (gmul Fg delta))
                     (gadd (gmul L x) (gmul R (finv x)))
                = qcom base Fg r' (fold1 gs h x) (fold1 hs h (finv x)) as' bs').
  { assert (EH := qcom_fold Hp base Fg r gs hs as_ bs h n s t x Hg Hh Ha Hb ltac:(lia) ltac:(lia) Hx).
    fold r' in EH.
    assert (EQ : qcom base Fg r' (fold1 gs h x) (fold1 hs h (finv x)) as' bs'
      = gadd (qcom base Fg r' (fold1 gs h x) (fold1 hs h (finv x)) (foldF as_ h (finv x)) (foldF bs h x))
          (gadd (gadd (gmul (nth (h - 1) gs gzero) x) (gmul (nth (h - 1) hs gzero) (finv x * delta)%F))
            (gmul Fg (nth (h - 1) bs 0 * x + nth (h - 1) as_ 0 * (finv x * delta) + delta)%F))).
    { unfold qcom, as', bs'.
      rewrite !gdot_vadd by (rewrite HhF, Hu by assumption; reflexivity).
      rewrite !(gdot_uvec Hp), !nth_fold1 by lia.
      rewrite dot_vadd_r by (rewrite HhF, Hu by assumption; reflexivity).
      rewrite !(dot_comm (vadd _ _)).
      rewrite !dot_vadd_r by (rewrite HhF, Hu by assumption; reflexivity).
      rewrite !dot_uvec, nth_foldF by lia.
      rewrite (dot_comm (uvec _ _) (foldF as_ _ _)), dot_uvec, nth_foldF by lia.
      rewrite nth_uvec, (dot_comm (foldF bs h x)).
      gred; try ring; field; assumption. }
    rewrite EQ, <- EH. unfold L, R. gred; try ring; field; assumption. }
  destruct (quad_last Hp base M Fg C (gadd (qcom base Fg r gs hs as_ bs) (gmul Fg delta)) st1 gs hs n res' blST blUV offu offv
    (x :: xs) a b g hh (dot as_ bs + delta)%F st) as (pf & P1 & P2 & P3 & P4 & P5); try assumption;
    unfold res'; cbn [qs_as qs_bs qs_gs qs_hs qs_Ls qs_Rs qs_r qs_st length]; try assumption; try (rewrite ?Elog; lia).
  - now constructor.
  - cbn [fold_all]. rewrite R1. exact R6.
  - cbn [fold_all map]. rewrite map_length, R1. exact R6h.
  - rewrite HC. unfold qcom. gsolve.
  - rewrite <- R9, <- ELR. unfold addLR. cbn [map gdot]. gsolve.
  - cbn [run_chals]. rewrite Ec, R7. fold h. rewrite R10. reflexivity.
  - exists pf. repeat split; assumption.
Qed.
End Cheat2.
