(** Vocabulary for the properties of the proof steps: what a commitment opens
    to, what the witness holds for a variable, compressed-noise equations. *)
From Coq Require Import String.
From Coq Require Import ZArith List Bool.
From Verif Require Import Outcome Fp FSum GroupMod Ring ConstraintsModel ConstraintsSpec FourSquaresModel BulletproofModel
  AlgebraModel AlgebraSpec TernaryModel TernarySpec RegevModel RegevPfModel RegevPfSpec.
Import ListNotations.
Open Scope Z_scope.

Section S.
Context {p : Z} {ell : nat} {G : gmod p}.
Notation F := (Fp p).
Notation E := (elt p ell).

(** Dimensions and radix make sense (regevProofs.hpp 50-56, 165). *)
Definition wf_cfg (c : cfg ell G) : Prop :=
  (0 < ell)%nat /\ Nat.divide ell 4 /\ Nat.divide ell (JLDIM c) /\ Nat.divide ell (LINYDIM c) /\
  (0 < JLDIM c)%nat /\ (0 < LINYDIM c)%nat /\
  0 < kay (cgk c) /\ 0 < enn (cgk c) /\ 0 < tee (cgk c) /\ 2 < p /\ 2 <= radix c < p.
(** The transcript delivers bytes. *)
Definition byte_transcript (R : rmerlin G) : Prop := forall m l n, bytes (fst (rm_bytes R m l n)).

(** C is base*r + sum_i v_i G_{i0+i}, there being enough generators; the same
    with G_i + H_i. *)
Definition is_com1 (c : cfg ell G) (i0 : Z) (v : list F) (r : F) (C : G) : Prop :=
  (Z.to_nat i0 + length v <= length (cGs c))%nat /\
  C = gadd (gmul (cbase c) r) (gdot (skipn (Z.to_nat i0) (cGs c)) v).
Definition is_com2 (c : cfg ell G) (i0 : Z) (v : list F) (r : F) (C : G) : Prop :=
  (Z.to_nat i0 + length v <= length (cGs c))%nat /\ (Z.to_nat i0 + length v <= length (cHs c))%nat /\
  C = gadd (gmul (cbase c) r) (gadd (gdot (skipn (Z.to_nat i0) (cGs c)) v) (gdot (skipn (Z.to_nat i0) (cHs c)) v)).

Section St.
Context {R : rmerlin G}.
Variable c : cfg ell G.
Definition opens1 (st : @pstate p ell G R) (x : var) (v : list F) : Prop := is_com1 c (pidx st x) v (prnd st x) (pcom st x).
Definition opens2 (st : @pstate p ell G R) (x : var) (v : list F) : Prop := is_com2 c (pidx st x) v (prnd st x) (pcom st x).
(** The map m holds v from index i0 on. *)
Definition stores (m : pvec p) (i0 : Z) (v : list F) : Prop :=
  forall j, (j < length v)%nat -> In (i0 + Z.of_nat j) (keys m) /\ coef m (i0 + Z.of_nat j) = nth j v 0%F.
(** The compressed vectors agree with the witness for variable x. *)
Definition synced (st : @pstate p ell G R) (x : var) : Prop :=
  forall i, Z.of_nat i * Z.of_nat ell < clen c x ->
    nth_error (pcomp st) (Z.to_nat (pidx st x / Z.of_nat ell) + i) = Some (readV (coef (plinW st)) (pidx st x) i).
(** The states reachable as far as the data structures are concerned. *)
Definition wf_state (st : @pstate p ell G R) : Prop :=
  layout_of c (pidx st) /\ ksorted (plinW st) /\ ksorted (pqG st) /\ Forall wf_lin (plin st) /\ Forall wf_quad (pnorm st).

(** The range of variable x. *)
Definition in_var (st : @pstate p ell G R) (x : var) (k : Z) : Prop := pidx st x <= k < pidx st x + clen c x.
(** The i-th norm constraint mentions no variables other than those of x and
    its padding (as is the case initially, when it is empty). *)
Definition norm_fresh (st : @pstate p ell G R) (i : nat) (x xpad : var) : Prop :=
  exists q, nth_error (pnorm st) i = Some q /\ forall k, In k (qidx q) -> in_var st x k \/ in_var st xpad k.
(** decompose4 reports failure for the number needed to pad v to norm [bound]. *)
Definition pad_fails (v : list E) (bound : Z) : Prop :=
  decompose4 (cjac c) (cpp c) (csp c) (bound * bound - sum_sq (map balanced (coeffs_of v))) = Ret [-1; -1; -1; -1].
End St.
(** The ell constraints from off on have no terms. *)
Definition block_empty (cs : list (lincon p)) (off : nat) : Prop :=
  forall i, (i < ell)%nat -> exists e, nth_error cs (off + i) = Some (LinCon [] e).

(** sum_j x^j (comp_j - sum_i noise_i X_ij) = 0 *)
Definition compressed_eq (cols rows : nat) (x : E) (X : nat -> nat -> E) (comp noise : nat -> E) : Prop :=
  sumE cols (fun j => emul (epow x j) (esub (comp j) (sumE rows (fun i => emul (noise i) (X i j))))) = e0.
(** The matrix of ring elements whose digit matrices are the f k. *)
Definition Xent (f : nat -> nat -> nat -> Z) (i j : nat) : E := ofdigits (fun k => f k i j).
(** lo + radix*hi *)
Definition two_dig (c : cfg ell G) (w : Z -> F) (lo hi : Z) (j : nat) : E :=
  eadd (readV w lo j) (escale (toF p (radix c)) (readV w hi j)).
(** The vector of ring elements that the map m holds for a compressed variable. *)
Definition held (c : cfg ell G) (m : pvec p) (i0 : Z) : list E := map (readV (coef m) i0) (seq 0 (JLDIM c / ell)).

(** The i-th norm constraint is |x|^2 + |xpad|^2 = b^2, and it holds for the
    recorded witness or else the four squares for the padding were not found. *)
Definition norm_done {R : rmerlin G} (c : cfg ell G) (st' : @pstate p ell G R) (i : nat) (b : Z) (x xpad : var) : Prop :=
  exists q, nth_error (pnorm st') i = Some q /\ wf_quad q /\ qeq q = toF p (b * b) /\
    (forall k, In k (qidx q) <-> in_var c st' x k \/ in_var c st' xpad k) /\
    (quad_sat q (coef (pqG st')) (coef (pqG st')) \/ pad_fails c (held c (plinW st') (pidx st' x)) b).
(** Variable x has been committed to (one or two generators per scalar), with
    randomness r, and the witness holds the committed vector. *)
Definition committed1 {R : rmerlin G} (c : cfg ell G) (st' : @pstate p ell G R) (x : var) (r : F) : Prop :=
  exists v, Z.of_nat (length v) = clen c x /\ opens1 c st' x v /\ stores (plinW st') (pidx st' x) v /\ prnd st' x = r.
Definition committed2 {R : rmerlin G} (c : cfg ell G) (st' : @pstate p ell G R) (x : var) (r : F) : Prop :=
  exists v, Z.of_nat (length v) = clen c x /\ opens2 c st' x v /\ stores (plinW st') (pidx st' x) v /\
    stores (pqG st') (pidx st' x) v /\ prnd st' x = r.

(** A step from st to st' touches only: the witness of the variables ws (for
    those under norm constraints, also the second copy of it), the commitments to the variables cs, the norm constraints ns and the blocks of
    linear constraints at the offsets offs. *)
Definition step_frame {R : rmerlin G} (c : cfg ell G) (st st' : @pstate p ell G R) (ws cs : list var) (ns : list nat) (offs : list nat) : Prop :=
  pidx st' = pidx st /\ pqH st' = pqH st /\
  (forall k, (forall x, In x ws -> ~ in_var c st x k) -> coef (plinW st') k = coef (plinW st) k) /\
  (forall k, In k (keys (plinW st')) <-> In k (keys (plinW st)) \/ exists x, In x ws /\ in_var c st x k) /\
  (forall x, ~ In x cs -> pcom st' x = pcom st x /\ prnd st' x = prnd st x) /\
  (forall i, ~ In i ns -> nth_error (pnorm st') i = nth_error (pnorm st) i) /\
  (forall i, (forall o, In o offs -> ~ (o <= i < o + ell)%nat) -> nth_error (plin st') i = nth_error (plin st) i) /\
  length (plin st') = length (plin st) /\ length (pnorm st') = length (pnorm st) /\ length (pcomp st') = length (pcomp st) /\
  (forall x, is_norm x = true -> ~ In x ws -> synced c st x -> synced c st' x) /\
  (forall k, (forall x, In x ws -> is_norm x = true -> ~ in_var c st x k) -> coef (pqG st') k = coef (pqG st) k) /\
  (forall k, In k (keys (pqG st')) <-> In k (keys (pqG st)) \/ exists x, In x ws /\ is_norm x = true /\ in_var c st x k).

(** proveDecryption: its equation and its challenges. *)
Section Dec.
Context {R : rmerlin G}.
Variable c : cfg ell G.
Variables st st' : @pstate p ell G R.
(** ctVec_i - sum_k ctMat_ki sk_k - pt_i g *)
Definition dec_noise (ctMat : mat E) (ctVec : list E) (w : Z -> F) (i : nat) : E :=
  esub (esub (nth i ctVec e0) (sumE (Z.to_nat (kay (cgk c))) (fun k => emul (mget e0 ctMat k i) (readV w (pidx st Sk1) k))))
       (escale (w (pidx st Pt1 + Z.of_nat i)) (cg c)).
Definition dec_challenges (f : nat -> nat -> nat -> Z) (x : E) : Prop :=
  exists Ms m1, ternaryE (ell := ell) R (m_point R (pmer st) "RegevDecPtxt" (pcom st' Pt1)) "RegevDecX"
                  (Z.to_nat (tee (cgk c))) (JLDIM c / ell) = Ret (Ms, m1) /\
    is_temat ell Ms (Z.to_nat (tee (cgk c))) (JLDIM c / ell) f /\
    newElement R (m_point R (m_point R (m_point R (m_point R m1 "RegevDecCompHi" (pcom st' DCompHi))
       "RegevDecPadHi" (pcom st' DPadHi)) "RegevDecCompLo" (pcom st' DCompLo)) "RegevDecPadLo" (pcom st' DPadLo)) "RegevDec"
     = Ret (x, pmer st').
End Dec.

(** proveEncryption. *)
Section Enc.
Context {R : rmerlin G}.
Variable c : cfg ell G.
Variables st st' : @pstate p ell G R.
Notation kay' := (Z.to_nat (kay (cgk c))).
Notation enn' := (Z.to_nat (enn (cgk c))).
(** ct1_i - sum_k A_ik r_k *)
Definition enc_noise1 (ct1 : list E) (w : Z -> F) (i : nat) : E :=
  esub (nth i ct1 e0) (sumE kay' (fun k => emul (mget e0 (gkA (cgk c)) i k) (readV w (pidx st RR) k))).
(** ct2_i - sum_k B_ik r_k - pt_i g *)
Definition enc_noise2 (ct2 : list E) (w : Z -> F) (i : nat) : E :=
  esub (esub (nth i ct2 e0) (sumE kay' (fun k => emul (mget e0 (gkB (cgk c)) i k) (readV w (pidx st RR) k))))
       (escale (w (pidx st Pt2 + Z.of_nat i)) (cg c)).
Definition enc_absorbed (m : mst R) : mst R :=
  fold_left (fun m e => m_point R m (fst e) (pcom st' (snd e)))
    [("RegevEncR"%string, RComp); (""%string, RPad); ("RegevEnc1Hi"%string, EComp1Hi); (""%string, EPad1Hi);
     ("RegevEnc1Lo"%string, EComp1Lo); (""%string, EPad1Lo); ("RegevEnc2Hi"%string, EComp2Hi); (""%string, EPad2Hi);
     ("RegevEnc2Lo"%string, EComp2Lo); (""%string, EPad2Lo)] m.
Definition enc_challenges (f1 f2 f3 : nat -> nat -> nat -> Z) (x1 x2 x3 : E) : Prop :=
  exists X1 m1 X2 m2 X3 m3 m4 m5,
    ternaryE (ell := ell) R (m_point R (m_point R (pmer st) "RegevEncPtxt" (pcom st' Pt2)) "RegevEncRnd" (pcom st' RR))
      "RegevEncR1" (JLDIM c / ell) kay' = Ret (X1, m1) /\
    ternaryE (ell := ell) R m1 "RegevEncR2" (JLDIM c / ell) enn' = Ret (X2, m2) /\
    ternaryE (ell := ell) R m2 "RegevEncR3" (JLDIM c / ell) kay' = Ret (X3, m3) /\
    is_temat ell X1 (JLDIM c / ell) kay' f1 /\ is_temat ell X2 (JLDIM c / ell) enn' f2 /\ is_temat ell X3 (JLDIM c / ell) kay' f3 /\
    newElement R (enc_absorbed m3) "RegevEncChallenge1" = Ret (x1, m4) /\
    newElement R m4 "RegevEncChallenge2" = Ret (x2, m5) /\
    newElement R m5 "RegevEncChallenge3" = Ret (x3, pmer st').
End Enc.

(** proveKeyGen. *)
Section Key.
Context {R : rmerlin G}.
Variable c : cfg ell G.
Variables st st' : @pstate p ell G R.
Notation kay' := (Z.to_nat (kay (cgk c))).
(** B_{pkNum,i} - sum_k s_k A_ki *)
Definition key_noise (pkNum : nat) (w : Z -> F) (i : nat) : E :=
  esub (mget e0 (gkB (cgk c)) pkNum i) (sumE kay' (fun k => emul (mget e0 (gkA (cgk c)) k i) (readV w (pidx st Sk2) k))).
Definition key_absorbed (m : mst R) : mst R :=
  fold_left (fun m e => m_point R m (fst e) (pcom st' (snd e)))
    [("RegevKeyGenSK"%string, Sk2Comp); (""%string, Sk2Pad); ("RegevKGHi"%string, KCompHi); (""%string, KPadHi);
     ("RegevKGHi"%string, KCompLo); (""%string, KPadLo)] m.
Definition key_challenges (f1 f2 : nat -> nat -> nat -> Z) (x1 x2 : E) : Prop :=
  exists X1 m1 X2 m2 m3,
    ternaryE (ell := ell) R (m_point R (pmer st) "RegevSK" (pcom st' Sk2)) "RegevKeyGenR1" kay' (JLDIM c / ell) = Ret (X1, m1) /\
    ternaryE (ell := ell) R m1 "RegevKeyGenR2" kay' (JLDIM c / ell) = Ret (X2, m2) /\
    is_temat ell X1 kay' (JLDIM c / ell) f1 /\ is_temat ell X2 kay' (JLDIM c / ell) f2 /\
    newElement R (key_absorbed m2) "RegevKGChallenge1" = Ret (x1, m3) /\
    newElement R m3 "RegevKGChallenge2" = Ret (x2, pmer st').
End Key.

(** proveReShare: the vector (secret, shares) that an assignment describes, the
    secret being the combination of the decrypted values. *)
Section Share.
Context {R : rmerlin G}.
Variable c : cfg ell G.
Variable st : @pstate p ell G R.
Definition reshared (lagrange : list F) (w : Z -> F) : list F :=
  fsum (map (fun j => (nth j lagrange 0 * w (pidx st Pt1 + Z.of_nat j)%Z)%F) (seq 0 (Z.to_nat (tee (cgk c))))) ::
  map (fun j => w (pidx st Pt2 + Z.of_nat j)) (seq 0 (Z.to_nat (enn (cgk c)))).
Definition in_range (i0 : Z) (n : nat) (k : Z) : Prop := i0 <= k < i0 + Z.of_nat n.
(** The n constraints from off on hold. *)
Definition rows_sat (cs : list (lincon p)) (off n : nat) (w : Z -> F) : Prop :=
  forall i, (i < n)%nat -> exists con, nth_error cs (off + i) = Some con /\ lin_sat con w.
End Share.

(** proveSmallness. *)
Section Sml.
Context {R : rmerlin G}.
Variable c : cfg ell G.
Variables st st' : @pstate p ell G R.
Definition sml_challenges (f : nat -> nat -> nat -> Z) (x : E) : Prop :=
  exists X m1,
    ternaryE (ell := ell) R (m_point R (pmer st) "smallnessPf" (pcom st' YY)) "Smallness"
      (10 * (JLDIM c + 4) / ell) (LINYDIM c / ell) = Ret (X, m1) /\
    is_temat ell X (10 * (JLDIM c + 4) / ell) (LINYDIM c / ell) f /\
    newElement R (processVector R m1 "masked reply" (pz st')) "SmallnessChallenge" = Ret (x, pmer st').
End Sml.
End S.
