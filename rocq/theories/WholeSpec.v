(** Vocabulary for what a complete proof shows. *)
From Coq Require Import String.
From Coq Require Import ZArith List.
From Verif Require Import Outcome Fp Ring GroupMod ConstraintsModel ConstraintsSpec AlgebraSpec BulletproofModel ShamirSpec RegevModel RegevPfModel RegevPfSpec RegevStSpec
  RegevRunModel CountSpec StepSpec RegevAggSpec RegevSoundSpec.
Import ListNotations.
Open Scope Z_scope.
Local Open Scope string_scope.

Section S.
Context {p : Z} {ell : nat} {G : gmod p} {R : rmerlin G}.
Variable c : cfg ell G.
Notation pstate := (@pstate p ell G R).
Notation E := (elt p ell).
Notation Tee := (Z.to_nat (tee (cgk c))).
Notation Kay := (Z.to_nat (kay (cgk c))).
Notation Enn := (Z.to_nat (enn (cgk c))).
Notation Jl := (JLDIM c / ell)%nat.

(** What the proof is about, for the values w of the committed variables: the noise
    of the decryptions, of the two parts of the new ciphertext and of the new public
    key is bounded, the randomness and the new secret key are small, and the new
    plaintexts are a sharing of the combination of the old ones.  (bd, b1, b2, bk: the
    bounds on the compressed noise.) *)
Definition statement_holds (st : pstate) (i : round p ell) (evs : list Z) (thr : nat) (bd b1 b2 bk : Z) (w : Z -> Fp p) : Prop :=
  within (2 * bd) Tee (dec_noise c st (i_ctMat i) (i_ctVec i) w) /\
  within (2 * b1) Kay (enc_noise1 c st (i_ct1 i) w) /\
  within (2 * b2) Enn (enc_noise2 c st (i_ct2 i) w) /\
  within (2 * B_r c) Kay (readV (ell := ell) w (pidx st RR)) /\
  within (2 * bk) Kay (key_noise c st (i_pk i) w) /\
  within (2 * B_sk c) Kay (readV (ell := ell) w (pidx st Sk2)) /\
  valid_sharing thr evs (reshared c st (i_lag i) w).

(** The challenges of a compressed equation were lucky: [caught_left],
    [caught_right] without their first case. *)
Definition escaped_left (m0 : mst R) label (B : Z) (n m : nat) (noise tgt : nat -> E) (f : nat -> nat -> nat -> Z) (x : E) : Prop :=
  lucky_left B n m noise nomask (fst (rm_bytes R m0 label (ell * ((n * m + 3) / 4))%nat)) \/
  vanishes m (fun j => esub (esub (tgt j) (nomask j)) (sumE n (fun i => emul (noise i) (Xent f i j)))) x.
Definition escaped_right (m0 : mst R) label (B : Z) (n m : nat) (noise tgt : nat -> E) (f : nat -> nat -> nat -> Z) (x : E) : Prop :=
  lucky_right B n m noise nomask (fst (rm_bytes R m0 label (ell * ((m * n + 3) / 4))%nat)) \/
  vanishes m (fun j => esub (esub (tgt j) (nomask j)) (sumE n (fun i => emul (noise i) (Xent f j i)))) x.
(** Some challenge of the steps from s0 to s1 (decryption), s2 (encryption), s3 (key
    generation), s4 (re-sharing), s5 (smallness) was lucky for w. *)
Definition lucky_round (s0 s1 s2 s3 s4 s5 : pstate) (i : round p ell) (bd b1 b2 bk : Z) (w : Z -> Fp p) : Prop :=
  (exists f x, dec_challenges c s0 s1 f x /\
     escaped_left (m_point R (pmer s0) "RegevDecPtxt" (pcom s1 Pt1)) "RegevDecX" bd Tee Jl
       (dec_noise c s0 (i_ctMat i) (i_ctVec i) w) (two_dig (ell := ell) c w (pidx s0 DCompLo) (pidx s0 DCompHi)) f x) \/
  (exists f1 f2 f3 x1 x2 x3, enc_challenges c s1 s2 f1 f2 f3 x1 x2 x3 /\
     (escaped_right (enc_mer0 s1 s2) "RegevEncR1" b1 Kay Jl
        (enc_noise1 c s1 (i_ct1 i) w) (two_dig (ell := ell) c w (pidx s1 EComp1Lo) (pidx s1 EComp1Hi)) f1 x1 \/
      escaped_right (enc_mer1 c s1 s2) "RegevEncR2" b2 Enn Jl
        (enc_noise2 c s1 (i_ct2 i) w) (two_dig (ell := ell) c w (pidx s1 EComp2Lo) (pidx s1 EComp2Hi)) f2 x2 \/
      escaped_right (enc_mer2 c s1 s2) "RegevEncR3" (B_r c) Kay Jl (readV w (pidx s1 RR)) (readV w (pidx s1 RComp)) f3 x3)) \/
  (exists f1 f2 x1 x2, key_challenges c s2 s3 f1 f2 x1 x2 /\
     (escaped_left (key_mer0 s2 s3) "RegevKeyGenR1" bk Kay Jl
        (key_noise c s2 (i_pk i) w) (two_dig (ell := ell) c w (pidx s2 KCompLo) (pidx s2 KCompHi)) f1 x1 \/
      escaped_left (key_mer1 c s2 s3) "RegevKeyGenR2" (B_sk c) Kay Jl (readV w (pidx s2 Sk2)) (readV w (pidx s2 Sk2Comp)) f2 x2)) \/
  (exists f x, sml_challenges c s4 s5 f x /\ sml_escape c s4 s5 f x w).

(** The challenges of the aggregation were lucky for the values g (on the
    generators G) and y (on the generators H): the combined equations hold though one
    of the constraints, or the agreement of g and y, does not. *)
Definition constraints_hold (st : pstate) (g y : Z -> Fp p) : Prop :=
  Forall (fun con => lin_sat con y) (plin st) /\ (forall k, In k (norm_idx st) -> g k = y k) /\ Forall (fun q => quad_sat q g y) (pnorm st).
Definition lucky_aggregation (st : pstate) (g y : Z -> Fp p) : Prop :=
  ~ constraints_hold st g y /\ residual st g y (chal_lin st) (chal_norm st) (chal_u st) (chal_rho st) = 0%F.
End S.
