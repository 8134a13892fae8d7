(** Model of /repo/src/regev/regevEnc.cpp and /repo/include/regevEnc.hpp.

    Not modelled: the floating-point parameter search KeyParams::setParams
    (73-93; its results are arguments here), the fingerprints Ahash/Bhash
    (117-140), tags, and timing.  An entry of the random source is the pair
    drawn by one BoundedSizeScalar::randomize; every source is allowed.
    GlobalKey::P() is the modulus p in force, set by initPdeltaG. *)
From Coq Require Import ZArith List Bool.
From Verif Require Import Outcome Fp FSum Ring AlgebraModel TernaryModel.
Import ListNotations.
Open Scope Z_scope.

(** Results of int arithmetic: overflow is undefined. *)
Definition as_int (z : Z) : outcome Z := if (- 2 ^ 31 <=? z) && (z <? 2 ^ 31) then Ret z else UB.

Section Regev.
Context {p : Z} {ell : nat}.
(** The bit size 252 in initPdeltaG. *)
Variable bits : Z.
Notation F := (Fp p).
Notation E := (elt p ell).

(** initPdeltaG, regevEnc.cpp 42-70. *)
Definition delta : Z := 2 ^ (bits / Z.of_nat ell).
Definition deltaScalar : F := toF p delta.
Definition delta2ellm1 : Z := delta ^ (Z.of_nat ell - 1).
Fixpoint g_loop (k : nat) (delta2i : F) : list F :=
  match k with O => [] | S k' => delta2i :: g_loop k' (delta2i * deltaScalar)%F end.
Definition gElement : E := mkE ell (fun i => nth i (g_loop ell 1%F) 0%F).

(** decodePtxt, 304-344 (for ell >= 2): the decoded scalar and the noise;
    [old] is the previous content of *noise. *)
Definition deltaZZ : Z := fval deltaScalar.
Definition decode_diff (v : list F) (i : nat) : Z :=
  let y := fval (nth i v 0 * deltaScalar - nth (i + 1) v 0)%F in
  if p / 2 <? y then y - p else y.
Definition decode_diffs (v : list F) : list Z := map (decode_diff v) (seq 0 (ell - 1)).
Definition decode_tmp (ds : list Z) : Z :=
  match ds with [] => 0 | d0 :: ds' => fold_left (fun tmp d => tmp * deltaZZ + d) ds' d0 end.
Definition decode_round (tmp : Z) : Z :=
  let tmp := tmp mod delta2ellm1 in
  if delta2ellm1 / 2 <=? tmp then tmp - delta2ellm1
  else if tmp <? (- delta2ellm1) / 2 then tmp + delta2ellm1
  else tmp.
Definition decode_back (ds : list Z) (last : Z) : list Z :=
  fold_right (fun d acc => (hd 0 acc - d) / deltaZZ :: acc) [last] ds.
Definition decodePtxt (old : E) (noisyPtxt : E) : outcome (F * E) :=
  if (delta2ellm1 =? 0) || (deltaZZ =? 0) then Abort
  else
    let v := conv_svec noisyPtxt in
    let ds := decode_diffs v in
    let last := decode_round (decode_tmp ds) in
    let noiseVec := map (toF p) (decode_back ds last) in
    Ret ((- nth 0 v 0 - nth 0 noiseVec 0)%F, conv_elt old noiseVec).

(** NTL products and sums; a size mismatch is an NTL error. *)
Definition edot (u v : list E) : E := esum (map (fun i => emul (nth i u e0) (nth i v e0)) (seq 0 (length u))).
Definition vecMat (v : list E) (M : mat E) : outcome (list E) :=
  if negb (length v =? length (mrows M))%nat then Abort
  else Ret (map (fun j => edot v (column e0 M j)) (seq 0 (mcols M))).
Definition matVec (M : mat E) (v : list E) : outcome (list E) :=
  if negb (length v =? mcols M)%nat then Abort
  else Ret (map (fun row => edot row v) (mrows M)).
Definition vecAdd (u v : list E) : outcome (list E) :=
  if negb (length u =? length v)%nat then Abort else Ret (zipWith eadd u v).

(** The global key, regevEnc.hpp 41-76. *)
Record globalKey := GK {
  kay : Z; enn : Z; tee : Z; sigmaEnc1 : Z; sigmaEnc2 : Z;
  nPks : Z; gkA : mat E; gkB : mat E }.

(** Constructor, 95-128: [crs] the optional CRS, [rnd] the pseudorandom entries. *)
Definition newGlobalKey (k n s1 s2 : Z) (crs : option (mat E)) (rnd : nat -> nat -> E) : outcome globalKey :=
  if (k <=? 0) || (n <=? 0) || (s1 <=? 1) || (s2 <=? 2) then Throw
  else
    let t := Z.quot (n - 1) (2 * Z.of_nat ell) * Z.of_nat ell in
    if negb (0 <? t) then Abort
    else
      let! A :=
        match crs with
        | None => Ret (map (fun i => map (rnd i) (seq 0 (Z.to_nat k))) (seq 0 (Z.to_nat k)))
        | Some M => omapM (fun i => let! row := oget (mrows M) i in
                                    omapM (oget row) (seq 0 (Z.to_nat k))) (seq 0 (Z.to_nat k))
        end in
      Ret (GK k n t s1 s2 0 (Mat A (Z.to_nat k))
              (Mat (repeat (repeat e0 (Z.to_nat k)) (Z.to_nat n)) (Z.to_nat k))).

(** addPK, 143-157: the new state and the outcome. *)
Fixpoint list_set {A} (l : list A) (i : nat) (a : A) : list A :=
  match l, i with
  | [], _ => []
  | _ :: r, O => a :: r
  | x :: r, S i' => x :: list_set r i' a
  end.
Definition addPK (gk : globalKey) (pk : list E) : globalKey * outcome Z :=
  if negb (Z.of_nat (length pk) =? kay gk) then (gk, Throw)
  else
    let idx := nPks gk in
    let n := (nPks gk + 1) mod 2 ^ 64 in
    if enn gk mod 2 ^ 64 <=? idx then
      (GK (kay gk) (enn gk) (tee gk) (sigmaEnc1 gk) (sigmaEnc2 gk) ((n - 1) mod 2 ^ 64) (gkA gk) (gkB gk), Throw)
    else if (Z.of_nat (length (mrows (gkB gk))) <=? idx) then
      (gk, UB)
    else
      (GK (kay gk) (enn gk) (tee gk) (sigmaEnc1 gk) (sigmaEnc2 gk) n (gkA gk)
          (Mat (list_set (mrows (gkB gk)) (Z.to_nat idx) pk) (mcols (gkB gk))), Ret idx).

(** BoundedSizeScalar / BoundedSizeElement::randomize, regevEnc.hpp 189-226:
    randBitsize gives a number below 2^n, randomBit selects the sign. *)
Definition bounded_int (r : Z * Z) (n : Z) : Z :=
  let zz := fst r mod 2 ^ n in if Z.odd (snd r) then - zz else zz.
Definition sample_vec (rnd : nat -> Z * Z) (n : Z) (pos k : nat) : list E :=
  map (fun i => mkE ell (fun j => toF p (bounded_int (rnd (pos + i * ell + j)%nat) n))) (seq 0 k).
(** The rejection loops, 171-179, 185-192, 222-230, 245-251, 255-261.  [pre] = 1
    for the loops that also increment nTrials in the test.  The loop has no
    bound of its own; running out of [fuel] is Abort. *)
Fixpoint reject_loop (fuel : nat) (pre : Z) (nTrials : Z) (rnd : nat -> Z * Z) (n : Z) (pos k : nat) (bound : Z)
  : outcome (list E * nat) :=
  match fuel with
  | O => Abort
  | S fuel' =>
      let nTrials := nTrials + pre in
      if 50 <? nTrials then Throw
      else
        let v := sample_vec rnd n pos k in
        let pos := (pos + k * ell)%nat in
        if normSquared_e p v <=? bound then Ret (v, pos)
        else reject_loop fuel' pre (nTrials + 1) rnd n pos k bound
  end.
Definition rho : Z := 2.
(** More than the 51 rounds that any of the loops can make. *)
Definition trials : nat := 60.
(** int bound = 4*kay*ell *)
Definition key_bound (k : Z) : outcome Z :=
  let! b := as_int (4 * k) in as_int (b * Z.of_nat ell).
(** (BigInt(1)<<(2*sigma)) * k*ell/2 *)
Definition noise_bound (sigma k : Z) : outcome Z :=
  let! s := as_int (2 * sigma) in
  Ret (2 ^ s * k * Z.of_nat ell / 2).

(** internalKeyGen, 160-198; also returns the position in the random source. *)
Definition internalKeyGen (gk : globalKey) (rnd : nat -> Z * Z) (pos : nat)
  : outcome (list E * list E * list E * nat) :=
  let k := Z.to_nat (kay gk) in
  let! b := key_bound (kay gk) in
  let! sp := reject_loop trials 0 0 rnd rho pos k b in
  let! nb := noise_bound (sigmaEnc1 gk) (kay gk) in
  let! np := reject_loop trials 0 0 rnd (sigmaEnc1 gk) (snd sp) k nb in
  let! skA := vecMat (fst sp) (gkA gk) in
  let! pk := vecAdd skA (fst np) in
  Ret (fst sp, pk, fst np, snd np).

(** internalEncrypt, 201-266. *)
Definition internalEncrypt (gk : globalKey) (ptxt : list F) (rnd : nat -> Z * Z) (pos : nat)
  : outcome (list E * list E * list E * list E * list E * nat) :=
  let k := Z.to_nat (kay gk) in
  let n := Z.to_nat (enn gk) in
  if negb (Z.of_nat (length (mrows (gkA gk))) =? kay gk) || negb (Z.of_nat (mcols (gkA gk)) =? kay gk)
     || negb (Z.of_nat (length (mrows (gkB gk))) =? enn gk) || negb (Z.of_nat (mcols (gkB gk)) =? kay gk) then Throw
  else if negb (length ptxt =? length (mrows (gkB gk)))%nat then Throw
  else
    let! b := key_bound (kay gk) in
    let! rp := reject_loop trials 0 0 rnd rho pos k b in
    let arr := fst rp in
    let! c1 := matVec (gkA gk) arr in
    let! c2 := matVec (gkB gk) arr in
    let! nb1 := noise_bound (sigmaEnc1 gk) (kay gk) in
    let! e1p := reject_loop trials 1 0 rnd (sigmaEnc1 gk) (snd rp) k nb1 in
    let! nb2 := noise_bound (sigmaEnc2 gk) (enn gk) in
    let! e2p := reject_loop trials 1 0 rnd (sigmaEnc2 gk) (snd e1p) n nb2 in
    Ret (zipWith eadd c1 (fst e1p),
         zipWith (fun c t => eadd c (eadd (escale (fst t) gElement) (snd t))) c2 (combine ptxt (fst e2p)),
         arr, fst e1p, fst e2p, snd e2p).

(** internalDecrypt, 271-297; [old] is the previous content of noise. *)
Definition internalDecrypt (gk : globalKey) (sk : list E) (idx : Z) (ct1 ct2 : list E) (old : E) : outcome (F * E) :=
  if negb (Z.of_nat (length sk) =? kay gk) then Throw
  else if negb (Z.of_nat (length ct1) =? kay gk) || negb (Z.of_nat (length ct2) =? enn gk) then Throw
  else if (idx <? 0) || (enn gk <=? idx) then Throw
  else
    let! c := oget ct2 (Z.to_nat idx) in
    decodePtxt old (esub (innerProductEE sk ct1) c).
End Regev.
Arguments globalKey : clear implicits.
