(** Model of /repo/src/main.cpp: the complete run from the number of parties to
    the two verifications.  Not modelled: output other than the reports of
    failures, timers, the hash of the public keys (line 84) and std::stoi (the
    argument is a number already; stoi throws or gives an int). *)
From Coq Require Import String.
From Coq Require Import ZArith List Bool.
From Verif Require Import Outcome Fp FSum GroupMod Ring Prime25519 ConstraintsModel PedersenModel BulletproofModel
  AlgebraModel TernaryModel RegevModel ShamirModel RegevPfModel RegevAggModel RegevRunModel ParamsModel.
Import ListNotations.
Open Scope Z_scope.

(** Lines 48-53. *)
Definition parties (arg : option Z) : Z :=
  let nParties := match arg with Some z => z | None => 512 end in
  if (nParties <? 32) || (4096 <? nParties) then 512 else nParties.

(** interval, utils.hpp 51-55. *)
Definition interval (from to : Z) : list Z := map (fun i => from + Z.of_nat i) (seq 0 (Z.to_nat (to - from))).

(** Everything random in a run: the CRS, the random sources of the key generations
    and encryptions, the secret and the other coefficients of the polynomial, the
    randomness of the commitment to the secret key, and that of the proof (see
    [round]). *)
Record tape (p : Z) (ell : nat) := Tape {
  t_A : nat -> nat -> elt p ell;
  t_key : nat -> nat -> Z * Z;
  t_s : Fp p; t_rs : list (Fp p);
  t_enc : nat -> nat -> Z * Z; t_enc2 : nat -> Z * Z;
  t_skRnd : Fp p;
  t_rnd : var -> Fp p; t_ys : nat -> list (elt p ell); t_yRnd : nat -> Fp p; t_wRnd : Fp p; t_bl : @blinders p }.
Arguments Tape {p ell}. Arguments t_A {p ell}. Arguments t_key {p ell}. Arguments t_s {p ell}. Arguments t_rs {p ell}.
Arguments t_enc {p ell}. Arguments t_enc2 {p ell}. Arguments t_skRnd {p ell}. Arguments t_rnd {p ell}. Arguments t_ys {p ell}.
Arguments t_yRnd {p ell}. Arguments t_wRnd {p ell}. Arguments t_bl {p ell}.

(** The libraries: NTL's Jacobi, ProbPrime, SinglePrecision and kernel, the base
    point, PedersenContext::getG/getH, the state of a new transcript, the order of
    the priority queue; and the contents of default-constructed commitments and
    their randomness. *)
Record libs {p : Z} {G : gmod p} (R : rmerlin G) := Libs {
  l_jac : Z -> Z -> Z; l_pp : Z -> bool; l_sp : Z -> bool;
  l_ker : list (list (Fp p)) -> list (list (Fp p));
  l_base : G; l_getG : Z -> G; l_getH : Z -> G;
  l_mer : mst R; l_pick : list (cursor p) -> nat;
  l_com : var -> G; l_rnd : var -> Fp p }.
Arguments l_jac {p G R}. Arguments l_pp {p G R}. Arguments l_sp {p G R}. Arguments l_ker {p G R}. Arguments l_base {p G R}.
Arguments l_getG {p G R}. Arguments l_getH {p G R}. Arguments l_mer {p G R}. Arguments l_pick {p G R}. Arguments l_com {p G R}. Arguments l_rnd {p G R}.
Arguments Libs {p G R}.

Section Main.
Context {p : Z} {ell : nat} {G : gmod p}.
Notation F := (Fp p).
Notation E := (elt p ell).
Variable R : rmerlin G.
Variable lb : libs R.
Variable f : fpu.
Variable bits : Z.                (* 252 *)
Variables JL LY : nat.            (* JLDIM, LINYDIM *)
Variable SJ : Z.                  (* SQRT_JL *)
Notation pstate := (@pstate p ell G R).

(** Lines 80-83; genKeys, regevEnc.hpp 92-101.  The secret keys and the noise. *)
Fixpoint genAll (ts : list (nat -> Z * Z)) (gpk : globalKey p ell) : outcome (globalKey p ell * list (list E * list E)) :=
  match ts with
  | [] => Ret (gpk, [])
  | t :: ts' =>
      let! (sk, pk, noise, _) := internalKeyGen gpk t 0 in
      let (gpk, r) := addPK gpk pk in
      let! _ := r in
      let! (gpk, ks) := genAll ts' gpk in
      Ret (gpk, (sk, noise) :: ks)
  end.
(** Lines 96-104: plaintext and ciphertext for each party. *)
Definition encAll (gpk : globalKey p ell) (sshr : list F) (ts : nat -> nat -> Z * Z) : outcome (list (list F * list E * list E)) :=
  omapM (fun i =>
    let! s := oget sshr (i + 1) in
    let ptxt := repeat s (Z.to_nat (enn gpk)) in
    let! (ct1, ct2, _, _, _, _) := internalEncrypt bits gpk ptxt (ts i) 0 in
    Ret (ptxt, ct1, ct2)) (seq 0 (Z.to_nat (enn gpk))).
(** Lines 111-116. *)
Definition decAll (gpk : globalKey p ell) (sk : list E) (idx : Z) (cts : list (list F * list E * list E)) : outcome (list (F * E)) :=
  omapM (fun i =>
    let! (_, ct1, ct2) := oget cts i in
    internalDecrypt bits gpk sk idx ct1 ct2 e0) (seq 0 (Z.to_nat (tee gpk))).
(** Lines 122-125: which ciphertexts were reported. *)
Definition decErrors (idx : nat) (t : nat) (ptxt2 : list F) (cts : list (list F * list E * list E)) : outcome (list nat) :=
  let! bs := omapM (fun i =>
    let! a := oget ptxt2 i in
    let! (ptxt, _, _) := oget cts i in
    let! b := oget ptxt idx in
    Ret (negb (feqb a b))) (seq 0 t) in
  Ret (filter (fun i => nth i bs false) (seq 0 t)).
(** Lines 136-144. *)
Definition ctMatrix (k t : nat) (cts : list (list F * list E * list E)) : outcome (mat E) :=
  let! rows := omapM (fun j => omapM (fun i => let! (_, ct1, _) := oget cts i in oget ct1 j) (seq 0 t)) (seq 0 k) in
  Ret (Mat rows t).
Definition ctVector (idx t : nat) (cts : list (list F * list E * list E)) : outcome (list E) :=
  omapM (fun i => let! (_, _, ct2) := oget cts i in oget ct2 idx) (seq 0 t).

(** The data that VerifierData refers to: global key (by pointer, so with the keys
    added later), sharing parameters, bounds, generators (regevProofs-utils.cpp
    105-168). *)
Definition mkCfg (gpk : globalKey p ell) (H : list (list F)) (b : vbounds) (gens : list G * list G) : cfg ell G :=
  Cfg p ell G JL LY SJ (l_jac lb) (l_pp lb) (l_sp lb) (l_base lb) gpk (gElement bits) H (fst gens) (snd gens)
    (v_radix b) (v_dNoise b) (v_sk b) (v_r b) (v_eNoise1 b) (v_eNoise2 b) (v_kNoise b) (v_smallness b).
(** VerifierData and ProverData after construction (regevProofs-utils.cpp 170-183,
    regevProofs.hpp 279-281). *)
Definition mkState (idx : var -> Z) (n t : Z) : pstate :=
  PS idx (l_com lb) (l_rnd lb) (repeat emptyLin (Z.to_nat (7 * Z.of_nat ell + n - t + 1))) (repeat emptyQuad 10)
    [] [] [] (repeat e0 (10 * (JL + 4) / ell)) [] (l_mer lb).

(** Lines 60-154: reported decryption errors, configuration, state and arguments
    of the proof.  [k], [n], [s1], [s2] are the parameters. *)
Definition mainPrepare (k n s1 s2 : Z) (tp : tape p ell) : outcome (list nat * cfg ell G * pstate * round p ell) :=
  let! gpk := newGlobalKey k n s1 s2 None (t_A tp) in
  let! M := genMatrix (tee gpk) (interval 1 (enn gpk + 1)) in
  let H := l_ker lb M in
  let! b := verifierBounds f (Z.of_nat ell) (Z.of_nat JL) 4 (kay gpk) (enn gpk) s1 s2 in
  let! idx := setIndexes (Z.of_nat JL) (Z.of_nat LY) (Z.of_nat ell) (kay gpk) (enn gpk) (tee gpk) in
  let gens := computeGenerators (l_getG lb) (l_getH lb) idx in
  let vd := mkState idx (enn gpk) (tee gpk) in
  let partyIdx := 1%nat in
  let! (gpk, keys) := genAll (map (t_key tp) (seq 0 (Z.to_nat (enn gpk)))) gpk in
  let k := Z.to_nat (kay gpk) in
  let t := Z.to_nat (tee gpk) in
  let sshr := newSharing (interval 1 (enn gpk + 1)) (t_s tp) (t_rs tp) in
  let! cts := encAll gpk sshr (t_enc tp) in
  let! (sk, kgNoise) := oget keys partyIdx in
  let! dec := decAll gpk sk (Z.of_nat partyIdx) cts in
  let ptxt2 := map fst dec in
  let! errs := decErrors partyIdx t ptxt2 cts in
  let! ptxt3 := omapM (fun j => oget sshr (j + 1)) (seq 0 (Z.to_nat (enn gpk))) in
  let! (ct1, ct2, encRnd, eNoise1, eNoise2, _) := internalEncrypt bits gpk ptxt3 (t_enc2 tp) 0 in
  let! ctMat := ctMatrix k t cts in
  let! ctVec := ctVector partyIdx t cts in
  let c := mkCfg gpk H b gens in
  let! vd := commitKey R c vd sk (t_skRnd tp) in
  let! lagrange := lagrangeCoeffs (interval 1 (tee gpk + 1)) in
  Ret (errs, c, vd,
       Round (t_rnd tp) ctMat ctVec ptxt2 sk (map snd dec) ct1 ct2 ptxt3 encRnd eNoise1 eNoise2
         partyIdx sk kgNoise lagrange (t_ys tp) (t_yRnd tp) (t_wRnd tp) (t_bl tp)).
(** Lines 60-253: the reported decryption errors and the results of the two
    verifications. *)
Definition mainRun (k n s1 s2 : Z) (tp : tape p ell) : outcome (list nat * (bool * bool)) :=
  let! (errs, c, vd, i) := mainPrepare k n s1 s2 tp in
  let! (_, ok) := proofRound R c (l_pick lb) vd i in
  Ret (errs, ok).
End Main.

(** main, with the constants of the code; [arg] is the argument, if there is one. *)
Definition main {G : gmod P25519} (R : rmerlin G) (lb : libs R) (f : fpu) (arg : option Z) (tp : tape P25519 2)
  : outcome (list nat * (bool * bool)) :=
  let n := parties arg in
  let! (k, s1, s2) := setParams f 252 2 n in
  mainRun R lb f 252 256 128 16 k n s1 s2 tp.
