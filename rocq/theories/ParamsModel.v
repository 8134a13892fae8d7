(** Parameter selection: KeyParams::setParams and the bounds computed by the
    constructor of VerifierData.  Results of floating-point expressions come from
    a record of functions; what is assumed of them is in ParamsSpec. *)
From Coq Require Import ZArith Bool.
From Verif Require Import Outcome.
Open Scope Z_scope.

Record fpu := FPU {
  (* ceil(log2(nn) + log(tt)/2), regevEnc.cpp 77; log is the natural logarithm *)
  fp_logn : Z -> Z -> Z;
  (* ceil(log2(x)/2), regevEnc.cpp 86, 91; and with log2BI, regevProofs-utils.cpp 154 *)
  fp_hlog : Z -> Z;
  (* multDbl(sqrt(a/b), y), algebra.hpp 198-205, regevProofs-utils.cpp 135-145;
     sqrt(337)*1.7 is the root of 97393/100 *)
  fp_mulsqrt : Z -> Z -> Z -> Z;
  (* ceil(log2(9.75*129*sqrt(d)) + log2BI(B) - r), regevProofs-utils.cpp 162 *)
  fp_smlns : Z -> Z -> Z -> Z;
  (* multDbl(128.0/129.0, y), regevProofs-utils.cpp 165 *)
  fp_most : Z -> Z }.

Section M.
Variable f : fpu.
Variables pSize ell : Z.   (* 252 and 2, regevEnc.hpp 57-58 *)

Definition int32 (z : Z) : outcome Z := if (- 2 ^ 31 <=? z) && (z <? 2 ^ 31) then Ret z else UB.
Definition int64 (z : Z) : outcome Z := if (- 2 ^ 63 <=? z) && (z <? 2 ^ 63) then Ret z else UB.

(** Lines 81-84: kk and k for a given sigmaEnc1.  37.5*x is exact in a double. *)
Definition dims (s : Z) : Z * Z :=
  let kk := - ((- (75 * (pSize + 2 - s))) / 2) in
  let k := (kk + ell - 1) / ell in
  (ell * k, k).
(** The loop 80-90; [last] are kk and k from the previous iteration. *)
Fixpoint search (fuel : nat) (start L s : Z) (last : outcome (Z * Z)) : outcome (Z * (Z * Z)) :=
  match fuel with
  | O => UB
  | S fuel =>
      if 0 <? s then
        let (kk, k) := dims s in
        if start >=? s + L + 10 + fp_hlog f kk then Ret (s, (kk, k))
        else search fuel start L (s - 1) (Ret (kk, k))
      else let! d := last in Ret (s, d)     (* k and kk are uninitialised if there was no iteration *)
  end.
(** KeyParams::setParams, 73-94: k, sigmaEnc1, sigmaEnc2.  For tt <= 0 the logarithm
    is not a number that fits an int. *)
Definition setParams (n : Z) : outcome (Z * Z * Z) :=
  let! nn := int32 (n * ell) in
  let tt := Z.quot (nn - 1) 2 in
  if (nn <=? 0) || (tt <=? 0) then UB
  else
    let L := fp_logn f nn tt in
    let start := (pSize * (ell - 1)) / ell in
    let! r := search (Z.to_nat start + 1) start L (start - L - 11) UB in
    let '(s1, (kk, k)) := r in
    let! gap := int64 (124080 * kk * tt) in
    Ret (k, s1, s1 + fp_hlog f gap).

(** The bounds of VerifierData. *)
Record vbounds := VB {
  v_r : Z; v_sk : Z; v_eNoise1 : Z; v_kNoise : Z; v_eNoise2 : Z; v_dNoise : Z;
  v_radix : Z; v_smlnsBits : Z; v_smallness : Z }.
(** regevProofs-utils.cpp 118-165 up to the allocation of the constraints;
    ceil(2*sqrt(x)) is the rounded-up root of 4x.  A negative shift is a right shift in NTL. *)
Definition shl1 (b : Z) : Z := if b <? 0 then 0 else 2 ^ b.
Definition verifierBounds (JLDIM PAD kay enn s1 s2 : Z) : outcome vbounds :=
  let! kk := int32 (kay * ell) in
  let! nn := int32 (enn * ell) in
  let sig_kg := shl1 s1 in
  let sig_e2 := shl1 s2 in
  let! k337 := int32 (337 * kk) in
  let B_sk := Z.sqrt_up (4 * k337) in
  let B_kNoise := fp_mulsqrt f (337 * kk) 2 sig_kg in
  let B_eNoise2 := fp_mulsqrt f (337 * nn) 2 sig_e2 in
  let B_dNoise := fp_mulsqrt f 97393 100 (sig_e2 * nn) + fp_mulsqrt f (kk * nn * 377) 1 (24 * sig_kg) in
  if (B_sk >=? B_kNoise) || (B_kNoise >=? B_eNoise2) || (B_eNoise2 >=? B_dNoise) then Throw
  else
    let radixBits := fp_hlog f B_kNoise - 3 in
    let radix := shl1 radixBits in
    let d := 10 * (JLDIM + PAD) in
    let smlnsBits := fp_smlns f d B_dNoise radixBits in
    let B_smallness := fp_most f (shl1 smlnsBits) in
    Ret (VB B_sk B_sk B_kNoise B_kNoise B_eNoise2 B_dNoise radix smlnsBits B_smallness).
End M.
