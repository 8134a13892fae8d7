(** What is assumed of the floating-point expressions, and vocabulary for the
    properties of the parameters. *)
From Coq Require Import ZArith Bool.
From Verif Require Import Outcome GroupMod Ring RegevModel RegevPfModel ParamsModel.
Open Scope Z_scope.

(** a/b < ln t and ln t < a/b for a >= 0, b > 0, by (1+1/m)^m < e < (1+1/m)^(m+1). *)
Definition below_ln (a b t : Z) : Prop :=
  exists m, 0 < m /\ (m + 1) ^ ((m + 1) * a) < t ^ b * m ^ ((m + 1) * a).
Definition above_ln (a b t : Z) : Prop :=
  exists m, 0 < m /\ t ^ b * m ^ (m * a) < (m + 1) ^ (m * a).
(** L is log2(nn) + ln(tt)/2 rounded up: some a/b is at most log2(nn) and
    L - 1 - a/b is less than ln(tt)/2; some a/b is at least log2(nn) and L - a/b
    greater than ln(tt)/2. *)
Definition ceil_log (nn tt L : Z) : Prop :=
  (exists a b, 0 <= a /\ 0 < b /\ 2 ^ a <= nn ^ b /\ a <= (L - 1) * b /\ below_ln (2 * ((L - 1) * b - a)) b tt) /\
  (exists a b, 0 <= a /\ 0 < b /\ nn ^ b <= 2 ^ a /\ a <= L * b /\ above_ln (2 * (L * b - a)) b tt).

(** Relative error 2^-30 (log2BI divides by 0.69314718056 instead of ln 2, which
    has the effect of an error of about 2^-37). *)
Definition eps : Z := 2 ^ 30.
(** h is log2(x)/2 rounded up, for an argument with relative error 2^-30. *)
Definition ceil_hlog (x h : Z) : Prop :=
  0 <= h /\ eps * x <= (eps + 1) * 4 ^ h /\ (0 < h -> eps * 4 ^ (h - 1) < (eps + 1) * x).
(** B is y*sqrt(a/b). *)
Definition near_sqrt (a b y B : Z) : Prop :=
  0 <= B /\ (eps - 1) * (eps - 1) * (a * (y * y)) <= eps * eps * (b * (B * B)) <= (eps + 1) * (eps + 1) * (a * (y * y)).

(** The results are right, for n parties in the case of the first.  9.75^2 = 1521/16. *)
Definition fpu_ok (f : fpu) (n : Z) : Prop :=
  ceil_log (2 * n) (n - 1) (fp_logn f (2 * n) (n - 1)) /\
  (forall x, 1 <= x -> ceil_hlog x (fp_hlog f x)) /\
  (forall a b y, 0 < a -> 0 < b -> 0 < y -> 2 ^ 80 * b <= a * (y * y) -> near_sqrt a b y (fp_mulsqrt f a b y)) /\
  (forall d B r, 0 < d -> 0 < B -> 0 <= r -> 2 ^ r <= B -> let s := fp_smlns f d B r in
     0 <= s /\ eps * (1521 * (129 * 129) * d * (B * B)) <= (eps + 1) * (16 * 4 ^ (s + r)) /\
     eps * (16 * 4 ^ (s + r - 1)) < (eps + 1) * (1521 * (129 * 129) * d * (B * B))) /\
  (forall y, 0 <= y -> 0 <= fp_most f y <= y).

(** The configuration of the proofs for k, n and these bounds; JLDIM and SQRT_JL as
    in regevProofs.hpp 54-56. *)
Definition built {p ell} {G : gmod p} (c : cfg ell G) (k n : Z) (b : vbounds) : Prop :=
  kay (cgk c) = k /\ enn (cgk c) = n /\ JLDIM c = 256%nat /\ SQRT_JL c = 16 /\
  radix c = v_radix b /\ B_dNoise c = v_dNoise b /\ B_sk c = v_sk b /\ B_r c = v_r b /\
  B_eNoise1 c = v_eNoise1 b /\ B_eNoise2 c = v_eNoise2 b /\ B_kNoise c = v_kNoise b /\ B_smallness c = v_smallness b.
(** The condition in the comment, regevEnc.cpp 85, with both sides squared:
    P^((ell-1)/ell) ~ 2^126 and 2^sigmaEnc1 * 600 nn sqrt(kk*tt). *)
Definition margin (n k s1 : Z) : Prop :=
  4 ^ s1 * (600 * 600) * ((2 * n) * (2 * n)) * (2 * k) * (n - 1) <= 4 ^ 126.

(** Floating point with L for the first logarithm and the other results exact up to
    rounding. *)
Definition exact_fpu (L : Z) : fpu :=
  FPU (fun _ _ => L) (fun x => (Z.log2_up x + 1) / 2) (fun a b y => Z.sqrt (a * (y * y) / b))
    (fun d B r => (Z.log2_up (1521 * (129 * 129) * d * (B * B)) + 1) / 2 - 2 - r) (fun y => 128 * y / 129).
