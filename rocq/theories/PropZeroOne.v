(** Property C113: the samplers ZeroOneScalar and ZeroOneElement on NTL. *)
From Coq Require Import ZArith List Bool Lia.
From Verif Require Import Fp Ring Prime25519 MaskSpec ZeroOneModel ZeroOneSpec ZeroOneProofs.
Import ListNotations.
Open Scope Z_scope.

(** If NTL takes the word as a long: each coefficient is the difference of its own two
    bits, whatever the element was before. *)
Theorem C113_partial : forall p ell (old : elt p ell) x i, (i < ell)%nat ->
  coeff (zeroOneElement true old x) i = toF p (difference x i).
Proof. intros p ell old x i Hi. exact (element_coeff true old x i Hi). Qed.
Print Assumptions C113_partial.
Theorem C113_scalar_partial : forall p x, 0 <= x < 4 -> zeroOneScalar true x = toF p (difference x 0).
Proof. intros p x Hx. exact (scalar_value true x Hx). Qed.
Print Assumptions C113_scalar_partial.
(** Among the 4^ell strings of bits, 2^(number of zeros) give the coefficients t:
    they are independent, Pr[0] = 1/2 and Pr[1] = Pr[-1] = 1/4. *)
Theorem C113_count_partial : forall p ell (old : elt p ell) t, 3 <= p -> (forall i, (i < ell)%nat -> -1 <= t i <= 1) ->
  exactly (2 ^ Z.of_nat (zeros_of ell t))
    (fun x => 0 <= x < 2 ^ (2 * Z.of_nat ell) /\ forall i, (i < ell)%nat -> coeff (zeroOneElement true old x) i = toF p (t i)).
Proof. exact element_count. Qed.
Print Assumptions C113_count_partial.
(** If NTL takes the word as unsigned: 2^64-1 in place of -1. *)
Theorem C113_unsigned : forall p ell (old : elt p ell) x i, (i < ell)%nat ->
  coeff (zeroOneElement false old x) i = toF p (if difference x i =? -1 then 2 ^ 64 - 1 else difference x i).
Proof. intros p ell old x i Hi. exact (element_coeff false old x i Hi). Qed.
Print Assumptions C113_unsigned.
Theorem C113_refuted : exists signed x, 0 <= x < 4 /\ forall z, -1 <= z <= 1 -> zeroOneScalar signed x <> toF P25519 z.
Proof.
  exists false, 2. split; [lia|]. intros z Hz E. rewrite (scalar_value false 2) in E by lia. apply toF_eq_iff in E. revert E.
  assert (Q : z = -1 \/ z = 0 \/ z = 1) by lia. destruct Q as [->|[->| ->]]; vm_compute; discriminate.
Qed.
Print Assumptions C113_refuted.

(* ell = 2, x = binary 1001: the low pair has difference 1 - 0, the high pair 0 - 1 *)
Example C113_example : map (fun i => fval (coeff (zeroOneElement true (e1 (p := 97) (ell := 2)) 9) i)) [0; 1]%nat = [1; 96] /\
  difference 9 0 = 1 /\ difference 9 1 = -1.
Proof. vm_compute. auto. Qed.
Example C113_example_count : exactly 2 (fun x => 0 <= x < 2 ^ 4 /\
  forall i, (i < 2)%nat -> coeff (zeroOneElement true (e1 (p := 97) (ell := 2)) x) i = toF 97 (nth i [0; -1] 0)).
Proof. apply (C113_count_partial 97 2 e1 (fun i => nth i [0; -1] 0)); [lia|]. intros [|[|i]] Hi; cbn; lia. Qed.
