(** C67: the modulus of /repo/include/algebra.hpp (and of libsodium's scalars,
    /repo/src/25519/curve25519.cpp line 76) is prime. *)
From Coq Require Import ZArith Znumtheory.
From Verif Require Import Outcome Fp Prime25519.
Open Scope Z_scope.

Theorem C67_modulus_prime : prime (2 ^ 252 + 27742317777372353535851937790883648493).
Proof. exact P25519_is_prime. Qed.
Print Assumptions C67_modulus_prime.

Theorem C67_inverses :
  forall x : Fp P25519, x <> 0%F -> (finv x * x = 1)%F.
Proof. exact (finv_l P25519_is_prime). Qed.
Example C67_example : @toF P25519 2 <> 0%F /\ fval (finv (@toF P25519 2)) = (P25519 + 1) / 2.
Proof.
  assert (H2 : @toF P25519 2 <> 0%F) by (intros H; apply (f_equal (@fval P25519)) in H; discriminate). split; [exact H2|].
  assert (E : finv (@toF P25519 2) = toF P25519 ((P25519 + 1) / 2)); [|rewrite E; reflexivity].
  apply (fmul_cancel_l P25519_is_prime (@toF P25519 2)); [exact H2|].
  transitivity (finv (@toF P25519 2) * @toF P25519 2)%F; [apply (Rmul_comm (Fp_ring (p := P25519)))|]. rewrite (finv_l P25519_is_prime) by exact H2.
  apply Fp_eq. reflexivity.
Qed.
Print Assumptions C67_inverses.
