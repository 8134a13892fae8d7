(** Primality of the scalar modulus (property C67).
    /repo/src/regev/regevEnc.cpp lines 42-70 and
    /repo/src/25519/curve25519.cpp line 76:
    P = 2^252 + 27742317777372353535851937790883648493. *)
From Coq Require Import ZArith Znumtheory Lia.
From Verif Require Import NumTheory.
Open Scope Z_scope.

Definition P25519 : Z := 2 ^ 252 + 27742317777372353535851937790883648493.

Lemma prime_17 : prime 17.
Proof. apply prime_by_trial; vm_compute; reflexivity. Qed.
Lemma prime_2551 : prime 2551.
Proof. apply prime_by_trial; vm_compute; reflexivity. Qed.
Lemma prime_1224481 : prime 1224481.
Proof. apply prime_by_trial; vm_compute; reflexivity. Qed.
Lemma prime_531581 : prime 531581.
Proof. apply prime_by_trial; vm_compute; reflexivity. Qed.
Lemma prime_1257559732178653 : prime 1257559732178653.
Proof.
  apply (pocklington2 _ 1224481 2 531581 2);
    [vm_compute; reflexivity|apply prime_1224481|vm_compute; reflexivity
    |apply prime_531581|lia|vm_compute; reflexivity].
Qed.
Lemma prime_4434155615661930479 : prime 4434155615661930479.
Proof.
  apply (pocklington1 _ 1257559732178653 2);
    [vm_compute; reflexivity|apply prime_1257559732178653|vm_compute; reflexivity].
Qed.
Lemma prime_172054593956031949258510691 : prime 172054593956031949258510691.
Proof.
  apply (pocklington1 _ 4434155615661930479 2);
    [vm_compute; reflexivity|apply prime_4434155615661930479|vm_compute; reflexivity].
Qed.
Lemma prime_19757330305831588566944191468367130476339 :
  prime 19757330305831588566944191468367130476339.
Proof.
  apply (pocklington1 _ 172054593956031949258510691 2);
    [vm_compute; reflexivity|apply prime_172054593956031949258510691|vm_compute; reflexivity].
Qed.
Lemma prime_276602624281642239937218680557139826668747 :
  prime 276602624281642239937218680557139826668747.
Proof.
  apply (pocklington1 _ 19757330305831588566944191468367130476339 2);
    [vm_compute; reflexivity|apply prime_19757330305831588566944191468367130476339
    |vm_compute; reflexivity].
Qed.
Lemma P25519_is_prime : prime P25519.
Proof.
  apply (pocklington1 _ 276602624281642239937218680557139826668747 2);
    [vm_compute; reflexivity|apply prime_276602624281642239937218680557139826668747
    |vm_compute; reflexivity].
Qed.
