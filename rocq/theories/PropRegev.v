(** Properties C39-C43 and C71: encryption under the global key. *)
From Coq Require Import ZArith Znumtheory List Lia Bool.
From Verif Require Import Outcome Fp FSum Ring TernaryModel TernarySpec AlgebraModel AlgebraSpec AlgebraProofs Prime25519
  RegevModel RegevSpec RegevProofs RegevDecrypt RegevMore.
Import ListNotations.
Open Scope Z_scope.

Lemma two_le_P : 2 <= P25519. Proof. now vm_compute. Qed.

(** C39: one key. *)
Theorem C39_decrypt p ell bits (gk0 gk : globalKey p ell) rndK posK rndE posE i sk pk noise pos1 ptxt ct1 ct2 r e1 e2 pos2 W old :
  let D := 2 ^ (bits / Z.of_nat ell) in
  let k := Z.to_nat (kay gk) in
  (2 <= ell)%nat -> Z.of_nat ell <= bits -> 8 <= p -> 8 <= D -> wf_key gk -> wf_key gk0 ->
  gkA gk0 = gkA gk -> kay gk0 = kay gk -> sigmaEnc1 gk0 = sigmaEnc1 gk ->
  internalKeyGen gk0 rndK posK = Ret (sk, pk, noise, pos1) ->
  0 <= i < enn gk -> nth_error (mrows (gkB gk)) (Z.to_nat i) = Some pk ->
  internalEncrypt bits gk ptxt rndE posE = Ret (ct1, ct2, r, e1, e2, pos2) ->
  0 <= W ->
  (2 ^ (2 * sigmaEnc1 gk) * kay gk * Z.of_nat ell / 2) * (4 * kay gk * Z.of_nat ell) <= W * W ->
  2 * ((2 * W + 2 ^ sigmaEnc2 gk) * (D + 1)) < p ->
  2 * (2 * W + 2 ^ sigmaEnc2 gk) <= D ^ (Z.of_nat ell - 1) ->
  2 * 2 ^ sigmaEnc1 gk <= p ->
  exists e : nat -> Z, (forall j, (j < ell)%nat -> Z.abs (e j) < 2 * W + 2 ^ sigmaEnc2 gk) /\
    of_ints e = eadd (dotE noise r k) (esub (nth (Z.to_nat i) e2 e0) (dotE sk e1 k)) /\
    internalDecrypt bits gk sk i ct1 ct2 old = Ret (nth (Z.to_nat i) ptxt 0%F, of_ints e).
Proof.
  intros D k H1 H2 H3 H4 H5 H6 H7 H8 H9 H10 H11 H12 H13 H14 H15 H16 H17 H18. assert (Hp2 : 2 <= p) by lia.
  destruct (keygen_spec Hp2 gk0 rndK posK sk pk noise pos1 H3 H6 ltac:(rewrite H9; lia) H10) as [K1 [K2 _]].
  destruct (decrypt_spec bits Hp2 gk0 gk rndK posK rndE posE i sk pk noise pos1 ptxt ct1 ct2 r e1 e2 pos2 W old
    H1 H2 H3 H4 H5 H6 H7 H8 H9 H10 H11 H12 H13 H14 H15 H16 H17 H18) as [e [A [B C]]].
  exists e. split; [exact A|]. split; [|exact C]. rewrite B. unfold edot, dotE, k. now rewrite K1, K2, H8.
Qed.
Print Assumptions C39_decrypt.

(** C39: constructor, registration of generated keys, encryption, decryption. *)
Theorem C39_system p ell bits k n s1 s2 crs rndA (gk0 gk : globalKey p ell) rs sks pks ptxt rndE posE ct1 ct2 r e1 e2 pos2 W old :
  let D := 2 ^ (bits / Z.of_nat ell) in
  (2 <= ell)%nat -> Z.of_nat ell <= bits -> 8 <= p -> 8 <= D ->
  k < 2 ^ 27 -> n < 2 ^ 31 -> s1 < 2 ^ 30 -> s2 < 2 ^ 30 ->
  newGlobalKey k n s1 s2 crs rndA = Ret gk0 ->
  (forall i, (i < length pks)%nat -> exists rnd pos no pos',
     internalKeyGen gk0 rnd pos = Ret (nth i sks [], nth i pks [], no, pos')) ->
  (length pks <= Z.to_nat n)%nat ->
  addPKs gk0 pks = (gk, rs) ->
  internalEncrypt bits gk ptxt rndE posE = Ret (ct1, ct2, r, e1, e2, pos2) ->
  0 <= W -> (2 ^ (2 * s1) * k * Z.of_nat ell / 2) * (4 * k * Z.of_nat ell) <= W * W ->
  2 * ((2 * W + 2 ^ s2) * (D + 1)) < p ->
  2 * (2 * W + 2 ^ s2) <= D ^ (Z.of_nat ell - 1) ->
  2 * 2 ^ s1 <= p ->
  forall i, (i < length pks)%nat ->
  exists noise, internalDecrypt bits gk (nth i sks []) (Z.of_nat i) ct1 ct2 old = Ret (nth i ptxt 0%F, noise).
Proof. intros D H1 H2 H3. assert (Hp2 : 2 <= p) by lia. apply (end_to_end bits Hp2); assumption. Qed.
Print Assumptions C39_system.

(** C39: the parameters of the code, k = 2944, sigma 97 and 116, any number of parties. *)
Theorem C39_default n crs rndA (gk0 gk : globalKey P25519 2) rs sks pks ptxt rndE posE ct1 ct2 r e1 e2 pos2 old :
  n < 2 ^ 31 ->
  newGlobalKey 2944 n 97 116 crs rndA = Ret gk0 ->
  (forall i, (i < length pks)%nat -> exists rnd pos no pos',
     internalKeyGen gk0 rnd pos = Ret (nth i sks [], nth i pks [], no, pos')) ->
  (length pks <= Z.to_nat n)%nat ->
  addPKs gk0 pks = (gk, rs) ->
  internalEncrypt 252 gk ptxt rndE posE = Ret (ct1, ct2, r, e1, e2, pos2) ->
  forall i, (i < length pks)%nat ->
  exists noise, internalDecrypt 252 gk (nth i sks []) (Z.of_nat i) ct1 ct2 old = Ret (nth i ptxt 0%F, noise).
Proof.
  intros Hn H1 H2 H3 H4 H5.
  apply (C39_system P25519 2 252 2944 n 97 116 crs rndA gk0 gk rs sks pks ptxt rndE posE ct1 ct2 r e1 e2 pos2
    (Z.sqrt ((2 ^ 194 * 2944 * 2 / 2) * (4 * 2944 * 2)) + 1) old); try assumption; try lia.
  all: apply Z.leb_le || apply Z.ltb_lt; vm_compute; reflexivity.
Qed.
Print Assumptions C39_default.

(** C40. *)
Theorem C40_decode p ell bits (old : elt p ell) x (e : nat -> Z) :
  let D := 2 ^ (bits / Z.of_nat ell) in
  2 <= p -> (2 <= ell)%nat -> Z.of_nat ell <= bits -> D < p ->
  (forall i, (i < ell - 1)%nat -> - p < 2 * (e (S i) - D * e i) <= p) ->
  - D ^ (Z.of_nat ell - 1) <= 2 * e (ell - 1)%nat < D ^ (Z.of_nat ell - 1) ->
  decodePtxt bits old (eopp (eadd (escale x (gadget D)) (of_ints e))) = Ret (x, of_ints e).
Proof. intros D H1 H2 H3 H4. apply decode_spec; assumption. Qed.
Print Assumptions C40_decode.
Theorem C40_default (old : elt P25519 2) x (a b : Z) :
  - 2 ^ 126 <= 2 * b < 2 ^ 126 -> - P25519 < 2 * (b - 2 ^ 126 * a) <= P25519 ->
  decodePtxt 252 old (eopp (eadd (escale x (gadget (2 ^ 126))) (of_ints (fun i => if Nat.eqb i 0 then a else b))))
    = Ret (x, of_ints (fun i => if Nat.eqb i 0 then a else b)).
Proof.
  intros Hb Ha. apply (C40_decode P25519 2 252).
  - exact two_le_P.
  - lia.
  - lia.
  - vm_compute. reflexivity.
  - intros [|i] Hi; [exact Ha|lia].
  - exact Hb.
Qed.
Print Assumptions C40_default.
(** The noise returned is a function of the coefficients only: both bounds are met with equality somewhere. *)
Example C40_example : decodePtxt (p := P25519) (ell := 2) 252 e0
  (eopp (eadd (escale (toF _ 12345) (gadget (2 ^ 126))) (of_ints (fun i => if Nat.eqb i 0 then 7 else - 2 ^ 125))))
  = Ret (toF _ 12345, of_ints (fun i => if Nat.eqb i 0 then 7 else - 2 ^ 125)).
Proof. apply C40_default; split; try (apply Z.leb_le); try (apply Z.ltb_lt); vm_compute; reflexivity. Qed.

(** C41: what a successful key generation returns. *)
Theorem C41_keygen p ell (gk : globalKey p ell) rnd pos sk pk noise pos' :
  8 <= p -> wf_key gk -> 2 * 2 ^ sigmaEnc1 gk <= p ->
  internalKeyGen gk rnd pos = Ret (sk, pk, noise, pos') ->
  let k := Z.to_nat (kay gk) in
  length sk = k /\ length noise = k /\ length pk = k /\
  short sk 3 (4 * kay gk * Z.of_nat ell) /\
  short noise (2 ^ sigmaEnc1 gk - 1) (2 ^ (2 * sigmaEnc1 gk) * kay gk * Z.of_nat ell / 2) /\
  forall j, (j < k)%nat -> nth j pk e0 =
    eadd (esum (map (fun i => emul (nth i sk e0) (nth j (nth i (mrows (gkA gk)) []) e0)) (seq 0 k))) (nth j noise e0).
Proof.
  intros Hp Hwf Hs H k. assert (Hp2 : 2 <= p) by lia.
  destruct (keygen_spec Hp2 gk rnd pos sk pk noise pos' Hp Hwf Hs H) as [K1 [K2 [K3 [K4 K5]]]]. fold k in K1, K2, K5.
  split; [exact K1|]. split; [exact K2|]. split.
  { rewrite K5, zipWith_length; rewrite map_length, seq_length; congruence. }
  split; [exact K3|]. split; [exact K4|]. intros j Hj. rewrite K5, (zipWith_nth _ e0 e0 e0) by (rewrite ?map_length, ?seq_length; congruence).
  rewrite (nth_map_lt _ _ _ _ 0%nat) by (rewrite seq_length; lia). rewrite seq_nth by lia. cbn [Nat.add].
  f_equal. unfold edot. rewrite K1. apply f_equal, map_ext_in. intros i Hi. apply in_seq in Hi. unfold column.
  rewrite (nth_map_lt _ _ _ _ []); [reflexivity|]. destruct Hwf as [_ [_ [_ [_ [[-> _] _]]]]]. lia.
Qed.
Print Assumptions C41_keygen.
(** C41: what a successful encryption returns. *)
Theorem C41_encrypt p ell bits (gk : globalKey p ell) ptxt rnd pos ct1 ct2 r e1 e2 pos' :
  (2 <= ell)%nat -> 8 <= p -> wf_key gk -> 2 * 2 ^ sigmaEnc1 gk <= p -> 2 * 2 ^ sigmaEnc2 gk <= p ->
  internalEncrypt bits gk ptxt rnd pos = Ret (ct1, ct2, r, e1, e2, pos') ->
  let k := Z.to_nat (kay gk) in let n := Z.to_nat (enn gk) in
  length ptxt = n /\ length r = k /\ length e1 = k /\ length e2 = n /\ length ct1 = k /\ length ct2 = n /\
  short r 3 (4 * kay gk * Z.of_nat ell) /\
  short e1 (2 ^ sigmaEnc1 gk - 1) (2 ^ (2 * sigmaEnc1 gk) * kay gk * Z.of_nat ell / 2) /\
  short e2 (2 ^ sigmaEnc2 gk - 1) (2 ^ (2 * sigmaEnc2 gk) * enn gk * Z.of_nat ell / 2) /\
  (forall j, (j < k)%nat -> nth j ct1 e0 = eadd (dotE (nth j (mrows (gkA gk)) []) r k) (nth j e1 e0)) /\
  (forall i, (i < n)%nat -> nth i ct2 e0 =
     eadd (dotE (nth i (mrows (gkB gk)) []) r k)
       (eadd (escale (nth i ptxt 0%F) (gadget (2 ^ (bits / Z.of_nat ell)))) (nth i e2 e0))).
Proof.
  intros Hell Hp Hwf Hs1 Hs2 H k n. assert (Hp2 : 2 <= p) by lia.
  destruct (encrypt_spec bits Hp2 gk ptxt rnd pos ct1 ct2 r e1 e2 pos' Hp Hwf Hs1 Hs2 H)
    as [C0 [C1 [C2 [C3 [C4 [C5 [C6 [C7 [C8 C9]]]]]]]]]. fold k n in C0, C1, C2, C3, C7, C8, C9.
  destruct Hwf as [Hk [Hn [Hsg1 [Hsg2 [[DA1 [DA2 DA3]] [DB1 [DB2 DB3]]]]]]].
  rewrite Forall_forall in DA3, DB3.
  split; [exact C0|]. split; [exact C1|]. split; [exact C2|]. split; [exact C3|]. split.
  { rewrite C7, zipWith_length; rewrite map_length; unfold k in *; congruence. }
  split; [exact C8|]. split; [exact C4|]. split; [exact C5|]. split; [exact C6|]. split.
  - intros j Hj. rewrite C7, (zipWith_nth _ e0 e0 e0) by (rewrite map_length; unfold k in *; congruence).
    rewrite (nth_map_lt _ _ _ _ []) by (unfold k in *; lia). unfold edot, dotE. rewrite DA3 by (apply nth_In; unfold k in *; lia). reflexivity.
  - intros i Hi. rewrite (C9 i Hi). rewrite (gElement_gadget bits Hell). unfold edot, dotE. rewrite DB3 by (apply nth_In; unfold n in *; lia). reflexivity.
Qed.
Print Assumptions C41_encrypt.

(** C41: every outcome.  Key generation makes at most 51 attempts for the key and
    51 for the noise; encryption 51, 25 and 25; the first short vector is used and
    an exception is raised exactly when no attempt of some phase is short. *)
Theorem C41_keygen_trials p ell (gk : globalKey p ell) rnd pos :
  wf_key gk -> 4 * kay gk * Z.of_nat ell < 2 ^ 31 ->
  let k := Z.to_nat (kay gk) in
  let bound := 4 * kay gk * Z.of_nat ell in
  let nbound := 2 ^ (2 * sigmaEnc1 gk) * kay gk * Z.of_nat ell / 2 in
  let after t := (pos + S t * (k * ell))%nat in
  (exists t u pk, accepted_at (p := p) (ell := ell) rnd 51 2 pos k bound t /\
     accepted_at (p := p) (ell := ell) rnd 51 (sigmaEnc1 gk) (after t) k nbound u /\
     internalKeyGen gk rnd pos = Ret (attempt rnd 2 pos k t, pk, attempt rnd (sigmaEnc1 gk) (after t) k u,
        (after t + S u * (k * ell))%nat)) \/
  (internalKeyGen gk rnd pos = Throw /\
    (all_rejected (p := p) (ell := ell) rnd 51 2 pos k bound \/
     exists t, accepted_at (p := p) (ell := ell) rnd 51 2 pos k bound t /\
       all_rejected (p := p) (ell := ell) rnd 51 (sigmaEnc1 gk) (after t) k nbound)).
Proof. exact (keygen_cases gk rnd pos). Qed.
Print Assumptions C41_keygen_trials.
Theorem C41_encrypt_trials p ell bits (gk : globalKey p ell) ptxt rnd pos :
  wf_key gk -> 4 * kay gk * Z.of_nat ell < 2 ^ 31 -> length ptxt = Z.to_nat (enn gk) ->
  let k := Z.to_nat (kay gk) in let n := Z.to_nat (enn gk) in
  let bound := 4 * kay gk * Z.of_nat ell in
  let b1 := 2 ^ (2 * sigmaEnc1 gk) * kay gk * Z.of_nat ell / 2 in
  let b2 := 2 ^ (2 * sigmaEnc2 gk) * enn gk * Z.of_nat ell / 2 in
  let after t := (pos + S t * (k * ell))%nat in
  let after2 t u := (after t + S u * (k * ell))%nat in
  (exists t u w c1 c2, accepted_at (p := p) (ell := ell) rnd 51 2 pos k bound t /\
     accepted_at (p := p) (ell := ell) rnd 25 (sigmaEnc1 gk) (after t) k b1 u /\
     accepted_at (p := p) (ell := ell) rnd 25 (sigmaEnc2 gk) (after2 t u) n b2 w /\
     internalEncrypt bits gk ptxt rnd pos = Ret (c1, c2, attempt rnd 2 pos k t,
        attempt rnd (sigmaEnc1 gk) (after t) k u, attempt rnd (sigmaEnc2 gk) (after2 t u) n w,
        (after2 t u + S w * (n * ell))%nat)) \/
  (internalEncrypt bits gk ptxt rnd pos = Throw /\
    (all_rejected (p := p) (ell := ell) rnd 51 2 pos k bound \/
     (exists t, accepted_at (p := p) (ell := ell) rnd 51 2 pos k bound t /\
       (all_rejected (p := p) (ell := ell) rnd 25 (sigmaEnc1 gk) (after t) k b1 \/
        exists u, accepted_at (p := p) (ell := ell) rnd 25 (sigmaEnc1 gk) (after t) k b1 u /\
          all_rejected (p := p) (ell := ell) rnd 25 (sigmaEnc2 gk) (after2 t u) n b2)))).
Proof. exact (encrypt_cases bits gk ptxt rnd pos). Qed.
Print Assumptions C41_encrypt_trials.

(** C42. *)
Theorem C42_history p ell k n s1 s2 crs rnd (gk0 : globalKey p ell) pks : (0 < ell)%nat -> n < 2 ^ 31 ->
  newGlobalKey k n s1 s2 crs rnd = Ret gk0 ->
  let have := fst (spec_history (Z.to_nat k) (Z.to_nat n) [] pks) in
  exists gk, addPKs gk0 pks = (gk, snd (spec_history (Z.to_nat k) (Z.to_nat n) [] pks)) /\
    kay gk = k /\ enn gk = n /\ tee gk = tee gk0 /\ sigmaEnc1 gk = s1 /\ sigmaEnc2 gk = s2 /\ gkA gk = gkA gk0 /\
    nPks gk = Z.of_nat (length have) /\
    mrows (gkB gk) = have ++ repeat (repeat e0 (Z.to_nat k)) (Z.to_nat n - length have).
Proof.
  intros He Hn Hnew have.
  destruct (new_spec k n s1 s2 crs rnd gk0 He Hnew) as [N1 [N2 [N3 [N4 [N5 [N6 [N7 [N8 [N9 [N10 [N11 _]]]]]]]]]]].
  assert (HB : mrows (gkB gk0) = repeat (repeat e0 (Z.to_nat k)) (Z.to_nat n)) by (exact (new_B k n s1 s2 crs rnd gk0 Hnew)).
  destruct (addPKs_ok gk0 ltac:(lia) ltac:(lia) ltac:(rewrite N2; apply N11) pks gk0 []) as [gk [E1 [HH HL]]]; [cbn; lia| |].
  { unfold holds. cbn [length app skipn]. rewrite N5. repeat split. }
  rewrite N1, N2 in E1, HH, HL. fold have in HH, HL. exists gk. split; [exact E1|].
  destruct HH as [H1 [H2 [H3 [H4 [H5 [H6 [H7 [H8 H9]]]]]]]]. repeat (split; [congruence|]).
  rewrite H9, HB. f_equal. apply skipn_repeat.
Qed.
Print Assumptions C42_history.
(** In particular a failed call changes nothing. *)
Theorem C42_failed_call p ell k n s1 s2 crs rnd (gk0 : globalKey p ell) pks pk gk rs : (0 < ell)%nat -> n < 2 ^ 31 ->
  newGlobalKey k n s1 s2 crs rnd = Ret gk0 -> addPKs gk0 pks = (gk, rs) ->
  length pk <> Z.to_nat k \/ length (fst (spec_history (Z.to_nat k) (Z.to_nat n) [] pks)) = Z.to_nat n ->
  addPK gk pk = (gk, Throw).
Proof.
  intros He Hn Hnew Hadd Hbad.
  destruct (new_spec k n s1 s2 crs rnd gk0 He Hnew) as [N1 [N2 [N3 [N4 [N5 [N6 [N7 [N8 [N9 [N10 [N11 _]]]]]]]]]]].
  destruct (addPKs_ok gk0 ltac:(lia) ltac:(lia) ltac:(rewrite N2; apply N11) pks gk0 []) as [gk' [E1 [HH HL]]]; [cbn; lia| |].
  { unfold holds. cbn [length app skipn]. rewrite N5. repeat split. }
  rewrite Hadd in E1. injection E1 as <- _.
  pose proof (addPK_ok gk0 gk _ pk ltac:(lia) ltac:(lia) ltac:(rewrite N2; apply N11) HL HH) as H.
  rewrite N1, N2 in H.
  destruct (Nat.eqb_spec (length pk) (Z.to_nat k)); cbn [andb] in H; [|exact H].
  destruct (Nat.ltb_spec (length (fst (spec_history (Z.to_nat k) (Z.to_nat n) [] pks))) (Z.to_nat n)); [|exact H].
  destruct Hbad; [contradiction|lia].
Qed.
Print Assumptions C42_failed_call.

(** C43: false, since X^2 + 1 has a root modulo P. *)
Definition im : Z := 4202356475871964119699734399548423449193549369991576068503119564443318355924.
Theorem C43_refuted : exists a b : elt P25519 2, a <> e0 /\ b <> e0 /\ emul a b = e0.
Proof.
  exists (esub (eX 1) (econst (toF _ im))), (eadd (eX 1) (econst (toF _ im))).
  split; [|split].
  - intros H. apply (f_equal (fun z => fval (coeff z 0))) in H. vm_compute in H. discriminate H.
  - intros H. apply (f_equal (fun z => fval (coeff z 0))) in H. vm_compute in H. discriminate H.
  - apply coeff_ext. intros [|[|i]] Hi; [| |lia]; apply Fp_eq; vm_compute; reflexivity.
Qed.
Print Assumptions C43_refuted.
(** The zero divisors are the elements with a0^2 + a1^2 = 0; all others are invertible. *)
Theorem C43_partial p (a : elt p 2) : prime p -> a <> e0 ->
  ((exists b, b <> e0 /\ emul a b = e0) <-> (coeff a 0 * coeff a 0 + coeff a 1 * coeff a 1 = 0)%F).
Proof. intros Hp. exact (zero_divisor_iff Hp a). Qed.
Print Assumptions C43_partial.
Theorem C43_units_partial p (a : elt p 2) : prime p ->
  ((exists b, emul a b = e1) <-> (coeff a 0 * coeff a 0 + coeff a 1 * coeff a 1 <> 0)%F).
Proof. intros Hp. exact (invertible_iff Hp a). Qed.
Print Assumptions C43_units_partial.
Example C43_example : exists b, emul (eadd (eX 1) (econst (toF 17 3))) b = e1 (p := 17) (ell := 2).
Proof. apply C43_units_partial; [exact prime_17|]. intros H. apply (f_equal (@fval 17)) in H. vm_compute in H. discriminate H. Qed.

(** C71. *)
Theorem C71_threshold p ell k n s1 s2 crs rnd (gk : globalKey p ell) : (0 < ell)%nat ->
  newGlobalKey k n s1 s2 crs rnd = Ret gk ->
  enn gk = n /\ (exists q, tee gk = q * Z.of_nat ell) /\ 0 < tee gk /\ 2 * tee gk < n /\
  n <= 2 * (tee gk + Z.of_nat ell).
Proof.
  intros He H. destruct (new_spec k n s1 s2 crs rnd gk He H) as [N1 [N2 [N3 [N4 [N5 [N6 [N7 [N8 [N9 [N10 [N11 [N12 [N13 N14]]]]]]]]]]]]].
  repeat (split; [assumption|]). exact (new_tee k n s1 s2 crs rnd gk He H).
Qed.
Print Assumptions C71_threshold.
Theorem C71_accepts p ell k n s1 s2 rnd : (0 < ell)%nat -> 0 < n ->
  ((exists gk : globalKey p ell, newGlobalKey k n s1 s2 None rnd = Ret gk) <->
   0 < k /\ 1 < s1 /\ 2 < s2 /\ 2 * Z.of_nat ell < n).
Proof. exact (new_ret k n s1 s2 rnd). Qed.
Print Assumptions C71_accepts.
Example C71_example : exists gk : globalKey 17 2, newGlobalKey 3 100 5 6 None (fun i j => econst (toF _ (Z.of_nat (i + j)))) = Ret gk /\ tee gk = 48.
Proof. eexists. split; [reflexivity|]. reflexivity. Qed.
Example C71_example_small : newGlobalKey (p := 17) (ell := 2) 3 4 5 6 None (fun _ _ => e0) = Abort.
Proof. reflexivity. Qed.

(** A small instance: p = 4177, ell = 2, bits = 12, so D = 64, W = 12. *)
Definition ret_of {A} (o : outcome A) (d : A) : A := match o with Ret a => a | _ => d end.
Definition is_ret {A} (o : outcome A) : bool := match o with Ret _ => true | _ => false end.
Lemma is_ret_of {A} (o : outcome A) d : is_ret o = true -> o = Ret (ret_of o d).
Proof. destruct o; cbn; congruence. Qed.
Definition ex_tape (c : nat) (i : nat) : Z * Z := (Z.of_nat (i + c), Z.of_nat (i / 3)).
Definition ex_A (i j : nat) : elt 4177 2 := mkE 2 (fun l => toF _ (Z.of_nat (1000 * i + 77 * j + 5 * l + 11))).
Definition ex_gk0 : globalKey 4177 2 := ret_of (newGlobalKey 1 5 2 3 None ex_A) (GK 0 0 0 0 0 0 (Mat [] 0) (Mat [] 0)).
Definition ex_run (c : nat) := ret_of (internalKeyGen ex_gk0 (ex_tape c) 0) ([], [], [], 0%nat).
Definition ex_sks := map (fun c => let '(sk, _, _, _) := ex_run c in sk) (seq 0 5).
Definition ex_pks := map (fun c => let '(_, pk, _, _) := ex_run c in pk) (seq 0 5).
Definition ex_gk := fst (addPKs ex_gk0 ex_pks).
Definition ex_ptxt := map (toF 4177) [0; 1; 4176; 2020; 3033].
Definition ex_ct := ret_of (internalEncrypt 12 ex_gk ex_ptxt (ex_tape 1) 0) ([], [], [], [], [], 0%nat).
Example C39_example : exists gk0 gk rs sks pks ct1 ct2 r e1 e2 pos2,
  newGlobalKey 1 5 2 3 None ex_A = Ret gk0 /\ length pks = 5%nat /\
  (forall i, (i < length pks)%nat -> exists rnd pos no pos',
     internalKeyGen gk0 rnd pos = Ret (nth i sks [], nth i pks [], no, pos')) /\
  addPKs gk0 pks = (gk, rs) /\
  internalEncrypt 12 gk ex_ptxt (ex_tape 1) 0 = Ret (ct1, ct2, r, e1, e2, pos2) /\
  forall i, (i < 5)%nat -> exists noise, internalDecrypt 12 gk (nth i sks []) (Z.of_nat i) ct1 ct2 e0 = Ret (nth i ex_ptxt 0%F, noise).
Proof.
  destruct ex_ct as [[[[[ct1 ct2] r] e1] e2] pos2] eqn:Ect.
  assert (Hnew : newGlobalKey 1 5 2 3 None ex_A = Ret ex_gk0) by reflexivity.
  assert (Hlen : length ex_pks = 5%nat) by reflexivity.
  assert (Hruns : forall i, (i < length ex_pks)%nat -> exists rnd pos no pos',
     internalKeyGen ex_gk0 rnd pos = Ret (nth i ex_sks [], nth i ex_pks [], no, pos')).
  { intros i Hi. exists (ex_tape i), 0%nat.
    assert (Hr : is_ret (internalKeyGen ex_gk0 (ex_tape i) 0) = true).
    { rewrite Hlen in Hi. do 5 (destruct i as [|i]; [vm_compute; reflexivity|]). lia. }
    apply (is_ret_of _ ([], [], [], 0%nat)) in Hr. rewrite Hr. fold (ex_run i).
    unfold ex_sks, ex_pks. rewrite Hlen in Hi. rewrite !(nth_map_lt _ _ _ _ 0%nat) by (rewrite seq_length; lia).
    rewrite !seq_nth by lia. cbn [Nat.add]. destruct (ex_run i) as [[[sk pk] no] q]. now exists no, q. }
  assert (Hadd : addPKs ex_gk0 ex_pks = (ex_gk, snd (addPKs ex_gk0 ex_pks))) by apply surjective_pairing.
  assert (Henc : internalEncrypt 12 ex_gk ex_ptxt (ex_tape 1) 0 = Ret (ct1, ct2, r, e1, e2, pos2)).
  { rewrite <- Ect. apply is_ret_of. vm_compute. reflexivity. }
  exists ex_gk0, ex_gk, (snd (addPKs ex_gk0 ex_pks)), ex_sks, ex_pks, ct1, ct2, r, e1, e2, pos2.
  repeat (split; [assumption|]).
  apply (C39_system 4177 2 12 1 5 2 3 None ex_A ex_gk0 ex_gk (snd (addPKs ex_gk0 ex_pks)) ex_sks ex_pks ex_ptxt (ex_tape 1) 0 ct1 ct2 r e1 e2 pos2 12);
    try assumption; try lia; apply Z.leb_le || apply Z.ltb_lt; vm_compute; reflexivity.
Qed.
Example C42_example : map is_ret (snd (addPKs ex_gk0 ([] :: ex_pks ++ [[e0]]))) = [false; true; true; true; true; true; false].
Proof. vm_compute. reflexivity. Qed.
Example C41_example_throw : internalKeyGen ex_gk0 (fun _ => (3, 0)) 0 = Throw.
Proof. vm_compute. reflexivity. Qed.

(** C74: encryption does not check that all keys are registered; the plaintext of a
    slot without a key is then readable by anybody (decryption with the key 0). *)
Theorem C74_leak p ell bits k n s1 s2 crs rndA (gk0 gk : globalKey p ell) rs pks ptxt rndE posE ct1 ct2 r e1 e2 pos2 old :
  let D := 2 ^ (bits / Z.of_nat ell) in
  (2 <= ell)%nat -> Z.of_nat ell <= bits -> 8 <= p -> 8 <= D ->
  k < 2 ^ 27 -> n < 2 ^ 31 -> s1 < 2 ^ 30 -> s2 < 2 ^ 30 ->
  newGlobalKey k n s1 s2 crs rndA = Ret gk0 ->
  Forall (fun pk => length pk = Z.to_nat k) pks -> (length pks <= Z.to_nat n)%nat ->
  addPKs gk0 pks = (gk, rs) ->
  internalEncrypt bits gk ptxt rndE posE = Ret (ct1, ct2, r, e1, e2, pos2) ->
  2 * (2 ^ s2 * (D + 1)) < p -> 2 * 2 ^ s2 <= D ^ (Z.of_nat ell - 1) -> 2 * 2 ^ s1 <= p ->
  forall i, (length pks <= i < Z.to_nat n)%nat ->
  exists noise, internalDecrypt bits gk (repeat e0 (Z.to_nat k)) (Z.of_nat i) ct1 ct2 old = Ret (nth i ptxt 0%F, noise).
Proof.
  intros D Hell Hbits Hp8 HD8 Hk Hn Hs1 Hs2 Hnew HF Hlen Hadd HE Hbig Htop Hs1p i Hi.
  destruct (new_spec k n s1 s2 crs rndA gk0 ltac:(lia) Hnew) as [N1 [N2 [N3 [N4 [N5 [N6 [N7 [N8 [N9 [N10 [N11 _]]]]]]]]]]].
  destruct (C42_history p ell k n s1 s2 crs rndA gk0 pks ltac:(lia) Hn Hnew) as [gk' [E1 [H1 [H2 [H3 [H4 [H5 [H6 [H7 H8]]]]]]]]].
  rewrite Hadd in E1. injection E1 as <- _. rewrite history_all in H8 by (try assumption; cbn; lia). cbn [app] in H8.
  assert (HcB : mcols (gkB gk) = Z.to_nat k).
  { destruct (addPKs_ok gk0 ltac:(lia) ltac:(lia) ltac:(rewrite N2; apply N11) pks gk0 []) as [g [E1 [HH _]]]; [cbn; lia| |].
    { unfold holds. cbn [length app skipn]. rewrite N5. repeat split. }
    rewrite Hadd in E1. injection E1 as <- _. destruct HH as [_ [_ [_ [_ [_ [_ [_ [-> _]]]]]]]]. apply N11. }
  assert (Hwf : wf_key gk).
  { unfold wf_key. rewrite H1, H2, H4, H5, H6. repeat (split; [lia|]). split; [assumption|].
    split; [rewrite H8, app_length, repeat_length; lia|]. split; [assumption|]. rewrite H8. apply Forall_app. split; [assumption|].
    apply Forall_forall. intros row Hr. apply repeat_spec in Hr. subst row. apply repeat_length. }
  pose proof (unregistered_leak bits gk rndE posE (Z.of_nat i) ptxt ct1 ct2 r e1 e2 pos2 old Hell Hbits Hp8 HD8 Hwf) as HL.
  rewrite Nat2Z.id, H1, H2, H4, H5 in HL. exists (nth i e2 e0). apply HL; try assumption; [lia|].
  rewrite H8, app_nth2 by lia. rewrite (nth_indep _ [] (repeat e0 (Z.to_nat k))) by (rewrite repeat_length; lia). apply nth_repeat.
Qed.
Print Assumptions C74_leak.
Definition ex_ct0 := ret_of (internalEncrypt 12 ex_gk0 ex_ptxt (ex_tape 1) 0) ([], [], [], [], [], 0%nat).
Theorem C74_refuted : exists (gk0 : globalKey 4177 2) ptxt rnd ct1 ct2 r e1 e2 pos,
  newGlobalKey 1 5 2 3 None ex_A = Ret gk0 /\ nPks gk0 = 0 /\
  internalEncrypt 12 gk0 ptxt rnd 0 = Ret (ct1, ct2, r, e1, e2, pos) /\
  forall i, (i < 5)%nat -> exists noise,
    internalDecrypt 12 gk0 (repeat e0 1) (Z.of_nat i) ct1 ct2 e0 = Ret (nth i ptxt 0%F, noise).
Proof.
  destruct ex_ct0 as [[[[[ct1 ct2] r] e1] e2] pos2] eqn:Ect.
  assert (Hnew : newGlobalKey 1 5 2 3 None ex_A = Ret ex_gk0) by reflexivity.
  assert (Henc : internalEncrypt 12 ex_gk0 ex_ptxt (ex_tape 1) 0 = Ret (ct1, ct2, r, e1, e2, pos2)).
  { rewrite <- Ect. apply is_ret_of. vm_compute. reflexivity. }
  exists ex_gk0, ex_ptxt, (ex_tape 1), ct1, ct2, r, e1, e2, pos2. split; [exact Hnew|]. split; [reflexivity|]. split; [exact Henc|].
  intros i Hi. apply (C74_leak 4177 2 12 1 5 2 3 None ex_A ex_gk0 ex_gk0 [] [] ex_ptxt (ex_tape 1) 0 ct1 ct2 r e1 e2 pos2 e0);
    try assumption; try lia; try constructor; try (cbn; lia); try reflexivity; apply Z.leb_le || apply Z.ltb_lt; vm_compute; reflexivity.
Qed.
Print Assumptions C74_refuted.
