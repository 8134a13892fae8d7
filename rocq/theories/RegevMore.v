(** addPK histories, the constructor, and zero divisors. *)
From Coq Require Import ZArith List Lia Bool Arith Znumtheory Field.
From Verif Require Import Outcome Prime25519 Fp FSum Ring AlgebraModel AlgebraSpec AlgebraProofs AlgebraMore
  TernaryModel TernarySpec TernaryProofs RegevModel RegevSpec RegevProofs RegevDecrypt.
Import ListNotations.
Open Scope Z_scope.

Section History.
Context {p : Z} {ell : nat}.
Notation E := (elt p ell).
Notation GKt := (globalKey p ell).

(** Running a list of addPK calls; a C++ exception leaves the object usable. *)
Fixpoint addPKs (gk : GKt) (pks : list (list E)) : GKt * list (outcome Z) :=
  match pks with
  | [] => (gk, [])
  | pk :: pks' =>
      let (gk1, r) := addPK gk pk in
      let (gk2, rs) := addPKs gk1 pks' in (gk2, r :: rs)
  end.

Lemma list_set_nth {A} (l : list A) : forall i a j, (i < length l)%nat ->
  nth_error (list_set l i a) j = if (j =? i)%nat then Some a else nth_error l j.
Proof.
  induction l as [|x l IH]; intros [|i] a [|j] H; cbn in *; try lia; try reflexivity. apply IH. lia.
Qed.
Lemma list_set_length {A} (l : list A) : forall i a, length (list_set l i a) = length l.
Proof. induction l as [|x l IH]; intros [|i] a; cbn; auto. Qed.

Definition holds (gk0 gk : GKt) (have : list (list E)) : Prop :=
  kay gk = kay gk0 /\ enn gk = enn gk0 /\ tee gk = tee gk0 /\ sigmaEnc1 gk = sigmaEnc1 gk0 /\
  sigmaEnc2 gk = sigmaEnc2 gk0 /\ gkA gk = gkA gk0 /\
  nPks gk = Z.of_nat (length have) /\ mcols (gkB gk) = mcols (gkB gk0) /\
  mrows (gkB gk) = have ++ skipn (length have) (mrows (gkB gk0)).

Lemma list_set_app {A} (h : list A) : forall l a, (length h < length l)%nat ->
  list_set (h ++ skipn (length h) l) (length h) a = (h ++ [a]) ++ skipn (length (h ++ [a])) l.
Proof.
  induction h as [|x h IH]; intros l a H.
  - destruct l as [|y l]; cbn in *; [lia|]. reflexivity.
  - destruct l as [|y l]; cbn in *; [lia|]. f_equal. apply IH. lia.
Qed.

Lemma addPK_ok (gk0 gk : GKt) have pk : 0 < kay gk0 -> 0 < enn gk0 < 2 ^ 31 ->
  length (mrows (gkB gk0)) = Z.to_nat (enn gk0) -> (length have <= Z.to_nat (enn gk0))%nat -> holds gk0 gk have ->
  if (length pk =? Z.to_nat (kay gk0))%nat && (length have <? Z.to_nat (enn gk0))%nat
  then exists gk', addPK gk pk = (gk', Ret (Z.of_nat (length have))) /\ holds gk0 gk' (have ++ [pk])
  else addPK gk pk = (gk, Throw).
Proof.
  intros Hk Hn HB Hle [H1 [H2 [H3 [H4 [H5 [H6 [H7 [H8 H9]]]]]]]]. unfold addPK. rewrite H1, H2, H7.
  destruct (Nat.eqb_spec (length pk) (Z.to_nat (kay gk0))) as [El|El]; cbn [andb].
  2:{ destruct (Z.eqb_spec (Z.of_nat (length pk)) (kay gk0)); [lia|reflexivity]. }
  destruct (Z.eqb_spec (Z.of_nat (length pk)) (kay gk0)); [|lia]. cbn [negb].
  rewrite (Z.mod_small (enn gk0)) by lia.
  destruct (Nat.ltb_spec (length have) (Z.to_nat (enn gk0))) as [Hl|Hl].
  - destruct (Z.leb_spec (enn gk0) (Z.of_nat (length have))); [lia|].
    assert (LB : length (mrows (gkB gk)) = Z.to_nat (enn gk0)).
    { rewrite H9, app_length, skipn_length. lia. }
    rewrite LB. destruct (Z.leb_spec (Z.of_nat (Z.to_nat (enn gk0))) (Z.of_nat (length have))); [lia|].
    eexists. split; [reflexivity|]. unfold holds. cbn [kay enn tee sigmaEnc1 sigmaEnc2 gkA nPks gkB mcols mrows].
    repeat (split; [first [assumption|reflexivity]|]). split.
    + rewrite Z.mod_small by lia. rewrite app_length. cbn [length]. lia.
    + split; [assumption|]. rewrite Nat2Z.id, H9. apply list_set_app. lia.
  - destruct (Z.leb_spec (enn gk0) (Z.of_nat (length have))); [|lia]. f_equal.
    rewrite Z.mod_small with (a := Z.of_nat (length have) + 1) by lia.
    rewrite Z.mod_small by lia. replace (Z.of_nat (length have) + 1 - 1) with (nPks gk) by lia.
    rewrite <- H1, <- H2. now destruct gk.
Qed.
Lemma addPKs_ok (gk0 : GKt) : 0 < kay gk0 -> 0 < enn gk0 < 2 ^ 31 ->
  length (mrows (gkB gk0)) = Z.to_nat (enn gk0) ->
  forall pks gk have, (length have <= Z.to_nat (enn gk0))%nat -> holds gk0 gk have ->
  exists gk', addPKs gk pks = (gk', snd (spec_history (Z.to_nat (kay gk0)) (Z.to_nat (enn gk0)) have pks)) /\
    holds gk0 gk' (fst (spec_history (Z.to_nat (kay gk0)) (Z.to_nat (enn gk0)) have pks)) /\
    (length (fst (spec_history (Z.to_nat (kay gk0)) (Z.to_nat (enn gk0)) have pks)) <= Z.to_nat (enn gk0))%nat.
Proof.
  intros Hk Hn HB. induction pks as [|pk pks IH]; intros gk have Hle HH; cbn [addPKs spec_history].
  - exists gk. auto.
  - pose proof (addPK_ok gk0 gk have pk Hk Hn HB Hle HH) as HA.
    destruct ((length pk =? Z.to_nat (kay gk0))%nat && (length have <? Z.to_nat (enn gk0))%nat) eqn:EB.
    + destruct HA as [gk' [E1 HH']]. rewrite E1. apply andb_prop in EB. destruct EB as [_ EB]. apply Nat.ltb_lt in EB.
      destruct (IH gk' (have ++ [pk]) ltac:(rewrite app_length; cbn; lia) HH') as [gk2 [E2 [HH2 L2]]]. rewrite E2.
      destruct (spec_history _ _ (have ++ [pk]) pks) as [h rs]. exists gk2. cbn [fst snd] in *. auto.
    + rewrite HA. destruct (IH gk have Hle HH) as [gk2 [E2 [HH2 L2]]]. rewrite E2.
      destruct (spec_history _ _ have pks) as [h rs]. exists gk2. cbn [fst snd] in *. auto.
Qed.

(** The constructor. *)
Lemma omapM_length {A B} (f : A -> outcome B) l : forall r, omapM f l = Ret r -> length r = length l.
Proof.
  induction l as [|a l IH]; intros r H; cbn in H; [now injection H as <-|].
  apply obind_ret_inv in H. destruct H as [b [_ H]]. apply obind_ret_inv in H. destruct H as [bs [H1 H]].
  injection H as <-. cbn. f_equal. now apply IH.
Qed.
Lemma omapM_Forall {A B} (f : A -> outcome B) (P : B -> Prop) l : (forall a b, f a = Ret b -> P b) ->
  forall r, omapM f l = Ret r -> Forall P r.
Proof.
  intros Hf. induction l as [|a l IH]; intros r H; cbn in H; [injection H as <-; constructor|].
  apply obind_ret_inv in H. destruct H as [b [Hb H]]. apply obind_ret_inv in H. destruct H as [bs [H1 H]].
  injection H as <-. constructor; [now apply (Hf a)|now apply IH].
Qed.
Lemma new_spec k n s1 s2 crs rnd (gk : GKt) : (0 < ell)%nat -> newGlobalKey k n s1 s2 crs rnd = Ret gk ->
  kay gk = k /\ enn gk = n /\ sigmaEnc1 gk = s1 /\ sigmaEnc2 gk = s2 /\ nPks gk = 0 /\
  0 < k /\ 0 < n /\ 1 < s1 /\ 2 < s2 /\
  mat_dims (gkA gk) (Z.to_nat k) (Z.to_nat k) /\ mat_dims (gkB gk) (Z.to_nat n) (Z.to_nat k) /\
  (exists q, tee gk = q * Z.of_nat ell) /\ 0 < tee gk /\ 2 * tee gk < n.
Proof.
  intros He H. unfold newGlobalKey in H.
  destruct ((k <=? 0) || (n <=? 0) || (s1 <=? 1) || (s2 <=? 2)) eqn:E0; [discriminate|].
  apply orb_false_elim in E0. destruct E0 as [E0 E4]. apply orb_false_elim in E0. destruct E0 as [E0 E3].
  apply orb_false_elim in E0. destruct E0 as [E1 E2].
  apply Z.leb_gt in E1, E2, E3, E4.
  destruct (0 <? Z.quot (n - 1) (2 * Z.of_nat ell) * Z.of_nat ell) eqn:ET; cbn [negb] in H; [|discriminate].
  apply Z.ltb_lt in ET. remember (Z.quot (n - 1) (2 * Z.of_nat ell) * Z.of_nat ell) as t eqn:Et. apply obind_ret_inv in H. destruct H as [A [HA H]]. injection H as <-.
  cbn [kay enn tee sigmaEnc1 sigmaEnc2 gkA nPks gkB].
  repeat (split; [first [reflexivity|assumption]|]). split; [|split].
  - unfold mat_dims. cbn [mrows mcols]. destruct crs as [M|].
    + split; [rewrite (omapM_length _ _ _ HA); apply seq_length|]. split; [reflexivity|].
      eapply omapM_Forall; [|exact HA]. intros i row Hrow. apply obind_ret_inv in Hrow. destruct Hrow as [r0 [_ Hrow]].
      rewrite (omapM_length _ _ _ Hrow). apply seq_length.
    + injection HA as <-. split; [now rewrite map_length, seq_length|]. split; [reflexivity|].
      apply Forall_forall. intros row Hr. apply in_map_iff in Hr. destruct Hr as [i [<- _]]. now rewrite map_length, seq_length.
  - unfold mat_dims. cbn [mrows mcols]. split; [apply repeat_length|]. split; [reflexivity|].
    apply Forall_forall. intros row Hr. apply repeat_spec in Hr. subst row. apply repeat_length.
  - split; [eexists; exact Et|]. split; [assumption|]. rewrite Et.
    rewrite (Z.quot_div_nonneg (n - 1) (2 * Z.of_nat ell)) by lia.
    pose proof (Z.mul_div_le (n - 1) (2 * Z.of_nat ell) ltac:(lia)). lia.
Qed.
Lemma new_B k n s1 s2 crs rnd (gk : GKt) : newGlobalKey k n s1 s2 crs rnd = Ret gk ->
  mrows (gkB gk) = repeat (repeat e0 (Z.to_nat k)) (Z.to_nat n).
Proof.
  intros H. unfold newGlobalKey in H. destruct (_ || _)%bool; [discriminate|]. destruct (negb _); [discriminate|].
  apply obind_ret_inv in H. destruct H as [A [_ H]].
  remember (repeat (repeat e0 (Z.to_nat k)) (Z.to_nat n)) as B. injection H as <-. reflexivity.
Qed.
Lemma new_tee k n s1 s2 crs rnd (gk : GKt) : (0 < ell)%nat -> newGlobalKey k n s1 s2 crs rnd = Ret gk ->
  n <= 2 * (tee gk + Z.of_nat ell).
Proof.
  intros He H. unfold newGlobalKey in H.
  destruct ((k <=? 0) || (n <=? 0) || (s1 <=? 1) || (s2 <=? 2)) eqn:E0; [discriminate|].
  apply orb_false_elim in E0. destruct E0 as [E0 E4]. apply orb_false_elim in E0. destruct E0 as [E0 E3].
  apply orb_false_elim in E0. destruct E0 as [E1 E2]. apply Z.leb_gt in E2.
  destruct (negb _); [discriminate|].
  remember (Z.quot (n - 1) (2 * Z.of_nat ell) * Z.of_nat ell) as t eqn:Et. apply obind_ret_inv in H. destruct H as [A [HA H]]. injection H as <-.
  cbn [tee]. rewrite Et. rewrite (Z.quot_div_nonneg (n - 1) (2 * Z.of_nat ell)) by lia.
  pose proof (Z.div_mod (n - 1) (2 * Z.of_nat ell) ltac:(lia)). pose proof (Z.mod_pos_bound (n - 1) (2 * Z.of_nat ell) ltac:(lia)). lia.
Qed.
Lemma skipn_repeat {A} (a : A) n m : skipn m (repeat a n) = repeat a (n - m).
Proof. revert n. induction m as [|m IH]; intros [|n]; cbn; auto. Qed.
Lemma new_ret k n s1 s2 rnd : (0 < ell)%nat -> 0 < n ->
  (exists gk, newGlobalKey k n s1 s2 None rnd = Ret (gk : GKt)) <->
  0 < k /\ 1 < s1 /\ 2 < s2 /\ 2 * Z.of_nat ell < n.
Proof.
  intros He Hn. unfold newGlobalKey. split.
  - intros [gk H]. destruct ((k <=? 0) || (n <=? 0) || (s1 <=? 1) || (s2 <=? 2)) eqn:E0; [discriminate|].
    apply orb_false_elim in E0. destruct E0 as [E0 E4]. apply orb_false_elim in E0. destruct E0 as [E0 E3].
    apply orb_false_elim in E0. destruct E0 as [E1 E2]. apply Z.leb_gt in E1, E2, E3, E4.
    destruct (0 <? Z.quot (n - 1) (2 * Z.of_nat ell) * Z.of_nat ell) eqn:ET; cbn [negb] in H; [|discriminate].
    apply Z.ltb_lt in ET. rewrite Z.quot_div_nonneg in ET by lia.
    repeat split; try assumption. destruct (Z.lt_ge_cases (n - 1) (2 * Z.of_nat ell)) as [Hlt|]; [|lia].
    rewrite Z.div_small in ET by lia. lia.
  - intros [H1 [H2 [H3 H4]]].
    destruct (Z.leb_spec k 0); [lia|]. destruct (Z.leb_spec n 0); [lia|]. destruct (Z.leb_spec s1 1); [lia|]. destruct (Z.leb_spec s2 2); [lia|].
    cbn [orb]. destruct (Z.ltb_spec 0 (Z.quot (n - 1) (2 * Z.of_nat ell) * Z.of_nat ell)) as [|Hc]; cbn [negb obind]; [eexists; reflexivity|].
    exfalso. rewrite Z.quot_div_nonneg in Hc by lia.
    assert (1 <= (n - 1) / (2 * Z.of_nat ell)) by (apply Z.div_le_lower_bound; lia). nia.
Qed.
End History.

(** *** Invertible elements for ell = 2 *)
Section Two.
Context {p : Z}.
Hypothesis Hp : prime p.
Add Field FpF2 : (Fp_field Hp).
Notation E := (elt p 2).
Definition norm2 (a : E) : Fp p := (coeff a 0 * coeff a 0 + coeff a 1 * coeff a 1)%F.
Lemma emul2 (a b : E) : coeff (emul a b) 0 = (coeff a 0 * coeff b 0 - coeff a 1 * coeff b 1)%F /\
  coeff (emul a b) 1 = (coeff a 0 * coeff b 1 + coeff a 1 * coeff b 0)%F.
Proof. rewrite !coeff_emul by lia. cbn [seq map fsum Nat.ltb Nat.leb Nat.add Nat.sub]. split; ring. Qed.
Lemma elt2_eq (a b : E) : coeff a 0 = coeff b 0 -> coeff a 1 = coeff b 1 -> a = b.
Proof. intros H0 H1. apply coeff_ext. intros [|[|i]] Hi; [assumption|assumption|lia]. Qed.
Lemma invertible_iff (a : E) : (exists b, emul a b = e1) <-> norm2 a <> 0%F.
Proof.
  split.
  - intros [b Hb] Hn. destruct (emul2 a b) as [M0 M1]. rewrite Hb in M0, M1. rewrite coeff_e1 in M0, M1 by lia. cbn [Nat.eqb] in M0, M1.
    assert (K : (norm2 a * norm2 b = 1)%F).
    { unfold norm2. transitivity ((coeff a 0 * coeff b 0 - coeff a 1 * coeff b 1) * (coeff a 0 * coeff b 0 - coeff a 1 * coeff b 1)
        + (coeff a 0 * coeff b 1 + coeff a 1 * coeff b 0) * (coeff a 0 * coeff b 1 + coeff a 1 * coeff b 0))%F; [ring|].
      rewrite <- M0, <- M1. ring. }
    rewrite Hn in K. apply (f1_neq_0 Hp). rewrite <- K. ring.
  - intros Hn. exists (mkE 2 (fun i => if Nat.eqb i 0 then (coeff a 0 / norm2 a)%F else (- coeff a 1 / norm2 a)%F)).
    set (b := mkE 2 _).
    assert (B0 : coeff b 0 = (coeff a 0 / norm2 a)%F) by (unfold b; rewrite coeff_mkE; reflexivity).
    assert (B1 : coeff b 1 = (- coeff a 1 / norm2 a)%F) by (unfold b; rewrite coeff_mkE; reflexivity).
    destruct (emul2 a b) as [M0 M1].
    apply elt2_eq; [rewrite M0|rewrite M1]; rewrite B0, B1, coeff_e1 by lia; cbn [Nat.eqb]; unfold norm2 in *; field; assumption.
Qed.
Lemma zero_divisor_iff (a : E) : a <> e0 -> ((exists b, b <> e0 /\ emul a b = e0) <-> norm2 a = 0%F).
Proof.
  intros Ha. split.
  - intros [b [Hb H]]. destruct (fp_dec (norm2 a) 0%F) as [|Hn]; [assumption|]. exfalso. apply Hb.
    apply invertible_iff in Hn. destruct Hn as [c Hc].
    transitivity (emul (emul a c) b); [rewrite Hc; symmetry; apply emul_1_l; lia|].
    rewrite (emul_comm a c), <- emul_assoc, H. apply emul_0_r.
  - intros Hn. exists (mkE 2 (fun i => if Nat.eqb i 0 then coeff a 0 else (- coeff a 1)%F)).
    set (b := mkE 2 _).
    assert (B0 : coeff b 0 = coeff a 0) by (unfold b; rewrite coeff_mkE; reflexivity).
    assert (B1 : coeff b 1 = (- coeff a 1)%F) by (unfold b; rewrite coeff_mkE; reflexivity).
    split.
    + intros E0. apply Ha. rewrite E0, coeff_e0 in B0, B1. apply elt2_eq; rewrite coeff_e0; [congruence|].
      transitivity (- - coeff a 1)%F; [ring|]. rewrite <- B1. ring.
    + destruct (emul2 a b) as [M0 M1]. apply elt2_eq; rewrite ?M0, ?M1, B0, B1, coeff_e0; [|ring].
      rewrite <- Hn. unfold norm2. ring.
Qed.
End Two.

(** *** All outcomes of key generation and encryption *)
Section Cases.
Context {p : Z} {ell : nat}.
Variable bits : Z.
Notation F := (Fp p).
Notation E := (elt p ell).
Notation GKt := (globalKey p ell).
Hypothesis Hp : 2 <= p.

Definition kb (gk : GKt) : Z := 4 * kay gk * Z.of_nat ell.
Definition nb1 (gk : GKt) : Z := 2 ^ (2 * sigmaEnc1 gk) * kay gk * Z.of_nat ell / 2.
Definition nb2 (gk : GKt) : Z := 2 ^ (2 * sigmaEnc2 gk) * enn gk * Z.of_nat ell / 2.

Lemma as_int_ok z : - 2 ^ 31 <= z < 2 ^ 31 -> as_int z = Ret z.
Proof. intros H. unfold as_int. destruct (Z.leb_spec (- 2 ^ 31) z); [|lia]. destruct (Z.ltb_spec z (2 ^ 31)); [|lia]. reflexivity. Qed.
Lemma key_bound_ok (gk : GKt) : wf_key gk -> kb gk < 2 ^ 31 -> key_bound (ell := ell) (kay gk) = Ret (kb gk).
Proof.
  intros [Hk _] H. unfold key_bound, kb in *. rewrite as_int_ok by lia. cbn [obind]. apply as_int_ok. lia.
Qed.
Lemma noise_bound_ok s k : 0 <= s < 2 ^ 30 -> noise_bound (ell := ell) s k = Ret (2 ^ (2 * s) * k * Z.of_nat ell / 2).
Proof. intros H. unfold noise_bound. now rewrite as_int_ok by lia. Qed.

Lemma keygen_cases (gk : GKt) rnd pos : wf_key gk -> kb gk < 2 ^ 31 ->
  let k := Z.to_nat (kay gk) in
  (exists t u pk, accepted_at (p := p) (ell := ell) rnd 51 2 pos k (kb gk) t /\
     accepted_at (p := p) (ell := ell) rnd 51 (sigmaEnc1 gk) (pos + S t * (k * ell)) k (nb1 gk) u /\
     internalKeyGen gk rnd pos = Ret (attempt rnd 2 pos k t, pk, attempt rnd (sigmaEnc1 gk) (pos + S t * (k * ell)) k u,
        (pos + S t * (k * ell) + S u * (k * ell))%nat)) \/
  (internalKeyGen gk rnd pos = Throw /\
    (all_rejected (p := p) (ell := ell) rnd 51 2 pos k (kb gk) \/
     exists t, accepted_at (p := p) (ell := ell) rnd 51 2 pos k (kb gk) t /\
       all_rejected (p := p) (ell := ell) rnd 51 (sigmaEnc1 gk) (pos + S t * (k * ell)) k (nb1 gk))).
Proof.
  intros Hwf Hkb k. unfold internalKeyGen. fold k. rewrite (key_bound_ok gk Hwf Hkb). cbn [obind].
  destruct Hwf as [Hk [Hn [Hs1 [Hs2 [[DA1 [DA2 DA3]] _]]]]].
  change rho with 2.
  destruct (reject_51 (p := p) (ell := ell) rnd 2 pos k (kb gk)) as [[t [E1 A1]]|[E1 A1]]; rewrite E1; cbn [obind fst snd].
  2:{ right. auto. }
  rewrite noise_bound_ok by lia. cbn [obind]. fold (nb1 gk).
  destruct (reject_51 (p := p) (ell := ell) rnd (sigmaEnc1 gk) (pos + S t * (k * ell)) k (nb1 gk)) as [[u [E2 A2]]|[E2 A2]]; rewrite E2; cbn [obind fst snd].
  2:{ right. split; [reflexivity|]. right. exists t. auto. }
  left. exists t, u. unfold vecMat. rewrite DA1. unfold attempt. rewrite !sample_length. unfold k. rewrite Nat.eqb_refl. cbn [negb obind].
  unfold vecAdd. rewrite map_length, seq_length, sample_length, DA2, Nat.eqb_refl. cbn [negb obind].
  eexists. split; [exact A1|]. split; [exact A2|]. reflexivity.
Qed.
Lemma encrypt_cases (gk : GKt) ptxt rnd pos : wf_key gk -> kb gk < 2 ^ 31 -> length ptxt = Z.to_nat (enn gk) ->
  let k := Z.to_nat (kay gk) in let n := Z.to_nat (enn gk) in
  (exists t u w c1 c2, accepted_at (p := p) (ell := ell) rnd 51 2 pos k (kb gk) t /\
     accepted_at (p := p) (ell := ell) rnd 25 (sigmaEnc1 gk) (pos + S t * (k * ell)) k (nb1 gk) u /\
     accepted_at (p := p) (ell := ell) rnd 25 (sigmaEnc2 gk) (pos + S t * (k * ell) + S u * (k * ell)) n (nb2 gk) w /\
     internalEncrypt bits gk ptxt rnd pos = Ret (c1, c2, attempt rnd 2 pos k t,
        attempt rnd (sigmaEnc1 gk) (pos + S t * (k * ell)) k u,
        attempt rnd (sigmaEnc2 gk) (pos + S t * (k * ell) + S u * (k * ell)) n w,
        (pos + S t * (k * ell) + S u * (k * ell) + S w * (n * ell))%nat)) \/
  (internalEncrypt bits gk ptxt rnd pos = Throw /\
    (all_rejected (p := p) (ell := ell) rnd 51 2 pos k (kb gk) \/
     (exists t, accepted_at (p := p) (ell := ell) rnd 51 2 pos k (kb gk) t /\
       (all_rejected (p := p) (ell := ell) rnd 25 (sigmaEnc1 gk) (pos + S t * (k * ell)) k (nb1 gk) \/
        exists u, accepted_at (p := p) (ell := ell) rnd 25 (sigmaEnc1 gk) (pos + S t * (k * ell)) k (nb1 gk) u /\
          all_rejected (p := p) (ell := ell) rnd 25 (sigmaEnc2 gk) (pos + S t * (k * ell) + S u * (k * ell)) n (nb2 gk))))).
Proof.
  intros Hwf Hkb HL k n. pose proof (key_bound_ok gk Hwf Hkb) as HK.
  destruct Hwf as [Hk [Hn [Hs1 [Hs2 [[DA1 [DA2 DA3]] [DB1 [DB2 DB3]]]]]]].
  unfold internalEncrypt. fold k. fold n. rewrite DA1, DA2, DB1, DB2. rewrite !Z2Nat.id by lia. rewrite !Z.eqb_refl. cbn [negb orb].
  rewrite HL, Nat.eqb_refl. cbn [negb]. rewrite HK. cbn [obind]. change rho with 2.
  destruct (reject_51 (p := p) (ell := ell) rnd 2 pos k (kb gk)) as [[t [E1 A1]]|[E1 A1]]; rewrite E1; cbn [obind fst snd].
  2:{ right. auto. }
  assert (HLr : length (attempt (p := p) (ell := ell) rnd 2 pos k t) = Z.to_nat (kay gk)) by (unfold attempt; apply sample_length).
  unfold matVec. rewrite HLr, DA2, DB2, Nat.eqb_refl. cbn [negb obind].
  rewrite noise_bound_ok by lia. cbn [obind]. fold (nb1 gk).
  destruct (reject_25 (p := p) (ell := ell) rnd (sigmaEnc1 gk) (pos + S t * (k * ell)) k (nb1 gk)) as [[u [E2 A2]]|[E2 A2]]; rewrite E2; cbn [obind fst snd].
  2:{ right. split; [reflexivity|]. right. exists t. auto. }
  rewrite noise_bound_ok by lia. cbn [obind]. fold (nb2 gk).
  destruct (reject_25 (p := p) (ell := ell) rnd (sigmaEnc2 gk) (pos + S t * (k * ell) + S u * (k * ell)) n (nb2 gk)) as [[w [E3 A3]]|[E3 A3]]; rewrite E3; cbn [obind fst snd].
  2:{ right. split; [reflexivity|]. right. exists t. split; [exact A1|]. right. exists u. auto. }
  left. exists t, u, w. do 2 eexists. split; [exact A1|]. split; [exact A2|]. split; [exact A3|]. reflexivity.
Qed.

(** A history in which every key has the right length and there are at most n. *)
Lemma history_all k n : forall (pks have : list (list E)), Forall (fun pk => length pk = k) pks ->
  (length have + length pks <= n)%nat -> fst (spec_history k n have pks) = have ++ pks.
Proof.
  induction pks as [|pk pks IH]; intros have HF Hl; cbn [spec_history].
  - cbn. now rewrite app_nil_r.
  - apply Forall_cons_iff in HF. destruct HF as [H1 H2]. cbn [length] in Hl.
    destruct (Nat.eqb_spec (length pk) k); [|contradiction]. destruct (Nat.ltb_spec (length have) n); [|lia]. cbn [andb].
    specialize (IH (have ++ [pk]) H2). rewrite app_length in IH. cbn [length] in IH. specialize (IH ltac:(lia)).
    destruct (spec_history k n (have ++ [pk]) pks). cbn [fst] in *. rewrite IH, <- app_assoc. reflexivity.
Qed.

Notation D := (delta (ell := ell) bits).
(** Public keys made by key generation, at most n, then an encryption. *)
Lemma end_to_end k n s1 s2 crs rndA (gk0 gk : GKt) rs sks pks ptxt rndE posE ct1 ct2 r e1 e2 pos2 W old :
  (2 <= ell)%nat -> Z.of_nat ell <= bits -> 8 <= p -> 8 <= D ->
  k < 2 ^ 27 -> n < 2 ^ 31 -> s1 < 2 ^ 30 -> s2 < 2 ^ 30 ->
  newGlobalKey k n s1 s2 crs rndA = Ret gk0 ->
  (forall i, (i < length pks)%nat -> exists rnd pos no pos',
     internalKeyGen gk0 rnd pos = Ret (nth i sks [], nth i pks [], no, pos')) ->
  (length pks <= Z.to_nat n)%nat ->
  addPKs gk0 pks = (gk, rs) ->
  internalEncrypt bits gk ptxt rndE posE = Ret (ct1, ct2, r, e1, e2, pos2) ->
  0 <= W -> (2 ^ (2 * s1) * k * Z.of_nat ell / 2) * (4 * k * Z.of_nat ell) <= W * W ->
  2 * ((2 * W + 2 ^ s2) * (D + 1)) < p ->
  2 * (2 * W + 2 ^ s2) <= D ^ (Z.of_nat ell - 1) ->
  2 * 2 ^ s1 <= p ->
  forall i, (i < length pks)%nat ->
  exists noise, internalDecrypt bits gk (nth i sks []) (Z.of_nat i) ct1 ct2 old = Ret (nth i ptxt 0%F, noise).
Proof.
  intros Hell Hbits Hp8 HD8 Hkm Hnm Hs1m Hs2m Hnew Hruns Hlen Hadd Henc HW HWW Hbig Htop Hs1 i Hi.
  destruct (new_spec k n s1 s2 crs rndA gk0 ltac:(lia) Hnew) as [N1 [N2 [N3 [N4 [N5 [N6 [N7 [N8 [N9 [N10 [N11 _]]]]]]]]]]].
  assert (Hwf0 : wf_key gk0) by (unfold wf_key; rewrite N1, N2, N3, N4; repeat (split; [lia|]); split; assumption).
  assert (Hlenpk : Forall (fun pk => length pk = Z.to_nat k) pks).
  { apply Forall_forall. intros pk Hpk. destruct (In_nth _ _ [] Hpk) as [j [Hj Ej]].
    destruct (Hruns j Hj) as [rk [pk0 [no [q HK]]]]. rewrite Ej in HK.
    destruct (keygen_spec Hp gk0 rk pk0 _ pk no q Hp8 Hwf0 ltac:(rewrite N3; lia) HK) as [K1 [K2 [_ [_ K5]]]].
    rewrite N1 in *. rewrite K5. rewrite zipWith_length; rewrite map_length, seq_length; congruence. }
  destruct (addPKs_ok gk0 ltac:(lia) ltac:(lia) ltac:(rewrite N2; apply N11) pks gk0 [])
    as [gk' [E1 [HH _]]]; [cbn; lia| |].
  { unfold holds. cbn [length app skipn]. rewrite N5. repeat split. }
  rewrite Hadd in E1. injection E1 as <- _.
  rewrite N1, N2 in HH. rewrite (history_all (Z.to_nat k) (Z.to_nat n)) in HH; [|assumption|cbn [length]; lia].
  cbn [app] in HH. destruct HH as [H1 [H2 [H3 [H4 [H5 [H6 [H7 [H8 H9]]]]]]]].
  destruct N11 as [B1 [B2 B3]].
  assert (Hwf : wf_key gk).
  { unfold wf_key. rewrite H1, H2, H4, H5, H6, N1, N2, N3, N4. repeat (split; [lia|]). split; [assumption|].
    split; [rewrite H9, app_length, skipn_length; lia|]. split; [congruence|]. rewrite H9. apply Forall_app. split; [assumption|].
    apply Forall_forall. intros row Hr. rewrite Forall_forall in B3. apply B3. rewrite <- (firstn_skipn (length pks)). apply in_or_app. now right. }
  destruct (Hruns i Hi) as [rk [pk0 [no [q HK]]]].
  assert (Hpk : nth_error (mrows (gkB gk)) (Z.to_nat (Z.of_nat i)) = Some (nth i pks [])).
  { rewrite Nat2Z.id, H9, nth_error_app1 by assumption. now apply nth_error_nth'. }
  destruct (decrypt_spec bits Hp gk0 gk rk pk0 rndE posE (Z.of_nat i) _ _ no q ptxt ct1 ct2 r e1 e2 pos2 W old
    Hell Hbits Hp8 HD8 Hwf Hwf0 ltac:(congruence) ltac:(congruence) ltac:(congruence) HK ltac:(lia) Hpk Henc HW
    ltac:(rewrite H4, H1, N3, N1; assumption) ltac:(rewrite H5, N4; assumption) ltac:(rewrite H5, N4; assumption) ltac:(rewrite H4, N3; assumption))
    as [e [_ [_ E2]]].
  exists (of_ints e). rewrite E2. now rewrite Nat2Z.id.
Qed.
End Cases.

(** *** Slots without a key *)
Section Leak.
Context {p : Z} {ell : nat}.
Add Ring FrL : (@Fp_ring p).
Variable bits : Z.
Notation E := (elt p ell).
Notation GKt := (globalKey p ell).
Notation D := (delta (ell := ell) bits).

Lemma edot_zero_l (k : nat) (v : list E) : edot (repeat e0 k) v = e0.
Proof.
  unfold edot. rewrite repeat_length. apply coeff_ext. intros j _.
  transitivity (coeff (esum (map (fun _ => @e0 p ell) (seq 0 k))) j).
  - f_equal. f_equal. apply map_ext_in. intros i Hi. apply in_seq in Hi.
    rewrite nth_repeat. apply emul_0_l.
  - induction (seq 0 k) as [|i l IH]; [reflexivity|]. cbn [map esum]. rewrite coeff_eadd, IH. rewrite !coeff_e0. apply fadd_0_l.
Qed.

Lemma unregistered_leak (gk : GKt) rnd pos i ptxt ct1 ct2 r e1 e2 pos' old :
  (2 <= ell)%nat -> Z.of_nat ell <= bits -> 8 <= p -> 8 <= D -> wf_key gk ->
  0 <= i < enn gk -> nth (Z.to_nat i) (mrows (gkB gk)) [] = repeat e0 (Z.to_nat (kay gk)) ->
  internalEncrypt bits gk ptxt rnd pos = Ret (ct1, ct2, r, e1, e2, pos') ->
  2 * (2 ^ sigmaEnc2 gk * (D + 1)) < p -> 2 * 2 ^ sigmaEnc2 gk <= D ^ (Z.of_nat ell - 1) -> 2 * 2 ^ sigmaEnc1 gk <= p ->
  internalDecrypt bits gk (repeat e0 (Z.to_nat (kay gk))) i ct1 ct2 old = Ret (nth (Z.to_nat i) ptxt 0%F, nth (Z.to_nat i) e2 e0).
Proof.
  intros Hell Hbits Hp8 HD8 Hwf Hi HB HE Hbig Htop Hs1.
  assert (Hp : 2 <= p) by lia.
  assert (Hs2pos : 0 < 2 ^ sigmaEnc2 gk) by (apply Z.pow_pos_nonneg; [lia|destruct Hwf as [_ [_ [_ [H _]]]]; lia]).
  assert (Hs2 : 2 * 2 ^ sigmaEnc2 gk <= p) by nia.
  assert (HDp : D < p) by nia.
  destruct (encrypt_spec bits Hp gk ptxt rnd pos ct1 ct2 r e1 e2 pos' Hp8 Hwf Hs1 Hs2 HE)
    as [C0 [C1 [C2 [C3 [C4 [C5 [C6 [C7 [C8 C9]]]]]]]]].
  destruct Hwf as [Hk [Hn [Hsg1 [Hsg2 [HA HBd]]]]].
  set (k := Z.to_nat (kay gk)) in *. set (n := Z.to_nat (enn gk)) in *. set (ii := Z.to_nat i) in *.
  assert (Hii : (ii < n)%nat) by lia.
  specialize (C9 ii Hii). rewrite HB, edot_zero_l, eadd_0_l in C9.
  assert (B3 : forall j, (j < ell)%nat -> Z.abs (balanced (coeff (nth ii e2 e0) j)) <= 2 ^ sigmaEnc2 gk - 1).
  { intros j Hj. destruct C6 as [zs [Z1 [Z2 _]]]. rewrite (are_balanced_unique Hp _ zs _ Z1 (balanced_vec_spec Hp _)) in Z2.
    rewrite Forall_forall in Z2. apply Z2. apply in_map. unfold coeffs_of. apply in_flat_map.
    exists (nth ii e2 e0). split; [apply nth_In; lia|]. apply in_map. apply in_seq. lia. }
  set (ez := fun j => balanced (coeff (nth ii e2 e0) j)).
  assert (Hez : of_ints ez = nth ii e2 e0).
  { apply coeff_ext. intros j Hj. unfold of_ints. rewrite coeff_mkE. destruct (Nat.ltb_spec j ell); [|lia]. apply (toF_balanced Hp). }
  assert (L1 : length ct1 = k).
  { rewrite C7. rewrite zipWith_length; rewrite map_length; destruct HA as [HA1 _]; congruence. }
  unfold internalDecrypt. rewrite repeat_length, L1, C8. unfold k, n. rewrite !Z2Nat.id by lia. rewrite !Z.eqb_refl. cbn [negb orb].
  destruct (Z.ltb_spec i 0); [lia|]. destruct (Z.leb_spec (enn gk) i); [lia|]. cbn [orb].
  assert (HG : oget ct2 (Z.to_nat i) = Ret (nth ii ct2 e0)) by (apply oget_ret; apply nth_error_nth'; lia).
  rewrite HG. cbn [obind]. fold k.
  assert (HZ : esub (innerProductEE (repeat e0 k) ct1) (nth ii ct2 e0) =
     eopp (eadd (escale (nth ii ptxt 0%F) (gadget D)) (of_ints ez))).
  { rewrite innerProductEE_edot by (rewrite repeat_length; congruence). rewrite edot_zero_l, C9, Hez, <- (gElement_gadget bits Hell).
    apply coeff_ext. intros j _. rewrite coeff_esub, coeff_eopp, coeff_e0. ring. }
  rewrite HZ, <- Hez. apply (decode_spec bits Hp Hell Hbits HDp).
  - intros j Hj. pose proof (B3 j ltac:(lia)). pose proof (B3 (S j) ltac:(lia)). fold (ez j) (ez (S j)) in *.
    assert (Z.abs (D * ez j) <= D * 2 ^ sigmaEnc2 gk).
    { rewrite Z.abs_mul, (Z.abs_eq D) by lia. apply Z.mul_le_mono_nonneg_l; lia. }
    nia.
  - pose proof (B3 (ell - 1)%nat ltac:(lia)). fold (ez (ell - 1)%nat) in *. lia.
Qed.
End Leak.
