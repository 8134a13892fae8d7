(** Counting masks. *)
From Coq Require Import ZArith List Bool Lia.
From Verif Require Import Outcome Fp Ring AlgebraModel AlgebraSpec AlgebraProofs TernaryModel RegevModel RegevPfState MaskSpec.
Import ListNotations.
Open Scope Z_scope.

Section Prod.
Context {A : Type} (d : A).
Fixpoint prodZ (k : nat -> Z) (n : nat) : Z := match n with O => 1 | S m => k 0%nat * prodZ (fun i => k (S i)) m end.
Lemma exactly_ext (P Q : A -> Prop) k : (forall a, P a <-> Q a) -> exactly k P -> exactly k Q.
Proof. intros H (l & N & I & L). exists l. split; [exact N|]. split; [|exact L]. intros a. rewrite I. apply H. Qed.
Lemma nodup_prod (l : list A) (m : list (list A)) : NoDup l -> NoDup m -> NoDup (flat_map (fun a => map (cons a) m) l).
Proof.
  intros Nl Nm. induction Nl as [|a l Ha Nl IH]; cbn; [constructor|].
  assert (N1 : NoDup (map (cons a) m)) by (apply FinFun.Injective_map_NoDup; [intros x y E; now injection E|exact Nm]).
  revert N1. generalize (map (cons a) m) (fun x => proj1 (in_map_iff (cons a) m x)). intros k Hk Nk.
  induction Nk as [|x k Hx Nk IHk]; cbn; [exact IH|]. constructor.
  - rewrite in_app_iff. intros [Q|Q]; [now apply Hx|]. destruct (Hk x (or_introl eq_refl)) as (r & <- & _).
    apply in_flat_map in Q as (b & Hb & Q). apply in_map_iff in Q as (r' & E & _). injection E as -> _. now apply Ha.
  - apply IHk. intros y Hy. apply Hk. now right.
Qed.
Lemma len_prod (l : list A) (m : list (list A)) : length (flat_map (fun a => map (cons a) m) l) = (length l * length m)%nat.
Proof. induction l as [|a l IH]; cbn; [reflexivity|]. now rewrite app_length, map_length, IH. Qed.
Lemma prod_count : forall n (P : nat -> A -> Prop) k, (forall i, (i < n)%nat -> exactly (k i) (P i)) ->
  exactly (prodZ k n) (fun r => length r = n /\ forall i, (i < n)%nat -> P i (nth i r d)).
Proof.
  induction n as [|n IH]; intros P k H.
  - exists [[]]. split; [repeat constructor; intros []|]. split; [|reflexivity]. intros [|a r]; cbn; split.
    + intros _. split; [reflexivity|lia].
    + now left.
    + intros [E|[]]. discriminate.
    + intros [E _]. discriminate.
  - destruct (H 0%nat ltac:(lia)) as (l & Nl & Il & Ll).
    destruct (IH (fun i => P (S i)) (fun i => k (S i))) as (m & Nm & Im & Lm); [intros i Hi; apply H; lia|].
    exists (flat_map (fun a => map (cons a) m) l). split; [now apply nodup_prod|]. split.
    + intros r. rewrite in_flat_map. split.
      * intros (a & Ha & Q). apply in_map_iff in Q as (r' & <- & Q). apply Im in Q as [L Q]. split; [cbn; now rewrite L|].
        intros [|i] Hi; cbn; [now apply Il|]. apply Q. lia.
      * intros [L Q]. destruct r as [|a r]; [discriminate|]. exists a. split; [apply Il; apply (Q 0%nat); lia|].
        apply in_map. apply Im. split; [now injection L|]. intros i Hi. apply (Q (S i)). lia.
    + rewrite len_prod. cbn. rewrite <- Ll, <- Lm. lia.
Qed.
Lemma prodZ_const c : forall n k, (forall i, (i < n)%nat -> k i = c) -> prodZ k n = c ^ Z.of_nat n.
Proof.
  induction n as [|n IH]; intros k H; [reflexivity|]. cbn [prodZ]. rewrite IH by (intros i Hi; apply H; lia). rewrite (H 0%nat) by lia.
  replace (Z.of_nat (S n)) with (Z.succ (Z.of_nat n)) by lia. rewrite Z.pow_succ_r by lia. reflexivity.
Qed.
End Prod.

Section M.
Context {p : Z} {ell : nat}.
Hypothesis Hp : 2 <= p.
Hypothesis He : (0 < ell)%nat.
Notation F := (Fp p).
Notation E := (elt p ell).
Variables (b U B : Z).
Hypothesis Hb : 0 <= b.
Hypothesis H2 : 2 * 2 ^ b <= p.
Hypothesis HU : U + B < 2 ^ b.
Add Ring Fr : (@Fp_ring p).

Lemma pow_pos : 0 < 2 ^ b.
Proof. apply Z.pow_pos_nonneg; lia. Qed.
(** The draws for an integer e: the magnitude and the sign. *)
Definition draw_of (e : Z) : Z * Z := (Z.abs e, if e <? 0 then 1 else 0).
Lemma draw_of_int e : Z.abs e < 2 ^ b -> is_draw b (draw_of e) /\ bounded_int (draw_of e) b = e.
Proof.
  intros H. unfold is_draw, bounded_int, draw_of. cbn [fst snd]. rewrite Z.mod_small by lia. destruct (Z.ltb_spec e 0); cbn; lia.
Qed.
Lemma draw_inv d : is_draw b d -> Z.abs (bounded_int d b) < 2 ^ b /\ (d = draw_of (bounded_int d b) \/ (d = (0, 1) /\ bounded_int d b = 0)).
Proof.
  destruct d as [m s]. unfold is_draw, bounded_int, draw_of. cbn [fst snd]. intros [Hm Hs]. rewrite Z.mod_small by lia.
  destruct Hs as [-> | ->]; cbn [Z.odd].
  - split; [lia|]. left. destruct (Z.ltb_spec m 0); [lia|]. f_equal. lia.
  - split; [lia|]. destruct (Z.eq_dec m 0) as [->|Hz]; [right; auto|]. left. destruct (Z.ltb_spec (- m) 0); [|lia]. f_equal. lia.
Qed.
Lemma toF_add x y : (toF p x + toF p y)%F = toF p (x + y).
Proof. apply Fp_eq. unfold fadd. rewrite !fval_toF. rewrite <- Zplus_mod. reflexivity. Qed.
Lemma toF_inj x y : Z.abs x < 2 ^ b -> Z.abs y < 2 ^ b -> toF p x = toF p y -> x = y.
Proof. intros A C Q. rewrite <- (balanced_of Hp x), <- (balanced_of Hp y) by lia. now rewrite Q. Qed.
(** One coefficient: u + y = z. *)
Lemma reply_int (a s : F) d : Z.abs (balanced a) <= U -> Z.abs (balanced s) <= B -> is_draw b d ->
  ((a + toF p (bounded_int d b))%F = s <-> bounded_int d b = balanced s - balanced a).
Proof.
  intros A C Hd. pose proof (proj1 (draw_inv d Hd)) as L.
  assert (Ea : toF p (balanced a) = a) by apply (balanced_spec Hp). assert (Es : toF p (balanced s) = s) by apply (balanced_spec Hp).
  split.
  - intros Q. apply toF_inj; [exact L|lia|].
    replace (balanced s - balanced a) with (balanced s + (- balanced a)) by lia. rewrite <- toF_add, Es, <- Q.
    transitivity ((toF p (bounded_int d b) + (a + toF p (- balanced a)))%F); [|ring].
    rewrite <- Ea at 1. rewrite toF_add. replace (balanced a + - balanced a) with 0 by lia. change (toF p 0) with (0%F : F). ring.
  - intros ->. rewrite <- Ea at 1. rewrite toF_add. now replace (balanced a + (balanced s - balanced a)) with (balanced s) by lia.
Qed.
Lemma count_reply (a s : F) : Z.abs (balanced a) <= U -> Z.abs (balanced s) <= B ->
  exactly (if feqb a s then 2 else 1) (fun d => is_draw b d /\ (a + toF p (bounded_int d b))%F = s).
Proof.
  intros A C. pose proof pow_pos as HP.
  assert (D : is_draw b (draw_of (balanced s - balanced a)) /\ bounded_int (draw_of (balanced s - balanced a)) b = balanced s - balanced a) by (apply draw_of_int; lia).
  assert (Z1 : is_draw b (0, 1)) by (split; cbn; [lia|auto]).
  assert (Z2 : bounded_int (0, 1) b = 0) by (unfold bounded_int; cbn [fst snd]; rewrite Z.mod_small by lia; reflexivity).
  destruct (feqb a s) eqn:Q.
  - apply feqb_eq in Q. subst s. exists [draw_of 0; (0, 1)]. rewrite Z.sub_diag in D.
    split; [constructor; [intros [Q|[]]; cbn in Q; discriminate|repeat constructor; intros []]|]. split; [|reflexivity].
    intros d. split.
    + intros [<-|[<-|[]]]; (split; [apply D || exact Z1|]); apply reply_int; try assumption; try apply D; lia.
    + intros [Hd R]. apply reply_int in R; try assumption. rewrite Z.sub_diag in R. destruct (draw_inv d Hd) as [_ [X|[X _]]]; [|right; left; now symmetry].
      left. now rewrite X, R.
  - apply feqb_neq in Q. exists [draw_of (balanced s - balanced a)]. split; [repeat constructor; intros []|]. split; [|reflexivity].
    intros d. split.
    + intros [<-|[]]. split; [apply D|]. apply reply_int; try assumption; apply D.
    + intros [Hd R]. apply reply_int in R; try assumption. destruct (draw_inv d Hd) as [_ [X|[_ X]]]; [left; now rewrite X, R|].
      exfalso. apply Q. rewrite R in X. rewrite <- (proj1 (balanced_spec Hp a)), <- (proj1 (balanced_spec Hp s)). f_equal. lia.
Qed.
(** The integers from -B to B. *)
Definition upto : list Z := map (fun i => Z.of_nat i - B) (seq 0 (Z.to_nat (2 * B + 1))).
Lemma in_upto v : 0 <= B -> In v upto <-> Z.abs v <= B.
Proof.
  intros HB. unfold upto. rewrite in_map_iff. split.
  - intros (i & <- & Hi). apply in_seq in Hi. lia.
  - intros H. exists (Z.to_nat (v + B)). split; [lia|]. apply in_seq. lia.
Qed.
Lemma upto_nodup : NoDup upto.
Proof. apply FinFun.Injective_map_NoDup; [intros x y Q; lia|apply seq_NoDup]. Qed.
Lemma draw_of_inj x y : draw_of x = draw_of y -> x = y.
Proof. unfold draw_of. intros Q. injection Q as Q1 Q2. destruct (Z.ltb_spec x 0), (Z.ltb_spec y 0); try discriminate; lia. Qed.
Lemma count_accepted (a : F) : U <= B -> Z.abs (balanced a) <= U ->
  exactly (2 * B + 2) (fun d => is_draw b d /\ Z.abs (balanced (a + toF p (bounded_int d b))%F) <= B).
Proof.
  intros HUB A. assert (HB : 0 <= B) by lia. pose proof pow_pos as HP. set (a0 := balanced a) in *.
  assert (Ea : toF p a0 = a) by apply (balanced_spec Hp).
  assert (Z1 : is_draw b (0, 1)) by (split; cbn; [lia|auto]).
  assert (Z2 : bounded_int (0, 1) b = 0) by (unfold bounded_int; cbn [fst snd]; rewrite Z.mod_small by lia; reflexivity).
  assert (Bal : forall v, Z.abs v <= B -> balanced (toF p v) = v) by (intros v Hv; apply (balanced_of Hp); lia).
  exists ((0, 1) :: map (fun v => draw_of (v - a0)) upto). split.
    { constructor; [|apply FinFun.Injective_map_NoDup; [intros x y Q; apply draw_of_inj in Q; lia|apply upto_nodup]].
      intros Q. apply in_map_iff in Q as (v & Q & _). unfold draw_of in Q. injection Q as Q1 Q2. destruct (Z.ltb_spec (v - a0) 0); [lia|discriminate]. }
    split.
    + intros d. split.
      * intros [<-|Q]; [rewrite Z2; split; [exact Z1|]; rewrite <- Ea, toF_add, Bal; lia|].
        apply in_map_iff in Q as (v & <- & Hv). apply in_upto in Hv; [|lia]. destruct (draw_of_int (v - a0) ltac:(lia)) as [D1 D2]. split; [exact D1|].
        rewrite D2, <- Ea, toF_add. replace (a0 + (v - a0)) with v by lia. rewrite Bal; lia.
      * intros [Hd R]. destruct (draw_inv d Hd) as [L [X|[X _]]]; [|left; now symmetry].
        right. set (s := (a + toF p (bounded_int d b))%F) in *.
        pose proof (proj1 (reply_int a s d A R Hd) eq_refl) as Q. rewrite X, Q. apply (in_map (fun v => draw_of (v - a0))). now apply in_upto.
    + cbn [length]. unfold upto. rewrite !map_length, seq_length. lia.
Qed.
Lemma count_clean (a : F) : U <= B -> Z.abs (balanced a) <= U ->
  exactly (2 * B) (fun d => is_draw b d /\ Z.abs (balanced (a + toF p (bounded_int d b))%F) <= B /\ (a + toF p (bounded_int d b))%F <> a).
Proof.
  intros HUB A. assert (HB : 0 <= B) by lia. pose proof pow_pos as HP. set (a0 := balanced a) in *.
  assert (Ea : toF p a0 = a) by apply (balanced_spec Hp).
  assert (Bal : forall v, Z.abs v <= B -> balanced (toF p v) = v) by (intros v Hv; apply (balanced_of Hp); lia).
  assert (Ia : In a0 upto) by (apply in_upto; lia). apply in_split in Ia as (l1 & l2 & Q).
  pose proof upto_nodup as N. rewrite Q in N. pose proof (NoDup_remove_1 _ _ _ N) as N1. pose proof (NoDup_remove_2 _ _ _ N) as N2.
  assert (IN : forall v, In v (l1 ++ l2) <-> Z.abs v <= B /\ v <> a0).
  { intros v. rewrite <- in_upto by lia. rewrite Q, !in_app_iff. cbn [In]. split.
    - intros H. split; [tauto|]. intros ->. apply N2, in_app_iff, H.
    - intros [[H|[H|H]] H']; [auto|congruence|auto]. }
  exists (map (fun v => draw_of (v - a0)) (l1 ++ l2)).
  split; [apply FinFun.Injective_map_NoDup; [intros x y K; apply draw_of_inj in K; lia|exact N1]|]. split.
  - intros d. split.
    + intros K. apply in_map_iff in K as (v & <- & Hv). apply IN in Hv as [Hv Hn]. destruct (draw_of_int (v - a0) ltac:(lia)) as [D1 D2]. split; [exact D1|].
      rewrite D2, <- Ea, toF_add. replace (a0 + (v - a0)) with v by lia. rewrite Bal by lia. split; [exact Hv|].
      intros K. apply Hn. apply toF_inj; [lia|lia|exact K].
    + intros (Hd & R & Hn). set (s := (a + toF p (bounded_int d b))%F) in *.
      pose proof (proj1 (reply_int a s d A R Hd) eq_refl) as K.
      assert (Hs : balanced s <> a0) by (intros X; apply Hn; rewrite <- (proj1 (balanced_spec Hp s)), X; exact Ea).
      destruct (draw_inv d Hd) as [L [X|[_ X]]]; [|lia].
      rewrite X, K. apply (in_map (fun v => draw_of (v - a0))). now apply IN.
  - rewrite map_length. assert (L := f_equal (@length Z) Q). unfold upto in L. rewrite map_length, seq_length, app_length in L. cbn [length] in L. rewrite app_length. lia.
Qed.

(** Vectors. *)
Lemma len_coeffs (v : list E) : length (coeffs_of v) = (length v * ell)%nat.
Proof. induction v as [|e v IH]; [reflexivity|]. unfold coeffs_of in *. cbn [flat_map length]. rewrite app_length, map_length, seq_length, IH. lia. Qed.
Lemma nth_coeffs : forall (v : list E) i k, (k < ell)%nat -> nth (i * ell + k) (coeffs_of v) 0%F = coeff (nth i v e0) k.
Proof.
  induction v as [|e v IH]; intros i k Hk.
  - replace (nth i [] e0) with (e0 : E) by (destruct i; reflexivity). cbn [coeffs_of flat_map]. rewrite coeff_e0. destruct (i * ell + k)%nat; reflexivity.
  - unfold coeffs_of in *. cbn [flat_map]. destruct i as [|i].
    + rewrite app_nth1 by (rewrite map_length, seq_length; lia). cbn [Nat.mul Nat.add nth].
      rewrite (nth_indep _ 0%F (coeff e 0)) by (rewrite map_length, seq_length; lia). rewrite map_nth, seq_nth by lia. reflexivity.
    + rewrite app_nth2 by (rewrite map_length, seq_length; lia). rewrite map_length, seq_length. cbn [nth]. rewrite <- IH by exact Hk. f_equal. lia.
Qed.
Lemma coeffs_inj (u v : list E) : length u = length v -> (forall t, (t < length u * ell)%nat -> nth t (coeffs_of u) 0%F = nth t (coeffs_of v) 0%F) -> u = v.
Proof.
  intros L H. apply (nth_ext _ _ e0 e0 L). intros i Hi. apply coeff_ext. intros k Hk.
  rewrite <- !nth_coeffs by exact Hk. apply H. nia.
Qed.
Definition mask (n : nat) (r : list (Z * Z)) : list E := sample_vec (fun j => nth j r (0, 0)) b 0 n.
Lemma mask_len n r : length (mask n r) = n.
Proof. unfold mask, sample_vec. now rewrite map_length, seq_length. Qed.
Lemma mask_coeffs n r t : (t < n * ell)%nat -> nth t (coeffs_of (mask n r)) 0%F = toF p (bounded_int (nth t r (0, 0)) b).
Proof.
  intros Ht. assert (Hi : (t / ell < n)%nat) by (apply Nat.div_lt_upper_bound; lia). pose proof (Nat.mod_upper_bound t ell ltac:(lia)) as Hk.
  pose proof (Nat.div_mod t ell ltac:(lia)) as Q. replace t with (t / ell * ell + t mod ell)%nat at 1 by lia. rewrite nth_coeffs by exact Hk.
  unfold mask, sample_vec. rewrite (nth_indep _ e0 (mkE ell (fun j => toF p (bounded_int (nth (0 + 0 * ell + j) r (0, 0)) b)))) by (rewrite map_length, seq_length; exact Hi).
  rewrite (map_nth (fun i => mkE ell (fun j => toF p (bounded_int (nth (0 + i * ell + j) r (0, 0)) b)))), seq_nth by exact Hi.
  rewrite coeff_mkE. destruct (Nat.ltb_spec (t mod ell) ell); [|lia]. do 3 f_equal. lia.
Qed.
Lemma add_coeffs : forall (u v : list E) t, length u = length v -> (t < length u * ell)%nat -> nth t (coeffs_of (zipWith eadd u v)) 0%F = (nth t (coeffs_of u) 0 + nth t (coeffs_of v) 0)%F.
Proof.
  intros u v t L Ht. assert (Hi : (t / ell < length u)%nat) by (apply Nat.div_lt_upper_bound; lia). pose proof (Nat.mod_upper_bound t ell ltac:(lia)) as Hk.
  pose proof (Nat.div_mod t ell ltac:(lia)) as Q. replace t with (t / ell * ell + t mod ell)%nat by lia. rewrite !nth_coeffs by exact Hk.
  rewrite <- coeff_eadd. f_equal. clear - L Hi. revert v L Hi. generalize (t / ell)%nat as i. induction u as [|a u IH]; intros i [|c v] L Hi; cbn in *; try lia.
  destruct i as [|i]; [reflexivity|]. apply IH; lia.
Qed.
Lemma zip_length : forall (u v : list E), length u = length v -> length (zipWith eadd u v) = length u.
Proof. induction u as [|a u IH]; intros [|c v] H; cbn in *; try lia. f_equal. apply IH. lia. Qed.
Lemma small_nth (C : Z) (v : list E) : small C v <-> forall t, (t < length v * ell)%nat -> Z.abs (balanced (nth t (coeffs_of v) 0%F)) <= C.
Proof.
  split.
  - intros H t Ht. apply (H (nth t (coeffs_of v) 0%F)); [apply nth_In; now rewrite len_coeffs|apply (balanced_spec Hp)].
  - intros H s z Hs Hz. apply (In_nth _ _ 0%F) in Hs as (t & Ht & <-). rewrite len_coeffs in Ht.
    rewrite (is_balanced_unique Hp _ z (balanced (nth t (coeffs_of v) 0%F)) Hz (balanced_spec Hp _)). now apply H.
Qed.
Lemma agree_prod (u v : list E) : length u = length v ->
  prodZ (fun t => if feqb (nth t (coeffs_of u) 0%F) (nth t (coeffs_of v) 0%F) then 2 else 1) (length u * ell) = 2 ^ Z.of_nat (agree u v).
Proof.
  intros L. unfold agree. assert (L' : length (coeffs_of u) = length (coeffs_of v)) by now rewrite !len_coeffs, L. rewrite <- len_coeffs.
  revert L'. generalize (coeffs_of u) (coeffs_of v). clear. induction l as [|a l IH]; intros [|c m] L; cbn in *; try lia.
  rewrite IH by lia. destruct (feqb a c); [|lia]. cbn [length]. replace (Z.of_nat (S (length (filter (fun ab => feqb (fst ab) (snd ab)) (combine l m)))))
    with (Z.succ (Z.of_nat (length (filter (fun ab => feqb (fst ab) (snd ab)) (combine l m))))) by lia. rewrite Z.pow_succ_r by lia. reflexivity.
Qed.
Lemma agree_zero (u v : list E) : length u = length v ->
  (agree u v = 0%nat <-> forall t, (t < length u * ell)%nat -> nth t (coeffs_of u) 0%F <> nth t (coeffs_of v) 0%F).
Proof.
  intros L. unfold agree. assert (L' : length (coeffs_of u) = length (coeffs_of v)) by now rewrite !len_coeffs, L. rewrite <- len_coeffs.
  revert L'. generalize (coeffs_of u) (coeffs_of v). clear. induction l as [|a l IH]; intros [|c m] L; cbn in *; try lia.
  - split; [intros _ t Ht; lia|reflexivity].
  - destruct (feqb a c) eqn:Q.
    + apply feqb_eq in Q. split; [discriminate|]. intros H. exfalso. now apply (H 0%nat ltac:(lia)).
    + apply feqb_neq in Q. rewrite (IH m ltac:(lia)). split.
      * intros H [|t] Ht; [exact Q|]. apply H. lia.
      * intros H t Ht. apply (H (S t)). lia.
Qed.
Lemma draws_nth n r : draws b n r <-> length r = n /\ forall t, (t < n)%nat -> is_draw b (nth t r (0, 0)).
Proof.
  unfold draws. split; intros [L H]; (split; [exact L|]).
  - intros t Ht. rewrite Forall_forall in H. apply H, nth_In. lia.
  - apply Forall_forall. intros d Hd. apply (In_nth _ _ (0, 0)) in Hd as (t & Ht & <-). apply H. lia.
Qed.
Lemma vecAdd_mask (u : list E) r : vecAdd u (mask (length u) r) = Ret (zipWith eadd u (mask (length u) r)).
Proof. unfold vecAdd. now rewrite mask_len, Nat.eqb_refl. Qed.
Lemma reply_coeffs (u : list E) r t : (t < length u * ell)%nat ->
  nth t (coeffs_of (zipWith eadd u (mask (length u) r))) 0%F = (nth t (coeffs_of u) 0 + toF p (bounded_int (nth t r (0%Z, 0%Z)) b))%F.
Proof. intros Ht. rewrite add_coeffs, mask_coeffs by (rewrite ?mask_len; auto). reflexivity. Qed.

Lemma replies (u z : list E) : length u = length z -> small U u -> small B z ->
  exactly (2 ^ Z.of_nat (agree u z)) (fun r => draws b (length u * ell) r /\ vecAdd u (mask (length u) r) = Ret z).
Proof.
  intros L Hu Hz. rewrite small_nth in Hu, Hz. rewrite <- agree_prod by exact L.
  eapply exactly_ext; [|apply (prod_count (0, 0)) with (P := fun t d => is_draw b d /\ (nth t (coeffs_of u) 0 + toF p (bounded_int d b))%F = nth t (coeffs_of z) 0%F);
    intros t Ht; apply count_reply; [now apply Hu|apply Hz; now rewrite <- L]].
  intros r. rewrite draws_nth, vecAdd_mask. split.
  - intros [Lr H]. split; [split; [exact Lr|]; intros t Ht; now apply H|]. f_equal.
    apply coeffs_inj; [now rewrite zip_length, L by now rewrite mask_len|]. rewrite zip_length by now rewrite mask_len. intros t Ht. rewrite reply_coeffs by exact Ht. now apply H.
  - intros [[Lr H] Q]. split; [exact Lr|]. intros t Ht. split; [now apply H|]. rewrite <- reply_coeffs by exact Ht. injection Q as Q. now rewrite Q.
Qed.
Lemma accepted_count (u : list E) : U <= B -> small U u ->
  exactly ((2 * B + 2) ^ Z.of_nat (length u * ell)) (fun r => draws b (length u * ell) r /\ exists z, vecAdd u (mask (length u) r) = Ret z /\ small B z).
Proof.
  intros HUB Hu. rewrite small_nth in Hu.
  rewrite <- (prodZ_const (2 * B + 2) (length u * ell) (fun _ => 2 * B + 2)) by reflexivity.
  eapply exactly_ext; [|apply (prod_count (0, 0)) with (P := fun t d => is_draw b d /\ Z.abs (balanced (nth t (coeffs_of u) 0 + toF p (bounded_int d b))%F) <= B);
    intros t Ht; apply count_accepted; [exact HUB|now apply Hu]].
  intros r. rewrite draws_nth, vecAdd_mask. split.
  - intros [Lr H]. split; [split; [exact Lr|]; intros t Ht; now apply H|]. eexists. split; [reflexivity|].
    apply small_nth. rewrite zip_length by now rewrite mask_len. intros t Ht. rewrite reply_coeffs by exact Ht. now apply H.
  - intros [[Lr H] (z & Q & Hz)]. injection Q as <-. split; [exact Lr|]. intros t Ht. split; [now apply H|]. rewrite <- reply_coeffs by exact Ht.
    rewrite small_nth in Hz. apply Hz. now rewrite zip_length by now rewrite mask_len.
Qed.
Lemma clean_count (u : list E) : U <= B -> small U u ->
  exactly ((2 * B) ^ Z.of_nat (length u * ell)) (fun r => draws b (length u * ell) r /\ exists z, vecAdd u (mask (length u) r) = Ret z /\ small B z /\ agree u z = 0%nat).
Proof.
  intros HUB Hu. rewrite small_nth in Hu.
  rewrite <- (prodZ_const (2 * B) (length u * ell) (fun _ => 2 * B)) by reflexivity.
  eapply exactly_ext; [|apply (prod_count (0, 0)) with (P := fun t d => is_draw b d /\ Z.abs (balanced (nth t (coeffs_of u) 0 + toF p (bounded_int d b))%F) <= B /\
     (nth t (coeffs_of u) 0 + toF p (bounded_int d b))%F <> nth t (coeffs_of u) 0%F); intros t Ht; apply count_clean; [exact HUB|now apply Hu]].
  intros r. rewrite draws_nth, vecAdd_mask. assert (ZL : length u = length (zipWith eadd u (mask (length u) r))) by (symmetry; apply zip_length; now rewrite mask_len). split.
  - intros [Lr H]. split; [split; [exact Lr|]; intros t Ht; now apply H|]. eexists. split; [reflexivity|]. split.
    + apply small_nth. rewrite <- ZL. intros t Ht. rewrite reply_coeffs by exact Ht. now apply H.
    + apply agree_zero; [exact ZL|]. intros t Ht. rewrite reply_coeffs by exact Ht. intros Q. now apply (H t Ht).
  - intros [[Lr H] (z & Q & Hz & Ha)]. injection Q as <-. split; [exact Lr|]. intros t Ht. split; [now apply H|]. rewrite <- reply_coeffs by exact Ht.
    rewrite small_nth in Hz. split; [apply Hz; now rewrite <- ZL|]. apply (proj1 (agree_zero u _ ZL)) with (t := t) in Ha; [|exact Ht]. intros Q. now apply Ha.
Qed.

Lemma agree_all (u : list E) : agree u u = (length u * ell)%nat.
Proof.
  unfold agree. rewrite <- len_coeffs. generalize (coeffs_of u). clear. induction l as [|a l IH]; [reflexivity|]. cbn. rewrite feqb_refl. cbn. now rewrite IH.
Qed.
Lemma nth_const (s : F) n t : (t < n * ell)%nat -> nth t (coeffs_of (repeat (mkE ell (fun _ => s)) n)) 0%F = s.
Proof.
  intros Ht. assert (Hi : (t / ell < n)%nat) by (apply Nat.div_lt_upper_bound; lia). pose proof (Nat.mod_upper_bound t ell ltac:(lia)) as Hk.
  pose proof (Nat.div_mod t ell ltac:(lia)) as Q. replace t with (t / ell * ell + t mod ell)%nat by lia. rewrite nth_coeffs by exact Hk.
  rewrite (nth_indep _ e0 (mkE ell (fun _ => s))) by now rewrite repeat_length. rewrite nth_repeat, coeff_mkE. destruct (Nat.ltb_spec (t mod ell) ell); [reflexivity|lia].
Qed.
Lemma two_counts n : 1 <= U -> U <= B -> (0 < n)%nat ->
  exists u1 u2 z : list E, (length u1 = n /\ length u2 = n /\ length z = n) /\ (small U u1 /\ small U u2 /\ small B z) /\
    exactly (2 ^ Z.of_nat (n * ell)) (fun r => draws b (n * ell) r /\ vecAdd u1 (mask n r) = Ret z) /\
    exactly 1 (fun r => draws b (n * ell) r /\ vecAdd u2 (mask n r) = Ret z).
Proof.
  intros H1 HUB Hn. pose proof pow_pos as HP. set (c := fun v => repeat (mkE ell (fun _ => toF p v)) n : list E).
  assert (L : forall v, length (c v) = n) by (intros; apply repeat_length).
  assert (S : forall v C, Z.abs v <= 1 -> 1 <= C -> small C (c v)).
  { intros v C Hv HC. apply small_nth. rewrite L. intros t Ht. unfold c. rewrite nth_const by exact Ht. rewrite (balanced_of Hp) by lia. lia. }
  exists (c 0), (c 1), (c 0). split; [now rewrite !L|]. split; [split; [|split]; apply S; lia|].
  pose proof (replies (c 0) (c 0) eq_refl (S 0 U ltac:(lia) ltac:(lia)) (S 0 B ltac:(lia) ltac:(lia))) as R1.
  pose proof (replies (c 1) (c 0) (eq_trans (L 1) (eq_sym (L 0))) (S 1 U ltac:(lia) ltac:(lia)) (S 0 B ltac:(lia) ltac:(lia))) as R2.
  rewrite agree_all, L in R1. split; [exact R1|].
  assert (A0 : agree (c 1) (c 0) = 0%nat).
  { apply agree_zero; [now rewrite !L|]. rewrite L. intros t Ht. unfold c. rewrite !nth_const by exact Ht. intros K. apply toF_inj in K; lia. }
  rewrite A0, L in R2. exact R2.
Qed.
End M.
