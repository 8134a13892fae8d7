(** Handing over a secret: correctness and secrecy. *)
From Coq Require Import ZArith Znumtheory List Lia Bool Field.
From Verif Require Import NumTheory Outcome Fp FSum Poly ShamirModel ShamirSpec ShamirProofs ShamirSecret TernaryModel TernaryProofs ReshareSpec.
Import ListNotations.
Open Scope Z_scope.
Local Open Scope fp_scope.

Lemma last_indep {A} (l : list A) d e : l <> [] -> last l d = last l e.
Proof. induction l as [|a [|b l] IH]; [congruence|reflexivity|]. intros _. apply IH. discriminate. Qed.
Lemma Forall2_impl {A B} (P Q : A -> B -> Prop) l m : (forall a b, P a b -> Q a b) -> Forall2 P l m -> Forall2 Q l m.
Proof. intros H F. induction F; constructor; auto. Qed.
Section S.
Context {p : Z} (Hp : prime p).
Notation F := (Fp p).
Add Field FpFieldRs : (Fp_field Hp).
Variable evs : list Z.
Hypothesis Hg : good_points (p := p) evs.

Lemma rec_range rec : incl rec evs -> Forall (in_range (p := p)) rec.
Proof. intros H. apply Forall_forall. intros e He. destruct Hg as [_ G]. rewrite Forall_forall in G. apply G. now apply H. Qed.
Lemma lag_ret rec : incl rec evs -> exists lam : list F, lagrangeCoeffs rec = Ret lam /\ length lam = length rec.
Proof. intros H. eexists. unfold lagrangeCoeffs. rewrite (lag_outer_spec Hp) by now apply rec_range. split; [reflexivity|]. now rewrite map_length. Qed.
Lemma lag_poly rec lam (q : list F) : NoDup rec -> incl rec evs -> (length q <= length rec)%nat -> lagrangeCoeffs rec = Ret lam ->
  dot lam (map (fun e => peval q (toF p e)) rec) = peval q 0.
Proof.
  intros N I L E. pose proof (getSecret_poly Hp rec q N (rec_range rec I) L) as H. unfold getSecret in H. rewrite E in H. cbn [obind] in H. injection H as H. rewrite <- nInner_dot. exact H.
Qed.
Lemma member_share_map (f : Z -> F) e : In e evs -> member_share evs (map f evs) e = f e.
Proof.
  intros He. unfold member_share. destruct (position_nth e evs He) as [L N]. rewrite (nth_indep _ _ (f 0%Z)) by now rewrite map_length. rewrite map_nth. now rewrite N.
Qed.
Lemma member_share_tl (l : list F) x e : share_of evs (x :: l) e = member_share evs l e.
Proof. reflexivity. Qed.
Lemma newSharing_eq (s : F) rs : newSharing evs s rs = s :: map (fun e => peval (s :: rs) (toF p e)) evs.
Proof. unfold newSharing. cbn [map]. rewrite map_map. f_equal. cbn [peval]. ring. Qed.
Lemma dot_lin (lam : list F) {A} (f g : A -> F) d l : dot lam (map (fun a => f a + d * g a) l) = dot lam (map f l) + d * dot lam (map g l).
Proof.
  revert l. induction lam as [|x lam IH]; intros [|a l]; cbn [dot map]; try ring. rewrite IH. ring.
Qed.
(** The combination of polynomials. *)
Definition comb (t : nat) (lam : list F) (cs : list (list F)) : list F := map (fun k => dot lam (map (fun c => nth k c 0) cs)) (seq 0 t).
Lemma comb_length t lam cs : length (comb t lam cs) = t.
Proof. unfold comb. now rewrite map_length, seq_length. Qed.
Lemma comb_eval t lam : forall cs x, Forall (fun c => length c = t) cs -> peval (comb t lam cs) x = dot lam (map (fun c => peval c x) cs).
Proof.
  intros cs x H. rewrite <- poly_at_peval. unfold poly_at. rewrite comb_length.
  rewrite (fsum_map_ext _ (fun i => dot lam (map (fun c => nth i c 0) cs) * x ^ i)).
  2:{ intros i Hi. apply in_seq in Hi. unfold comb. rewrite (nth_map_seq (fun k => dot lam (map (fun c => nth k c 0) cs))) by lia. reflexivity. }
  revert cs H. induction lam as [|a lam IH]; intros [|c cs] H; cbn [dot map].
  - apply fsum_map_0. intros; ring.
  - apply fsum_map_0. intros; ring.
  - apply fsum_map_0. intros; ring.
  - inversion H as [|? ? Hc Hcs]; subst. rewrite <- (IH cs Hcs), <- (poly_at_peval c). unfold poly_at. rewrite <- fsum_map_scale, <- fsum_map_add. apply fsum_map_ext. intros i _. ring.
Qed.
Lemma valid_poly t (s : F) (l : list F) : valid_sharing t evs (s :: l) -> exists q, length q = t /\ peval q 0 = s /\ l = map (fun e => peval q (toF p e)) evs.
Proof.
  intros (c & L & E). cbn [map] in E. injection E as E1 E2. exists c. split; [exact L|]. split; [rewrite E1; symmetry; apply poly_at_peval|]. rewrite E2, map_map. apply map_ext. intros e. apply poly_at_peval.
Qed.
Lemma poly_valid t (q : list F) : length q = t -> valid_sharing t evs (peval q 0 :: map (fun e => peval q (toF p e)) evs).
Proof.
  intros L. exists q. split; [exact L|]. cbn [map]. rewrite map_map, poly_at_peval. f_equal. apply map_ext. intros e. symmetry. apply poly_at_peval.
Qed.
Lemma share_poly (q : list F) e : In e evs -> share_of evs (peval q 0 :: map (fun e => peval q (toF p e)) evs) e = peval q (toF p e).
Proof. intros He. rewrite member_share_tl. now apply (member_share_map (fun e => peval q (toF p e))). Qed.

(** The members compute a sharing of the same secret. *)
Lemma combined_ok t (s : F) l vs : valid_sharing t evs (s :: l) -> NoDup (map fst vs) -> incl (map fst vs) evs -> (t <= length vs)%nat ->
  Forall (fun v => exists x, snd v = member_share evs l (fst v) :: x /\ valid_sharing t evs (snd v)) vs ->
  exists l', combined evs vs = Ret l' /\ valid_sharing t evs (s :: l').
Proof.
  intros V N I T D. destruct (valid_poly t s l V) as (q & Lq & Q0 & ->).
  assert (C : exists cs, Forall2 (fun v c => length c = t /\ peval c 0 = peval q (toF p (fst v)) /\ snd v = peval c 0 :: map (fun e => peval c (toF p e)) evs) vs cs).
  { clear N T. induction vs as [|v vs IH]; [exists []; constructor|]. apply Forall_cons_iff in D as ((x & E & W) & D'). destruct IH as (cs & H); [intros e He; apply I; now right|exact D'|].
    rewrite E in W. destruct (valid_poly t _ _ W) as (c & Lc & C0 & ->). exists (c :: cs). constructor; [|exact H]. split; [exact Lc|]. rewrite C0. split; [|exact E].
    apply (member_share_map (fun e => peval q (toF p e))). apply I. now left. }
  destruct C as (cs & C). destruct (lag_ret (map fst vs) I) as (lam & EL & LL).
  assert (Lcs : Forall (fun c => length c = t) cs) by (clear -C; induction C as [|? ? ? ? (? & _) _ IH]; constructor; auto).
  exists (map (fun e => peval (comb t lam cs) (toF p e)) evs). split.
  - unfold combined. apply omapM_ret. intros j Hj. unfold getSecret. rewrite EL. cbn [obind]. f_equal. rewrite nInner_dot, comb_eval by exact Lcs. f_equal.
    clear -C Hj. induction C as [|v c vs cs (_ & _ & E) _ IH]; [reflexivity|]. cbn [map]. rewrite IH. f_equal. rewrite E. now apply share_poly.
  - replace s with (peval (comb t lam cs) 0); [apply poly_valid, comb_length|]. rewrite comb_eval by exact Lcs. rewrite <- Q0.
    rewrite <- (lag_poly (map fst vs) lam q N I) by (try rewrite map_length; lia || exact EL). f_equal.
    clear -C. induction C as [|v c vs cs (_ & E & _) _ IH]; [reflexivity|]. cbn [map]. now rewrite IH, E.
Qed.
Lemma newSharing_cons (x : F) rs : exists y, newSharing evs x rs = x :: y /\ valid_sharing (S (length rs)) evs (newSharing evs x rs).
Proof. eexists. split; [apply newSharing_eq|apply newSharing_valid]. Qed.
Lemma handover_valid t (s : F) l h : handover_ok t evs h -> valid_sharing t evs (s :: l) -> exists l', handover evs l h = Ret l' /\ valid_sharing t evs (s :: l').
Proof.
  intros (N & I & T & D) V. unfold handover.
  assert (E : map fst (map (fun d : Z * list F => (fst d, dealt evs l d)) h) = map fst h) by (rewrite map_map; reflexivity).
  apply (combined_ok t s l); try rewrite E; auto; [now rewrite map_length|]. apply Forall_map. cbn [fst snd].
  eapply Forall_impl; [|exact D]. intros d Hd. destruct (newSharing_cons (member_share evs l (fst d)) (snd d)) as (y & E1 & E2). rewrite Hd in E2. exists y. split; assumption.
Qed.
Lemma handovers_valid t (s : F) : forall hs l, Forall (handover_ok t evs) hs -> valid_sharing t evs (s :: l) -> exists l', handovers evs l hs = Ret l' /\ valid_sharing t evs (s :: l').
Proof.
  induction hs as [|h hs IH]; intros l H V; [now exists l|]. inversion H; subst. destruct (handover_valid t s l h) as (l1 & E & V1); auto. destruct (IH l1) as (l2 & E2 & V2); auto.
  exists l2. cbn [handovers]. rewrite E. auto.
Qed.
Lemma reconstruct_any t (s : F) l rec : valid_sharing t evs (s :: l) -> NoDup rec -> incl rec evs -> (t <= length rec)%nat ->
  getSecret (map (member_share evs l) rec) rec = Ret s.
Proof.
  intros V N I T. destruct (valid_poly t s l V) as (q & Lq & <- & ->). rewrite (map_ext_in _ (fun e => peval q (toF p e))).
  - apply (getSecret_poly Hp); [exact N|now apply rec_range|lia].
  - intros e He. apply (member_share_map (fun e => peval q (toF p e))). now apply I.
Qed.

Lemma omapM_nth {A B} (f : A -> outcome B) : forall l m j a b, omapM f l = Ret m -> (j < length l)%nat -> f (nth j l a) = Ret (nth j m b).
Proof.
  induction l as [|x l IH]; intros m j a b E L; [cbn in L; lia|]. cbn [omapM] in E. apply obind_ret_inv in E as (y & E1 & E). apply obind_ret_inv in E as (ys & E2 & E). injection E as <-.
  destruct j as [|j]; [exact E1|]. cbn [nth]. apply IH; [exact E2|]. cbn in L. lia.
Qed.
Lemma position_of_nth : forall (l : list Z) j, NoDup l -> (j < length l)%nat -> position (nth j l 0%Z) l = j.
Proof.
  intros l j N L. destruct (position_nth (nth j l 0%Z) l (nth_In _ _ L)) as [A B]. now apply (proj1 (NoDup_nth l 0%Z) N).
Qed.
Lemma omapM_inv_map {A B} (f : A -> outcome B) : forall l m (g : A -> B), omapM f l = Ret m -> (forall a, In a l -> f a = Ret (g a)) -> m = map g l.
Proof. intros l m g E H. rewrite (omapM_ret f g l H) in E. now injection E. Qed.
Lemma committees_valid t (s : F) : forall rs v, committees evs v rs -> Forall (fun r => dealers_ok t evs (fst r)) rs ->
  Forall (fun w : Z -> list F => forall i, In i evs -> valid_sharing t evs (w i)) (v :: map snd rs) ->
  valid_sharing t evs (s :: map (fun i => nth 0 (v i) 0) evs) -> valid_sharing t evs (s :: map (fun i => nth 0 (last (map snd rs) v i) 0) evs).
Proof.
  induction rs as [|[rec v'] rs IH]; intros v Hc Hd Hv V; [exact V|]. cbn [committees map snd] in Hc, Hv. destruct Hc as [C1 C2]. apply Forall_cons_iff in Hd as [(N & I & T) Hd]. apply Forall_cons_iff in Hv as [V1 V2].
  cbn [fst] in N, I, T.
  assert (W : valid_sharing t evs (s :: map (fun i => nth 0 (v' i) 0) evs)).
  { assert (Q : map fst (map (fun m => (m, v m)) rec) = rec) by (rewrite map_map; apply map_id).
    destruct (combined_ok t s _ (map (fun m => (m, v m)) rec) V) as (l' & E & W); try rewrite Q; auto; [now rewrite map_length| |].
    - apply Forall_map. apply Forall_forall. intros m Hm. cbn [fst snd]. rewrite (member_share_map (fun i => nth 0 (v i) 0)) by now apply I. specialize (V1 m (I m Hm)). exists (tl (v m)). split; [|exact V1].
      destruct V1 as (c & _ & E). rewrite E. reflexivity.
    - rewrite <- (omapM_inv_map _ _ _ (fun i => nth 0 (v' i) 0) E); [exact W|]. intros i Hi. rewrite Q, map_map. cbn [snd]. now apply C1. }
  specialize (IH v' C2 Hd V2 W). cbn [map snd]. destruct rs as [|r rs]; [exact IH|]. cbn [map] in *. rewrite (last_indep _ v v') by discriminate. exact IH.
Qed.

(** Members who receive the dealt values, and nothing else of the vectors. *)
Lemma received_combined t (s : F) l vs {A} (gets : nat -> A -> F -> Prop) (cts : list A) : valid_sharing t evs (s :: l) -> NoDup (map fst vs) -> incl (map fst vs) evs -> (t <= length vs)%nat ->
  Forall (fun v => exists x, snd v = member_share evs l (fst v) :: x /\ valid_sharing t evs (snd v)) vs ->
  Forall2 (fun v ct => forall j, (j < length evs)%nat -> gets j ct (nth j (tl (snd v)) 0)) vs cts ->
  exists l', combined evs vs = Ret l' /\ valid_sharing t evs (s :: l') /\ forall j, (j < length evs)%nat -> exists ds, Forall2 (gets j) cts ds /\ getSecret ds (map fst vs) = Ret (nth j l' 0).
Proof.
  intros V N I T D R. destruct (combined_ok t s l vs V N I T D) as (l' & E & V'). exists l'. split; [exact E|]. split; [exact V'|].
  intros j Hj. exists (map (fun v => share_of evs (snd v) (nth j evs 0%Z)) vs). split.
  - clear -R Hj Hg. induction R as [|v ct vs cts Q _ IH]; [constructor|]. cbn [map]. constructor; [|exact IH].
    unfold share_of. rewrite position_of_nth by (apply Hg || exact Hj). specialize (Q j Hj). destruct (snd v) as [|y ys]; [now destruct j|exact Q].
  - apply (omapM_nth (fun j => getSecret (map (fun v => share_of evs (snd v) j) vs) (map fst vs)) evs l' j 0%Z 0 E Hj).
Qed.

(** *** Secrecy *)
Definition addm (a z : list F) (d : F) : list F := map (fun x => fst x + d * snd x) (combine a z).
Lemma addm_length a z d : length a = length z -> length (addm a z d) = length a.
Proof. intros L. unfold addm. rewrite map_length, combine_length. lia. Qed.
Lemma addm_0 : forall a z, length a = length z -> addm a z 0 = a.
Proof. induction a as [|x a IH]; intros [|y z] L; try discriminate; [reflexivity|]. unfold addm in *. cbn [combine map fst snd]. rewrite IH by (injection L; auto). f_equal. ring. Qed.
Lemma addm_back : forall a z d e, length a = length z -> e = - d -> addm (addm a z d) z e = a.
Proof. induction a as [|x a IH]; intros [|y z] d e L E; try discriminate; [reflexivity|]. unfold addm in *. cbn [combine map fst snd]. rewrite IH by (try (injection L; auto); auto). subst e. f_equal. ring. Qed.
Lemma addm_peval : forall a z d x, length a = length z -> peval (addm a z d) x = peval a x + d * peval z x.
Proof.
  induction a as [|y a IH]; intros [|w z] d x L; try discriminate; [cbn; ring|]. unfold addm in *. cbn [combine map fst snd peval]. rewrite IH by (injection L; auto). ring.
Qed.
(** The value at the point e of the polynomial 1 + z_1 x + .. *)
Definition zat (z : list F) (e : Z) : F := peval (1 :: z) (toF p e).
Definition shift_h (d : F) (z z' : list F) (h : list (Z * list F)) : list (Z * list F) := map (fun x => (fst x, addm (snd x) z' (d * zat z (fst x)))) h.
Fixpoint shift_hs (d : F) (z : list F) (zs : list (list F)) (hs : list (list (Z * list F))) : list (list (Z * list F)) :=
  match zs, hs with
  | z' :: zs', h :: hs' => shift_h d z z' h :: shift_hs d z' zs' hs'
  | _, _ => []
  end.
Definition shift (z : list F) (zs : list (list F)) (s s' : F) (r : list F * list (list (Z * list F))) : list F * list (list (Z * list F)) :=
  (addm (fst r) z (s' - s), shift_hs (s' - s) z zs (snd r)).
Definition kills (t : nat) (C : list Z) (z : list F) : Prop := S (length z) = t /\ forall j, In j C -> zat z j = 0.
Lemma kills_exists t C : few t evs C -> exists z, kills t C z.
Proof.
  intros (N & I & L). destruct (secrecy_exists Hp evs C (repeat 0 (length C)) 1 (t - 1) Hg N I ltac:(now rewrite repeat_length) ltac:(lia)) as (z & Lz & E).
  exists z. split; [lia|]. intros j Hj. unfold zat. rewrite <- (share_of_newSharing evs 1 z j) by now apply I.
  apply (in_map (share_of evs (newSharing evs 1 z))) in Hj. rewrite E in Hj. now apply repeat_spec in Hj.
Qed.
Lemma kills_all t : forall Cs, Forall (few t evs) Cs -> exists zs, Forall2 (kills t) Cs zs.
Proof.
  induction Cs as [|C Cs IH]; intros H; [exists []; constructor|]. inversion H; subst. destruct (kills_exists t C) as (z & Z); [assumption|]. destruct IH as (zs & Zs); [assumption|]. exists (z :: zs). now constructor.
Qed.
Lemma shift_h_ok t d z z' h : S (length z') = t -> handover_ok t evs h -> handover_ok t evs (shift_h d z z' h).
Proof.
  intros L (N & I & T & D). assert (E : map fst (shift_h d z z' h) = map fst h) by (unfold shift_h; rewrite map_map; reflexivity). unfold handover_ok. rewrite E. split; [exact N|]. split; [exact I|].
  split; [unfold shift_h; now rewrite map_length|]. unfold shift_h. apply Forall_map. eapply Forall_impl; [|exact D]. intros x Hx. cbn [snd]. cbv beta in Hx. rewrite addm_length; [exact Hx|lia].
Qed.
Lemma shift_hs_ok t d : forall zs z hs Cs, Forall2 (kills t) Cs zs -> Forall (handover_ok t evs) hs -> Forall (handover_ok t evs) (shift_hs d z zs hs).
Proof.
  induction zs as [|z' zs IH]; intros z [|h hs] Cs K H; cbn [shift_hs]; try constructor; inversion H; subst; inversion K as [|? ? ? ? K1 K2]; subst.
  - apply shift_h_ok; [apply K1|assumption].
  - eapply IH; eassumption.
Qed.
Lemma shift_h_back t d e z z' h : e = - d -> S (length z') = t -> handover_ok t evs h -> shift_h e z z' (shift_h d z z' h) = h.
Proof.
  intros E L (_ & _ & _ & D). unfold shift_h. rewrite map_map. cbn [fst snd]. rewrite <- (map_id h) at 2. apply map_ext_in. intros [i r] Hx. rewrite Forall_forall in D. specialize (D _ Hx). cbn [fst snd] in *.
  rewrite addm_back; [reflexivity|lia|]. subst e. ring.
Qed.
Lemma shift_hs_back t d e : e = - d -> forall zs z hs Cs, Forall2 (kills t) Cs zs -> length hs = length zs -> Forall (handover_ok t evs) hs -> shift_hs e z zs (shift_hs d z zs hs) = hs.
Proof.
  intros E. induction zs as [|z' zs IH]; intros z [|h hs] Cs K L H; try discriminate; [reflexivity|]. cbn [shift_hs]. inversion H; subst. inversion K as [|? ? ? ? K1 K2]; subst.
  f_equal; [apply (shift_h_back t); [reflexivity|apply K1|assumption]|]. eapply IH; eauto.
Qed.
(** The shares of the shifted run. *)
Definition moved (d : F) (z : list F) (l l' : list F) : Prop := forall e, In e evs -> member_share evs l' e = member_share evs l e + d * zat z e.
Lemma dealt_share l x j : In j evs -> share_of evs (dealt evs l x) j = peval (member_share evs l (fst x) :: snd x) (toF p j).
Proof. intros H. unfold dealt. now apply share_of_newSharing. Qed.
Lemma shift_dealt t d z z' l l' x j : moved d z l l' -> In (fst x) evs -> In j evs -> S (length z') = t -> S (length (snd x)) = t ->
  share_of evs (dealt evs l' (fst x, addm (snd x) z' (d * zat z (fst x)))) j = share_of evs (dealt evs l x) j + d * zat z (fst x) * zat z' j.
Proof.
  intros M I J L1 L2. rewrite !dealt_share by exact J. cbn [fst snd peval]. rewrite (M _ I), addm_peval by lia. change (zat z' j) with (peval (1 :: z') (toF p j)). cbn [peval]. ring.
Qed.
Lemma handover_value h l (lam : list F) : incl (map fst h) evs -> lagrangeCoeffs (map fst h) = Ret lam ->
  handover evs l h = Ret (map (fun j => dot lam (map (fun x => share_of evs (dealt evs l x) j) h)) evs).
Proof.
  intros I E. unfold handover, combined. apply omapM_ret. intros j Hj.
  assert (Q : map fst (map (fun d : Z * list F => (fst d, dealt evs l d)) h) = map fst h) by (rewrite map_map; reflexivity). rewrite Q. unfold getSecret. rewrite E. cbn [obind]. rewrite nInner_dot, map_map. reflexivity.
Qed.
Lemma handover_moved t d z z' l l' h : moved d z l l' -> S (length z) = t -> S (length z') = t -> handover_ok t evs h ->
  exists m m', handover evs l h = Ret m /\ handover evs l' (shift_h d z z' h) = Ret m' /\ moved d z' m m'.
Proof.
  intros M Lz Lz' (N & I & T & D). destruct (lag_ret (map fst h) I) as (lam & EL & _).
  assert (E : map fst (shift_h d z z' h) = map fst h) by (unfold shift_h; rewrite map_map; reflexivity).
  eexists. eexists. split; [apply (handover_value h l lam I EL)|]. split; [apply (handover_value (shift_h d z z' h) l' lam); rewrite E; assumption|].
  intros e He. rewrite !(member_share_map (fun j => dot lam _)) by exact He. unfold shift_h. rewrite map_map.
  rewrite (map_ext_in _ (fun x => share_of evs (dealt evs l x) e + (d * zat z' e) * zat z (fst x))).
  2:{ intros x Hx. rewrite (shift_dealt t d z z' l l' x e M); [ring| |exact He|exact Lz'|].
      - apply I. now apply in_map.
      - rewrite Forall_forall in D. now apply D. }
  rewrite dot_lin. f_equal.
  assert (Q : dot lam (map (fun x : Z * list F => zat z (fst x)) h) = 1).
  { unfold zat. rewrite <- (map_map fst (fun e => peval (1 :: z) (toF p e))). rewrite (lag_poly (map fst h) lam (1 :: z) N I); [cbn; ring| |exact EL]. cbn [length]. rewrite map_length. lia. }
  rewrite Q. ring.
Qed.
Lemma existsb_In (e : Z) C : existsb (Z.eqb e) C = true -> In e C.
Proof. intros H. apply existsb_exists in H as (x & Hx & E). apply Z.eqb_eq in E. now subst. Qed.
Lemma seen_one_shift t d C C' z z' l l' h : moved d z l l' -> kills t C z -> kills t C' z' -> incl C evs -> incl C' evs -> handover_ok t evs h ->
  seen_one evs C C' l' (shift_h d z z' h) = seen_one evs C C' l h.
Proof.
  intros M (Lz & K) (Lz' & K') I I' (_ & IH & _ & D). unfold seen_one, shift_h. f_equal.
  - apply map_ext_in. intros e He. rewrite (M e) by now apply I. rewrite (K e He). ring.
  - rewrite map_map. apply map_ext_in. intros x Hx. cbn [fst snd]. rewrite Forall_forall in D. pose proof (D x Hx) as Dx. cbv beta in Dx. assert (Ix : In (fst x) evs) by (apply IH; now apply in_map). f_equal.
    + destruct (existsb (Z.eqb (fst x)) C) eqn:Q; [|reflexivity]. apply existsb_In in Q. f_equal. rewrite (K _ Q). replace (d * 0) with (0 : F) by ring. apply addm_0. lia.
    + apply map_ext_in. intros j Hj. rewrite (shift_dealt t d z z' l l' x j M Ix (I' j Hj) Lz' Dx). rewrite (K' j Hj). ring.
Qed.
Lemma seen_all_shift t d : forall Cs zs hs C z l l', kills t C z -> incl C evs -> Forall2 (kills t) Cs zs -> Forall (fun C => incl C evs) Cs -> length hs = length Cs ->
  Forall (handover_ok t evs) hs -> moved d z l l' -> seen_all evs C l' (combine Cs (shift_hs d z zs hs)) = seen_all evs C l (combine Cs hs).
Proof.
  induction Cs as [|C' Cs IH]; intros zs [|h hs] C z l l' K I K2 I2 L H M; try discriminate; inversion K2 as [|? z' ? zs' K3 K4]; subst; cbn [shift_hs combine seen_all].
  - f_equal. f_equal. apply map_ext_in. intros e He. rewrite (M e) by now apply I. rewrite (proj2 K e He). ring.
  - inversion I2; subst. inversion H; subst. destruct (handover_moved t d z z' l l' h M (proj1 K) (proj1 K3)) as (m & m' & E1 & E2 & M'); [assumption|]. rewrite E1, E2.
    rewrite (IH zs' hs C' z' m m') by (auto; injection L; auto). rewrite (seen_one_shift t d C C' z z' l l' h) by auto. reflexivity.
Qed.
Lemma first_moved z s s' rs : length rs = length z -> moved (s' - s) z (tl (newSharing evs s rs)) (tl (newSharing evs s' (addm rs z (s' - s)))).
Proof.
  intros L e He. rewrite !newSharing_eq. cbn [tl]. rewrite (member_share_map (fun e => peval (s' :: _) (toF p e)) e He), (member_share_map (fun e => peval (s :: _) (toF p e)) e He).
  unfold zat. cbn [peval]. rewrite addm_peval by exact L. ring.
Qed.
Lemma secrecy_bijection t C Cs : few t evs C -> Forall (few t evs) Cs ->
  exists T : F -> F -> list F * list (list (Z * list F)) -> list F * list (list (Z * list F)),
  forall s s' r, run_ok t evs r -> length (snd r) = length Cs ->
    run_ok t evs (T s s' r) /\ map (map fst) (snd (T s s' r)) = map (map fst) (snd r) /\ view evs C Cs s' (T s s' r) = view evs C Cs s r /\ T s' s (T s s' r) = r.
Proof.
  intros HC HCs. destruct (kills_exists t C HC) as (z & K). destruct (kills_all t Cs HCs) as (zs & Ks). exists (shift z zs).
  intros s s' [rs hs] [L H] LC. cbn [fst snd] in *. pose proof (proj1 K) as Lz. assert (Lzs : length hs = length zs) by (rewrite LC; clear -Ks; induction Ks; cbn; congruence). unfold shift, run_ok, view. cbn [fst snd]. split; [split|split; [|split]].
  - rewrite addm_length by lia. exact L.
  - eapply shift_hs_ok; eassumption.
  - clear -Lzs. revert z hs Lzs. induction zs as [|z' zs IH]; intros z [|h hs] L; try discriminate; [reflexivity|]. cbn [shift_hs map]. f_equal; [unfold shift_h; now rewrite map_map|]. apply IH. now injection L.
  - apply (seen_all_shift t (s' - s) Cs zs hs C z); auto; [apply HC|eapply Forall_impl; [|exact HCs]; intros x Hx; apply Hx|]. apply first_moved. lia.
  - f_equal; [apply addm_back; [lia|ring]|]. eapply shift_hs_back; eauto. ring.
Qed.
Lemma view_shares C Cs (s : F) rs hs : length hs = length Cs ->
  match fst (view evs C Cs s (rs, hs)), snd (view evs C Cs s (rs, hs)) with
  | v :: _, _ => fst v = map (member_share evs (tl (newSharing evs s rs))) C
  | [], o => o = Ret (map (member_share evs (tl (newSharing evs s rs))) C)
  end.
Proof.
  unfold view. cbn [fst snd]. destruct Cs as [|C' Cs], hs as [|h hs]; intros L; try discriminate; [reflexivity|]. cbn [combine seen_all]. destruct (handover evs _ h) as [l'| | |]; [|reflexivity..].
  destruct (seen_all evs C' l' (combine Cs hs)). reflexivity.
Qed.
Lemma view_known t C Cs (s s' : F) r r' : NoDup C -> incl C evs -> (t <= length C)%nat -> run_ok t evs r -> run_ok t evs r' -> length (snd r) = length Cs -> length (snd r') = length Cs ->
  view evs C Cs s r = view evs C Cs s' r' -> s = s'.
Proof.
  intros N I T [L1 _] [L2 _] K1 K2 E. destruct r as [rs hs], r' as [rs' hs']. cbn [fst snd] in *.
  pose proof (view_shares C Cs s rs hs K1) as A. pose proof (view_shares C Cs s' rs' hs' K2) as B. rewrite <- E in B.
  assert (Q : map (member_share evs (tl (newSharing evs s rs))) C = map (member_share evs (tl (newSharing evs s' rs'))) C).
  { destruct (fst (view evs C Cs s (rs, hs))); [|congruence]. rewrite A in B. now injection B. }
  pose proof (newSharing_valid evs s rs) as V1. pose proof (newSharing_valid evs s' rs') as V2. rewrite newSharing_eq in V1, V2. rewrite !newSharing_eq in Q. cbn [tl] in Q.
  rewrite L1 in V1. rewrite L2 in V2. pose proof (reconstruct_any t s _ C V1 N I T) as R1. pose proof (reconstruct_any t s' _ C V2 N I T) as R2. rewrite Q in R1. rewrite R1 in R2. now injection R2.
Qed.
End S.
