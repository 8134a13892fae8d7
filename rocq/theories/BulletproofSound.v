(** Special soundness: extractors for the linear and (power of two) quadratic proofs. *)
From Coq Require Import String.
From Coq Require Import ZArith Znumtheory List Bool Lia Ring Field.
From Verif Require Import Outcome Fp GroupMod FSum ConstraintsModel PedersenModel PedersenSpec
  PedersenProofs BulletproofModel BulletproofProofs BulletproofQuad BulletproofSpec.
Import ListNotations.
Open Scope Z_scope.

Section Vec.
Context {p : Z}.
Notation F := (Fp p).
Definition vscale (c : F) (v : list F) : list F := map (fun x => (x * c)%F) v.
Lemma vscale_length c v : length (vscale c v) = length v.
Proof. apply map_length. Qed.
End Vec.

Section LSound.
Context {p : Z} {G : gmod p}.
Variable Hp : prime p.
Notation F := (Fp p).
Add Field FpFs : (Fp_field Hp).
Implicit Types gs hs : list G.

Fixpoint ldepth (t : ltree G) : nat :=
  match t with LLeaf _ _ _ _ _ _ _ => O | LNode _ _ _ _ _ t1 _ _ => S (ldepth t1) end.

(** weights with sum_i k_i (x_i^-1, 1, x_i) = (0, 1, 0) *)
Definition lam (x y z : F) : F := (- x * (y + z) / ((x - y) * (x - z)))%F.
Definition expand (w : list F) (x : F) (k : nat) : list F := w ++ vscale x (firstn k w).

(** The extractor: from a tree for a statement of length n, the witness and the
    commitment randomness. *)
Fixpoint lextract (n : nat) (t : ltree G) : F * list F :=
  match t with
  | LLeaf _ x1 a1 r1 x2 a2 r2 =>
      (((r1 - r2) / (x1 - x2))%F, [((a1 - a2) / (x1 - x2))%F])
  | LNode _ _ x1 x2 x3 t1 t2 t3 =>
      let h := (2 ^ ldepth t1)%nat in
      let '(r1, w1) := lextract h t1 in
      let '(r2, w2) := lextract h t2 in
      let '(r3, w3) := lextract h t3 in
      let k1 := lam x1 x2 x3 in let k2 := lam x2 x1 x3 in let k3 := lam x3 x1 x2 in
      ((r1 * k1 + r2 * k2 + r3 * k3)%F,
       vadd (vadd (vscale k1 (expand w1 x1 (n - h))) (vscale k2 (expand w2 x2 (n - h))))
            (vscale k3 (expand w3 x3 (n - h))))
  end.

Variables base Fg : G.
Definition lopen gs (bs : list F) (C : G) (ow : F * list F) : Prop :=
  length (snd ow) = length gs /\ C = com base Fg (fst ow) gs (snd ow) bs.

Lemma gdot_expand gs (w : list F) x h : (h <= length gs)%nat -> (length gs <= 2 * h)%nat -> length w = h ->
  gdot gs (expand w x (length gs - h)) = gdot (fold1 gs h x) w.
Proof.
  intros H1 H2 Hw. unfold expand, fold1.
  rewrite <- (firstn_skipn h gs) at 1. rewrite gdot_app by (rewrite firstn_length; lia).
  rewrite gdot_zip_add by (rewrite map_length, skipn_length, firstn_length; lia).
  f_equal. unfold vscale. rewrite gdot_scale, gdot_scale_gen. f_equal.
  rewrite (gdot_firstn_r _ w). f_equal. f_equal. rewrite skipn_length. lia.
Qed.
Lemma expand_length (w : list F) x k : (k <= length w)%nat -> length (expand w x k) = (length w + k)%nat.
Proof. intros H. unfold expand. rewrite app_length, vscale_length, firstn_length. lia. Qed.

Lemma gdot_zvec_cons gs x (xs : list F) : (2 ^ length xs <= length gs <= 2 * 2 ^ length xs)%nat ->
  gdot gs (zvec (x :: xs)) = gdot (fold1 gs (2 ^ length xs) x) (zvec xs).
Proof.
  intros H. unfold fold1. rewrite gdot_zip_add by (rewrite map_length, skipn_length, firstn_length; lia).
  cbn [zvec]. rewrite <- (firstn_skipn (2 ^ length xs) gs) at 1. rewrite gdot_app.
  2:{ rewrite firstn_length, zvec_length. lia. }
  f_equal. rewrite gdot_scale_gen, <- gdot_scale. f_equal. apply map_ext. intros. ring.
Qed.
End LSound.

Section LSound2.
Context {p : Z} {G : gmod p}.
Variable Hp : prime p.
Notation F := (Fp p).
Add Field FpFs2 : (Fp_field Hp).
Implicit Types gs hs : list G.
Variables base Fg : G.

Lemma dot_expand (bs w : list F) x h : (h <= length bs)%nat -> (length bs <= 2 * h)%nat -> length w = h ->
  dot bs (expand w x (length bs - h)) = dot (foldF bs h x) w.
Proof. intros H1 H2 H3. exact (@gdot_expand p (Fp_gmod p) bs w x h H1 H2 H3). Qed.
Lemma dot_zvec_cons (bs : list F) x (xs : list F) : (2 ^ length xs <= length bs <= 2 * 2 ^ length xs)%nat ->
  dot bs (zvec (x :: xs)) = dot (foldF bs (2 ^ length xs) x) (zvec xs).
Proof. intros H. exact (@gdot_zvec_cons p (Fp_gmod p) Hp bs x xs H). Qed.
Lemma dot_vadd_r' (a b c : list F) : length b = length c -> dot a (vadd b c) = (dot a b + dot a c)%F.
Proof. intros H. exact (@gdot_vadd p (Fp_gmod p) a b c H). Qed.
Lemma dot_scale_r' (a b : list F) c : dot a (vscale c b) = (dot a b * c)%F.
Proof. exact (@gdot_scale p (Fp_gmod p) a b c). Qed.

Lemma lin_eqn_cons gs bs C L R x Ls Rs xs S x' a r :
  (2 ^ length xs <= length gs <= 2 * 2 ^ length xs)%nat -> length bs = length gs ->
  lin_eqn base Fg gs bs None C (L :: Ls) (R :: Rs) (x :: xs) S x' a r <->
  lin_eqn base Fg (fold1 gs (2 ^ length xs) x) (foldF bs (2 ^ length xs) x) None
    (gadd C (gadd (gmul L x) (gmul R (finv x)))) Ls Rs xs S x' a r.
Proof.
  intros Hl Hb. unfold lin_eqn. rewrite gdot_zvec_cons by assumption.
  rewrite dot_zvec_cons by lia. unfold addLR. cbn [map gdot off_val].
  assert (E : gadd C (gadd (gadd (gmul L x) (gdot Ls xs)) (gadd (gmul R (finv x)) (gdot Rs (map finv xs))))
    = gadd (gadd C (gadd (gmul L x) (gmul R (finv x)))) (gadd (gdot Ls xs) (gdot Rs (map finv xs)))) by gsolve.
  rewrite E. reflexivity.
Qed.

Definition ltree_ok gs bs C (t : ltree G) m : Prop :=
  forall q, In q (lpaths t) ->
    length (lt_xs q) = m /\ Forall (fun x => x <> 0%F) (lt_xs q) /\
    lin_eqn base Fg gs bs None C (lt_Ls q) (lt_Rs q) (lt_xs q) (lt_S q) (lt_x q) (lt_a q) (lt_r q).

Lemma lpaths_nonempty (t : ltree G) : exists q, In q (lpaths t).
Proof.
  induction t as [S x1 a1 r1 x2 a2 r2|L R x1 x2 x3 t1 [q Hq] t2 _ t3 _].
  - eexists. left. reflexivity.
  - exists (lcons L R x1 q). cbn. apply in_or_app. left. now apply in_map.
Qed.

Lemma lextract_ok t : forall m gs bs C,
  rounds m (length gs) -> length bs = length gs -> ldistinct t -> ltree_ok gs bs C t m ->
  ldepth t = m /\ lopen base Fg gs bs C (lextract (length gs) t).
Proof.
  induction t as [S x1 a1 r1 x2 a2 r2|L R x1 x2 x3 t1 IH1 t2 IH2 t3 IH3]; intros m gs bs C Hr Hb Hd Hok.
  - destruct (Hok _ (or_introl eq_refl)) as (M1 & _ & E1).
    destruct (Hok _ (or_intror (or_introl eq_refl))) as (_ & _ & E2).
    cbn in M1. subst m. apply rounds_0 in Hr. destruct (list1 _ Hr) as [g ->]. cbn [length] in Hb.
    destruct (list1 _ Hb) as [b ->]. split; [reflexivity|].
    unfold lin_eqn, addLR, lopen, com in *. cbn [lt_Ls lt_Rs lt_xs lt_S lt_x lt_a lt_r gdot dot zvec map length off_val lextract fst snd] in *.
    split; [reflexivity|]. cbn [ldistinct] in Hd.
    assert (Hx : (x1 - x2)%F <> 0%F) by (intros H; apply Hd; now apply fsub_eq_0).
    (* (x1 - x2) C = E1 - E2 *)
    assert (EC : C = gmul (gadd (gadd S (gmul C x1)) (gopp (gadd S (gmul C x2)))) (finv (x1 - x2)))
      by (gred; field; assumption).
    assert (E1' : gadd S (gmul C x1) = gadd (gadd (gmul base r1) (gmul Fg (a1 * (b * 1 + 0))%F)) (gmul g a1)).
    { transitivity (gadd S (gmul (gadd C (gadd gzero gzero)) x1)); [gsolve|]. rewrite E1. gsolve. }
    assert (E2' : gadd S (gmul C x2) = gadd (gadd (gmul base r2) (gmul Fg (a2 * (b * 1 + 0))%F)) (gmul g a2)).
    { transitivity (gadd S (gmul (gadd C (gadd gzero gzero)) x2)); [gsolve|]. rewrite E2. gsolve. }
    rewrite EC, E1', E2'. gred; field; assumption.
  - cbn [ldistinct] in Hd. destruct Hd as (Hnd & Hd1 & Hd2 & Hd3).
    assert (Hm : exists m', m = Datatypes.S m').
    { destruct (lpaths_nonempty t1) as [q Hq].
      destruct (Hok (lcons L R x1 q)) as (Hl & _ & _).
      - cbn [lpaths]. apply in_or_app. left. now apply in_map.
      - cbn in Hl. eauto. }
    destruct Hm as [m' ->].
    destruct (rounds_S m' _ Hr) as (A1 & A2 & A3 & A4 & A5 & A6).
    set (h := (2 ^ m')%nat) in *.
    assert (Hsub : forall x t, (forall q, In q (lpaths t) -> In (lcons L R x q) (lpaths (LNode L R x1 x2 x3 t1 t2 t3))) ->
       x <> 0%F /\ ltree_ok (fold1 gs h x) (foldF bs h x) (gadd C (gadd (gmul L x) (gmul R (finv x)))) t m').
    { intros x t Hin. split.
      - destruct (lpaths_nonempty t) as [q Hq]. destruct (Hok _ (Hin q Hq)) as (_ & Hnz & _). now inversion Hnz.
      - intros q Hq. destruct (Hok _ (Hin q Hq)) as (Hl & Hnz & He). cbn [lcons lt_xs lt_Ls lt_Rs lt_S lt_x lt_a lt_r length] in *.
        injection Hl as Hl. apply Forall_inv_tail in Hnz. split; [exact Hl|]. split; [exact Hnz|].
        apply lin_eqn_cons in He; [| rewrite Hl; fold h; lia | assumption]. rewrite Hl in He. fold h in He. exact He. }
    destruct (Hsub x1 t1) as [N1 T1]. { intros q Hq. cbn. apply in_or_app. left. now apply in_map. }
    destruct (Hsub x2 t2) as [N2 T2]. { intros q Hq. cbn. apply in_or_app. right. apply in_or_app. left. now apply in_map. }
    destruct (Hsub x3 t3) as [N3 T3]. { intros q Hq. cbn. apply in_or_app. right. apply in_or_app. right. now apply in_map. }
    assert (Hg : forall x, length (fold1 gs h x) = h) by (intros; apply fold1_length; lia).
    assert (HbF : forall x, length (foldF bs h x) = h) by (intros; apply foldF_length; lia).
    destruct (IH1 m' (fold1 gs h x1) (foldF bs h x1) _ ltac:(rewrite Hg; exact A5) ltac:(now rewrite HbF, Hg) Hd1 T1) as [D1 O1].
    destruct (IH2 m' (fold1 gs h x2) (foldF bs h x2) _ ltac:(rewrite Hg; exact A5) ltac:(now rewrite HbF, Hg) Hd2 T2) as [_ O2].
    destruct (IH3 m' (fold1 gs h x3) (foldF bs h x3) _ ltac:(rewrite Hg; exact A5) ltac:(now rewrite HbF, Hg) Hd3 T3) as [_ O3].
    split; [cbn [ldepth]; now rewrite D1|].
    cbn [lextract]. rewrite D1. fold h. rewrite Hg in O1, O2, O3.
    destruct (lextract h t1) as [r1 w1], (lextract h t2) as [r2 w2], (lextract h t3) as [r3 w3].
    destruct O1 as [L1 O1], O2 as [L2 O2], O3 as [L3 O3]. cbn [fst snd] in *. rewrite Hg in L1, L2, L3.
    assert (HE : forall (w : list F) (x : F), length w = h -> length (expand w x (length gs - h)) = length gs).
    { intros w x Hw. rewrite expand_length; lia. }
    unfold lopen. cbn [fst snd].
    assert (HL1 : length (vscale (lam x1 x2 x3) (expand w1 x1 (length gs - h))) = length gs) by (rewrite vscale_length, HE; auto).
    assert (HL2 : length (vscale (lam x2 x1 x3) (expand w2 x2 (length gs - h))) = length gs) by (rewrite vscale_length, HE; auto).
    assert (HL3 : length (vscale (lam x3 x1 x2) (expand w3 x3 (length gs - h))) = length gs) by (rewrite vscale_length, HE; auto).
    split.
    { rewrite !vadd_length; rewrite ?vadd_length; congruence. }
    assert (X12 : (x1 - x2)%F <> 0%F).
    { intros H. apply (proj1 (fsub_eq_0 _ _)) in H. subst. inversion Hnd as [|? ? Hn _]. apply Hn. now left. }
    assert (X13 : (x1 - x3)%F <> 0%F).
    { intros H. apply (proj1 (fsub_eq_0 _ _)) in H. subst. inversion Hnd as [|? ? Hn _]. apply Hn. right; now left. }
    assert (X23 : (x2 - x3)%F <> 0%F).
    { intros H. apply (proj1 (fsub_eq_0 _ _)) in H. subst. inversion Hnd as [|? ? _ Hn']; inversion Hn' as [|? ? Hn _]. apply Hn. now left. }
    assert (X21 : (x2 - x1)%F <> 0%F) by (intros H; apply X12; replace (x1 - x2)%F with (- (x2 - x1))%F by ring; rewrite H; ring).
    assert (X31 : (x3 - x1)%F <> 0%F) by (intros H; apply X13; replace (x1 - x3)%F with (- (x3 - x1))%F by ring; rewrite H; ring).
    assert (X32 : (x3 - x2)%F <> 0%F) by (intros H; apply X23; replace (x2 - x3)%F with (- (x3 - x2))%F by ring; rewrite H; ring).
    assert (EC : C = gadd (gadd (gmul (gadd C (gadd (gmul L x1) (gmul R (finv x1)))) (lam x1 x2 x3))
                         (gmul (gadd C (gadd (gmul L x2) (gmul R (finv x2)))) (lam x2 x1 x3)))
                         (gmul (gadd C (gadd (gmul L x3) (gmul R (finv x3)))) (lam x3 x1 x2))).
    { unfold lam. gred; field; repeat split; assumption. }
    rewrite EC, O1, O2, O3. unfold com.
    rewrite !gdot_vadd by (rewrite ?vadd_length; congruence).
    rewrite !dot_vadd_r' by (rewrite ?vadd_length; congruence).
    rewrite !dot_scale_r'. unfold vscale at 1 2 3. rewrite !gdot_scale.
    rewrite !gdot_expand by (assumption || lia).
    rewrite <- !Hb. rewrite !dot_expand by (assumption || lia).
    gsolve.
Qed.

(** ** scripted challenges *)
Lemma run_script n (xs rest : list F) (Ls Rs : list G) : length Ls = length xs -> length Rs = length xs ->
  run_chals (script Fg) (xs ++ rest) n Ls Rs = (xs, rest).
Proof.
  revert n Ls Rs. induction xs as [|x xs IH]; intros n [|L Ls] [|R Rs] HL HR; cbn in HL, HR; try discriminate; [reflexivity|].
  cbn [run_chals app]. cbn [script m_chal m_point]. rewrite IH by lia. reflexivity.
Qed.
End LSound2.

Section LSound3.
Context {p : Z} {G : gmod p}.
Variable Hp : prime p.
Notation F := (Fp p).
Add Field FpFs3 : (Fp_field Hp).
Implicit Types gs hs : list G.

Lemma off_val_offset gs off : off_val gs off = gdot gs (offset off (length gs)).
Proof. destruct off; cbn; [reflexivity|]. now rewrite gdot_0. Qed.

(** One accepting transcript in terms of the verification equation. *)
Lemma accept_lin base Fg gs bs eq off C (q : lpath G) :
  (1 <= length gs)%nat -> Z.of_nat (length gs) <= 2 ^ 63 -> length bs = length gs -> off_ok off (length gs) ->
  verifyLinear base (script Fg) (LinPf C (lt_Ls q) (lt_Rs q) (lt_S q) (lt_a q) (lt_r q))
      bs gs (length gs) eq (lt_xs q ++ [lt_x q]) off = Ret true ->
  length (lt_xs q) = length (lt_Ls q) ->
  length (lt_xs q) = log2roundUpN (length gs) /\ Forall (fun x => x <> 0%F) (lt_xs q) /\
  lin_eqn base Fg gs bs None (gadd (gadd C (gmul Fg eq)) (gopp (gdot gs (offset off (length gs)))))
    (lt_Ls q) (lt_Rs q) (lt_xs q) (lt_S q) (lt_x q) (lt_a q) (lt_r q).
Proof.
  intros H1 H63 Hb Ho Hv Hlen.
  destruct (Nat.eq_dec (length (lt_Ls q)) (log2roundUpN (length gs))) as [HL|HL].
  2:{ unfold verifyLinear in Hv. cbn [script m_gen m_point lpLs lpRs] in Hv.
      apply Nat.eqb_neq in HL. rewrite HL in Hv. discriminate. }
  destruct (Nat.eq_dec (length (lt_Rs q)) (log2roundUpN (length gs))) as [HR|HR].
  2:{ unfold verifyLinear in Hv. cbn [script m_gen m_point lpLs lpRs] in Hv.
      apply Nat.eqb_neq in HR. rewrite HR, orb_true_r in Hv. discriminate. }
  destruct (verifyLinear_char Hp base (script Fg) (LinPf C (lt_Ls q) (lt_Rs q) (lt_S q) (lt_a q) (lt_r q)) bs gs (length gs) eq (lt_xs q ++ [lt_x q]) off H1 H63 Hb eq_refl Ho HL HR)
    as (Fg' & st1 & xs & st2 & x & st3 & V1 & V2 & V3 & V4 & V5 & V6).
  cbn [lpLs lpRs lpS lpa lpr lpC] in *. cbn [script m_gen m_point] in V1. injection V1 as <- <-.
  rewrite run_script in V2 by congruence. injection V2 as <- <-.
  cbn [script m_chal m_point] in V3. injection V3 as <- <-.
  split; [assumption|].
  destruct (forallb nzb (lt_xs q)) eqn:Enz; cbn [andb] in *; [|rewrite V5 in Hv by reflexivity; discriminate].
  destruct (nzb (lt_x q)) eqn:Ex; [|rewrite V5 in Hv by reflexivity; discriminate].
  destruct (V6 eq_refl) as (b & Eb & Hbb). rewrite Eb in Hv. injection Hv as ->.
  split. { apply Forall_forall. intros y Hy. rewrite forallb_forall in Enz. now apply nzb_true, Enz. }
  assert (He := proj1 Hbb eq_refl). unfold lin_eqn in *. rewrite off_val_offset in He. cbn [off_val].
  set (T := gdot gs (offset off (length gs))) in *. set (A := addLR _ _ _) in *.
  apply (gadd_cancel_l (gmul T (lt_x q))).
  transitivity (gadd (lt_S q) (gmul (gadd (gadd C (gmul Fg eq)) A) (lt_x q))); [gsolve|].
  rewrite He. gsolve.
Qed.

Lemma lpaths_len (t : ltree G) q : In q (lpaths t) -> length (lt_xs q) = length (lt_Ls q).
Proof.
  revert q. induction t as [S x1 a1 r1 x2 a2 r2|L R x1 x2 x3 t1 IH1 t2 IH2 t3 IH3]; intros q Hq; cbn in Hq.
  - destruct Hq as [<-|[<-|[]]]; reflexivity.
  - rewrite !in_app_iff, !in_map_iff in Hq.
    destruct Hq as [(q' & <- & Hq)|[(q' & <- & Hq)|(q' & <- & Hq)]]; cbn; f_equal; auto.
Qed.

Theorem linear_extract base Fg gs bs eq off C t :
  (1 <= length gs)%nat -> Z.of_nat (length gs) <= 2 ^ 63 -> length bs = length gs -> off_ok off (length gs) ->
  ldistinct t -> laccepting base Fg gs bs eq off C t ->
  let '(rho, w) := lextract (length gs) t in
  length w = length gs /\
  C = gadd (gadd (gmul base rho) (gdot gs (vadd w (offset off (length gs)))))
           (gmul Fg (dot bs w - eq)%F).
Proof.
  intros H1 H63 Hb Ho Hd Hacc. destruct (rounds_log _ H1 H63) as [Hr _].
  destruct (lextract_ok Hp base Fg t (log2roundUpN (length gs)) gs bs
    (gadd (gadd C (gmul Fg eq)) (gopp (gdot gs (offset off (length gs))))) Hr Hb Hd) as [_ Hopen].
  { intros q Hq. apply accept_lin; auto. now apply (lpaths_len t). }
  destruct (lextract (length gs) t) as [rho w]. unfold lopen, com in Hopen. cbn [fst snd] in Hopen.
  destruct Hopen as [Hl Ho']. split; [assumption|].
  rewrite gdot_vadd.
  2:{ rewrite Hl. destruct off; cbn in *; [auto|now rewrite repeat_length]. }
  set (T := gdot gs (offset off (length gs))) in *.
  apply (gadd_cancel_l (gadd (gmul Fg eq) (gopp T))).
  transitivity (gadd (gadd C (gmul Fg eq)) (gopp T)); [gsolve|]. rewrite Ho'. gsolve.
Qed.

(** With trees for two values of the generator F: an opening satisfying the
    constraint, or a relation. *)
Definition lextract2 gs (bs : list F) (eq : F) (t1 t2 : ltree G) : (F * list F) + list F :=
  let '(r1, w1) := lextract (length gs) t1 in
  let '(r2, w2) := lextract (length gs) t2 in
  if feqb (dot bs w1) eq then inl (r1, w1)
  else inr ((r1 - r2)%F :: (dot bs w1 - eq)%F :: (- (dot bs w2 - eq))%F :: vadd w1 (vscale (- (1))%F w2)).

Theorem linear_extract2 base F1 F2 gs bs eq off C t1 t2 :
  (1 <= length gs)%nat -> Z.of_nat (length gs) <= 2 ^ 63 -> length bs = length gs -> off_ok off (length gs) ->
  ldistinct t1 -> ldistinct t2 ->
  laccepting base F1 gs bs eq off C t1 -> laccepting base F2 gs bs eq off C t2 ->
  match lextract2 gs bs eq t1 t2 with
  | inl (rho, w) => length w = length gs /\
      C = gadd (gmul base rho) (gdot gs (vadd w (offset off (length gs)))) /\ dot bs w = eq
  | inr cs => relation (base :: F1 :: F2 :: gs) cs
  end.
Proof.
  intros H1 H63 Hb Ho Hd1 Hd2 A1 A2. unfold lextract2.
  pose proof (linear_extract base F1 gs bs eq off C t1 H1 H63 Hb Ho Hd1 A1) as E1.
  pose proof (linear_extract base F2 gs bs eq off C t2 H1 H63 Hb Ho Hd2 A2) as E2.
  destruct (lextract (length gs) t1) as [r1 w1], (lextract (length gs) t2) as [r2 w2].
  destruct E1 as [L1 E1], E2 as [L2 E2].
  assert (Hoff : length (offset off (length gs)) = length gs).
  { destruct off; cbn in *; [auto|now rewrite repeat_length]. }
  destruct (feqb (dot bs w1) eq) eqn:E.
  - apply feqb_eq in E. split; [assumption|]. split; [|assumption]. rewrite E1, E. gsolve.
  - apply feqb_neq in E. split.
    { cbn [length]. rewrite vadd_length; rewrite ?vscale_length; congruence. }
    split.
    + cbn [gdot]. rewrite gdot_vadd by (rewrite vscale_length; congruence). unfold vscale. rewrite gdot_scale.
      rewrite gdot_vadd in E1, E2 by congruence.
      set (T := gdot gs (offset off (length gs))) in *.
      apply (gadd_cancel_l C). rewrite gadd_0_r. rewrite E2 at 1. rewrite E1. gsolve.
    + intros Hz. inversion Hz as [|? ? _ Hz']. inversion Hz' as [|? ? Hz0 _]. apply E. now apply (proj1 (fsub_eq_0 _ _)).
Qed.
End LSound3.
