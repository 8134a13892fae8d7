(** The interface with constraints and witness maps: flattening, completeness,
    norm proofs, shape checks. *)
From Coq Require Import String.
From Coq Require Import ZArith Znumtheory List Bool Lia Ring Field.
From Verif Require Import Outcome Fp GroupMod FSum ConstraintsModel ConstraintsSpec PedersenModel PedersenSpec
  PedersenProofs BulletproofModel BulletproofProofs BulletproofQuad BulletproofForgery BulletproofSpec.
Import ListNotations.
Open Scope Z_scope.

Section Api.
Context {p : Z} {G : gmod p}.
Notation F := (Fp p).
Add Ring FpRa : (@Fp_ring p).
Variable base : G.
Variable M : merlin G.
Variable hash : string -> G.
Variable m_init : string -> mst M.

Notation getG := (fun tag => getGen hash tag KG).
Notation getH := (fun tag => getGen hash tag KH).

Lemma flatLin_loop_now tag (terms : pvec p) :
  flatLin_loop hash tag terms [] false = Ret (map (getG tag) (keys terms), map snd terms, []).
Proof. induction terms as [|[k b] l IH]; cbn; [reflexivity|]. rewrite IH. reflexivity. Qed.
Lemma flatLin_loop_w tag (terms : pvec p) : forall xes, length xes = length terms ->
  flatLin_loop hash tag terms xes true =
  if list_eq_dec Z.eq_dec (keys xes) (keys terms)
  then Ret (map (getG tag) (keys terms), map snd terms, map snd xes) else Throw.
Proof.
  induction terms as [|[k b] l IH]; intros [|[k' v] xes] H; cbn in H; try discriminate; [reflexivity|].
  cbn [flatLin_loop]. destruct (Z.eqb_spec k' k) as [->|Hk].
  - rewrite IH by lia. cbn [keys map fst].
    destruct (list_eq_dec Z.eq_dec (keys xes) (keys l)) as [E|E]; unfold keys in *;
      destruct (list_eq_dec Z.eq_dec (k :: map fst xes) (k :: map fst l)) as [E'|E']; cbn; try reflexivity; congruence.
  - destruct (list_eq_dec Z.eq_dec _ _) as [E|E]; [|reflexivity]. cbn in E. congruence.
Qed.

Definition flat_ok (n : nat) : Prop := (1 <= n)%nat /\ Z.of_nat n <= 2 ^ 20.

Lemma flatLin_throw tag c xes :
  ~ flat_ok (length (lterms c)) \/ (xes <> [] /\ keys xes <> keys (lterms c)) ->
  flatLin hash tag c xes = Throw.
Proof.
  intros H. unfold flatLin.
  destruct (Nat.ltb_spec (length (lterms c)) 1) as [H1|H1]; [reflexivity|].
  destruct (Z.ltb_spec (2 ^ 20) (Z.of_nat (length (lterms c)))) as [H2|H2]; [reflexivity|].
  cbn [orb]. destruct H as [H|[H H']]; [exfalso; apply H; split; lia|].
  destruct xes as [|e xes]; [congruence|]. set (xs := e :: xes) in *.
  replace (0 <? length xs)%nat with true by reflexivity. cbn [andb].
  destruct (Nat.eqb_spec (length xs) (length (lterms c))) as [El|El]; cbn [negb]; [|reflexivity].
  rewrite flatLin_loop_w by assumption.
  destruct (list_eq_dec Z.eq_dec _ _); [congruence|reflexivity].
Qed.
Lemma flatLin_ret tag c xes :
  flat_ok (length (lterms c)) -> xes = [] \/ keys xes = keys (lterms c) ->
  flatLin hash tag c xes =
  Ret (FlatLin (map (getG tag) (keys (lterms c))) (map snd (lterms c)) (leq c) (map snd xes)).
Proof.
  intros [H1 H2] H. unfold flatLin.
  replace (length (lterms c) <? 1)%nat with false by (symmetry; apply Nat.ltb_ge; lia).
  replace (2 ^ 20 <? Z.of_nat (length (lterms c))) with false by (symmetry; apply Z.ltb_ge; lia).
  cbn [orb]. destruct H as [->|H].
  - cbn [length Nat.ltb Nat.leb andb]. rewrite flatLin_loop_now. reflexivity.
  - assert (El : length xes = length (lterms c)).
    { apply (f_equal (@length Z)) in H. unfold keys in H. now rewrite !map_length in H. }
    replace (0 <? length xes)%nat with true by (symmetry; apply Nat.ltb_lt; lia).
    rewrite El, Nat.eqb_refl. cbn [negb andb]. rewrite flatLin_loop_w by assumption.
    destruct (list_eq_dec Z.eq_dec _ _); [reflexivity|contradiction].
Qed.

Lemma flatQuad_loop_now tag (idxs : list Z) :
  flatQuad_loop hash tag idxs ([] : pvec p) [] false = Ret (map (getG tag) idxs, map (getH tag) idxs, [], []).
Proof. induction idxs as [|k l IH]; cbn; [reflexivity|]. rewrite IH. reflexivity. Qed.
Lemma flatQuad_loop_w tag (idxs : list Z) : forall xs ys : pvec p, length xs = length idxs -> length ys = length idxs ->
  flatQuad_loop hash tag idxs xs ys true =
  if list_eq_dec Z.eq_dec (keys xs) idxs then
    if list_eq_dec Z.eq_dec (keys ys) idxs
    then Ret (map (getG tag) idxs, map (getH tag) idxs, map snd xs, map snd ys) else Throw else Throw.
Proof.
  induction idxs as [|k l IH]; intros [|[k' v] xs] [|[k'' v'] ys] H H'; cbn in H, H'; try discriminate; [reflexivity|].
  cbn [flatQuad_loop]. destruct (Z.eqb_spec k' k) as [->|Hk]; cbn [andb].
  - destruct (Z.eqb_spec k'' k) as [->|Hk].
    + rewrite IH by lia. cbn [keys map fst]. unfold keys.
      destruct (list_eq_dec Z.eq_dec (map fst xs) l) as [E|E];
      destruct (list_eq_dec Z.eq_dec (k :: map fst xs) (k :: l)) as [E'|E']; try congruence; cbn [obind]; try reflexivity.
      destruct (list_eq_dec Z.eq_dec (map fst ys) l) as [E2|E2];
      destruct (list_eq_dec Z.eq_dec (k :: map fst ys) (k :: l)) as [E2'|E2']; try congruence; reflexivity.
    + cbn [keys map fst]. destruct (list_eq_dec Z.eq_dec _ _) as [E|E]; [|reflexivity].
      destruct (list_eq_dec Z.eq_dec (k'' :: _) _) as [E2|E2]; [|reflexivity]. congruence.
  - cbn [keys map fst]. destruct (list_eq_dec Z.eq_dec _ _) as [E|E]; [|reflexivity]. congruence.
Qed.
Lemma keys_len (xs : pvec p) l : keys xs = l -> length xs = length l.
Proof. intros <-. unfold keys. now rewrite map_length. Qed.
Lemma flatQuad_throw tag c xs ys :
  ~ flat_ok (length (qidx c)) \/ ((xs <> [] \/ ys <> []) /\ (keys xs <> qidx c \/ keys ys <> qidx c)) ->
  flatQuad hash tag c xs ys = Throw.
Proof.
  intros H. unfold flatQuad.
  destruct (Nat.ltb_spec (length (qidx c)) 1) as [H1|H1]; [reflexivity|].
  destruct (Z.ltb_spec (2 ^ 20) (Z.of_nat (length (qidx c)))) as [H2|H2]; [reflexivity|].
  cbn [orb]. destruct H as [H|[H H']]; [exfalso; apply H; split; lia|].
  destruct (Nat.eqb_spec (length ys) (length xs)) as [E|E]; cbn [negb orb]; [|reflexivity].
  assert (Hx : (0 < length xs)%nat).
  { destruct xs as [|? ?], ys as [|? ?]; cbn in *; try lia. destruct H; congruence. }
  replace (0 <? length xs)%nat with true by (symmetry; apply Nat.ltb_lt; lia). cbn [andb].
  destruct (Nat.eqb_spec (length xs) (length (qidx c))) as [El|El]; cbn [negb]; [|reflexivity].
  rewrite flatQuad_loop_w by congruence.
  destruct (list_eq_dec Z.eq_dec (keys xs) _); [|reflexivity].
  destruct (list_eq_dec Z.eq_dec (keys ys) _); [|reflexivity]. destruct H'; contradiction.
Qed.
Lemma flatQuad_ret tag c xs ys :
  flat_ok (length (qidx c)) -> (xs = [] /\ ys = []) \/ (keys xs = qidx c /\ keys ys = qidx c) ->
  flatQuad hash tag c xs ys =
  Ret (FlatQuad (map (getG tag) (qidx c)) (map (getH tag) (qidx c)) (qeq c) (map snd xs) (map snd ys)).
Proof.
  intros [H1 H2] H. unfold flatQuad.
  replace (length (qidx c) <? 1)%nat with false by (symmetry; apply Nat.ltb_ge; lia).
  replace (2 ^ 20 <? Z.of_nat (length (qidx c))) with false by (symmetry; apply Z.ltb_ge; lia).
  cbn [orb]. destruct H as [[-> ->]|[Hx Hy]].
  - cbn [length Nat.ltb Nat.leb andb Nat.eqb negb orb]. rewrite flatQuad_loop_now. reflexivity.
  - pose proof (keys_len _ _ Hx) as Lx. pose proof (keys_len _ _ Hy) as Ly.
    rewrite Lx, Ly, Nat.eqb_refl. cbn [negb orb].
    replace (0 <? length (qidx c))%nat with true by (symmetry; apply Nat.ltb_lt; lia). cbn [andb negb].
    rewrite flatQuad_loop_w by assumption.
    destruct (list_eq_dec Z.eq_dec (keys xs) _); [|contradiction].
    destruct (list_eq_dec Z.eq_dec (keys ys) _); [reflexivity|contradiction].
Qed.

(** Proving a statement without a witness reads outside the (empty) witness. *)
Lemma prove_no_witness tag c r bl blS : flat_ok (length (lterms c)) ->
  proveLinearTag base M hash m_init tag c [] r bl blS = UB.
Proof.
  intros H. unfold proveLinearTag. rewrite flatLin_ret by (auto). cbn [obind fl_gens fl_wit map].
  unfold commit, multiExp. destruct H as [H _]. unfold keys. rewrite !map_length.
  destruct (lterms c) as [|e l]; [cbn in H; lia|]. cbn [map length sub obind].
  unfold sub. cbn. rewrite Nat.ltb_irrefl || idtac.
  repeat match goal with |- context [if ?b then _ else _] => destruct b eqn:?; cbn [obind]; try reflexivity end;
  try (rewrite ?Nat.leb_le, ?Nat.leb_gt, ?Nat.ltb_lt, ?Nat.ltb_ge in *; cbn in *; lia).
Qed.
End Api.

Section Api2.
Context {p : Z} {G : gmod p}.
Variable Hp : prime p.
Notation F := (Fp p).
Add Field FpFa : (Fp_field Hp).
Variable base : G.
Variable M : merlin G.
Variable hash : string -> G.
Variable m_init : string -> mst M.

Definition wmap (ks : list Z) (w : Z -> F) : pvec p := map (fun k => (k, w k)) ks.
Lemma keys_wmap ks w : keys (wmap ks w) = ks.
Proof. unfold keys, wmap. rewrite map_map. apply map_id. Qed.
Lemma snd_wmap ks w : map snd (wmap ks w) = map w ks.
Proof. unfold wmap. rewrite map_map. reflexivity. Qed.
Lemma wmap_len ks w : length (wmap ks w) = length ks.
Proof. apply map_length. Qed.

Lemma dot_lin_val (l : pvec p) w : dot (map snd l) (map w (keys l)) = lin_val l w.
Proof. induction l as [|[k a] l IH]; [reflexivity|]. cbn [map dot keys fst snd]. unfold lin_val in *. cbn [map fsum fst snd]. rewrite <- IH. reflexivity. Qed.
Lemma dot_quad_val ks (u v : Z -> F) : dot (map u ks) (map v ks) = quad_val ks u v.
Proof. induction ks as [|k l IH]; [reflexivity|]. cbn [map dot]. unfold quad_val in *. cbn [map fsum]. rewrite <- IH. reflexivity. Qed.

Lemma z20_63 n : Z.of_nat n <= 2 ^ 20 -> Z.of_nat n <= 2 ^ 63.
Proof. intros H. assert (2 ^ 20 <= 2 ^ 63) by (apply Z.pow_le_mono_r; lia). lia. Qed.

Theorem linearTag_complete tag c w r bl blS :
  flat_ok (length (lterms c)) -> lin_sat c w -> chal_ok M ->
  exists pf, proveLinearTag base M hash m_init tag c (wmap (keys (lterms c)) w) r bl blS = Ret pf /\
    verifyLinearTag base M hash m_init tag c pf = Ret true.
Proof.
  intros Hok Hs Hc. pose proof Hok as [H1 H20]. unfold proveLinearTag, verifyLinearTag.
  rewrite !flatLin_ret; [|assumption|now left|assumption|right; apply keys_wmap].
  cbn [obind fl_gens fl_stmt fl_eq fl_wit]. rewrite snd_wmap.
  set (gs := map (getGen hash tag KG) (keys (lterms c))).
  assert (Lg : length gs = length (lterms c)) by (unfold gs, keys; now rewrite !map_length).
  assert (Lw : length (map w (keys (lterms c))) = length (lterms c)) by (unfold keys; now rewrite !map_length).
  rewrite Lg. rewrite commit_ret by congruence. cbn [obind].
  set (st := m_lin M (m_init tag) "constraint" c).
  destruct (linear_complete Hp base M (map w (keys (lterms c))) (map snd (lterms c)) gs (length (lterms c)) (leq c) st None r bl blS
    (gadd (gadd (gmul base r) (gmul gzero 0%F)) (gdot gs (map w (keys (lterms c))))))
    as [[_ H]|(pf & E & _ & _ & _ & [H|[_ H]])]; try assumption.
  - now apply z20_63.
  - now rewrite map_length.
  - exact I.
  - rewrite dot_lin_val. exact Hs.
  - cbn [off_val]. gsolve.
  - contradiction.
  - exists pf. split; [exact E|]. exact H.
  - contradiction.
Qed.

Theorem quadraticTag_complete tag c u v r bl blST blUV :
  flat_ok (length (qidx c)) -> quad_sat c u v -> chal_ok M ->
  exists pf, proveQuadraticTag base M hash m_init tag c (wmap (qidx c) u) (wmap (qidx c) v) r bl blST blUV = Ret pf /\
    verifyQuadraticTag base M hash m_init tag c pf = Ret true.
Proof.
  intros Hok Hs Hc. pose proof Hok as [H1 H20]. unfold proveQuadraticTag, verifyQuadraticTag.
  rewrite !flatQuad_ret; [|assumption|now left|assumption|right; split; apply keys_wmap].
  cbn [obind fq_gs fq_hs fq_eq fq_wG fq_wH]. rewrite !snd_wmap, !map_length.
  set (gs := map (getGen hash tag KG) (qidx c)). set (hs := map (getGen hash tag KH) (qidx c)).
  assert (Lg : length gs = length (qidx c)) by (unfold gs; now rewrite !map_length).
  assert (Lh : length hs = length (qidx c)) by (unfold hs; now rewrite !map_length).
  rewrite commit2_ret by (rewrite ?map_length; congruence). cbn [obind].
  set (st := m_quad M (m_init tag) "constraint" c).
  destruct (quadratic_complete Hp base M (map u (qidx c)) (map v (qidx c)) gs hs (length (qidx c)) (qeq c) st None None r bl blST blUV
    (gadd (gadd (gadd (gmul base r) (gmul gzero 0%F)) (gdot gs (map u (qidx c)))) (gdot hs (map v (qidx c)))))
    as [[_ H]|(pf & E & _ & _ & _ & H)]; try assumption; try exact I; try (now rewrite map_length).
  - now apply z20_63.
  - rewrite dot_quad_val. exact Hs.
  - cbn [off_val]. gsolve.
  - contradiction.
  - exists pf. split; [exact E|]. exact H.
Qed.

(** ** Norm proofs *)
Fixpoint pows (x : F) (y : F) (n : nat) : list F :=
  match n with O => [] | S n' => y :: pows x (y * x)%F n' end.
Lemma pows_length x y n : length (pows x y n) = n.
Proof. revert y; induction n; intros; cbn; auto. Qed.
Lemma norm_loop_ret n : forall (a b : list F) e y x, length a = n -> length b = n ->
  norm_loop n a b e y x = Ret (vadd a (pows x y n), vadd b (map (fun z => (- z)%F) (pows x y n)),
                               (e - dot (pows x y n) (pows x y n))%F).
Proof.
  induction n as [|n IH]; intros [|a0 a] [|b0 b] e y x Ha Hb; cbn in Ha, Hb; try discriminate.
  - cbn. f_equal. f_equal. ring.
  - cbn [norm_loop]. rewrite IH by lia. cbn [obind pows vadd map dot]. f_equal. f_equal; [f_equal|].
    + f_equal. ring.
    + ring.
Qed.
Lemma norm_eq_pows n : forall (e y x : F),
  norm_eq_loop n e (y * y)%F (x * x)%F = (e - dot (pows x y n) (pows x y n))%F.
Proof.
  induction n as [|n IH]; intros e y x; cbn [norm_eq_loop pows dot]; [ring|].
  replace (y * y * (x * x))%F with ((y * x) * (y * x))%F by ring. rewrite IH. ring.
Qed.
Lemma dot_pm (a b X : list F) : length a = length X -> length b = length X ->
  dot (vadd a X) (vadd b (map (fun z => (- z)%F) X)) = (dot a b + dot b X - dot a X - dot X X)%F.
Proof.
  revert b X; induction a as [|x a IH]; intros [|y b] [|z X] H1 H2; cbn in H1, H2; try discriminate; cbn [vadd map dot].
  - ring.
  - rewrite IH by lia. ring.
Qed.
Lemma norm_fold (vec : pvec p) : forall e,
  fold_left (fun e kv => (e + snd kv * snd kv)%F) vec e = (e + dot (map snd vec) (map snd vec))%F.
Proof. induction vec as [|[k v] l IH]; intros e; cbn [fold_left map dot snd]; [ring|]. rewrite IH. ring. Qed.

Lemma getG_len (tag : string) (k : gkind) (l : list Z) : length (map (getGen hash tag k) l) = length l.
Proof. apply map_length. Qed.

Theorem norm_complete tag vec r bl blST blUV :
  flat_ok (length vec) -> chal_ok M ->
  exists pf, proveNormSquared base M hash tag (m_init tag) vec r bl blST blUV
     = Ret (fsum (map (fun kv => (snd kv * snd kv)%F) vec), pf) /\
    verifyNormSquared base M hash m_init tag (keys vec) (fsum (map (fun kv => (snd kv * snd kv)%F) vec)) pf = Ret true.
Proof.
  intros Hok Hc. pose proof Hok as [H1 H20].
  assert (EN : fold_left (fun e kv => (e + snd kv * snd kv)%F) vec 0%F = dot (map snd vec) (map snd vec)).
  { rewrite norm_fold. ring. }
  assert (EN' : fsum (map (fun kv => (snd kv * snd kv)%F) vec) = dot (map snd vec) (map snd vec)).
  { clear. induction vec as [|[k v] l IH]; [reflexivity|]. cbn [map dot fsum snd]. rewrite IH. reflexivity. }
  rewrite EN'. unfold proveNormSquared, verifyNormSquared. rewrite EN. fold (keys vec).
  set (N := dot (map snd vec) (map snd vec)). set (c := QuadCon (keys vec) N).
  assert (Hok' : flat_ok (length (qidx c))) by (cbn [c qidx]; unfold keys; rewrite map_length; exact Hok).
  rewrite !flatQuad_ret; [|assumption|now left|assumption|right; split; reflexivity].
  cbn [obind fq_gs fq_hs fq_eq fq_wG fq_wH]. cbn [c qidx qeq].
  destruct (m_chal M (m_quad M (m_init tag) "normSquared" c) "x") as [x st] eqn:Ex. 
  rewrite !norm_loop_ret by (now rewrite map_length). cbn [obind].
  rewrite norm_eq_pows. rewrite !getG_len.
  set (n := length vec) in *. set (X := pows x x n).
  assert (LX : length X = n) by apply pows_length.
  set (gs := map (getGen hash tag KG) (keys vec)). set (hs := map (getGen hash tag KH) (keys vec)).
  assert (Lk : length (keys vec) = n) by (unfold keys; now rewrite map_length).
  assert (Lg : length gs = n) by (unfold gs; now rewrite getG_len).
  assert (Lh : length hs = n) by (unfold hs; now rewrite getG_len).
  assert (Lv : length (map snd vec) = n) by (now rewrite map_length).
  set (wG := vadd (map snd vec) X). set (wH := vadd (map snd vec) (map (fun z => (- z)%F) X)).
  assert (LwG : length wG = n) by (unfold wG; rewrite vadd_length; congruence).
  assert (LwH : length wH = n) by (unfold wH; rewrite vadd_length; [exact Lv|]; rewrite (map_length (fun z : F => (- z)%F) X); congruence).
  fold n. rewrite Lk. fold X. rewrite commit2_ret by congruence. cbn [obind].
  destruct (quadratic_complete Hp base M wG wH gs hs n (N - dot X X)%F st None None r bl blST blUV
    (gadd (gadd (gadd (gmul base r) (gmul gzero 0%F)) (gdot gs wG)) (gdot hs wH)))
    as [[_ H]|(pf & E & _ & _ & _ & H)]; try assumption; try exact I.
  - now apply z20_63.
  - unfold wG, wH. rewrite dot_pm by congruence. unfold N. ring.
  - cbn [off_val]. gsolve.
  - contradiction.
  - exists pf. rewrite E. split; [reflexivity|]. exact H.
Qed.

(** A cheating prover for norm proofs: it picks the vectors after seeing x. *)
Definition cheatNorm (tag : string) (indexes : list Z) (N : F) (a b : F -> list F)
    (r : F) (bl : nat -> F * F) (blST blUV : F * F) : outcome (quadpf G) :=
  let c := QuadCon indexes N in
  let st := m_quad M (m_init tag) "normSquared" c in
  let '(x, st) := m_chal M st "x" in
  let gs := map (getGen hash tag KG) indexes in
  let hs := map (getGen hash tag KH) indexes in
  let C := gadd (gadd (gmul base r) (gdot gs (a x))) (gdot hs (b x)) in
  proveQuadratic base M C r st bl blST blUV gs (a x) hs (b x) (length indexes).

Theorem norm_forgery tag indexes N a b r bl blST blUV :
  flat_ok (length indexes) -> chal_ok M ->
  (forall x : F, x <> 0%F -> length (a x) = length indexes /\ length (b x) = length indexes /\
     dot (a x) (b x) = (N - dot (pows x x (length indexes)) (pows x x (length indexes)))%F) ->
  exists x pf, x <> 0%F /\ cheatNorm tag indexes N a b r bl blST blUV = Ret pf /\
    qpC pf = gadd (gadd (gmul base r) (gdot (map (getGen hash tag KG) indexes) (a x)))
                  (gdot (map (getGen hash tag KH) indexes) (b x)) /\
    verifyNormSquared base M hash m_init tag indexes N pf = Ret true.
Proof.
  intros Hok Hc Hab. pose proof Hok as [H1 H20]. unfold cheatNorm, verifyNormSquared.
  set (c := QuadCon indexes N).
  rewrite !flatQuad_ret; [|assumption|now left].
  cbn [obind fq_gs fq_hs fq_eq fq_wG fq_wH]. cbn [c qidx qeq]. fold c.
  destruct (m_chal M (m_quad M (m_init tag) "normSquared" c) "x") as [x st] eqn:Ex.
  assert (Hx : x <> 0%F).
  { pose proof (Hc (m_quad M (m_init tag) "normSquared" c) "x"%string) as H. now rewrite Ex in H. }
  rewrite norm_eq_pows. destruct (Hab x Hx) as (La & Lb & Hd). rewrite getG_len.
  set (gs := map (getGen hash tag KG) indexes). set (hs := map (getGen hash tag KH) indexes).
  assert (Lg : length gs = length indexes) by (unfold gs; now rewrite getG_len).
  assert (Lh : length hs = length indexes) by (unfold hs; now rewrite getG_len).
  destruct (quadratic_complete Hp base M (a x) (b x) gs hs (length indexes) _ st None None r bl blST blUV
    (gadd (gadd (gmul base r) (gdot gs (a x))) (gdot hs (b x))) H1 (z20_63 _ H20) La Lb Lg Lh I I Hd)
    as [[_ H]|(pf & E & EC & _ & _ & H)].
  - cbn [off_val]. gsolve.
  - contradiction.
  - exists x, pf. split; [assumption|]. split; [exact E|]. split; [exact EC|exact H].
Qed.

(** Soundness of the norm equation for vectors fixed before x. *)
Lemma dot_pows (d : list F) : forall x y, dot d (pows x y (length d)) = (y * peval d x)%F.
Proof.
  induction d as [|c d IH]; intros x y; cbn [length pows dot peval]; [ring|]. rewrite IH. ring.
Qed.
Theorem norm_fixed (u v : list F) (N : F) xs :
  length v = length u -> NoDup xs -> (length u < length xs)%nat ->
  Forall (fun x => dot (vadd u (pows x x (length u))) (vadd v (map (fun z => (- z)%F) (pows x x (length u))))
                   = (N - dot (pows x x (length u)) (pows x x (length u)))%F) xs ->
  u = v /\ dot u u = N.
Proof.
  intros Hl Hnd Hlen Hall.
  assert (Hz : pzero ((dot u v - N)%F :: psub v u)).
  { apply (root_bound_zero Hp) with xs; [assumption| |cbn [length]; rewrite psub_length; lia].
    eapply Forall_impl; [|exact Hall]. intros x H. cbn beta in H.
    rewrite dot_pm in H by (rewrite pows_length; congruence).
    cbn [peval]. rewrite peval_psub.
    pose proof (dot_pows u x x) as Eu. pose proof (dot_pows v x x) as Ev. rewrite Hl in Ev.
    transitivity ((dot u v - N) + (x * peval v x - x * peval u x))%F; [ring|]. rewrite <- Eu, <- Ev.
    set (P := dot (pows x x (length u)) (pows x x (length u))) in *.
    transitivity ((dot u v + dot v (pows x x (length u)) - dot u (pows x x (length u)) - P) - (N - P))%F; [ring|].
    rewrite H. ring. }
  assert (H0 := Forall_inv Hz). apply Forall_inv_tail in Hz. cbn beta in H0.
  apply psub_pzero_eq in Hz; [|assumption]. subst v. split; [reflexivity|]. now apply (proj1 (fsub_eq_0 _ _)).
Qed.

(** ** Shape checks *)
Lemma verifyLinear_shape pf bs gs n eq st off :
  length (lpLs pf) <> log2roundUpN n \/ length (lpRs pf) <> log2roundUpN n ->
  verifyLinear base M pf bs gs n eq st off = Throw.
Proof.
  intros H. unfold verifyLinear. destruct (m_gen M _ _) as [Fg st1].
  destruct H as [H|H]; apply Nat.eqb_neq in H; rewrite H; cbn [negb orb]; [reflexivity|].
  now rewrite orb_true_r.
Qed.
Lemma verifyQuadratic_shape pf gs hs n eq st offu offv :
  length (qpLs pf) <> log2roundUpN n \/ length (qpRs pf) <> log2roundUpN n ->
  verifyQuadratic base M pf gs hs n eq st offu offv = Throw.
Proof.
  intros H. unfold verifyQuadratic. destruct (m_gen M _ _) as [Fg st1].
  destruct H as [H|H]; apply Nat.eqb_neq in H; rewrite H; cbn [negb orb]; [reflexivity|].
  now rewrite orb_true_r.
Qed.
Lemma verifyLinear_safe pf bs gs n eq st off :
  (1 <= n)%nat -> Z.of_nat n <= 2 ^ 63 -> length bs = n -> length gs = n -> off_ok off n ->
  verifyLinear base M pf bs gs n eq st off = Throw \/
  exists b, verifyLinear base M pf bs gs n eq st off = Ret b.
Proof.
  intros H1 H63 Hb Hg Ho.
  destruct (Nat.eq_dec (length (lpLs pf)) (log2roundUpN n)) as [HL|HL]; [|left; apply verifyLinear_shape; auto].
  destruct (Nat.eq_dec (length (lpRs pf)) (log2roundUpN n)) as [HR|HR]; [|left; apply verifyLinear_shape; auto].
  destruct (verifyLinear_char Hp base M pf bs gs n eq st off H1 H63 Hb Hg Ho HL HR)
    as (Fg' & st1 & xs & st2 & x & st3 & V1 & V2 & V3 & V4 & V5 & V6).
  destruct (forallb nzb xs && nzb x); [right; destruct (V6 eq_refl) as (b & E & _); eauto|left; auto].
Qed.
Lemma verifyQuadratic_safe pf gs hs n eq st offu offv :
  (1 <= n)%nat -> Z.of_nat n <= 2 ^ 63 -> length gs = n -> length hs = n -> off_ok offu n -> off_ok offv n ->
  verifyQuadratic base M pf gs hs n eq st offu offv = Throw \/
  exists b, verifyQuadratic base M pf gs hs n eq st offu offv = Ret b.
Proof.
  intros H1 H63 Hg Hh Hu Hv.
  destruct (Nat.eq_dec (length (qpLs pf)) (log2roundUpN n)) as [HL|HL]; [|left; apply verifyQuadratic_shape; auto].
  destruct (Nat.eq_dec (length (qpRs pf)) (log2roundUpN n)) as [HR|HR]; [|left; apply verifyQuadratic_shape; auto].
  destruct (verifyQuadratic_char base M pf gs hs n eq st offu offv H1 H63 Hg Hh Hu Hv HL HR)
    as (Fg' & st1 & xs & st2 & x & st3 & V1 & V2 & V3 & V4 & V5 & V6).
  destruct (forallb nzb xs); [right; destruct (V6 eq_refl) as (b & E & _); eauto|left; auto].
Qed.
End Api2.
