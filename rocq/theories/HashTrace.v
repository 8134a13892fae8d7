(** Proofs: the exact history of the five steps. *)
From Coq Require Import String.
From Coq Require Import ZArith List Bool Lia.
From Verif Require Import Outcome Bytes Fp FSum GroupMod Ring ConstraintsModel BulletproofModel
  AlgebraModel AlgebraProofs TernaryModel RegevModel RegevPfModel RegevStSpec RegevPfState RegevAggModel RegevRunModel RegevPfBase TransSpec HashSpec.
Import ListNotations.
Open Scope Z_scope.

Section E.
Context {p : Z} {ell : nat}.
Hypothesis Hp : 2 <= p.
(** KeyProofs.loop_enc for scalars of any size. *)
Lemma loop_bytes w (Hw : (0 < w)%nat) (v : list (Fp p)) : forall m a, (length v <= m)%nat ->
  elementBytes_loop v w (w * m) = concat (map (fun i => le_bytes w (fval (nth (i - a) v 0%F))) (seq a m)).
Proof.
  assert (Z1 : forall w, repeat 0 w = le_bytes w 0).
  { clear. induction w as [|w IH]; [reflexivity|]. cbn [repeat le_bytes]. rewrite IH. reflexivity. }
  assert (Z0 : forall m a, repeat 0 (w * m) = concat (map (fun i => le_bytes w (fval (nth (i - a) ([] : list (Fp p)) 0%F))) (seq a m))).
  { intros m a. assert (Q : forall l, repeat 0 (w * length l) = concat (map (fun i => le_bytes w (fval (nth (i - a) ([] : list (Fp p)) 0%F))) l)).
    { induction l as [|i l IH]; [cbn; now rewrite Nat.mul_0_r|]. cbn [map concat length]. rewrite <- IH. replace (w * S (length l))%nat with (w + w * length l)%nat by lia.
      rewrite repeat_app. f_equal. destruct (i - a)%nat; cbn [nth]; unfold f0; rewrite fval_toF, Z.mod_0_l by lia; apply Z1. }
    rewrite <- (Q (seq a m)), seq_length. reflexivity. }
  induction v as [|c v IH]; intros m a Hm; [cbn [elementBytes_loop]; apply Z0|].
  destruct m as [|m]; [cbn in Hm; lia|]. cbn [elementBytes_loop]. destruct (Nat.ltb_spec 0 (w * S m)); [|lia].
  destruct (Nat.ltb_spec (w * S m) w); [lia|]. replace (w * S m - w)%nat with (w * m)%nat by lia.
  cbn [seq map concat]. rewrite Nat.sub_diag. cbn [nth]. unfold bigIntBytes. rewrite Z.abs_eq by (apply fval_range; lia). f_equal.
  rewrite (IH m (S a)) by (cbn in Hm; lia). f_equal. apply map_ext_in. intros i Hi. apply in_seq in Hi. replace (i - a)%nat with (S (i - S a)) by lia. reflexivity.
Qed.
Lemma elt_bytes_eq (e : elt p ell) : elementBytes e (bytesPerScalar p * ell) = elt_bytes e.
Proof.
  unfold elementBytes, elt_bytes. rewrite (loop_bytes _ (bytesPerScalar_pos Hp) _ ell 0) by (etransitivity; [apply strip_length|rewrite ec_length; lia]).
  f_equal. apply map_ext. intros i. rewrite Nat.sub_0_r, strip_nth. reflexivity.
Qed.
End E.

Section T.
Context {p : Z} {ell : nat} {G : gmod p}.
Hypothesis Hp : 2 <= p.
Variable fc : list (item G) -> string -> Fp p.
Variable fb : list (item G) -> string -> nat -> list Z.
Variable fg : list (item G) -> string -> G.
Notation R := (recorder fc fb fg).
Variable c : cfg ell G.
Notation pstate := (@pstate p ell G R).
Notation E := (elt p ell).
Notation F := (Fp p).
Notation tr := (list (item G)).

(** Items with the commitment of a variable, others. *)
Inductive sitem := SP (l : string) (x : var) | SI (i : item G).
Definition inst (com : var -> G) (s : sitem) : item G := match s with SP l x => IPoint l (com x) | SI i => i end.
Definition svars (l : list sitem) : list var := flat_map (fun s => match s with SP _ x => [x] | _ => [] end) l.
(** The transcript is m, the commitments are com; since m0 the items vs were added. *)
Definition inv (m0 : tr) (vs : list sitem) (m : tr) (com : var -> G) : Prop := m = m0 ++ map (inst com) vs.
Definition sinv m0 vs (st : pstate) : Prop := inv m0 vs (pmer st : tr) (pcom st).

Lemma inv_com m0 vs (m : tr) com x g : inv m0 vs m com -> ~ In x (svars vs) -> inv m0 vs m (upd com x g).
Proof.
  intros A N. unfold inv. rewrite A. f_equal. apply map_ext_in. intros [l y|i] Hy; cbn [inst]; [|reflexivity]. rewrite upd_other; [reflexivity|].
  intros ->. apply N. unfold svars. apply in_flat_map. eexists. split; [exact Hy|now left].
Qed.
Lemma inv_comS m0 vs st x v r s : sinv m0 vs st -> comS R c st x v r = Ret s -> ~ In x (svars vs) -> sinv m0 vs s.
Proof. unfold comS. intros I H N. apply obind_ret_inv in H as (g & _ & H). injection H as <-. now apply inv_com. Qed.
Lemma inv_comE m0 vs st x v r s : sinv m0 vs st -> comE R c st x v r = Ret s -> ~ In x (svars vs) -> sinv m0 vs s.
Proof. unfold comE. intros I H N. apply obind_ret_inv in H as (g & _ & H). injection H as <-. now apply inv_com. Qed.
Lemma inv_com2 m0 vs st x v r s : sinv m0 vs st -> com2 R c st x v r = Ret s -> ~ In x (svars vs) -> sinv m0 vs s.
Proof. unfold com2. intros I H N. apply obind_ret_inv in H as (g & _ & H). injection H as <-. now apply inv_com. Qed.
Lemma inv_absorb m0 vs st l x : sinv m0 vs st -> sinv m0 (vs ++ [SP l x]) (absorb R st l x).
Proof.
  intros A. unfold sinv, inv in *. cbn [absorb set_mer pmer pcom m_point recorder rm]. rewrite A, map_app, app_assoc. reflexivity.
Qed.
Lemma inv_more m0 vs (m : tr) com i : inv m0 vs m com -> inv m0 (vs ++ [SI i]) (m ++ [i]) com.
Proof. intros A. unfold inv in *. rewrite A, map_app, app_assoc. reflexivity. Qed.
Lemma inv_ternary m0 vs (m : tr) com l n k X (m' : tr) : inv m0 vs m com -> ternaryE (ell := ell) R m l n k = Ret (X, m') -> inv m0 (vs ++ [SI (IBytes l (tern_size (ell := ell) n k))]) m' com.
Proof. unfold ternaryE. intros I H. apply obind_ret_inv in H as (Y & _ & H). injection H as _ <-. apply inv_more. exact I. Qed.
Lemma inv_element m0 vs (m : tr) com l e (m' : tr) : inv m0 vs m com -> newElement (ell := ell) R m l = Ret (e, m') -> inv m0 (vs ++ [SI (IBytes l (elt_size (p := p) (ell := ell)))]) m' com.
Proof. unfold newElement. intros I H. apply obind_ret_inv in H as (Y & _ & H). injection H as _ <-. apply inv_more. exact I. Qed.
Lemma inv_norm m0 vs st i b x xp s : sinv m0 vs st -> norm R c st i b x xp = Ret s -> sinv m0 vs s.
Proof. intros I H. unfold norm in H. apply obind_ret_inv in H as (qs & _ & H). injection H as <-. exact I. Qed.
Lemma inv_copy m0 vs st x (v : list E) s : sinv m0 vs st -> copy R st x v = Ret s -> sinv m0 vs s.
Proof. unfold copy. intros I H. apply obind_ret_inv in H as (l & _ & H). injection H as <-. exact I. Qed.
Lemma inv_block m0 vs st off f s : sinv m0 vs st -> block R st off f = Ret s -> sinv m0 vs s.
Proof. unfold block. intros I H. apply obind_ret_inv in H as (l & _ & H). injection H as <-. exact I. Qed.
Lemma process_eq (m : tr) (v : list E) : (processVector R m "masked reply" v : tr) = m ++ reply_items v.
Proof.
  destruct v as [|e v]; [cbn; now rewrite app_nil_r|]. cbn [processVector reply_items]. cbv zeta. rewrite (elt_bytes_eq Hp).
  change (rm_commit R m "masked reply" (elt_bytes e)) with (m ++ [ICommit "masked reply" (elt_bytes e)] : tr).
  change (m ++ ICommit "masked reply" (elt_bytes e) :: map (fun e0 => ICommit "" (elt_bytes e0)) v) with (m ++ [ICommit "masked reply" (elt_bytes e)] ++ map (fun e0 => ICommit "" (elt_bytes e0)) v).
  rewrite app_assoc. generalize (m ++ [ICommit "masked reply" (elt_bytes e)] : tr). clear m e.
  induction v as [|e v IH]; intros m; [cbn; now rewrite app_nil_r|]. cbn [fold_left map]. rewrite IH, (elt_bytes_eq Hp).
  change (rm_commit R m "" (elt_bytes e)) with (m ++ [ICommit "" (elt_bytes e)] : tr). now rewrite <- app_assoc.
Qed.

Ltac nin := cbn [In svars flat_map app]; intuition discriminate.
(** One statement of a step; I is the invariant of the current state. *)
Ltac one H I :=
  match type of H with
  | (let s := absorb _ ?v ?l ?x in @?b s) = ?r => apply (inv_absorb _ _ _ l x) in I; cbn [app] in I;
      let n := fresh "s" in set (n := absorb R v l x) in I; change (b n = r) in H; cbv beta in H; clearbody n
  | (let s := ?v in @?b s) = ?r =>
      let n := fresh "s" in pose (n := v); change (b n = r) in H; cbv beta in H;
      match type of I with sinv ?a ?vs _ => change (sinv a vs n) in I | inv ?a ?vs _ _ => change (sinv a vs n) in I end; clearbody n
  | obind ?o _ = _ =>
      let x := fresh "x" in let K := fresh "K" in let Q := fresh "Q" in apply obind_ret_inv in H as (x & K & H);
      try (match type of x with (_ * _)%type => destruct x end); cbv beta iota in H;
      first [ first [ pose proof (inv_comS _ _ _ _ _ _ _ I K ltac:(nin)) as Q | pose proof (inv_comE _ _ _ _ _ _ _ I K ltac:(nin)) as Q
            | pose proof (inv_com2 _ _ _ _ _ _ _ I K ltac:(nin)) as Q | pose proof (inv_norm _ _ _ _ _ _ _ _ I K) as Q
            | pose proof (inv_copy _ _ _ _ _ _ I K) as Q | pose proof (inv_block _ _ _ _ _ _ I K) as Q ];
            clear I K; rename Q into I
      | first [ pose proof (inv_ternary _ _ _ _ _ _ _ _ _ I K) as Q | pose proof (inv_element _ _ _ _ _ _ _ I K) as Q ];
            cbn [app] in Q; clear K I; rename Q into I
      | clear K ]
  end.
Notation k := (Z.to_nat (kay (cgk c))). Notation n := (Z.to_nat (enn (cgk c))). Notation t := (Z.to_nat (tee (cgk c))). Notation j := (JLDIM c / ell)%nat.
Notation ts := (tern_size (ell := ell)). Notation es := (elt_size (p := p) (ell := ell)).
Definition dec_items : list sitem :=
  [SP "RegevDecPtxt" Pt1; SI (IBytes "RegevDecX" (ts t j)); SP "RegevDecCompHi" DCompHi; SP "RegevDecPadHi" DPadHi; SP "RegevDecCompLo" DCompLo; SP "RegevDecPadLo" DPadLo;
   SI (IBytes "RegevDec" es)].
Definition enc_items : list sitem :=
  [SP "RegevEncPtxt" Pt2; SP "RegevEncRnd" RR; SI (IBytes "RegevEncR1" (ts j k)); SI (IBytes "RegevEncR2" (ts j n)); SI (IBytes "RegevEncR3" (ts j k));
   SP "RegevEncR" RComp; SP "" RPad; SP "RegevEnc1Hi" EComp1Hi; SP "" EPad1Hi; SP "RegevEnc1Lo" EComp1Lo; SP "" EPad1Lo; SP "RegevEnc2Hi" EComp2Hi; SP "" EPad2Hi;
   SP "RegevEnc2Lo" EComp2Lo; SP "" EPad2Lo; SI (IBytes "RegevEncChallenge1" es); SI (IBytes "RegevEncChallenge2" es); SI (IBytes "RegevEncChallenge3" es)].
Definition key_items : list sitem :=
  [SP "RegevSK" Sk2; SI (IBytes "RegevKeyGenR1" (ts k j)); SI (IBytes "RegevKeyGenR2" (ts k j)); SP "RegevKeyGenSK" Sk2Comp; SP "" Sk2Pad; SP "RegevKGHi" KCompHi; SP "" KPadHi;
   SP "RegevKGHi" KCompLo; SP "" KPadLo; SI (IBytes "RegevKGChallenge1" es); SI (IBytes "RegevKGChallenge2" es)].
Lemma dec_exact m0 st s rnd ctMat ctVec pt sk noise : sinv m0 [] st -> proveDecryption R c st rnd ctMat ctVec pt sk noise = Ret s -> sinv m0 dec_items s.
Proof.
  intros I H. cbv beta delta [proveDecryption] in H. repeat one H I. exact (inv_copy _ _ _ _ _ _ I H).
Qed.
Lemma enc_exact m0 st s rnd ct1 ct2 pt er n1 n2 : sinv m0 dec_items st -> proveEncryption R c st rnd ct1 ct2 pt er n1 n2 = Ret s -> sinv m0 (dec_items ++ enc_items) s.
Proof.
  intros I H. cbv beta delta [proveEncryption] in H. unfold dec_items in I. repeat one H I. exact (inv_copy _ _ _ _ _ _ I H).
Qed.
Lemma key_exact m0 st s rnd pk sk noise : sinv m0 (dec_items ++ enc_items) st -> proveKeyGen R c st rnd pk sk noise = Ret s -> sinv m0 (dec_items ++ enc_items ++ key_items) s.
Proof.
  intros I H. cbv beta delta [proveKeyGen] in H. unfold dec_items, enc_items in I. cbn [app] in I. repeat one H I. exact (inv_copy _ _ _ _ _ _ I H).
Qed.
Lemma share_exact m0 vs st s lag pt1 pt2 : sinv m0 vs st -> proveReShare R c st lag pt1 pt2 = Ret s -> sinv m0 vs s.
Proof.
  intros I H. unfold proveReShare in H. destruct (negb _ || _ || _ || _); [discriminate|]. destruct (negb _); [discriminate|].
  apply obind_ret_inv in H as (cs & _ & H). injection H as <-. exact I.
Qed.
Notation sml := (SI (IBytes "Smallness" (ts (10 * (JLDIM c + 4) / ell) (LINYDIM c / ell)))).
Lemma loop_exact m0 vs ys rs : ~ In YY (svars vs) -> forall i d st s y X, sinv m0 vs st -> smallness_loop R c i d st ys rs = Ret (s, y, X) -> sinv m0 (vs ++ [SP "smallnessPf" YY] ++ [sml]) s.
Proof.
  intros N. induction i as [|i IH]; intros d st s y X I H; [discriminate|]. cbn [smallness_loop] in H. cbv zeta in H.
  apply obind_ret_inv in H as (s1 & K & H). pose proof (inv_comE _ _ _ _ _ _ _ I K N) as I1. clear K.
  pose proof (inv_absorb _ _ _ "smallnessPf" YY I1) as I2. unfold sinv in I2. cbn [absorb set_mer pmer pcom] in I2.
  apply obind_ret_inv in H as ([Y m] & K & H). pose proof (inv_ternary _ _ _ _ _ _ _ _ _ I2 K) as I3. clear K I2. rewrite <- app_assoc in I3.
  apply obind_ret_inv in H as (u & _ & H). apply obind_ret_inv in H as (z & _ & H).
  destruct ((_ <=? _) && (_ <=? _)).
  - injection H as <- <- <-. exact I3.
  - exact (IH _ (set_z R s1 z) _ _ _ I1 H).
Qed.
Lemma sml_exact m0 vs st s ys rs : ~ In YY (svars vs) -> sinv m0 vs st -> proveSmallness R c st ys rs = Ret s ->
  sinv m0 (vs ++ [SP "smallnessPf" YY] ++ [sml] ++ map SI (reply_items (pz s)) ++ [SI (IBytes "SmallnessChallenge" es)]) s.
Proof.
  intros N I H. cbv beta delta [proveSmallness] in H. destruct (negb _); [discriminate|].
  apply obind_ret_inv in H as ([[s1 y] X] & K & H). pose proof (loop_exact _ _ _ _ N _ _ _ _ _ _ I K) as I1. clear K I N.
  cbv zeta in H. rewrite process_eq in H. cbn [set_mer pmer] in H. apply obind_ret_inv in H as ([x m] & K & H).
  assert (I2 : inv m0 (vs ++ [SP "smallnessPf" YY] ++ [sml] ++ map SI (reply_items (pz s1))) ((pmer s1 : tr) ++ reply_items (pz s1)) (pcom s1)).
  { unfold sinv, inv in *. rewrite I1, <- app_assoc. f_equal. rewrite !map_app, map_map, <- !app_assoc. cbn [inst]. rewrite map_id. reflexivity. }
  pose proof (inv_element _ _ _ _ _ _ _ I2 K) as I3. clear K I1 I2. rewrite <- !app_assoc in I3.
  apply obind_ret_inv in H as (xv & _ & H). apply obind_ret_inv in H as (Rx & _ & H). apply obind_ret_inv in H as (s2 & H2 & H). injection H as <-.
  unfold block in H2. apply obind_ret_inv in H2 as (l & _ & H2). injection H2 as <-. exact I3.
Qed.
Lemma steps_exact st s i : proofSteps R c st i = Ret s -> (pmer s : tr) = (pmer st : tr) ++ steps_items c (pcom s) (pz s).
Proof.
  intros H. unfold proofSteps in H. assert (I : sinv (pmer st) [] st) by (unfold sinv, inv; cbn [map]; now rewrite app_nil_r).
  apply obind_ret_inv in H as (s1 & H1 & H). apply (dec_exact _ _ _ _ _ _ _ _ _ I) in H1.
  apply obind_ret_inv in H as (s2 & H2 & H). apply (enc_exact _ _ _ _ _ _ _ _ _ _ H1) in H2.
  apply obind_ret_inv in H as (s3 & H3 & H). apply (key_exact _ _ _ _ _ _ _ H2) in H3.
  apply obind_ret_inv in H as (s4 & H4 & H). apply (share_exact _ _ _ _ _ _ _ H3) in H4.
  assert (N : ~ In YY (svars (dec_items ++ enc_items ++ key_items))).
  { unfold dec_items, enc_items, key_items. cbn [In svars flat_map app]. intros Q. repeat (destruct Q as [Q|Q]; [discriminate Q|]). exact Q. }
  apply (sml_exact _ _ _ _ _ _ N H4) in H. unfold sinv, inv in H. rewrite H at 1. f_equal.
  unfold steps_items. rewrite !map_app, map_map. cbn [inst]. rewrite map_id, <- !app_assoc. reflexivity.
Qed.
End T.
