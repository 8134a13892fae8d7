(** The meaning of the constraints of a proof step; the honest witness
    satisfies them.  Shared lemmas and proveDecryption. *)
From Coq Require Import String.
From Coq Require Import ZArith List Bool Lia Ring.
From Verif Require Import Outcome Fp FSum GroupMod Ring ConstraintsModel ConstraintsSpec ConstraintsProofs ConstraintsOther
  PedersenModel PedersenProofs BulletproofModel FourSquaresModel FourSquaresSpec AlgebraModel AlgebraSpec AlgebraProofs AlgebraMore TernaryModel TernarySpec TernaryProofs
  RegevModel RegevSpec RegevPfModel RegevPfSpec RegevPfBase RegevPfLin RegevPfCom RegevStSpec RegevPfState RegevDecrypt RegevPfEff RegevPfPost.
Import ListNotations.
Open Scope Z_scope.

Section Sat.
Context {p : Z} {ell : nat} {G : gmod p}.
Notation F := (Fp p).
Notation E := (elt p ell).
Variable R : rmerlin G.
Variable c : cfg ell G.
Notation pstate := (@pstate p ell G R).
Hypothesis Hc : wf_cfg c.
Let He : (0 < ell)%nat := proj1 Hc.
Add Ring Esat : (elt_ring (p := p) He).

Notation sum_elts v f := (sumE (length v) (fun i => emul (nth i v e0) (f i))).
Notation scaled v := (map (escale (toF p (radix c))) v).

Lemma jl_eq : (jl c * ell = JLDIM c)%nat.
Proof. pose proof Hc as HH; destruct HH as (H0 & _ & [b Hb] & _). unfold jl. rewrite Hb, Nat.div_mul by lia. reflexivity. Qed.
Lemma nth_map_E (g : E -> E) l i : g e0 = e0 -> nth i (map g l) e0 = g (nth i l e0).
Proof. intros H. rewrite <- H at 1. apply map_nth. Qed.
Lemma esub_0_iff (a b : E) : esub a b = e0 <-> a = b.
Proof. split; intros H; [|subst; ring]. replace a with (eadd (esub a b) b) by ring. rewrite H. ring. Qed.

(** The sums over the digits. *)
Lemma digits_sum (x : E) xv lo hi : length xv = jl c -> (forall j, (j < jl c)%nat -> nth j xv e0 = epow x j) ->
  eadd (sum_elts xv lo) (sum_elts (scaled xv) hi) =
  sumE (jl c) (fun j => emul (epow x j) (eadd (lo j) (escale (toF p (radix c)) (hi j)))).
Proof.
  intros L H. rewrite map_length, L, <- sumE_add. apply sumE_ext. intros j Hj.
  rewrite nth_map_E by apply escale_0_r. rewrite H by assumption. rewrite emul_scale_l, <- emul_scale_r. ring.
Qed.
(** The general block. *)
Lemma block_meaning cols rows m (x : E) X (comp ct s pt Rx : nat -> E) (a : nat -> nat -> E) (aR : nat -> E) :
  (forall i, (i < rows)%nat -> Rx i = sumE cols (fun j => emul (X i j) (epow x j))) ->
  (forall k, (k < m)%nat -> aR k = sumE rows (fun i => emul (a k i) (Rx i))) ->
  eadd (eadd (sumE cols (fun j => emul (epow x j) (comp j))) (sumE m (fun k => emul (aR k) (s k)))) (sumE rows (fun i => emul (Rx i) (pt i)))
   = sumE rows (fun i => emul (ct i) (Rx i))
  <-> compressed_eq cols rows x X comp (fun i => esub (esub (ct i) (sumE m (fun k => emul (a k i) (s k)))) (pt i)).
Proof.
  intros HR HA. apply compressed_iff. 1: exact He.
  rewrite (sumE_ext rows (fun i => emul _ (sumE cols _)) (fun i => esub (esub (emul (ct i) (Rx i)) (emul (sumE m (fun k => emul (a k i) (s k))) (Rx i))) (emul (Rx i) (pt i)))).
  2:{ intros i Hi. rewrite <- HR by assumption. ring. }
  rewrite !sumE_sub by exact He. rewrite sumE_swap_mul by exact He.
  rewrite (sumE_ext m (fun k => emul (sumE rows _) (s k)) (fun k => emul (aR k) (s k))).
  2:{ intros k Hk. now rewrite <- HA. }
  ring.
Qed.
Lemma block_meaning0 cols rows m (x : E) X (comp ct s Rx : nat -> E) (a : nat -> nat -> E) (aR : nat -> E) :
  (forall i, (i < rows)%nat -> Rx i = sumE cols (fun j => emul (X i j) (epow x j))) ->
  (forall k, (k < m)%nat -> aR k = sumE rows (fun i => emul (a k i) (Rx i))) ->
  eadd (sumE cols (fun j => emul (epow x j) (comp j))) (sumE m (fun k => emul (aR k) (s k)))
   = sumE rows (fun i => emul (ct i) (Rx i))
  <-> compressed_eq cols rows x X comp (fun i => esub (ct i) (sumE m (fun k => emul (a k i) (s k)))).
Proof.
  intros HR HA. pose proof (block_meaning cols rows m x X comp ct s (fun _ => e0) Rx a aR HR HA) as H.
  rewrite (compressed_ext cols rows x X comp _ comp (fun i => esub (ct i) (sumE m (fun k => emul (a k i) (s k))))) in H;
    [|reflexivity|intros i Hi; ring]. rewrite <- H.
  rewrite (sumE_ext rows (fun i => emul (Rx i) e0) (fun i => emul e0 e0)) by (intros; ring). rewrite sumE_mul_l.
  replace (eadd (eadd (sumE cols (fun j => emul (epow x j) (comp j))) (sumE m (fun k => emul (aR k) (s k)))) (emul e0 (sumE rows (fun _ => e0))))
    with (eadd (sumE cols (fun j => emul (epow x j) (comp j))) (sumE m (fun k => emul (aR k) (s k)))) by ring. reflexivity.
Qed.
(** The blocks for a compressed vector without digits. *)
Lemma plain_meaning cols rows (x : E) X (comp s Rx : nat -> E) :
  (forall i, (i < rows)%nat -> Rx i = sumE cols (fun j => emul (X i j) (epow x j))) ->
  eadd (sumE cols (fun j => emul (epow x j) (comp j))) (sumE rows (fun i => emul (eopp (Rx i)) (s i))) = e0
  <-> compressed_eq cols rows x X comp s.
Proof.
  intros HR. apply compressed_iff. 1: exact He.
  rewrite (sumE_ext rows (fun i => emul _ (sumE cols _)) (fun i => emul (eopp e1) (emul (eopp (Rx i)) (s i)))).
  2:{ intros i Hi. rewrite <- HR by assumption. ring. }
  rewrite (sumE_mul_l rows (eopp e1) (fun i => emul (eopp (Rx i)) (s i))). ring.
Qed.

(** The ternary products. *)
Lemma left_inv (v : list E) X n m f r : is_temat ell X n m f -> length v = n -> leftVecMultTE v X = Ret r ->
  length r = m /\ forall j, (j < m)%nat -> nth j r e0 = sumE n (fun i => emul (nth i v e0) (Xent f i j)).
Proof.
  intros HX Hv H. rewrite (leftVecMultTE_spec v X n m f He HX Hv) in H. injection H as <-. unfold vecmatR.
  split; [now rewrite map_length, seq_length|]. intros j Hj.
  rewrite (nth_map_lt _ _ _ _ 0%nat) by (rewrite seq_length; exact Hj). rewrite seq_nth by exact Hj. reflexivity.
Qed.
Lemma right_inv (v : list E) X n m f r : is_temat ell X n m f -> length v = m -> rightVecMultTE X v = Ret r ->
  length r = n /\ forall i, (i < n)%nat -> nth i r e0 = sumE m (fun j => emul (Xent f i j) (nth j v e0)).
Proof.
  intros HX Hv H. rewrite (rightVecMultTE_spec v X n m f He HX Hv) in H. injection H as <-. unfold matvecR.
  split; [now rewrite map_length, seq_length|]. intros j Hj.
  rewrite (nth_map_lt _ _ _ _ 0%nat) by (rewrite seq_length; exact Hj). rewrite seq_nth by exact Hj. reflexivity.
Qed.
Lemma digits_inv (comp hi lo : list E) : breakTwoDigits [] [] comp (radix c) = Ret (hi, lo) ->
  length hi = length comp /\ length lo = length comp /\
  forall j, (j < length comp)%nat -> nth j comp e0 = eadd (nth j lo e0) (escale (toF p (radix c)) (nth j hi e0)).
Proof.
  intros H. pose proof Hc as HH; destruct HH as (_ & _ & _ & _ & _ & _ & _ & _ & _ & Hp & Hr).
  destruct (two_digits p ell [] [] comp (radix c) Hp Hr) as (h & l & E1 & L1 & L2 & _). rewrite H in E1. injection E1 as <- <-.
  split; [assumption|]. split; [assumption|]. exact (two_digits_mod p ell [] [] comp (radix c) hi lo Hp Hr H).
Qed.

(** The lengths of what is written. *)
Lemma comp_fits x (v : list E) : is_comp x = true -> length v = jl c -> Z.of_nat (length (coeffs_of v)) = clen c x.
Proof. intros H L. rewrite coeffs_length, L, jl_eq. now rewrite clen_comp. Qed.
Lemma pad_fits x (v : list E) : is_pad x = true -> length (coeffs_of v) = 4%nat -> Z.of_nat (length (coeffs_of v)) = clen c x.
Proof. intros H L. rewrite L. now rewrite clen_pad. Qed.
Lemma cf_comp x (v : list E) : is_comp x = true -> length v = jl c -> is_norm x = true /\ Z.of_nat (length v) * Z.of_nat ell = clen c x.
Proof. intros H L. split; [unfold is_norm; now rewrite H|]. rewrite clen_comp by assumption. rewrite <- jl_eq, L. lia. Qed.
Lemma cf_pad x (v : list E) : is_pad x = true -> length (coeffs_of v) = 4%nat -> is_norm x = true /\ Z.of_nat (length v) * Z.of_nat ell = clen c x.
Proof. intros H L. split; [unfold is_norm; rewrite H; apply orb_true_r|]. rewrite clen_pad by assumption. rewrite coeffs_length in L. lia. Qed.
Lemma held_stores (m : pvec p) i0 (v : list E) : stores m i0 (coeffs_of v) -> length v = jl c -> held c m i0 = v.
Proof.
  intros H L. unfold held. fold (jl c). apply nth_ext with (d := e0) (d' := e0); [now rewrite map_length, seq_length|].
  intros n Hn. rewrite map_length, seq_length in Hn. rewrite (nth_map_lt _ _ _ _ 0%nat) by (now rewrite seq_length).
  rewrite seq_nth by assumption. cbn [Nat.add]. apply stores_readV; [assumption|]. lia.
Qed.

Section One.
Variables st st' : pstate.
Variable rnd : var -> F.
Variables (ws qs o1 o2 : list (var * list F)) (cps : list (var * list E)) (nms : list (nat * (Z * var * var))) (offs : list nat).
Hypothesis Heff : eff R c st st' rnd ws qs o1 o2 cps nms offs.
Hypothesis Hst : wf_state c st.
Hypothesis Hws : fits (clen c) ws.
Hypothesis Hwn : NoDup (map fst ws).
Hypothesis Hqs : fits (clen c) qs.
Hypothesis Hqn : NoDup (map fst qs).
Hypothesis Hnn : NoDup (map fst nms).
Lemma eff_norm_done i b x xp vx vp : In (i, (b, x, xp)) nms -> is_comp x = true -> is_pad xp = true ->
  In (x, coeffs_of vx) ws -> In (x, coeffs_of vx) qs -> In (xp, coeffs_of vp) qs -> length vx = jl c -> norm_fresh c st i x xp ->
  jacobi_ok (cjac c) -> prime_test_sound (cpp c) -> pad c vx b = Ret vp ->
  norm_done c st' i b x xp.
Proof.
  intros H1 H2 H3 H4 H5 H6 L H7 Hj Hpp Hpd.
  destruct (eff_norm R c Hc st st' rnd ws qs o1 o2 cps nms offs Heff Hst Hqs Hqn Hnn i b x xp _ _ H1 H2 H3 H5 H6 H7) as (q & A1 & A2 & A3 & A4 & A5).
  exists q. split; [exact A1|]. split; [exact A2|]. split; [exact A3|]. split.
  - intros k. unfold in_var in *. rewrite (eff_idx _ _ _ _ _ _ _ _ _ _ _ _ Heff). apply A4.
  - destruct (pad_inv c vx b vp Hj Hpp Hc Hpd) as [_ [K|K]].
    + right. destruct (eff_W_spec R c Hc st st' rnd ws qs o1 o2 cps nms offs Heff Hst Hws Hwn) as (_ & W & _).
      rewrite (held_stores _ _ vx (W _ _ H4) L). exact K.
    + left. unfold quad_sat. rewrite A5, A3. exact K.
Qed.
Lemma eff_committed1 x v r : In (x, v) o1 -> In (x, v) ws -> rnd x = r -> committed1 c st' x r.
Proof.
  intros H1 H2 <-. destruct (eff_W_spec R c Hc st st' rnd ws qs o1 o2 cps nms offs Heff Hst Hws Hwn) as (_ & W & _).
  destruct (eff_o1 _ _ _ _ _ _ _ _ _ _ _ _ Heff _ _ H1) as [O1 O2]. exists v. unfold fits in Hws. rewrite Forall_forall in Hws.
  split; [apply (Hws _ H2)|]. split; [exact O1|]. split; [now apply W|exact O2].
Qed.
Lemma eff_committed2 x v r : In (x, v) o2 -> In (x, v) ws -> In (x, v) qs -> rnd x = r -> committed2 c st' x r.
Proof.
  intros H1 H2 H3 <-. destruct (eff_W_spec R c Hc st st' rnd ws qs o1 o2 cps nms offs Heff Hst Hws Hwn) as (_ & W & _).
  destruct (eff_Q_spec R c Hc st st' rnd ws qs o1 o2 cps nms offs Heff Hst Hqs Hqn) as (_ & Q & _).
  destruct (eff_o2 _ _ _ _ _ _ _ _ _ _ _ _ Heff _ _ H1) as [O1 O2]. exists v. unfold fits in Hws. rewrite Forall_forall in Hws.
  split; [apply (Hws _ H2)|]. split; [exact O1|]. split; [now apply W|]. split; [now apply Q|exact O2].
Qed.
Lemma eff_step_frame vs cs ns : cfits c cps -> NoDup (map fst cps) ->
  (forall x, In x vs <-> In x (map fst ws)) -> (forall x, In x (map fst cps) -> In x vs) ->
  (forall x, In x cs <-> In x (map fst o1 ++ map fst o2)) -> (forall i, In i ns <-> In i (map fst nms)) ->
  (forall x, In x (map fst qs) <-> In x vs /\ is_norm x = true) ->
  step_frame c st st' vs cs ns offs.
Proof.
  intros Hcf Hcn Hv Hv' Hcs Hns Hqv. destruct (eff_W_spec R c Hc st st' rnd ws qs o1 o2 cps nms offs Heff Hst Hws Hwn) as (_ & _ & W1 & W2).
  destruct (eff_Q_spec R c Hc st st' rnd ws qs o1 o2 cps nms offs Heff Hst Hqs Hqn) as (_ & _ & Q1 & Q2).
  destruct (norms_spec c _ _ _ _ (eff_nm _ _ _ _ _ _ _ _ _ _ _ _ Heff) Hnn) as (N1 & _ & N2).
  destruct (copies_spec R c Hc st Hst _ _ _ (eff_cp _ _ _ _ _ _ _ _ _ _ _ _ Heff) Hcf Hcn) as (C1 & _).
  split; [apply Heff|]. split; [apply Heff|]. split; [|split; [|split; [|split; [|split; [|split; [|split; [|split; [|split; [|split]]]]]]]]].
  - intros k Hk. apply W1. intros x Hx. apply Hk. now apply Hv.
  - intros k. rewrite W2. split; intros [K|(x & K1 & K2)]; auto; right; exists x; (split; [now apply Hv|assumption]).
  - intros x Hx. apply (eff_com _ _ _ _ _ _ _ _ _ _ _ _ Heff). now rewrite <- Hcs.
  - intros i Hi. apply N2. now rewrite <- Hns.
  - apply Heff.
  - apply Heff.
  - exact N1.
  - exact C1.
  - intros x Nx Hx Hs. eapply (eff_synced_other R c Hc _ _ _ ws qs); try exact Heff; try eassumption.
    + intros K. apply Hx. now apply Hv'.
    + intros K. apply Hx. now apply Hv.
  - intros k Hk. apply Q1. intros x Hx. apply Hqv in Hx as [A B]. now apply Hk.
  - intros k. rewrite Q2. split; (intros [K|(x & K1 & K2)]; [now left|right; exists x]).
    + apply Hqv in K1 as [A B]. auto.
    + destruct K2 as [K2 K3]. split; [now apply Hqv|exact K3].
Qed.
End One.
End Sat.
