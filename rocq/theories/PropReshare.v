(** Properties C104 and C105: passing a secret on from committee to committee. *)
From Coq Require Import ZArith Znumtheory List Lia Bool.
From Verif Require Import NumTheory Prime25519 Outcome Fp FSum Ring ShamirModel ShamirSpec ShamirProofs ShamirSecret TernaryModel AlgebraModel RegevModel RegevSpec RegevProofs RegevDecrypt RegevMore
  PropShamir PropRegev ReshareSpec ReshareProofs.
Import ListNotations.
Open Scope Z_scope.

(** C104: any t members reconstruct the secret of a sharing. *)
Theorem C104_reconstruct p : prime p -> forall t evs (s : Fp p) l rec, good_points (p := p) evs ->
  valid_sharing t evs (s :: l) -> dealers_ok t evs rec -> getSecret (map (member_share evs l) rec) rec = Ret s.
Proof. intros Hp t evs s l rec Hg V (N & I & T). now apply (reconstruct_any Hp evs Hg t). Qed.
Print Assumptions C104_reconstruct.
(** C104: whatever vectors the dealers send, if each starts with the dealer's share and passes
    the parity check, the members combine them to a sharing of the same secret. *)
Theorem C104_checked p : prime p -> forall thr evs (M H : list (list (Fp p))) s l vs, good_points (p := p) evs ->
  genMatrix thr evs = Ret M -> kernel_basis H M (Z.to_nat thr) -> valid_sharing (Z.to_nat thr) evs (s :: l) ->
  dealers_ok (Z.to_nat thr) evs (map fst vs) ->
  Forall (fun v => exists x, snd v = member_share evs l (fst v) :: x /\ length x = length evs /\ Forall (fun r => row_times r (snd v) = 0%F) H) vs ->
  exists l', combined evs vs = Ret l' /\ valid_sharing (Z.to_nat thr) evs (s :: l').
Proof.
  intros Hp thr evs M H s l vs Hg HM HK V (N & I & T) D. apply (combined_ok Hp evs Hg _ s l); auto; [now rewrite map_length in T|].
  eapply Forall_impl; [|exact D]. intros v (x & E & L & R). exists x. split; [exact E|]. apply (C02_parity_check p Hp thr evs M H Hg HM HK); [|exact R]. rewrite E. cbn. now rewrite L.
Qed.
Print Assumptions C104_checked.
(** C104: any number of rounds, each member proving that it deals a sharing of the combination
    of what it received (C50). *)
Theorem C104_proved p : prime p -> forall t evs (s : Fp p) rs v, good_points (p := p) evs ->
  committees evs v rs -> Forall (fun r => dealers_ok t evs (fst r)) rs ->
  Forall (fun w => forall i, In i evs -> valid_sharing t evs (w i)) (v :: map snd rs) ->
  valid_sharing t evs (s :: map (fun i => nth 0 (v i) 0%F) evs) ->
  valid_sharing t evs (s :: map (fun i => nth 0 (last (map snd rs) v i) 0%F) evs).
Proof. intros Hp t evs s rs v Hg. now apply (committees_valid Hp evs Hg). Qed.
Print Assumptions C104_proved.
(** C104: any number of honest rounds; any t members of the last committee get the secret. *)
Theorem C104_rounds p : prime p -> forall t evs (s : Fp p) rs hs, good_points (p := p) evs -> run_ok t evs (rs, hs) ->
  exists l, handovers evs (tl (newSharing evs s rs)) hs = Ret l /\ valid_sharing t evs (s :: l) /\
    forall rec, dealers_ok t evs rec -> getSecret (map (member_share evs l) rec) rec = Ret s.
Proof.
  intros Hp t evs s rs hs Hg [L H]. cbn [fst snd] in *. destruct (handovers_valid Hp evs Hg t s hs (tl (newSharing evs s rs)) H) as (l & E & V).
  - pose proof (newSharing_valid evs s rs) as V. rewrite L in V. rewrite newSharing_eq in V |- *; try exact Hp; try exact Hg. exact V.
  - exists l. split; [exact E|]. split; [exact V|]. intros rec HR. now apply (C104_reconstruct p Hp t).
Qed.
Print Assumptions C104_rounds.
(** C104: with encryption in between: the members decrypt and combine. *)
Theorem C104_system p ell bits k n s1 s2 crs rndA (gk0 gk : globalKey p ell) rs sks pks W old t evs (s : Fp p) l vs cts :
  let D := 2 ^ (bits / Z.of_nat ell) in
  prime p -> good_points (p := p) evs -> valid_sharing t evs (s :: l) -> dealers_ok t evs (map fst vs) ->
  Forall (fun v => exists x, snd v = member_share evs l (fst v) :: x /\ valid_sharing t evs (snd v)) vs ->
  (2 <= ell)%nat -> Z.of_nat ell <= bits -> 8 <= p -> 8 <= D ->
  k < 2 ^ 27 -> n < 2 ^ 31 -> s1 < 2 ^ 30 -> s2 < 2 ^ 30 ->
  newGlobalKey k n s1 s2 crs rndA = Ret gk0 ->
  (forall i, (i < length pks)%nat -> exists rnd pos no pos', internalKeyGen gk0 rnd pos = Ret (nth i sks [], nth i pks [], no, pos')) ->
  length pks = Z.to_nat n -> length evs = Z.to_nat n -> addPKs gk0 pks = (gk, rs) ->
  0 <= W -> (2 ^ (2 * s1) * k * Z.of_nat ell / 2) * (4 * k * Z.of_nat ell) <= W * W ->
  2 * ((2 * W + 2 ^ s2) * (D + 1)) < p -> 2 * (2 * W + 2 ^ s2) <= D ^ (Z.of_nat ell - 1) -> 2 * 2 ^ s1 <= p ->
  Forall2 (fun v ct => exists rnd pos r e1 e2 pos2, internalEncrypt bits gk (tl (snd v)) rnd pos = Ret (fst ct, snd ct, r, e1, e2, pos2)) vs cts ->
  exists l', combined evs vs = Ret l' /\ valid_sharing t evs (s :: l') /\ forall j, (j < length evs)%nat -> exists ds,
    Forall2 (fun ct d => exists noise, internalDecrypt bits gk (nth j sks []) (Z.of_nat j) (fst ct) (snd ct) old = Ret (d, noise)) cts ds /\
    getSecret ds (map fst vs) = Ret (nth j l' 0%F).
Proof.
  intros D Hp Hg V (N & I & T) HD A1 A2 A3 A4 A5 A6 A7 A8 Hk Hks Lp Le Ha B1 B2 B3 B4 B5 He. rewrite map_length in T.
  apply (received_combined Hp evs Hg t s l vs (fun j ct d => exists noise, internalDecrypt bits gk (nth j sks []) (Z.of_nat j) (fst ct) (snd ct) old = Ret (d, noise)) cts V N I T HD).
  eapply Forall2_impl; [|exact He]. intros v ct (rnd & pos & r & e1 & e2 & pos2 & Q) j Hj.
  apply (C39_system p ell bits k n s1 s2 crs rndA gk0 gk rs sks pks (tl (snd v)) rnd pos (fst ct) (snd ct) r e1 e2 pos2 W old); try assumption; rewrite Lp; [apply Nat.le_refl|now rewrite <- Le].
Qed.
Print Assumptions C104_system.
(** C104: the parameters of the code. *)
Theorem C104_default t evs (s : Fp P25519) l vs n crs rndA (gk0 gk : globalKey P25519 2) rs sks pks old cts :
  good_points (p := P25519) evs -> valid_sharing t evs (s :: l) -> dealers_ok t evs (map fst vs) ->
  Forall (fun v => exists x, snd v = member_share evs l (fst v) :: x /\ valid_sharing t evs (snd v)) vs ->
  n < 2 ^ 31 -> newGlobalKey 2944 n 97 116 crs rndA = Ret gk0 ->
  (forall i, (i < length pks)%nat -> exists rnd pos no pos', internalKeyGen gk0 rnd pos = Ret (nth i sks [], nth i pks [], no, pos')) ->
  length pks = Z.to_nat n -> length evs = Z.to_nat n -> addPKs gk0 pks = (gk, rs) ->
  Forall2 (fun v ct => exists rnd pos r e1 e2 pos2, internalEncrypt 252 gk (tl (snd v)) rnd pos = Ret (fst ct, snd ct, r, e1, e2, pos2)) vs cts ->
  exists l', combined evs vs = Ret l' /\ valid_sharing t evs (s :: l') /\ forall j, (j < length evs)%nat -> exists ds,
    Forall2 (fun ct d => exists noise, internalDecrypt 252 gk (nth j sks []) (Z.of_nat j) (fst ct) (snd ct) old = Ret (d, noise)) cts ds /\
    getSecret ds (map fst vs) = Ret (nth j l' 0%F).
Proof.
  intros Hg V (N & I & T) HD Hn Hk Hks Lp Le Ha He. rewrite map_length in T.
  apply (received_combined P25519_is_prime evs Hg t s l vs (fun j ct d => exists noise, internalDecrypt 252 gk (nth j sks []) (Z.of_nat j) (fst ct) (snd ct) old = Ret (d, noise)) cts V N I T HD).
  eapply Forall2_impl; [|exact He]. intros v ct (rnd & pos & r & e1 & e2 & pos2 & Q) j Hj.
  apply (C39_default n crs rndA gk0 gk rs sks pks (tl (snd v)) rnd pos (fst ct) (snd ct) r e1 e2 pos2 old); try assumption; rewrite Lp; [apply Nat.le_refl|now rewrite <- Le].
Qed.
Print Assumptions C104_default.

(** C105: fewer than t corrupted members in each committee, chosen anew each time: for any two
    secrets there is a bijection between the runs (random coefficients of the sharing and of
    all dealers, with the same dealers) under which the view is the same.  The view of uniformly random runs
    has therefore the same distribution for all secrets. *)
Theorem C105_secrecy p : prime p -> forall t evs C Cs, good_points (p := p) evs -> few t evs C -> Forall (few t evs) Cs ->
  exists T : Fp p -> Fp p -> list (Fp p) * list (list (Z * list (Fp p))) -> list (Fp p) * list (list (Z * list (Fp p))),
  forall s s' r, run_ok t evs r -> length (snd r) = length Cs ->
    run_ok t evs (T s s' r) /\ map (map fst) (snd (T s s' r)) = map (map fst) (snd r) /\
    view evs C Cs s' (T s s' r) = view evs C Cs s r /\ T s' s (T s s' r) = r.
Proof. intros Hp t evs C Cs Hg. now apply (secrecy_bijection Hp evs Hg). Qed.
Print Assumptions C105_secrecy.

(** The bound is sharp: t corrupted members of the first committee know the secret. *)
Theorem C105_sharp p : prime p -> forall t evs C Cs (s s' : Fp p) r r', good_points (p := p) evs -> dealers_ok t evs C ->
  run_ok t evs r -> run_ok t evs r' -> length (snd r) = length Cs -> length (snd r') = length Cs ->
  view evs C Cs s r = view evs C Cs s' r' -> s = s'.
Proof. intros Hp t evs C Cs s s' r r' Hg (N & I & T). now apply (view_known Hp evs Hg). Qed.
Print Assumptions C105_sharp.

(** Examples: five members, t = 2, modulus 17, two handovers. *)
Lemma prime17 : prime 17. Proof. apply prime_alt. split; [lia|]. intros n Hn [q Q]. assert (C : n = 2 \/ n = 3 \/ n = 4 \/ n = 5 \/ n = 6 \/ n = 7 \/ n = 8 \/ n = 9 \/ n = 10 \/ n = 11 \/ n = 12 \/ n = 13 \/ n = 14 \/ n = 15 \/ n = 16) by lia.
  repeat (destruct C as [C|C]; [subst n; lia|]). subst n. lia. Qed.
Definition r_evs : list Z := [1;2;3;4;5].
Definition r_run : list (Fp 17) * list (list (Z * list (Fp 17))) := ([s17 3], [[(2,[s17 5]); (4,[s17 11])]; [(1,[s17 2]); (3,[s17 0]); (5,[s17 16])]]).
Definition vals (o : outcome (list (Fp 17))) : list Z := match o with Ret l => map fval l | _ => [] end.
Lemma r_good : good_points (p := 17) r_evs.
Proof. split; [repeat constructor; cbn; lia|repeat constructor; lia]. Qed.
Fixpoint nodupb (l : list Z) : bool := match l with [] => true | e :: r => negb (existsb (Z.eqb e) r) && nodupb r end.
Lemma r_run_ok : run_ok 2 r_evs r_run.
Proof.
  split; [reflexivity|]. unfold r_run. cbn [snd].
  assert (K : forall h : list (Z * list (Fp 17)), nodupb (map fst h) = true -> forallb (fun e => existsb (Z.eqb e) r_evs) (map fst h) = true -> (2 <= length h)%nat -> Forall (fun d => S (length (snd d)) = 2%nat) h -> handover_ok 2 r_evs h).
  { intros h A B L D. split; [|split; [|split; assumption]].
    - revert A. generalize (map fst h). clear. induction l as [|e l IH]; intros A; constructor; cbn in A; apply andb_prop in A as [A1 A2]; [|auto]. intros Q. rewrite (proj2 (existsb_exists _ _)) in A1; [discriminate|]. exists e. split; [exact Q|apply Z.eqb_refl].
    - intros e He. rewrite forallb_forall in B. apply B in He. now apply existsb_In in He. }
  apply Forall_cons; [apply K; [reflexivity|reflexivity|cbn; lia|]|apply Forall_cons; [apply K; [reflexivity|reflexivity|cbn; lia|]|apply Forall_nil]]; repeat (apply Forall_cons; [reflexivity|]); apply Forall_nil.
Qed.
Example C104_example : vals (handovers r_evs (tl (newSharing r_evs (s17 7) (fst r_run))) (snd r_run)) = [4; 1; 15; 12; 9] /\
  run_ok 2 r_evs r_run /\ good_points (p := 17) r_evs.
Proof. split; [vm_compute; reflexivity|]. split; [exact r_run_ok|exact r_good]. Qed.
(** All members must use the same dealers: with member 1 combining the parts of dealers 2 and 4
    and the others those of 2 and 3, any two reconstruct the secret only if they are on the same side. *)
Example C104_same_dealers :
  let l := tl (newSharing r_evs (s17 7) [s17 3]) in
  let vs := map (fun d => (fst d, dealt r_evs l d)) [(2, [s17 5]); (3, [s17 1]); (4, [s17 11])] in
  let a := [nth 0 vs (0, []); nth 2 vs (0, [])] in let b := [nth 0 vs (0, []); nth 1 vs (0, [])] in
  match combined r_evs a, combined r_evs b with
  | Ret la, Ret lb => vals (let! x := getSecret [nth 0 la 0%F; nth 1 lb 0%F] [1; 2] in Ret [x]) <> [7] /\
                      vals (let! x := getSecret [nth 0 la 0%F; nth 1 la 0%F] [1; 2] in Ret [x]) = [7]
  | _, _ => False
  end.
Proof. vm_compute. split; [discriminate|reflexivity]. Qed.
Example C105_example : few 2 r_evs [1] /\ Forall (few 2 r_evs) [[5]; []] /\ length (snd r_run) = 2%nat /\
  exists r', run_ok 2 r_evs r' /\ view r_evs [1] [[5]; []] (s17 9) r' = view r_evs [1] [[5]; []] (s17 7) r_run /\ r' <> r_run.
Proof.
  assert (A : few 2 r_evs [1]) by (split; [repeat constructor; cbn; lia|split; [intros e He; cbn in *; lia|cbn; lia]]).
  assert (B : Forall (few 2 r_evs) [[5]; []]) by (constructor; [|constructor; [|constructor]]; (split; [repeat constructor; cbn; lia|split; [intros e He; cbn in *; lia|cbn; lia]])).
  split; [exact A|]. split; [exact B|]. split; [reflexivity|]. destruct (C105_secrecy 17 prime17 2 r_evs [1] [[5]; []] r_good A B) as (T & HT).
  destruct (HT (s17 7) (s17 9) r_run r_run_ok eq_refl) as (H1 & _ & H2 & _). exists (T (s17 7) (s17 9) r_run). split; [exact H1|]. split; [exact H2|].
  intros E. rewrite E in H2. clear -H2.
  assert (Q : map fval (hd [] (map fst (fst (view r_evs [1] [[5]; []] (s17 9) r_run)))) = map fval (hd [] (map fst (fst (view r_evs [1] [[5]; []] (s17 7) r_run))))) by now rewrite H2. vm_compute in Q. discriminate.
Qed.
(** The committees of C104_proved: both dealing vectors, the second combining the parts of 2 and 4. *)
Definition r_v (l : list (Fp 17)) (i : Z) : list (Fp 17) := dealt r_evs l (i, [s17 (3 * i + 1)]).
Definition r_l0 := tl (newSharing r_evs (s17 7) [s17 3]).
Definition r_l1 := match combined r_evs (map (fun m => (m, r_v r_l0 m)) [2; 4]) with Ret l => l | _ => [] end.
Example C104_example_proved : committees r_evs (r_v r_l0) [([2; 4], r_v r_l1)] /\ dealers_ok 2 r_evs [2; 4] /\
  (forall l i, In i r_evs -> valid_sharing 2 r_evs (r_v l i)) /\ valid_sharing 2 r_evs (s17 7 :: map (fun i => nth 0 (r_v r_l1 i) 0%F) r_evs).
Proof.
  assert (A : committees r_evs (r_v r_l0) [([2; 4], r_v r_l1)]).
  { split; [|exact I]. intros i Hi. cbn in Hi. repeat (destruct Hi as [<-|Hi]; [vm_compute; f_equal; apply Fp_eq; reflexivity|]). destruct Hi. }
  assert (B : dealers_ok 2 r_evs [2; 4]) by (split; [repeat constructor; cbn; lia|split; [intros e He; cbn in *; lia|cbn; lia]]).
  assert (C : forall l i, In i r_evs -> valid_sharing 2 r_evs (r_v l i)) by (intros l i _; apply (newSharing_valid r_evs _ [s17 (3 * i + 1)])).
  split; [exact A|]. split; [exact B|]. split; [exact C|].
  apply (C104_proved 17 prime17 2 r_evs (s17 7) [([2; 4], r_v r_l1)] (r_v r_l0) r_good A); [constructor; [exact B|constructor]|constructor; [apply C|constructor; [apply C|constructor]]|].
  assert (Q : map (fun i => nth 0 (r_v r_l0 i) 0%F) r_evs = r_l0) by (rewrite (map_ext _ (member_share r_evs r_l0)); [reflexivity|intros i; exact (proj2 (C01_sharing_shape 17 r_evs _ _))]). rewrite Q. exact (newSharing_valid r_evs (s17 7) [s17 3]).
Qed.
Lemma newSharing_own p evs t (x : Fp p) rs : S (length rs) = t -> exists y, newSharing evs x rs = x :: y /\ valid_sharing t evs (newSharing evs x rs).
Proof.
  intros <-. exists (tl (newSharing evs x rs)). split; [|apply newSharing_valid]. destruct (C01_sharing_shape p evs x rs) as [_ E]. rewrite <- E at 2. reflexivity.
Qed.
(** C104_system for the small instance of C39: p = 4177, ell = 2, five members, dealers 2 and 4. *)
Lemma prime4177 : prime 4177.
Proof.
  apply prime_alt. split; [lia|]. intros n Hn [q Q].
  assert (B : n <= 64 \/ q <= 64) by nia. assert (Hq : 1 < q < 4177) by nia.
  assert (K : forall a, 1 < a <= 64 -> 4177 mod a <> 0).
  { intros a Ha. assert (W : forallb (fun i => negb (4177 mod (Z.of_nat i + 2) =? 0)) (seq 0 63) = true) by (vm_compute; reflexivity). rewrite forallb_forall in W.
    specialize (W (Z.to_nat (a - 2)) ltac:(apply in_seq; lia)). rewrite Z2Nat.id in W by lia. replace (a - 2 + 2) with a in W by lia. intros E. rewrite E in W. discriminate. }
  destruct B as [B|B]; [apply (K n); [lia|]|apply (K q); [lia|]]; rewrite Q; [apply Z.mod_mul|rewrite Z.mul_comm; apply Z.mod_mul]; lia.
Qed.
Definition x_l : list (Fp 4177) := tl (newSharing r_evs (toF _ 2020) [toF _ 77]).
Definition x_vs : list (Z * list (Fp 4177)) := map (fun d => (fst d, dealt r_evs x_l d)) [(2, [toF _ 5]); (4, [toF _ 4000])].
Definition x_ct (v : Z * list (Fp 4177)) := ret_of (internalEncrypt 12 ex_gk (tl (snd v)) (ex_tape (Z.to_nat (fst v))) 0) ([], [], [], [], [], 0%nat).
Definition x_cts := map (fun v => (fst (fst (fst (fst (fst (x_ct v))))), snd (fst (fst (fst (fst (x_ct v))))))) x_vs.
Example C104_example_system : exists l', valid_sharing 2 r_evs (toF 4177 2020 :: l') /\ length x_cts = 2%nat /\ forall j, (j < 5)%nat -> exists ds,
  Forall2 (fun ct d => exists noise, internalDecrypt 12 ex_gk (nth j ex_sks []) (Z.of_nat j) (fst ct) (snd ct) e0 = Ret (d, noise)) x_cts ds /\
  getSecret ds [2; 4] = Ret (nth j l' 0%F).
Proof.
  assert (Hlen : length ex_pks = 5%nat) by reflexivity.
  assert (Hruns : forall i, (i < length ex_pks)%nat -> exists rnd pos no pos',
     internalKeyGen ex_gk0 rnd pos = Ret (nth i ex_sks [], nth i ex_pks [], no, pos')).
  { intros i Hi. exists (ex_tape i), 0%nat.
    assert (Hr : is_ret (internalKeyGen ex_gk0 (ex_tape i) 0) = true).
    { rewrite Hlen in Hi. do 5 (destruct i as [|i]; [vm_compute; reflexivity|]). lia. }
    apply (is_ret_of _ ([], [], [], 0%nat)) in Hr. rewrite Hr. fold (ex_run i).
    unfold ex_sks, ex_pks. rewrite Hlen in Hi. rewrite !(nth_map_lt _ _ _ _ 0%nat) by (rewrite seq_length; lia).
    rewrite !seq_nth by lia. cbn [Nat.add]. destruct (ex_run i) as [[[sk pk] no] q]. now exists no, q. }
  destruct (C104_system 4177 2 12 1 5 2 3 None ex_A ex_gk0 ex_gk (snd (addPKs ex_gk0 ex_pks)) ex_sks ex_pks 12 e0 2 r_evs (toF _ 2020) x_l x_vs x_cts) as (l' & _ & V & H); try assumption; try lia;
    try (apply Z.leb_le || apply Z.ltb_lt; vm_compute; reflexivity); try apply surjective_pairing; try reflexivity.
  - exact prime4177.
  - split; [repeat constructor; cbn; lia|repeat constructor; lia].
  - exact (newSharing_valid r_evs (toF 4177 2020) [toF _ 77]).
  - change (map fst x_vs) with [2; 4]. clear. split; [repeat constructor; cbn; lia|split; [intros e He; cbn in *; lia|cbn; lia]].
  - unfold x_vs. apply Forall_map. constructor; [|constructor; [|constructor]]; cbn [fst snd]; unfold dealt; cbn [fst snd]; apply newSharing_own; reflexivity.
  - unfold x_cts. assert (K : forall v, In v x_vs -> is_ret (internalEncrypt 12 ex_gk (tl (snd v)) (ex_tape (Z.to_nat (fst v))) 0) = true).
    { intros v Hv. unfold x_vs in Hv. cbn [map] in Hv. destruct Hv as [<-|[<-|[]]]; vm_compute; reflexivity. }
    clear -K. induction x_vs as [|v vs IH]; [constructor|]. cbn [map]. constructor; [|apply IH; intros w Hw; apply K; now right].
    pose proof (is_ret_of _ ([], [], [], [], [], 0%nat) (K v (or_introl eq_refl))) as Q. fold (x_ct v) in Q. destruct (x_ct v) as [[[[[ct1 ct2] r] e1] e2] pos2]. cbn [fst snd]. eauto 10.
  - exists l'. split; [exact V|]. split; [reflexivity|]. exact H.
Qed.
