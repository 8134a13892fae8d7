(** C18-C25: /repo/include/bulletproof.hpp and /repo/src/dlproofs/bulletproof.cpp.
    Only statements, short proofs, examples and Print Assumptions. *)
From Coq Require Import String.
From Coq Require Import ZArith Znumtheory List Bool Lia.
From Verif Require Import Outcome Fp GroupMod FSum Prime25519 ConstraintsModel ConstraintsSpec PedersenModel PedersenSpec
  BulletproofModel BulletproofProofs BulletproofQuad BulletproofForgery FreeMod BulletproofSpec BulletproofSound
  BulletproofQSound BulletproofApi BulletproofExamples.
Import ListNotations.
Open Scope Z_scope.

(** ** C18: completeness of linear proofs *)
Theorem C18_linear_complete :
  forall (p : Z), prime p -> forall (G : gmod p) (base : G) (M : merlin G) (hash : string -> G) (m_init : string -> mst M)
    (tag : string) (c : lincon p) (w : Z -> Fp p) r bl blS,
  (1 <= length (lterms c))%nat /\ Z.of_nat (length (lterms c)) <= 2 ^ 20 ->
  lin_sat c w ->
  (forall st l, fst (m_chal M st l) <> 0%F) ->
  exists pf, proveLinearTag base M hash m_init tag c (wmap (keys (lterms c)) w) r bl blS = Ret pf /\
    verifyLinearTag base M hash m_init tag c pf = Ret true.
Proof. intros. eapply linearTag_complete; assumption. Qed.

(** The version on flat vectors, with optional public offsets.  A zero challenge
    gives an exception. *)
Theorem C18_linear_complete_offsets :
  forall (p : Z), prime p -> forall (G : gmod p) (base : G) (M : merlin G)
    (as_ bs : list (Fp p)) (gs : list G) n eq st off r bl blS C,
  (1 <= n)%nat -> Z.of_nat n <= 2 ^ 63 ->
  length as_ = n -> length bs = n -> length gs = n -> off_ok off n ->
  dot bs as_ = eq ->
  C = gadd (gadd (gmul base r) (gdot gs as_)) (gdot gs (offset off n)) ->
  (proveLinear base M C r st bl blS as_ bs gs n = Throw /\ ~ (forall st l, fst (m_chal M st l) <> 0%F)) \/
  exists pf, proveLinear base M C r st bl blS as_ bs gs n = Ret pf /\ lpC pf = C /\
    (verifyLinear base M pf bs gs n eq st off = Ret true \/
     (verifyLinear base M pf bs gs n eq st off = Throw /\ ~ (forall st l, fst (m_chal M st l) <> 0%F))).
Proof.
  intros p Hp G base M as_ bs gs n eq st off r bl blS C H1 H63 Ha Hb Hg Ho He HC.
  destruct (linear_complete Hp base M as_ bs gs n eq st off r bl blS C H1 H63 Ha Hb Hg Ho He) as [H|(pf & A & B & _ & _ & D)].
  - rewrite off_val_offset, Hg. exact HC.
  - now left.
  - right. exists pf. auto.
Qed.
Example C18_example :
  let c := LinCon [(3, s17 5); (4, s17 6); (9, s17 7)] (s17 5) in
  let w := fun k => if k =? 3 then s17 2 else if k =? 4 then s17 3 else s17 4 in
  lin_sat c w /\
  (forall st l, fst (m_chal (toyM G9 F9) st l) <> 0%F) /\
  is_true (obind (proveLinearTag base9 (toyM G9 F9) (fun s => gen9 (String.length s)) (fun _ => 0%nat) "tag" c
                    (wmap (keys (lterms c)) w) (s17 8) blind blS9)
             (verifyLinearTag base9 (toyM G9 F9) (fun s => gen9 (String.length s)) (fun _ => 0%nat) "tag" c)) = true.
Proof.
  split; [apply Fp_eq; vm_compute; reflexivity|]. split; [|vm_compute; reflexivity].
  exact (toyM_ok G9 F9).
Qed.
Print Assumptions C18_linear_complete.
Print Assumptions C18_linear_complete_offsets.

(** ** C19: completeness of quadratic proofs *)
Theorem C19_quadratic_complete :
  forall (p : Z), prime p -> forall (G : gmod p) (base : G) (M : merlin G) (hash : string -> G) (m_init : string -> mst M)
    (tag : string) (c : quadcon p) (u v : Z -> Fp p) r bl blST blUV,
  (1 <= length (qidx c))%nat /\ Z.of_nat (length (qidx c)) <= 2 ^ 20 ->
  quad_sat c u v ->
  (forall st l, fst (m_chal M st l) <> 0%F) ->
  exists pf, proveQuadraticTag base M hash m_init tag c (wmap (qidx c) u) (wmap (qidx c) v) r bl blST blUV = Ret pf /\
    verifyQuadraticTag base M hash m_init tag c pf = Ret true.
Proof. intros. eapply quadraticTag_complete; assumption. Qed.

Theorem C19_quadratic_complete_offsets :
  forall (p : Z), prime p -> forall (G : gmod p) (base : G) (M : merlin G)
    (as_ bs : list (Fp p)) (gs hs : list G) n eq st offu offv r bl blST blUV C,
  (1 <= n)%nat -> Z.of_nat n <= 2 ^ 63 ->
  length as_ = n -> length bs = n -> length gs = n -> length hs = n -> off_ok offu n -> off_ok offv n ->
  dot as_ bs = eq ->
  C = gadd (gadd (gadd (gmul base r) (gdot gs as_)) (gdot hs bs)) (gadd (gdot gs (offset offu n)) (gdot hs (offset offv n))) ->
  (proveQuadratic base M C r st bl blST blUV gs as_ hs bs n = Throw /\ ~ (forall st l, fst (m_chal M st l) <> 0%F)) \/
  exists pf, proveQuadratic base M C r st bl blST blUV gs as_ hs bs n = Ret pf /\ qpC pf = C /\
    verifyQuadratic base M pf gs hs n eq st offu offv = Ret true.
Proof.
  intros p Hp G base M as_ bs gs hs n eq st offu offv r bl blST blUV C H1 H63 Ha Hb Hg Hh Hu Hv He HC.
  destruct (quadratic_complete Hp base M as_ bs gs hs n eq st offu offv r bl blST blUV C H1 H63 Ha Hb Hg Hh Hu Hv He) as [H|(pf & A & B & _ & _ & D)].
  - rewrite !off_val_offset, Hg, Hh. exact HC.
  - now left.
  - right. exists pf. auto.
Qed.
Example C19_example :
  let c := QuadCon [3; 4; 9] (s17 84) in
  let u := fun k => if k =? 3 then s17 2 else if k =? 4 then s17 3 else s17 4 in
  let v := fun k => if k =? 3 then s17 5 else if k =? 4 then s17 6 else s17 14 in
  quad_sat c u v /\
  is_true (obind (proveQuadraticTag base9 (toyM G9 F9) (fun s => gen9 (String.length s)) (fun _ => 0%nat) "tag" c
                    (wmap (qidx c) u) (wmap (qidx c) v) (s17 8) blind blS9 blU9)
             (verifyQuadraticTag base9 (toyM G9 F9) (fun s => gen9 (String.length s)) (fun _ => 0%nat) "tag" c)) = true.
Proof. split; [apply Fp_eq; vm_compute; reflexivity|vm_compute; reflexivity]. Qed.
Print Assumptions C19_quadratic_complete.
Print Assumptions C19_quadratic_complete_offsets.

(** ** C20: completeness of norm proofs *)
Theorem C20_norm_complete :
  forall (p : Z), prime p -> forall (G : gmod p) (base : G) (M : merlin G) (hash : string -> G) (m_init : string -> mst M)
    (tag : string) (vec : pvec p) r bl blST blUV,
  (1 <= length vec)%nat /\ Z.of_nat (length vec) <= 2 ^ 20 ->
  (forall st l, fst (m_chal M st l) <> 0%F) ->
  exists pf, proveNormSquared base M hash tag (m_init tag) vec r bl blST blUV
       = Ret (fsum (map (fun kv => (snd kv * snd kv)%F) vec), pf) /\
    verifyNormSquared base M hash m_init tag (keys vec) (fsum (map (fun kv => (snd kv * snd kv)%F) vec)) pf = Ret true.
Proof. intros. eapply norm_complete; assumption. Qed.
Example C20_example :
  let vec := [(3, s17 2); (4, s17 3); (9, s17 4)] in
  fval (fsum (map (fun kv => (snd kv * snd kv)%F) vec)) = 12 /\
  is_true (obind (proveNormSquared base9 (toyM G9 F9) (fun s => gen9 (String.length s)) "tag" 0%nat vec (s17 8) blind blS9 blU9)
     (fun e => verifyNormSquared base9 (toyM G9 F9) (fun s => gen9 (String.length s)) (fun _ => 0%nat) "tag" (keys vec) (fst e) (snd e))) = true.
Proof. split; vm_compute; reflexivity. Qed.
Print Assumptions C20_norm_complete.

(** ** C21: norm proofs.  The challenge x does not depend on the commitment, so a
    prover may choose the committed vectors after seeing it. *)
(** Any functions a, b of x with the right inner product give accepted proofs. *)
Theorem C21_norm_forgery :
  forall (p : Z), prime p -> forall (G : gmod p) (base : G) (M : merlin G) (hash : string -> G) (m_init : string -> mst M)
    (tag : string) (indexes : list Z) (N : Fp p) (a b : Fp p -> list (Fp p)) r bl blST blUV,
  (1 <= length indexes)%nat /\ Z.of_nat (length indexes) <= 2 ^ 20 ->
  (forall st l, fst (m_chal M st l) <> 0%F) ->
  (forall x : Fp p, x <> 0%F -> length (a x) = length indexes /\ length (b x) = length indexes /\
     dot (a x) (b x) = (N - dot (pows x x (length indexes)) (pows x x (length indexes)))%F) ->
  exists x pf, x <> 0%F /\ cheatNorm base M hash m_init tag indexes N a b r bl blST blUV = Ret pf /\
    qpC pf = gadd (gadd (gmul base r) (gdot (map (getGen hash tag KG) indexes) (a x)))
                  (gdot (map (getGen hash tag KH) indexes) (b x)) /\
    verifyNormSquared base M hash m_init tag indexes N pf = Ret true.
Proof. intros. eapply norm_forgery; assumption. Qed.

(** Independent generators, an accepted proof that the squared norm is 1, and a
    commitment whose only opening has u = 0 (u: G part minus the challenge). *)
Theorem C21_norm_refuted :
  exists (M : merlin G9) (m_init : string -> mst M) (pf : quadpf G9) (x : Fp 17),
    (forall st l, fst (m_chal M st l) <> 0%F) /\
    fst (m_chal M (m_quad M (m_init "t"%string) "normSquared" (QuadCon [0] (s17 1))) "x") = x /\
    indep 17 [base9; getGen hash21 "t" KG 0; getGen hash21 "t" KH 0] /\
    verifyNormSquared base9 M hash21 m_init "t" [0] (s17 1) pf = Ret true /\
    (forall r a b, qpC pf = gadd (gadd (gmul base9 r) (gmul (getGen hash21 "t" KG 0) a)) (gmul (getGen hash21 "t" KH 0) b) ->
       let u := (a - x)%F in let v := (b + x)%F in u <> v /\ (u * u)%F <> s17 1).
Proof.
  exists (toyM G9 F9').
  exists (fun _ => 0%nat).
  exists (get qp0 (cheatNorm base9 (toyM G9 F9') hash21 (fun _ => 0%nat) "t" [0] (s17 1)
     (fun x => [x]) (fun x => [(finv x - x)%F]) (s17 8) blind blS9 blU9)).
  exists (s17 2).
  split; [exact (toyM_ok G9 F9')|].
  split; [reflexivity|]. split; [exact gens3_indep|].
  split; [apply is_true_ret; vm_compute; reflexivity|].
  intros r a b H.
  assert (E : [r; a; b] = [s17 8; s17 2; s17 7]).
  { apply (indep_unique 17 [base9; F9; F9']); [exact gens3_indep|reflexivity|reflexivity|].
    transitivity (gadd (gadd (gmul base9 r) (gmul (getGen hash21 "t" KG 0) a)) (gmul (getGen hash21 "t" KH 0) b)).
    - cbn [gdot]. change (getGen hash21 "t" KG 0) with F9. change (getGen hash21 "t" KH 0) with F9'.
      rewrite gadd_0_r, gadd_assoc. reflexivity.
    - rewrite <- H. vm_compute. reflexivity. }
  injection E as -> -> ->. split; intros E; apply (f_equal (@fval 17)) in E; vm_compute in E; discriminate.
Qed.

(** What remains true: for vectors that do not depend on x, the equation checked
    by the verifier holding for more than n challenges forces u = v and |u|^2 = N. *)
Theorem C21_norm_partial :
  forall (p : Z), prime p -> forall (u v : list (Fp p)) (N : Fp p) xs,
  length v = length u -> NoDup xs -> (length u < length xs)%nat ->
  Forall (fun x => dot (vadd u (pows x x (length u))) (vadd v (map (fun z => (- z)%F) (pows x x (length u))))
                   = (N - dot (pows x x (length u)) (pows x x (length u)))%F) xs ->
  u = v /\ dot u u = N.
Proof. intros p Hp u v N xs. exact (norm_fixed Hp u v N xs). Qed.
Example C21_partial_example :
  let u := [s17 2; s17 3] in
  Forall (fun x => dot (vadd u (pows x x 2)) (vadd u (map (fun z => (- z)%F) (pows x x 2)))
                   = (s17 13 - dot (pows x x 2) (pows x x 2))%F) [s17 1; s17 5; s17 7].
Proof. repeat constructor; apply Fp_eq; vm_compute; reflexivity. Qed.
Print Assumptions C21_norm_forgery.
Print Assumptions C21_norm_refuted.
Print Assumptions C21_norm_partial.

(** ** C22: special soundness of linear proofs.  The extra generator F is derived
    after C, so an extractor can obtain trees for two values of it. *)
Theorem C22_linear_extractor :
  forall (p : Z), prime p -> forall (G : gmod p) (base F1 F2 : G) (gs : list G) (bs : list (Fp p)) eq off C t1 t2,
  (1 <= length gs)%nat -> Z.of_nat (length gs) <= 2 ^ 63 -> length bs = length gs -> off_ok off (length gs) ->
  ldistinct t1 -> ldistinct t2 ->
  laccepting base F1 gs bs eq off C t1 -> laccepting base F2 gs bs eq off C t2 ->
  match lextract2 gs bs eq t1 t2 with
  | inl (rho, w) => length w = length gs /\
      C = gadd (gmul base rho) (gdot gs (vadd w (offset off (length gs)))) /\ dot bs w = eq
  | inr cs => relation (base :: F1 :: F2 :: gs) cs
  end.
Proof. intros p Hp G base F1 F2 gs bs eq off C t1 t2. exact (linear_extract2 Hp base F1 F2 gs bs eq off C t1 t2). Qed.

(** One tree: an opening up to a multiple of F. *)
Theorem C22_linear_extractor_one :
  forall (p : Z), prime p -> forall (G : gmod p) (base Fg : G) (gs : list G) (bs : list (Fp p)) eq off C t,
  (1 <= length gs)%nat -> Z.of_nat (length gs) <= 2 ^ 63 -> length bs = length gs -> off_ok off (length gs) ->
  ldistinct t -> laccepting base Fg gs bs eq off C t ->
  let '(rho, w) := lextract (length gs) t in
  length w = length gs /\
  C = gadd (gadd (gmul base rho) (gdot gs (vadd w (offset off (length gs))))) (gmul Fg (dot bs w - eq)%F).
Proof. intros p Hp G base Fg gs bs eq off C t. exact (linear_extract Hp base Fg gs bs eq off C t). Qed.

Lemma ltree9_distinct Fg : ldistinct (ltree9 Fg).
Proof.
  cbn. repeat split; try (repeat constructor; cbn; intuition discriminate);
  intros H; apply (f_equal (@fval 17)) in H; vm_compute in H; discriminate.
Qed.
Example C22_example :
  ldistinct (ltree9 F9) /\ ldistinct (ltree9 F9') /\
  laccepting base9 F9 gs9 b9 (s17 5) (Some off9) C9 (ltree9 F9) /\
  laccepting base9 F9' gs9 b9 (s17 5) (Some off9) C9 (ltree9 F9') /\
  lextract2 gs9 b9 (s17 5) (ltree9 F9) (ltree9 F9') = inl (s17 8, w9).
Proof.
  split; [apply ltree9_distinct|]. split; [apply ltree9_distinct|].
  split; [apply lacceptb_ok; vm_compute; reflexivity|]. split; [apply lacceptb_ok; vm_compute; reflexivity|].
  assert (E : forall a b : Fp 17 * list (Fp 17), fval (fst a) = fval (fst b) -> map (@fval 17) (snd a) = map (@fval 17) (snd b) -> a = b).
  { intros [a l] [b l'] H1 H2. cbn in *. f_equal; [now apply Fp_eq|].
    revert l' H2. induction l as [|x l IH]; intros [|y l'] H2; try discriminate; [reflexivity|].
    injection H2 as H2 H3. f_equal; [now apply Fp_eq|now apply IH]. }
  unfold lextract2. destruct (lextract (length gs9) (ltree9 F9)) as [r1 w1] eqn:E1.
  destruct (lextract (length gs9) (ltree9 F9')) as [r2 w2] eqn:E2.
  assert (Ew : (r1, w1) = (s17 8, w9)).
  { rewrite <- E1. apply E; vm_compute; reflexivity. }
  injection Ew as -> ->. replace (feqb (dot b9 w9) (s17 5)) with true by (vm_compute; reflexivity). reflexivity.
Qed.
Print Assumptions C22_linear_extractor.
Print Assumptions C22_linear_extractor_one.

(** ** C23: quadratic proofs *)
(** For every length which is not a power of two the prover can prove <u,v> + delta
    for any delta. *)
Theorem C23_quadratic_forgery :
  forall (p : Z), prime p -> forall (G : gmod p) (base : G) (M : merlin G)
    (as_ bs : list (Fp p)) (gs hs : list G) n delta st offu offv r bl blST blUV C,
  (1 <= n)%nat -> Z.of_nat n <= 2 ^ 63 -> (forall k, n <> 2 ^ k)%nat ->
  length as_ = n -> length bs = n -> length gs = n -> length hs = n -> off_ok offu n -> off_ok offv n ->
  C = gadd (gadd (gadd (gmul base r) (gdot gs as_)) (gdot hs bs)) (gadd (gdot gs (offset offu n)) (gdot hs (offset offv n))) ->
  (forall st l, fst (m_chal M st l) <> 0%F) ->
  exists pf, cheatQuadratic base M C r st bl blST blUV gs as_ hs bs n delta = Ret pf /\ qpC pf = C /\
    verifyQuadratic base M pf gs hs n (dot as_ bs + delta)%F st offu offv = Ret true.
Proof.
  intros p Hp G base M as_ bs gs hs n delta st offu offv r bl blST blUV C H1 H63 Hn Ha Hb Hg Hh Hu Hv HC Hc.
  apply (quadratic_forgery Hp base M as_ bs gs hs n delta st offu offv r bl blST blUV C); try assumption.
  rewrite !off_val_offset, Hg, Hh. exact HC.
Qed.

(** Independent generators and full trees of accepting transcripts for <u,v> = 1,
    while the commitment has no opening with <u,v> = 1. *)
Theorem C23_quadratic_refuted :
  exists (base F1 F2 : G9) (gs hs : list G9) (C : G9) (eq : Fp 17) (t1 t2 : qtree G9),
    length gs = 3%nat /\ length hs = 3%nat /\
    qdistinct t1 /\ qdistinct t2 /\
    qaccepting base F1 gs hs eq None None C t1 /\ qaccepting base F2 gs hs eq None None C t2 /\
    (forall cs, ~ relation (base :: F1 :: F2 :: gs ++ hs) cs) /\
    (forall r u v, length u = 3%nat -> length v = 3%nat ->
       C = gadd (gadd (gmul base r) (gdot gs u)) (gdot hs v) -> dot u v <> eq).
Proof.
  exists base9, F9, F9', gs9, hs9, C3, (s17 1), (qtree3 F9), (qtree3 F9').
  split; [reflexivity|]. split; [reflexivity|].
  assert (Hd : forall Fg, qdistinct (qtree3 Fg)).
  { intros Fg. cbn. repeat split; repeat constructor; cbn; intuition discriminate. }
  split; [apply Hd|]. split; [apply Hd|].
  split; [apply qacceptb_ok; vm_compute; reflexivity|]. split; [apply qacceptb_ok; vm_compute; reflexivity|].
  split.
  { intros cs (Hl & H0 & Hn). apply Hn. now apply gens9_indep. }
  intros r u v Hu Hv HC.
  assert (E : r :: 0%F :: 0%F :: u ++ v = s17 8 :: repeat 0%F 8).
  { apply (indep_unique 17 (base9 :: F9 :: F9' :: gs9 ++ hs9)); [exact gens9_indep| | |].
    - cbn [length]. rewrite !app_length, Hu, Hv. reflexivity.
    - reflexivity.
    - cbn [gdot]. rewrite gdot_app by (now rewrite Hu). rewrite !gmul_0_r, !gadd_0_l.
      rewrite gadd_assoc, <- HC. vm_compute. reflexivity. }
  injection E as _ E. destruct u as [|u0 [|u1 [|u2 [|]]]]; try discriminate. cbn in E.
  injection E as -> -> -> ->. intros H. apply (f_equal (@fval 17)) in H.
  vm_compute in H. discriminate.
Qed.

(** What remains true: special soundness for lengths 2^k. *)
Theorem C23_quadratic_partial :
  forall (p : Z), prime p -> forall (G : gmod p) k (base F1 F2 : G) (gs hs : list G) eq offu offv (C : G) t1 t2,
  length gs = (2 ^ k)%nat -> Z.of_nat (length gs) <= 2 ^ 63 -> length hs = length gs ->
  off_ok offu (length gs) -> off_ok offv (length gs) ->
  qdistinct t1 -> qdistinct t2 ->
  qaccepting base F1 gs hs eq offu offv C t1 -> qaccepting base F2 gs hs eq offu offv C t2 ->
  match qextract2 eq t1 t2 with
  | inl (rho, a, b) => length a = length gs /\ length b = length gs /\
      C = gadd (gadd (gmul base rho) (gdot gs (vadd a (offset offu (length gs)))))
               (gdot hs (vadd b (offset offv (length gs)))) /\
      dot a b = eq
  | inr cs => relation (base :: F1 :: F2 :: gs ++ hs) cs
  end.
Proof.
  intros p Hp G k base F1 F2 gs hs eq offu offv C t1 t2. exact (quadratic_extract2 Hp k base F1 F2 gs hs eq offu offv C t1 t2).
Qed.
Example C23_partial_example :
  qdistinct (qtree2 F9) /\ qdistinct (qtree2 F9') /\
  qaccepting base9 F9 gs2 hs2 (s17 28) None None C2 (qtree2 F9) /\
  qaccepting base9 F9' gs2 hs2 (s17 28) None None C2 (qtree2 F9') /\
  match qextract2 (s17 28) (qtree2 F9) (qtree2 F9') with
  | inl (r, a, b) => (fval r, map (@fval 17) a, map (@fval 17) b) = (8, [2; 3], [5; 6])
  | inr _ => False
  end.
Proof.
  assert (Hd : forall Fg, qdistinct (qtree2 Fg)).
  { intros Fg. cbn. repeat split; repeat constructor; cbn; intuition discriminate. }
  split; [apply Hd|]. split; [apply Hd|].
  split; [apply qacceptb_ok; vm_compute; reflexivity|]. split; [apply qacceptb_ok; vm_compute; reflexivity|].
  vm_compute. reflexivity.
Qed.
Print Assumptions C23_quadratic_forgery.
Print Assumptions C23_quadratic_refuted.
Print Assumptions C23_quadratic_partial.

(** ** C24: shape of proofs *)
(** wrong number of L or R points: exception, whatever the other inputs (so
    nothing else has been read out of range) *)
Theorem C24_wrong_shape :
  forall (p : Z) (G : gmod p) (base : G) (M : merlin G) n eq st,
  (forall pf bs gs off, length (lpLs pf) <> log2roundUpN n \/ length (lpRs pf) <> log2roundUpN n ->
     verifyLinear base M pf bs gs n eq st off = Throw) /\
  (forall pf gs hs offu offv, length (qpLs pf) <> log2roundUpN n \/ length (qpRs pf) <> log2roundUpN n ->
     verifyQuadratic base M pf gs hs n eq st offu offv = Throw).
Proof. intros. split; intros; [now apply verifyLinear_shape|now apply verifyQuadratic_shape]. Qed.
(** every proof object: an exception or an answer, no out-of-range access *)
Theorem C24_memory_safe :
  forall (p : Z), prime p -> forall (G : gmod p) (base : G) (M : merlin G) n eq st,
  (1 <= n)%nat -> Z.of_nat n <= 2 ^ 63 ->
  (forall pf bs gs off, length bs = n -> length gs = n -> off_ok off n ->
     verifyLinear base M pf bs gs n eq st off = Throw \/
     exists b, verifyLinear base M pf bs gs n eq st off = Ret b) /\
  (forall pf gs hs offu offv, length gs = n -> length hs = n -> off_ok offu n -> off_ok offv n ->
     verifyQuadratic base M pf gs hs n eq st offu offv = Throw \/
     exists b, verifyQuadratic base M pf gs hs n eq st offu offv = Ret b).
Proof. intros. split; intros; [now apply verifyLinear_safe|now apply verifyQuadratic_safe]. Qed.
(** honest proofs have ceil(log2 n) points (log2roundUpN: see C14) *)
Theorem C24_honest_shape :
  forall (p : Z), prime p -> forall (G : gmod p) (base : G) (M : merlin G) n st r C,
  (1 <= n)%nat -> Z.of_nat n <= 2 ^ 63 ->
  (forall bl blS (as_ bs : list (Fp p)) (gs : list G) pf, length as_ = n -> length bs = n -> length gs = n ->
     C = gadd (gmul base r) (gdot gs as_) ->
     proveLinear base M C r st bl blS as_ bs gs n = Ret pf ->
     length (lpLs pf) = log2roundUpN n /\ length (lpRs pf) = log2roundUpN n) /\
  (forall bl blST blUV (as_ bs : list (Fp p)) (gs hs : list G) pf, length as_ = n -> length bs = n -> length gs = n -> length hs = n ->
     C = gadd (gadd (gmul base r) (gdot gs as_)) (gdot hs bs) ->
     proveQuadratic base M C r st bl blST blUV gs as_ hs bs n = Ret pf ->
     length (qpLs pf) = log2roundUpN n /\ length (qpRs pf) = log2roundUpN n).
Proof.
  intros p Hp G base M n st r C H1 H63. split.
  - intros bl blS as_ bs gs pf Ha Hb Hg HC E.
    destruct (linear_complete Hp base M as_ bs gs n (dot bs as_) st None r bl blS C H1 H63 Ha Hb Hg I eq_refl)
      as [[H _]|(pf' & A & _ & B & D & _)]; [cbn [off_val]; now rewrite gadd_0_r|congruence|].
    rewrite E in A. injection A as <-. auto.
  - intros bl blST blUV as_ bs gs hs pf Ha Hb Hg Hh HC E.
    destruct (quadratic_complete Hp base M as_ bs gs hs n (dot as_ bs) st None None r bl blST blUV C H1 H63 Ha Hb Hg Hh I I eq_refl)
      as [[H _]|(pf' & A & _ & B & D & _)]; [cbn [off_val]; now rewrite !gadd_0_r|congruence|].
    rewrite E in A. injection A as <-. auto.
Qed.
Example C24_example :
  let pf := lrun9 F9 [s17 1; s17 2; s17 3] in
  log2roundUpN 3 = 2%nat /\ length (lpLs pf) = 2%nat /\
  is_true (verifyLinear base9 (script F9) pf b9 gs9 3 (s17 5) [s17 1; s17 2; s17 3] (Some off9)) = true /\
  verifyLinear base9 (script F9) (LinPf (lpC pf) (lpLs pf ++ lpLs pf) (lpRs pf) (lpS pf) (lpa pf) (lpr pf))
     b9 gs9 3 (s17 5) [s17 1; s17 2; s17 3] (Some off9) = Throw.
Proof. repeat split; vm_compute; reflexivity. Qed.
Print Assumptions C24_wrong_shape.
Print Assumptions C24_memory_safe.
Print Assumptions C24_honest_shape.

(** ** C25: flattening *)
Theorem C25_flatten_linear :
  forall (p : Z) (G : gmod p) (hash : string -> G) (tag : string) (c : lincon p) (xes : pvec p),
  let n := length (lterms c) in
  (((n < 1)%nat \/ 2 ^ 20 < Z.of_nat n \/ (xes <> [] /\ keys xes <> keys (lterms c))) /\
    flatLin hash tag c xes = Throw) \/
  (((1 <= n)%nat /\ Z.of_nat n <= 2 ^ 20 /\ (xes = [] \/ keys xes = keys (lterms c))) /\
    flatLin hash tag c xes =
      Ret (FlatLin (map (getGen hash tag KG) (keys (lterms c))) (map snd (lterms c)) (leq c) (map snd xes))).
Proof.
  intros p G hash tag c xes n.
  destruct (Nat.lt_ge_cases n 1) as [H1|H1].
  { left. split; [auto|]. apply flatLin_throw. left. intros [H _]. fold n in H. lia. }
  destruct (Z.lt_ge_cases (2 ^ 20) (Z.of_nat n)) as [H2|H2].
  { left. split; [auto|]. apply flatLin_throw. left. intros [_ H]. fold n in H. lia. }
  destruct (list_eq_dec Z.eq_dec (keys xes) (keys (lterms c))) as [E|E].
  { right. split; [auto|]. apply flatLin_ret; [split; assumption|auto]. }
  destruct xes as [|e xes].
  { right. split; [auto|]. apply flatLin_ret; [split; assumption|auto]. }
  left. split; [right; right; split; [discriminate|exact E]|]. apply flatLin_throw. right. split; [discriminate|exact E].
Qed.
Theorem C25_flatten_quadratic :
  forall (p : Z) (G : gmod p) (hash : string -> G) (tag : string) (c : quadcon p) (xs ys : pvec p),
  let n := length (qidx c) in
  (((n < 1)%nat \/ 2 ^ 20 < Z.of_nat n \/ ((xs <> [] \/ ys <> []) /\ (keys xs <> qidx c \/ keys ys <> qidx c))) /\
    flatQuad hash tag c xs ys = Throw) \/
  (((1 <= n)%nat /\ Z.of_nat n <= 2 ^ 20 /\ ((xs = [] /\ ys = []) \/ (keys xs = qidx c /\ keys ys = qidx c))) /\
    flatQuad hash tag c xs ys =
      Ret (FlatQuad (map (getGen hash tag KG) (qidx c)) (map (getGen hash tag KH) (qidx c)) (qeq c) (map snd xs) (map snd ys))).
Proof.
  intros p G hash tag c xs ys n.
  destruct (Nat.lt_ge_cases n 1) as [H1|H1].
  { left. split; [auto|]. apply flatQuad_throw. left. intros [H _]. fold n in H. lia. }
  destruct (Z.lt_ge_cases (2 ^ 20) (Z.of_nat n)) as [H2|H2].
  { left. split; [auto|]. apply flatQuad_throw. left. intros [_ H]. fold n in H. lia. }
  assert (D : (xs = [] /\ ys = []) \/ (xs <> [] \/ ys <> [])).
  { destruct xs; [|right; left; discriminate]. destruct ys; [left; auto|right; right; discriminate]. }
  destruct (list_eq_dec Z.eq_dec (keys xs) (qidx c)) as [E|E]; destruct (list_eq_dec Z.eq_dec (keys ys) (qidx c)) as [E'|E'];
    try (right; split; [auto|]; apply flatQuad_ret; [split; assumption|auto]; fail);
    (destruct D as [D|D]; [right; split; [auto|]; apply flatQuad_ret; [split; assumption|auto]
                          |left; split; [auto|]; apply flatQuad_throw; right; auto]).
Qed.
(** "proving never reads outside the witness" fails: an empty witness map passes
    the checks and every proof attempt then reads past the end of it. *)
Theorem C25_empty_witness_reads_out_of_range :
  forall (p : Z) (G : gmod p) (base : G) (M : merlin G) (hash : string -> G) (m_init : string -> mst M)
    (tag : string) (c : lincon p) r bl blS,
  (1 <= length (lterms c))%nat /\ Z.of_nat (length (lterms c)) <= 2 ^ 20 ->
  proveLinearTag base M hash m_init tag c [] r bl blS = UB.
Proof. intros. now apply prove_no_witness. Qed.
Theorem C25_empty_witness_refuted :
  exists (M : merlin G9) (hash : string -> G9) (m_init : string -> mst M) (c : lincon 17) r bl blS,
    wf_lin c /\ (exists s, flatLin hash "t" c [] = Ret s) /\
    proveLinearTag base9 M hash m_init "t" c [] r bl blS = UB.
Proof.
  exists (toyM G9 F9), (fun s => gen9 (String.length s)), (fun _ => 0%nat), (LinCon [(3, s17 5); (9, s17 7)] (s17 5)),
    (s17 8), blind, blS9.
  split; [cbn; intuition subst; cbn; lia|]. split; [eexists; reflexivity|]. apply prove_no_witness. split; cbn; lia.
Qed.
Example C25_example :
  let c := LinCon [(3, s17 5); (9, s17 7)] (s17 5) in
  let h := (fun s => gen9 (String.length s)) : string -> G9 in
  flatLin h "t" c [(3, s17 1); (8, s17 1)] = Throw /\ flatLin h "t" c [(3, s17 1)] = Throw /\
  (exists s, flatLin h "t" c [(3, s17 1); (9, s17 2)] = Ret s /\ fl_wit s = [s17 1; s17 2] /\ length (fl_gens s) = 2%nat).
Proof.
  split; [reflexivity|]. split; [reflexivity|]. eexists. split; [reflexivity|]. split; reflexivity.
Qed.
Print Assumptions C25_flatten_linear.
Print Assumptions C25_flatten_quadratic.
Print Assumptions C25_empty_witness_reads_out_of_range.
Print Assumptions C25_empty_witness_refuted.
