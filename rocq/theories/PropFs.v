(** Property C106: the proofs on the actual transcript. *)
From Coq Require Import String.
From Coq Require Import ZArith List Bool Lia.
From Verif Require Import Outcome Bytes Fp GroupMod FSum Prime25519 MerlinModel MerlinSpec MerlinMore ConstraintsModel ConstraintsSpec PedersenModel BulletproofModel BulletproofSpec
  BulletproofApi BulletproofExamples FreeMod RegevPfModel RegevStSpec StepSpec TernarySpec SpongeModel FsSpec FsProofs FsMore KeccakModel PropMerlin.
Import ListNotations.
Open Scope Z_scope.

(** [f] is the permutation, [pbytes] the bytes of a point, [uniform] the point made
    of 32 bytes.  [real] is the interface of the proofs implemented by the STROBE
    transcript, [replay] one that has no transcript and reads the challenges from a
    list. *)
Section C106.
Variable f : list Z -> list Z.
Hypothesis Hf : perm_ok f.
Context {p : Z} {G : gmod p}.
Variable pbytes : G -> list Z.
Hypothesis Hpb : forall g, bytes_ok (pbytes g).
Variable uniform : list Z -> G.
Notation real := (real f Hf pbytes Hpb uniform).
Notation real_init := (real_init f Hf).
Notation replay := (@replay p G uniform).
Variable base : G.
Variable hash : string -> G.

(** Verification is the verification with the challenges of the history. *)
Theorem C106_linear tag (c : lincon p) (pf : linpf G) : Forall (fun t => 0 <= fst t < 2 ^ 31) (lterms c) ->
  length (lpLs pf) = log2roundUpN (length (lterms c)) -> length (lpRs pf) = log2roundUpN (length (lterms c)) ->
  exists outs ce, run f (lit tag) (linear_history pbytes c pf) = Ret (outs, ce) /\
    verifyLinearTag base real hash real_init tag c pf = verifyLinearTag base replay hash (fun _ => outs) tag c pf.
Proof. exact (lin_verify f Hf pbytes Hpb uniform base hash tag c pf). Qed.
Theorem C106_quadratic tag (c : quadcon p) (pf : quadpf G) :
  length (qpLs pf) = log2roundUpN (length (qidx c)) -> length (qpRs pf) = log2roundUpN (length (qidx c)) ->
  exists outs ce, run f (lit tag) (quadratic_history pbytes c pf) = Ret (outs, ce) /\
    verifyQuadraticTag base real hash real_init tag c pf = verifyQuadraticTag base replay hash (fun _ => outs) tag c pf.
Proof. exact (quad_verify f Hf pbytes Hpb uniform base hash tag c pf). Qed.
Theorem C106_norm tag idxs (q : Fp p) (pf : quadpf G) :
  length (qpLs pf) = log2roundUpN (length idxs) -> length (qpRs pf) = log2roundUpN (length idxs) ->
  exists outs ce, run f (lit tag) (norm_history pbytes (QuadCon idxs q) pf) = Ret (outs, ce) /\
    verifyNormSquared base real hash real_init tag idxs q pf = verifyNormSquared base replay hash (fun _ => outs) tag idxs q pf.
Proof. exact (norm_verify f Hf pbytes Hpb uniform base hash tag idxs q pf). Qed.
(** Proving is proving with the challenges of the history of the resulting proof,
    hence with the same challenges as the verifier. *)
Theorem C106_linear_prover tag (c : lincon p) xes r bl blS (pf : linpf G) : Forall (fun t => 0 <= fst t < 2 ^ 31) (lterms c) ->
  proveLinearTag base real hash real_init tag c xes r bl blS = Ret pf ->
  length (lpLs pf) = log2roundUpN (length (lterms c)) /\ length (lpRs pf) = log2roundUpN (length (lterms c)) /\
  exists outs ce, run f (lit tag) (linear_history pbytes c pf) = Ret (outs, ce) /\
    proveLinearTag base replay hash (fun _ => outs) tag c xes r bl blS = Ret pf.
Proof. exact (lin_prove f Hf pbytes Hpb uniform base hash tag c xes r bl blS pf). Qed.
Theorem C106_quadratic_prover tag (c : quadcon p) xs ys r bl blST blUV (pf : quadpf G) :
  proveQuadraticTag base real hash real_init tag c xs ys r bl blST blUV = Ret pf ->
  length (qpLs pf) = log2roundUpN (length (qidx c)) /\ length (qpRs pf) = log2roundUpN (length (qidx c)) /\
  exists outs ce, run f (lit tag) (quadratic_history pbytes c pf) = Ret (outs, ce) /\
    proveQuadraticTag base replay hash (fun _ => outs) tag c xs ys r bl blST blUV = Ret pf.
Proof. exact (quad_prove f Hf pbytes Hpb uniform base hash tag c xs ys r bl blST blUV pf). Qed.
Theorem C106_norm_prover tag (vec : pvec p) r bl blST blUV e (pf : quadpf G) :
  proveNormSquared base real hash tag (real_init tag) vec r bl blST blUV = Ret (e, pf) ->
  length (qpLs pf) = log2roundUpN (length vec) /\ length (qpRs pf) = log2roundUpN (length vec) /\
  exists outs ce, run f (lit tag) (norm_history pbytes (QuadCon (keys vec) e) pf) = Ret (outs, ce) /\
    proveNormSquared base replay hash tag outs vec r bl blST blUV = Ret (e, pf).
Proof. exact (norm_prove f Hf pbytes Hpb uniform base hash tag vec r bl blST blUV e pf). Qed.

(** Two transcripts with the same inputs to the permutation belong to the same tag,
    statement and proof (up to the last responses) and have the same challenges. *)
Theorem C106_binding tag tag' (c c' : lincon p) (pf pf' : linpf G) o o' ce ce' :
  (forall g h, pbytes g = pbytes h -> g = h) -> 0 < p <= 2 ^ 256 ->
  Forall (fun t => 0 <= fst t < 2 ^ 31) (lterms c) -> Forall (fun t => 0 <= fst t < 2 ^ 31) (lterms c') ->
  length (lpRs pf) = length (lpLs pf) -> length (lpRs pf') = length (lpLs pf') ->
  run f (lit tag) (linear_history pbytes c pf) = Ret (o, ce) -> run f (lit tag') (linear_history pbytes c' pf') = Ret (o', ce') ->
  log ce = log ce' -> tag = tag' /\ c = c' /\ lin_public pf = lin_public pf' /\ o = o'.
Proof. intros Hi Hp. exact (lin_binding f Hf pbytes Hpb Hi Hp tag tag' c c' pf pf' o o' ce ce'). Qed.
Theorem C106_binding_quadratic tag tag' (c c' : quadcon p) (pf pf' : quadpf G) o o' ce ce' :
  (forall g h, pbytes g = pbytes h -> g = h) -> 0 < p <= 2 ^ 256 ->
  Forall (fun i => 0 <= i < 2 ^ 64) (qidx c) -> Forall (fun i => 0 <= i < 2 ^ 64) (qidx c') ->
  length (qpRs pf) = length (qpLs pf) -> length (qpRs pf') = length (qpLs pf') ->
  run f (lit tag) (quadratic_history pbytes c pf) = Ret (o, ce) -> run f (lit tag') (quadratic_history pbytes c' pf') = Ret (o', ce') ->
  log ce = log ce' -> tag = tag' /\ c = c' /\ quad_public pf = quad_public pf' /\ o = o'.
Proof. intros Hi Hp. exact (quad_binding f Hf pbytes Hpb Hi Hp tag tag' c c' pf pf' o o' ce ce'). Qed.
Theorem C106_binding_norm tag tag' (c c' : quadcon p) (pf pf' : quadpf G) o o' ce ce' :
  (forall g h, pbytes g = pbytes h -> g = h) -> 0 < p <= 2 ^ 256 ->
  Forall (fun i => 0 <= i < 2 ^ 64) (qidx c) -> Forall (fun i => 0 <= i < 2 ^ 64) (qidx c') ->
  length (qpRs pf) = length (qpLs pf) -> length (qpRs pf') = length (qpLs pf') ->
  run f (lit tag) (norm_history pbytes c pf) = Ret (o, ce) -> run f (lit tag') (norm_history pbytes c' pf') = Ret (o', ce') ->
  log ce = log ce' -> tag = tag' /\ c = c' /\ quad_public pf = quad_public pf' /\ o = o'.
Proof. intros Hi Hp. exact (norm_binding f Hf pbytes Hpb Hi Hp tag tag' c c' pf pf' o o' ce ce'). Qed.

(** What the proofs of C82-C91 ask of the transcript. *)
Theorem C106_interface : byte_transcript (real_regev f Hf pbytes Hpb uniform) /\ exact_transcript (real_regev f Hf pbytes Hpb uniform).
Proof. split; intros m l n; [exact (proj2 (c_draw_bytes f Hf m (lit l) n (lit_bytes l)))|exact (proj1 (c_draw_bytes f Hf m (lit l) n (lit_bytes l)))]. Qed.
(** The operations on contexts are the calls: a point, a scalar, bytes are one
    message, a challenge is 64 bytes, a generator 32. *)
Theorem C106_calls (s : context) l : let one a := exec f (strobe_of s) [a] in
  (forall g, one (Append (lit l) (pbytes g)) = Ret ([], strobe_of (m_point real s l g))) /\
  (forall x : Fp p, one (Append (lit l) (le_bytes 32 (fval x))) = obind (processScalar f (strobe_of s) (lit l) (sbytes x)) (fun c => Ret ([], c))) /\
  (forall m, bytes_ok m -> one (Append (lit l) m) = Ret ([], strobe_of (rm_commit (real_regev f Hf pbytes Hpb uniform) s l m))) /\
  (exists d, one (Challenge (lit l) 64) = Ret ([d], strobe_of (snd (m_chal real s l))) /\ fst (m_chal real s l) = toF p (le_val d)) /\
  (exists d, one (Challenge (lit l) 32) = Ret ([d], strobe_of (snd (m_gen real s l))) /\ fst (m_gen real s l) = uniform d) /\
  (forall n, one (Challenge (lit l) n) = Ret ([fst (rm_bytes (real_regev f Hf pbytes Hpb uniform) s l n)], strobe_of (snd (rm_bytes (real_regev f Hf pbytes Hpb uniform) s l n)))).
Proof. exact (calls_real f Hf pbytes Hpb uniform s l). Qed.
End C106.
Print Assumptions C106_linear.
Print Assumptions C106_quadratic.
Print Assumptions C106_norm.
Print Assumptions C106_linear_prover.
Print Assumptions C106_quadratic_prover.
Print Assumptions C106_norm_prover.
Print Assumptions C106_binding.
Print Assumptions C106_binding_quadratic.
Print Assumptions C106_binding_norm.
Print Assumptions C106_interface.
Print Assumptions C106_calls.

(** With the permutation of the program. *)
Theorem C106_keccak (G : gmod P25519) (pbytes : G -> list Z) (Hpb : forall g, bytes_ok (pbytes g)) (uniform : list Z -> G) (base : G) hash tag
    (c : lincon P25519) xes r bl blS (pf : linpf G) : Forall (fun t => 0 <= fst t < 2 ^ 31) (lterms c) ->
  proveLinearTag base (real keccakf keccakf_perm_ok pbytes Hpb uniform) hash (real_init keccakf keccakf_perm_ok) tag c xes r bl blS = Ret pf ->
  exists outs ce, run keccakf (lit tag) (linear_history pbytes c pf) = Ret (outs, ce) /\
    proveLinearTag base (@replay P25519 G uniform) hash (fun _ => outs) tag c xes r bl blS = Ret pf /\
    verifyLinearTag base (real keccakf keccakf_perm_ok pbytes Hpb uniform) hash (real_init keccakf keccakf_perm_ok) tag c pf =
      verifyLinearTag base (@replay P25519 G uniform) hash (fun _ => outs) tag c pf.
Proof. exact (lin_both keccakf keccakf_perm_ok pbytes Hpb uniform base hash tag c xes r bl blS pf). Qed.
Print Assumptions C106_keccak.

(** *** An instance: a toy permutation, nine coordinates modulo 17 as bytes. *)
Definition toyf (s : list Z) : list Z := map (fun b => (13 * b + 201) mod 256) (rev s).
Lemma toyf_ok : perm_ok toyf.
Proof.
  intros s [L B]. unfold toyf. split; [now rewrite map_length, rev_length|]. unfold bytes_ok. rewrite Forall_map. apply Forall_forall. intros x _.
  apply Z.mod_pos_bound. reflexivity.
Qed.
Fixpoint coords (k : nat) : free 17 k -> list Z :=
  match k return free 17 k -> list Z with
  | O => fun _ => []
  | S k' => fun v => fval (fst v) :: coords k' (snd v)
  end.
Lemma coords_ok k : forall v, bytes_ok (coords k v).
Proof.
  induction k as [|k IH]; intros v; cbn [coords]; [constructor|]. constructor; [|apply IH].
  assert (A := fval_range 17 (fst v) eq_refl). unfold is_byte. lia.
Qed.
Lemma coords_inj k : forall v w, coords k v = coords k w -> v = w.
Proof.
  induction k as [|k IH]; intros v w E; [now destruct v, w|]. destruct v as [a v], w as [b w]. cbn [coords fst snd] in E.
  injection E as E1 E2. apply Fp_eq in E1. apply IH in E2. now subst.
Qed.
Definition uni9 (d : list Z) : G9 := gmul F9 (s17 (le_val d mod 16 + 1)).
Definition M9 : merlin G9 := real toyf toyf_ok (coords 9) (coords_ok 9) uni9.
Definition i9 : string -> mst M9 := real_init toyf toyf_ok.
Definition c9 : lincon 17 := LinCon [(3, s17 5); (4, s17 6); (9, s17 7)] (s17 5).
Definition w9 (k : Z) : Fp 17 := if k =? 3 then s17 2 else if k =? 4 then s17 3 else s17 4.
Definition h9 (s : string) : G9 := gen9 (String.length s).
(** The honest proof is made and accepted; two rounds, so the history has one
    generator and three challenges. *)
Example C106_example : exists pf outs ce,
  proveLinearTag base9 M9 h9 i9 "tag" c9 (wmap (keys (lterms c9)) w9) (s17 8) blind blS9 = Ret pf /\
  verifyLinearTag base9 M9 h9 i9 "tag" c9 pf = Ret true /\ length (lpLs pf) = 2%nat /\
  run toyf (lit "tag") (linear_history (coords 9) c9 pf) = Ret (outs, ce) /\ map (@length Z) outs = [32; 64; 64; 64]%nat /\
  verifyLinearTag base9 (@replay 17 G9 uni9) h9 (fun _ => outs) "tag" c9 pf = Ret true /\
  Forall (fun t => 0 <= fst t < 2 ^ 31) (lterms c9) /\ (forall g h, coords 9 g = coords 9 h -> g = h) /\ 0 < 17 <= 2 ^ 256.
Proof.
  assert (K : match proveLinearTag base9 M9 h9 i9 "tag" c9 (wmap (keys (lterms c9)) w9) (s17 8) blind blS9 with
              | Ret pf => is_true (verifyLinearTag base9 M9 h9 i9 "tag" c9 pf) && (length (lpLs pf) =? 2)%nat && (length (lpRs pf) =? 2)%nat
              | _ => false end = true) by (vm_compute; reflexivity).
  destruct (proveLinearTag base9 M9 h9 i9 "tag" c9 (wmap (keys (lterms c9)) w9) (s17 8) blind blS9) as [pf| | |] eqn:E; try discriminate K.
  apply andb_prop in K as [K K3]. apply andb_prop in K as [K1 K2]. apply is_true_ret in K1. apply Nat.eqb_eq in K2, K3.
  assert (I : Forall (fun t => 0 <= fst t < 2 ^ 31) (lterms c9)) by (unfold c9; cbn [lterms]; repeat constructor; cbn [fst]; lia).
  destruct (lin_both toyf toyf_ok (coords 9) (coords_ok 9) uni9 base9 h9 "tag" c9 _ _ _ _ pf I E) as (outs & ce & R & _ & V).
  exists pf, outs, ce. split; [reflexivity|]. split; [exact K1|]. split; [exact K2|]. split; [exact R|]. split.
  - rewrite (run_outs toyf toyf_ok "tag" _ outs ce (lin_history_ok (coords 9) (coords_ok 9) c9 pf) R).
    destruct pf as [C [|L1 [|L2 [|]]] [|R1 [|R2 [|]]] S a r]; try discriminate K2; try discriminate K3. reflexivity.
  - split; [exact (eq_trans (eq_sym V) K1)|]. split; [exact I|]. split; [exact (coords_inj 9)|]. split; [reflexivity|discriminate].
Qed.
