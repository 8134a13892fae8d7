(** MerlinBPctx on the actual transcript: /repo/include/merlin.hpp 60-142 used as
    the interface of BulletproofModel.v and RegevPfModel.v.  A context is a STROBE
    state that is in good shape ([in_bounds]); that every operation succeeds on
    such a state and leaves such a state is needed for the definitions to make
    sense and is proved here.  Parameters: the permutation [f] (keccakf in the
    program), the 32 bytes of a point (Point::dataBytes, curve25519.hpp) and
    crypto_core_ed25519_from_uniform of libsodium. *)
From Coq Require Import String.
From Coq Require Import ZArith List Lia.
From Verif Require Import Outcome Bytes Fp GroupMod MerlinModel MerlinSpec MerlinMore ConstraintsModel BulletproofModel RegevPfModel.
Import ListNotations.
Open Scope Z_scope.

Record context := Ctx { strobe_of : strobe; strobe_ok : in_bounds strobe_of }.

(** The value of a computation that succeeds. *)
Definition value {A} (o : outcome A) : (exists a, o = Ret a) -> A :=
  match o with
  | Ret a => fun _ => a
  | Throw => fun H => False_rect A (match H with ex_intro _ _ E => match E in _ = b return match b with Ret _ => False | _ => True end with eq_refl => I end end)
  | UB => fun H => False_rect A (match H with ex_intro _ _ E => match E in _ = b return match b with Ret _ => False | _ => True end with eq_refl => I end end)
  | Abort => fun H => False_rect A (match H with ex_intro _ _ E => match E in _ = b return match b with Ret _ => False | _ => True end with eq_refl => I end end)
  end.
Lemma value_ret {A} (o : outcome A) H : o = Ret (value o H).
Proof. destruct o as [a| | |]; [reflexivity| | |]; destruct H; discriminate. Qed.

Section S.
Variable f : list Z -> list Z.
Hypothesis Hf : perm_ok f.

Lemma commits_ok c ms : in_bounds c -> Forall (fun x => bytes_ok (fst x) /\ bytes_ok (snd x)) ms ->
  exists c', commit_all f c ms = Ret c' /\ in_bounds c'.
Proof.
  intros Hc Hm. destruct (exec_bounds f Hf c (appends ms) Hc) as (o & c' & E & B).
  { unfold appends. rewrite Forall_map. exact Hm. }
  rewrite exec_appends in E. destruct (commit_all f c ms) as [c1| | |]; try discriminate.
  cbn in E. injection E as _ E. subst. now exists c'.
Qed.
Lemma append_ok c l m : in_bounds c -> bytes_ok l -> bytes_ok m -> exists c', commit_bytes f c l m = Ret c' /\ in_bounds c'.
Proof.
  intros Hc Hl Hm. destruct (commits_ok c [(l, m)] Hc) as (c' & E & B); [repeat constructor; assumption|].
  cbn [commit_all] in E. destruct (commit_bytes f c l m) as [c1| | |]; try discriminate. cbn in E. injection E as E. subst. now exists c'.
Qed.
Lemma draw_ok c l n : in_bounds c -> bytes_ok l -> exists d c', challenge_bytes f c l n = Ret (d, c') /\ in_bounds c' /\ length d = n /\ bytes_ok d.
Proof.
  intros Hc Hl. assert (Hk : Forall call_ok [Challenge l n]) by (repeat constructor; exact Hl).
  destruct (exec_bounds f Hf c [Challenge l n] Hc Hk) as (o & c' & E & B).
  assert (X := exec_outs f Hf _ _ _ _ E Hc Hk).
  cbn [exec] in E. destruct (challenge_bytes f c l n) as [[d c1]| | |]; try discriminate. cbn in E. injection E as E1 E2. subst.
  inversion X; subst. exists d, c'. split; [reflexivity|]. split; [exact B|assumption].
Qed.
Lemma start_ok l : bytes_ok l -> exists c', transcript_init f l = Ret c' /\ in_bounds c'.
Proof.
  intros Hl. destruct (run_ok f Hf l [] Hl (Forall_nil _)) as (o & c & E & B). unfold run in E.
  apply obind_ret_inv in E. destruct E as (c1 & E1 & E). cbn [exec] in E. injection E as _ E. subst. now exists c.
Qed.

(** The context after a computation on states that succeeds with a good state. *)
Lemma ex_ret {A} (o : outcome A) Q : (exists a, o = Ret a /\ Q a) -> exists a, o = Ret a.
Proof. intros (a & E & _). now exists a. Qed.
Lemma value_prop {A} (o : outcome A) (Q : A -> Prop) (H : exists a, o = Ret a /\ Q a) : Q (value o (ex_ret o Q H)).
Proof. assert (E := value_ret o (ex_ret o Q H)). destruct H as (a & E' & HQ). rewrite E' in E at 1. injection E as E. rewrite <- E. exact HQ. Qed.
Definition next (o : outcome strobe) (H : exists c, o = Ret c /\ in_bounds c) : context :=
  Ctx (value o (ex_ret o _ H)) (value_prop o in_bounds H).
Lemma next_ret o H : o = Ret (strobe_of (next o H)).
Proof. apply value_ret. Qed.

(** merlin_transcript_commit_bytes on a context, with a label of bytes. *)
Definition c_append (s : context) (l m : list Z) (Hl : bytes_ok l) (Hm : bytes_ok m) : context :=
  next (commit_bytes f (strobe_of s) l m) (append_ok _ l m (strobe_ok s) Hl Hm).
(** merlin_transcript_challenge_bytes. *)
Lemma draw_ok' c l n : in_bounds c -> bytes_ok l -> exists r, challenge_bytes f c l n = Ret r /\ (in_bounds (snd r) /\ length (fst r) = n /\ bytes_ok (fst r)).
Proof. intros Hc Hl. destruct (draw_ok c l n Hc Hl) as (d & c' & E & H). now exists (d, c'). Qed.
Definition c_draw (s : context) (l : list Z) (n : nat) (Hl : bytes_ok l) : list Z * context :=
  let H := draw_ok' (strobe_of s) l n (strobe_ok s) Hl in
  (fst (value _ (ex_ret _ _ H)), Ctx _ (proj1 (value_prop _ _ H))).
Lemma c_draw_ret s l n Hl : challenge_bytes f (strobe_of s) l n = Ret (fst (c_draw s l n Hl), strobe_of (snd (c_draw s l n Hl))).
Proof. unfold c_draw. cbn [fst snd strobe_of]. rewrite <- surjective_pairing. apply value_ret. Qed.
Lemma c_draw_bytes s l n Hl : length (fst (c_draw s l n Hl)) = n /\ bytes_ok (fst (c_draw s l n Hl)).
Proof. exact (proj2 (value_prop _ _ (draw_ok' (strobe_of s) l n (strobe_ok s) Hl))). Qed.

(** *** The interface *)
Context {p : Z} {G : gmod p}.
Variable pbytes : G -> list Z.            (* Point::dataBytes *)
Hypothesis Hpb : forall g, bytes_ok (pbytes g).
Variable uniform : list Z -> G.           (* crypto_core_ed25519_from_uniform *)

(** Scalar::dataBytes: the 32 bytes of the reduced value, little-endian. *)
Definition sbytes (s : Fp p) : list Z := le_bytes 32 (fval s).
Lemma sbytes_ok s : bytes_ok (sbytes s). Proof. apply le_bytes_ok. Qed.

(** A constraint as processConstraint sees it: merlin.hpp 94-106, 108-122. *)
Definition lin_data (c : lincon p) : list (Z * list Z) := map (fun t => (fst t, sbytes (snd t))) (lterms c).
Lemma lin_ok s l (c : lincon p) : exists c', processLin f (strobe_of s) (lit l) (lin_data c) (sbytes (leq c)) = Ret c' /\ in_bounds c'.
Proof.
  apply commits_ok; [apply strobe_ok|]. unfold lin_messages. constructor; [split; [apply lit_bytes|constructor]|].
  apply Forall_app. split.
  - rewrite Forall_map. apply Forall_forall. intros x Hx. split; [apply bfi_ok|].
    unfold lin_data in Hx. apply in_map_iff in Hx. destruct Hx as (t & E & _). subst x. apply sbytes_ok.
  - constructor; [split; [apply lit_bytes|apply sbytes_ok]|constructor].
Qed.
Lemma quad_ok s l (c : quadcon p) : exists c', processQuad f (strobe_of s) (lit l) (qidx c) (sbytes (qeq c)) = Ret c' /\ in_bounds c'.
Proof.
  apply commits_ok; [apply strobe_ok|]. unfold quad_messages. constructor; [split; [apply lit_bytes|constructor]|].
  constructor; [split; [apply lit_bytes|apply flat_bfi_ok]|]. constructor; [split; [apply lit_bytes|apply sbytes_ok]|constructor].
Qed.
Lemma point_ok s l g : exists c', processPoint f (strobe_of s) (lit l) (pbytes g) = Ret c' /\ in_bounds c'.
Proof. apply append_ok; [apply strobe_ok|apply lit_bytes|apply Hpb]. Qed.
Lemma challenge_ok s l : exists r, newChallenge f (strobe_of s) (lit l) = Ret r /\ (in_bounds (snd r)).
Proof. destruct (draw_ok' (strobe_of s) (lit l) 64 (strobe_ok s) (lit_bytes l)) as (r & E & H & _). now exists r. Qed.
Lemma generator_ok s l : exists r, newGenerator f (strobe_of s) (lit l) = Ret r /\ (in_bounds (snd r)).
Proof. destruct (draw_ok' (strobe_of s) (lit l) 32 (strobe_ok s) (lit_bytes l)) as (r & E & H & _). now exists r. Qed.

(** merlin.hpp 87-91 *)
Definition c_point (s : context) (l : string) (g : G) : context := next (processPoint f (strobe_of s) (lit l) (pbytes g)) (point_ok s l g).
(** 94-106 *)
Definition c_lin (s : context) (l : string) (c : lincon p) : context := next (processLin f (strobe_of s) (lit l) (lin_data c) (sbytes (leq c))) (lin_ok s l c).
(** 108-122 *)
Definition c_quad (s : context) (l : string) (c : quadcon p) : context := next (processQuad f (strobe_of s) (lit l) (qidx c) (sbytes (qeq c))) (quad_ok s l c).
(** 125-132: crypto_core_ed25519_scalar_reduce of the 64 bytes *)
Definition c_chal (s : context) (l : string) : Fp p * context :=
  let H := challenge_ok s l in (toF p (le_val (fst (value _ (ex_ret _ _ H)))), Ctx _ (value_prop _ _ H)).
(** 135-142 *)
Definition c_gen (s : context) (l : string) : G * context :=
  let H := generator_ok s l in (uniform (fst (value _ (ex_ret _ _ H))), Ctx _ (value_prop _ _ H)).

Definition real : merlin G := Merlin p G context c_point c_chal c_gen c_lin c_quad.
(** MerlinRegev, regevProofs.hpp 69-148: challenge bytes, and messages of bytes
    (unsigned char, so reduced modulo 256). *)
Lemma u8_ok m : bytes_ok (map u8 m).
Proof. unfold bytes_ok. rewrite Forall_map. apply Forall_forall. intros x _. unfold is_byte, u8. apply Z.mod_pos_bound. reflexivity. Qed.
Definition real_regev : rmerlin G :=
  RM real (fun s l n => c_draw s (lit l) n (lit_bytes l)) (fun s l m => c_append s (lit l) (map u8 m) (lit_bytes l) (u8_ok m)).
(** merlin.hpp 66-68 *)
Definition real_init (tag : string) : context := next (transcript_init f (lit tag)) (start_ok (lit tag) (lit_bytes tag)).
End S.
