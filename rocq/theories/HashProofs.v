(** Proofs: complete proofs on the actual transcript. *)
From Coq Require Import String.
From Coq Require Import ZArith List Lia Bool.
From Verif Require Import Outcome Bytes Fp FSum GroupMod Ring MerlinModel MerlinSpec MerlinMore ConstraintsModel PedersenModel BulletproofModel
  AlgebraModel AlgebraProofs TernaryModel RegevModel RegevPfModel RegevAggModel RegevRunModel SpongeModel FsSpec FsProofs FsMore SimProofs TransSpec HashSpec.
Import ListNotations.
Open Scope Z_scope.

Section S.
Variable f : list Z -> list Z.
Hypothesis Hf : perm_ok f.
Context {p : Z} {G : gmod p}.
Variable pbytes : G -> list Z.
Hypothesis Hpb : forall g, bytes_ok (pbytes g).
Variable uniform : list Z -> G.
Notation R := (real_regev f Hf pbytes Hpb uniform).
Variable s0 : strobe.
Notation H := (hashing pbytes uniform f s0).
(** The context is the state after the history. *)
Definition reached (s : mst R) (m : mst H) : Prop :=
  exists outs, exec f s0 (history_calls pbytes (m : list (item G))) = Ret (outs, strobe_of (s : context)).

Lemma history_app (a b : list (item G)) : history_calls pbytes (a ++ b) = history_calls pbytes a ++ history_calls pbytes b.
Proof. unfold history_calls. apply flat_map_app. Qed.
Lemma exec_more c cs cs' o c1 o' c2 : exec f c cs = Ret (o, c1) -> exec f c1 cs' = Ret (o', c2) -> exec f c (cs ++ cs') = Ret (o ++ o', c2).
Proof. intros A B. rewrite exec_app, A. cbn [obind fst snd]. rewrite B. reflexivity. Qed.
Lemma reached_more (s s' : context) (m : list (item G)) i o : reached s m -> exec f (strobe_of s) (item_calls pbytes i) = Ret (o, strobe_of s') -> reached s' (m ++ [i] : list (item G)).
Proof.
  intros [outs A] B. eexists. rewrite history_app. unfold history_calls at 2. cbn [flat_map]. rewrite app_nil_r. exact (exec_more _ _ _ _ _ _ _ A B).
Qed.
Lemma answer_eq (s : context) (m : list (item G)) l n d c1 : reached s m -> exec f (strobe_of s) [Challenge (lit l) n] = Ret ([d], c1) -> answer pbytes f s0 m l n = d.
Proof. intros [outs A] B. unfold answer. rewrite (exec_more _ _ _ _ _ _ _ A B). apply last_last. Qed.
Definition calls (s : context) l := calls_real f Hf pbytes Hpb uniform s l.
Lemma one_appends (s : context) ms o X : commit_all f (strobe_of s) ms = o -> exec f (strobe_of s) (appends ms) = Ret ([], strobe_of (next o X)).
Proof. intros E. rewrite exec_appends, E, (next_ret o X) at 1. reflexivity. Qed.

Lemma real_simulates : simulates R H reached.
Proof.
  split.
  - intros s m l g K. apply (reached_more s _ m (IPoint l g) [] K). exact (proj1 (calls s l) g).
  - intros s m l K. destruct (calls s l) as (_ & _ & _ & (d & A & B) & _). split.
    + change (fst (m_chal (real f Hf pbytes Hpb uniform) s l) = toF p (le_val (answer pbytes f s0 m l 64))). rewrite B. f_equal. f_equal. symmetry. exact (answer_eq s m l 64 d _ K A).
    + exact (reached_more s _ m (IChal l) [d] K A).
  - intros s m l K. destruct (calls s l) as (_ & _ & _ & _ & (d & A & B) & _). split.
    + change (fst (m_gen (real f Hf pbytes Hpb uniform) s l) = uniform (answer pbytes f s0 m l 32)). rewrite B. f_equal. symmetry. exact (answer_eq s m l 32 d _ K A).
    + exact (reached_more s _ m (IGen l) [d] K A).
  - intros s m l con K. apply (reached_more s _ m (ILin l con) [] K).
    replace (item_calls pbytes (ILin l con)) with (appends (lin_messages (lit l) (lin_data con) (sbytes (leq con)))).
    + apply (one_appends s _ _ (lin_ok f Hf s l con)). reflexivity.
    + unfold appends, lin_messages, lin_data. cbn [item_calls map]. rewrite map_app, !map_map. cbn [map fst snd]. f_equal. f_equal.
      apply map_ext. intros t. rewrite bytesFromInt_le. reflexivity.
  - intros s m l q K. apply (reached_more s _ m (IQuad l q) [] K).
    replace (item_calls pbytes (IQuad l q)) with (appends (quad_messages (lit l) (qidx q) (sbytes (qeq q)))).
    + apply (one_appends s _ _ (quad_ok f Hf s l q)). reflexivity.
    + symmetry. exact (quad_calls_eq l q).
Qed.
Lemma real_bytes s m l n : reached s m -> crel reached (rm_bytes R s l n) (rm_bytes H m l n).
Proof.
  intros K. destruct (calls s l) as (_ & _ & _ & _ & _ & A). specialize (A n). split.
  - change (fst (rm_bytes R s l n) = answer pbytes f s0 m l n). symmetry. exact (answer_eq s m l n _ _ K A).
  - exact (reached_more s _ m (IBytes l n) _ K A).
Qed.
Lemma real_commit s m l b : reached s m -> reached (rm_commit R s l b) (rm_commit H m l b).
Proof.
  intros K. apply (reached_more s _ m (ICommit l b) [] K). cbn [item_calls exec].
  change (rm_commit R s l b) with (c_append f Hf s (lit l) (map u8 b) (lit_bytes l) (u8_ok b)). unfold c_append.
  change (map (fun z => z mod 256) b) with (map u8 b). rewrite (next_ret _ (append_ok f Hf (strobe_of s) (lit l) (map u8 b) (strobe_ok s) (lit_bytes l) (u8_ok b))) at 1. reflexivity.
Qed.
End S.
