(** Vocabulary for the challenges of the proofs: which messages and challenges the
    transcript of a proof consists of, written down from the proof itself. *)
From Coq Require Import String.
From Coq Require Import ZArith List.
From Verif Require Import Outcome Bytes Fp GroupMod MerlinModel MerlinSpec ConstraintsModel PedersenModel BulletproofModel.
Import ListNotations.
Open Scope Z_scope.

Section S.
Context {p : Z} {G : gmod p}.
Variable pbytes : G -> list Z.
Variable uniform : list Z -> G.

(** The statement: a header, each term with its index as the label, the right-hand side. *)
Definition lin_calls (c : lincon p) : list call :=
  Append (lit "constraint") [] ::
  map (fun t => Append (le_bytes 8 (fst t)) (le_bytes 32 (fval (snd t)))) (lterms c) ++
  [Append (lit "b") (le_bytes 32 (fval (leq c)))].
Definition quad_calls (label : string) (c : quadcon p) : list call :=
  [Append (lit label) []; Append (lit "indexes") (concat (map (le_bytes 8) (qidx c))); Append (lit "b") (le_bytes 32 (fval (qeq c)))].
(** The halving rounds: vectors of length n, then of length the powers of two
    below, down to 2. *)
Fixpoint round_calls (n : nat) (Ls Rs : list G) : list call :=
  match Ls, Rs with
  | L :: Ls', R :: Rs' =>
      Append (lit (to_string (Z.of_nat n) ++ "L")) (pbytes L) :: Append (lit "R") (pbytes R) :: Challenge (lit "x") 64 ::
      round_calls (2 ^ length Ls') Ls' Rs'
  | _, _ => []
  end.
Definition open_calls (C : G) : list call := [Append (lit "C") (pbytes C); Challenge (lit "F") 32].
Definition linear_history (c : lincon p) (pf : linpf G) : list call :=
  lin_calls c ++ open_calls (lpC pf) ++ round_calls (length (lterms c)) (lpLs pf) (lpRs pf) ++
  [Append (lit "S") (pbytes (lpS pf)); Challenge (lit "x") 64].
Definition quad_rest (n : nat) (pf : quadpf G) : list call :=
  open_calls (qpC pf) ++ round_calls n (qpLs pf) (qpRs pf) ++
  [Append (lit "S1") (pbytes (qpS1 pf)); Append (lit "S2") (pbytes (qpS2 pf)); Challenge (lit "x") 64].
Definition quadratic_history (c : quadcon p) (pf : quadpf G) : list call :=
  quad_calls "constraint" c ++ quad_rest (length (qidx c)) pf.
(** Norm proofs: one more challenge, before the commitment. *)
Definition norm_history (c : quadcon p) (pf : quadpf G) : list call :=
  quad_calls "normSquared" c ++ [Challenge (lit "x") 64] ++ quad_rest (length (qidx c)) pf.

(** A verifier (prover) who reads the challenges from a list of byte strings and
    has no transcript: a scalar is the little-endian number reduced modulo p. *)
Definition replay : merlin G :=
  Merlin p G (list (list Z)) (fun s _ _ => s)
    (fun s _ => (toF p (le_val (hd [] s)), tl s)) (fun s _ => (uniform (hd [] s), tl s))
    (fun s _ _ => s) (fun s _ _ => s).

(** What is public in a proof apart from the last responses. *)
Definition lin_public (pf : linpf G) := (lpC pf, lpLs pf, lpRs pf, lpS pf).
Definition quad_public (pf : quadpf G) := (qpC pf, qpLs pf, qpRs pf, qpS1 pf, qpS2 pf).
End S.
