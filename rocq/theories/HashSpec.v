(** Vocabulary for complete proofs on the actual transcript: the calls that the
    items of a history stand for, a transcript that is nothing but the history and
    computes challenges from it, and the history of the five steps. *)
From Coq Require Import String.
From Coq Require Import ZArith List.
From Verif Require Import Outcome Bytes Fp FSum GroupMod Ring MerlinModel MerlinSpec ConstraintsModel PedersenModel BulletproofModel AlgebraModel RegevModel RegevPfModel MainModel TransSpec.
Import ListNotations.
Open Scope Z_scope.

(** Equal outcomes, with values related by Q. *)
Definition agree {A B} (Q : A -> B -> Prop) (o : outcome A) (o' : outcome B) : Prop :=
  match o, o' with
  | Ret a, Ret b => Q a b | Throw, Throw | UB, UB | Abort, Abort => True | _, _ => False
  end.

Section S.
Context {p : Z} {G : gmod p}.
Variable pbytes : G -> list Z.
Variable uniform : list Z -> G.

(** The 8 bytes of an index that was converted to int before. *)
Definition int_bytes (i : Z) : list Z := le_bytes 8 (((i + 2 ^ 31) mod 2 ^ 32 - 2 ^ 31) mod 2 ^ 64).
Definition item_calls (i : item G) : list call :=
  match i with
  | IPoint l g => [Append (lit l) (pbytes g)]
  | ICommit l b => [Append (lit l) (map (fun z => z mod 256) b)]
  | IBytes l n => [Challenge (lit l) n]
  | IChal l => [Challenge (lit l) 64]
  | IGen l => [Challenge (lit l) 32]
  | ILin l con =>
      Append (lit l) [] :: map (fun t => Append (int_bytes (fst t)) (le_bytes 32 (fval (snd t)))) (lterms con) ++
      [Append (lit "b") (le_bytes 32 (fval (leq con)))]
  | IQuad l q => [Append (lit l) []; Append (lit "indexes") (concat (map (le_bytes 8) (qidx q))); Append (lit "b") (le_bytes 32 (fval (qeq q)))]
  end.
Definition history_calls (m : list (item G)) : list call := flat_map item_calls m.

(** The bytes of a challenge after a history, from the state s0. *)
Variable f : list Z -> list Z.
Variable s0 : strobe.
Definition answer (m : list (item G)) (l : string) (n : nat) : list Z :=
  match exec f s0 (history_calls m ++ [Challenge (lit l) n]) with Ret (outs, _) => last outs [] | _ => [] end.
(** The transcript is the list of what happened since s0. *)
Definition hashing : rmerlin G :=
  recorder (fun m l => toF p (le_val (answer m l 64))) answer (fun m l => uniform (answer m l 32)).
End S.

Section Steps.
Context {p : Z} {ell : nat} {G : gmod p}.
(** The bytes of a ternary matrix of ring elements, of a ring element. *)
Definition tern_size (n k : nat) : nat := (ell * ((n * k + 3) / 4))%nat.
Definition elt_size : nat := (bytesPerScalar p * ell)%nat.
Definition elt_bytes (e : elt p ell) : list Z := concat (map (fun i => le_bytes (bytesPerScalar p) (fval (coeff e i))) (seq 0 ell)).
Definition reply_items (z : list (elt p ell)) : list (item G) :=
  match z with [] => [] | e :: z' => ICommit "masked reply" (elt_bytes e) :: map (fun e => ICommit "" (elt_bytes e)) z' end.
(** Everything that the five steps of a proof with commitments com and masked reply
    z send and draw, in order. *)
Definition steps_items (c : cfg ell G) (com : var -> G) (z : list (elt p ell)) : list (item G) :=
  let k := Z.to_nat (kay (cgk c)) in let n := Z.to_nat (enn (cgk c)) in let t := Z.to_nat (tee (cgk c)) in
  let j := (JLDIM c / ell)%nat in
  (* decryption *)
  [IPoint "RegevDecPtxt" (com Pt1); IBytes "RegevDecX" (tern_size t j);
   IPoint "RegevDecCompHi" (com DCompHi); IPoint "RegevDecPadHi" (com DPadHi); IPoint "RegevDecCompLo" (com DCompLo); IPoint "RegevDecPadLo" (com DPadLo);
   IBytes "RegevDec" elt_size] ++
  (* encryption *)
  [IPoint "RegevEncPtxt" (com Pt2); IPoint "RegevEncRnd" (com RR);
   IBytes "RegevEncR1" (tern_size j k); IBytes "RegevEncR2" (tern_size j n); IBytes "RegevEncR3" (tern_size j k);
   IPoint "RegevEncR" (com RComp); IPoint "" (com RPad); IPoint "RegevEnc1Hi" (com EComp1Hi); IPoint "" (com EPad1Hi);
   IPoint "RegevEnc1Lo" (com EComp1Lo); IPoint "" (com EPad1Lo); IPoint "RegevEnc2Hi" (com EComp2Hi); IPoint "" (com EPad2Hi);
   IPoint "RegevEnc2Lo" (com EComp2Lo); IPoint "" (com EPad2Lo);
   IBytes "RegevEncChallenge1" elt_size; IBytes "RegevEncChallenge2" elt_size; IBytes "RegevEncChallenge3" elt_size] ++
  (* key generation *)
  [IPoint "RegevSK" (com Sk2); IBytes "RegevKeyGenR1" (tern_size k j); IBytes "RegevKeyGenR2" (tern_size k j);
   IPoint "RegevKeyGenSK" (com Sk2Comp); IPoint "" (com Sk2Pad); IPoint "RegevKGHi" (com KCompHi); IPoint "" (com KPadHi);
   IPoint "RegevKGHi" (com KCompLo); IPoint "" (com KPadLo);
   IBytes "RegevKGChallenge1" elt_size; IBytes "RegevKGChallenge2" elt_size] ++
  (* smallness *)
  [IPoint "smallnessPf" (com YY); IBytes "Smallness" (tern_size (10 * (JLDIM c + 4) / ell) (LINYDIM c / ell))] ++
  reply_items z ++ [IBytes "SmallnessChallenge" elt_size].
(** The state of a proof with another transcript. *)
Definition with_transcript {R R' : rmerlin G} (s : @pstate p ell G R) (m : mst R') : @pstate p ell G R' :=
  PS (pidx s) (pcom s) (prnd s) (plin s) (pnorm s) (plinW s) (pqG s) (pqH s) (pcomp s) (pz s) m.
End Steps.

(** The commitments that the five steps send, in order. *)
Definition sent : list var :=
  [Pt1; DCompHi; DPadHi; DCompLo; DPadLo; Pt2; RR; RComp; RPad; EComp1Hi; EPad1Hi; EComp1Lo; EPad1Lo; EComp2Hi; EPad2Hi; EComp2Lo; EPad2Lo;
   Sk2; Sk2Comp; Sk2Pad; KCompHi; KPadHi; KCompLo; KPadLo; YY].
(** The libraries and constants of main with another transcript. *)
Definition with_libs {p} {G : gmod p} {R R' : rmerlin G} (lb : libs R) (m : mst R') : libs R' :=
  Libs (l_jac lb) (l_pp lb) (l_sp lb) (l_ker lb) (l_base lb) (l_getG lb) (l_getH lb) m (l_pick lb) (l_com lb) (l_rnd lb).
