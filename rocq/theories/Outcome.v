(** Outcomes of C++ computations.  [Throw] is a C++ exception, [UB] an
    operation whose behaviour the C++ standard leaves undefined, [Abort] a
    failed assert().  All three are kept apart from a normal return. *)
From Coq Require Import List.
Import ListNotations.

Inductive outcome (A : Type) : Type :=
| Ret (a : A)
| Throw
| UB
| Abort.
Arguments Ret {A} a.
Arguments Throw {A}.
Arguments UB {A}.
Arguments Abort {A}.

Definition obind {A B} (x : outcome A) (f : A -> outcome B) : outcome B :=
  match x with
  | Ret a => f a
  | Throw => Throw
  | UB => UB
  | Abort => Abort
  end.

Definition omap {A B} (f : A -> B) (x : outcome A) : outcome B :=
  obind x (fun a => Ret (f a)).

Declare Scope outcome_scope.
Delimit Scope outcome_scope with O.
Notation "'let!' x ':=' a 'in' b" := (obind a (fun x => b))
  (at level 200, x pattern, a at level 100, b at level 200) : outcome_scope.
Open Scope outcome_scope.

(** [v[i]] on a std::vector / NTL vector / array of the listed length. *)
Definition oget {A} (l : list A) (i : nat) : outcome A :=
  match nth_error l i with
  | Some a => Ret a
  | None => UB
  end.

Lemma obind_ret_inv {A B} (x : outcome A) (f : A -> outcome B) b :
  obind x f = Ret b -> exists a, x = Ret a /\ f a = Ret b.
Proof. destruct x; cbn; intros H; try discriminate. eauto. Qed.

Lemma oget_ret {A} (l : list A) i a : oget l i = Ret a <-> nth_error l i = Some a.
Proof. unfold oget. destruct (nth_error l i); split; congruence. Qed.
