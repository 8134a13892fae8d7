(** Vocabulary for the statements about what the proofs reveal. *)
From Coq Require Import ZArith List Bool.
From Verif Require Import Outcome Fp GroupMod FSum PedersenModel PedersenSpec BulletproofModel.
Import ListNotations.
Open Scope Z_scope.

Section Spec.
Context {p : Z} {G : gmod p}.
Notation F := (Fp p).
(** Every point is a multiple of [base], by exactly one scalar. *)
Definition generates (base : G) : Prop :=
  (forall g : G, exists r, gmul base r = g) /\ (forall a b, gmul base a = gmul base b -> a = b).
(** The blinding values of the first m rounds are the same. *)
Definition same_upto {A} (m : nat) (f g : nat -> A) : Prop := forall i, (i < m)%nat -> f i = g i.
(** An offset vector as the points it stands for. *)
Definition offp (gs : list G) (off : option (list F)) : G := match off with None => gzero | Some o => gdot gs o end.
Definition offlen (off : option (list F)) (n : nat) : Prop := match off with None => True | Some o => length o = n end.

(** The weights with which the halving rounds combine the entries. *)
Fixpoint weights (xs : list F) : list F :=
  match xs with [] => [1%F] | x :: xs' => weights xs' ++ map (fun v => (x * v)%F) (weights xs') end.

(** The simulators: they know the challenges xs (halving rounds) and x (last step) and
    the statement, but no witness.  L's, R's and the replies are free; S (S1) is what
    the verification equation asks for. *)
Definition simLinear (base Fg C : G) (bs : list F) (gs : list G) (eq : F) (off : option (list F))
    (xs : list F) (x : F) (Ls Rs : list G) (a r : F) : linpf G :=
  LinPf C Ls Rs
    (gadd (gadd (gadd (gmul base r) (gmul Fg (a * dot bs (weights xs))%F)) (gadd (gmul (gdot gs (weights xs)) a) (gmul (offp gs off) x)))
       (gopp (gmul (gadd (gadd C (gmul Fg eq)) (gadd (gdot Ls xs) (gdot Rs (map finv xs)))) x)))
    a r.
Definition simQuadratic (base Fg C : G) (gs hs : list G) (eq : F) (offu offv : option (list F))
    (xs : list F) (x : F) (Ls Rs : list G) (S2 : G) (a b r : F) : quadpf G :=
  QuadPf C Ls Rs
    (gadd (gmul (gadd (gadd (gadd (gadd (gmul base r) (gadd (gmul (gdot gs (weights xs)) a) (offp gs offu)))
                        (gadd (gmul (gdot hs (weights (map finv xs))) b) (offp hs offv))) (gmul Fg (a * b)%F))
                  (gopp (gadd (gadd C (gmul Fg eq)) (gadd (gdot Ls xs) (gdot Rs (map finv xs)))))) (finv x))
       (gopp (gmul S2 x)))
    S2 a b r.
End Spec.
