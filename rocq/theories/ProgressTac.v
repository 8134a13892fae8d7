(** Tactics for runs of the proof steps. *)
From Coq Require Import ZArith List Bool Lia.
From Verif Require Import Outcome RegevPfModel RegevPfSpec ProgressSpec ProgressBase.
Open Scope Z_scope.

(** Rewrites with an equation and continues after the binding. *)
Ltac bnd E := rewrite E; cbn [obind].
Ltac lens := rewrite ?map_length, ?vec_len; unfold clen, vlen; cbn [is_comp is_pad]; try lia; try nia.
Ltac com2s R c Hc st Hroom := match goal with
  |- context [com2 R c ?s ?x ?v ?r] => let s' := fresh "s" in let E1 := fresh "E" in let Sh := fresh "Sh" in
    destruct (com2_ok R c Hc st Hroom s x v r ltac:(assumption) eq_refl ltac:(lens)) as (s' & E1 & Sh); bnd E1 end.
Ltac norms R c Hc st Hroom := match goal with
  |- context [norm R c ?s ?i ?b ?x ?y] => let s' := fresh "s" in let E1 := fresh "E" in let Sh := fresh "Sh" in
    destruct (norm_ok R c Hc st Hroom s i b x y ltac:(assumption) ltac:(lia)) as (s' & E1 & Sh); bnd E1 end.
Ltac copys R c Hc st Hroom := match goal with
  |- context [copy R ?s ?x ?v] => let s' := fresh "s" in let E1 := fresh "E" in let Sh := fresh "Sh" in
    destruct (copy_ok R c Hc st Hroom s x v ltac:(assumption) eq_refl ltac:(lens)) as (s' & E1 & Sh); bnd E1 end.
(** The shape of a state that is the argument of the next operation. *)
Ltac newEl R c Hc Hlib x m Ex := match goal with |- context [newElement R ?m0 ?l] => destruct (newElement_ok R c Hc Hlib m0 l) as (x & m & Ex); bnd Ex end.
Ltac expnd R c Hc b b' L' := match goal with |- context [expand R ?s ?x ?v b] =>
  let Eb := fresh "Eb" in destruct (expand_ok R c Hc s x v b ltac:(first [assumption | apply (clear_len c Hc); assumption | apply (seteq_len c Hc); assumption])) as (b' & Eb & L'); bnd Eb end.
