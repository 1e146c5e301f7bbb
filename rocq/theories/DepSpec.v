(** What it means to order a body by its dependencies, for literals that need and bind names.  [position]s index the list of literals. *)
From Coq Require Import String List Bool.
From Verif Require Import Base DepModel.
Import ListNotations.

(** The literal at position [i] needs, or binds, a name. *)
Definition needs (L : list literal) (i : nat) (name : str) : Prop := exists l, nth_error L i = Some l /\ In name (l_in l).
Definition binds (L : list literal) (i : nat) (name : str) : Prop := exists l, nth_error L i = Some l /\ In name (l_out l).
(** Nobody binds it: it comes from outside. *)
Definition outside (L : list literal) (name : str) : Prop := forall i, ~ binds L i name.

(** No name is bound twice. *)
Definition bound_once (L : list literal) : Prop := forall i j name, binds L i name -> binds L j name -> i = j.
(** Every position comes after those that bind what it needs. *)
Definition after_binders (L : list literal) (order : list nat) : Prop :=
  forall before i after, order = before ++ i :: after -> forall name, needs L i name -> outside L name \/ exists j, In j before /\ binds L j name.
(** Positions that can be reached without going round in a circle: everything they need is outside or bound by such a position. *)
Inductive settled (L : list literal) : nat -> Prop :=
| Settled i : i < length L -> (forall name, needs L i name -> given L name) -> settled L i
with given (L : list literal) : str -> Prop :=
| Outside name : outside L name -> given L name
| Bound j name : settled L j -> binds L j name -> given L name.
(** There is no circle: positions can be numbered so that binders come before. *)
Definition acyclic (L : list literal) : Prop :=
  exists rank : nat -> nat, forall i j name, needs L i name -> binds L j name -> rank j < rank i.

(** Names of a kind the declarations of a scope do not provide for (see [C45_undeclared_argument_refuted]). *)
Definition argument_marker (name : str) : Prop := exists x, name = ($"funcarg$" ++ x ++ $"#empty")%list.
