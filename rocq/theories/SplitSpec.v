(** What unifications and literals mean: all names have values, a unification or comparison holds if both sides have the same value, and an
    assignment if the name has the value of the term. *)
From Coq Require Import String ZArith List Bool Arith.
From Verif Require Import Base SMap BigIntModel ValueModel SplitModel.
Import ListNotations.

Definition env := name -> value.
Fixpoint eval (e : env) (t : term) : value :=
  match t with TVar x => e x | TScalar v => v | TArray l => VArray (map (eval e) l) end.
Definition unifies (e : env) (t u : term) : Prop := eval e t = eval e u.
Definition holds (e : env) (l : lit) : Prop :=
  match l with
  | LAssign x t => e x = eval e t
  | LEquals t u => eval e t = eval e u
  | LIsArray v n => exists l, e v = VArray l /\ length l = n
  | LFromArray d v i => exists l, e v = VArray l /\ nth_error l i = Some (e d)
  end.

(** Names that exist when [n] fresh names have been made. *)
Definition old (n : nat) (x : name) : Prop := match x with User _ => True | Fresh k => k < n end.
Definition old_term (n : nat) (t : term) : Prop := forall x, In x (vars t) -> old n x.
(** The same values for the names that exist. *)
Definition agree (n : nat) (e f : env) : Prop := forall x, old n x -> e x = f x.

(** A comparison of a scalar with an array, which fails whatever the names in the array stand for. *)
Definition clash (l : lit) : bool :=
  match l with LEquals (TScalar _) (TArray _) => true | LEquals (TArray _) (TScalar _) => true | _ => false end.

(** Literals in an order in which each (but for clashes) reads names with values only and gives a value only to a name without one; [a'] are the
    names that have values in the end. *)
Fixpoint runs (a : list name) (ls : list lit) (a' : list name) : Prop :=
  match ls with
  | [] => a' = a
  | LAssign x t :: ls' => (forall y, In y (vars t) -> In y a) /\ ~ In x a /\ runs (x :: a) ls' a'
  | LEquals t u :: ls' => (clash (LEquals t u) = true \/ forall y, In y (vars t ++ vars u) -> In y a) /\ runs a ls' a'
  | LIsArray v _ :: ls' => In v a /\ runs a ls' a'
  | LFromArray d v _ :: ls' => In v a /\ ~ In d a /\ runs (d :: a) ls' a'
  end.

(** A state of the graph: the names with values exist. *)
Definition sound (s : graph) : Prop := forall x, In x (assigned s) -> old (next s) x.
