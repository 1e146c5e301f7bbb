(** [std::map<std::string, A>] and [std::sort] as used throughout the code: a list sorted by key in [str_ltb] order. *)
From Coq Require Import String ZArith List Bool Lia Permutation Sorted.
From Verif Require Import Base.
Import ListNotations.

(** [map::contains] / [map::find]. *)
Fixpoint sm_find {A} (k : str) (m : list (str * A)) : option A :=
  match m with
  | [] => None
  | (k', a) :: m' => if str_eqb k k' then Some a else sm_find k m'
  end.

(** [m\[k\] = a]: insert in key order, replacing an existing entry. *)
Fixpoint sm_set {A} (k : str) (a : A) (m : list (str * A)) : list (str * A) :=
  match m with
  | [] => [(k, a)]
  | (k', a') :: m' =>
      if str_ltb k k' then (k, a) :: m
      else if str_eqb k k' then (k, a) :: m'
      else (k', a') :: sm_set k a m'
  end.

(** [m.insert({k, a})]: keeps an existing entry. *)
Definition sm_insert {A} (k : str) (a : A) (m : list (str * A)) : list (str * A) :=
  match sm_find k m with Some _ => m | None => sm_set k a m end.

(** [std::sort] with a strict comparison [lt].  Insertion sort: for a strict weak order the result is determined up to
    the order of equivalent elements; for anything else [std::sort] is undefined. *)
Fixpoint insert_by {A} (lt : A -> A -> bool) (x : A) (l : list A) : list A :=
  match l with
  | [] => [x]
  | y :: l' => if lt y x then y :: insert_by lt x l' else x :: l
  end.
Definition sort_by {A} (lt : A -> A -> bool) (l : list A) : list A := fold_right (insert_by lt) [] l.

(** Separator-joined text (src/internal.hh 163-182 [join] with a writer that always returns true). *)
Fixpoint join (sep : str) (l : list str) : str :=
  match l with
  | [] => []
  | [x] => x
  | x :: l' => (x ++ sep ++ join sep l')%list
  end.
