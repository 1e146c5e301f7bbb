(** Model of the splitting of unifications into assignments and comparisons: src/dependency_graph.cc 299-322, 376-563, 748-896 and 985-1010.

    Simplified: terms are variables to be unified, scalars and arrays of such terms (objects, references, comprehensions and other expressions are
    left out, and so are the [Var] nodes that no unification binds).  Literals for the declaration of a local and the with-clauses that are
    copied to each literal are left out. *)
From Coq Require Import String ZArith List Bool Arith.
From Verif Require Import Base SMap BigIntModel ValueModel.
Import ListNotations.
Local Open Scope list_scope.

(** Names of the policy, and those of [m_scope->fresh]. *)
Inductive name := User (x : str) | Fresh (n : nat).
Definition name_eqb (a b : name) : bool :=
  match a, b with User x, User y => str_eqb x y | Fresh n, Fresh m => n =? m | _, _ => false end.

(** [UnifyVar], [Scalar] and [Array]. *)
Inductive term := TVar (x : name) | TScalar (v : value) | TArray (l : list term).

(** [ExprAssign], the comparison with [Equals], [ExprIsArray] and [ExprAssignFromArray]. *)
Inductive lit :=
| LAssign (x : name) (t : term)
| LEquals (t u : term)
| LIsArray (v : name) (n : nat)
| LFromArray (d v : name) (i : nat).

(** The graph: names with an in edge, literals in the order in which they are added, the number of the next fresh name, whether [m_error] is set.
    [dropped] is not in the program: the nested unifications whose failure is only asserted (lines 558-559). *)
Record graph := { assigned : list name; lits : list lit; next : nat; error : bool; dropped : list (term * term) }.

(** 299-308. *)
Definition is_assigned (s : graph) (x : name) : bool := existsb (name_eqb x) (assigned s).
(** 324-374, for a literal without or with an out edge. *)
Definition test (l : lit) (s : graph) : graph :=
  {| assigned := assigned s; lits := lits s ++ [l]; next := next s; error := error s; dropped := dropped s |}.
Definition bind (x : name) (l : lit) (s : graph) : graph :=
  {| assigned := x :: assigned s; lits := lits s ++ [l]; next := next s; error := error s; dropped := dropped s |}.
(** 376-400 and 402-423. *)
Definition add_assign (x : name) (t : term) (s : graph) : graph := bind x (LAssign x t) s.
Definition add_equals (t u : term) (s : graph) : graph := test (LEquals t u) s.

(** 42-60 and, on these terms, 83-140. *)
Fixpoint vars (t : term) : list name :=
  match t with TVar x => [x] | TScalar _ => [] | TArray l => flat_map vars l end.
Definition all_assigned (s : graph) (t : term) : bool := forallb (is_assigned s) (vars t).

(** 425-453.  [true]: the unification must wait. *)
Definition add_unifyvars (x y : name) (s : graph) : bool * graph :=
  if is_assigned s x then
    if is_assigned s y then (false, add_equals (TVar x) (TVar y) s) else (false, add_assign y (TVar x) s)
  else if is_assigned s y then (false, add_assign x (TVar y) s)
  else (true, s).

Definition with_fresh (s : graph) : graph :=
  {| assigned := assigned s; lits := lits s; next := S (next s); error := error s; dropped := dropped s |}.

(** 846-896 with 504-522 and 898-909: never waits on these terms. *)
Fixpoint add_term_var (t : term) (v : name) (s : graph) {struct t} : graph :=
  match t with
  | TVar x => if is_assigned s x then add_equals (TVar x) (TVar v) s else add_assign x (TVar v) s
  | TScalar c => add_equals (TScalar c) (TVar v) s
  | TArray l =>
      (fix loop (l : list term) (i : nat) (s : graph) : graph :=
         match l with
         | [] => s
         | t' :: l' =>
             let d := Fresh (next s) in
             loop l' (S i) (add_term_var t' d (bind d (LFromArray d v i) (with_fresh s)))
         end) l 0 (test (LIsArray v (length l)) s)
  end.

(** 455-502. *)
Definition add_unifyvar_term (x : name) (t : term) (s : graph) : bool * graph :=
  if all_assigned s t then
    if is_assigned s x then (false, add_equals (TVar x) t s) else (false, add_assign x t s)
  else if is_assigned s x then (false, add_term_var t x s)
  else (true, s).

Definition set_error (s : graph) : graph :=
  {| assigned := assigned s; lits := lits s; next := next s; error := true; dropped := dropped s |}.
Definition drop (t u : term) (s : graph) : graph :=
  {| assigned := assigned s; lits := lits s; next := next s; error := error s; dropped := dropped s ++ [(t, u)] |}.

(** 535-546: the scan stops at the first unassigned variable.  An element beyond the end of the right array is taken to throw, as [std::vector::at]
    does ([NodeDef::at] is Trieste's and not in the repository). *)
Fixpoint scan (s : graph) (l r : list term) : outcome bool :=
  match l with
  | [] => Ok true
  | t :: l' =>
      match r with
      | [] => Throw
      | u :: r' => if all_assigned s t && all_assigned s u then scan s l' r' else Ok false
      end
  end.

(** 748-844, 985-1010 and 524-563. *)
Fixpoint add_terms (t u : term) (s : graph) {struct t} : outcome (bool * graph) :=
  match t, u with
  | TVar x, TVar y => Ok (add_unifyvars x y s)
  | TVar x, _ => Ok (add_unifyvar_term x u s)
  | _, TVar y => Ok (add_unifyvar_term y t s)
  | TArray l, TArray r =>
      let s0 := if length l =? length r then s else set_error s in
      let! all := scan s0 l r in
      if all then Ok (false, add_equals t u s0)
      else
        let! s' :=
          (fix loop (l r : list term) (s : graph) {struct l} : outcome graph :=
             match l with
             | [] => Ok s
             | t' :: l' =>
                 match r with
                 | [] => Throw
                 | u' :: r' =>
                     let! p := add_terms t' u' s in
                     loop l' r' (if fst p then drop t' u' (snd p) else snd p)
                 end
             end) l r s0 in
        Ok (false, s')
  | _, _ => Ok (false, add_equals t u s)
  end.

(** 1012-1043: one pass over the unifications, giving those that must wait, and the passes until none is left or none was resolved. *)
Fixpoint pass (q : list (term * term)) (s : graph) : outcome (list (term * term) * graph) :=
  match q with
  | [] => Ok ([], s)
  | (t, u) :: q' =>
      let! p := add_terms t u s in
      let! r := pass q' (snd p) in
      Ok (if fst p then (t, u) :: fst r else fst r, snd r)
  end.
Fixpoint resolve (fuel : nat) (q : list (term * term)) (s : graph) : outcome graph :=
  match q with
  | [] => Ok s
  | _ =>
      match fuel with
      | O => OutOfFuel
      | S fuel' =>
          let! r := pass q s in
          if length (fst r) =? length q then Ok (set_error (snd r)) else resolve fuel' (fst r) (snd r)
      end
  end.
