(** Ordering the literals of a query body by what they bind and need (src/dependency_graph.cc, src/internal.hh 184-255).

    A literal is its kind and the names [update_edges] collects (src/dependency_graph.cc 145-297): the names it needs ([in_edges]) and
    the names it binds ([out_edges]), both [std::set]s, here lists in their order.  Collecting the names of an expression ([add_locals])
    and splitting a unification into assignments and tests ([add_exprs] and the functions it calls) work on the syntax tree and are not
    modelled. *)
From Coq Require Import String ZArith List Bool.
From Verif Require Import Base SMap StrModel.
Import ListNotations.
Local Open Scope nat_scope.
Local Open Scope list_scope.

(** The kinds [sort] tells apart; the first six are not part of the body (src/dependency_graph.cc 1195). *)
Inductive kind := KLocal | KScanLocal | KRuleLocal | KEveryLocal | KCapture | KStaticIsObject | KScan | KOther.
(** [LiteralNode] (src/internal.hh 194-201). *)
Record literal := mkLit { l_kind : kind; l_in : list str; l_out : list str }.
(** [LocalNode] (src/internal.hh 186-192). *)
Record local := mkLocal { captured : bool; in_edge : option nat; out_edges : list nat }.
(** [m_literals], [m_locals], [m_captures]. *)
Record graph := mkGraph { m_literals : list literal; m_locals : list (str * local); m_captures : list str }.
Definition empty_graph : graph := mkGraph [] [] [].

Definition is_capture (k : kind) : bool := match k with KCapture => true | _ => false end.

(** src/dependency_graph.cc 337-353: a name the literal [index] needs. *)
Definition add_in (index : nat) (cap : bool) (m : list (str * local)) (name : str) : list (str * local) :=
  match sm_find name m with
  | None => sm_set name (mkLocal cap None [index]) m
  | Some l => sm_set name (mkLocal (captured l || cap) (in_edge l) (out_edges l ++ [index])) m
  end.
(** src/dependency_graph.cc 355-373: a name it binds. *)
Definition add_out (index : nat) (cap : bool) (m : list (str * local)) (name : str) : list (str * local) :=
  match sm_find name m with
  | None => sm_set name (mkLocal cap (Some index) []) m
  | Some l => sm_set name (mkLocal (captured l || cap) (Some index) (out_edges l)) m
  end.
(** src/dependency_graph.cc 324-374. *)
Definition add_literal (g : graph) (l : literal) : graph :=
  let index := length (m_literals g) in
  let cap := is_capture (l_kind l) in
  mkGraph (m_literals g ++ [l]) (fold_left (add_out index cap) (l_out l) (fold_left (add_in index cap) (l_in l) (m_locals g))) (m_captures g).

(** [std::string::starts_with] and [ends_with]. *)
Definition starts_with (name prefix : str) : bool := prefixb prefix name.
Definition ends_with (name suffix : str) : bool := prefixb (rev suffix) (rev name).

(** The name a declaration binds (src/dependency_graph.cc 150-161). *)
Definition declared (k : kind) (name : str) : str :=
  match k with
  | KEveryLocal => name
  | _ => if starts_with name $"funcarg$" then name else name ++ $"#empty"
  end.

(** src/dependency_graph.cc 1045-1074, for one name of [m_locals]. *)
Definition add_capture (g : graph) (name : str) : graph :=
  match sm_find name (m_locals g) with
  | None => g
  | Some l =>
      match in_edge l with
      | Some _ => g
      | None =>
          if ends_with name $"#empty" then
            let local_name := firstn (length name - 6) name in
            let k := if starts_with local_name $"scanindex$" || starts_with local_name $"scanvalue$" then KScanLocal else KLocal in
            add_literal g (mkLit k [] [declared k local_name])
          else
            let g' := add_literal g (mkLit KCapture [] [name]) in
            mkGraph (m_literals g') (m_locals g') (m_captures g' ++ [name])
      end
  end.
(** The loop visits names in order.  A name it inserts on the way ("funcarg$x" for "funcarg$x#empty") sorts before the present one and
    is not visited, so going over the names there are at the start is the same. *)
Definition add_captures (g : graph) : graph := fold_left add_capture (map fst (m_locals g)) g.

(** ** Connected parts: src/dependency_graph.cc 1076-1157 *)

Definition neighbours_in (g : graph) (name : str) : outcome (list nat) :=
  match sm_find name (m_locals g) with
  | Some l => match in_edge l with Some j => Ok (out_edges l ++ [j]) | None => Throw end
  | None => Throw
  end.
Definition neighbours_out (g : graph) (name : str) : list nat :=
  match sm_find name (m_locals g) with Some l => out_edges l | None => [] end.
Fixpoint all_in (g : graph) (names : list str) : outcome (list nat) :=
  match names with
  | [] => Ok []
  | n :: names' => let! a := neighbours_in g n in let! b := all_in g names' in Ok (a ++ b)
  end.
(** What visiting a literal appends to the frontier. *)
Definition neighbours (g : graph) (l : literal) : outcome (list nat) :=
  let! a := all_in g (l_in l) in Ok (a ++ flat_map (neighbours_out g) (l_out l)).

Definition memb (i : nat) (l : list nat) : bool := existsb (Nat.eqb i) l.
(** The inner loop (1096-1123); the frontier is a vector taken from its back, so its head here is its back. *)
Fixpoint explore (fuel : nat) (g : graph) (frontier seen : list nat) : outcome (list nat) :=
  match fuel with
  | O => OutOfFuel
  | S fuel' =>
      match frontier with
      | [] => Ok seen
      | i :: rest =>
          if memb i seen then explore fuel' g rest seen
          else match nth_error (m_literals g) i with
               | None => Ub
               | Some l => let! next := neighbours g l in explore fuel' g (rev next ++ rest) (i :: seen)
               end
      end
  end.
(** A [std::set<size_t>], in order. *)
Definition as_set (n : nat) (seen : list nat) : list nat := filter (fun i => memb i seen) (seq 0 n).
(** The outer loop (1084-1146). *)
Fixpoint parts (fuel : nat) (g : graph) (xs visited : list nat) : outcome (list (list nat)) :=
  match xs with
  | [] => Ok []
  | x :: xs' =>
      if memb x visited then parts fuel g xs' visited
      else
        let! seen := explore fuel g [x] [] in
        let! rest := parts fuel g xs' (seen ++ visited) in
        Ok (as_set (length (m_literals g)) seen :: rest)
  end.
(** [std::sort] by the number of names a part binds for nobody; the order among equals is not determined, and [arrange] stands for
    whatever it is. *)
Definition find_graphs (fuel : nat) (arrange : list (list nat) -> list (list nat)) (g : graph) : outcome (list (list nat)) :=
  let! ps := parts fuel g (rev (seq 0 (length (m_literals g)))) [] in Ok (arrange ps).

(** ** Ordering a part: src/dependency_graph.cc 1159-1237 *)

Definition includes (big small : list str) : bool := forallb (fun n => existsb (str_eqb n) big) small.
Definition ready (g : graph) (bound : list str) (i : nat) : bool :=
  match nth_error (m_literals g) i with Some l => includes bound (l_in l) | None => false end.
Fixpoint visit (fuel : nat) (g : graph) (frontier : list nat) (bound : list str) (done : list nat) : outcome (list nat) :=
  match fuel with
  | O => OutOfFuel
  | S fuel' =>
      match frontier with
      | [] => Ok done
      | i :: rest =>
          if memb i done then visit fuel' g rest bound done
          else match nth_error (m_literals g) i with
               | None => Ub
               | Some l =>
                   let bound' := l_out l ++ bound in
                   visit fuel' g (rest ++ filter (ready g bound') (flat_map (neighbours_out g) (l_out l))) bound' (done ++ [i])
               end
      end
  end.
Definition no_needs (g : graph) (i : nat) : bool :=
  match nth_error (m_literals g) i with Some l => match l_in l with [] => true | _ => false end | None => false end.
(** The literals of a part in the order they are visited. *)
Definition order_part (fuel : nat) (g : graph) (part : list nat) : outcome (list nat) :=
  visit fuel g (filter (no_needs g) part) [] [].

(** The body that is built: literals, and the literal [true] where a query would be left empty.  A scan's query takes everything that
    comes after it, so the tree is determined by the list. *)
Inductive item := Lit (index : nat) | TrueLit.
Definition kind_at (g : graph) (i : nat) : kind := match nth_error (m_literals g) i with Some l => l_kind l | None => KOther end.
Definition in_body (k : kind) : bool :=
  match k with KLocal | KScanLocal | KRuleLocal | KEveryLocal | KCapture | KStaticIsObject => false | _ => true end.
(** The innermost query is empty: nothing yet, or a scan was the last thing put down. *)
Definition query_empty (g : graph) (body : list item) : bool :=
  match rev body with
  | [] => true
  | Lit i :: _ => match kind_at g i with KScan => true | _ => false end
  | TrueLit :: _ => false
  end.
Definition put_part (g : graph) (body : list item) (order : list nat) : list item :=
  let body' := body ++ map Lit (filter (fun i => in_body (kind_at g i)) order) in
  if query_empty g body' then body' ++ [TrueLit] else body'.
Fixpoint put_parts (fuel : nat) (g : graph) (ps : list (list nat)) (body : list item) : outcome (list item) :=
  match ps with
  | [] => Ok body
  | p :: ps' => let! order := order_part fuel g p in put_parts fuel g ps' (put_part g body order)
  end.

(** ** The whole: the constructor and [sort] (src/dependency_graph.cc 1358-1402) *)

(** The literals before [add_captures], in the order they are added: the declarations of the scope, the body, and the literals that
    unifications were resolved to. *)
Definition build (literals : list literal) : graph := add_captures (fold_left add_literal literals empty_graph).

Inductive sorting := SortErrors (unresolved : nat) | AsWritten | Sorted (body : list item).
(** [needs_sort]: the body has a unification or a scan (1256-1274).  [unresolved]: the unifications that are left. *)
Definition sort (fuel : nat) (arrange : list (list nat) -> list (list nat)) (needs_sort : bool) (unresolved : nat) (literals : list literal)
  : outcome sorting :=
  let g := build literals in
  let! ps := find_graphs fuel arrange g in
  if negb needs_sort then Ok AsWritten
  else match unresolved with
       | O => let! body := put_parts fuel g ps [] in Ok (Sorted body)
       | n => Ok (SortErrors n)
       end.

(** ** Resolving unifications: src/dependency_graph.cc 1012-1043

    [try s u] is [add_exprs] on one unification: it may add literals, and gives [true] when the unification must wait. *)
Section Resolve.
Context {S U : Type}.
Variable try : S -> U -> bool * S.
(** One pass over the queue. *)
Fixpoint pass (s : S) (queue : list U) : S * list U :=
  match queue with
  | [] => (s, [])
  | u :: queue' =>
      let '(wait, s1) := try s u in
      let '(s2, waiting) := pass s1 queue' in
      (s2, if wait then u :: waiting else waiting)
  end.
Fixpoint resolve (fuel : nat) (s : S) (queue : list U) : outcome (S * list U) :=
  match queue with
  | [] => Ok (s, [])
  | _ =>
      match fuel with
      | O => OutOfFuel
      | Datatypes.S fuel' =>
          let '(s', waiting) := pass s queue in
          if length queue =? length waiting then Ok (s', waiting) else resolve fuel' s' waiting
      end
  end.
End Resolve.
