(** Model of the splitting of a unification of two objects: src/dependency_graph.cc 587-746.

    Simplified: the keys are constants, given by their texts ([to_key]); the values are the terms of [SplitModel]. *)
From Coq Require Import String ZArith List Bool Arith.
From Verif Require Import Base SMap BigIntModel ValueModel SplitModel.
Import ListNotations.
Local Open Scope list_scope.

Definition items := list (str * term).
(** 632 and 671: [constkey_items\[key_str\] = item]. *)
Definition index (l : items) : items := fold_left (fun m kv => sm_set (fst kv) (snd kv) m) l [].

(** What was added: one comparison of both objects (693-698), or literals for the values ([true]: the unification must wait). *)
Inductive split := Compared (s : graph) | Split (wait : bool) (s : graph).

(** 703-714: the pairs of values, in the order of the keys, and whether [lhs_unresolved] has an item. *)
Fixpoint match_items (lm rm : items) (s : graph) : outcome (bool * graph) :=
  match lm with
  | [] => Ok (false, s)
  | (k, t) :: lm' =>
      match sm_find k rm with
      | None => let! p := match_items lm' rm s in Ok (true, snd p)
      | Some u => let! p := add_terms t u s in match_items lm' rm (if fst p then drop t u (snd p) else snd p)
      end
  end.
(** 729-738: items of the right object are looked up in the right object itself. *)
Definition rhs_unresolved (rm : items) : bool :=
  existsb (fun kv => match sm_find (fst kv) rm with Some _ => false | None => true end) rm.

(** 587-746.  As many items of the right object are looked at as the left one has; beyond the end is taken to throw (see [scan]). *)
Definition add_objects (l r : items) (s : graph) : outcome split :=
  let s0 := if length l =? length r then s else set_error s in
  if length r <? length l then Throw
  else
    let r' := firstn (length l) r in
    if forallb (fun kv => all_assigned s0 (snd kv)) l && forallb (fun kv => all_assigned s0 (snd kv)) r' then Ok (Compared s0)
    else
      let! p := match_items (index l) (index r') s0 in
      Ok (Split (fst p || rhs_unresolved (index r')) (snd p)).
