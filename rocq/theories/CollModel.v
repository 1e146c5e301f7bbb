(** Model of the array, bits, numbers, object and graph builtins: src/builtins/array.cc, bits.cc, numbers.cc, objects.cc and
    graph.cc.  A builtin is a function of its (unwrapped) argument values; declarations, messages and source locations are left
    out.  An argument of the wrong type yields an EvalTypeError (src/internal.cc 451-513, [unwrap_arg]). *)
From Coq Require Import String ZArith List Bool.
From Verif Require Import Base BigIntSpec BigIntModel SMap ValueModel ValueSpec ResolverModel.
Import ListNotations.
Local Open Scope Z_scope.

(** ** array.cc *)

(** array.cc 9-27 [concat]. *)
Definition array_concat (x y : value) : res :=
  match x, y with
  | VArray a, VArray b => RVal (VArray (a ++ b))
  | _, _ => RErr EvalTypeError
  end.

(** array.cc 49-70 [reverse]. *)
Definition array_reverse (x : value) : res :=
  match x with VArray l => RVal (VArray (rev l)) | _ => RErr EvalTypeError end.

(** array.cc 88-151 [slice].  The Error nodes of ill-typed arguments are not returned: BigInt of the (empty) text of an Error node
    makes [std::stoll] throw [invalid_argument]; an Error node in place of the array has three children that are no terms. *)
Definition clamp (raw size : Z) : Z := if raw <? 0 then 0 else Z.min raw size.
Definition slice_of {A} (l : list A) (start end_ : Z) : list A :=
  firstn (Z.to_nat (end_ - start)) (skipn (Z.to_nat start) l).
Definition array_slice (arr start end_ : value) : outcome res :=
  match start, end_ with
  | VInt s, VInt e =>
      match bi_to_int s with
      | None => Ok (RErr EvalBuiltInError)
      | Some s' =>
          match bi_to_int e with
          | None => Ok (RErr EvalBuiltInError)
          | Some e' =>
              let size := match arr with VArray l => Z.of_nat (length l) | _ => 3 end in
              let b := clamp s' size in
              let n := clamp e' size in
              if n <=? b then Ok (RVal (VArray []))
              else match arr with
                   | VArray l => Ok (RVal (VArray (slice_of l b n)))
                   | _ => Ub
                   end
          end
      end
  | _, _ => Throw
  end.

(** array.cc 180-205 [flatten]. *)
Definition array_flatten (x : value) : res :=
  match x with
  | VArray l => RVal (VArray (flat_map (fun c => match c with VArray inner => inner | _ => [c] end) l))
  | _ => RErr EvalTypeError
  end.

(** ** bits.cc *)

(** The common prelude: both operands must be Int nodes and fit [int64_t]; order of the checks as in the code. *)
Definition two_ints (x y : value) (f : Z -> Z -> outcome res) : outcome res :=
  match x, y with
  | VInt a, VInt b =>
      match bi_to_int a with
      | None => Ok (RErr EvalTypeError)
      | Some i => match bi_to_int b with
                  | None => Ok (RErr EvalTypeError)
                  | Some j => f i j
                  end
      end
  | _, _ => Ok (RErr EvalTypeError)
  end.
(** [std::to_string] of an [int64_t]. *)
Definition int_res (z : Z) : outcome res := Ok (RVal (VInt (dec z))).
(** bits.cc 8-41 [and_], 149-182 [or_], 260-293 [xor_]; the C++ operators on two's complement [int64_t] are [Z.land], [Z.lor], [Z.lxor] (C++20). *)
Definition bits_and (x y : value) : outcome res := two_ints x y (fun i j => int_res (Z.land i j)).
Definition bits_or (x y : value) : outcome res := two_ints x y (fun i j => int_res (Z.lor i j)).
Definition bits_xor (x y : value) : outcome res := two_ints x y (fun i j => int_res (Z.lxor i j)).
(** bits.cc 115-133 [negate]. *)
Definition bits_negate (x : value) : outcome res :=
  match x with
  | VInt a => match bi_to_int a with None => Ok (RErr EvalTypeError) | Some i => int_res (Z.lnot i) end
  | _ => Ok (RErr EvalTypeError)
  end.
(** A [size_t] converted to [int64_t], for [BigInt(std::int64_t)]. *)
Definition to_int64 (z : Z) : Z := if z <? 2 ^ 63 then z else z - 2 ^ 64.
(** bits.cc 58-96 [lsh]: the factor is [size_t(1) << s], which is undefined for s >= 64, and is then converted to [int64_t]. *)
Definition bits_lsh (x s : value) : outcome res :=
  match x, s with
  | VInt a, VInt b =>
      match bi_to_int b with
      | None => Ok (RErr EvalTypeError)
      | Some n =>
          if n <? 0 then Ok (RErr EvalTypeError)
          else if 64 <=? n then Ub
          else Ok (RVal (VInt (bi_mul a (dec (to_int64 (2 ^ n))))))
      end
  | _, _ => Ok (RErr EvalTypeError)
  end.
(** bits.cc 199-241 [rsh]: [>>] on [int64_t] is arithmetic (C++20) and undefined for s >= 64. *)
Definition bits_rsh (x s : value) : outcome res :=
  two_ints x s (fun i n =>
    if n <? 0 then Ok (RErr EvalTypeError)
    else if 64 <=? n then Ub
    else int_res (Z.shiftr i n)).

(** ** numbers.cc *)

(** numbers.cc 27-46 and 106-134, the loops of [range] and [range_step]: collect [curr] while it is before [rhs]; [up] is the
    direction, [next] the step.  [fuel] bounds the rounds. *)
Fixpoint range_loop (fuel : nat) (up : bool) (next : str -> outcome str) (curr rhs : str) : outcome (list str * str) :=
  match fuel with
  | O => OutOfFuel
  | S n =>
      if (if up then bi_lt curr rhs else bi_gt curr rhs) then
        let! c := next curr in
        let! '(l, last) := range_loop n up next c rhs in
        Ok (curr :: l, last)
      else Ok ([], curr)
  end.
(** One round per integer between the two ends. *)
Definition range_fuel (lhs rhs : str) : nat := S (Z.to_nat (Z.abs (zval rhs - zval lhs))).
Definition vints (l : list str) : value := VArray (map VInt l).
(** numbers.cc 8-49 [range]. *)
Definition numbers_range (lhs rhs : value) : outcome res :=
  match lhs, rhs with
  | VInt a, VInt b =>
      let up := bi_lt a b in
      let! '(l, last) := range_loop (range_fuel a b) up (if up then bi_inc else bi_dec) a b in
      Ok (RVal (vints (l ++ [last])))
  | _, _ => Ok (RErr EvalTypeError)
  end.
(** numbers.cc 68-137 [range_step]. *)
Definition numbers_range_step (lhs rhs step : value) : outcome res :=
  match lhs, rhs, step with
  | VInt a, VInt b, VInt s =>
      if bi_lt s $"1" then Ok (RErr EvalBuiltInError)
      else
        let up := bi_lt a b in
        let! '(l, last) := range_loop (range_fuel a b) up (if up then (fun c => bi_add c s) else (fun c => bi_sub c s)) a b in
        Ok (RVal (vints (if bi_eq last b then l ++ [last] else l)))
  | _, _, _ => Ok (RErr EvalTypeError)
  end.

Section Objects.
Variable F : fops.
Notation key := (to_key F).

(** ** objects.cc *)

(** objects.cc 9-38 [get_keys], [get_key_set]. *)
Definition coll_keys (v : value) : option (list str) :=
  match v with
  | VArray l | VSet l => Some (map key l)
  | VObject l => Some (map (fun kv => key (fst kv)) l)
  | _ => None
  end.
Definition has_key (k : str) (ks : list str) : bool := existsb (str_eqb k) ks.

(** objects.cc 40-68 [filter] and 227-255 [remove_]. *)
Definition object_filter (o ks : value) : res :=
  match o, coll_keys ks with
  | VObject l, Some keys => RVal (VObject (filter (fun kv => has_key (key (fst kv)) keys) l))
  | _, _ => RErr EvalTypeError
  end.
Definition object_remove (o ks : value) : res :=
  match o, coll_keys ks with
  | VObject l, Some keys => RVal (VObject (filter (fun kv => negb (has_key (key (fst kv)) keys)) l))
  | _, _ => RErr EvalTypeError
  end.

(** objects.cc 192-208 [keys]: the keys are not deduplicated. *)
Definition object_keys (o : value) : res :=
  match o with VObject l => RVal (VSet (map fst l)) | _ => RErr EvalTypeError end.

(** objects.cc 98-144 [get_key].  [NodeDef::at] throws when the index is out of range. *)
Fixpoint first_item (k : str) (l : list (value * value)) : option value :=
  match l with
  | [] => None
  | (k', v) :: l' => if str_eqb (key k') k then Some v else first_item k l'
  end.
Fixpoint get_key (v : value) (ks : list value) : outcome (option value) :=
  match ks with
  | [] => Ok (Some v)
  | k :: ks' =>
      match v with
      | VObject l =>
          match first_item (key k) l with
          | Some x => get_key x ks'
          | None => Ok None
          end
      | VArray l =>
          match k with
          | VInt t =>
              match bi_to_size t with
              | None => Ok None
              | Some i => if i <? Z.of_nat (length l)
                          then match nth_error l (Z.to_nat i) with Some x => get_key x ks' | None => Throw end
                          else Throw
              end
          | _ => Ok None
          end
      | _ => Ok None
      end
  end.
(** objects.cc 146-168 [get]. *)
Definition object_get (o k default : value) : outcome res :=
  match o with
  | VObject _ =>
      let! r := get_key o (match k with VArray l => l | _ => [k] end) in
      Ok (RVal (match r with Some v => v | None => default end))
  | _ => Ok (RErr EvalTypeError)
  end.

(** objects.cc 298-336 [array_subset]: a contiguous run. *)
Fixpoint starts_with (l pre : list str) : bool :=
  match pre, l with
  | [], _ => true
  | x :: pre', y :: l' => str_eqb x y && starts_with l' pre'
  | _ :: _, [] => false
  end.
(** The search from each occurrence of the first key; it stops as soon as fewer keys remain than [sub] has. *)
Fixpoint find_run (super sub : list str) (first : str) : bool :=
  match super with
  | [] => false
  | x :: super' =>
      if str_eqb x first then
        if (length super <? length sub)%nat then false
        else if starts_with super sub then true
        else find_run super' sub first
      else find_run super' sub first
  end.
Definition array_subset (super sub : list value) : outcome bool :=
  if (length super <? length sub)%nat then Ok false
  else match map key sub with
       | [] => Ub
       | (first :: _) as s => Ok (find_run (map key super) s first)
       end.
(** objects.cc 340-378 [set_subset], [set_array_subset]. *)
Definition set_subset (super sub : list value) : bool :=
  if (length super <? length sub)%nat then false
  else forallb (fun k => has_key k (map key super)) (map key sub).

Definition is_scalar (v : value) : bool :=
  match v with VArray _ | VObject _ | VSet _ => false | _ => true end.
(** objects.cc 285-294 [to_map]: the last of several equal keys stays. *)
Definition to_map (l : list (value * value)) : list (str * value) :=
  fold_left (fun m kv => sm_set (key (fst kv)) (snd kv) m) l [].
(** objects.cc 382-448 [is_subset], [object_subset].  [fuel] bounds the nesting of the recursion, which follows the depth of
    [sub].  Two scalars are compared by key: at line 410 both have the type Scalar. *)
Fixpoint is_subset (fuel : nat) (super sub : value) : outcome bool :=
  match fuel with
  | O => OutOfFuel
  | S n =>
      match sub, super with
      | VObject lsub, VObject lsuper =>
          if (length lsuper <? length lsub)%nat then Ok false
          else
            let msuper := to_map lsuper in
            (fix go (m : list (str * value)) : outcome bool :=
               match m with
               | [] => Ok true
               | (k, v) :: m' =>
                   match sm_find k msuper with
                   | None => Ok false
                   | Some s => let! b := is_subset n s v in if b then go m' else Ok false
                   end
               end) (to_map lsub)
      | VArray lsub, VArray lsuper => array_subset lsuper lsub
      | VSet lsub, VSet lsuper => Ok (set_subset lsuper lsub)
      | VSet lsub, VArray lsuper => Ok (set_subset lsuper lsub)
      | _, _ => if is_scalar super && is_scalar sub then Ok (str_eqb (key super) (key sub)) else Ok false
      end
  end.
(** The nesting depth of objects in a value. *)
Fixpoint odepth (v : value) : nat :=
  match v with
  | VObject l => S (fold_right (fun kv n => Nat.max (odepth (snd kv)) n) O l)
  | _ => O
  end.
(** objects.cc 450-472 [subset]. *)
Definition object_subset (super sub : value) : outcome res :=
  if is_scalar super || is_scalar sub then Ok (RErr EvalTypeError)
  else let! b := is_subset (S (odepth sub)) super sub in Ok (RVal (vbool b)).

(** objects.cc 507-521 [object_union]. *)
Definition union_items (lhs rhs : list (value * value)) : list (value * value) :=
  rhs ++ filter (fun kv => negb (has_key (key (fst kv)) (map (fun kv => key (fst kv)) rhs))) lhs.
(** objects.cc 523-538 [union_]. *)
Definition object_union (a b : value) : res :=
  match a, b with VObject l, VObject r => RVal (VObject (union_items l r)) | _, _ => RErr EvalTypeError end.
(** objects.cc 566-589 [union_n]. *)
Fixpoint union_n_loop (acc : list (value * value)) (l : list value) : res :=
  match l with
  | [] => RVal (VObject acc)
  | VObject o :: l' => union_n_loop (union_items acc o) l'
  | _ :: _ => RErr EvalTypeError
  end.
Definition object_union_n (v : value) : res :=
  match v with VArray l => union_n_loop [] l | _ => RErr EvalTypeError end.

(** ** graph.cc *)

(** [NodeIndex] and [Graph] (graph.cc 8-9): maps from keys to nodes and to sorted sets of keys. *)
Definition node_index := list (str * value).
Definition graph := list (str * list str).
(** A [std::set<std::string_view>] as a sorted list of its keys. *)
Definition kset (l : list str) : list str := map fst (fold_left (fun m k => sm_set k tt m) l []).
(** graph.cc 11-20 [lookup], 22-29 [index_nodes]. *)
Definition index_first (ix : node_index) (v : value) : node_index := sm_insert (key v) v ix.
Definition index_nodes (ix : node_index) (l : list value) : node_index := fold_left (fun m v => sm_set (key v) v m) l ix.
(** graph.cc 31-59 [build_graph].  The error has no code of its own. *)
Fixpoint build_graph (edges : list (value * value)) (g : graph) (ix : node_index) : option (graph * node_index) :=
  match edges with
  | [] => Some (g, ix)
  | (src, dst) :: edges' =>
      let ix := index_first ix src in
      match dst with
      | VNull => build_graph edges' (sm_set (key src) [] g) ix
      | VArray l | VSet l =>
          build_graph edges' (sm_set (key src) (kset (map key l)) g) (fold_left index_first l ix)
      | _ => None
      end
  end.
(** graph.cc 92-114: the stack [frontier], top first.  Pushing a set at the end puts its last element on top.  [fuel] bounds the
    rounds. *)
Fixpoint reach_loop (fuel : nat) (g : graph) (frontier visited : list str) : outcome (list str) :=
  match fuel with
  | O => OutOfFuel
  | S n =>
      match frontier with
      | [] => Ok visited
      | current :: rest =>
          if has_key current visited then reach_loop n g rest visited
          else match sm_find current g with
               | None => reach_loop n g rest visited
               | Some dsts => reach_loop n g (rev dsts ++ rest) (current :: visited)
               end
      end
  end.
(** Every start node and every edge is pushed at most once. *)
Definition reach_fuel (g : graph) (initial : list str) : nat :=
  S (length initial + list_sum (map (fun e => length (snd e)) g)).
Definition index_values (ix : node_index) (ks : list str) : list value :=
  flat_map (fun k => match sm_find k ix with Some v => [v] | None => [] end) ks.
Definition start_nodes (v : value) : option (list value) := match v with VArray l | VSet l => Some l | _ => None end.
(** graph.cc 61-123 [reachable]. *)
Definition graph_reachable (g initial : value) : outcome res :=
  match g, start_nodes initial with
  | VObject edges, Some l =>
      let ix0 := index_nodes [] l in
      match build_graph edges [] ix0 with
      | None => Ok (RErr WellFormedError)
      | Some (gr, ix) =>
          let init := rev (map fst ix0) in
          let! visited := reach_loop (reach_fuel gr init) gr init [] in
          Ok (RVal (VSet (set_of F (index_values ix (kset visited)))))
      end
  | _, _ => Ok (RErr EvalTypeError)
  end.

(** graph.cc 229-317 [reachable_paths].  A path is its keys in order. *)
Definition neighbors (g : graph) (dsts path : list str) : list str :=
  filter (fun k => negb (has_key k path) && has_key k (map fst g)) dsts.
Fixpoint paths_loop (fuel : nat) (g : graph) (frontier paths : list (list str)) : outcome (list (list str)) :=
  match fuel with
  | O => OutOfFuel
  | S n =>
      match frontier with
      | [] => Ok paths
      | path :: rest =>
          match sm_find (last path []) g with
          | None => paths_loop n g rest paths
          | Some dsts =>
              match neighbors g dsts path with
              | [] => paths_loop n g rest (paths ++ [path])
              | ns => paths_loop n g (rev (map (fun k => path ++ [k]) ns) ++ rest) paths
              end
          end
      end
  end.
(** The number of rounds that a path can cause when [m] vertices are not on it. *)
Fixpoint path_cost (n m : nat) : nat := match m with O => 1 | S m' => S (n * path_cost n m') end.
Definition paths_fuel (g : graph) (initial : list str) : nat :=
  S (length initial * path_cost (length g) (length g)).
Definition graph_reachable_paths (g initial : value) : outcome res :=
  match g, start_nodes initial with
  | VObject edges, Some l =>
      let ix0 := index_nodes [] l in
      match build_graph edges [] ix0 with
      | None => Ok (RErr WellFormedError)
      | Some (gr, ix) =>
          let init := rev (map (fun kv : str * value => [fst kv]) ix0) in
          let! paths := paths_loop (paths_fuel gr (map fst ix0)) gr init [] in
          Ok (RVal (VSet (set_of F (map (fun p => VArray (index_values ix p)) paths))))
      end
  | _, _ => Ok (RErr EvalTypeError)
  end.
End Objects.
