(** Specification vocabulary for the virtual machine. *)
From Coq Require Import String ZArith List Bool.
From Verif Require Import Base BigIntSpec ValueModel ValueSpec ResolverModel VmModel.
Import ListNotations.
Local Open Scope Z_scope.

(** The state a run ended in, however it ended. *)
Definition final {A} (r : vres A) : state :=
  match r with Done _ s | Exn s | Fault _ s | NoFuel s => s end.

(** The number of statements that were dispatched (took effect) according to the observation log. *)
Fixpoint executed (l : list event) : Z :=
  match l with
  | [] => 0
  | EvStmt _ :: l' => 1 + executed l'
  | EvEnter _ :: l' | EvError _ :: l' => executed l'
  end.

(** Conditions that verification does not check but that compiled bundles meet:
    the key and value operands of Scan and the operands of ObjectMerge are local indices. *)
Definition is_slot (o : operand) : bool := match o_type o with TLocal | TIndex => true | _ => false end.
Fixpoint slots_ok (s : stmt) : bool :=
  let all := fix all (l : list stmt) : bool := match l with [] => true | x :: l' => slots_ok x && all l' end in
  let alls := fix alls (l : list (list stmt)) : bool := match l with [] => true | x :: l' => all x && alls l' end in
  match s with
  | Stmt ty op0 op1 _ e =>
      (match ty with SScan | SObjectMerge => is_slot op0 && is_slot op1 | _ => true end) &&
      match e with
      | Some (ExtWith _ b) | Some (ExtBlock b) => all b
      | Some (ExtBlocks bs) => alls bs
      | _ => true
      end
  end.
Definition slots_ok_block (b : block) : bool := forallb slots_ok b.

(** There are at least the two locals for input and data; names refer to existing plans and functions;
    every function has a block. *)
Definition well_made (b : bundle) : Prop :=
  (2 <= b_locals b)%N /\
  (forall n i, In (n, i) (b_name_to_func b) -> zn i < zlen (b_functions b)) /\
  (forall n i, In (n, i) (b_name_to_plan b) -> zn i < zlen (b_plans b)) /\
  (forall f, In f (b_functions b) -> f_blocks f <> [] /\ forallb slots_ok_block (f_blocks f) = true) /\
  (forall p, In p (b_plans b) -> forallb slots_ok_block (p_blocks p) = true).

(** A machine configuration: limits are not negative ([size_t]) and builtins return. *)
Definition sound_env (E : env) : Prop :=
  0 <= e_block_depth E /\ 0 <= e_call_depth E /\
  forall f b n args, e_builtin E f = Some b -> b n args <> OutOfFuel.

(** The same configuration with another statement limit. *)
Definition with_limit (limit : Z) (E : env) : env :=
  {| e_bundle := e_bundle E; e_fops := e_fops E; e_builtin := e_builtin E; e_stmt_limit := limit;
     e_call_depth := e_call_depth E; e_block_depth := e_block_depth E |}.

(** What every piece of a run respects, however it ends: the number of locals is fixed, the statement count only grows, and
    errors, results and observations are only ever added. *)
Definition later (s s' : state) : Prop :=
  s_count s <= s_count s' /\
  length (s_frame s') = length (s_frame s) /\
  (exists es, s_errors s' = s_errors s ++ es) /\
  (exists rs, s_results s' = s_results s ++ rs) /\
  (exists l, s_log s' = l ++ s_log s).

(** What a piece of a run restores when it ends normally: the call stack, the nesting of `with` and of blocks; and inside a
    `with` the function cache. *)
Definition restored (s s' : state) : Prop :=
  s_stack s' = s_stack s /\ s_nargs s' = s_nargs s /\ s_with s' = s_with s /\ s_depth s' = s_depth s /\
  (0 < s_with s -> s_cache s' = s_cache s).

(** ** Locals *)

(** The content of a local: [Some None] when it is undefined, [None] when there is no such local. *)
Definition local (s : state) (i : Z) : option (option value) := znth (s_frame s) i.

(** ** Paths into documents *)

(** The member of an object with the given string key. *)
Fixpoint assoc (k : str) (l : list (value * value)) : option value :=
  match l with
  | [] => None
  | (VString t, v) :: l' => if str_eqb t k then Some v else assoc k l'
  | _ :: l' => assoc k l'
  end.
Fixpoint at_path (d : value) (p : list str) : option value :=
  match p with
  | [] => Some d
  | k :: p' => match d with
               | VObject l => match assoc k l with Some c => at_path c p' | None => None end
               | _ => None
               end
  end.
(** All object keys are strings, as in JSON. *)
Inductive string_keyed : value -> Prop :=
| sk_object l : (forall k v, In (k, v) l -> (exists t, k = VString t) /\ string_keyed v) -> string_keyed (VObject l)
| sk_other v : (forall l, v <> VObject l) -> string_keyed v.
Definition prefix (p q : list str) : Prop := exists r, q = (p ++ r)%list.

(** [new] is [old] with the value [v] at path [p] and no other change. *)
Definition changed_at (old : option value) (p : list str) (v new : value) : Prop :=
  (forall q, at_path new (p ++ q) = at_path v q) /\
  (forall q, ~ prefix p q -> ~ prefix q p ->
     at_path new q = match old with Some d => at_path d q | None => None end).

(** ** Iteration *)

(** What iterating a collection binds: index and element, key and value, or the member twice. *)
Definition elements (v : value) : option (list (value * value)) :=
  match v with
  | VArray l => Some (combine (map (fun i => VInt (dec (Z.of_nat i))) (seq 0 (length l))) l)
  | VObject l => Some l
  | VSet l => Some (combine l l)
  | _ => None
  end.
(** Bind the key and value locals. *)
Definition bound (s : state) (k v : Z) (a b : value) : state :=
  set_frame (upd (upd (s_frame s) (Z.to_nat k) (Some a)) (Z.to_nat v) (Some b)) s.
(** The body runs once per pair, in order, as long as it ends with Continue or Undefined; any other code ends the loop. *)
Inductive iterates (body : vm code) (k v : Z) : list (value * value) -> state -> code -> state -> Prop :=
| it_end s : iterates body k v [] s CContinue s
| it_next a b l s c s1 c' s' :
    body (bound s k v a b) = Done c s1 -> c = CContinue \/ c = CUndefined ->
    iterates body k v l s1 c' s' -> iterates body k v ((a, b) :: l) s c' s'
| it_stop a b l s c s1 :
    body (bound s k v a b) = Done c s1 -> c <> CContinue -> c <> CUndefined ->
    iterates body k v ((a, b) :: l) s c s1.

(** ** Single assignment *)

(** All defined values are the same value. *)
Definition agree (F : fops) (vs : list (option value)) : Prop :=
  forall x y, In (Some x) vs -> In (Some y) vs -> veq F x y.
(** The first defined one. *)
Fixpoint first_defined (vs : list (option value)) : option value :=
  match vs with [] => None | Some x :: _ => Some x | None :: l => first_defined l end.
(** Equal keys come with equal values. *)
Definition functional (F : fops) (kvs : list (value * value)) : Prop :=
  forall k v k' v', In (k, v) kvs -> In (k', v') kvs -> veq F k k' -> veq F v v'.
(** An object with exactly the given pairs, no key twice. *)
Definition represents (F : fops) (kvs : list (value * value)) (l : list (value * value)) : Prop :=
  (forall k v, In (k, v) kvs -> exists k' v', In (k', v') l /\ veq F k k' /\ veq F v v') /\
  (forall k v, In (k, v) l -> exists k' v', In (k', v') kvs /\ veq F k k' /\ veq F v v') /\
  (forall l1 k v l2 k' v' l3, l = (l1 ++ (k, v) :: l2 ++ (k', v') :: l3)%list -> ~ veq F k k').

(** ** Merging documents *)

(** The value stored under a key, by the key's text. *)
Fixpoint look (F : fops) (k : str) (l : list (value * value)) : option value :=
  match l with
  | [] => None
  | (k', v) :: l' => if str_eqb (to_key F k') k then Some v else look F k l'
  end.
Definition collection (v : value) : bool := match v with VObject _ | VSet _ => true | _ => false end.
(** [merged a b m]: [m] has every key of both; under a shared key the two values are merged; of two values that are not both
    objects or both sets the first one stays. *)
Inductive merged (F : fops) : value -> value -> value -> Prop :=
| mg_object la lb lm :
    (forall k, look F k la = None -> look F k lm = look F k lb) ->
    (forall k, look F k lb = None -> look F k lm = look F k la) ->
    (forall k x y, look F k la = Some x -> look F k lb = Some y -> exists z, look F k lm = Some z /\ merged F x y z) ->
    merged F (VObject la) (VObject lb) (VObject lm)
| mg_set la lb lm :
    (forall x, In x lm -> In x la \/ In x lb) ->
    (forall x, In x la \/ In x lb -> exists y, In y lm /\ to_key F x = to_key F y) ->
    merged F (VSet la) (VSet lb) (VSet lm)
| mg_first a b : collection a = false -> collection b = false -> merged F a b a.
(** No key text occurs twice in an object, at any depth of objects. *)
Inductive distinct_keys (F : fops) : value -> Prop :=
| dk_object l : NoDup (map (fun kv => to_key F (fst kv)) l) -> (forall k v, In (k, v) l -> distinct_keys F v) ->
    distinct_keys F (VObject l)
| dk_other v : (forall l, v <> VObject l) -> distinct_keys F v.
(** Two documents without conflict, objects nested at most [n] deep in both. *)
Inductive compatible (F : fops) : nat -> value -> value -> Prop :=
| cp_object n la lb :
    (forall k x y, look F k la = Some x -> look F k lb = Some y -> compatible F n x y) ->
    compatible F (S n) (VObject la) (VObject lb)
| cp_set n la lb : compatible F (S n) (VSet la) (VSet lb)
| cp_scalar n a b : collection a = false -> collection b = false -> (forall c, a <> VErr c) -> compatible F (S n) a b.
(** Paths by key text. *)
Fixpoint at_keys (F : fops) (d : value) (p : list str) : option value :=
  match p with
  | [] => Some d
  | k :: p' => match d with
               | VObject l => match look F k l with Some c => at_keys F c p' | None => None end
               | _ => None
               end
  end.

(** The same outcome with another final state. *)
Definition map_state {A} (f : state -> state) (r : vres A) : vres A :=
  match r with
  | Done a s => Done a (f s)
  | Exn s => Exn (f s)
  | Fault x s => Fault x (f s)
  | NoFuel s => NoFuel (f s)
  end.

(** ** Access *)

(** [v] is what [source\[key\]] selects: the value under an equal key, the equal member, the element at the index. *)
Inductive selects (F : fops) : value -> value -> value -> Prop :=
| sel_object l k k' v : In (k', v) l -> veq F k' k -> selects F (VObject l) k v
| sel_set l k m : In m l -> veq F m k -> selects F (VSet l) k m
| sel_array l i v : nth_error l i = Some v -> selects F (VArray l) (VInt (dec (Z.of_nat i))) v.

(** Adding the values to an empty set: every value is there, nothing else is, nothing is there twice. *)
Definition set_of_values (F : fops) (vs l : list value) : Prop :=
  (forall x, In x vs -> mem F x l) /\
  (forall x, In x l -> In x vs) /\
  (forall l1 x l2 y l3, l = (l1 ++ x :: l2 ++ y :: l3)%list -> ~ veq F x y).
