(** Model of the bundle structures (include/rego/rego.hh), of bundle verification (src/bundle.cc) and of the virtual machine
    (src/virtual_machine.cc).
    General simplifications:
    - Nodes are trees with value semantics.  The code shares nodes between locals and mutates collections in place
      (ArrayAppend, SetAdd, ObjectInsert, ObjectInsertOnce); the model mutates only the addressed local.  The two agree on
      every run in which a collection is only mutated while no other local, cache entry or result refers to it.
    - Term and Scalar wrappers are dropped; error messages and source locations are dropped, error codes are kept.
    - [assert] is taken as in a release build: it does nothing, and what follows it runs.
    - Logging is left out. *)
From Coq Require Import String ZArith List Bool.
From Verif Require Import Base BigIntSpec BigIntModel SMap ValueModel ValueSpec ResolverModel.
Import ListNotations.
Local Open Scope Z_scope.

(** ** Bundles *)

(** include/rego/rego.hh 1113-1185 [OperandType], [Operand].  [o_word] is the 64-bit content of the union. *)
Inductive operand_type := TNone | TLocal | TString | TTrue | TFalse | TIndex | TValue.
Record operand := Op { o_type : operand_type; o_word : Z }.
(** The two views of the union: [size_t index] and [int64_t value]. *)
Definition o_index (o : operand) : Z := o_word o mod 2 ^ 64.
Definition o_value (o : operand) : Z := let w := o_word o mod 2 ^ 64 in if w <? 2 ^ 63 then w else w - 2 ^ 64.

(** include/rego/rego.hh 1191-1227 [StatementType]. *)
Inductive stmt_type :=
| SNop | SArrayAppend | SAssignInt | SAssignVarOnce | SAssignVar | SBlock | SBreak | SCallDynamic | SCall | SDot | SEqual
| SIsArray | SIsDefined | SIsObject | SIsSet | SIsUndefined | SLen | SMakeArray | SMakeNull | SMakeNumberInt | SMakeNumberRef
| SMakeObject | SMakeSet | SNotEqual | SNot | SObjectInsert | SObjectInsertOnce | SObjectMerge | SResetLocal | SResultSetAdd
| SReturnLocal | SScan | SSetAdd | SWith.

(** include/rego/rego.hh 1229-1332 [Statement], [StatementExt], [Block].  The location is left out. *)
Inductive stmt := Stmt (ty : stmt_type) (op0 op1 : operand) (target : Z) (e : option ext)
with ext :=
| ExtCall (func : str) (ops : list operand)
| ExtDyn (path ops : list operand)
| ExtWith (path : list N) (body : list stmt)
| ExtBlocks (bs : list (list stmt))
| ExtBlock (b : list stmt).
Definition block := list stmt.

(** [size_t] members are [N] (their upper bound 2^64 is not modelled).
    include/rego/rego.hh 1334-1362 [Plan], [Function]; [path] is left out (never read by the machine). *)
Record plan := { p_name : str; p_blocks : list block }.
Record func := {
  f_name : str; f_arity : Z; f_params : list N; f_result : N; f_blocks : list block; f_cacheable : bool
}.

(** include/rego/rego.hh 1370-1394 [BundleDef]; [builtin_functions], [files] and [query] are not read by the machine. *)
Record bundle := {
  b_data : value;
  b_name_to_func : list (str * N);
  b_name_to_plan : list (str * N);
  b_plans : list plan;
  b_functions : list func;
  b_strings : list str;
  b_locals : N;
  b_query_plan : option N
}.

(** ** Verification: src/bundle.cc 11-208 and 1007-1063.  [Throw] is the exception reporting a malformed bundle. *)

Notation zn := Z.of_N.
Definition zlen {A} (l : list A) : Z := Z.of_nat (length l).
Definition require (b : bool) : outcome unit := if b then Ok tt else Throw.
Fixpoint each {A} (f : A -> outcome unit) (l : list A) : outcome unit :=
  match l with
  | [] => Ok tt
  | x :: l' => let! u := f x in each f l'
  end.
(** [std::vector::operator\[\]]: undefined out of range. *)
Definition znth {A} (l : list A) (i : Z) : option A :=
  if (0 <=? i) && (i <? zlen l) then nth_error l (Z.to_nat i) else None.

(** src/bundle.cc 11-45. *)
Definition verify_operand (b : bundle) (o : operand) : outcome unit :=
  match o_type o with
  | TLocal => require (o_index o <? zn (b_locals b))
  | TString => require (o_index o <? zlen (b_strings b))
  | TIndex => require (o_index o <? zn (b_locals b))
  | _ => Ok tt
  end.

(** src/bundle.cc 55-76: statement types whose target is not checked. *)
Definition ignores_target (ty : stmt_type) : bool :=
  match ty with
  | SEqual | SNotEqual | SIsObject | SIsArray | SIsSet | SBlock | SNot | SBreak | SNop => true
  | _ => false
  end.

(** src/bundle.cc 49-200 and 202-208.  A wrong alternative of the variant makes [std::get] throw. *)
Fixpoint verify_stmt (b : bundle) (s : stmt) : outcome unit :=
  let verify_block := fix vb (l : list stmt) : outcome unit :=
    match l with [] => Ok tt | x :: l' => let! u := verify_stmt b x in vb l' end in
  let verify_blocks := fix vbs (l : list (list stmt)) : outcome unit :=
    match l with [] => Ok tt | x :: l' => let! u := verify_block x in vbs l' end in
  match s with
  | Stmt ty op0 op1 target e =>
      let! u := require (ignores_target ty || ((0 <=? target) && (target <? zn (b_locals b)))) in
      let! u := verify_operand b op0 in
      let! u := verify_operand b op1 in
      let! u := match ty with
                | SMakeNumberRef => require (o_index op0 <? zlen (b_strings b))
                | SBreak => require (o_index op0 <? 256)
                | _ => Ok tt
                end in
      match ty, e with
      | (SBlock | SNot | SScan | SCall | SCallDynamic | SWith), None => Throw
      | SBlock, Some (ExtBlocks bs) => verify_blocks bs
      | (SNot | SScan), Some (ExtBlock bl) => verify_block bl
      | SCall, Some (ExtCall f ops) =>
          let! u := each (verify_operand b) ops in
          match sm_find f (b_name_to_func b) with
          | None => Ok tt
          | Some i => match znth (b_functions b) (zn i) with
                      | None => Ub
                      | Some callee => require (zlen (f_params callee) <=? zlen ops)
                      end
          end
      | SCallDynamic, Some (ExtDyn path ops) =>
          let! u := each (verify_operand b) path in each (verify_operand b) ops
      | SWith, Some (ExtWith path body) =>
          let! u := verify_block body in
          each (fun i => require (zn i <? zlen (b_strings b))) path
      | (SBlock | SNot | SScan | SCall | SCallDynamic | SWith), Some _ => Throw
      | _, _ => Ok tt
      end
  end.
Definition verify_block (b : bundle) (l : block) : outcome unit := each (verify_stmt b) l.

(** src/bundle.cc 1007-1063. *)
Definition verify_function (b : bundle) (f : func) : outcome unit :=
  let! u := require (2 <=? zlen (f_params f)) in
  let! u := each (fun p => require (zn p <? zn (b_locals b))) (f_params f) in
  let! u := require (zn (f_result f) <? zn (b_locals b)) in
  each (verify_block b) (f_blocks f).
Definition verify (b : bundle) : outcome unit :=
  let! u := match b_query_plan b with None => Ok tt | Some i => require (zn i <? zlen (b_plans b)) end in
  let! u := each (verify_function b) (b_functions b) in
  each (fun p => each (verify_block b) (p_blocks p)) (b_plans b).

(** ** The machine's state: include/rego/rego.hh 1564-1609. *)

(** Observations, not part of the code: every dispatched statement, every function entered, with the call stack, and every error
    raised. *)
Inductive event :=
| EvStmt (s : stmt)
| EvEnter (stack : list str)
| EvError (code : str).

Record state := {
  s_frame : list (option value);          (* m_frame; None is nullptr *)
  s_errors : list str;                    (* m_errors, by code *)
  s_stack : list str;                     (* m_call_stack, innermost first *)
  s_nargs : list Z;                       (* m_num_args, innermost first *)
  s_cache : list (str * option value);    (* m_function_cache; the result may be Undefined *)
  s_results : list (option value);        (* m_result_set; may contain Undefined *)
  s_with : Z;                             (* m_with_count *)
  s_break : Z;                            (* m_break_count *)
  s_count : Z;                            (* m_stmt_count *)
  s_depth : Z;                            (* m_block_depth *)
  s_log : list event                      (* observation, newest first *)
}.

Definition set_frame fr (s : state) : state :=
  {| s_frame := fr; s_errors := s_errors s; s_stack := s_stack s; s_nargs := s_nargs s; s_cache := s_cache s;
     s_results := s_results s; s_with := s_with s; s_break := s_break s; s_count := s_count s; s_depth := s_depth s;
     s_log := s_log s |}.
Definition set_errors e (s : state) : state :=
  {| s_frame := s_frame s; s_errors := e; s_stack := s_stack s; s_nargs := s_nargs s; s_cache := s_cache s;
     s_results := s_results s; s_with := s_with s; s_break := s_break s; s_count := s_count s; s_depth := s_depth s;
     s_log := s_log s |}.
Definition set_stack st na (s : state) : state :=
  {| s_frame := s_frame s; s_errors := s_errors s; s_stack := st; s_nargs := na; s_cache := s_cache s;
     s_results := s_results s; s_with := s_with s; s_break := s_break s; s_count := s_count s; s_depth := s_depth s;
     s_log := s_log s |}.
Definition set_cache c (s : state) : state :=
  {| s_frame := s_frame s; s_errors := s_errors s; s_stack := s_stack s; s_nargs := s_nargs s; s_cache := c;
     s_results := s_results s; s_with := s_with s; s_break := s_break s; s_count := s_count s; s_depth := s_depth s;
     s_log := s_log s |}.
Definition set_results r (s : state) : state :=
  {| s_frame := s_frame s; s_errors := s_errors s; s_stack := s_stack s; s_nargs := s_nargs s; s_cache := s_cache s;
     s_results := r; s_with := s_with s; s_break := s_break s; s_count := s_count s; s_depth := s_depth s;
     s_log := s_log s |}.
Definition set_counts w b c d (s : state) : state :=
  {| s_frame := s_frame s; s_errors := s_errors s; s_stack := s_stack s; s_nargs := s_nargs s; s_cache := s_cache s;
     s_results := s_results s; s_with := w; s_break := b; s_count := c; s_depth := d; s_log := s_log s |}.
Definition add_log e (s : state) : state :=
  {| s_frame := s_frame s; s_errors := s_errors s; s_stack := s_stack s; s_nargs := s_nargs s; s_cache := s_cache s;
     s_results := s_results s; s_with := s_with s; s_break := s_break s; s_count := s_count s; s_depth := s_depth s;
     s_log := e :: s_log s |}.

(** How the code can leave the defined world: an index outside a vector, a null pointer, a tree of the wrong shape, an
    uninitialised variable. *)
Inductive fault := OutOfRange | NullDeref | BadTree | Uninitialised.

(** Computations on the state.  [Exn] is a C++ exception leaving the machine; src/interpreter.cc 431-460 turns it into
    an Error node. *)
Inductive vres (A : Type) :=
| Done (a : A) (s : state)
| Exn (s : state)
| Fault (f : fault) (s : state)
| NoFuel (s : state).
Arguments Done {A} a s.
Arguments Exn {A} s.
Arguments Fault {A} f s.
Arguments NoFuel {A} s.
Definition vm (A : Type) := state -> vres A.

Definition ret {A} (a : A) : vm A := fun s => Done a s.
Definition exn {A} : vm A := fun s => Exn s.
Definition fault_ {A} (f : fault) : vm A := fun s => Fault f s.
Definition bind {A B} (m : vm A) (k : A -> vm B) : vm B :=
  fun s => match m s with
           | Done a s' => k a s'
           | Exn s' => Exn s'
           | Fault f s' => Fault f s'
           | NoFuel s' => NoFuel s'
           end.
Notation "'do!' x ':=' m 'in' k" := (bind m (fun x => k))
  (at level 200, x name, m at level 200, k at level 200, right associativity).
Definition get {A} (f : state -> A) : vm A := fun s => Done (f s) s.
Definition modify (f : state -> state) : vm unit := fun s => Done tt (f s).
(** A vector element, or out of range. *)
Definition vnth {A} (l : list A) (i : Z) : vm A :=
  match znth l i with Some a => ret a | None => fault_ OutOfRange end.
(** An outcome of one of the value functions. *)
Definition lift {A} (o : outcome A) : vm A :=
  match o with Ok a => ret a | Throw => exn | Ub => fault_ BadTree | OutOfFuel => fun s => NoFuel s end.

(** src/virtual_machine.cc 226-240. *)
Definition read_local (i : Z) : vm (option value) := do! fr := get s_frame in vnth fr i.

Fixpoint upd {A} (l : list A) (n : nat) (a : A) : list A :=
  match l, n with
  | [], _ => []
  | _ :: l', O => a :: l'
  | x :: l', S n' => x :: upd l' n' a
  end.
(** src/virtual_machine.cc 242-273 and 287-294: writing Undefined resets the local. *)
Definition write_local (i : Z) (v : option value) : vm unit :=
  do! fr := get s_frame in
  if (0 <=? i) && (i <? zlen fr) then modify (set_frame (upd fr (Z.to_nat i) v)) else fault_ OutOfRange.

(** src/virtual_machine.cc 275-289. *)
Definition is_defined (i : Z) : vm bool :=
  do! v := read_local i in ret (match v with Some _ => true | None => false end).

(** src/virtual_machine.cc 194-224. *)
Definition add_error (code : str) : vm unit := 
  modify (fun s => add_log (EvError code) (set_errors (s_errors s ++ [code])%list s)).

(** include/rego/rego.hh 1553-1562. *)
Inductive code := CBreak | CContinue | CUndefined | CMultipleOutputs | CReturn | CTimeout | CError.

Definition RecursionError : str := $"rego_recursion_error".
Definition TimeoutError : str := $"timeout_error".

Definition size_max : Z := 2 ^ 64.

(** A statement type, the builtins and the limits the machine is configured with.
    [e_builtin f] is [Some b] when [f] is a builtin (src/builtins.cc [is_builtin]); [b n args] is the node [call] returns for
    it (151-195) in a run that has executed [n] statements: the statement count stands for everything a builtin may depend on
    besides its arguments (clock, random generator, its own caches). *)
Record env := {
  e_bundle : bundle;
  e_fops : fops;
  e_builtin : str -> option (Z -> list (option value) -> outcome (option value));
  e_stmt_limit : Z;
  e_call_depth : Z;
  e_block_depth : Z
}.

Section Machine.
Variable E : env.
Notation B := (e_bundle E).
Notation F := (e_fops E).

(** [to_key] of a node that may be Undefined (src/encoding.cc 146-149). *)
Definition node_key (v : option value) : str :=
  match v with Some x => to_key F x | None => $"undefined" end.

(** src/virtual_machine.cc 296-323.  Strings get their text as stored in the bundle, which may be quoted
    (src/internal.cc 164-184 makes the quotes irrelevant). *)
Definition strip_quotes (t : str) : str := if is_quoted t then removelast (tl t) else t.
Definition unpack_operand (o : operand) : vm (option value) :=
  match o_type o with
  | TLocal => read_local (o_index o)
  | TString => do! t := vnth (b_strings B) (o_index o) in ret (Some (VString (strip_quotes t)))
  | TFalse => ret (Some VFalse)
  | TTrue => ret (Some VTrue)
  | TIndex | TValue | TNone => exn
  end.
Fixpoint unpack_operands (l : list operand) : vm (list (option value)) :=
  match l with
  | [] => ret []
  | o :: l' => do! v := unpack_operand o in do! vs := unpack_operands l' in ret (v :: vs)
  end.

(** src/virtual_machine.cc 1486-1509 [to_term]: Undefined becomes an Error node. *)
Definition to_term (v : option value) : value :=
  match v with Some x => x | None => VErr WellFormedError end.

(** The number of children of a node. *)
Definition node_size (v : option value) : Z :=
  match v with
  | Some (VArray l) | Some (VSet l) => zlen l
  | Some (VObject l) => zlen l
  | Some (VErr _) => 3
  | _ => 0
  end.

(** src/internal.hh 300-350 [to_uint32] on the text of a number: digits only (white space and '+', which [std::stoul] skips, do
    not occur in number texts), at most 2^32-1. *)
Definition to_uint32 (t : str) : option Z :=
  match t with
  | [] => None
  | _ => if forallb is_digit t then
           let n := zval t in if n <=? 2 ^ 32 - 1 then Some n else None
         else None
  end.

(** src/virtual_machine.cc 1141-1218 [dot]; [None] is nullptr. *)
Fixpoint find_item (k : str) (l : list (value * value)) : option value :=
  match l with
  | [] => None
  | (k', v) :: l' => if str_eqb (to_key F k') k then Some v else find_item k l'
  end.
Definition dot (source key : option value) : option value :=
  match source with
  | Some (VObject l) => find_item (node_key key) l
  | Some (VSet l) => find (fun m => str_eqb (to_key F m) (node_key key)) l
  | Some (VArray l) =>
      match key with
      | Some (VInt t) | Some (VFloat t) =>
          match to_uint32 t with Some i => znth l i | None => None end
      | _ => None
      end
  | _ => None
  end.

(** src/virtual_machine.cc 1416-1438 [merge_sets]. *)
Definition merge_sets (a b : list value) : list value :=
  a ++ filter (fun x => negb (existsb (str_eqb (to_key F x)) (map (to_key F) a))) b.

(** src/virtual_machine.cc 1343-1414 [merge_objects].  [fuel] is 256 - depth.  [VErr] is the Error node returned.
    The first loop keeps the last of the members of [a] with equal keys, [items\[key\] = ...]. *)
Fixpoint merge_objects (fuel : nat) (a b : value) : value :=
  match fuel with
  | O => VErr EvalConflictError
  | S n =>
      match a, b with
      | VObject la, VObject lb =>
          let items0 := fold_left (fun m (kv : value * value) => sm_set (to_key F (fst kv)) kv m) la [] in
          let go := fix go (l : list (value * value)) (items : list (str * (value * value))) : value :=
            match l with
            | [] => VObject (map snd items)
            | (k, v) :: l' =>
                match sm_find (to_key F k) items with
                | Some (_, old) =>
                    match merge_objects n old v with
                    | VErr c => VErr c
                    | m => go l' (sm_set (to_key F k) (k, m) items)
                    end
                | None => go l' (sm_set (to_key F k) (k, v) items)
                end
            end in
          go lb items0
      | VSet la, VSet lb => VSet (merge_sets la lb)
      | (VObject _ | VSet _), _ => VErr EvalConflictError
      | _, (VObject _ | VSet _) => VErr EvalConflictError
      | _, _ => a
      end
  end.
(** On nodes that may be Undefined: neither is then an Object or Set, or the other one conflicts. *)
Definition merge_nodes (a b : option value) : option value :=
  match a, b with
  | Some x, Some y => Some (merge_objects 256 x y)
  | None, Some (VObject _ | VSet _) => Some (VErr EvalConflictError)
  | Some (VObject _ | VSet _), None => Some (VErr EvalConflictError)
  | _, _ => a
  end.

(** src/virtual_machine.cc 1440-1484 [insert_into_object]; [None] is the result [true] (an error). *)
Fixpoint replace_item (k : str) (v : value) (l : list (value * value)) : option (list (value * value)) :=
  match l with
  | [] => None
  | (k', v') :: l' =>
      if str_eqb k (to_key F k') then Some ((k', v) :: l')
      else match replace_item k v l' with Some l'' => Some ((k', v') :: l'') | None => None end
  end.
Definition insert_into_object (object key v : option value) (once : bool) : option value :=
  match object with
  | Some (VObject l) =>
      match find_item (node_key key) l with
      | Some old =>
          if once && negb (str_eqb (to_key F old) (node_key v)) then None
          else match replace_item (node_key key) (to_term v) l with Some l' => Some (VObject l') | None => None end
      | None => Some (VObject (l ++ [(to_term key, to_term v)]))
      end
  | _ => None
  end.

(** src/virtual_machine.cc 1268-1341 [write_and_swap], the loop over a non-empty path, [doc] being the node [current].
    At the root [current->parent()] is null. *)
Fixpoint find_member (k : str) (l : list (value * value)) : option value :=
  match l with
  | [] => None
  | (k', v) :: l' => if str_eqb (strip_quotes (to_key F k')) k then Some v else find_member k l'
  end.
Fixpoint set_member (k : str) (v : value) (l : list (value * value)) : list (value * value) :=
  match l with
  | [] => [(VString (strip_quotes k), v)]
  | (k', v') :: l' => if str_eqb (strip_quotes (to_key F k')) k then (k', v) :: l' else (k', v') :: set_member k v l'
  end.
Fixpoint write_path (doc : value) (path : list str) (v : value) : value :=
  match path with
  | [] => v
  | k :: path' =>
      let l := match doc with VObject l => l | _ => [] end in
      let child := match path' with
                   | [] => v
                   | _ => write_path (match find_member k l with Some c => c | None => VObject [] end) path' v
                   end in
      VObject (set_member k child l)
  end.
Fixpoint path_strings (l : list N) : vm (list str) :=
  match l with
  | [] => ret []
  | x :: l' => do! t := vnth (b_strings B) (zn x) in do! ts := path_strings l' in ret (t :: ts)
  end.
Definition write_and_swap (i : Z) (path : list N) (v : option value) : vm (option value) :=
  do! old := read_local i in
  match path with
  | [] => do! u := write_local i v in ret old
  | _ =>
      do! ks := path_strings path in
      match old with
      | Some (VObject _) | None =>
          let doc := match old with Some d => d | None => VObject [] end in
          do! u := write_local i (Some (write_path doc ks (to_term v))) in ret old
      | Some _ => fault_ NullDeref
      end
  end.

(** src/resolver.cc 384-421 [boolinfix] with Equals on nodes: an Undefined operand gives False, an Error operand itself. *)
Definition as_res (v : option value) : res :=
  match v with None => RUndef | Some (VErr c) => RErr c | Some x => RVal x end.
Definition equals (a b : option value) : vm res := lift (boolinfix F OpEq (as_res a) (as_res b)).

(** The regular expression of src/virtual_machine.cc 54: an optional '-', then "0" or digits not starting with 0. *)
Definition int_regex (t : str) : bool :=
  let u := match t with c :: t' => if c =? 45 then t' else t | [] => [] end in
  match u with
  | [] => false
  | [c] => is_digit c
  | c :: _ => negb (c =? 48) && forallb is_digit u
  end.

(** src/virtual_machine.cc 595-754 [run_call]; [rb] is [run_block]. *)
Section Calls.
Variable rb : block -> vm code.

(** Lines 706-728: the blocks of a function run until one returns, breaks or fails. *)
Fixpoint run_blocks (l : list block) (c : code) : vm code :=
  match l with
  | [] => ret c
  | bl :: l' =>
      do! c' := rb bl in
      match c' with
      | CReturn | CBreak | CError => ret c'
      | _ => run_blocks l' c'
      end
  end.

Fixpoint write_params (params : list N) (args : list operand) : vm unit :=
  match params with
  | [] => ret tt
  | p :: ps =>
      match args with
      | [] => fault_ OutOfRange
      | a :: args' => do! v := unpack_operand a in do! u := write_local (zn p) v in write_params ps args'
      end
  end.

Definition run_call (fn : str) (args : list operand) (target : Z) : vm code :=
  do! stack := get s_stack in
  if existsb (str_eqb fn) stack then exn else
  match e_builtin E fn with
  | Some f =>
      do! vs := unpack_operands args in
      do! n := get s_count in
      do! v := lift (f n vs) in
      do! u := write_local target v in
      match v with
      | Some (VErr c) => do! u := add_error c in ret CError
      | _ => ret CContinue
      end
  | None =>
      match sm_find fn (b_name_to_func B) with
      | None => exn
      | Some i =>
          do! fu := vnth (b_functions B) (zn i) in
          do! w := get s_with in
          do! cache := get s_cache in
          match (if 0 <? w then None else sm_find (f_name fu) cache) with
          | Some cached =>
              do! u := write_local target cached in
              ret (match cached with Some (VErr _) => CError | _ => CContinue end)
          | None =>
              if zlen args <? zlen (f_params fu) then do! u := add_error EvalBuiltInError in ret CError
              else
              do! u := write_params (skipn 2 (f_params fu)) (skipn 2 args) in
              if e_call_depth E <=? zlen stack then do! u := add_error RecursionError in ret CError
              else
              do! u := modify (fun s => add_log (EvEnter (fn :: s_stack s))
                                          (set_stack (fn :: s_stack s) (f_arity fu :: s_nargs s) s)) in
              match f_blocks fu with
              | [] => fault_ Uninitialised
              | bs =>
                  do! c := run_blocks bs CContinue in
                  do! u := modify (fun s => set_stack (tl (s_stack s)) (tl (s_nargs s)) s) in
                  match c with
                  | CReturn =>
                      do! v := read_local (zn (f_result fu)) in
                      do! u := write_local target v in
                      do! u := modify (fun s => if f_cacheable fu && negb (0 <? s_with s)
                                                then set_cache (sm_set (f_name fu) v (s_cache s)) s else s) in
                      match v with
                      | Some (VErr c) => do! u := add_error c in ret CError
                      | _ => ret CContinue
                      end
                  | CBreak => ret CBreak
                  | _ => ret CUndefined
                  end
              end
          end
      end
  end.

(** src/virtual_machine.cc 1220-1266 [run_scan]: the (key, value) pairs an iteration over a node binds. *)
Fixpoint array_pairs (i : Z) (l : list value) : list (value * value) :=
  match l with [] => [] | x :: l' => (VInt (dec i), x) :: array_pairs (i + 1) l' end.
Fixpoint scan_loop (l : list (value * value)) (k v : Z) (body : block) : vm code :=
  match l with
  | [] => ret CContinue
  | (a, b) :: l' =>
      do! u := write_local k (Some a) in
      do! u := write_local v (Some b) in
      do! c := rb body in
      match c with
      | CContinue | CUndefined => scan_loop l' k v body
      | _ => ret c
      end
  end.
(** [std::get<Block>(ext->contents)]; a null [ext] is dereferenced. *)
Definition ext_block (e : option ext) : vm block :=
  match e with Some (ExtBlock b) => ret b | Some _ => exn | None => fault_ NullDeref end.
(** The block is only fetched inside the loop. *)
Definition scan_pairs (l : list (value * value)) (op0 op1 : operand) (e : option ext) : vm code :=
  match l with
  | [] => ret CContinue
  | _ => do! body := ext_block e in scan_loop l (o_index op0) (o_index op1) body
  end.
Definition run_scan (op0 op1 : operand) (target : Z) (e : option ext) : vm code :=
  do! source := read_local target in
  match source with
  | Some (VInt _ | VFloat _ | VString _ | VTrue | VFalse | VNull) => ret CUndefined
  | Some (VErr _) => exn
  | None => ret CContinue
  | Some (VArray l) => scan_pairs (array_pairs 0 l) op0 op1 e
  | Some (VSet l) => scan_pairs (map (fun x => (x, x)) l) op0 op1 e
  | Some (VObject l) => scan_pairs l op0 op1 e
  end.

(** src/virtual_machine.cc 1128-1139 [run_with], 127-143 [push_with], [pop_with]. *)
Definition add_with (d : Z) (s : state) : state :=
  set_counts (s_with s + d) (s_break s) (s_count s) (s_depth s) s.
Definition run_with (op0 : operand) (target : Z) (e : option ext) : vm code :=
  do! u := modify (add_with 1) in
  do! v := unpack_operand op0 in
  match e with
  | None => fault_ NullDeref
  | Some (ExtWith path body) =>
      do! old := write_and_swap target path v in
      do! c := rb body in
      do! u := write_local target old in
      do! u := modify (add_with (-1)) in
      ret c
  | Some _ => exn
  end.

(** src/virtual_machine.cc 1054-1106: the longest prefix of the path that names a function. *)
Fixpoint find_dynamic (path : list operand) (name : str) (found : option (str * list operand))
  : vm (option (str * list operand)) :=
  match path with
  | [] => ret found
  | o :: path' =>
      do! v := unpack_operand o in
      let name' := (name ++ $"." ++ strip_quotes (node_key v))%list in
      find_dynamic path' name'
        (match sm_find name' (b_name_to_func B) with Some _ => Some (name', path') | None => found end)
  end.
(** Lines 1092-1103: follow the rest of the path; [None] inside is nullptr, Undefined cannot occur. *)
Fixpoint dot_path (v : option value) (path : list operand) : vm (option (option value)) :=
  match path with
  | [] => ret (Some v)
  | o :: path' =>
      do! k := unpack_operand o in
      match dot v k with
      | None => ret None
      | Some x => dot_path (Some x) path'
      end
  end.
Definition run_dynamic (path ops : list operand) (target : Z) : vm code :=
  do! found := find_dynamic path $"g0" None in
  match found with
  | None => ret CUndefined
  | Some (fn, rest) =>
      do! c := run_call fn ops target in
      match rest, c with
      | [], _ => ret c
      | _, CContinue =>
          do! v := read_local target in
          do! r := dot_path v rest in
          match r with
          | None => ret CUndefined
          | Some x => do! u := write_local target x in ret CContinue
          end
      | _, _ => ret c
      end
  end.

(** src/virtual_machine.cc 796-818: the blocks of a Block statement. *)
Fixpoint block_stmt (l : list block) : vm code :=
  match l with
  | [] => ret CContinue
  | bl :: l' =>
      do! c := rb bl in
      match c with
      | CContinue | CUndefined => block_stmt l'
      | CMultipleOutputs => exn
      | _ => ret c
      end
  end.

(** src/virtual_machine.cc 760-1126: the statement switch. *)
Definition dispatch (st : stmt) : vm code :=
  match st with
  | Stmt ty op0 op1 target e =>
      match ty with
      | SMakeObject => do! u := write_local target (Some (VObject [])) in ret CContinue
      | SMakeArray => do! u := write_local target (Some (VArray [])) in ret CContinue
      | SMakeSet => do! u := write_local target (Some (VSet [])) in ret CContinue
      | SMakeNull => do! u := write_local target (Some VNull) in ret CContinue
      | SMakeNumberRef =>
          do! t := vnth (b_strings B) (o_index op0) in
          do! u := write_local target (Some (if int_regex t then VInt t else VFloat t)) in ret CContinue
      | SAssignInt | SMakeNumberInt =>
          do! u := write_local target (Some (VInt (dec (o_value op0)))) in ret CContinue
      | SBlock =>
          match e with
          | Some (ExtBlocks bs) => block_stmt bs
          | Some _ => exn
          | None => fault_ NullDeref
          end
      | SLen =>
          do! v := unpack_operand op0 in
          do! u := write_local target (Some (VInt (dec (node_size v)))) in ret CContinue
      | SIsObject =>
          do! v := unpack_operand op0 in
          ret (match v with Some (VObject _) => CContinue | _ => CUndefined end)
      | SIsArray =>
          do! v := unpack_operand op0 in
          ret (match v with Some (VArray _) => CContinue | _ => CUndefined end)
      | SIsSet =>
          do! v := unpack_operand op0 in
          ret (match v with Some (VSet _) => CContinue | _ => CUndefined end)
      | SResetLocal => do! u := write_local target None in ret CContinue
      | SAssignVarOnce =>
          do! source := unpack_operand op0 in
          match source with
          | None => ret CContinue
          | Some x =>
              do! existing := read_local target in
              match existing with
              | Some y =>
                  if str_eqb (to_key F x) (to_key F y) then ret CContinue
                  else do! u := add_error EvalConflictError in ret CError
              | None => do! u := write_local target (Some x) in ret CContinue
              end
          end
      | SIsDefined =>
          do! d := is_defined target in ret (if d then CContinue else CUndefined)
      | SIsUndefined =>
          do! d := is_defined target in ret (if d then CUndefined else CContinue)
      | SNot =>
          do! body := ext_block e in
          do! c := rb body in
          ret (match c with
               | CError | CTimeout => c
               | CUndefined => CContinue
               | _ => CUndefined
               end)
      | SReturnLocal => ret CReturn
      | SObjectInsert =>
          do! k := unpack_operand op0 in
          do! v := unpack_operand op1 in
          do! o := read_local target in
          match insert_into_object o k v false with
          | Some o' => do! u := write_local target (Some o') in ret CContinue
          | None => do! u := add_error EvalConflictError in ret CError
          end
      | SObjectInsertOnce =>
          do! k := unpack_operand op0 in
          do! v := unpack_operand op1 in
          do! o := read_local target in
          match insert_into_object o k v true with
          | Some o' => do! u := write_local target (Some o') in ret CContinue
          | None => do! u := add_error EvalConflictError in ret CError
          end
      | SObjectMerge =>
          do! a := read_local (o_index op0) in
          do! b := read_local (o_index op1) in
          do! u := write_local target (merge_nodes a b) in ret CContinue
      | SArrayAppend =>
          (* A child can be pushed onto any node: a Set gets it unchecked, on an Undefined node it is lost, a scalar keeps its
             key; an Object or Error node with such a child is malformed. *)
          do! a := read_local target in
          do! v := unpack_operand op0 in
          match v with
          | None => ret CUndefined
          | Some x =>
              match a with
              | Some (VArray l) => do! u := write_local target (Some (VArray (l ++ [x]))) in ret CContinue
              | Some (VSet l) => do! u := write_local target (Some (VSet (l ++ [x]))) in ret CContinue
              | Some (VObject _) | Some (VErr _) => fault_ BadTree
              | _ => ret CContinue
              end
          end
      | SSetAdd =>
          do! a := read_local target in
          do! v := unpack_operand op0 in
          match v with
          | None => ret CUndefined
          | Some x =>
              match a with
              | Some (VArray l) =>
                  if existsb (str_eqb (to_key F x)) (map (to_key F) l) then ret CContinue
                  else do! u := write_local target (Some (VArray (l ++ [x]))) in ret CContinue
              | Some (VSet l) =>
                  if existsb (str_eqb (to_key F x)) (map (to_key F) l) then ret CContinue
                  else do! u := write_local target (Some (VSet (l ++ [x]))) in ret CContinue
              | Some (VObject _) | Some (VErr _) => fault_ BadTree
              | _ => ret CContinue
              end
          end
      | SDot =>
          do! s := unpack_operand op0 in
          do! k := unpack_operand op1 in
          match dot s k with
          | None => ret CUndefined
          | Some v => do! u := write_local target (Some v) in ret CContinue
          end
      | SAssignVar =>
          do! v := unpack_operand op0 in
          do! u := write_local target v in ret CContinue
      | SResultSetAdd =>
          do! v := read_local target in
          do! u := modify (fun s => set_results (s_results s ++ [v])%list s) in ret CContinue
      | SEqual =>
          do! a := unpack_operand op0 in
          do! b := unpack_operand op1 in
          do! r := equals a b in
          ret (match r with RVal VFalse => CUndefined | _ => CContinue end)
      | SNotEqual =>
          do! a := unpack_operand op0 in
          do! b := unpack_operand op1 in
          match a, b with
          | None, _ | _, None => ret CUndefined
          | _, _ =>
              do! r := equals a b in
              ret (match r with RVal VTrue => CUndefined | _ => CContinue end)
          end
      | SCall =>
          match e with
          | Some (ExtCall fn ops) => run_call fn ops target
          | Some _ => exn
          | None => fault_ NullDeref
          end
      | SCallDynamic =>
          match e with
          | Some (ExtDyn path ops) => run_dynamic path ops target
          | Some _ => exn
          | None => fault_ NullDeref
          end
      | SScan => run_scan op0 op1 target e
      | SWith => run_with op0 target e
      | SBreak =>
          do! u := modify (fun s => set_counts (s_with s) ((s_break s + o_index op0) mod size_max) (s_count s) (s_depth s) s) in
          ret CBreak
      | SNop => ret CContinue
      end
  end.

(** src/virtual_machine.cc 756-766 [run_stmt]: the statement limit. *)
Definition inc_stmts (s : state) : state := set_counts (s_with s) (s_break s) (s_count s + 1) (s_depth s) s.
Definition run_stmt (st : stmt) : vm code :=
  do! u := modify inc_stmts in
  do! n := get s_count in
  if e_stmt_limit E <=? n then do! u := add_error TimeoutError in ret CTimeout
  else do! u := modify (add_log (EvStmt st)) in dispatch st.

(** src/virtual_machine.cc 555-592: the statements of a block. *)
Fixpoint run_stmts (l : block) (c : code) : vm code :=
  match l with
  | [] => ret c
  | st :: l' =>
      do! c' := run_stmt st in
      match c' with
      | CContinue => run_stmts l' c'
      | CBreak =>
          do! u := modify (fun s => set_counts (s_with s) ((s_break s - 1) mod size_max) (s_count s) (s_depth s) s) in
          ret CBreak
      | CMultipleOutputs => exn
      | _ => ret c'
      end
  end.
End Calls.

(** src/virtual_machine.cc 532-593 [run_block].  [fuel] bounds the nesting of calls of this function; the depth guard makes
    [e_block_depth + 1] enough (proved). *)
Definition add_depth (d : Z) (s : state) : state :=
  set_counts (s_with s) (s_break s) (s_count s) (s_depth s + d) s.
Fixpoint run_block (fuel : nat) (b : block) : vm code :=
  match fuel with
  | O => fun s => NoFuel s
  | S n =>
      do! d := get s_depth in
      if e_block_depth E <=? d then do! u := add_error RecursionError in ret CError
      else
        do! u := modify (add_depth 1) in
        do! c := run_stmts (run_block n) b CContinue in
        do! u := modify (add_depth (-1)) in
        ret c
  end.

(** src/virtual_machine.cc 518-530 [run_plan]. *)
Fixpoint run_plan_blocks (fuel : nat) (l : list block) : vm unit :=
  match l with
  | [] => ret tt
  | bl :: l' =>
      do! c := run_block fuel bl in
      match c with CContinue => run_plan_blocks fuel l' | _ => ret tt end
  end.

Definition init_state (n : N) : state :=
  {| s_frame := repeat None (N.to_nat n); s_errors := []; s_stack := []; s_nargs := []; s_cache := []; s_results := [];
     s_with := 0; s_break := 0; s_count := 0; s_depth := 0; s_log := [] |}.

(** src/virtual_machine.cc 357-363 [State::State], then [run_plan]: the run behind a query or entrypoint. *)
Definition run (fuel : nat) (p : plan) (input : option value) : vres unit :=
  (do! u := write_local 0 input in
   do! u := write_local 1 (Some (b_data B)) in
   run_plan_blocks fuel (p_blocks p)) (init_state (b_locals B)).

(** The nesting that suffices. *)
Definition block_fuel : nat := S (Z.to_nat (e_block_depth E)).

(** ** Output *)

(** One result: its expressions and its bindings (Result << Terms << Bindings). *)
Record result := { r_terms : list value; r_bindings : list (str * value) }.
(** What a query returns: Undefined, an ErrorSeq (by codes) or Results.  [QError] is the Error node that src/interpreter.cc
    431-460 makes of an exception. *)
Inductive output :=
| QUndefined
| QErrors (codes : list str)
| QResults (l : list result)
| QError.

(** src/resolver.cc 639-671 [object_lookdown] with a quoted query text: a string key is compared both with and without
    its quotes, and the text inside the quotes never equals a quoted text of the queries used here. *)
Definition lookdown (l : list (value * value)) (q : str) : list value :=
  map snd (filter (fun kv => str_eqb (to_key F (fst kv)) q) l).

(** src/virtual_machine.cc 385-449: one element of the result set of a query. [Ok None] skips it. *)
Fixpoint expr_values (l : list value) : option (list value) :=
  match l with
  | [] => Some []
  | VObject o :: l' =>
      match lookdown o $"""value""" with
      | [v] => match expr_values l' with Some vs => Some (v :: vs) | None => None end
      | _ => None
      end
  | _ => None
  end.
Inductive row := RRow (r : result) | RSkip | RBad | RFault.
Definition query_row (v : option value) : row :=
  match v with
  | Some (VObject ((_, VObject ro) :: _)) =>
      let bindings :=
        match lookdown ro $"""bindings""" with
        | VObject bs :: _ => Some (map (fun kv : value * value => (strip_quotes (to_key F (fst kv)), snd kv)) bs)
        | [] => Some []
        | _ => None
        end in
      match lookdown ro $"""expressions""" with
      | VArray [] :: _ => RSkip
      | VArray es :: _ =>
          match expr_values es, bindings with
          | None, _ => RBad
          | Some ts, Some bs => RRow {| r_terms := ts; r_bindings := bs |}
          | _, None => RFault
          end
      | [] => match bindings with Some bs => RRow {| r_terms := []; r_bindings := bs |} | None => RFault end
      | _ => RFault
      end
  | _ => RFault
  end.
(** src/virtual_machine.cc 491-513: one element of the result set of an entrypoint. *)
Definition entry_row (v : option value) : row :=
  match v with
  | Some (VObject o) =>
      match lookdown o $"""result""" with
      | [x] => RRow {| r_terms := [x]; r_bindings := [] |}
      | _ => RBad
      end
  | _ => RBad
  end.
Fixpoint collect (f : option value -> row) (l : list (option value)) (acc : list result) : outcome output :=
  match l with
  | [] => Ok (QResults acc)
  | v :: l' =>
      match f v with
      | RRow r => collect f l' (acc ++ [r])
      | RSkip => collect f l' acc
      | RBad => Ok (QErrors [WellFormedError])
      | RFault => Ub
      end
  end.
Definition output_of (f : option value -> row) (r : vres unit) : outcome output :=
  match r with
  | Done _ s =>
      match s_errors s with
      | _ :: _ => Ok (QErrors (s_errors s))
      | [] => match s_results s with [] => Ok QUndefined | rs => collect f rs [] end
      end
  | Exn _ => Ok QError
  | Fault _ _ => Ub
  | NoFuel _ => OutOfFuel
  end.

(** src/virtual_machine.cc 365-452 [run_query], under src/interpreter.cc 431-460. *)
Definition run_query (input : option value) : outcome output :=
  match b_query_plan B with
  | None => Ok (QErrors [WellFormedError])
  | Some i => match znth (b_plans B) (zn i) with
              | None => Ub
              | Some p => output_of query_row (run block_fuel p input)
              end
  end.

(** src/virtual_machine.cc 454-516 [run_entrypoint]. *)
Definition run_entrypoint (entry : str) (input : option value) : outcome output :=
  match sm_find entry (b_name_to_plan B) with
  | None => Ok (QErrors [WellFormedError])
  | Some i => match znth (b_plans B) (zn i) with
              | None => Ub
              | Some p => output_of entry_row (run block_fuel p input)
              end
  end.
End Machine.
