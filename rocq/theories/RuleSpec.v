(** Specification of what the definitions of a rule mean, in terms of runs of their queries on the virtual machine. *)
From Coq Require Import String ZArith List Bool.
From Verif Require Import Base SMap ValueModel VmModel VmSpec PlanModel PlanSpec RuleModel.
Import ListNotations.
Local Open Scope Z_scope.

Section Runs.
Variable E : env.

(** The value of an operand in a state (the index of a string is a machine word). *)
Definition value_at (t : state) (o : op Z Z) : option value :=
  match o with
  | OLocal x => match local t x with Some v => v | None => None end
  | OString i => option_map (fun u => VString (strip_quotes u)) (znth (b_strings (e_bundle E)) (i mod 2 ^ 64))
  | OBool b => Some (if b then VTrue else VFalse)
  end.
(** The defined ones among the values an operand has in some states. *)
Definition values_at (o : op Z Z) (ts : list state) : list value :=
  flat_map (fun t => match value_at t o with Some v => [v] | None => [] end) ts.

(** ** Where a query holds *)

(** A statement has been counted and recorded. *)
Definition started (st : stmt) (s : state) : state := add_log (EvStmt st) (inc_stmts s).
Definition nests (st : stmt) : bool := match st with Stmt (SScan | SWith) _ _ _ _ => true | _ => false end.
(** What iterating over a node binds; nothing when it is undefined. *)
Definition scanned (v : option value) : option (list (value * value)) :=
  match v with None => Some [] | Some x => elements x end.

(** [visits k n b s ts c s']: a run of the statements [b] from [s], with the code [k] at the place where every condition of [b]
    holds (behind the last statement; inside, if that iterates or replaces a document), ends with the code [c] in [s'];
    that place is reached in the states [ts], in this order. *)
Inductive visits (k : block) : nat -> block -> state -> list state -> code -> state -> Prop :=
| vi_end n s c s' :
    run_stmts E (run_block E n) k CContinue s = Done c s' -> c = CContinue \/ c = CUndefined -> visits k n [] s [s] c s'
| vi_next n st b s s1 ts c s' :
    b <> [] \/ nests st = false ->
    run_stmt E (run_block E n) st s = Done CContinue s1 -> visits k n b s1 ts c s' -> visits k n (st :: b) s ts c s'
| vi_stop n st b s s1 :
    b <> [] \/ nests st = false ->
    run_stmt E (run_block E n) st s = Done CUndefined s1 -> visits k n (st :: b) s [] CUndefined s1
| vi_scan n a b x body' body s src l ts s' :
    let st := Stmt SScan a b x (Some (ExtBlock body')) in
    s_count s + 1 < e_stmt_limit E -> local s x = Some src -> scanned src = Some l ->
    loops k n (o_index a) (o_index b) body l (started st s) ts s' ->
    visits k n [Stmt SScan a b x (Some (ExtBlock body))] s ts CContinue s'
| vi_scalar n a b x body' body s v :
    let st := Stmt SScan a b x (Some (ExtBlock body')) in
    s_count s + 1 < e_stmt_limit E -> local s x = Some (Some v) -> elements v = None -> (forall e, v <> VErr e) ->
    visits k n [Stmt SScan a b x (Some (ExtBlock body))] s [] CUndefined (started st s)
| vi_with n a b x path body' body s v old s1 ts c s2 s3 :
    let s0 := add_with 1 (started (Stmt SWith a b x (Some (ExtWith path body'))) s) in
    s_count s + 1 < e_stmt_limit E -> unpack_operand E a s0 = Done v s0 -> write_and_swap E x path v s0 = Done old s1 ->
    enters k n body s1 ts c s2 -> write_local x old s2 = Done tt s3 ->
    visits k n [Stmt SWith a b x (Some (ExtWith path body))] s ts c (add_with (-1) s3)
with loops (k : block) : nat -> Z -> Z -> block -> list (value * value) -> state -> list state -> state -> Prop :=
| lo_end n i j body s : loops k n i j body [] s [] s
| lo_next n i j body a b l s ts1 c s1 ts2 s' :
    enters k n body (bound s i j a b) ts1 c s1 -> loops k n i j body l s1 ts2 s' ->
    loops k n i j body ((a, b) :: l) s (ts1 ++ ts2) s'
with enters (k : block) : nat -> block -> state -> list state -> code -> state -> Prop :=
| en_block n b s ts c s' :
    visits k n b (add_depth 1 s) ts c s' -> enters k (S n) b s ts c (add_depth (-1) s').

(** Apart from counters and the record of statements only the given locals differ. *)
Definition quiet (xs : list Z) (s s' : state) : Prop :=
  s_errors s' = s_errors s /\ s_stack s' = s_stack s /\ s_cache s' = s_cache s /\ s_results s' = s_results s /\
  s_with s' = s_with s /\ length (s_frame s') = length (s_frame s) /\ forall i, ~ In i xs -> local s' i = local s i.

(** ** Queries and their values *)

(** [rho] and [sigma] give the locals and strings of the function their numbers, as in PlanSpec. *)
Variable rho : str -> Z.
Variable sigma : str -> Z.
Definition img : list nir -> list (ir Z Z) := map (map_ir rho sigma norm).
Definition iop : nop -> op Z Z := map_op rho sigma.

(** A query: an operand and the code to run before it is looked at. *)
Definition query := (nop * list nir)%type.
Definition queries (i : instance) : list query :=
  map (fun b => (ob_op (in_value i), ob_code (in_value i) ++ b)) (in_blocks i).

(** [asks tail q s vs s']: the query runs from [s] to [s'] and [vs] are the values its operand has where the query holds;
    [tail] is the code that stores each of them. *)
Definition asks (tail : nop -> list nir) (q : query) (s : state) (vs : list value) (s' : state) : Prop :=
  exists n kc b ts c s0 s1,
    opt_list says kc = Some (img (tail (fst q))) /\ opt_list says b = Some (img (snd q)) /\
    quiet [] s s0 /\ visits kc n b s0 ts c s1 /\ quiet [] s1 s' /\ vs = values_at (iop (fst q)) ts.

(** The queries are asked in order; once [x] has a value, the others are skipped. *)
Inductive search (tail : nop -> list nir) (x : Z) : list query -> state -> list value -> state -> Prop :=
| se_end s s' : quiet [] s s' -> search tail x [] s [] s'
| se_skip q qs s s1 y vs s' :
    quiet [] s s1 -> local s1 x = Some (Some y) -> search tail x qs s1 vs s' -> search tail x (q :: qs) s vs s'
| se_ask q qs s vs s1 vs' s' :
    local s x = Some None -> asks tail q s vs s1 -> search tail x qs s1 vs' s' -> search tail x (q :: qs) s (vs ++ vs') s'.

(** Each query is asked. *)
Inductive each_asked (tail : nop -> list nir) : list query -> state -> list value -> state -> Prop :=
| ea_end s s' : quiet [] s s' -> each_asked tail [] s [] s'
| ea_ask q qs s vs s1 vs' s' :
    asks tail q s vs s1 -> each_asked tail qs s1 vs' s' -> each_asked tail (q :: qs) s (vs ++ vs') s'.

(** ** Complete rules and functions *)

(** The code that stores a value in [x]. *)
Definition store (x : str) (o : nop) : list nir := check_operand_is_defined o ++ [IAssignVarOnce o x].

(** One definition with its [else] branches.  [vs] are the values found.  A definition without [else] asks its first query in
    any case, and the bodies chained to it only while the rule has no value; a definition with [else] has a variable [y] of
    its own, which starts undefined. *)
Inductive defines (y ret : str) : list instance -> state -> list value -> state -> Prop :=
| de_one i q qs s vs s1 vs' s' :
    queries i = q :: qs -> asks (store ret) q s vs s1 -> search (store ret) (rho ret) qs s1 vs' s' ->
    defines y ret [i] s (vs ++ vs') s'
| de_else i j l s s0 vs s1 s' :
    quiet [rho y] s s0 -> local s0 (rho y) = Some None ->
    search (store y) (rho y) (flat_map queries (i :: j :: l)) s0 vs s1 -> quiet [rho ret] s1 s' ->
    defines y ret (i :: j :: l) s vs s'.

(** The definitions of a rule, in order; [y n] is the variable of body number [n]. *)
Inductive all_defined (y : nat -> str) (ret : str) : list (nat * list instance) -> state -> list value -> state -> Prop :=
| ad_end s s' : quiet [] s s' -> all_defined y ret [] s [] s'
| ad_next n d l s vs s1 vs' s' :
    defines (y n) ret d s vs s1 -> all_defined y ret l s1 vs' s' -> all_defined y ret ((n, d) :: l) s (vs ++ vs') s'.

(** *** Sets *)

(** The code that adds a value to the set [x]. *)
Definition collect (x : str) (o : nop) : list nir := check_operand_is_defined o ++ [ISetAdd o x].
(** The definitions of a set rule. *)
Definition set_queries (l : list rbody) : list query :=
  flat_map (fun b => match b with BSet i => queries i | _ => [] end) l.

(** All the same value (as a key of an object or member of a set). *)
Definition same_value (a b : value) : Prop := to_key (e_fops E) a = to_key (e_fops E) b.
Definition all_same (vs : list value) : Prop := forall a b, In a vs -> In b vs -> same_value a b.

(** The members of a set made from these values: each value is there, nothing else is, nothing is there twice. *)
Definition set_of (vs l : list value) : Prop :=
  (forall v, In v vs -> exists y, In y l /\ same_value v y) /\ (forall y, In y l -> In y vs) /\
  (forall l1 a l2 b l3, l = l1 ++ a :: l2 ++ b :: l3 -> ~ same_value a b).

(** *** Objects *)

(** A definition [p[k] := v]: the operands of its key and value, and the code that runs before. *)
Definition pair_query := (nop * nop * list nir)%type.
Definition object_queries (l : list rbody) : list pair_query :=
  flat_map (fun b => match b with
                     | BObjDynamic [k] i =>
                         map (fun q => (ob_op k, ob_op (in_value i), ob_code (in_value i) ++ ob_code k ++ q)) (in_blocks i)
                     | _ => []
                     end) l.
(** [finds x q s kvs s']: the query runs from [s] to [s'], and [kvs] are the keys and values it has where it holds, each of
    which is inserted in [x]. *)
Definition finds (x : str) (q : pair_query) (s : state) (kvs : list (option value * option value)) (s' : state) : Prop :=
  let '(k, v, code) := q in
  exists n kc b ts c s0 s1,
    opt_list says kc = Some (img [IObjectInsertOnce k v x]) /\ opt_list says b = Some (img code) /\
    quiet [] s s0 /\ visits kc n b s0 ts c s1 /\ quiet [] s1 s' /\
    kvs = map (fun t => (value_at t (iop k), value_at t (iop v))) ts.
Inductive all_found (x : str) : list pair_query -> state -> list (option value * option value) -> state -> Prop :=
| af_end s s' : quiet [] s s' -> all_found x [] s [] s'
| af_find q qs s kvs s1 kvs' s' :
    finds x q s kvs s1 -> all_found x qs s1 kvs' s' -> all_found x (q :: qs) s (kvs ++ kvs') s'.
(** The items of an object made from these pairs: each pair is there, nothing else is, no key is there twice. *)
Definition same_item (a b : value * value) : Prop := same_value (fst a) (fst b) /\ same_value (snd a) (snd b).
Definition object_of (kvs l : list (value * value)) : Prop :=
  (forall p, In p kvs -> exists q, In q l /\ same_item p q) /\ (forall q, In q l -> exists p, In p kvs /\ same_item p q) /\
  (forall l1 a l2 b l3, l = l1 ++ a :: l2 ++ b :: l3 -> ~ same_value (fst a) (fst b)).

(** The value of a default in a state: its code runs to its end and its operand is defined. *)
Definition default_value (o : opblock) (s : state) (v : option value) : Prop :=
  exists n b s0 c s1, opt_list says b = Some (img (ob_code o)) /\ quiet [] s s0 /\
    run_stmts E (run_block E n) b CContinue s0 = Done c s1 /\
    (c = CContinue \/ c = CUndefined) /\
    v = match c with CContinue => value_at s1 (iop (ob_op o)) | _ => None end.

(** The value of a rule: the one its definitions agree on, else its default. *)
Definition rule_value (vs : list value) (def : option opblock) (s : state) (v : option value) : Prop :=
  match vs, def with
  | u :: _, _ => v = Some u
  | [], Some o => default_value o s v
  | [], None => v = None
  end.
End Runs.

(** The definitions and the default among the bodies of a rule. *)
Fixpoint definitions (n : nat) (l : list rbody) : list (nat * list instance) :=
  match l with
  | [] => []
  | BBody d :: l' => (n, d) :: definitions (S n) l'
  | _ :: l' => definitions (S n) l'
  end.
Fixpoint default_of (l : list rbody) : option opblock :=
  match l with [] => None | BDefault o :: _ => Some o | _ :: l' => default_of l' end.
Definition complete (l : list rbody) : Prop :=
  Forall (fun b => match b with BBody _ | BDefault _ => True | _ => False end) l.

Definition sets (l : list rbody) : Prop := l <> [] /\ Forall (fun b => match b with BSet _ => True | _ => False end) l.

Definition objects (l : list rbody) : Prop :=
  l <> [] /\ Forall (fun b => match b with BObjDynamic [_] _ => True | _ => False end) l.

(** ** Circumstances *)

(** The code of the queries of a body, and of its default. *)
Definition inst_code (i : instance) : list nir := ob_code (in_value i) ++ concat (in_blocks i).
Definition body_code (b : rbody) : list nir :=
  match b with
  | BDefault o => ob_code o
  | BBody l => flat_map inst_code l
  | BSet i => inst_code i
  | BObjStatic _ key l => ob_code key ++ flat_map inst_code l
  | BObjDynamic path i | BSetDynamic path i => flat_map ob_code path ++ inst_code i
  | BData _ code => code
  end.

(** No statement leaves the function. *)
Fixpoint leaves {L S'} (s : ir L S') : bool :=
  match s with
  | IReturnLocal _ => true
  | IBlock bs => existsb (existsb leaves) bs
  | IScan _ _ _ b | IWith _ _ _ b | INot b => existsb leaves b
  | _ => false
  end.

(** ** Entry points *)

(** What one value of an entry point becomes in the result set. *)
Definition result_object (v : value) : value := VObject [(VString $"result", v)].
(** The values an entry point gives: its own if it has one; for the plan of a query, each element of that. *)
Definition for_query (name : str) : Prop := exists rest, name = $"querymodule$" ++ rest.
Definition gives (name : str) (v : option value) (vs : list value) : Prop :=
  (~ for_query name -> vs = match v with Some u => [u] | None => [] end) /\
  (for_query name -> vs = match v with
                          | Some u => match elements u with Some l => map snd l | None => [] end
                          | None => []
                          end).

(** No statement adds a result; in particular none of the functions of the bundle has one that does. *)
Fixpoint adds {L S'} (s : ir L S') : bool :=
  match s with
  | IResultSetAdd _ => true
  | IBlock bs => existsb (existsb adds) bs
  | IScan _ _ _ b | IWith _ _ _ b | INot b => existsb adds b
  | _ => false
  end.
Definition silent (E : env) : Prop := forall i f, znth (b_functions (e_bundle E)) i = Some f ->
  exists ls, says_blocks (f_blocks f) = Some ls /\ existsb (existsb adds) ls = false.

(** No statement is a Break (the compiler makes none, src/rego_to_bundle.cc). *)
Fixpoint breaks {L S'} (s : ir L S') : bool :=
  match s with
  | IBreak _ => true
  | IBlock bs => existsb (existsb breaks) bs
  | IScan _ _ _ b | IWith _ _ _ b | INot b => existsb breaks b
  | _ => false
  end.
Definition unbroken (E : env) : Prop := forall i f, znth (b_functions (e_bundle E)) i = Some f ->
  exists ls, says_blocks (f_blocks f) = Some ls /\ existsb (existsb breaks) ls = false.

(** The local [x] belongs to function [fn]: no other function works on it or has it as a parameter (the first two, [input] and
    [data], are shared), and slots are in range. *)
Definition in_frame (n : Z) (l : list (ir Z Z)) : Prop := Forall (fun x => 0 <= x < n) (flat_map locals_in l).
Definition private (E : env) (fn : str) (n x : Z) : Prop :=
  forall name i f, name <> fn -> sm_find name (b_name_to_func (e_bundle E)) = Some i ->
    znth (b_functions (e_bundle E)) (zn i) = Some f ->
    ~ In x (map zn (skipn 2 (f_params f))) /\
    exists ls, says_blocks (f_blocks f) = Some ls /\ in_frame n (concat ls) /\ ~ In x (flat_map subjects (concat ls)).

(** The local [z] belongs to [fn] and the code [code] of [fn] does not work on it. *)
Definition owns (E : env) (fn : str) (n : Z) (rho sigma : str -> Z) (z : Z) (code : list nir) : Prop :=
  private E fn n z /\ ~ In z (flat_map subjects (img rho sigma code)).

(** The blocks [bs] of function [fn] are the numbered form of what the compiler makes of the bodies [l] of a rule that returns
    [ret].  Slots are in range, bodies do not return, and the variables the compiler adds are the function's own: what it
    returns, and one for each definition with [else] (number [k] has [fresh k 0 0]). *)
Record compiled_rule (E : env) (fn : str) (n : Z) (rho sigma : str -> Z) (fresh : nat -> nat -> nat -> str) (prefix ret : str)
  (l : list rbody) (bs : list block) : Prop := {
  cr_blocks : exists ls, lower_function fresh prefix ret l = Some ls /\
    says_blocks bs = Some (map (img rho sigma) ls) /\ in_frame n (img rho sigma (concat ls));
  cr_words : n <= 2 ^ 64;
  cr_stays : existsb leaves (flat_map body_code l) = false;
  cr_result : owns E fn n rho sigma (rho ret) (flat_map body_code l);
  cr_else : forall k d, In (k, d) (definitions 0 l) -> (1 < length d)%nat ->
    owns E fn n rho sigma (rho (fresh k 0%nat 0%nat)) (flat_map body_code l) /\ rho (fresh k 0%nat 0%nat) <> rho ret
}.

(** The blocks [bs] are the numbered form of the plan for the entry point [name] with value [e]; slots are in range, the string
    "result" is found under its number, the code of [e] and of all functions adds no results, and the variables the compiler
    adds are new. *)
Record compiled_entry (E : env) (n : Z) (rho sigma : str -> Z) (name obj index val x : str) (e : opblock) (bs : list block) : Prop := {
  ce_blocks : exists pl, entry_plan name obj index val e = Some pl /\ says_blocks bs = Some (map (img rho sigma) (l_blocks pl)) /\
    in_frame n (img rho sigma (concat (l_blocks pl)));
  ce_words : n <= 2 ^ 64;
  ce_result : znth (b_strings (e_bundle E)) (sigma $"result" mod 2 ^ 64) = Some $"result";
  ce_silent : silent E /\ existsb adds (ob_code e) = false;
  ce_value : ob_op e = OLocal x;
  ce_obj : rho x <> rho obj /\ (for_query name -> rho val <> rho obj)
}.

(** The run of the function's blocks [bs] from [s] ends with [c] in [s'] without an error or a limit. *)
Definition ran (E : env) (fn : str) (m : nat) (bs : list block) (s : state) (c : code) (s' : state) : Prop :=
  In fn (s_stack s) /\ run_blocks (run_block E m) bs CContinue s = Done c s' /\ c <> CError /\ c <> CBreak /\
  s_count s' < e_stmt_limit E.

(** Function [i] of a program is compiled from the bodies [l] of a rule.  Its bodies do not return; what it returns, and the
    variable of each definition with [else], are names of its own: not [input] or [data], not worked on in the bodies, and,
    if made by the compiler, neither a parameter nor worked on elsewhere. *)
Definition own_name (p : prog) (i : nat) (code : list nir) (x : str) : Prop :=
  ~ reserved x /\ ~ In x (flat_map subjects code) /\
  forall j g, j <> i -> nth_error (g_fns p) j = Some g -> generated x -> ~ In x (n_params g ++ flat_map subjects (fn_body g)).
Record rule_of (p : prog) (i : nat) (f : fn str str) (fresh : nat -> nat -> nat -> str) (prefix : str) (l : list rbody) : Prop := {
  ro_fn : nth_error (g_fns p) i = Some f;
  ro_code : lower_function fresh prefix (n_result f) l = Some (n_blocks f);
  ro_stays : existsb leaves (flat_map body_code l) = false;
  ro_names : incl (flat_map subjects (flat_map body_code l)) (flat_map locals_in (fn_body f));
  ro_result : own_name p i (flat_map body_code l) (n_result f);
  ro_else : forall k d, In (k, d) (definitions 0 l) -> (1 < length d)%nat ->
    own_name p i (flat_map body_code l) (fresh k 0%nat 0%nat) /\
    In (fresh k 0%nat 0%nat) (flat_map locals_in (fn_body f)) /\ fresh k 0%nat 0%nat <> n_result f
}.

(** [s0] is the state in which the blocks of function [f] start when it is called from [s]: its parameters (other than [input]
    and [data]) hold the arguments and it is on the call stack. *)
Definition entered (E : env) (fn : str) (f : func) (args : list operand) (s s0 : state) : Prop :=
  exists t, write_params E (skipn 2 (f_params f)) (skipn 2 args) s = Done tt t /\
    s0 = add_log (EvEnter (fn :: s_stack t)) (set_stack (fn :: s_stack t) (f_arity f :: s_nargs t) t).

(** A call of function [f], known as [fn], that is answered neither by a builtin nor from the cache, and ends with [c] in [s']
    without an error for the caller and without a limit. *)
Record calls (E : env) (m : nat) (fn : str) (f : func) (args : list operand) (target : Z) (s : state) (c : code) (s' : state) : Prop := {
  ca_run : run_call E (run_block E m) fn args target s = Done c s';
  ca_builtin : e_builtin E fn = None;
  ca_cache : 0 < s_with s \/ sm_find (f_name f) (s_cache s) = None;
  ca_end : c = CContinue \/ c = CUndefined;
  ca_limit : s_count s' < e_stmt_limit E
}.
(** The function stopped at an error; the caller only learns that there is no value. *)
Definition failed (E : env) (m : nat) (fn : str) (f : func) (args : list operand) (s : state) (c : code) : Prop :=
  c = CUndefined /\ exists s0 s1, entered E fn f args s s0 /\ run_blocks (run_block E m) (f_blocks f) CContinue s0 = Done CError s1.

(** The plan [pl] of a program is the one for an entry point whose value is that of [x] after the code of [e].  Code for an
    entry point and functions neither add results nor break off, and the variables the compiler adds are new. *)
Record entry_of (p : prog) (pl : pl str str) (obj index val x : str) (e : opblock) : Prop := {
  eo_plan : In pl (g_plans p);
  eo_code : entry_plan (l_name pl) obj index val e = Some pl;
  eo_value : ob_op e = OLocal x;
  eo_new : ~ reserved obj /\ x <> obj /\ val <> obj;
  eo_silent : existsb adds (ob_code e) = false /\ existsb adds (flat_map fn_body (g_fns p)) = false
}.
(** The state in which the plan for a query starts. *)
Definition initial (E : env) (input : option value) : state :=
  let s := init_state (b_locals (e_bundle E)) in
  set_frame (upd (upd (s_frame s) 0 input) 1 (Some (b_data (e_bundle E)))) s.
(** The answer that lists these values. *)
Definition answer (vs : list value) : output :=
  match vs with [] => QUndefined | _ => QResults (map (fun v => {| r_terms := [v]; r_bindings := [] |}) vs) end.

(** [s0] is the state in which a rule asked for by a query starts: its function is on the call stack, and locals hold nothing but
    the input and the data. *)
Definition asked_for (E : env) (fn : str) (input : option value) (s0 : state) : Prop :=
  s_frame s0 = s_frame (initial E input) /\ s_stack s0 = [fn] /\ s_errors s0 = [] /\ s_with s0 = 0.

(** A definition as it is written: a value with its bodies, then any number of `else` branches, each with a value and at least
    one body. *)
Definition branch : Type := opblock * list literal * list (list literal).
Definition written (qs : list (list literal)) (rest : list branch) : list part :=
  map (Part None) qs ++ flat_map (fun b => Part (Some (fst (fst b))) (snd (fst b)) :: map (Part None) (snd b)) rest.
