(** The interpreter as a state machine (src/interpreter.cc) and its C interface (src/rego_c.cc 297-812).

    Reading a text, compiling and running are arguments (the record [engine]): they are Trieste readers and rewriters, and the virtual
    machine, which other files model.  Rewriting is taken to leave its argument alone, although [query_node] hands the rewriter the
    interpreter's own nodes; the settings (debugging, limits, the builtin registry) are fixed, and so is what [run] gives for a bundle
    and an input, so the clock and random numbers are not modelled. *)
From Coq Require Import String ZArith List Bool.
From Verif Require Import Base BigIntSpec CApiModel.
Import ListNotations.
Local Open Scope Z_scope.
Local Open Scope list_scope.

(** What a Trieste reader or rewriter gives: a tree, errors, or an exception with its message. *)
Inductive reading (A E : Type) := Read (a : A) | Errors (e : E) | Thrown (message : str).
Arguments Read {A E}. Arguments Errors {A E}. Arguments Thrown {A E}.

(** The code around the interpreter.
    [e_module name text]: reader().synthetic(contents, name) and reader().file(path) (src/interpreter.cc 63-72);
    [e_query text]: reader().synthetic(query);
    [e_data name text]: json().synthetic(contents, name) >> data_from_json(), and the same for a file (src/interpreter.cc 74-96);
    [e_data_node n]: (Top << node) >> data_from_json();
    [e_input_json], [e_input_term], [e_input_node]: the three ways to read an input (src/interpreter.cc 98-117);
    [e_to_term]: Resolver::to_term; [e_bundle]: bundle() on entry points, data, modules and query (src/interpreter.cc 119-129);
    [e_from_node]: BundleDef::from_node; [e_run]: the virtual machine's run_query and run_entrypoint;
    [e_print]: a node written to a stream (src/rego_c.cc 19-20). *)
Record engine (node errors binary : Type) := {
  e_module : str -> str -> reading node errors;
  e_query : str -> reading node errors;
  e_data : str -> str -> reading node errors;
  e_data_node : node -> reading node errors;
  e_input_json : str -> reading node errors;
  e_input_term : str -> reading node errors;
  e_input_node : node -> reading node errors;
  e_to_term : node -> node;
  e_bundle : list str -> list node -> list node -> node -> reading node errors;
  e_from_node : node -> reading binary errors;
  e_run : binary -> option str -> node -> reading node errors;
  e_print : errors -> str }.
Arguments e_module {_ _ _}. Arguments e_query {_ _ _}. Arguments e_data {_ _ _}. Arguments e_data_node {_ _ _}. Arguments e_input_json {_ _ _}.
Arguments e_input_term {_ _ _}. Arguments e_input_node {_ _ _}. Arguments e_to_term {_ _ _}. Arguments e_bundle {_ _ _}.
Arguments e_from_node {_ _ _}. Arguments e_run {_ _ _}. Arguments e_print {_ _ _}.

Section Interpreter.
Context {node errors binary : Type}.
Variable E : engine node errors binary.
(** [Input << Undefined] and an empty [Query] node (src/interpreter.cc 52-53), and the error node src/interpreter.cc 354 makes. *)
Variables (undefined_input empty_query : node) (invalid_input : node -> errors).

(** The members that calls change (include/rego/rego.hh 2097-2117); [m_c_error] belongs to the C interface below. *)
Record state := mkState {
  m_dataseq : list node; m_moduleseq : list node; m_input : node; m_query : node; m_entrypoints : list str; m_data_count : Z }.

(** src/interpreter.cc 50-61. *)
Definition fresh : state := mkState [] [] undefined_input empty_query [] 0.

(** What a node given to [set_input] is (src/interpreter.cc 323-356). *)
Inductive input_node := JsonTree (n : node) | RegoTree (n : node) | InputTree (n : node) | OtherTree (n : node).

(** The calls.  A file's contents at the time of the call come with it, [None] when there is no such file. *)
Inductive call :=
| AddModuleFile (path : str) (file : option str) | AddModule (name contents : str)
| AddDataFile (path : str) (file : option str) | AddDataJson (contents : str) | AddData (n : node)
| SetInputFile (path : str) (file : option str) | SetInputTerm (term : str) | SetInputJson (contents : str) | SetInput (n : input_node)
| SetQuery (text : str) | SetEntrypoints (names : list str) | AddEntrypoint (name : str)
| Query | QueryText (text : str) | Build | RunBundle (b : binary) | RunEntrypoint (b : binary) (name : str).

(** What a call gives back: nothing ([nullptr]), a tree, an ErrorSeq, a lone Error node, or an exception. *)
Inductive reply := Done | Tree (n : node) | ErrorSeq (e : errors) | LoneError (message : str) | LoneErrorNode (e : errors) | Exception (message : str).

Definition bump (s : state) : state :=
  mkState (m_dataseq s) (m_moduleseq s) (m_input s) (m_query s) (m_entrypoints s) (m_data_count s + 1).
Definition push_data (s : state) (n : node) : state :=
  mkState (m_dataseq s ++ [n]) (m_moduleseq s) (m_input s) (m_query s) (m_entrypoints s) (m_data_count s).
Definition push_module (s : state) (n : node) : state :=
  mkState (m_dataseq s) (m_moduleseq s ++ [n]) (m_input s) (m_query s) (m_entrypoints s) (m_data_count s).
Definition put_input (s : state) (n : node) : state :=
  mkState (m_dataseq s) (m_moduleseq s) n (m_query s) (m_entrypoints s) (m_data_count s).
Definition put_query (s : state) (n : node) : state :=
  mkState (m_dataseq s) (m_moduleseq s) (m_input s) n (m_entrypoints s) (m_data_count s).
Definition put_entrypoints (s : state) (names : list str) : state :=
  mkState (m_dataseq s) (m_moduleseq s) (m_input s) (m_query s) names (m_data_count s).

(** The shape every reading member has: errors return, otherwise the tree is stored. *)
Definition store (r : reading node errors) (s : state) (put : state -> node -> state) : reply * state :=
  match r with
  | Read n => (Done, put s n)
  | Errors e => (ErrorSeq e, s)
  | Thrown m => (Exception m, s)
  end.

(** The name [add_data_json] gives its text (src/interpreter.cc 228-229). *)
Definition data_name (s : state) : str := $"data" ++ dec (m_data_count s) ++ $".json".

(** src/interpreter.cc 154-176. *)
Definition add_module_file (path : str) (file : option str) (s : state) : reply * state :=
  match file with
  | None => (Exception $"Module file does not exist", s)
  | Some text => store (E.(e_module) path text) (bump s) push_module
  end.
(** src/interpreter.cc 178-199. *)
Definition add_module (name contents : str) (s : state) : reply * state := store (E.(e_module) name contents) (bump s) push_module.
(** src/interpreter.cc 201-222. *)
Definition add_data_json_file (path : str) (file : option str) (s : state) : reply * state :=
  match file with
  | None => (Exception $"Data file does not exist", s)
  | Some text => store (E.(e_data) path text) (bump s) push_data
  end.
(** src/interpreter.cc 224-243. *)
Definition add_data_json (contents : str) (s : state) : reply * state := store (E.(e_data) (data_name s) contents) (bump s) push_data.
(** src/interpreter.cc 245-261. *)
Definition add_data (n : node) (s : state) : reply * state := store (E.(e_data_node) n) (bump s) push_data.
(** src/interpreter.cc 263-283. *)
Definition set_input_json_file (file : option str) (s : state) : reply * state :=
  match file with
  | None => (Exception $"Input file does not exist", s)
  | Some text => store (E.(e_input_json) text) s put_input
  end.
(** src/interpreter.cc 285-299. *)
Definition set_input_term (term : str) (s : state) : reply * state := store (E.(e_input_term) term) s put_input.
(** src/interpreter.cc 301-316. *)
Definition set_input_json (contents : str) (s : state) : reply * state := store (E.(e_input_json) contents) s put_input.
(** src/interpreter.cc 318-360. *)
Definition set_input (n : input_node) (s : state) : reply * state :=
  match n with
  | JsonTree t => store (E.(e_input_node) t) s put_input
  | RegoTree t => (Done, put_input s (E.(e_to_term) t))
  | InputTree t => (Done, put_input s t)
  | OtherTree t => (LoneErrorNode (invalid_input t), s)
  end.
(** src/interpreter.cc 362-378. *)
Definition set_query (text : str) (s : state) : reply * state := store (E.(e_query) text) s put_query.
(** src/interpreter.cc 432-461. *)
Definition query_bundle (b : binary) (entrypoint : option str) (s : state) : reply :=
  match E.(e_run) b entrypoint (m_input s) with
  | Read n => Tree n
  | Errors e => ErrorSeq e
  | Thrown m => LoneError m
  end.
(** src/interpreter.cc 406-430: no entry points, and an exception of [from_node] is not caught. *)
Definition query_node (s : state) : reply :=
  match E.(e_bundle) [] (m_dataseq s) (m_moduleseq s) (m_query s) with
  | Errors e => ErrorSeq e
  | Thrown m => Exception m
  | Read n =>
      match E.(e_from_node) n with
      | Read b => query_bundle b None s
      | Errors e => ErrorSeq e
      | Thrown m => Exception m
      end
  end.
(** src/interpreter.cc 400-404: what [set_query] returns is dropped, an exception is not. *)
Definition query_node_text (text : str) (s : state) : reply * state :=
  match set_query text s with
  | (Exception m, s') => (Exception m, s')
  | (_, s') => (query_node s', s')
  end.
(** src/interpreter.cc 520-549. *)
Definition build (s : state) : reply :=
  match E.(e_bundle) (m_entrypoints s) (m_dataseq s) (m_moduleseq s) (m_query s) with
  | Read n => Tree n
  | Errors e => ErrorSeq e
  | Thrown m => Exception m
  end.

Definition step (c : call) (s : state) : reply * state :=
  match c with
  | AddModuleFile path file => add_module_file path file s
  | AddModule name contents => add_module name contents s
  | AddDataFile path file => add_data_json_file path file s
  | AddDataJson contents => add_data_json contents s
  | AddData n => add_data n s
  | SetInputFile _ file => set_input_json_file file s
  | SetInputTerm term => set_input_term term s
  | SetInputJson contents => set_input_json contents s
  | SetInput n => set_input n s
  | SetQuery text => set_query text s
  (* src/interpreter.cc 380-398 *)
  | SetEntrypoints names => (Done, put_entrypoints s names)
  | AddEntrypoint name => (Done, put_entrypoints s (m_entrypoints s ++ [name]))
  | Query => (query_node s, s)
  | QueryText text => query_node_text text s
  | Build => (build s, s)
  | RunBundle b => (query_bundle b None s, s)
  | RunEntrypoint b name => (query_bundle b (Some name) s, s)
  end.

(** The replies to a history of calls, and the state after it. *)
Fixpoint run (h : list call) (s : state) : list reply * state :=
  match h with
  | [] => ([], s)
  | c :: h' =>
      let '(r, s') := step c s in
      let '(rs, s'') := run h' s' in
      (r :: rs, s'')
  end.
Definition replies (h : list call) : list reply := fst (run h fresh).

(** ** The C interface *)

(** The interpreter and [m_c_error]. *)
Record c_state := mkC { c_interp : state; c_error : str }.
Definition set_error (s : c_state) (m : str) : c_state := mkC (c_interp s) m.

(** [ok_or_error] inside the [try] of each function (src/rego_c.cc 12-22, 320-332 and the others): anything but [nullptr] is thrown as
    its text, and caught.  A tree never comes back from these members. *)
Definition c_finish (r : reply) (s : c_state) : Z * c_state :=
  match r with
  | Done | Tree _ => (REGO_OK, s)
  | ErrorSeq e | LoneErrorNode e => (REGO_ERROR, set_error s (E.(e_print) e))
  | LoneError m | Exception m => (REGO_ERROR, set_error s m)
  end.
Definition c_run (c : call) (s : c_state) : Z * c_state :=
  let '(r, i) := step c (c_interp s) in c_finish r (mkC i (c_error s)).
(** [check_c_str] (src/rego_c.cc 36-46). *)
Definition with_text (name : str) (p : option str) (s : c_state) (k : str -> Z * c_state) : Z * c_state :=
  match p with
  | None => (REGO_ERROR, set_error s (name ++ $" must not be null"))
  | Some t => k t
  end.

(** [None] is a null pointer.  The builder's status and topmost tree come with regoSetInput. *)
Inductive c_call :=
| regoAddModuleFile (path : option str) (file : option str) | regoAddModule (name contents : option str)
| regoAddDataJSONFile (path : option str) (file : option str) | regoAddDataJSON (contents : option str)
| regoSetInputJSONFile (path : option str) (file : option str) | regoSetInputTerm (contents : option str)
| regoSetInput (input : option (Z * option input_node))
| regoSetQuery (query_expr : option str) | regoAddEntrypoint (entrypoint : option str).

(** src/rego_c.cc 313-490, 716-757. *)
Definition c_step (c : c_call) (s : c_state) : Z * c_state :=
  match c with
  | regoAddModuleFile path file => with_text $"path" path s (fun p => c_run (AddModuleFile p file) s)
  | regoAddModule name contents =>
      with_text $"name" name s (fun n => with_text $"contents" contents s (fun t => c_run (AddModule n t) s))
  | regoAddDataJSONFile path file => with_text $"path" path s (fun p => c_run (AddDataFile p file) s)
  | regoAddDataJSON contents => with_text $"contents" contents s (fun t => c_run (AddDataJson t) s)
  | regoSetInputJSONFile path file => with_text $"path" path s (fun p => c_run (SetInputFile p file) s)
  | regoSetInputTerm contents => with_text $"contents" contents s (fun t => c_run (SetInputTerm t) s)
  | regoSetInput None => (REGO_ERROR, set_error s $"input must not be null")
  | regoSetInput (Some (_, None)) => (REGO_ERROR, set_error s $"Empty input")
  | regoSetInput (Some (status, Some n)) =>
      if status =? REGO_OK then c_run (SetInput n) s else (status, set_error s $"Input is in error state")
  | regoSetQuery query_expr => with_text $"query_expr" query_expr s (fun t => c_run (SetQuery t) s)
  | regoAddEntrypoint entrypoint => with_text $"entrypoint" entrypoint s (fun t => c_run (AddEntrypoint t) s)
  end.

(** regoQuery, regoBundleQuery and regoBundleQueryEntrypoint (src/rego_c.cc 544-572, 759-833) with arguments that are not null: the
    output, or a null pointer and the error set. *)
Definition c_ask (c : call) (s : c_state) : option reply * c_state :=
  let '(r, i) := step c (c_interp s) in
  match r with
  | Exception m => (None, mkC i m)
  | _ => (Some r, mkC i (c_error s))
  end.

End Interpreter.
Arguments call : clear implicits.
Arguments input_node : clear implicits.
Arguments reply : clear implicits.
Arguments state : clear implicits.
Arguments c_call : clear implicits.
Arguments c_state : clear implicits.
