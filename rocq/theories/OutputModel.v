(** Reading answers: src/output.cc, and the output and node functions of the C interface (src/rego_c.cc 898-1191).
    Simplifications: the syntax trees of errors are left out, and so is the text of errors apart from message and code; the
    buffers in which texts are returned are in CApiModel. *)
From Coq Require Import String ZArith NArith List Bool.
From Verif Require Import Base ValueModel VmModel CApiModel.
Import ListNotations.
Local Open Scope Z_scope.

(** The tokens of an answer (include/rego/rego.hh 207-221 [wf_result]). *)
Inductive token :=
| KBinding | KVar | KTerm | KScalar | KArray | KSet | KObject | KObjectItem | KInt | KFloat | KString | KTrue | KFalse | KNull
| KUndefined | KTerms | KBindings | KResults | KResult | KError | KErrorMsg | KErrorAst | KErrorCode | KErrorSeq.
Definition token_eq_dec (a b : token) : {a = b} + {a <> b}.
Proof. decide equality. Defined.
(** A node: token, text ([location().view()]) and children. *)
Inductive node := Node (k : token) (text : str) (l : list node).
Definition n_token (n : node) : token := match n with Node k _ _ => k end.
Definition n_text (n : node) : str := match n with Node _ t _ => t end.
Definition n_kids (n : node) : list node := match n with Node _ _ l => l end.
Definition is (k : token) (n : node) : bool := if token_eq_dec (n_token n) k then true else false.

(** ** The C interface: nodes *)

(** src/rego_c.cc 987-1113 [regoNodeType], the numbers of include/rego/rego_c.h 55-79. *)
Definition node_type (n : node) : Z :=
  match n_token n with
  | KBinding => 1000 | KVar => 1001 | KTerm => 1002 | KScalar => 1003 | KArray => 1004 | KSet => 1005 | KObject => 1006
  | KObjectItem => 1007 | KInt => 1008 | KFloat => 1009 | KString => 1010 | KTrue => 1011 | KFalse => 1012 | KNull => 1013
  | KUndefined => 1014 | KTerms => 1015 | KBindings => 1016 | KResults => 1017 | KResult => 1018
  | KError => 1800 | KErrorMsg => 1801 | KErrorAst => 1802 | KErrorCode => 1803 | KErrorSeq => 1804
  end.
(** src/rego_c.cc 1146-1160 [regoNodeValue], with a buffer that is large enough (CApiModel.get_text). *)
Definition node_value (n : node) : str := n_text n.
(** src/rego_c.cc 1162-1167 [regoNodeSize]. *)
Definition node_size (n : node) : Z := to_size (zlen (n_kids n)).
(** src/rego_c.cc 1180-1188: the child inside a Term or Scalar; the first child of a node without children is out of range. *)
Definition into (k : token) (n : node) : outcome node :=
  if is k n then match n_kids n with c :: _ => Ok c | [] => Ub end else Ok n.
(** src/rego_c.cc 1169-1191 [regoNodeGet]: [None] is a null pointer. *)
Definition node_get (n : node) (index : Z) : outcome (option node) :=
  match nth_error (n_kids n) (Z.to_nat index) with
  | None => Ok None
  | Some c => let! a := into KTerm c in let! b := into KScalar a in Ok (Some b)
  end.

(** ** Outputs.  The node of an output may be a null pointer. *)

(** src/output.cc 24-27 [ok]. *)
Definition ok (o : option node) : bool := match o with None => false | Some n => negb (is KErrorSeq n) end.
(** 34-37 [size]. *)
Definition size (o : option node) : outcome Z := match o with None => Ub | Some n => Ok (zlen (n_kids n)) end.
(** The field of a node by its token (Trieste's operator/); a node without such a field throws. *)
Definition field (n : node) (k : token) : outcome node := match find (is k) (n_kids n) with Some c => Ok c | None => Throw end.
(** 39-54 and 62-73: the result at an index. *)
Definition result_at (o : option node) (index : Z) : outcome node :=
  match o with
  | None => Throw
  | Some n => if is KErrorSeq n then Throw else match nth_error (n_kids n) (Z.to_nat index) with None => Throw | Some r => Ok r end
  end.
(** 39-54 [expressions_at]. *)
Definition expressions_at (o : option node) (index : Z) : outcome node := let! r := result_at o index in field r KTerms.
(** The bindings in the symbol table of a result (Trieste's [lookdown]): those with this name, in order. *)
Definition binds_name (name : str) (b : node) : bool :=
  is KBinding b && match n_kids b with v :: _ => str_eqb (n_text v) name | [] => false end.
Definition look (r : node) (name : str) : list node := flat_map (fun b => filter (binds_name name) (n_kids b)) (filter (is KBindings) (n_kids r)).
(** 61-84 [binding_at]. *)
Definition binding_at (o : option node) (index : Z) (name : str) : outcome node :=
  let! r := result_at o index in
  match look r name with
  | [] => Throw
  | Node _ _ [_; val] :: _ => match n_kids val with c :: _ => Ok c | [] => Ub end
  | _ => Throw
  end.
(** 96-120 [errors]: message and code of each error. *)
Definition error_text (e : node) : outcome (str * str) :=
  match n_kids e with
  | m :: _ :: l => Ok (n_text m, match find (is KErrorCode) (n_kids e) with Some c => n_text c | None => [] end)
  | _ => Ub
  end.
Fixpoint error_texts (l : list node) : outcome (list (str * str)) :=
  match l with [] => Ok [] | e :: l' => let! a := error_text e in let! r := error_texts l' in Ok (a :: r) end.
Definition errors (o : option node) : outcome (list (str * str)) :=
  if ok o then Ok [] else match o with None => Ub | Some n => error_texts (n_kids n) end.

(** ** The C interface: outputs *)

(** src/rego_c.cc 899-908 [regoOutputOk]; [None] is a null output. *)
Definition api_ok (h : option (option node)) : bool := match h with None => false | Some o => ok o end.
(** 910-914 [regoOutputSize]. *)
Definition api_size (h : option (option node)) : outcome Z := match h with None => Ub | Some o => let! n := size o in Ok (to_size n) end.
(** 916-922 [regoOutputExpressionsAtIndex]; an exception leaves the C function. *)
Definition api_expressions_at (h : option (option node)) (index : Z) : outcome (option node) :=
  match h with None => Ub | Some o => let! n := expressions_at o index in Ok (Some n) end.
(** 937-949 [regoOutputBindingAtIndex]; the name may be a null pointer. *)
Definition api_binding_at (h : option (option node)) (index : Z) (name : option str) : outcome (option node) :=
  match name with None => Ok None | Some x => match h with None => Ub | Some o => let! n := binding_at o index x in Ok (Some n) end end.

(** ** The nodes of answers *)

(** What can be the node of a value, inside its Term: Numbers have their text; a string may be written with its quotes, as
    Resolver::scalar does (src/resolver.cc 281-284), or without, as operands of the virtual machine are
    (src/virtual_machine.cc 306).  [VErr] is an Error node in a document. *)
Inductive shows : value -> node -> Prop :=
| shows_null t : shows VNull (Node KTerm [] [Node KScalar [] [Node KNull t []]])
| shows_true t : shows VTrue (Node KTerm [] [Node KScalar [] [Node KTrue t []]])
| shows_false t : shows VFalse (Node KTerm [] [Node KScalar [] [Node KFalse t []]])
| shows_int t : shows (VInt t) (Node KTerm [] [Node KScalar [] [Node KInt t []]])
| shows_float t : shows (VFloat t) (Node KTerm [] [Node KScalar [] [Node KFloat t []]])
| shows_string t : shows (VString t) (Node KTerm [] [Node KScalar [] [Node KString t []]])
| shows_quoted t : shows (VString t) (Node KTerm [] [Node KScalar [] [Node KString (quote t) []]])
| shows_array l ns : shows_list l ns -> shows (VArray l) (Node KTerm [] [Node KArray [] ns])
| shows_set l ns : shows_list l ns -> shows (VSet l) (Node KTerm [] [Node KSet [] ns])
| shows_object l ns : shows_items l ns -> shows (VObject l) (Node KTerm [] [Node KObject [] ns])
| shows_error c m a : shows (VErr c) (Node KTerm [] [Node KError [] [Node KErrorMsg m []; Node KErrorAst [] a; Node KErrorCode c []]])
with shows_list : list value -> list node -> Prop :=
| shows_nil : shows_list [] []
| shows_cons v l n ns : shows v n -> shows_list l ns -> shows_list (v :: l) (n :: ns)
with shows_items : list (value * value) -> list node -> Prop :=
| shows_no : shows_items [] []
| shows_item k v l a b ns : shows k a -> shows v b -> shows_items l ns -> shows_items ((k, v) :: l) (Node KObjectItem [] [a; b] :: ns).
(** src/virtual_machine.cc 395-449 and 488-513: the node of a result. *)
Inductive shows_bindings : list (str * value) -> list node -> Prop :=
| shows_free : shows_bindings [] []
| shows_bound x v l n ns : shows v n -> shows_bindings l ns -> shows_bindings ((x, v) :: l) (Node KBinding [] [Node KVar x []; n] :: ns).
Inductive shows_result : result -> node -> Prop :=
| shows_row ts bs ns ms : shows_list ts ns -> shows_bindings bs ms ->
    shows_result {| r_terms := ts; r_bindings := bs |} (Node KResult [] [Node KTerms [] ns; Node KBindings [] ms]).
Definition error_node (code : str) (n : node) : Prop := exists m a, n = Node KError [] [Node KErrorMsg m []; Node KErrorAst [] a; Node KErrorCode code []].
(** src/virtual_machine.cc 365-516; the Error node of an exception: src/interpreter.cc 431-460. *)
Inductive shows_output : output -> node -> Prop :=
| shows_undefined : shows_output QUndefined (Node KUndefined [] [])
| shows_errors cs ns : Forall2 error_node cs ns -> shows_output (QErrors cs) (Node KErrorSeq [] ns)
| shows_results rs ns : Forall2 shows_result rs ns -> shows_output (QResults rs) (Node KResults [] ns)
| shows_exception c n : error_node c n -> shows_output QError n.
