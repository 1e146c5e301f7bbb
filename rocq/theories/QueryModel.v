(** Model of the compilation of a query to the function that lists its solutions: the case for RuleHeadQuery in the pass
    [lift_functions] (src/rego_to_bundle.cc 4796-4938), and what [add_plans] makes of its result (5626-5726, 5840-5984).
    Simplifications: as in RuleModel; texts and positions are given with each literal. *)
From Coq Require Import String ZArith List Bool.
From Verif Require Import Base BigIntSpec ValueModel ResolverModel VmModel PlanModel StrModel RuleModel.
Import ListNotations.
Local Open Scope Z_scope.

(** The place of an expression in the text of the query: its position, its text (already escaped) and its row and column as
    decimal numbers. *)
Record place := Place { pc_pos : Z; pc_text : str; pc_row : str; pc_col : str }.
(** A literal with its place; [None] stands for a literal with an empty location (one the compiler added). *)
Definition placed := (literal * option place)%type.
(** An expression of the query: its place and its operand. *)
Definition expression := (place * nop)%type.

(** src/rego_to_bundle.cc 4820-4830: the results of expressions inside a "some ... in", those with a text. *)
Definition given (l : list (option place * nop)) : list expression :=
  flat_map (fun e => match fst e with Some p => [(p, snd e)] | None => [] end) l.
(** 4835-4855: the results of the literals.  A statement has none. *)
Definition literal_result (l : placed) : list expression :=
  match l with
  | (LExpr e, Some p) => [(p, ob_op e)]
  | (LAssign _, Some p) => [(p, OBool true)]
  | _ => []
  end.
(** 4858-4861 [std::sort] by position.  [std::sort] is not stable; positions of different literals are different. *)
Fixpoint insert_expr (e : expression) (l : list expression) : list expression :=
  match l with
  | [] => [e]
  | e' :: l' => if pc_pos (fst e) <? pc_pos (fst e') then e :: l else e' :: insert_expr e l'
  end.
Definition sort_exprs (l : list expression) : list expression := fold_left (fun acc e => insert_expr e acc) l [].
Definition expressions (more : list (option place * nop)) (q : list placed) : list expression :=
  sort_exprs (given more ++ flat_map literal_result q).

(** 35-38 [is_temporary]. *)
Definition is_temporary (x : str) : bool := existsb (Z.eqb 36) x.
Definition shown (locals : list str) : list str := filter (fun x => negb (is_temporary x)) locals.

(** The names [fresh] returns (4811-4815, 4869-4872; [k] is the number of the expression). *)
Record qnames := Qn {
  q_result : str; q_bindings : str; q_exprs : str; q_body : str;
  q_expr : nat -> str; q_loc : nat -> str; q_row : nat -> str; q_col : nat -> str }.

Section Names.
Variable N : qnames.

(** 4867-4897: one expression. *)
Definition expr_code (k : nat) (e : expression) : list nir :=
  let '(p, o) := e in
  [IMakeObject (q_expr N k);
   IObjectInsert (OString $"value") o (q_expr N k);
   IObjectInsert (OString $"text") (OString (pc_text p)) (q_expr N k);
   IMakeObject (q_loc N k);
   IMakeNumberInt (pc_row p) (q_row N k);
   IMakeNumberInt (pc_col p) (q_col N k);
   IObjectInsert (OString $"row") (OLocal (q_row N k)) (q_loc N k);
   IObjectInsert (OString $"col") (OLocal (q_col N k)) (q_loc N k);
   IObjectInsert (OString $"location") (OLocal (q_loc N k)) (q_expr N k);
   IArrayAppend (q_exprs N) (OLocal (q_expr N k))].
Fixpoint exprs_code (k : nat) (l : list expression) : list nir :=
  match l with [] => [] | e :: l' => expr_code k e ++ exprs_code (S k) l' end.
(** 4899-4912: the bindings. *)
Definition binding_code (x : str) : list nir :=
  [IIsDefined x; IObjectInsert (OString x) (OLocal x) (q_bindings N)].
(** 4863-4924: what is appended to the innermost block of the query. *)
Definition row_code (es : list expression) (xs : list str) : list nir :=
  IMakeArray (dec (zlen es)) (q_exprs N) :: exprs_code 0 es ++ IMakeObject (q_bindings N) :: flat_map binding_code xs ++
  [IMakeObject (q_body N);
   IObjectInsert (OString $"bindings") (OLocal (q_bindings N)) (q_body N);
   IObjectInsert (OString $"expressions") (OLocal (q_exprs N)) (q_body N);
   IArrayAppend (q_result N) (OLocal (q_body N))].
(** 4832-4836: the literals, behind the statement that makes the list of results. *)
Definition result_block (q : list placed) : list nir :=
  fold_left add_literal (map fst q) [IMakeArray $"1" (q_result N)].
(** 4926-4929: the body of the function. *)
Definition lift_query (q : list placed) (more : list (option place * nop)) (locals : list str) : rbody :=
  BBody [Inst (Ob (OLocal (q_result N)) []) [append_inner (result_block q) (row_code (expressions more q) (shown locals))]].

(** 5840-5984 for this body, with [store] the statement that hands the list to the local [ret] the function returns.  The
    compiler emits AssignVarOnce there.  AssignVarOnce makes [ret] the very node [q_result] holds
    (src/virtual_machine.cc 829-846), and when it is reached again [ret] is still this node, to which the next result has
    been appended meanwhile: it finds the same node on both sides and goes on.  VmModel has values instead of nodes, and there
    [IAssignVar] has this effect; so the model of the function stores with [IAssignVar]. *)
Definition query_blocks (store : nir) (ret : str) (q : list placed) (more : list (option place * nop)) (locals : list str)
  : list (list nir) :=
  [[IResetLocal ret];
   [IBlock [append_inner (append_inner (result_block q) (row_code (expressions more q) (shown locals)))
              [IIsDefined (q_result N); store]]];
   return_block ret].
Definition query_function (ret : str) (q : list placed) (more : list (option place * nop)) (locals : list str)
  : list (list nir) :=
  query_blocks (IAssignVar (OLocal (q_result N)) ret) ret q more locals.
End Names.
