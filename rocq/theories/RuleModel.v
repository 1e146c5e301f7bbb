(** Model of the compilation of rules to functions: the rule cases of the pass [lift_functions] (src/rego_to_bundle.cc
    4319-4800), [get_inner] and [add_literal_to_block] (src/internal.cc 929-1003), and the function and entry point cases of
    the pass [add_plans] with its helpers (src/rego_to_bundle.cc 5397-6027).
    The statements themselves (the code of expressions) are taken as given, as [ir] of PlanModel.
    Simplifications: source locations are left out; an [err] node anywhere in the result is [None] (the build then fails);
    [fresh i j d] stands for the name Trieste's [fresh] returns for body [i], block [j], depth [d]. *)
From Coq Require Import String ZArith List Bool.
From Verif Require Import Base ValueModel VmModel PlanModel StrModel.
Import ListNotations.
Local Open Scope Z_scope.

Definition nir := ir str str.
Definition nop := op str str.

(** [OpBlock]: an operand and the code that computes it. *)
Record opblock := Ob { ob_op : nop; ob_code : list nir }.

(** ** Code at the innermost place *)

(** src/internal.cc 929-976 [get_inner], followed by appending [k] there: the end of the block, or of the innermost block of a
    last Scan or With.  In the passes modelled here the last child of a WithStmt is a Block. *)
Section Inner.
  Context {L S' : Type}.
  Definition at_last (f : ir L S' -> list (ir L S')) (k : list (ir L S')) : list (ir L S') -> list (ir L S') :=
    fix go b := match b with [] => k | [st] => f st | st :: b' => st :: go b' end.
  Fixpoint append_stmt (k : list (ir L S')) (st : ir L S') : list (ir L S') :=
    match st with
    | IScan x key val body => [IScan x key val (at_last (append_stmt k) k body)]
    | IWith x path v body => [IWith x path v (at_last (append_stmt k) k body)]
    | _ => st :: k
    end.
  Definition append_inner (b k : list (ir L S')) : list (ir L S') := at_last (append_stmt k) k b.
End Inner.

(** ** The literals of a query *)

(** A literal is an expression (its value and code), an assignment (code) or a statement. *)
Inductive literal := LExpr (e : opblock) | LAssign (code : list nir) | LStmt (st : nir).

(** src/internal.cc 978-1003 [add_literal_to_block]. *)
Definition add_literal (b : list nir) (l : literal) : list nir :=
  match l with
  | LExpr e => append_inner (b ++ ob_code e) [INotEqual (ob_op e) (OBool false)]
  | LAssign code => b ++ code
  | LStmt st => b ++ [st]
  end.
Definition query_block (q : list literal) : list nir := fold_left add_literal q [].

(** ** Definitions of a rule *)

(** [CompBlockSeq], [SetBlockSeq], [ObjValBlockSeq]: a value and the blocks that establish it. *)
Record instance := Inst { in_value : opblock; in_blocks : list (list nir) }.
Inductive rbody :=
| BDefault (o : opblock)
| BBody (l : list instance)
| BSet (i : instance)
| BObjStatic (ident : str) (key : opblock) (l : list instance)
| BObjDynamic (path : list opblock) (i : instance)
| BSetDynamic (path : list opblock) (i : instance)
| BData (doc : str) (code : list nir).

(** One element of a RuleBodySeq: a query, or [else] with its value and query. *)
Record part := Part { pt_else : option opblock; pt_query : list literal }.

(** src/rego_to_bundle.cc 4388-4410, 4500-4522, 4696-4716: [current] collects blocks until the next [else]. *)
Fixpoint instances (current : instance) (l : list part) : list instance :=
  match l with
  | [] => [current]
  | p :: l' =>
      match pt_else p with
      | Some v => current :: instances (Inst v [query_block (pt_query p)]) l'
      | None => instances (Inst (in_value current) (in_blocks current ++ [query_block (pt_query p)])) l'
      end
  end.
(** 4359-4421 and 4463-4533 (complete rules and functions). *)
Definition lift_body (value : opblock) (l : list part) : rbody := BBody (instances (Inst value []) l).
(** 4323-4357 and 4423-4461 (default rules): the query's literals go behind the value's code. *)
Definition lift_default (value : opblock) (q : list literal) : rbody :=
  BDefault (Ob (ob_op value) (fold_left add_literal q (ob_code value))).
(** 4538-4597 (sets): [else] is an error. *)
Definition lift_set (value : opblock) (l : list part) : option rbody :=
  if existsb (fun p => match pt_else p with Some _ => true | None => false end) l then None
  else Some (BSet (Inst value (map (fun p => query_block (pt_query p)) l))).
(** 4663-4731 (objects with a constant key). *)
Definition lift_object (ident : str) (key value : opblock) (l : list part) : rbody :=
  BObjStatic ident key (instances (Inst value []) l).

(** ** Blocks of a definition *)

(** src/rego_to_bundle.cc 5397-5412. *)
Definition check_operand_is_defined (o : nop) : list nir :=
  match o with
  | OLocal x => if prefixb $"number$" x || prefixb $"null$" x then [] else [IIsDefined x]
  | _ => []
  end.

Section Lower.
Variable fresh : nat -> nat -> nat -> str.

(** All or nothing: one [None] is an error in the tree. *)
Fixpoint all_some {A} (l : list (option A)) : option (list A) :=
  match l with
  | [] => Some []
  | Some x :: l' => match all_some l' with Some r => Some (x :: r) | None => None end
  | None :: _ => None
  end.

(** 5626-5644 [_body_block_add], with the statements already in [dst_block]. *)
Definition body_block_add (dst src : list nir) (value : opblock) (x : str) (check_undefined : bool) : list nir :=
  append_inner (dst ++ (if check_undefined then [IIsUndefined x] else []) ++ ob_code value ++ src)
    (check_operand_is_defined (ob_op value) ++ [IAssignVarOnce (ob_op value) x]).

(** 5660-5711: the block of one instance; [first] is i = 0. *)
Fixpoint chained (first : bool) (blocks : list (list nir)) (value : opblock) (x : str) : list (list nir) :=
  match blocks with
  | [] => []
  | b :: bs => body_block_add [] b value x (negb first) :: chained false bs value x
  end.
Definition instance_block (first : bool) (i : instance) (x : str) : option (list nir) :=
  let start := if first then [] else [IIsUndefined x] in
  match in_blocks i with
  | [] => None
  | [b] => Some (body_block_add start b (in_value i) x false)
  | bs => Some (start ++ [IBlock (chained true bs (in_value i) x)])
  end.
Fixpoint instance_blocks (first : bool) (l : list instance) (x : str) : list (option (list nir)) :=
  match l with
  | [] => []
  | i :: l' => instance_block first i x :: instance_blocks false l' x
  end.

(** 5646-5726 [body_block]; [n] is the number of the body. *)
Definition body_block (n : nat) (l : list instance) (ret : str) : option (list nir) :=
  let several := (1 <? length l)%nat in
  let x := if several then fresh n 0 0 else ret in
  match all_some (instance_blocks true l x) with
  | None => None
  | Some bs =>
      match (if several then [[IResetLocal x]] else []) ++ bs ++
            (if several then [[IIsDefined x; IAssignVarOnce (OLocal x) ret]] else []) with
      | [] => None
      | seq => Some [IBlock seq]
      end
  end.

(** 5414-5445 [bodyset_block]. *)
Definition bodyset_block (i : instance) (ret : str) : option (list nir) :=
  match in_blocks i with
  | [] => None
  | bs => Some [IBlock (map (fun b => append_inner (ob_code (in_value i) ++ b)
                                        (check_operand_is_defined (ob_op (in_value i)) ++
                                         [ISetAdd (ob_op (in_value i)) ret])) bs)]
  end.

(** 5728-5800 [bodyobjstatic_block].  Line 5779 tests the pointer [bodyinstance_blockseq], not whether the sequence is empty:
    an instance with several blocks is always an error. *)
Definition objstatic_instance (first : bool) (i : instance) (x : str) : option (list nir) :=
  match in_blocks i with
  | [b] => Some (body_block_add (if first then [] else [IIsUndefined x]) b (in_value i) x false)
  | _ => None
  end.
Fixpoint objstatic_instances (first : bool) (l : list instance) (x : str) : list (option (list nir)) :=
  match l with
  | [] => []
  | i :: l' => objstatic_instance first i x :: objstatic_instances false l' x
  end.
Definition bodyobjstatic_block (key : opblock) (l : list instance) (x ret : str) : option (list nir) :=
  match all_some (objstatic_instances true l x) with
  | None => None
  | Some bs => Some [IBlock (ob_code key :: bs ++ [[IIsDefined x; IObjectInsertOnce (ob_op key) (OLocal x) ret]])]
  end.

(** 5479-5528 and 5574-5612: the statements that follow the body of a dynamic object or set.  [check_operand_is_defined] is
    called with the OpBlock instead of its operand and emits nothing.  [d] counts the fresh names. *)
Definition find_or (make : str -> nir) (parent : str) (k : nop) (x : str) : nir :=
  IBlock [[IResetLocal x]; [IDot (OLocal parent) k x]; [IIsUndefined x; make x]].
Fixpoint insert_path (n j d : nat) (parent : str) (path : list opblock) (value : nop) : list nir :=
  match path with
  | [] => []
  | [k] => [IObjectInsertOnce (ob_op k) value parent]
  | p :: path' =>
      let child := fresh n j d in
      [find_or IMakeObject parent (ob_op p) child] ++ insert_path n j (S d) child path' value ++
      [IObjectInsert (ob_op p) (OLocal child) parent]
  end.
Fixpoint add_path (n j d : nat) (parent : str) (path : list opblock) (value : nop) : list nir :=
  match path with
  | [] => []
  | [k] =>
      let set := fresh n j d in
      [find_or IMakeSet parent (ob_op k) set; ISetAdd value set; IObjectInsert (ob_op k) (OLocal set) parent]
  | p :: path' =>
      let child := fresh n j d in
      [find_or IMakeObject parent (ob_op p) child] ++ add_path n j (S d) child path' value ++
      [IObjectInsert (ob_op p) (OLocal child) parent]
  end.
(** 5447-5540 [bodysetdynamic_block] and 5542-5624 [bodyobjdynamic_block]; [tail] is one of the two above.  The path is not
    empty (wf_ir_lift_functions). *)
Fixpoint dynamic_blocks (tail : nat -> list nir) (j : nat) (path : list opblock) (value : opblock) (bs : list (list nir))
  : list (list nir) :=
  match bs with
  | [] => []
  | b :: bs' => append_inner (ob_code value ++ flat_map ob_code path ++ b) (tail j)
                :: dynamic_blocks tail (S j) path value bs'
  end.
Definition dynamic_block (tail : nat -> list nir) (path : list opblock) (i : instance) : option (list nir) :=
  match path, in_blocks i with
  | [], _ | _, [] => None
  | _, bs => Some [IBlock (dynamic_blocks tail 0 path (in_value i) bs)]
  end.

(** ** Functions: src/rego_to_bundle.cc 5840-5984 *)

Definition is_object (b : rbody) : bool :=
  match b with BObjStatic _ _ _ | BObjDynamic _ _ | BSetDynamic _ _ => true | _ => false end.
Definition is_set (b : rbody) : bool := match b with BSet _ => true | _ => false end.

(** 5848-5906: the first block and the bodies that are left ([bodyseq->replace_at(0)] removes the first). *)
Definition start_block (ret : str) (l : list rbody) : option (list nir * list rbody) :=
  if existsb is_object l then
    let '(code, l') := match l with
                       | BData doc c :: l' => (c ++ [IAssignVar (OLocal doc) ret], l')
                       | _ => ([IMakeObject ret], l)
                       end in
    if forallb is_object l' then Some (IResetLocal ret :: code, l') else None
  else if existsb is_set l then
    let '(code, l') := match l with
                       | BData doc c :: l' => (c ++ [IAssignVar (OLocal doc) ret], l')
                       | _ => ([IMakeSet ret], l)
                       end in
    if forallb is_set l' then Some (IResetLocal ret :: code, l') else None
  else Some ([IResetLocal ret], l).

(** 5941-5946; the value of the ident is unquoted by [strip_quotes]. *)
Definition objval_name (prefix ident : str) : str := prefix ++ $"#" ++ strip_quotes ident.

(** 5908-5970: the blocks of the bodies from number [n] on, and the default met ([None] inside: none). *)
Fixpoint lower_bodies (n : nat) (prefix : str) (seen : list str) (def : option opblock) (ret : str) (l : list rbody)
  : option (list (list nir) * option opblock) :=
  match l with
  | [] => Some ([], def)
  | b :: l' =>
      let cons (blocks : option (list (list nir))) seen' :=
        match blocks, lower_bodies (S n) prefix seen' def ret l' with
        | Some bs, Some (r, d) => Some (bs ++ r, d)
        | _, _ => None
        end in
      let one o := match o with Some x => Some [x] | None => None end in
      match b with
      | BDefault o =>
          match def with
          | None => lower_bodies (S n) prefix seen (Some o) ret l'
          | Some _ => None
          end
      | BBody is_ => cons (one (body_block n is_ ret)) seen
      | BSet i => cons (one (bodyset_block i ret)) seen
      | BObjStatic ident key is_ =>
          let x := objval_name prefix ident in
          let reset := if existsb (str_eqb x) seen then [] else [[IResetLocal x]] in
          cons (match bodyobjstatic_block key is_ x ret with Some bl => Some (reset ++ [bl]) | None => None end) (x :: seen)
      | BObjDynamic path i => cons (one (dynamic_block (fun j => insert_path n j 0 ret path (ob_op (in_value i))) path i)) seen
      | BSetDynamic path i => cons (one (dynamic_block (fun j => add_path n j 0 ret path (ob_op (in_value i))) path i)) seen
      | BData _ _ => None
      end
  end.

(** 5840-5984; [prefix] is the fresh name "bodyobj". *)
Definition default_block (ret : str) (o : opblock) : list nir :=
  IIsUndefined ret :: ob_code o ++ [IAssignVarOnce (ob_op o) ret].
Definition return_block (ret : str) : list nir := [IIsDefined ret; IReturnLocal ret].
Definition lower_function (prefix ret : str) (l : list rbody) : option (list (list nir)) :=
  match start_block ret l with
  | None => None
  | Some (start, l') =>
      match lower_bodies 0 prefix [] None ret l' with
      | None => None
      | Some (blocks, def) =>
          Some (start :: blocks ++ (match def with Some o => [default_block ret o] | None => [] end) ++ [return_block ret])
      end
  end.

(** ** Entry points: src/rego_to_bundle.cc 5992-6034 *)
Definition entry_plan (name obj index val : str) (e : opblock) : option (pl str str) :=
  match ob_op e with
  | OLocal x =>
      let give v := [IObjectInsert (OString $"result") (OLocal v) obj; IResultSetAdd obj] in
      Some {| l_name := name;
              l_blocks := [ob_code e;
                           if prefixb $"querymodule$" name
                           then [IIsDefined x; IScan x index val (IMakeObject obj :: give val)]
                           else IMakeObject obj :: IIsDefined x :: give x] |}
  | _ => None
  end.
End Lower.
