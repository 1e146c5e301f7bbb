(** Saving a compiled bundle as two JSON documents, data.json and plan.json, and loading it back: the passes [bundle_to_json] and
    [json_to_bundle] (src/bundle_json.cc) and their use by src/interpreter.cc 581-712.

    The printing and reading of JSON text is the library's: documents are trees here ([jtree]), and [json_ops] are the library's
    [escape] and [unescape].  The source location of a statement (a file number, a row and a column) is written but is not part of
    a loaded statement here, as in PlanModel; the module sources that are saved and loaded beside the two documents, logging and
    the file system (apart from [paths]) are left out.  An error node makes loading fail when it is still in the tree at the end. *)
From Coq Require Import String ZArith List Bool.
From Verif Require Import Base SMap ValueModel ResolverModel VmModel StrModel EncModel JsonModel PlanModel.
Import ListNotations.
Local Open Scope Z_scope.
Local Open Scope list_scope.

(** ** The bundle: include/rego/rego.hh 2215-2275 [wf_bundle], 719-733 [wf_decl] *)

Inductive btype :=
| TyAny | TyString | TyNumber | TyBoolean | TyNull
| TyDynArray (t : btype)
| TyStaticArray (l : list btype)
| TyDynObject (k v : btype)
| TyStaticObject (l : list (str * btype))
| TyHybrid (k v : btype) (l : list (str * btype))
| TySet (t : btype)
| TySeq (l : list btype).
(** [Arg] and [Result]. *)
Record barg := Arg { a_name : str; a_desc : str; a_type : btype }.
(** [Decl]: no arguments means VarArgs, no result means Void. *)
Record bdecl := Decl { d_args : option (list barg); d_result : option barg }.
Record bfun := BFun { f_name : str; f_decl : bdecl }.
Record static := Static { s_strings : list str; s_files : list str; s_funcs : list bfun }.
Record func := Func { u_name : str; u_path : list str; u_params : list str; u_result : str; u_blocks : list (list (ir str str)) }.
Record jbundle := JBundle { j_data : value; j_static : static; j_plans : list (pl str str); j_query : option str; j_functions : list func }.

(** The file system: the last component of a path, and the path a name stands for in the directory of the bundle, if it does not
    lead out of it (1105-1136). *)
Record paths := { p_filename : str -> str; p_resolve : str -> option str }.

(** ** Writing: src/bundle_json.cc 1372-2280 *)

Section Write.
Variable J : json_ops.
Variable P : paths.

(** 1434-1437 [irstring_to_jsonstring]; 1974-1978. *)
Definition quoted (s : str) : jtree := JString (add_quotes (j_escape J s)).
(** 1410-1414. *)
Definition tag (s : str) : jtree := JString (add_quotes s).

(** 1449-1476. *)
Definition operand_json (o : op str str) : jtree :=
  match o with
  | OLocal t => JObject [($"type", tag $"local"); ($"value", JNumber t)]
  | OString t => JObject [($"type", tag $"string_index"); ($"value", JNumber t)]
  | OBool b => JObject [($"type", tag $"bool"); ($"value", if b then JTrue else JFalse)]
  end.
Definition operands_json (l : list (op str str)) : jtree := JArray (map operand_json l).

(** 1372-1403 [add_loc]: the file's number, the row and the column, when the statement comes from one of the files. *)
Definition location := option (str * str * str).
Definition loc_members (x : location) : list (str * jtree) :=
  match x with Some (f, r, c) => [($"file", JNumber f); ($"row", JNumber r); ($"col", JNumber c)] | None => [] end.
Definition stmt_json (name : str) (x : location) (fields : list (str * jtree)) : jtree :=
  JObject [($"type", tag name); ($"stmt", JObject (fields ++ loc_members x))].

(** A loop over a list with the place of each member. *)
Definition mapi {A B} (g : nat -> A -> B) : nat -> list A -> list B :=
  fix go i l := match l with [] => [] | a :: l' => g i a :: go (S i) l' end.

(** 1478-1960, with the location of each statement given by its place in the tree. *)
Variable loc : list nat -> location.
Fixpoint ir_json (pos : list nat) (s : ir str str) : jtree :=
  let out name fields := stmt_json name (loc pos) fields in
  let block pos b := JObject [($"stmts", JArray (mapi (fun i s => ir_json (i :: pos) s) 0 b))] in
  match s with
  | IArrayAppend a v => out $"ArrayAppendStmt" [($"array", JNumber a); ($"value", operand_json v)]
  | IAssignInt v t => out $"AssignIntStmt" [($"value", JNumber v); ($"target", JNumber t)]
  | IAssignVarOnce s t => out $"AssignVarOnceStmt" [($"source", operand_json s); ($"target", JNumber t)]
  | IAssignVar s t => out $"AssignVarStmt" [($"source", operand_json s); ($"target", JNumber t)]
  | IBlock bs => out $"BlockStmt" [($"blocks", JArray (mapi (fun i b => block (i :: pos) b) 0 bs))]
  | IBreak i => out $"BreakStmt" [($"index", JNumber i)]
  | ICall f args r => out $"CallStmt" [($"func", quoted f); ($"args", operands_json args); ($"result", JNumber r)]
  | ICallDynamic path args r => out $"CallDynamicStmt" [($"path", operands_json path); ($"args", operands_json args); ($"result", JNumber r)]
  | IDot s k t => out $"DotStmt" [($"source", operand_json s); ($"key", operand_json k); ($"target", JNumber t)]
  | IEqual a b => out $"EqualStmt" [($"a", operand_json a); ($"b", operand_json b)]
  | IIsArray s => out $"IsArrayStmt" [($"source", operand_json s)]
  | IIsDefined s => out $"IsDefinedStmt" [($"source", JNumber s)]
  | IIsObject s => out $"IsObjectStmt" [($"source", operand_json s)]
  | IIsSet s => out $"IsSetStmt" [($"source", operand_json s)]
  | IIsUndefined s => out $"IsUndefinedStmt" [($"source", JNumber s)]
  | ILen s t => out $"LenStmt" [($"source", operand_json s); ($"target", JNumber t)]
  | IMakeArray c t => out $"MakeArrayStmt" [($"capacity", JNumber c); ($"target", JNumber t)]
  | IMakeNull t => out $"MakeNullStmt" [($"target", JNumber t)]
  | IMakeNumberInt v t => out $"MakeNumberIntStmt" [($"value", JNumber v); ($"target", JNumber t)]
  | IMakeNumberRef i t => out $"MakeNumberRefStmt" [($"index", JNumber i); ($"target", JNumber t)]
  | IMakeObject t => out $"MakeObjectStmt" [($"target", JNumber t)]
  | IMakeSet t => out $"MakeSetStmt" [($"target", JNumber t)]
  | INotEqual a b => out $"NotEqualStmt" [($"a", operand_json a); ($"b", operand_json b)]
  | INot b => out $"NotStmt" [($"block", block pos b)]
  | IObjectInsertOnce k v o => out $"ObjectInsertOnceStmt" [($"key", operand_json k); ($"value", operand_json v); ($"object", JNumber o)]
  | IObjectInsert k v o => out $"ObjectInsertStmt" [($"key", operand_json k); ($"value", operand_json v); ($"object", JNumber o)]
  | IObjectMerge a b t => out $"ObjectMergeStmt" [($"a", JNumber a); ($"b", JNumber b); ($"target", JNumber t)]
  | IResetLocal t => out $"ResetLocalStmt" [($"target", JNumber t)]
  | IResultSetAdd v => out $"ResultSetAddStmt" [($"value", JNumber v)]
  | IReturnLocal s => out $"ReturnLocalStmt" [($"source", JNumber s)]
  | IScan s k v b => out $"ScanStmt" [($"source", JNumber s); ($"key", JNumber k); ($"value", JNumber v); ($"block", block pos b)]
  | ISetAdd v s => out $"SetAddStmt" [($"value", operand_json v); ($"set", JNumber s)]
  | IWith l path v b => out $"WithStmt" [($"local", JNumber l); ($"path", JArray (map JNumber path)); ($"value", operand_json v); ($"block", block pos b)]
  end.
(** 1951-1961. *)
Definition block_json (pos : list nat) (b : list (ir str str)) : jtree := JObject [($"stmts", JArray (mapi (fun i s => ir_json (i :: pos) s) 0 b))].
Definition blocks_json (pos : list nat) (bs : list (list (ir str str))) : jtree := JArray (mapi (fun i b => block_json (i :: pos) b) 0 bs).

(** 1963-1972. *)
Definition strings_json (l : list str) : jtree := JArray (map (fun s => JObject [($"value", quoted s)]) l).
(** 1974-2071. *)
Fixpoint type_json (t : btype) : list (str * jtree) :=
  let item (x : str * btype) := JObject [($"key", quoted (fst x)); ($"value", JObject (type_json (snd x)))] in
  match t with
  | TyAny => [($"type", tag $"any")]
  | TyString => [($"type", tag $"string")]
  | TyNumber => [($"type", tag $"number")]
  | TyBoolean => [($"type", tag $"boolean")]
  | TyNull => [($"type", tag $"null")]
  | TyDynArray t => [($"type", tag $"array"); ($"dynamic", JObject (type_json t))]
  | TyStaticArray l => [($"type", tag $"array"); ($"static", JArray (map (fun t => JObject (type_json t)) l))]
  | TyDynObject k v => [($"type", tag $"object"); ($"dynamic", JObject [($"key", JObject (type_json k)); ($"value", JObject (type_json v))])]
  | TyStaticObject l => [($"type", tag $"object"); ($"static", JArray (map item l))]
  | TyHybrid k v l =>
      [($"type", tag $"object"); ($"dynamic", JObject [($"key", JObject (type_json k)); ($"value", JObject (type_json v))]);
       ($"static", JArray (map item l))]
  | TySet t => [($"type", tag $"set"); ($"of", JObject (type_json t))]
  | TySeq l => [($"type", tag $"any"); ($"of", JArray (map (fun t => JObject (type_json t)) l))]
  end.
(** 2073-2091. *)
Definition optional (k s : str) : list (str * jtree) :=
  match quoted s with JString q => if (2 <? Z.of_nat (length q)) then [(k, JString q)] else [] | _ => [] end.
Definition arg_json (a : barg) : jtree := JObject (type_json (a_type a) ++ optional $"name" (a_name a) ++ optional $"description" (a_desc a)).
(** 2093-2113. *)
Definition decl_json (d : bdecl) : jtree :=
  JObject (match d_args d with Some l => [($"args", JArray (map arg_json l))] | None => [] end ++
           match d_result d with Some r => [($"result", arg_json r)] | None => [] end).
(** 2115-2122. *)
Definition bfun_json (f : bfun) : jtree := JObject [($"name", quoted (f_name f)); ($"decl", decl_json (f_decl f)); ($"type", tag $"function")].
(** 2124-2143: of a file only its name is written, as it is. *)
Definition static_json (s : static) : jtree :=
  JObject [($"strings", strings_json (s_strings s)); ($"builtin_funcs", JArray (map bfun_json (s_funcs s)));
           ($"files", JArray (map (fun f => JObject [($"value", JString (add_quotes (p_filename P f)))]) (s_files s)))].
(** 2145-2150. *)
Definition plan_json (pos : list nat) (p : pl str str) : jtree := JObject [($"name", quoted (l_name p)); ($"blocks", blocks_json pos (l_blocks p))].
(** 2152-2167. *)
Definition func_json (pos : list nat) (f : func) : jtree :=
  JObject [($"name", quoted (u_name f)); ($"path", JArray (map quoted (u_path f))); ($"params", JArray (map JNumber (u_params f)));
           ($"return", JNumber (u_result f)); ($"blocks", blocks_json pos (u_blocks f))].
(** 2236-2255. *)
Definition policy_json (b : jbundle) : jtree :=
  JObject ([($"static", static_json (j_static b));
            ($"plans", JObject [($"plans", JArray (mapi (fun i p => plan_json [i; 0%nat] p) 0 (j_plans b)))]);
            ($"funcs", JObject [($"funcs", JArray (mapi (fun i f => func_json [i; 1%nat] f) 0 (j_functions b)))])] ++
           match j_query b with Some q => [($"query", quoted q)] | None => [] end).
End Write.

(** 2169-2234 are the rules of src/json.cc 231-349 over again.  The two documents save_bundle writes (src/interpreter.cc 592-622). *)
Definition save (L : json_lib) (P : paths) (loc : list nat -> location) (b : jbundle) : option (jtree * jtree) :=
  match rego_to_json L (j_data b) with
  | Some d => Some (d, policy_json (jl_text L) P loc b)
  | None => None
  end.

(** ** Reading: src/bundle_json.cc 16-358 and 360-1370 *)

(** The tree while it is being rewritten.  [option] marks a node with an error in it; [BBad] is one whose kind no longer matters. *)
Inductive bj :=
| BNull | BTrue | BFalse
| BNumber (t : str)
| BString (quoted : str)
| BArray (l : list bj)
| BObject (l : list bm)
| BOperand (o : op str str)
| BStmt (s : ir str str)
| BBlock (b : list (ir str str))
| BBlocks (bs : list (list (ir str str)))
| BBad
with bm :=
| BMember (k : str) (v : bj)
| BStrings (l : option (list str))
| BFuncs (l : option (list bfun))
| BPaths (l : list str)
| BPlans (l : option (list (pl str str)))
| BFunctions (l : option (list func))
| BStatic (s : option static)
| BError.

Definition mapm {A B} (g : A -> option B) : list A -> option (list B) :=
  fix go l := match l with [] => Some [] | a :: l' => match g a, go l' with Some b, Some r => Some (b :: r) | _, _ => None end end.
Notation "'lets' x ':=' e 'in' f" := (match e with Some x => f | None => None end) (at level 200, x name, f at level 200, right associativity).

(** 16-28 [strip_quotes_node]. *)
Definition strip_node (q : str) : str :=
  match q with c :: (_ :: _) as r => if c =? 34 then removelast r else q | _ => q end.

(** 40-76 [object_lookdown]. *)
Definition capital (k : str) : str := match k with c :: r => (if (97 <=? c) && (c <=? 122) then c - 32 else c) :: r | [] => [] end.
Fixpoint first_member (k : str) (l : list bm) : option bj :=
  match l with
  | [] => None
  | BMember k' v :: l' => if str_eqb k k' then Some v else first_member k l'
  | _ :: l' => first_member k l'
  end.
Definition member_of (k : str) (l : list bm) : option bj :=
  match first_member k l with Some v => Some v | None => first_member (capital k) l end.
Definition lookdown (n : bj) (k : str) : option bj := match n with BObject l => member_of k l | _ => None end.
Definition get_number (n : bj) (k : str) : option str := match lookdown n k with Some (BNumber t) => Some t | _ => None end.
Definition get_string (n : bj) (k : str) : option str := match lookdown n k with Some (BString q) => Some q | _ => None end.
Definition get_array (n : bj) (k : str) : option (list bj) := match lookdown n k with Some (BArray l) => Some l | _ => None end.
Definition get_object (n : bj) (k : str) : option bj := match lookdown n k with Some (BObject l) => Some (BObject l) | _ => None end.
Definition get_operand (n : bj) (k : str) : option (op str str) := match lookdown n k with Some (BOperand o) => Some o | _ => None end.
Definition get_block (n : bj) (k : str) : option (list (ir str str)) := match lookdown n k with Some (BBlock b) => Some b | _ => None end.
Definition get_blocks (n : bj) (k : str) : option (list (list (ir str str))) := match lookdown n k with Some (BBlocks b) => Some b | _ => None end.
Definition as_operand (n : bj) : option (op str str) := match n with BOperand o => Some o | _ => None end.
Definition as_number (n : bj) : option str := match n with BNumber t => Some t | _ => None end.
Definition as_stmt (n : bj) : option (ir str str) := match n with BStmt s => Some s | _ => None end.
Definition as_block (n : bj) : option (list (ir str str)) := match n with BBlock b => Some b | _ => None end.
Definition get_operands (n : bj) (k : str) : option (list (op str str)) := lets l := get_array n k in mapm as_operand l.

Section Read.
Variable J : json_ops.
Variable P : paths.

(** 30-33 [to_irstring]. *)
Definition to_irstring (q : str) : str := j_unescape J (strip_node q).
(** The text of a leaf, for the places where a node is used whatever it is (1186, 1195, 1258); the text of an array or an object
    is not modelled there. *)
Definition leaf_text (n : bj) : option str :=
  match n with
  | BNull => Some $"null" | BTrue => Some $"true" | BFalse => Some $"false"
  | BNumber t => Some t | BString q => Some q
  | _ => None
  end.

(** 89-240: recursion over the tree by its size. *)
Fixpoint to_type (fuel : nat) (n : bj) : option btype :=
  match fuel with
  | O => None
  | S fuel =>
      let item x := lets k := get_string x $"key" in lets v := get_object x $"value" in lets t := to_type fuel v in Some (strip_node k, t) in
      lets q := get_string n $"type" in
      let ty := strip_node q in
      if str_eqb ty $"any" then
        match get_array n $"of" with Some l => lets ts := mapm (to_type fuel) l in Some (TySeq ts) | None => Some TyAny end
      else if str_eqb ty $"number" then Some TyNumber
      else if str_eqb ty $"boolean" then Some TyBoolean
      else if str_eqb ty $"string" then Some TyString
      else if str_eqb ty $"null" then Some TyNull
      else if str_eqb ty $"array" then
        match get_array n $"static" with
        | Some l => lets ts := mapm (to_type fuel) l in Some (TyStaticArray ts)
        | None => lets d := get_object n $"dynamic" in lets t := to_type fuel d in Some (TyDynArray t)
        end
      else if str_eqb ty $"object" then
        match get_array n $"static", get_object n $"dynamic" with
        | None, None => None
        | None, Some d =>
            lets k := get_object d $"key" in lets v := get_object d $"value" in
            lets tk := to_type fuel k in lets tv := to_type fuel v in Some (TyDynObject tk tv)
        | Some l, None => lets is_ := mapm item l in Some (TyStaticObject is_)
        | Some l, Some d =>
            lets is_ := mapm item l in lets k := get_object d $"key" in lets v := get_object d $"value" in
            lets tk := to_type fuel k in lets tv := to_type fuel v in Some (TyHybrid tk tv is_)
        end
      else if str_eqb ty $"set" then lets d := get_object n $"of" in lets t := to_type fuel d in Some (TySet t)
      else None
  end.
Fixpoint size (n : bj) : nat :=
  match n with
  | BArray l => S (fold_right (fun x r => size x + r)%nat 0%nat l)
  | BObject l => S (fold_right (fun m r => match m with BMember _ v => S (size v + r) | _ => r end) 0%nat l)
  | _ => 1%nat
  end.
(** 242-286 [to_builtinarg], [to_builtinresult]. *)
Definition text_or_empty (n : bj) (k : str) : str := match get_string n k with Some q => strip_node q | None => [] end.
Definition to_arg (n : bj) : option barg :=
  lets t := to_type (size n) n in Some (Arg (text_or_empty n $"name") (text_or_empty n $"description") t).
(** 288-317 [to_builtinargseq], [to_builtindecl]. *)
Definition to_decl (n : bj) : option bdecl :=
  lets args := match get_array n $"args" with Some l => lets a := mapm to_arg l in Some (Some a) | None => Some None end in
  lets result := match get_object n $"result" with Some r => lets a := to_arg r in Some (Some a) | None => Some None end in
  Some (Decl args result).

(** 393-1034: what becomes of the members of the statement's object, by the statement's type. *)
Definition readers : list (str * (bj -> option (ir str str))) := [
  ($"ArrayAppendStmt", fun n => lets a := get_number n $"array" in lets v := get_operand n $"value" in Some (IArrayAppend a v));
  ($"AssignIntStmt", fun n => lets v := get_number n $"value" in lets t := get_number n $"target" in Some (IAssignInt v t));
  ($"AssignVarOnceStmt", fun n => lets s := get_operand n $"source" in lets t := get_number n $"target" in Some (IAssignVarOnce s t));
  ($"AssignVarStmt", fun n => lets s := get_operand n $"source" in lets t := get_number n $"target" in Some (IAssignVar s t));
  ($"BlockStmt", fun n => lets b := get_blocks n $"blocks" in Some (IBlock b));
  ($"BreakStmt", fun n => lets i := get_number n $"index" in Some (IBreak i));
  ($"CallDynamicStmt", fun n => lets p := get_operands n $"path" in lets a := get_operands n $"args" in lets r := get_number n $"result" in Some (ICallDynamic p a r));
  ($"CallStmt", fun n => lets f := get_string n $"func" in lets a := get_operands n $"args" in lets r := get_number n $"result" in Some (ICall (to_irstring f) a r));
  ($"DotStmt", fun n => lets s := get_operand n $"source" in lets k := get_operand n $"key" in lets t := get_number n $"target" in Some (IDot s k t));
  ($"EqualStmt", fun n => lets a := get_operand n $"a" in lets b := get_operand n $"b" in Some (IEqual a b));
  ($"IsArrayStmt", fun n => lets s := get_operand n $"source" in Some (IIsArray s));
  ($"IsDefinedStmt", fun n => lets s := get_number n $"source" in Some (IIsDefined s));
  ($"IsObjectStmt", fun n => lets s := get_operand n $"source" in Some (IIsObject s));
  ($"IsSetStmt", fun n => lets s := get_operand n $"source" in Some (IIsSet s));
  ($"IsUndefinedStmt", fun n => lets s := get_number n $"source" in Some (IIsUndefined s));
  ($"LenStmt", fun n => lets s := get_operand n $"source" in lets t := get_number n $"target" in Some (ILen s t));
  ($"MakeArrayStmt", fun n => lets c := get_number n $"capacity" in lets t := get_number n $"target" in Some (IMakeArray c t));
  ($"MakeNullStmt", fun n => lets t := get_number n $"target" in Some (IMakeNull t));
  ($"MakeNumberIntStmt", fun n => lets v := get_number n $"value" in lets t := get_number n $"target" in Some (IMakeNumberInt v t));
  ($"MakeNumberRefStmt", fun n => lets i := get_number n $"index" in lets t := get_number n $"target" in Some (IMakeNumberRef i t));
  ($"MakeObjectStmt", fun n => lets t := get_number n $"target" in Some (IMakeObject t));
  ($"MakeSetStmt", fun n => lets t := get_number n $"target" in Some (IMakeSet t));
  ($"NotEqualStmt", fun n => lets a := get_operand n $"a" in lets b := get_operand n $"b" in Some (INotEqual a b));
  ($"NotStmt", fun n => lets b := get_block n $"block" in Some (INot b));
  ($"ObjectInsertOnceStmt", fun n => lets k := get_operand n $"key" in lets v := get_operand n $"value" in lets o := get_number n $"object" in Some (IObjectInsertOnce k v o));
  ($"ObjectInsertStmt", fun n => lets k := get_operand n $"key" in lets v := get_operand n $"value" in lets o := get_number n $"object" in Some (IObjectInsert k v o));
  ($"ObjectMergeStmt", fun n => lets a := get_number n $"a" in lets b := get_number n $"b" in lets t := get_number n $"target" in Some (IObjectMerge a b t));
  ($"ResetLocalStmt", fun n => lets t := get_number n $"target" in Some (IResetLocal t));
  ($"ResultSetAddStmt", fun n => lets v := get_number n $"value" in Some (IResultSetAdd v));
  ($"ReturnLocalStmt", fun n => lets s := get_number n $"source" in Some (IReturnLocal s));
  ($"ScanStmt", fun n => lets s := get_number n $"source" in lets k := get_number n $"key" in lets v := get_number n $"value" in lets b := get_block n $"block" in Some (IScan s k v b));
  ($"SetAddStmt", fun n => lets v := get_operand n $"value" in lets s := get_number n $"set" in Some (ISetAdd v s));
  ($"WithStmt", fun n => lets l := get_number n $"local" in lets ps := get_array n $"path" in lets p := mapm as_number ps in
                         lets v := get_operand n $"value" in lets b := get_block n $"block" in Some (IWith l p v b))].

(** The text of the string of a first member "type". *)
Definition first_type (l : list bm) : option str :=
  match l with BMember k (BString q) :: _ => if str_eqb k $"type" then Some q else None | _ => None end.
(** 367-391: an object that starts with the members "type" and "value" of an operand. *)
Definition operand_rule (l : list bm) : option (op str str) :=
  lets q := first_type l in
  match l with
  | _ :: BMember k v :: _ =>
      if str_eqb k $"value" then
        match v with
        | BNumber t => if str_eqb q (add_quotes $"local") then Some (OLocal t) else if str_eqb q (add_quotes $"string_index") then Some (OString t) else None
        | BTrue => if str_eqb q (add_quotes $"bool") then Some (OBool true) else None
        | BFalse => if str_eqb q (add_quotes $"bool") then Some (OBool false) else None
        | _ => None
        end
      else None
  | _ => None
  end.
(** 393-1034: an object in an array that starts with a member "type" that names a statement. *)
Definition stmt_rule (l : list bm) : option bj :=
  lets q := first_type l in
  lets r := sm_find q (map (fun x => (add_quotes (fst x), snd x)) readers) in
  Some (match get_object (BObject l) $"stmt" with
        | Some n => match r n with Some s => BStmt s | None => BBad end
        | None => BBad
        end).
(** 1036-1040: an object that starts with a member "stmts". *)
Definition block_rule (l : list bm) : option bj :=
  match l with
  | BMember k (BArray ss) :: _ => if str_eqb k $"stmts" then Some (match mapm as_stmt ss with Some b => BBlock b | None => BBad end) else None
  | _ => None
  end.
Inductive place := InMember | InArray.
Definition object_rules (p : place) (l : list bm) : bj :=
  match operand_rule l with
  | Some o => BOperand o
  | None =>
      match match p with InArray => stmt_rule l | InMember => None end with
      | Some n => n
      | None => match block_rule l with Some n => n | None => BObject l end
      end
  end.

(** 1049-1062. *)
Definition to_strings (l : list bj) : option (list str) := mapm (fun c => lets q := get_string c $"value" in Some (to_irstring q)) l.
(** 1064-1083. *)
Definition to_bfuns (l : list bj) : option (list bfun) :=
  mapm (fun c => lets q := get_string c $"name" in lets d := get_object c $"decl" in lets d := to_decl d in Some (BFun (to_irstring q) d)) l.
(** 1085-1117: a file without a name counts as the empty name, the directory itself; a path that leads out is an error in place
    of the whole list. *)
Definition to_paths (l : list bj) : option (list str) :=
  mapm (fun c => p_resolve P (match get_string c $"value" with Some q => to_irstring q | None => [] end)) l.
(** 1119-1142. *)
Definition to_plans (n : bj) : bm :=
  match get_array n $"plans" with
  | Some l => BPlans (mapm (fun c => lets q := get_string c $"name" in lets b := get_blocks c $"blocks" in Some (Pl _ _ (to_irstring q) b)) l)
  | None => BError
  end.
(** 1144-1192; [wf_bundle] asks for at least one part of a path. *)
Definition to_functions (n : bj) : bm :=
  match get_array n $"funcs" with
  | Some l => BFunctions (mapm (fun c =>
      lets q := get_string c $"name" in
      lets ps := get_array c $"path" in lets path := mapm (fun x => lets t := leaf_text x in Some (to_irstring t)) ps in
      lets xs := get_array c $"params" in lets params := mapm leaf_text xs in
      lets r := get_number c $"return" in
      lets b := get_blocks c $"blocks" in
      match path with [] => None | _ => Some (Func (to_irstring q) path params r b) end) l)
  | None => BError
  end.
(** The last child of a kind (1203-1218, 1247-1266). *)
Definition last_kind {A} (f : bm -> option A) (l : list bm) : option A :=
  fold_left (fun acc m => match f m with Some a => Some a | None => acc end) l None.
Definition is_strings (m : bm) := match m with BStrings x => Some x | _ => None end.
Definition is_paths (m : bm) := match m with BPaths x => Some x | _ => None end.
Definition is_funcs (m : bm) := match m with BFuncs x => Some x | _ => None end.
Definition is_plans (m : bm) := match m with BPlans x => Some x | _ => None end.
Definition is_functions (m : bm) := match m with BFunctions x => Some x | _ => None end.
Definition is_static (m : bm) := match m with BStatic x => Some x | _ => None end.
Definition is_query (m : bm) := match m with BMember k v => if str_eqb k $"query" then Some v else None | _ => None end.
(** 1194-1231, when there is a list of strings. *)
Definition to_static (l : list bm) : bm :=
  match last_kind is_strings l with
  | Some strings =>
      BStatic (lets s := strings in
               lets f := match last_kind is_funcs l with Some f => f | None => Some [] end in
               Some (Static s (match last_kind is_paths l with Some p => p | None => [] end) f))
  | None => BError
  end.
(** 1042-1231: the rules for the members of an object, and 1042-1047 for what is in a member. *)
Definition member_rules (k : str) (v : bj) : bm :=
  match v with
  | BArray l =>
      if str_eqb k $"blocks" then BMember k (match mapm as_block l with Some bs => BBlocks bs | None => BBad end)
      else if str_eqb k $"strings" then BStrings (to_strings l)
      else if str_eqb k $"builtin_funcs" then BFuncs (to_bfuns l)
      else if str_eqb k $"files" then match to_paths l with Some ps => BPaths ps | None => BError end
      else BMember k v
  | BObject l =>
      if str_eqb k $"plans" then to_plans v
      else if str_eqb k $"funcs" then to_functions v
      else if str_eqb k $"static" then to_static l
      else BMember k v
  | _ => BMember k v
  end.
(** 360-366: the rules are applied once, from the leaves up, everywhere in both documents. *)
Fixpoint conv (p : place) (t : jtree) : bj :=
  match t with
  | JNull => BNull | JTrue => BTrue | JFalse => BFalse
  | JNumber t => BNumber t
  | JString q => BString q
  | JArray l => BArray (map (conv InArray) l)
  | JObject l => object_rules p (map (fun kv => member_rules (fst kv) (conv InMember (snd kv))) l)
  end.
(** 1220-1224: without a list of strings, the error is built from [_(Policy)], which this rule does not bind: a null node is
    dereferenced (src/internal.cc 207-211). *)
Definition null_static (k : str) (v : jtree) : bool :=
  str_eqb k $"static" &&
  match conv InMember v with BObject l => match last_kind is_strings l with None => true | Some _ => false end | _ => false end.
Fixpoint crashes (t : jtree) : bool :=
  match t with
  | JArray l => existsb crashes l
  | JObject l => existsb (fun kv => crashes (snd kv) || null_static (fst kv) (snd kv)) l
  | _ => false
  end.
(** 1283-1294: the data goes through json_to_rego, which accepts nothing but JSON. *)
Fixpoint plain (n : bj) : option jtree :=
  match n with
  | BNull => Some JNull | BTrue => Some JTrue | BFalse => Some JFalse
  | BNumber t => Some (JNumber t)
  | BString q => Some (JString q)
  | BArray l => lets r := mapm plain l in Some (JArray r)
  | BObject l => lets r := mapm (fun m => match m with BMember k v => lets t := plain v in Some (k, t) | _ => None end) l in Some (JObject r)
  | _ => None
  end.
(** 1233-1317; [wf_bundle] asks for at least one plan. *)
Definition to_bundle (data : bj) (policy : list bm) : option jbundle :=
  lets s := last_kind is_static policy in
  lets p := last_kind is_plans policy in
  lets f := last_kind is_functions policy in
  lets s := s in lets p := p in lets f := f in
  lets q := match last_kind is_query policy with Some n => lets t := leaf_text n in Some (Some (to_irstring t)) | None => Some None end in
  lets t := plain data in
  lets d := json_to_rego t in
  match p with [] => None | _ => Some (JBundle d s p q f) end.
(** src/interpreter.cc 642-692 [load_bundle], with the two documents read. *)
Definition load (data policy : jtree) : outcome (option jbundle) :=
  if crashes data || crashes policy then Ub
  else Ok (match conv InMember data, conv InMember policy with
           | BObject d, BObject p => to_bundle (BObject d) p
           | _, _ => None
           end).
End Read.
