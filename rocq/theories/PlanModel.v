(** Model of the last two steps that turn a policy into a bundle the virtual machine runs: the pass [index_strings_locals]
    (src/rego_to_bundle.cc 6040-6198), which replaces the names of locals and the texts of strings by indices, and
    [BundleDef::from_node] (src/bundle.cc 435-953), which reads the resulting tree into the bundle structure.
    Simplifications: source locations, [files], [query], [builtin_functions], the [path] of a function and logging are left
    out; the data document is carried over unchanged. *)
From Coq Require Import String ZArith List Bool.
From Verif Require Import Base BigIntSpec BigIntModel SMap ValueModel ResolverModel VmModel.
Import ListNotations.
Local Open Scope Z_scope.

(** ** The tree: include/rego/rego.hh 2215-2288 [wf_bundle].  [L] stands for a local and [S'] for a string: names and texts
    before the pass (LocalRef, IRString), decimal texts of indices after it (LocalIndex, StringIndex, Int32). *)
Inductive op {L S' : Type} := OLocal (l : L) | OString (s : S') | OBool (b : bool).
Arguments op : clear implicits.

Inductive ir {L S' : Type} :=
| IArrayAppend (array : L) (val : op L S')
| IAssignInt (val : str) (target : L)
| IAssignVarOnce (src : op L S') (target : L)
| IAssignVar (src : op L S') (target : L)
| IBlock (blocks : list (list ir))
| IBreak (idx : str)
| ICall (f : str) (args : list (op L S')) (result : L)
| ICallDynamic (path args : list (op L S')) (result : L)
| IDot (src key : op L S') (target : L)
| IEqual (lhs rhs : op L S')
| IIsArray (src : op L S')
| IIsDefined (src : L)
| IIsObject (src : op L S')
| IIsSet (src : op L S')
| IIsUndefined (src : L)
| ILen (src : op L S') (target : L)
| IMakeArray (capacity : str) (target : L)
| IMakeNull (target : L)
| IMakeNumberInt (val : str) (target : L)
| IMakeNumberRef (idx : S') (target : L)
| IMakeObject (target : L)
| IMakeSet (target : L)
| INotEqual (lhs rhs : op L S')
| INot (body : list ir)
| IObjectInsertOnce (key val : op L S') (object : L)
| IObjectInsert (key val : op L S') (object : L)
| IObjectMerge (lhs rhs target : L)
| IResetLocal (target : L)
| IResultSetAdd (val : L)
| IReturnLocal (src : L)
| IScan (src key val : L) (body : list ir)
| ISetAdd (val : op L S') (set : L)
| IWith (local : L) (path : list S') (val : op L S') (body : list ir).
Arguments ir : clear implicits.

Record fn {L S' : Type} := Fn { n_name : str; n_params : list L; n_result : L; n_blocks : list (list (ir L S')) }.
Arguments fn : clear implicits.
Record pl {L S' : Type} := Pl { l_name : str; l_blocks : list (list (ir L S')) }.
Arguments pl : clear implicits.

(** ** Numbering: src/rego_to_bundle.cc 6040-6198 *)

(** The identity of a local: a name with a '$' is unique in the whole bundle; another name is made unique for the function
    it stands in (6133-6150, [func_lookup]; [None]: outside every function).  Trieste's [fresh] is taken to return a name
    that occurs nowhere else, so that the pair itself can serve as the name. *)
Inductive key := Global (name : str) | Scoped (f : option nat) (name : str).
Definition key_eqb (a b : key) : bool :=
  match a, b with
  | Global x, Global y => str_eqb x y
  | Scoped None x, Scoped None y => str_eqb x y
  | Scoped (Some i) x, Scoped (Some j) y => Nat.eqb i j && str_eqb x y
  | _, _ => false
  end.
Definition key_of (f : option nat) (name : str) : key :=
  if existsb (Z.eqb 36) name then Global name else Scoped f name.

(** The two maps: entry number i of [t_locals] has index i + 2 (6193-6194: the map starts with the two entries "input" and
    "data"), entry number i of [t_strings] has index i. *)
Record table := Tab { t_locals : list key; t_strings : list str }.

Fixpoint index_of {A} (eqb : A -> A -> bool) (a : A) (l : list A) : option Z :=
  match l with
  | [] => None
  | x :: l' => if eqb a x then Some 0 else match index_of eqb a l' with Some i => Some (i + 1) | None => None end
  end.

(** 6056-6066 and its copies 6074-6084, 6099-6109. *)
Definition number_string (s : str) (t : table) : str * table :=
  match index_of str_eqb s (t_strings t) with
  | Some i => (dec i, t)
  | None => (dec (zlen (t_strings t)), Tab (t_locals t) (t_strings t ++ [s]))
  end.

(** 6127-6163.  [std::map] is searched before it grows; its size is the next index. *)
Definition number_local (f : option nat) (name : str) (t : table) : str * table :=
  if str_eqb name $"input" then (dec 0, t)
  else if str_eqb name $"data" then (dec 1, t)
  else
    let k := key_of f name in
    match index_of key_eqb k (t_locals t) with
    | Some i => (dec (i + 2), t)
    | None => (dec (zlen (t_locals t) + 2), Tab (t_locals t ++ [k]) (t_strings t))
    end.

Definition number_op (f : option nat) (o : op str str) (t : table) : op str str * table :=
  match o with
  | OLocal n => let '(i, t) := number_local f n t in (OLocal i, t)
  | OString s => let '(i, t) := number_string s t in (OString i, t)
  | OBool b => (OBool b, t)
  end.

Definition number_list {A B} (g : A -> table -> B * table) : list A -> table -> list B * table :=
  fix go l t :=
    match l with
    | [] => ([], t)
    | x :: l' => let '(y, t) := g x t in let '(ys, t) := go l' t in (y :: ys, t)
    end.

(** The pass is bottom-up: the rewrite rules see the children of a node, left to right, once everything below those
    children is done.  So the operands and blocks of a statement are numbered before the locals that stand directly in it. *)
Fixpoint number_stmt (f : option nat) (s : ir str str) (t : table) {struct s} : ir str str * table :=
  let number_block := number_list (number_stmt f) in
  let number_blocks := number_list (number_list (number_stmt f)) in
  let loc := number_local f in
  let opr := number_op f in
  match s with
  | IArrayAppend a v => let '(v, t) := opr v t in let '(a, t) := loc a t in (IArrayAppend a v, t)
  | IAssignInt v x => let '(x, t) := loc x t in (IAssignInt v x, t)
  | IAssignVarOnce o x => let '(o, t) := opr o t in let '(x, t) := loc x t in (IAssignVarOnce o x, t)
  | IAssignVar o x => let '(o, t) := opr o t in let '(x, t) := loc x t in (IAssignVar o x, t)
  | IBlock bs => let '(bs, t) := number_blocks bs t in (IBlock bs, t)
  | IBreak i => (IBreak i, t)
  | ICall g args r => let '(args, t) := number_list opr args t in let '(r, t) := loc r t in (ICall g args r, t)
  | ICallDynamic path args r =>
      let '(path, t) := number_list opr path t in
      let '(args, t) := number_list opr args t in
      let '(r, t) := loc r t in (ICallDynamic path args r, t)
  | IDot o k x => let '(o, t) := opr o t in let '(k, t) := opr k t in let '(x, t) := loc x t in (IDot o k x, t)
  | IEqual a b => let '(a, t) := opr a t in let '(b, t) := opr b t in (IEqual a b, t)
  | IIsArray o => let '(o, t) := opr o t in (IIsArray o, t)
  | IIsDefined x => let '(x, t) := loc x t in (IIsDefined x, t)
  | IIsObject o => let '(o, t) := opr o t in (IIsObject o, t)
  | IIsSet o => let '(o, t) := opr o t in (IIsSet o, t)
  | IIsUndefined x => let '(x, t) := loc x t in (IIsUndefined x, t)
  | ILen o x => let '(o, t) := opr o t in let '(x, t) := loc x t in (ILen o x, t)
  | IMakeArray c x => let '(x, t) := loc x t in (IMakeArray c x, t)
  | IMakeNull x => let '(x, t) := loc x t in (IMakeNull x, t)
  | IMakeNumberInt v x => let '(x, t) := loc x t in (IMakeNumberInt v x, t)
  | IMakeNumberRef n x => let '(n, t) := number_string n t in let '(x, t) := loc x t in (IMakeNumberRef n x, t)
  | IMakeObject x => let '(x, t) := loc x t in (IMakeObject x, t)
  | IMakeSet x => let '(x, t) := loc x t in (IMakeSet x, t)
  | INotEqual a b => let '(a, t) := opr a t in let '(b, t) := opr b t in (INotEqual a b, t)
  | INot b => let '(b, t) := number_block b t in (INot b, t)
  | IObjectInsertOnce k v x =>
      let '(k, t) := opr k t in let '(v, t) := opr v t in let '(x, t) := loc x t in (IObjectInsertOnce k v x, t)
  | IObjectInsert k v x =>
      let '(k, t) := opr k t in let '(v, t) := opr v t in let '(x, t) := loc x t in (IObjectInsert k v x, t)
  | IObjectMerge a b x =>
      let '(a, t) := loc a t in let '(b, t) := loc b t in let '(x, t) := loc x t in (IObjectMerge a b x, t)
  | IResetLocal x => let '(x, t) := loc x t in (IResetLocal x, t)
  | IResultSetAdd x => let '(x, t) := loc x t in (IResultSetAdd x, t)
  | IReturnLocal x => let '(x, t) := loc x t in (IReturnLocal x, t)
  | IScan x k v b =>
      let '(b, t) := number_block b t in
      let '(x, t) := loc x t in let '(k, t) := loc k t in let '(v, t) := loc v t in (IScan x k v b, t)
  | ISetAdd v x => let '(v, t) := opr v t in let '(x, t) := loc x t in (ISetAdd v x, t)
  | IWith x path v b =>
      let '(path, t) := number_list number_string path t in
      let '(v, t) := opr v t in
      let '(b, t) := number_block b t in
      let '(x, t) := loc x t in (IWith x path v b, t)
  end.

Definition number_blocks (f : option nat) : list (list (ir str str)) -> table -> list (list (ir str str)) * table :=
  number_list (number_list (number_stmt f)).

(** A Function node: name, path, ParameterSeq, result, BlockSeq; the result is a direct child, so it comes last. *)
Definition number_fn (i : nat) (g : fn str str) (t : table) : fn str str * table :=
  let '(ps, t) := number_list (number_local (Some i)) (n_params g) t in
  let '(bs, t) := number_blocks (Some i) (n_blocks g) t in
  let '(r, t) := number_local (Some i) (n_result g) t in
  (Fn str str (n_name g) ps r bs, t).
Fixpoint number_fns (i : nat) (l : list (fn str str)) (t : table) : list (fn str str) * table :=
  match l with
  | [] => ([], t)
  | g :: l' => let '(g, t) := number_fn i g t in let '(gs, t) := number_fns (Datatypes.S i) l' t in (g :: gs, t)
  end.
Definition number_pl (p : pl str str) (t : table) : pl str str * table :=
  let '(bs, t) := number_blocks None (l_blocks p) t in (Pl str str (l_name p) bs, t).

(** A program: the Policy node with the data document.  [g_query] is the entry point named by IRQuery; its text is empty when
    the query is Undefined.  [g_strings] is Static / StringSeq, which the pass creates (6122-6125, 2389-2404). *)
Record prog := Prog {
  g_data : value; g_strings : list str; g_plans : list (pl str str); g_query : str; g_fns : list (fn str str)
}.

(** The pass on the Policy node: plans come before functions (2222); the tables start empty (6189-6196).  A policy with no
    plan is an error (6182-6183). *)
Definition index_pass (p : prog) : option prog :=
  match g_plans p with
  | [] => None
  | _ =>
      let '(ps, t) := number_list number_pl (g_plans p) (Tab [] []) in
      let '(fs, t) := number_fns 0 (g_fns p) t in
      Some (Prog (g_data p) (t_strings t) ps (g_query p) fs)
  end.

(** ** Reading the tree: src/bundle.cc *)

(** src/internal.hh 352-369 [to_int64]: [std::stoll] on the text; the texts of Int64 and Int32 nodes are an optional '-' and
    digits. *)
Definition to_int64 (t : str) : option Z :=
  let ok := match t with 45 :: (_ :: _) as d => forallb is_digit d | [] => false | _ => forallb is_digit t end in
  if ok && (- 2 ^ 63 <=? zval t) && (zval t <? 2 ^ 63) then Some (zval t) else None.

(** src/internal.hh 376-379 [to_size]; [Throw] is the exception about an integer that does not parse. *)
Definition to_size (t : str) : outcome Z := match to_uint32 t with Some n => Ok n | None => Throw end.

(** src/bundle.cc 435-468, 470-476, 478-484. *)
Definition from_op (o : op str str) : outcome operand :=
  match o with
  | OLocal t => let! n := to_size t in Ok (Op TLocal n)
  | OString t => let! n := to_size t in Ok (Op TString n)
  | OBool true => Ok (Op TTrue 0)
  | OBool false => Ok (Op TFalse 0)
  end.
Definition from_index (t : str) : outcome operand := let! n := to_size t in Ok (Op TIndex n).
Definition from_value (t : str) : outcome operand := match to_int64 t with Some z => Ok (Op TValue z) | None => Throw end.
Definition none_op : operand := Op TNone 0.

(** src/bundle.cc 486-491 [to_index]: the largest index seen so far is threaded through. *)
Definition to_index (t : str) (m : Z) : outcome (Z * Z) := let! n := to_size t in Ok (n, if m >? n then m else n).

Fixpoint map_o {A B} (g : A -> outcome B) (l : list A) : outcome (list B) :=
  match l with
  | [] => Ok []
  | x :: l' => let! y := g x in let! ys := map_o g l' in Ok (y :: ys)
  end.
Definition thread {A B} (g : A -> Z -> outcome (B * Z)) : list A -> Z -> outcome (list B * Z) :=
  fix go l m :=
    match l with
    | [] => Ok ([], m)
    | x :: l' => let! ym := g x m in let! r := go l' (snd ym) in Ok (fst ym :: fst r, snd r)
    end.

(** src/bundle.cc 493-795 [node_to_statement] and 797-806 [node_to_block]. *)
Definition simple (ty : stmt_type) (a b : outcome operand) (x : str) (m : Z) : outcome (stmt * Z) :=
  let! a := a in let! b := b in let! i := to_index x m in Ok (Stmt ty a b (fst i) None, snd i).
Definition check (ty : stmt_type) (a b : outcome operand) (m : Z) : outcome (stmt * Z) :=
  let! a := a in let! b := b in Ok (Stmt ty a b 0 None, m).
Fixpoint node_to_statement (s : ir str str) (m : Z) {struct s} : outcome (stmt * Z) :=
  let node_to_block := thread node_to_statement in
  let node_to_blocks := thread (thread node_to_statement) in
  let none := Ok none_op in
  match s with
  | IArrayAppend a v => simple SArrayAppend (from_op v) none a m
  | IAssignInt v x => simple SAssignInt (from_value v) none x m
  | IAssignVarOnce o x => simple SAssignVarOnce (from_op o) none x m
  | IAssignVar o x => simple SAssignVar (from_op o) none x m
  | IBlock bs => let! r := node_to_blocks bs m in Ok (Stmt SBlock none_op none_op 0 (Some (ExtBlocks (fst r))), snd r)
  | IBreak i => check SBreak (from_index i) none m
  | ICall g args x =>
      let! ops := map_o from_op args in
      let! i := to_index x m in
      Ok (Stmt SCall none_op none_op (fst i) (Some (ExtCall g ops)), snd i)
  | ICallDynamic path args x =>
      let! p := map_o from_op path in
      let! ops := map_o from_op args in
      let! i := to_index x m in
      Ok (Stmt SCallDynamic none_op none_op (fst i) (Some (ExtDyn p ops)), snd i)
  | IDot o k x => simple SDot (from_op o) (from_op k) x m
  | IEqual a b => check SEqual (from_op a) (from_op b) m
  | IIsArray o => check SIsArray (from_op o) none m
  | IIsDefined x => simple SIsDefined none none x m
  | IIsObject o => check SIsObject (from_op o) none m
  | IIsSet o => check SIsSet (from_op o) none m
  | IIsUndefined x => simple SIsUndefined none none x m
  | ILen o x => simple SLen (from_op o) none x m
  | IMakeArray c x => simple SMakeArray (from_value c) none x m
  | IMakeNull x => simple SMakeNull none none x m
  | IMakeNumberInt v x => simple SMakeNumberInt (from_value v) none x m
  | IMakeNumberRef n x => simple SMakeNumberRef (from_index n) none x m
  | IMakeObject x => simple SMakeObject none none x m
  | IMakeSet x => simple SMakeSet none none x m
  | INotEqual a b => check SNotEqual (from_op a) (from_op b) m
  | INot b => let! r := node_to_block b m in Ok (Stmt SNot none_op none_op 0 (Some (ExtBlock (fst r))), snd r)
  | IObjectInsertOnce k v x => simple SObjectInsertOnce (from_op k) (from_op v) x m
  | IObjectInsert k v x => simple SObjectInsert (from_op k) (from_op v) x m
  | IObjectMerge a b x => simple SObjectMerge (from_index a) (from_index b) x m
  | IResetLocal x => simple SResetLocal none none x m
  | IResultSetAdd x => simple SResultSetAdd none none x m
  | IReturnLocal x => simple SReturnLocal none none x m
  | IScan x k v b =>
      let! i := to_index x m in
      let! j := to_index k (snd i) in
      let! l := to_index v (snd j) in
      let! r := node_to_block b (snd l) in
      Ok (Stmt SScan (Op TIndex (fst j)) (Op TIndex (fst l)) (fst i) (Some (ExtBlock (fst r))), snd r)
  | ISetAdd v x => simple SSetAdd (from_op v) none x m
  | IWith x path v b =>
      let! i := to_index x m in
      let! p := map_o to_size path in
      let! o := from_op v in
      let! r := node_to_block b (snd i) in
      Ok (Stmt SWith o none_op (fst i) (Some (ExtWith (map Z.to_N p) (fst r))), snd r)
  end.
Definition node_to_blocks : list (list (ir str str)) -> Z -> outcome (list block * Z) := thread (thread node_to_statement).

(** src/bundle.cc 808-833 and 835-846. *)
Definition node_to_function (g : fn str str) (m : Z) : outcome (func * Z) :=
  let! ps := map_o to_size (n_params g) in
  let! r := to_size (n_result g) in
  let! bs := node_to_blocks (n_blocks g) m in
  Ok ({| f_name := n_name g; f_arity := zlen ps; f_params := map Z.to_N ps; f_result := Z.to_N r; f_blocks := fst bs;
         f_cacheable := zlen ps =? 2 |}, snd bs).
Definition node_to_plan (p : pl str str) (m : Z) : outcome (plan * Z) :=
  let! bs := node_to_blocks (l_blocks p) m in Ok ({| p_name := l_name p; p_blocks := fst bs |}, snd bs).

(** src/bundle.cc 899 and 920-921: [map\[name\] = map.size()].  The right-hand side is evaluated first (C++17), so the
    size is the one before the insertion. *)
Definition add_name (m : list (str * N)) (name : str) : list (str * N) := sm_set name (N.of_nat (length m)) m.
(** src/bundle.cc 916-927. *)
Fixpoint add_plans (q : str) (l : list (pl str str)) (m : list (str * N)) (qp : option N) : list (str * N) * option N :=
  match l with
  | [] => (m, qp)
  | p :: l' =>
      let i := N.of_nat (length m) in
      add_plans q l' (sm_set (l_name p) i m) (if str_eqb (l_name p) q then Some i else qp)
  end.

(** src/bundle.cc 849-953 [BundleDef::from_node]. *)
Definition from_node (p : prog) : outcome bundle :=
  let n2f := fold_left (fun m g => add_name m (n_name g)) (g_fns p) [] in
  let! fs := thread node_to_function (g_fns p) 2 in
  let '(n2p, qp) := add_plans (g_query p) (g_plans p) [] None in
  let! ps := thread node_to_plan (g_plans p) (snd fs) in
  Ok {| b_data := g_data p; b_name_to_func := n2f; b_name_to_plan := n2p; b_plans := fst ps; b_functions := fst fs;
        b_strings := g_strings p; b_locals := Z.to_N (snd ps + 1); b_query_plan := qp |}.
