(** Specification for compiled plans: what it means that a bundle says the same as the program it was made from, and when a
    program is well scoped. *)
From Coq Require Import String ZArith List Bool.
From Verif Require Import Base BigIntSpec BigIntModel SMap ValueModel VmModel PlanModel.
Import ListNotations.
Local Open Scope Z_scope.

(** ** Programs *)

(** A program with every local, string and integer text replaced. *)
Section Rename.
  Context {L S' L2 S2 : Type} (r : L -> L2) (q : S' -> S2) (n : str -> str).
  Definition map_op (o : op L S') : op L2 S2 :=
    match o with OLocal l => OLocal (r l) | OString s => OString (q s) | OBool b => OBool b end.
  Fixpoint map_ir (s : ir L S') : ir L2 S2 :=
    match s with
    | IArrayAppend a v => IArrayAppend (r a) (map_op v)
    | IAssignInt v x => IAssignInt (n v) (r x)
    | IAssignVarOnce o x => IAssignVarOnce (map_op o) (r x)
    | IAssignVar o x => IAssignVar (map_op o) (r x)
    | IBlock bs => IBlock (map (map map_ir) bs)
    | IBreak i => IBreak (n i)
    | ICall g args x => ICall g (map map_op args) (r x)
    | ICallDynamic path args x => ICallDynamic (map map_op path) (map map_op args) (r x)
    | IDot o k x => IDot (map_op o) (map_op k) (r x)
    | IEqual a b => IEqual (map_op a) (map_op b)
    | IIsArray o => IIsArray (map_op o)
    | IIsDefined x => IIsDefined (r x)
    | IIsObject o => IIsObject (map_op o)
    | IIsSet o => IIsSet (map_op o)
    | IIsUndefined x => IIsUndefined (r x)
    | ILen o x => ILen (map_op o) (r x)
    | IMakeArray c x => IMakeArray (n c) (r x)
    | IMakeNull x => IMakeNull (r x)
    | IMakeNumberInt v x => IMakeNumberInt (n v) (r x)
    | IMakeNumberRef i x => IMakeNumberRef (q i) (r x)
    | IMakeObject x => IMakeObject (r x)
    | IMakeSet x => IMakeSet (r x)
    | INotEqual a b => INotEqual (map_op a) (map_op b)
    | INot b => INot (map map_ir b)
    | IObjectInsertOnce k v x => IObjectInsertOnce (map_op k) (map_op v) (r x)
    | IObjectInsert k v x => IObjectInsert (map_op k) (map_op v) (r x)
    | IObjectMerge a b x => IObjectMerge (r a) (r b) (r x)
    | IResetLocal x => IResetLocal (r x)
    | IResultSetAdd x => IResultSetAdd (r x)
    | IReturnLocal x => IReturnLocal (r x)
    | IScan x k v b => IScan (r x) (r k) (r v) (map map_ir b)
    | ISetAdd v x => ISetAdd (map_op v) (r x)
    | IWith x path v b => IWith (r x) (map q path) (map_op v) (map map_ir b)
    end.
End Rename.

(** What occurs in a statement. *)
(** A decimal integer of 64 bits. *)
Definition int64_text (t : str) : Prop :=
  exists neg d, t = (if neg : bool then [45] else []) ++ d /\ d <> [] /\ Forall (fun c => 48 <= c <= 57) d /\ - 2 ^ 63 <= zval t < 2 ^ 63.

Section Occurs.
  Context {L S' : Type}.
  Definition op_local (o : op L S') : list L := match o with OLocal l => [l] | _ => [] end.
  Definition op_string (o : op L S') : list S' := match o with OString s => [s] | _ => [] end.

  (** All locals. *)
  Fixpoint locals_in (s : ir L S') : list L :=
    match s with
    | IArrayAppend x v | ISetAdd v x => op_local v ++ [x]
    | IAssignInt _ x | IIsDefined x | IIsUndefined x | IMakeArray _ x | IMakeNull x | IMakeNumberInt _ x
    | IMakeNumberRef _ x | IMakeObject x | IMakeSet x | IResetLocal x | IResultSetAdd x | IReturnLocal x => [x]
    | IAssignVarOnce o x | IAssignVar o x | ILen o x => op_local o ++ [x]
    | IBlock bs => flat_map (flat_map locals_in) bs
    | IBreak _ => []
    | ICall _ args x => flat_map op_local args ++ [x]
    | ICallDynamic path args x => flat_map op_local path ++ flat_map op_local args ++ [x]
    | IDot a b x | IObjectInsertOnce a b x | IObjectInsert a b x => op_local a ++ op_local b ++ [x]
    | IEqual a b | INotEqual a b => op_local a ++ op_local b
    | IIsArray o | IIsObject o | IIsSet o => op_local o
    | INot b => flat_map locals_in b
    | IObjectMerge a b x => [a; b; x]
    | IScan x k v b => flat_map locals_in b ++ [x; k; v]
    | IWith x _ v b => op_local v ++ flat_map locals_in b ++ [x]
    end.

  (** The locals a statement works on: those it writes, extends, tests for a value, scans, or hands out as a result.  A local
      that is only ever an operand is not among them. *)
  Fixpoint subjects (s : ir L S') : list L :=
    match s with
    | IArrayAppend x _ | ISetAdd _ x | IAssignInt _ x | IIsDefined x | IIsUndefined x | IMakeArray _ x | IMakeNull x
    | IMakeNumberInt _ x | IMakeNumberRef _ x | IMakeObject x | IMakeSet x | IResetLocal x | IResultSetAdd x
    | IReturnLocal x | IAssignVarOnce _ x | IAssignVar _ x | ILen _ x | ICall _ _ x | ICallDynamic _ _ x | IDot _ _ x
    | IObjectInsertOnce _ _ x | IObjectInsert _ _ x | IObjectMerge _ _ x => [x]
    | IEqual _ _ | INotEqual _ _ | IIsArray _ | IIsObject _ | IIsSet _ | IBreak _ => []
    | IBlock bs => flat_map (flat_map subjects) bs
    | INot b => flat_map subjects b
    | IScan x k v b => [x; k; v] ++ flat_map subjects b
    | IWith x _ _ b => x :: flat_map subjects b
    end.

  (** All strings: operands, number literals and the paths of [with]. *)
  Fixpoint strings_in (s : ir L S') : list S' :=
    match s with
    | IArrayAppend _ v | ISetAdd v _ => op_string v
    | IAssignVarOnce o _ | IAssignVar o _ | ILen o _ | IIsArray o | IIsObject o | IIsSet o => op_string o
    | IBlock bs => flat_map (flat_map strings_in) bs
    | ICall _ args _ => flat_map op_string args
    | ICallDynamic path args _ => flat_map op_string path ++ flat_map op_string args
    | IDot a b _ | IObjectInsertOnce a b _ | IObjectInsert a b _ | IEqual a b | INotEqual a b => op_string a ++ op_string b
    | IMakeNumberRef i _ => [i]
    | INot b | IScan _ _ _ b => flat_map strings_in b
    | IWith _ path v b => path ++ op_string v ++ flat_map strings_in b
    | _ => []
    end.

  (** The number literals. *)
  Fixpoint numbers_in (s : ir L S') : list S' :=
    match s with
    | IMakeNumberRef i _ => [i]
    | IBlock bs => flat_map (flat_map numbers_in) bs
    | INot b | IScan _ _ _ b | IWith _ _ _ b => flat_map numbers_in b
    | _ => []
    end.

  (** Every integer parses, no [break] occurs (the compiler emits none), and every call of a function of the program passes
      at least as many arguments as that function has parameters. *)
  Fixpoint well_formed (arity : str -> option nat) (s : ir L S') : Prop :=
    match s with
    | IAssignInt v _ | IMakeArray v _ | IMakeNumberInt v _ => int64_text v
    | IBreak _ => False
    | ICall g args _ => match arity g with Some n => (n <= length args)%nat | None => True end
    | IBlock bs => fold_right (fun b r => fold_right (fun x q => well_formed arity x /\ q) r b) True bs
    | INot b | IScan _ _ _ b | IWith _ _ _ b => fold_right (fun x q => well_formed arity x /\ q) True b
    | _ => True
    end.
End Occurs.

(** Two names denote the same local: the same name, and, unless it has a '$' (names made by the compiler, unique in the
    bundle), in the same function. *)
Definition generated (n : str) : Prop := In 36 n.
Definition same_local (f : option nat) (n : str) (f2 : option nat) (n2 : str) : Prop := n = n2 /\ (generated n \/ f = f2).
Definition reserved (n : str) : Prop := n = $"input" \/ n = $"data".

(** All occurrences in a program, each with the function it stands in. *)
Definition fn_body {L S'} (f : fn L S') : list (ir L S') := concat (n_blocks f).
Definition pl_body {L S'} (p : pl L S') : list (ir L S') := concat (l_blocks p).
Definition numbered_fns {L S'} (l : list (fn L S')) : list (nat * fn L S') := combine (seq 0 (length l)) l.
Definition plan_names (p : prog) : list (option nat * str) :=
  map (pair None) (flat_map (fun x => flat_map locals_in (pl_body x)) (g_plans p)).
Definition fn_names (x : nat * fn str str) : list (option nat * str) :=
  map (pair (Some (fst x))) (n_params (snd x) ++ flat_map locals_in (fn_body (snd x)) ++ [n_result (snd x)]).
Definition names (p : prog) : list (option nat * str) := plan_names p ++ flat_map fn_names (numbered_fns (g_fns p)).
Definition fn_subjects (x : nat * fn str str) : list (option nat * str) :=
  map (pair (Some (fst x))) (flat_map subjects (fn_body (snd x))).
Definition all_subjects (p : prog) : list (option nat * str) :=
  map (pair None) (flat_map (fun x => flat_map subjects (pl_body x)) (g_plans p)) ++
  flat_map fn_subjects (numbered_fns (g_fns p)).
Definition body (p : prog) : list (ir str str) := flat_map pl_body (g_plans p) ++ flat_map fn_body (g_fns p).
Definition strings (p : prog) : list str := flat_map strings_in (body p).
Definition numbers (p : prog) : list str := flat_map numbers_in (body p).

(** [x] denotes the same local as some entry of [l]. *)
Definition among (x : option nat * str) (l : list (option nat * str)) : Prop :=
  exists y, In y l /\ same_local (fst x) (snd x) (fst y) (snd y).

Definition arity_in (l : list (fn str str)) (name : str) : option nat :=
  option_map (fun f => length (n_params f)) (find (fun f => str_eqb (n_name f) name) l).

(** The programs the earlier passes produce: there is a plan; function and plan names are distinct; every function takes
    [input] and [data]; the local a function returns is worked on in that function and is new there; a local that is used is
    [input], [data], a parameter, or worked on somewhere. *)
Record compiled (p : prog) : Prop := {
  c_plan : g_plans p <> [];
  c_fns : NoDup (map n_name (g_fns p));
  c_plans : NoDup (map l_name (g_plans p));
  c_arity : forall f, In f (g_fns p) -> (2 <= length (n_params f))%nat;
  c_stmts : Forall (well_formed (arity_in (g_fns p))) (body p);
  c_result : forall i f, nth_error (g_fns p) i = Some f ->
    In (n_result f) (flat_map subjects (fn_body f)) /\ ~ reserved (n_result f) /\
    ~ In (n_result f) (n_params f) /\
    ~ among (Some i, n_result f) (plan_names p ++ flat_map fn_names (firstn i (numbered_fns (g_fns p))));
  c_scope : forall x, In x (names p) -> ~ reserved (snd x) ->
    (exists i f, fst x = Some i /\ nth_error (g_fns p) i = Some f /\ In (snd x) (n_params f)) \/ among x (all_subjects p)
}.

(** The numbers of different locals and strings of a program. *)
Fixpoint distinct {A} (same : A -> A -> bool) (l : list A) : list A :=
  match l with
  | [] => []
  | x :: l' => if existsb (same x) l' then distinct same l' else x :: distinct same l'
  end.
Definition same_localb (x y : option nat * str) : bool :=
  str_eqb (snd x) (snd y) &&
  (existsb (Z.eqb 36) (snd x) ||
   match fst x, fst y with None, None => true | Some i, Some j => Nat.eqb i j | _, _ => false end).
Definition reservedb (n : str) : bool := str_eqb n $"input" || str_eqb n $"data".
Definition count_locals (p : prog) : nat := length (distinct same_localb (filter (fun x => negb (reservedb (snd x))) (names p))).
Definition count_strings (p : prog) : nat := length (distinct str_eqb (strings p)).

(** ** Reading a bundle back: the fields as [operator<<] labels them (src/bundle.cc 215-394) *)
Definition says_op (o : operand) : option (op Z Z) :=
  match o_type o with
  | TLocal => Some (OLocal (o_word o))
  | TString => Some (OString (o_word o))
  | TTrue => Some (OBool true)
  | TFalse => Some (OBool false)
  | _ => None
  end.
Definition says_index (o : operand) : option Z := match o_type o with TIndex => Some (o_word o) | _ => None end.
Definition says_value (o : operand) : option str := match o_type o with TValue => Some (dec (o_word o)) | _ => None end.
Definition opt_list {A B} (g : A -> option B) : list A -> option (list B) :=
  fix go l :=
    match l with
    | [] => Some []
    | x :: l' => match g x, go l' with Some y, Some ys => Some (y :: ys) | _, _ => None end
    end.
Definition with1 {A B} (a : option A) (g : A -> B) : option B := option_map g a.
Definition with2 {A B C} (a : option A) (b : option B) (g : A -> B -> C) : option C :=
  match a, b with Some a, Some b => Some (g a b) | _, _ => None end.

Fixpoint says (s : stmt) : option (ir Z Z) :=
  match s with
  | Stmt ty a b x e =>
      match ty, e with
      | SArrayAppend, None => with1 (says_op a) (fun v => IArrayAppend x v)
      | SAssignInt, None => with1 (says_value a) (fun v => IAssignInt v x)
      | SAssignVarOnce, None => with1 (says_op a) (fun v => IAssignVarOnce v x)
      | SAssignVar, None => with1 (says_op a) (fun v => IAssignVar v x)
      | SBlock, Some (ExtBlocks bs) => with1 (opt_list (opt_list says) bs) IBlock
      | SBreak, None => with1 (says_index a) (fun i => IBreak (dec i))
      | SCall, Some (ExtCall g ops) => with1 (opt_list says_op ops) (fun l => ICall g l x)
      | SCallDynamic, Some (ExtDyn path ops) =>
          with2 (opt_list says_op path) (opt_list says_op ops) (fun p l => ICallDynamic p l x)
      | SDot, None => with2 (says_op a) (says_op b) (fun source key => IDot source key x)
      | SEqual, None => with2 (says_op a) (says_op b) IEqual
      | SIsArray, None => with1 (says_op a) IIsArray
      | SIsDefined, None => Some (IIsDefined x)
      | SIsObject, None => with1 (says_op a) IIsObject
      | SIsSet, None => with1 (says_op a) IIsSet
      | SIsUndefined, None => Some (IIsUndefined x)
      | SLen, None => with1 (says_op a) (fun v => ILen v x)
      | SMakeArray, None => with1 (says_value a) (fun v => IMakeArray v x)
      | SMakeNull, None => Some (IMakeNull x)
      | SMakeNumberInt, None => with1 (says_value a) (fun v => IMakeNumberInt v x)
      | SMakeNumberRef, None => with1 (says_index a) (fun i => IMakeNumberRef i x)
      | SMakeObject, None => Some (IMakeObject x)
      | SMakeSet, None => Some (IMakeSet x)
      | SNotEqual, None => with2 (says_op a) (says_op b) INotEqual
      | SNot, Some (ExtBlock l) => with1 (opt_list says l) INot
      | SObjectInsertOnce, None => with2 (says_op a) (says_op b) (fun k v => IObjectInsertOnce k v x)
      | SObjectInsert, None => with2 (says_op a) (says_op b) (fun k v => IObjectInsert k v x)
      | SObjectMerge, None => with2 (says_index a) (says_index b) (fun l r => IObjectMerge l r x)
      | SResetLocal, None => Some (IResetLocal x)
      | SResultSetAdd, None => Some (IResultSetAdd x)
      | SReturnLocal, None => Some (IReturnLocal x)
      | SScan, Some (ExtBlock l) =>
          match says_index a, says_index b, opt_list says l with
          | Some k, Some v, Some l => Some (IScan x k v l)
          | _, _, _ => None
          end
      | SSetAdd, None => with1 (says_op a) (fun v => ISetAdd v x)
      | SWith, Some (ExtWith path l) =>
          with2 (says_op a) (opt_list says l) (fun v l => IWith x (map Z.of_N path) v l)
      | _, _ => None
      end
  end.
Definition says_blocks : list block -> option (list (list (ir Z Z))) := opt_list (opt_list says).

(** An integer text, normalised. *)
Definition norm (t : str) : str := dec (zval t).

(** The bundle says what the program says when local [n] of function [f] is called [rho f n] and string [s] is called
    [sigma s]. *)
Record says_prog (rho : option nat -> str -> Z) (sigma : str -> Z) (p : prog) (b : bundle) : Prop := {
  sp_data : b_data b = g_data p;
  sp_plans : Forall2 (fun x y => p_name y = l_name x /\
                                 says_blocks (p_blocks y) = Some (map (map (map_ir (rho None) sigma norm)) (l_blocks x)))
                     (g_plans p) (b_plans b);
  sp_fns : Forall2 (fun x y => f_name y = n_name (snd x) /\
                               map Z.of_N (f_params y) = map (rho (Some (fst x))) (n_params (snd x)) /\
                               f_arity y = Z.of_nat (length (n_params (snd x))) /\
                               f_cacheable y = (length (n_params (snd x)) =? 2)%nat /\
                               Z.of_N (f_result y) = rho (Some (fst x)) (n_result (snd x)) /\
                               says_blocks (f_blocks y) =
                                 Some (map (map (map_ir (rho (Some (fst x))) sigma norm)) (n_blocks (snd x))))
                   (numbered_fns (g_fns p)) (b_functions b)
}.

(** [rho] gives different slots to different locals, with [input] in slot 0 and [data] in slot 1, ... *)
Record numbering (rho : option nat -> str -> Z) (p : prog) : Prop := {
  nu_input : forall f, rho f $"input" = 0;
  nu_data : forall f, rho f $"data" = 1;
  nu_own : forall x, In x (names p) -> ~ reserved (snd x) -> 2 <= rho (fst x) (snd x);
  nu_same : forall x y, In x (names p) -> In y (names p) -> ~ reserved (snd x) -> ~ reserved (snd y) ->
              (rho (fst x) (snd x) = rho (fst y) (snd y) <-> same_local (fst x) (snd x) (fst y) (snd y))
}.
(** ... and [sigma] finds every string in the string table, which lists each string once. *)
Definition interned (sigma : str -> Z) (p : prog) (table : list str) : Prop :=
  NoDup table /\ (forall s, In s table <-> In s (strings p)) /\ (forall s, In s (strings p) -> znth table (sigma s) = Some s).

(** The compiler's last step followed by the loader. *)
Definition build (p : prog) : outcome bundle := match index_pass p with Some q => from_node q | None => Throw end.
