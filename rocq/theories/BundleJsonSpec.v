(** What a saved bundle should be when it is loaded again, and which data can be mistaken for parts of a plan. *)
From Coq Require Import String ZArith List Bool.
From Verif Require Import Base ValueModel StrModel EncModel EncSpec JsonModel JsonSpec PlanModel BundleJsonModel.
Import ListNotations.
Local Open Scope Z_scope.
Local Open Scope list_scope.

(** Text that JSON writes as it is. *)
Definition harmless_text (s : str) : Prop := Forall (fun c => 32 <= c < 127 /\ c <> 34 /\ c <> 92) s.

(** ** What a bundle must be for its JSON to be read at all: include/rego/rego.hh [wf_bundle] *)
Definition complete (b : jbundle) : Prop :=
  (exists l, j_data b = VObject l) /\ j_plans b <> [] /\ forall f, In f (j_functions b) -> u_path f <> [].

(** The texts in the declarations of builtin functions. *)
Inductive type_texts (P : str -> Prop) : btype -> Prop :=
| tt_any : type_texts P TyAny
| tt_string : type_texts P TyString
| tt_number : type_texts P TyNumber
| tt_boolean : type_texts P TyBoolean
| tt_null : type_texts P TyNull
| tt_dyn_array t : type_texts P t -> type_texts P (TyDynArray t)
| tt_static_array l : Forall (type_texts P) l -> type_texts P (TyStaticArray l)
| tt_dyn_object k v : type_texts P k -> type_texts P v -> type_texts P (TyDynObject k v)
| tt_static_object l : Forall (fun x => P (fst x) /\ type_texts P (snd x)) l -> type_texts P (TyStaticObject l)
| tt_hybrid k v l : type_texts P k -> type_texts P v -> Forall (fun x => P (fst x) /\ type_texts P (snd x)) l -> type_texts P (TyHybrid k v l)
| tt_set t : type_texts P t -> type_texts P (TySet t)
| tt_seq l : Forall (type_texts P) l -> type_texts P (TySeq l).
Definition arg_texts (P : str -> Prop) (a : barg) : Prop := P (a_name a) /\ P (a_desc a) /\ type_texts P (a_type a).
Definition fun_texts (P : str -> Prop) (f : bfun) : Prop :=
  (forall l, d_args (f_decl f) = Some l -> Forall (arg_texts P) l) /\ (forall r, d_result (f_decl f) = Some r -> arg_texts P r).

(** The files of the loaded bundle: those with the same names in the directory of the bundle. *)
Definition moved (P : paths) (files files' : list str) : Prop := Forall2 (fun f f' => p_resolve P (p_filename P f) = Some f') files files'.

(** The loaded bundle [b'] is the saved bundle [b]: sets of the data become arrays, members are in the order of their names, and
    the files are the ones beside it. *)
Definition same_bundle (P : paths) (b b' : jbundle) : Prop :=
  through_json (j_data b) (j_data b') /\
  s_strings (j_static b') = s_strings (j_static b) /\ s_funcs (j_static b') = s_funcs (j_static b) /\
  moved P (s_files (j_static b)) (s_files (j_static b')) /\
  j_plans b' = j_plans b /\ j_query b' = j_query b /\ j_functions b' = j_functions b.

(** ** Data that looks like a plan *)

Definition in_quotes (s : str) : str := 34 :: s ++ [34].
Definition statement_names : list str := [
  $"ArrayAppendStmt"; $"AssignIntStmt"; $"AssignVarOnceStmt"; $"AssignVarStmt"; $"BlockStmt"; $"BreakStmt"; $"CallDynamicStmt"; $"CallStmt";
  $"DotStmt"; $"EqualStmt"; $"IsArrayStmt"; $"IsDefinedStmt"; $"IsObjectStmt"; $"IsSetStmt"; $"IsUndefinedStmt"; $"LenStmt"; $"MakeArrayStmt";
  $"MakeNullStmt"; $"MakeNumberIntStmt"; $"MakeNumberRefStmt"; $"MakeObjectStmt"; $"MakeSetStmt"; $"NotEqualStmt"; $"NotStmt";
  $"ObjectInsertOnceStmt"; $"ObjectInsertStmt"; $"ObjectMergeStmt"; $"ResetLocalStmt"; $"ResultSetAddStmt"; $"ReturnLocalStmt"; $"ScanStmt";
  $"SetAddStmt"; $"WithStmt"].
(** {"type": "local", "value": 1, ...} and the like. *)
Definition like_operand (l : list (str * jtree)) : Prop :=
  exists q v r, l = ($"type", JString q) :: ($"value", v) :: r /\
    ((q = in_quotes $"local" \/ q = in_quotes $"string_index") /\ (exists n, v = JNumber n) \/ q = in_quotes $"bool" /\ (v = JTrue \/ v = JFalse)).
(** {"type": "NotStmt", ...} and the like. *)
Definition like_statement (l : list (str * jtree)) : Prop := exists name r, In name statement_names /\ l = ($"type", JString (in_quotes name)) :: r.
(** {"stmts": [...], ...}. *)
Definition like_block (l : list (str * jtree)) : Prop := exists a r, l = ($"stmts", JArray a) :: r.
(** "strings": [...], "static": {...} and the like. *)
Definition like_part (k : str) (v : jtree) : Prop :=
  (In k [$"blocks"; $"strings"; $"builtin_funcs"; $"files"] /\ exists l, v = JArray l) \/
  (In k [$"plans"; $"funcs"; $"static"] /\ exists l, v = JObject l).
(** Nothing in the document looks so; [a] says whether it is a member of an array. *)
Inductive tame : bool -> jtree -> Prop :=
| tame_null a : tame a JNull
| tame_true a : tame a JTrue
| tame_false a : tame a JFalse
| tame_number a t : tame a (JNumber t)
| tame_string a s : tame a (JString s)
| tame_array a l : Forall (tame true) l -> tame a (JArray l)
| tame_object a l :
    Forall (fun kv => tame false (snd kv) /\ ~ like_part (fst kv) (snd kv)) l ->
    ~ like_operand l -> (a = true -> ~ like_statement l) -> ~ like_block l -> tame a (JObject l).
(** No object has a member of these names. *)
Definition plan_names : list str := [$"type"; $"stmts"; $"blocks"; $"strings"; $"builtin_funcs"; $"files"; $"plans"; $"funcs"; $"static"].
Inductive other_names : jtree -> Prop :=
| on_scalar t : (forall l, t <> JArray l) -> (forall l, t <> JObject l) -> other_names t
| on_array l : Forall other_names l -> other_names (JArray l)
| on_object l : Forall (fun kv => ~ In (fst kv) plan_names /\ other_names (snd kv)) l -> other_names (JObject l).
