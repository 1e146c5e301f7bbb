(** Conversion between JSON documents and values (src/json.cc), and the builtins json.marshal, json.marshal_with_options,
    json.unmarshal and json.is_valid (src/builtins/json.cc 8-246).

    Reading and printing of JSON text, and the escaping of strings, are done by the library trieste, which is not in the
    repository: they are the record [json_lib].  Numbers and strings keep their text in a JSON tree, strings with their quotes and
    member names without. *)
From Coq Require Import String ZArith List Bool.
From Verif Require Import Base BigIntSpec BigIntModel SMap ValueModel ValueSpec ResolverModel VmModel StrModel EncModel.
Import ListNotations.
Local Open Scope Z_scope.
Local Open Scope list_scope.

(** trieste/json.h [json::wf]. *)
Inductive jtree :=
| JNull | JTrue | JFalse
| JNumber (t : str)
| JString (quoted : str)
| JArray (l : list jtree)
| JObject (l : list (str * jtree)).

(** json::to_string (compact; and pretty with an indent), the JSON reader, [json::escape] and [json::unescape]. *)
Record json_lib := { jl_print : jtree -> str; jl_pretty : str -> jtree -> str; jl_parse : str -> option jtree; jl_text : json_ops }.

(** ** From JSON *)

Definition all_digits (s : str) : bool := negb (match s with [] => true | _ => false end) && forallb is_digit s.
Definition no_minus (s : str) : str := match s with c :: s' => if c =? 45 then s' else s | [] => [] end.
(** src/json.cc 41 [IntRE]. *)
Definition int_re (s : str) : bool := all_digits (no_minus s).
(** src/json.cc 39-40 [FloatRE]. *)
Definition float_re (s : str) : bool :=
  let '(whole, rest) := span is_digit (no_minus s) in
  match rest with
  | dot :: rest =>
      let '(frac, rest) := span is_digit rest in
      (dot =? 46) && all_digits whole && all_digits frac &&
      match rest with
      | [] => true
      | e :: rest => (e =? 101) && all_digits (match rest with c :: r => if (c =? 43) || (c =? 45) then r else rest | [] => [] end)
      end
  | [] => false
  end.
(** src/json.cc 150-154 and 193-197. *)
Definition from_number (t : str) : option value :=
  if float_re t then Some (VFloat t) else if int_re t then Some (VInt t) else None.
(** src/json.cc 129-174 [from_json_to_dataterm], 176-217 [from_json_to_term]; a number with no rule fails the well-formedness check. *)
Fixpoint from_json (t : jtree) : option value :=
  match t with
  | JNull => Some VNull
  | JTrue => Some VTrue
  | JFalse => Some VFalse
  | JNumber n => from_number n
  | JString s => Some (VString (strip_quotes s))
  | JArray l =>
      option_map VArray ((fix go (l : list jtree) : option (list value) :=
        match l with
        | [] => Some []
        | t :: l' => match from_json t, go l' with Some v, Some r => Some (v :: r) | _, _ => None end
        end) l)
  | JObject l =>
      option_map VObject ((fix go (l : list (str * jtree)) : option (list (value * value)) :=
        match l with
        | [] => Some []
        | (k, t) :: l' => match from_json t, go l' with Some v, Some r => Some ((VString k, v) :: r) | _, _ => None end
        end) l)
  end.
(** src/json.cc 46-55 [item_key_view]: the leaf of the key, which is a string here. *)
Definition item_key_view (kv : value * value) : str := match fst kv with VString t => t | VInt t => t | VFloat t => t | _ => [] end.
(** src/json.cc 63-69: the index of the last member of each name. *)
Fixpoint last_indices (i : nat) (l : list (value * value)) (m : list (str * nat)) : list (str * nat) :=
  match l with [] => m | kv :: l' => last_indices (S i) l' (sm_set (item_key_view kv) i m) end.
(** src/json.cc 77-87. *)
Fixpoint keep_last (m : list (str * nat)) (i : nat) (l : list (value * value)) : list (value * value) :=
  match l with
  | [] => []
  | kv :: l' =>
      match sm_find (item_key_view kv) m with
      | Some j => if (i =? j)%nat then kv :: keep_last m (S i) l' else keep_last m (S i) l'
      | None => keep_last m (S i) l'
      end
  end.
(** src/json.cc 61-88 [dedup_items], with the callers' use of the empty result (lines 99-105, 119-125). *)
Definition dedup_items (l : list (value * value)) : list (value * value) :=
  let m := last_indices 0 l [] in
  if (length m =? length l)%nat then l
  else match keep_last m 0 l with [] => l | r => r end.
(** src/json.cc 91-128: bottom up over the tree. *)
Fixpoint dedup (v : value) : value :=
  match v with
  | VArray l => VArray (map dedup l)
  | VSet l => VSet (map dedup l)
  | VObject l => VObject (dedup_items (map (fun kv => (fst kv, dedup (snd kv))) l))
  | _ => v
  end.
(** src/json.cc 354-364 [json_to_rego]. *)
Definition json_to_rego (t : jtree) : option value := option_map dedup (from_json t).

(** ** To JSON *)

(** src/internal.cc 174-184 [add_quotes]. *)
Definition add_quotes (t : str) : str := if is_quoted t then t else 34 :: t ++ [34].
Section Lib.
Variable L : json_lib.
(** src/json.cc 285-320: sets are arrays sorted by their text.  ([std::sort] need not be stable: members with equal text.) *)
Definition by_text (a b : jtree) : bool := str_ltb (jl_print L a) (jl_print L b).
(** src/json.cc 322-346: the members. *)
Definition by_name (a b : str * jtree) : bool := str_ltb (fst a) (fst b).
(** src/json.cc 231-349 [to_json_], 366-373 [rego_to_json]; an error node fails the check. *)
Fixpoint rego_to_json (v : value) : option jtree :=
  match v with
  | VNull => Some JNull
  | VTrue => Some JTrue
  | VFalse => Some JFalse
  | VInt t | VFloat t => Some (JNumber t)
  | VString t => Some (JString (if is_quoted t then t else add_quotes t))
  | VArray l =>
      option_map JArray ((fix go (l : list value) : option (list jtree) :=
        match l with
        | [] => Some []
        | v :: l' => match rego_to_json v, go l' with Some t, Some r => Some (t :: r) | _, _ => None end
        end) l)
  | VSet l =>
      option_map (fun l => JArray (sort_by by_text l)) ((fix go (l : list value) : option (list jtree) :=
        match l with
        | [] => Some []
        | v :: l' => match rego_to_json v, go l' with Some t, Some r => Some (t :: r) | _, _ => None end
        end) l)
  | VObject l =>
      option_map (fun l => JObject (sort_by by_name l)) ((fix go (l : list (value * value)) : option (list (str * jtree)) :=
        match l with
        | [] => Some []
        | (k, v) :: l' =>
            match rego_to_json k, rego_to_json v, go l' with
            | Some k, Some t, Some r => Some ((strip_quotes (jl_print L k), t) :: r)
            | _, _, _ => None
            end
        end) l)
  | VErr _ => None
  end.

(** ** Builtins *)

(** src/builtins/json.cc 10-28 [marshal].  The result is quoted in the node: here without quotes. *)
Definition to_text (json : str) : value := VString (strip_quotes (add_quotes (j_escape (jl_text L) json))).
Definition json_marshal (x : value) : outcome res :=
  match x with
  | VErr e => Ok (RErr e)
  | _ => match rego_to_json x with Some t => ok (to_text (jl_print L t)) | None => Ok (RErr EvalBuiltInError) end
  end.
(** src/builtins/json.cc 179-199 [unmarshal]. *)
Definition json_unmarshal (x : value) : outcome res :=
  match x with
  | VString t =>
      match jl_parse L (j_unescape (jl_text L) (strip_quotes (strip_quotes t))) with
      | Some j => match json_to_rego j with Some v => ok v | None => Ok (RErr EvalBuiltInError) end
      | None => Ok (RErr EvalBuiltInError)
      end
  | _ => type_error
  end.
(** src/builtins/json.cc 215-227 [is_valid]. *)
Definition json_is_valid (x : value) : outcome res :=
  match x with
  | VString t => ok (vbool (match jl_parse L (j_unescape (jl_text L) (strip_quotes (strip_quotes t))) with Some _ => true | None => false end))
  | _ => ok VFalse
  end.

(** src/builtins/json.cc 127-142: the prefix is put before every line; [fuel] bounds the rounds. *)
Fixpoint prefix_lines (fuel : nat) (prefix json : str) (start : nat) : str :=
  match fuel with
  | O => []
  | S n =>
      match find_from [10] json start with
      | Some e => substr json start (e - start) ++ [10] ++ prefix ++ prefix_lines n prefix json (e + 1)
      | None => skipn start json
      end
  end.
Definition prefixed (prefix json : str) : str := prefix ++ prefix_lines (S (length json)) prefix json 0.
Record options := { op_pretty : option bool; op_indent : str; op_prefix : str }.
Definition value_or (o : option bool) : bool := match o with Some b => b | None => false end.
Definition set_default (o : option bool) : option bool := match o with Some b => Some b | None => Some true end.
(** src/builtins/json.cc 62-109: the options; the texts are used as they are escaped. *)
Fixpoint read_options (l : list (value * value)) (o : options) : res + options :=
  match l with
  | [] => inr o
  | (k, v) :: l' =>
      match k with
      | VString k =>
          if str_eqb (strip_quotes k) $"pretty" then
            match v with
            | VTrue => read_options l' {| op_pretty := Some true; op_indent := op_indent o; op_prefix := op_prefix o |}
            | VFalse => read_options l' {| op_pretty := Some false; op_indent := op_indent o; op_prefix := op_prefix o |}
            | _ => inl (RErr EvalBuiltInError)
            end
          else if str_eqb (strip_quotes k) $"indent" then
            match v with
            | VString t => read_options l' {| op_pretty := set_default (op_pretty o); op_indent := strip_quotes t; op_prefix := op_prefix o |}
            | _ => inl (RErr EvalBuiltInError)
            end
          else if str_eqb (strip_quotes k) $"prefix" then
            match v with
            | VString t => read_options l' {| op_pretty := set_default (op_pretty o); op_indent := op_indent o; op_prefix := strip_quotes t |}
            | _ => inl (RErr EvalBuiltInError)
            end
          else inl (RErr EvalTypeError)
      | _ => inl (RErr EvalBuiltInError)
      end
  end.
(** src/builtins/json.cc 44-145 [marshal_with_options]. *)
Definition json_marshal_with_options (x opts : value) : outcome res :=
  match x, opts with
  | VErr e, _ => Ok (RErr e)
  | _, VObject l =>
      match read_options l {| op_pretty := None; op_indent := [9]; op_prefix := [] |} with
      | inl r => Ok r
      | inr o =>
          match rego_to_json x with
          | None => Ok (RErr EvalBuiltInError)
          | Some t =>
              let pretty := value_or (op_pretty o) in
              let json := if pretty then jl_pretty L (op_indent o) t else jl_print L t in
              let json := if pretty && negb (match op_prefix o with [] => true | _ => false end) then prefixed (op_prefix o) json else json in
              ok (to_text json)
          end
      end
  | _, _ => type_error
  end.
End Lib.
