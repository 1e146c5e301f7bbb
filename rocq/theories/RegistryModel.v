(** src/builtins.cc [BuiltInsDef]: the registry of builtins, its lookup policy and the call of a builtin. *)
From Coq Require Import String ZArith List Bool.
From Verif Require Import Base ValueModel ResolverModel DispatchModel.
Import ListNotations.
Local Open Scope Z_scope.
Local Open Scope list_scope.

(** include/rego/rego.hh 793-813: a builtin; [None] is [AnyArity].  src/builtins.cc 14-29: one that is not available only has an error.
    What a behaviour does to the registry or the outside is not modelled. *)
Definition behaviour := list value -> outcome res.
Inductive body := Runs (f : behaviour) | NotAvailable.
Record builtin := { bu_name : str; bu_arity : option Z; bu_body : body }.
(** include/rego/rego.hh 1026-1036. *)
Inductive policy := AllowAll | Whitelist (l : list str) | Blacklist (l : list str).
Record registry := { r_policy : policy; r_builtins : list (str * option builtin); r_strict : bool }.
(** src/builtins.cc 87-90. *)
Definition new_registry : registry := {| r_policy := AllowAll; r_builtins := []; r_strict := false |}.
Definition RegoTypeError : str := $"rego_type_error".
(** The map from names to builtins, null pointers included. *)
Fixpoint cached (l : list (str * option builtin)) (name : str) : option (option builtin) :=
  match l with [] => None | (n, b) :: l => if str_eqb n name then Some b else cached l name end.
Definition mem_name (l : list str) (name : str) : bool := existsb (str_eqb name) l.
(** src/builtins.cc 14-29, 224-227: in place of a builtin, with its declaration; there is none behind a null pointer. *)
Definition not_available (name : str) (b : option builtin) : outcome (option builtin) :=
  match b with None => Ub | Some b => Ok (Some {| bu_name := name; bu_arity := bu_arity b; bu_body := NotAvailable |}) end.
(** What a call did: the builtin that ran and its arguments. *)
Definition event := (str * list value)%type.
(** src/builtins.cc 128-147 [is_deprecated]: in every version. *)
Definition deprecated : list str :=
  [$"any"; $"all"; $"re_match"; $"net.cidr_overlap"; $"set_diff"; $"cast_array"; $"cast_set"; $"cast_string"; $"cast_boolean"; $"cast_null"; $"cast_object"].
(** [err(args[0], ...)] *)
Definition err_at (args : list value) (code : str) : outcome (res * list event) := match args with [] => Ub | _ => Ok (RErr code, []) end.
Fixpoint error_arg (args : list value) : option str := match args with [] => None | VErr c :: _ => Some c | _ :: args => error_arg args end.
Section Registry.
(** The standard library: [lookup]. *)
Variable std : str -> outcome (option builtin).
(** src/builtins.cc 214-253 [at]. *)
Definition at_name (name : str) (s : registry) : outcome (registry * option builtin) :=
  match cached (r_builtins s) name with
  | Some b => Ok (s, b)
  | None =>
      let! b := std name in
      let! b := match r_policy s with
                | Whitelist l => if mem_name l name then Ok b else not_available name b
                | Blacklist l => if mem_name l name then not_available name b else Ok b
                | AllowAll => Ok b
                end in
      Ok ({| r_policy := r_policy s; r_builtins := (name, b) :: r_builtins s; r_strict := r_strict s |}, b)
  end.
(** src/builtins.cc 113-116 [is_builtin]. *)
Definition is_builtin (name : str) (s : registry) : outcome (registry * bool) :=
  let! r := at_name name s in Ok (fst r, match snd r with Some _ => true | None => false end).
(** src/rego_c.cc 606-627 [regoIsAvailableBuiltIn]. *)
Definition is_available (name : str) (s : registry) : outcome (registry * bool) :=
  let! r := at_name name s in Ok (fst r, match snd r with Some b => match bu_body b with Runs _ => true | NotAvailable => false end | None => false end).
(** src/builtins.cc 181-192: errors of the behaviour. *)
Definition relax (strict : bool) (r : res) : res := match r with RErr c => if strict then RErr c else RUndef | _ => r end.
(** src/builtins.cc 149-195 [call]. *)
Definition call (name : str) (args : list value) (s : registry) : outcome (registry * (res * list event)) :=
  let! r := at_name name s in
  let s := fst r in
  let! r := match snd r with
            | None => err_at args WellFormedError
            | Some b =>
                if mem_name deprecated name then err_at args RegoTypeError
                else if match bu_arity b with None => false | Some n => negb (n =? Z.of_nat (length args)) end then err_at args WellFormedError
                else match error_arg args with
                     | Some c => Ok (RErr c, [])
                     | None =>
                         match bu_body b with
                         | NotAvailable => Ok (relax (r_strict s) (RErr EvalBuiltInError), [])
                         | Runs f => let! r := f args in Ok (relax (r_strict s) r, [(bu_name b, args)])
                         end
                     end
            end in
  Ok (s, r).
Inductive op :=
| Register (b : builtin) | SetWhitelist (l : list str) | SetBlacklist (l : list str) | SetAllowAll | SetStrict (b : bool)
| AskBuiltin (name : str) | AskAvailable (name : str) | Call (name : str) (args : list value).
Definition step (o : op) (s : registry) : outcome registry :=
  match o with
  (* src/builtins.cc 197-201 *)
  | Register b => Ok {| r_policy := r_policy s; r_builtins := (bu_name b, Some b) :: r_builtins s; r_strict := r_strict s |}
  (* include/rego/rego.hh 955-979 *)
  | SetWhitelist l => Ok {| r_policy := Whitelist l; r_builtins := []; r_strict := r_strict s |}
  (* include/rego/rego.hh 988-1013 *)
  | SetBlacklist l => Ok {| r_policy := Blacklist l; r_builtins := []; r_strict := r_strict s |}
  (* src/builtins.cc 255-260 *)
  | SetAllowAll => Ok {| r_policy := AllowAll; r_builtins := []; r_strict := r_strict s |}
  (* src/builtins.cc 107-111 *)
  | SetStrict b => Ok {| r_policy := r_policy s; r_builtins := r_builtins s; r_strict := b |}
  | AskBuiltin name => let! r := is_builtin name s in Ok (fst r)
  | AskAvailable name => let! r := is_available name s in Ok (fst r)
  | Call name args => let! r := call name args s in Ok (fst r)
  end.
Fixpoint run (ops : list op) (s : registry) : outcome registry := match ops with [] => Ok s | o :: ops => let! s := step o s in run ops s end.
End Registry.
(** The standard library of a build: which builtins are placeholders, and what the others do. *)
Definition library (available : str -> bool) (impl : str -> behaviour) (name : str) : outcome (option builtin) :=
  let! b := lookup name in
  Ok (match b with
      | None => None
      | Some b => Some {| bu_name := b_name b; bu_arity := Some (b_arity b); bu_body := if available (b_name b) then Runs (impl (b_name b)) else NotAvailable |}
      end).
