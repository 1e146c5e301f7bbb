(** What an interpreter should hold after a history of calls, from the calls alone: the documents that could be read, in order, and the
    last input, query and entry points that could be read.  No state is carried. *)
From Coq Require Import String ZArith List Bool.
From Verif Require Import Base InterpModel.
Import ListNotations.

Section Spec.
Context {node errors binary : Type}.
Variable E : engine node errors binary.

Definition got (r : reading node errors) : list node := match r with Read n => [n] | _ => [] end.
Definition got_file (file : option str) (f : str -> reading node errors) : list node := match file with Some t => got (f t) | None => [] end.

(** The documents, modules, inputs and queries one call provides: none when it fails.  The name given to a data document is no concern
    of the specification: [name] stands for it. *)
Definition data_from (name : str) (c : call node binary) : list node :=
  match c with
  | AddDataFile path file => got_file file (E.(e_data) path)
  | AddDataJson t => got (E.(e_data) name t)
  | AddData n => got (E.(e_data_node) n)
  | _ => []
  end.
Definition module_from (c : call node binary) : list node :=
  match c with
  | AddModuleFile path file => got_file file (E.(e_module) path)
  | AddModule name t => got (E.(e_module) name t)
  | _ => []
  end.
Definition input_from (c : call node binary) : list node :=
  match c with
  | SetInputFile _ file => got_file file (E.(e_input_json))
  | SetInputTerm t => got (E.(e_input_term) t)
  | SetInputJson t => got (E.(e_input_json) t)
  | SetInput (JsonTree n) => got (E.(e_input_node) n)
  | SetInput (RegoTree n) => [E.(e_to_term) n]
  | SetInput (InputTree n) => [n]
  | _ => []
  end.
Definition query_from (c : call node binary) : list node :=
  match c with
  | SetQuery t | QueryText t => got (E.(e_query) t)
  | _ => []
  end.
Definition entrypoints_from (l : list str) (c : call node binary) : list str :=
  match c with
  | SetEntrypoints names => names
  | AddEntrypoint name => l ++ [name]
  | _ => l
  end.

(** The name of a data text is only used in messages. *)
Definition names_do_not_matter : Prop :=
  forall a b t, match E.(e_data) a t, E.(e_data) b t with
                | Read n, Read n' => n = n'
                | Read _, _ | _, Read _ => False
                | _, _ => True
                end.

(** A failure. *)
Definition failed (r : reply node errors) : Prop :=
  match r with ErrorSeq _ | LoneError _ | LoneErrorNode _ | Exception _ => True | Done | Tree _ => False end.
(** The same reply, except for how a failure to read is worded. *)
Definition alike (r r' : reply node errors) : Prop := r = r' \/ (failed r /\ failed r').
(** Calls that ask, and so answer by a tree or errors. *)
Definition asks (c : call node binary) : Prop :=
  match c with Query | QueryText _ | Build | RunBundle _ | RunEntrypoint _ _ => True | _ => False end.
End Spec.
