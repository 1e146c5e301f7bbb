(** What [print] writes and what a template string is. *)
From Coq Require Import String ZArith List Bool Permutation.
From Verif Require Import Base SMap ValueModel.
Import ListNotations.
Local Open Scope Z_scope.
Local Open Scope list_scope.

Section Spec.
Variable F : fops.
(** [s] shows the value [v]: Arrays in their order, the members of a set in some order, one entry for each key of an object.  Keys that are no strings
    are put in quotes ([object_key_text]). *)
Inductive displays : value -> str -> Prop :=
| ds_null : displays VNull $"null"
| ds_true : displays VTrue $"true"
| ds_false : displays VFalse $"false"
| ds_int t : displays (VInt t) t
| ds_float t : displays (VFloat t) (f_key F t)
| ds_string t : displays (VString t) ([34] ++ t ++ [34])
| ds_error c : displays (VErr c) ($"(error " ++ c ++ $")")
| ds_array l ss : Forall2 displays l ss -> displays (VArray l) ($"[" ++ join $", " ss ++ $"]")
| ds_empty : displays (VSet []) $"set()"
| ds_set l l' ss : l <> [] -> Permutation l' l -> Forall2 displays l' ss -> displays (VSet l) ($"{" ++ join $", " ss ++ $"}")
| ds_object l ps :
    NoDup (map fst ps) ->
    (forall p, In p ps -> exists k v a, In (k, v) l /\ displays k a /\ displays v (snd p) /\ fst p = object_key_text a) ->
    (forall k v, In (k, v) l -> exists a, displays k a /\ In (object_key_text a) (map fst ps)) ->
    displays (VObject l) ($"{" ++ join $", " (map (fun p => fst p ++ $": " ++ snd p) ps) ++ $"}").
(** A value as print shows it: strings without quotes. *)
Inductive shown : value -> str -> Prop :=
| sh_string t : shown (VString t) t
| sh_other v s : (forall t, v <> VString t) -> displays v s -> shown v s.

(** Arguments of print arrive as sets of their values: none if the argument is undefined. *)
Inductive column : value -> list str -> Prop :=
| c_undefined : column (VSet []) [$"<undefined>"]
| c_values l ss : l <> [] -> Forall2 shown l ss -> column (VSet l) ss
| c_single v s : (forall l, v <> VSet l) -> shown v s -> column v [s].
End Spec.

Definition product (ns : list nat) : nat := fold_right Nat.mul 1%nat ns.
(** The place of a combination: the last argument changes fastest. *)
Fixpoint place (cols : list (list str)) (is : list nat) : nat :=
  match cols, is with c :: cols', i :: is' => (i * product (map (@length str) cols') + place cols' is')%nat | _, _ => 0%nat end.
(** [ts] are the texts at the indices [is]. *)
Inductive picks : list (list str) -> list nat -> list str -> Prop :=
| p_nil : picks [] [] []
| p_cons c cols i is t ts : nth_error c i = Some t -> picks cols is ts -> picks (c :: cols) (i :: is) (t :: ts).

(** The text [t] between the quotes of a string, with escapes, stands for [s]. *)
Inductive denotes : str -> str -> Prop :=
| dn_nil : denotes [] []
| dn_plain c t s : 32 <= c -> c <> 34 -> c <> 92 -> denotes t s -> denotes (c :: t) (c :: s)
| dn_same c t s : In c [34; 92; 47] -> denotes t s -> denotes (92 :: c :: t) (c :: s)
| dn_letter c d t s : In (c, d) [(110, 10); (114, 13); (116, 9); (98, 8); (102, 12)] -> denotes t s -> denotes (92 :: c :: t) (d :: s).
(** The content of a part of a template string: what a string stands for, a value as it is displayed. *)
Inductive content (F : fops) : value -> str -> Prop :=
| ct_string t s : denotes t s -> content F (VString t) s
| ct_other v s : (forall t, v <> VString t) -> displays F v s -> content F v s.
Inductive part (F : fops) : value -> str -> Prop :=
| pt_undefined : part F (VSet []) $"<undefined>"
| pt_value v s : content F v s -> part F (VSet [v]) s
| pt_text v s : (forall l, v <> VSet l) -> content F v s -> part F v s.
(** Sets of at most one member. *)
Definition single (v : value) : Prop := match v with VSet (_ :: _ :: _) => False | _ => True end.
(** The texts of strings stand for something. *)
Definition sound (v : value) : Prop :=
  match v with VString t | VSet [VString t] => exists s, denotes t s | _ => True end.
(** A displayed part has no backslashes and no control characters. *)
Definition clear (v : value) (s : str) : Prop :=
  match v with VString _ | VSet [VString _] | VSet [] => True | _ => Forall (fun c => 32 <= c /\ c <> 92) s end.
