(** Specification vocabulary for JSON documents as values. *)
From Coq Require Import String ZArith List Bool Sorted Permutation.
From Verif Require Import Base BigIntSpec ValueModel ValueSpec ResolverModel VmModel StrSpec EncModel EncSpec JsonModel.
Import ListNotations.
Local Open Scope Z_scope.
Local Open Scope list_scope.

(** ** Numbers *)
Definition digits1 (s : str) : Prop := s <> [] /\ Forall (fun c => 48 <= c <= 57) s.
Definition signed (s u : str) : Prop := s = u \/ s = $"-" ++ u.
Definition int_number (s : str) : Prop := exists u, signed s u /\ digits1 u.
Definition exponent (s : str) : Prop := s = [] \/ exists sign d, s = $"e" ++ sign ++ d /\ In sign [[]; $"+"; $"-"] /\ digits1 d.
Definition float_number (s : str) : Prop := exists u v w, signed s (u ++ $"." ++ v ++ w) /\ digits1 u /\ digits1 v /\ exponent w.

(** ** Documents *)

(** The last value given to the name [k]. *)
Definition last_of {A} (k : str) (l : list (str * A)) (t : A) : Prop := exists l1 l2, l = l1 ++ (k, t) :: l2 /\ ~ In k (map fst l2).
Inductive subsequence {A} : list A -> list A -> Prop :=
| sq_nil : subsequence [] []
| sq_skip x l l' : subsequence l l' -> subsequence l (x :: l')
| sq_keep x l l' : subsequence l l' -> subsequence (x :: l) (x :: l').
(** The members that count: the last of every name, in the order of the document. *)
Definition last_members {A} (l l0 : list (str * A)) : Prop :=
  subsequence l0 l /\ NoDup (map fst l0) /\ forall k t, In (k, t) l0 <-> last_of k l t.

(** The value of a document. *)
Inductive denotes : jtree -> value -> Prop :=
| dn_null : denotes JNull VNull
| dn_true : denotes JTrue VTrue
| dn_false : denotes JFalse VFalse
| dn_int t : int_number t -> denotes (JNumber t) (VInt t)
| dn_float t : float_number t -> denotes (JNumber t) (VFloat t)
| dn_string s : denotes (JString (34 :: s ++ [34])) (VString s)
| dn_array l l' : Forall2 denotes l l' -> denotes (JArray l) (VArray l')
| dn_object l l0 (l' : list value) : last_members l l0 -> Forall2 (fun kt v => denotes (snd kt) v) l0 l' ->
    denotes (JObject l) (VObject (combine (map (fun kt => VString (fst kt)) l0) l')).
(** Documents whose numbers are in the two forms, with quoted strings. *)
Inductive readable : jtree -> Prop :=
| rd_null : readable JNull
| rd_true : readable JTrue
| rd_false : readable JFalse
| rd_number t : int_number t \/ float_number t -> readable (JNumber t)
| rd_string s : readable (JString (34 :: s ++ [34]))
| rd_array l : Forall readable l -> readable (JArray l)
| rd_object l : Forall (fun kt => readable (snd kt)) l -> readable (JObject l).
(** Some number in the document is in neither form. *)
Inductive bad_number : jtree -> Prop :=
| bn_number t : ~ int_number t -> ~ float_number t -> bad_number (JNumber t)
| bn_array l t : In t l -> bad_number t -> bad_number (JArray l)
| bn_object l k t : In (k, t) l -> bad_number t -> bad_number (JObject l).

(** ** Values through JSON *)

(** Values that JSON can express: numbers in the two forms, escaped strings, and distinct strings as keys. *)
Inductive expressible : value -> Prop :=
| ex_null : expressible VNull
| ex_true : expressible VTrue
| ex_false : expressible VFalse
| ex_int t : int_number t -> expressible (VInt t)
| ex_float t : float_number t -> expressible (VFloat t)
| ex_string t : escaped t = true -> expressible (VString t)
| ex_array l : Forall expressible l -> expressible (VArray l)
| ex_set l : Forall expressible l -> expressible (VSet l)
| ex_object (l : list (str * value)) : NoDup (map fst l) -> Forall (fun kv => escaped (fst kv) = true) l -> Forall (fun kv => expressible (snd kv)) l ->
    expressible (VObject (map (fun kv => (VString (fst kv), snd kv)) l)).
Definition name_order (a b : str) : Prop := str_ltb a b = true.
(** The same value, but for sets, which become arrays, and the order of members, which is that of their names. *)
Inductive through_json : value -> value -> Prop :=
| tj_null : through_json VNull VNull
| tj_true : through_json VTrue VTrue
| tj_false : through_json VFalse VFalse
| tj_int t : through_json (VInt t) (VInt t)
| tj_float t : through_json (VFloat t) (VFloat t)
| tj_string t : through_json (VString t) (VString t)
| tj_array l l' : Forall2 through_json l l' -> through_json (VArray l) (VArray l')
| tj_set l l0 l' : Permutation l l0 -> Forall2 through_json l0 l' -> through_json (VSet l) (VArray l')
| tj_object (l l0 : list (str * value)) l' : Permutation l l0 -> StronglySorted name_order (map fst l0) -> Forall2 (fun kv w => through_json (snd kv) w) l0 l' ->
    through_json (VObject (map (fun kv => (VString (fst kv), snd kv)) l)) (VObject (combine (map (fun kv => VString (fst kv)) l0) l')).
Inductive no_sets : value -> Prop :=
| ns_array l : Forall no_sets l -> no_sets (VArray l)
| ns_object l : Forall (fun kv => no_sets (fst kv) /\ no_sets (snd kv)) l -> no_sets (VObject l)
| ns_scalar v : (forall l, v <> VArray l) -> (forall l, v <> VObject l) -> (forall l, v <> VSet l) -> no_sets v.
(** What the library does with the document at hand: it reads what it has printed, and prints a string as it is. *)
Definition reads_back (L : json_lib) (t : jtree) : Prop := jl_parse L (jl_print L t) = Some t.
Definition prints_strings (L : json_lib) : Prop := forall s, jl_print L (JString s) = s.
(** The same value with the members of its sets and objects in another order. *)
Inductive reordered : value -> value -> Prop :=
| ro_scalar v : (forall l, v <> VArray l) -> (forall l, v <> VObject l) -> (forall l, v <> VSet l) -> reordered v v
| ro_array l l' : Forall2 reordered l l' -> reordered (VArray l) (VArray l')
| ro_set l l0 l' : Permutation l l0 -> Forall2 reordered l0 l' -> reordered (VSet l) (VSet l')
| ro_object l l0 l' : Permutation l l0 -> Forall2 (fun a b => fst a = fst b /\ reordered (snd a) (snd b)) l0 l' -> reordered (VObject l) (VObject l').
(** The library prints different documents differently. *)
Definition prints_apart (L : json_lib) : Prop := forall a b, readable a -> readable b -> jl_print L a = jl_print L b -> a = b.

(** ** The options of json.marshal_with_options *)

Definition harmless (t : str) : Prop := ~ In 34 t /\ ~ In 92 t.
Inductive option_member : value * value -> Prop :=
| om_pretty b : option_member (VString $"pretty", vbool b)
| om_indent t : harmless t -> option_member (VString $"indent", VString t)
| om_prefix t : harmless t -> option_member (VString $"prefix", VString t).
Definition given (l : list (value * value)) (k : str) (v : value) : Prop := In (VString k, v) l.
(** Distinct options of the right types; an indent or a prefix asks for pretty printing unless it is switched off. *)
Definition chosen (l : list (value * value)) (pretty : bool) (indent prefix : str) : Prop :=
  NoDup (map fst l) /\ Forall option_member l /\
  (pretty = true <-> given l $"pretty" VTrue \/ (~ given l $"pretty" VFalse /\ exists k t, In k [$"indent"; $"prefix"] /\ given l k (VString t))) /\
  (given l $"indent" (VString indent) \/ ((forall t, ~ given l $"indent" (VString t)) /\ indent = [9])) /\
  (given l $"prefix" (VString prefix) \/ ((forall t, ~ given l $"prefix" (VString t)) /\ prefix = [])).
(** [u] is the text [t] with [p] before each of its lines. *)
Definition with_prefix (p t u : str) : Prop := exists ls, pieces [10] t ls /\ u = intercalate [10] (map (app p) ls).

(** No object has two members of one name. *)
Inductive distinct_names : value -> Prop :=
| dm_array l : Forall distinct_names l -> distinct_names (VArray l)
| dm_object (l : list (str * value)) : NoDup (map fst l) -> Forall (fun kv => distinct_names (snd kv)) l ->
    distinct_names (VObject (map (fun kv => (VString (fst kv), snd kv)) l))
| dm_scalar v : (forall l, v <> VArray l) -> (forall l, v <> VObject l) -> (forall l, v <> VSet l) -> distinct_names v.
