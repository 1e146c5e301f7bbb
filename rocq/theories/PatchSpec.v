(** Specification vocabulary for json.patch (RFC 6901, RFC 6902), json.filter and json.remove. *)
From Coq Require Import String ZArith List Bool.
From Verif Require Import Base BigIntSpec ValueModel ValueSpec.
Import ListNotations.
Local Open Scope Z_scope.
Local Open Scope list_scope.

(** ** JSON Pointer *)

(** RFC 6901, section 3: "~" is written "~0" and "/" is written "~1"; every token is preceded by "/". *)
Definition escape_token (t : str) : str := flat_map (fun c => if c =? 126 then $"~0" else if c =? 47 then $"~1" else [c]) t.
Definition pointer_text (ts : list str) : str := flat_map (fun t => $"/" ++ escape_token t) ts.

(** JSON documents: no sets, and distinct strings as keys. *)
Inductive json : value -> Prop :=
| js_null : json VNull
| js_true : json VTrue
| js_false : json VFalse
| js_int t : json (VInt t)
| js_float t : json (VFloat t)
| js_string t : json (VString t)
| js_array l : Forall json l -> json (VArray l)
| js_object (l : list (str * value)) : NoDup (map fst l) -> Forall (fun kv => json (snd kv)) l ->
    json (VObject (map (fun kv => (VString (fst kv), snd kv)) l)).

(** RFC 6901, section 4: the value that a pointer refers to. *)
Inductive located : value -> list str -> value -> Prop :=
| lo_here v : located v [] v
| lo_member l k w ts v : In (VString k, w) l -> located w ts v -> located (VObject l) (k :: ts) v
| lo_element l n w ts v : nth_error l n = Some w -> located w ts v -> located (VArray l) (dec (Z.of_nat n) :: ts) v.
(** The object or array that holds the target of the pointer is changed by [R] (with the last token), and nothing else is. *)
Inductive changed (R : value -> str -> value -> Prop) : value -> list str -> value -> Prop :=
| ch_here doc k doc' : R doc k doc' -> changed R doc [k] doc'
| ch_member l1 k w w' l2 ts : changed R w ts w' ->
    changed R (VObject (l1 ++ (VString k, w) :: l2)) (k :: ts) (VObject (l1 ++ (VString k, w') :: l2))
| ch_element l1 w w' l2 ts : changed R w ts w' ->
    changed R (VArray (l1 ++ w :: l2)) (dec (Z.of_nat (length l1)) :: ts) (VArray (l1 ++ w' :: l2)).

(** ** RFC 6902, section 4 *)

(** 4.1 add: a new member, a member replaced, an element inserted, an element appended. *)
Inductive adds (v : value) : value -> str -> value -> Prop :=
| ad_new l k : (forall w, ~ In (VString k, w) l) -> adds v (VObject l) k (VObject (l ++ [(VString k, v)]))
| ad_old l1 k w l2 : adds v (VObject (l1 ++ (VString k, w) :: l2)) k (VObject (l1 ++ (VString k, v) :: l2))
| ad_insert l1 l2 : adds v (VArray (l1 ++ l2)) (dec (Z.of_nat (length l1))) (VArray (l1 ++ v :: l2))
| ad_end l : adds v (VArray l) $"-" (VArray (l ++ [v])).
(** 4.2 remove, 4.3 replace: the target must exist. *)
Inductive removes : value -> str -> value -> Prop :=
| rm_member l1 k w l2 : removes (VObject (l1 ++ (VString k, w) :: l2)) k (VObject (l1 ++ l2))
| rm_element l1 w l2 : removes (VArray (l1 ++ w :: l2)) (dec (Z.of_nat (length l1))) (VArray (l1 ++ l2)).
Inductive replaces (v : value) : value -> str -> value -> Prop :=
| rp_member l1 k w l2 : replaces v (VObject (l1 ++ (VString k, w) :: l2)) k (VObject (l1 ++ (VString k, v) :: l2))
| rp_element l1 w l2 : replaces v (VArray (l1 ++ w :: l2)) (dec (Z.of_nat (length l1))) (VArray (l1 ++ v :: l2)).

Inductive rfc_op :=
| RTest (path : list str) (v : value) | RAdd (path : list str) (v : value) | RRemove (path : list str)
| RReplace (path : list str) (v : value) | RCopy (path from : list str) | RMove (path from : list str).
Definition proper_prefix (p q : list str) : Prop := exists t r, q = p ++ t :: r.
Inductive step (F : fops) : rfc_op -> value -> value -> Prop :=
| st_test ts v w doc : located doc ts w -> veq F w v -> step F (RTest ts v) doc doc
| st_add_root v doc : step F (RAdd [] v) doc v
| st_add ts v doc doc' : changed (adds v) doc ts doc' -> step F (RAdd ts v) doc doc'
| st_remove ts doc doc' : changed removes doc ts doc' -> step F (RRemove ts) doc doc'
| st_replace_root v doc : step F (RReplace [] v) doc v
| st_replace ts v doc doc' : changed (replaces v) doc ts doc' -> step F (RReplace ts v) doc doc'
| st_copy ts from v doc doc' : located doc from v -> step F (RAdd ts v) doc doc' -> step F (RCopy ts from) doc doc'
| st_move ts from v doc doc1 doc' : ts <> from -> ~ proper_prefix from ts ->
    located doc from v -> step F (RRemove from) doc doc1 -> step F (RAdd ts v) doc1 doc' -> step F (RMove ts from) doc doc'
| st_move_same ts v doc : located doc ts v -> step F (RMove ts ts) doc doc.
(** Section 5: the operations are applied one after the other. *)
Inductive steps (F : fops) : list rfc_op -> value -> value -> Prop :=
| ss_nil doc : steps F [] doc doc
| ss_cons op ops doc doc1 doc' : step F op doc doc1 -> steps F ops doc1 doc' -> steps F (op :: ops) doc doc'.

(** Section 3: the object that describes an operation. *)
Definition has (o : list (value * value)) (name : str) (v : value) : Prop := In (VString name, v) o.
Definition describes (node : value) (op : rfc_op) : Prop :=
  exists o, node = VObject o /\ json node /\
  match op with
  | RTest ts v => has o $"op" (VString $"test") /\ has o $"path" (VString (pointer_text ts)) /\ has o $"value" v
  | RAdd ts v => has o $"op" (VString $"add") /\ has o $"path" (VString (pointer_text ts)) /\ has o $"value" v
  | RRemove ts => has o $"op" (VString $"remove") /\ has o $"path" (VString (pointer_text ts))
  | RReplace ts v => has o $"op" (VString $"replace") /\ has o $"path" (VString (pointer_text ts)) /\ has o $"value" v
  | RCopy ts from => has o $"op" (VString $"copy") /\ has o $"path" (VString (pointer_text ts)) /\ has o $"from" (VString (pointer_text from))
  | RMove ts from => has o $"op" (VString $"move") /\ has o $"path" (VString (pointer_text ts)) /\ has o $"from" (VString (pointer_text from))
  end.

(** ** Where the implementation departs from the RFC *)

(** No array on the way is addressed with a token that is neither an index nor "-". *)
Definition index_token (t : str) : Prop := t = $"-" \/ exists n, 0 <= n < 2 ^ 64 /\ t = dec n.
Definition addressable (doc : value) (ts : list str) : Prop :=
  forall p t q l, ts = p ++ t :: q -> located doc p (VArray l) -> index_token t.
Definition regular_op (doc : value) (op : rfc_op) : Prop :=
  match op with
  | RTest ts _ | RAdd ts _ | RRemove ts | RReplace ts _ => addressable doc ts
  | RCopy ts from => addressable doc from /\ addressable doc ts /\ ts <> [] /\ ts <> from
  | RMove ts from => addressable doc from /\ ts <> [] /\ ts <> from /\ ~ proper_prefix from ts /\
      forall doc1, changed removes doc from doc1 -> addressable doc1 ts
  end.
Fixpoint regular (F : fops) (doc : value) (ops : list rfc_op) : Prop :=
  match ops with
  | [] => True
  | op :: ops' => regular_op doc op /\ forall doc', step F op doc doc' -> regular F doc' ops'
  end.
Definition is_test (op : rfc_op) : Prop := exists ts v, op = RTest ts v.

(** ** Selection by paths *)

Definition prefix {A} (p q : list A) : Prop := exists r, q = p ++ r.
(** What members of nested objects a path of keys leads to. *)
Inductive leads : value -> list str -> value -> Prop :=
| le_here v : leads v [] v
| le_member l k w ts v : In (VString k, w) l -> leads w ts v -> leads (VObject l) (k :: ts) v.
(** A path is selected when one of the given paths leads to it, or on beyond it. *)
Definition selected (ps : list (list str)) (ts : list str) : Prop := exists p, In p ps /\ (prefix p ts \/ prefix ts p).
Definition covered (ps : list (list str)) (ts : list str) : Prop := exists p, In p ps /\ prefix p ts.
Definition leaf (v : value) : Prop := forall l, v <> VObject l.
(** Objects, nested in each other, whose keys are distinct strings. *)
Inductive string_keyed : value -> Prop :=
| sk_leaf v : leaf v -> string_keyed v
| sk_object (l : list (str * value)) : NoDup (map fst l) -> Forall (fun kv => string_keyed (snd kv)) l ->
    string_keyed (VObject (map (fun kv => (VString (fst kv), snd kv)) l)).
(** No path leads into an array or a set. *)
Definition within_objects (doc : value) (ps : list (list str)) : Prop :=
  forall p q v, In (p ++ q) ps -> leads doc p v -> (exists l, v = VArray l) \/ (exists l, v = VSet l) -> q = [].
(** Paths written with "/" between the keys, or as an array. *)
Definition slashed (ts : list str) : str := match ts with [] => [] | t :: ts' => t ++ flat_map (fun u => $"/" ++ u) ts' end.
Inductive names_path : value -> list str -> Prop :=
| np_text ts : ts <> [] -> Forall (fun t => ~ In 47 t) ts -> names_path (VString (slashed ts)) ts
| np_array l ts : ts <> [] -> Forall2 (fun v t => v = VString t \/ v = VInt t) l ts -> names_path (VArray l) ts.
(** The elements of an array at the positions that satisfy [f]. *)
Definition elements_at (f : nat -> bool) (l : list value) : list value :=
  map snd (filter (fun iw => f (fst iw)) (combine (seq 0 (length l)) l)).
