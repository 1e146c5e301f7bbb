(** What a client of the C interface reads from a node, by the calls regoNodeType, regoNodeSize, regoNodeGet and regoNodeValue and
    the constants of include/rego/rego_c.h 55-81. *)
From Coq Require Import String ZArith NArith List Bool.
From Verif Require Import Base BigIntSpec ValueModel VmModel OutputModel.
Import ListNotations.
Local Open Scope Z_scope.

Definition REGO_NODE_TERM := 1002.
Definition REGO_NODE_SCALAR := 1003.
Definition REGO_NODE_ARRAY := 1004.
Definition REGO_NODE_SET := 1005.
Definition REGO_NODE_OBJECT := 1006.
Definition REGO_NODE_OBJECT_ITEM := 1007.
Definition REGO_NODE_INT := 1008.
Definition REGO_NODE_FLOAT := 1009.
Definition REGO_NODE_STRING := 1010.
Definition REGO_NODE_TRUE := 1011.
Definition REGO_NODE_FALSE := 1012.
Definition REGO_NODE_NULL := 1013.
Definition REGO_NODE_TERMS := 1015.
Definition REGO_NODE_RESULTS := 1017.
Definition REGO_NODE_ERROR_SEQ := 1804.

(** The text of a string without the quotes that may be around it. *)
Definition bare (t : str) : str := if is_quoted t then removelast (tl t) else t.
(** The children of a node are those regoNodeGet gives for the indices below regoNodeSize. *)
Definition children (h : node) (cs : list node) : Prop :=
  node_size h = Z.of_nat (length cs) /\ forall i c, nth_error cs i = Some c -> node_get h (Z.of_nat i) = Ok (Some c).
Inductive reads : node -> value -> Prop :=
| reads_inside h c v : node_type h = REGO_NODE_TERM \/ node_type h = REGO_NODE_SCALAR -> children h [c] -> reads c v -> reads h v
| reads_null h : node_type h = REGO_NODE_NULL -> reads h VNull
| reads_true h : node_type h = REGO_NODE_TRUE -> reads h VTrue
| reads_false h : node_type h = REGO_NODE_FALSE -> reads h VFalse
| reads_int h : node_type h = REGO_NODE_INT -> reads h (VInt (node_value h))
| reads_float h : node_type h = REGO_NODE_FLOAT -> reads h (VFloat (node_value h))
| reads_string h : node_type h = REGO_NODE_STRING -> reads h (VString (bare (node_value h)))
| reads_array h cs l : node_type h = REGO_NODE_ARRAY -> children h cs -> reads_list cs l -> reads h (VArray l)
| reads_set h cs l : node_type h = REGO_NODE_SET -> children h cs -> reads_list cs l -> reads h (VSet l)
| reads_object h cs l : node_type h = REGO_NODE_OBJECT -> children h cs -> reads_items cs l -> reads h (VObject l)
with reads_list : list node -> list value -> Prop :=
| reads_nil : reads_list [] []
| reads_cons c cs v l : reads c v -> reads_list cs l -> reads_list (c :: cs) (v :: l)
with reads_items : list node -> list (value * value) -> Prop :=
| reads_no : reads_items [] []
| reads_item c a b cs k v l : node_type c = REGO_NODE_OBJECT_ITEM -> children c [a; b] -> reads a k -> reads b v -> reads_items cs l ->
    reads_items (c :: cs) ((k, v) :: l).

(** Values that can be read: no errors inside, no text that looks like a quoted one (the text of a string is escaped, so it has no
    quote in front), and collections of fewer than 2^32 elements. *)
Fixpoint readable (v : value) : Prop :=
  match v with
  | VNull | VTrue | VFalse | VInt _ | VFloat _ => True
  | VString t => is_quoted t = false
  | VArray l | VSet l => Z.of_nat (length l) < 2 ^ 32 /\ (fix all l := match l with [] => True | x :: l' => readable x /\ all l' end) l
  | VObject l => Z.of_nat (length l) < 2 ^ 32 /\ (fix all l := match l with [] => True | x :: l' => (readable (fst x) /\ readable (snd x)) /\ all l' end) l
  | VErr _ => False
  end.
(** The value of a variable in a result: that of its first binding. *)
Fixpoint bound (x : str) (l : list (str * value)) : option value :=
  match l with [] => None | (y, v) :: l' => if str_eqb y x then Some v else bound x l' end.
Definition REGO_NODE_BINDING := 1000.
Definition REGO_NODE_VAR := 1001.
Definition REGO_NODE_BINDINGS := 1016.
Definition REGO_NODE_RESULT := 1018.
(** Reading a whole result from its node. *)
Inductive reads_bindings : list node -> list (str * value) -> Prop :=
| reads_free : reads_bindings [] []
| reads_bound c x a cs v l : node_type c = REGO_NODE_BINDING -> children c [x; a] -> node_type x = REGO_NODE_VAR -> reads a v -> reads_bindings cs l ->
    reads_bindings (c :: cs) ((node_value x, v) :: l).
Inductive reads_result : node -> result -> Prop :=
| reads_row h t b ts bs l m : node_type h = REGO_NODE_RESULT -> children h [t; b] -> node_type t = REGO_NODE_TERMS -> node_type b = REGO_NODE_BINDINGS ->
    children t ts -> reads_list ts l -> children b bs -> reads_bindings bs m -> reads_result h {| r_terms := l; r_bindings := m |}.
Definition reads_results (h : node) (rs : list result) : Prop :=
  node_type h = REGO_NODE_RESULTS /\ exists cs, children h cs /\ Forall2 reads_result cs rs.
Definition readable_result (r : result) : Prop :=
  Z.of_nat (length (r_terms r)) < 2 ^ 32 /\ Z.of_nat (length (r_bindings r)) < 2 ^ 32 /\
  Forall readable (r_terms r) /\ Forall (fun b => readable (snd b)) (r_bindings r).
