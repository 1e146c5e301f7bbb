(** Specification vocabulary for the collection builtins. *)
From Coq Require Import String ZArith List Bool.
From Verif Require Import Base BigIntSpec ValueModel ValueSpec.
Import ListNotations.
Local Open Scope Z_scope.

(** One level of nested arrays is opened. *)
Inductive flattens : list value -> list value -> Prop :=
| fl_nil : flattens [] []
| fl_array inner l r : flattens l r -> flattens (VArray inner :: l) (inner ++ r)
| fl_other v l r : (forall inner, v <> VArray inner) -> flattens l r -> flattens (v :: l) (v :: r).
(** [r] is the part of [l] from position [from] up to but not including position [to], as far as these exist. *)
Definition part_of {A} (l : list A) (from to : Z) (r : list A) : Prop :=
  let lo := Z.max 0 from in
  let hi := Z.min to (Z.of_nat (length l)) in
  length r = Z.to_nat (hi - lo) /\
  forall i, (i < length r)%nat -> nth_error r i = nth_error l (Z.to_nat lo + i).

(** The 64-bit signed integers. *)
Definition int64 (z : Z) : Prop := - 2 ^ 63 <= z < 2 ^ 63.

(** [n] terms of an arithmetic progression. *)
Definition progression (a step : Z) (n : nat) : list Z := map (fun i => a + Z.of_nat i * step) (seq 0 n).
(** The integers from [a] to [b], both included, in the direction of [b], every [s]-th one. *)
Definition stepped (a b s : Z) : list Z :=
  if a <=? b then progression a s (S (Z.to_nat ((b - a) / s))) else progression a (- s) (S (Z.to_nat ((a - b) / s))).
Definition interval (a b : Z) : list Z := stepped a b 1.

(** What a path of keys and indices addresses in a document. *)
Inductive addresses (F : fops) : value -> list value -> value -> Prop :=
| ad_here v : addresses F v [] v
| ad_member l k k' v ks r : In (k', v) l -> veq F k k' -> addresses F v ks r -> addresses F (VObject l) (k :: ks) r
| ad_index l n v ks r : nth_error l n = Some v -> addresses F v ks r ->
    addresses F (VArray l) (VInt (dec (Z.of_nat n)) :: ks) r.
(** No index of the path is negative or beyond the end of the array it is applied to. *)
Inductive in_range (F : fops) : value -> list value -> Prop :=
| ir_nil v : in_range F v []
| ir_object l k ks : (forall k' v, In (k', v) l -> veq F k k' -> in_range F v ks) -> in_range F (VObject l) (k :: ks)
| ir_index l n v ks : nth_error l n = Some v -> Z.of_nat n < 2 ^ 64 -> in_range F v ks ->
    in_range F (VArray l) (VInt (dec (Z.of_nat n)) :: ks)
| ir_key l k ks : (forall t, k <> VInt t) -> in_range F (VArray l) (k :: ks)
| ir_other v ks : (forall l, v <> VObject l) -> (forall l, v <> VArray l) -> in_range F v ks.

(** No two items of an object have the same key. *)
Definition distinct_keys (F : fops) (l : list (value * value)) : Prop :=
  forall l1 k v l2 k' v' l3, l = (l1 ++ (k, v) :: l2 ++ (k', v') :: l3)%list -> ~ veq F k k'.

Definition scalar (v : value) : Prop :=
  match v with VArray _ | VObject _ | VSet _ => False | _ => True end.
(** [sub] is contained in [super]: recursively for objects, as a contiguous run for arrays, by membership for sets. *)
Inductive contained (F : fops) : value -> value -> Prop :=
| ct_object lsuper lsub :
    (forall k v, In (k, v) lsub -> exists k' v', In (k', v') lsuper /\ veq F k k' /\ contained F v' v) ->
    contained F (VObject lsuper) (VObject lsub)
| ct_array before run after lsub : Forall2 (veq F) run lsub ->
    contained F (VArray (before ++ run ++ after)) (VArray lsub)
| ct_set lsuper lsub : (forall x, In x lsub -> mem F x lsuper) -> contained F (VSet lsuper) (VSet lsub)
| ct_array_set lsuper lsub : (forall x, In x lsub -> mem F x lsuper) -> contained F (VArray lsuper) (VSet lsub)
| ct_scalar a b : scalar a -> scalar b -> veq F a b -> contained F a b.
(** No array among the values of nested objects is empty. *)
Inductive no_empty_array : value -> Prop :=
| ne_object l : (forall k v, In (k, v) l -> no_empty_array v) -> no_empty_array (VObject l)
| ne_other v : (forall l, v <> VObject l) -> v <> VArray [] -> no_empty_array v.

(** ** Graphs given as objects from vertices to sets or arrays of neighbours, or null. *)
Definition graph_shaped (g : list (value * value)) : Prop :=
  forall k d, In (k, d) g -> d = VNull \/ (exists l, d = VArray l) \/ exists l, d = VSet l.
Definition vertex (F : fops) (g : list (value * value)) (v : value) : Prop :=
  exists k d, In (k, d) g /\ veq F v k.
Definition edge (F : fops) (g : list (value * value)) (a b : value) : Prop :=
  exists k d l, In (k, d) g /\ veq F a k /\ (d = VArray l \/ d = VSet l) /\ mem F b l.
Inductive reaches (F : fops) (g : list (value * value)) (start : list value) : value -> Prop :=
| rc_start v : mem F v start -> vertex F g v -> reaches F g start v
| rc_step a b : reaches F g start a -> edge F g a b -> vertex F g b -> reaches F g start b.

(** Consecutive vertices are joined by edges. *)
Fixpoint chain (F : fops) (g : list (value * value)) (p : list value) : Prop :=
  match p with
  | a :: ((b :: _) as p') => edge F g a b /\ chain F g p'
  | _ => True
  end.
(** A path from a start vertex through vertices of the graph, no vertex twice, that cannot be made longer. *)
Definition maximal_path (F : fops) (g : list (value * value)) (start p : list value) : Prop :=
  exists v0 vs, p = v0 :: vs /\ mem F v0 start /\
  (forall v, In v p -> vertex F g v) /\ chain F g p /\
  (forall p1 x p2 y p3, p = (p1 ++ x :: p2 ++ y :: p3)%list -> ~ veq F x y) /\
  (forall p' a b, p = (p' ++ [a])%list -> edge F g a b -> vertex F g b -> mem F b p).
