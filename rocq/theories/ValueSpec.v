(** Specification vocabulary for values: when two values are the same value, and which values are well formed. *)
From Coq Require Import String ZArith List Bool QArith.
From Verif Require Import Base BigIntSpec ValueModel.
Import ListNotations.
Local Open Scope Z_scope.

(** The text a number is printed with: integers their own text, floats the text the C++ stream prints. *)
Definition num_text (F : fops) (v : value) : option str :=
  match v with VInt t => Some t | VFloat t => Some (f_key F t) | _ => None end.

(** Same value: arrays elementwise, sets and objects regardless of order and repetition. *)
Inductive veq (F : fops) : value -> value -> Prop :=
| veq_null : veq F VNull VNull
| veq_true : veq F VTrue VTrue
| veq_false : veq F VFalse VFalse
| veq_num a b t : num_text F a = Some t -> num_text F b = Some t -> veq F a b
| veq_string t : veq F (VString t) (VString t)
| veq_array l l' : Forall2 (veq F) l l' -> veq F (VArray l) (VArray l')
| veq_set l l' :
    (forall x, In x l -> exists y, In y l' /\ veq F x y) ->
    (forall y, In y l' -> exists x, In x l /\ veq F x y) ->
    veq F (VSet l) (VSet l')
| veq_object l l' :
    (forall k v, In (k, v) l -> exists k' v', In (k', v') l' /\ veq F k k' /\ veq F v v') ->
    (forall k' v', In (k', v') l' -> exists k v, In (k, v) l /\ veq F k k' /\ veq F v v') ->
    veq F (VObject l) (VObject l').

(** JSON-escaped string content: every quote is escaped and no escape is cut off. *)
Fixpoint escaped (t : str) : bool :=
  match t with
  | [] => true
  | c :: t' =>
      if c =? 34 then false
      else if c =? 92 then match t' with [] => false | _ :: t'' => escaped t'' end
      else escaped t'
  end.

(** Text made of digits, letters, '+', '-' and '.' that is not one of the three words. *)
Definition num_char (c : byte) : bool :=
  ((48 <=? c) && (c <=? 57)) || ((65 <=? c) && (c <=? 90)) || ((97 <=? c) && (c <=? 122))
  || (c =? 43) || (c =? 45) || (c =? 46).
(** A printed number starts with a digit or a minus sign (the words inf and nan are not numbers here). *)
Definition num_like (t : str) : Prop :=
  exists c t', t = c :: t' /\ ((48 <= c <= 57) \/ c = 45) /\ forallb num_char t' = true.

(** Which number texts may occur: integer texts in [NI], printed float texts in [NF]. *)
Definition num_domain (F : fops) (NI NF : str -> Prop) : Prop :=
  (forall t, NI t -> exists z, t = dec z) /\
  (forall t, NF t -> num_like t) /\
  exists q : str -> Q,
    (forall z, NI (dec z) -> (q (dec z) == inject_Z z)%Q) /\
    (* float comparisons are exact on these numbers *)
    (forall t u, NI t \/ NF t -> NI u \/ NF u -> NF t \/ NF u -> f_cmp F t u = Some (Qcompare (q t) (q u))) /\
    (* numbers with the same value are printed the same *)
    (forall t u, NI t \/ NF t -> NI u \/ NF u -> (q t == q u)%Q -> t = u).

(** Well-formed values: numbers in the domain, escaped strings, no repeated set members, object keys that are distinct
    strings (as in JSON). *)
Inductive wfv (F : fops) (NI NF : str -> Prop) : value -> Prop :=
| wf_null : wfv F NI NF VNull
| wf_true : wfv F NI NF VTrue
| wf_false : wfv F NI NF VFalse
| wf_int t : NI t -> wfv F NI NF (VInt t)
| wf_float t : NF (f_key F t) -> wfv F NI NF (VFloat t)
| wf_string t : escaped t = true -> wfv F NI NF (VString t)
| wf_array l : Forall (wfv F NI NF) l -> wfv F NI NF (VArray l)
| wf_set l :
    Forall (wfv F NI NF) l ->
    (forall l1 x l2 y l3, l = (l1 ++ x :: l2 ++ y :: l3)%list -> ~ veq F x y) ->
    wfv F NI NF (VSet l)
| wf_object (l : list (str * value)) :
    Forall (fun kv => escaped (fst kv) = true) l ->
    Forall (fun kv => wfv F NI NF (snd kv)) l ->
    NoDup (map fst l) ->
    wfv F NI NF (VObject (map (fun kv => (VString (fst kv), snd kv)) l)).

(** The values whose numbers are all (arbitrarily large) canonical integers. *)
Definition any_int (t : str) : Prop := exists z, t = dec z.
Definition no_float (t : str) : Prop := False.

(** [x] is, up to value identity, one of [l]. *)
Definition mem (F : fops) (x : value) (l : list value) : Prop := exists y, In y l /\ veq F x y.

(** The mathematical relation of a comparison operator. *)
Definition zrel (op : bool_op) (x y : Z) : Prop :=
  match op with
  | OpEq => x = y | OpNe => x <> y | OpLt => x < y | OpLe => x <= y | OpGt => x > y | OpGe => x >= y
  end.

(** Integer expressions and their mathematical value. *)
Inductive iexpr :=
| ILit (z : Z) | IAdd (a b : iexpr) | ISub (a b : iexpr) | IMul (a b : iexpr) | INeg (a : iexpr) | IAbs (a : iexpr).
Fixpoint zeval (e : iexpr) : Z :=
  match e with
  | ILit z => z
  | IAdd a b => zeval a + zeval b
  | ISub a b => zeval a - zeval b
  | IMul a b => zeval a * zeval b
  | INeg a => - zeval a
  | IAbs a => Z.abs (zeval a)
  end.

(** A concrete record of double operations, used only in examples (it treats no text as a usable double). *)
Definition fops0 : fops :=
  {| f_key := fun t => t; f_cmp := fun _ _ => None; f_ok := fun _ => false;
     f_int := fun _ => None; f_arith := fun _ _ _ => None |}.

(** Integers as values. *)
Definition ints (l : list Z) : list value := map (fun z => VInt (dec z)) l.
