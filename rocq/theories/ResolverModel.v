(** Model of src/resolver.cc (infix operators, sets, objects, membership) and of the aggregate, arithmetic, comparison
    and set builtins of src/builtins/core.cc. *)
From Coq Require Import String ZArith List Bool.
From Verif Require Import Base BigIntSpec BigIntModel SMap ValueModel ValueSpec.
Import ListNotations.
Local Open Scope Z_scope.

(** A node that an operator may return: a value, Undefined, or an Error with its code (messages are left out). *)
Inductive res := RVal (v : value) | RUndef | RErr (code : str).

(** include/rego/rego.hh 1042-1051. *)
Definition EvalTypeError : str := $"eval_type_error".
Definition EvalBuiltInError : str := $"eval_builtin_error".
Definition EvalConflictError : str := $"eval_conflict_error".
(** src/internal.cc 186-199: [err] without a code yields this one. *)
Definition WellFormedError : str := $"wellformed_error".

Definition vbool (b : bool) : value := if b then VTrue else VFalse.
Definition is_num (v : value) : bool := match v with VInt _ | VFloat _ => true | _ => false end.

Section Resolver.
Variable F : fops.
Notation key := (to_key F).

(** src/internal.cc 101-104 [get_double]: [stod] of the key; may throw. *)
Definition get_double (v : value) : outcome str := if f_ok F (key v) then Ok (key v) else Throw.

(** src/internal.cc 248-273 [try_get_int].  The text is written to a 32-byte buffer, so at most 31 bytes survive. *)
Definition try_get_int (v : value) : outcome (option str) :=
  match v with
  | VInt t => Ok (Some t)
  | VFloat _ =>
      let! d := get_double v in
      Ok (match f_int F d with Some t => Some (firstn 31 t) | None => None end)
  | _ => Ok None
  end.

(** src/resolver.cc 9-52 [do_arith] on integers. *)
Definition do_arith_int (op : arith_op) (l r : str) : outcome res :=
  match op with
  | OpAdd => let! t := bi_add l r in Ok (RVal (VInt t))
  | OpSub => let! t := bi_sub l r in Ok (RVal (VInt t))
  | OpMul => Ok (RVal (VInt (bi_mul l r)))
  | OpDiv => Ok (RErr WellFormedError)
  | OpMod => if is_zero r then Ok (RErr EvalBuiltInError) else let! t := bi_mod l r in Ok (RVal (VInt t))
  end.

(** src/resolver.cc 54-91 [do_arith] on doubles. *)
Definition do_arith_float (op : arith_op) (l r : str) : outcome res :=
  match op with
  | OpMod => Ok (RErr EvalBuiltInError)
  | _ => match f_arith F op l r with
         | Some t => Ok (RVal (VFloat t))
         | None => Ok (RErr EvalBuiltInError)
         end
  end.

Definition op_eqb_div (op : arith_op) : bool := match op with OpDiv => true | _ => false end.

(** src/resolver.cc 536-565 [set_intersection]: members of the right operand whose key occurs in the left one. *)
Definition set_inter (l r : list value) : list value :=
  filter (fun x => existsb (str_eqb (key x)) (map key l)) r.

(** src/resolver.cc 604-632 [set_difference]. *)
Definition set_diff (l r : list value) : list value :=
  filter (fun x => negb (existsb (str_eqb (key x)) (map key r))) l.

(** src/resolver.cc 567-602 [set_union]: a map from key to member; the left operand overwrites, the right one does not. *)
Definition set_union (l r : list value) : list value :=
  let m := fold_left (fun m x => sm_set (key x) x m) l [] in
  map snd (fold_left (fun m x => sm_insert (key x) x m) r m).

(** src/resolver.cc 511-534 [set]. *)
Definition set_of (l : list value) : list value :=
  map snd (fold_left (fun m x => sm_insert (key x) x m) l []).

(** src/resolver.cc 443-489 [object]: pairs of key and value nodes; equal keys with different values conflict. *)
Fixpoint object_loop (l : list (value * value)) (m : list (str * (value * value))) : res :=
  match l with
  | [] => RVal (VObject (map snd m))
  | (k, v) :: l' =>
      match sm_find (key k) m with
      | Some (_, old) => if str_eqb (key old) (key v) then object_loop l' m else RErr EvalConflictError
      | None => object_loop l' (sm_set (key k) (k, v) m)
      end
  end.
Definition object_of (l : list (value * value)) : res := object_loop l [].

(** src/resolver.cc 356-382 [bininfix] with Subtract, from [arithinfix]. *)
Definition bininfix_arith (op : arith_op) (l r : list value) : res :=
  match op with OpSub => RVal (VSet (set_diff l r)) | _ => RErr WellFormedError end.

(** src/resolver.cc 298-354 [arithinfix]. *)
Definition arithinfix (op : arith_op) (l r : res) : outcome res :=
  match l, r with
  | RUndef, _ | _, RUndef => Ok (RVal VFalse)
  | RErr c, _ => Ok (RErr c)
  | _, RErr c => Ok (RErr c)
  | RVal a, RVal b =>
      if is_num a && is_num b then
        let! x := try_get_int a in
        let! y := try_get_int b in
        match x, y with
        | Some x', Some y' =>
            if op_eqb_div op then
              let! dx := get_double a in let! dy := get_double b in do_arith_float op dx dy
            else do_arith_int op x' y'
        | _, _ => let! dx := get_double a in let! dy := get_double b in do_arith_float op dx dy
        end
      else
        match a, b with
        | VSet x, VSet y => Ok (bininfix_arith op x y)
        | VSet _, _ => if is_num b then Ok (RErr EvalTypeError) else Ok RUndef
        | _, VSet _ => if is_num a then Ok (RErr EvalTypeError) else Ok RUndef
        | _, _ => Ok RUndef
        end
  end.

(** src/resolver.cc 93-217 [do_bool], on integers, doubles and keys. *)
Definition do_bool_int (op : bool_op) (l r : str) : bool :=
  match op with
  | OpEq => bi_eq l r | OpNe => bi_ne l r | OpLt => bi_lt l r
  | OpLe => bi_le l r | OpGt => bi_gt l r | OpGe => bi_ge l r
  end.
Definition do_bool_float (op : bool_op) (l r : str) : bool :=
  match op, f_cmp F l r with
  | OpEq, Some Eq => true
  | OpNe, Some Eq => false
  | OpNe, _ => true
  | OpLt, Some Lt => true
  | OpLe, Some (Lt | Eq) => true
  | OpGt, Some Gt => true
  | OpGe, Some (Gt | Eq) => true
  | _, _ => false
  end.
Definition do_bool_key (op : bool_op) (l r : str) : bool :=
  match op with
  | OpEq => str_eqb l r | OpNe => negb (str_eqb l r) | OpLt => str_ltb l r
  | OpLe => negb (str_ltb r l) | OpGt => str_ltb r l | OpGe => negb (str_ltb l r)
  end.

(** src/resolver.cc 384-421 [boolinfix]. *)
Definition boolinfix (op : bool_op) (l r : res) : outcome res :=
  match l, r with
  | RUndef, _ | _, RUndef => Ok (RVal VFalse)
  | RErr c, _ => Ok (RErr c)
  | _, RErr c => Ok (RErr c)
  | RVal a, RVal b =>
      match a, b with
      | VInt x, VInt y => Ok (RVal (vbool (do_bool_int op x y)))
      | _, _ =>
          if is_num a && is_num b then
            let! dx := get_double a in let! dy := get_double b in
            Ok (RVal (vbool (do_bool_float op dx dy)))
          else Ok (RVal (vbool (do_bool_key op (key a) (key b))))
      end
  end.

(** src/resolver.cc 738-752 [array_find]: positions, as decimal text. *)
Fixpoint array_find_from (i : Z) (l : list value) (search : str) : list str :=
  match l with
  | [] => []
  | x :: l' => if str_eqb (key x) search then dec i :: array_find_from (i + 1) l' search
               else array_find_from (i + 1) l' search
  end.
Definition array_find (l : list value) (search : str) : list str := array_find_from 0 l search.

(** src/resolver.cc 754-767 [object_find]. *)
Definition object_find (l : list (value * value)) (search : str) : list str :=
  map (fun kv => key (fst kv)) (filter (fun kv => str_eqb (key (snd kv)) search) l).

Definition find_indices (item itemseq : value) : list str :=
  match itemseq with
  | VArray l | VSet l => array_find l (key item)
  | VObject l => object_find l (key item)
  | _ => []
  end.

(** src/resolver.cc 708-736 and 673-706, [membership]: behind `item in itemseq` and `index, item in itemseq`
    (src/builtins/internal.cc 9-36). *)
Definition member_2 (item itemseq : value) : bool :=
  match find_indices item itemseq with [] => false | _ :: _ => true end.
Definition member_3 (index item itemseq : value) : bool :=
  existsb (fun i => str_eqb i (key index)) (find_indices item itemseq).

(** src/builtins/core.cc 724-846: the builtins that the arithmetic operators compile to; [unwrap_arg] rejects other
    types (src/internal.cc 451-513). *)
Definition unwrap_number (v : value) : res := if is_num v then RVal v else RErr EvalTypeError.
Definition bi_plus (x y : value) : outcome res := arithinfix OpAdd (unwrap_number x) (unwrap_number y).
Definition bi_times (x y : value) : outcome res := arithinfix OpMul (unwrap_number x) (unwrap_number y).
Definition bi_divb (x y : value) : outcome res := arithinfix OpDiv (unwrap_number x) (unwrap_number y).
Definition bi_rem (x y : value) : outcome res := arithinfix OpMod (unwrap_number x) (unwrap_number y).
Definition unwrap_number_or_set (v : value) : res :=
  match v with VSet _ => RVal v | _ => unwrap_number v end.
Definition bi_minus (x y : value) : outcome res :=
  arithinfix OpSub (unwrap_number_or_set x) (unwrap_number_or_set y).
(** src/rego_to_bundle.cc 3755-3785: unary minus compiles to minus(0, x). *)
Definition bi_uminus (x : value) : outcome res := bi_minus (VInt $"0") x.

(** src/builtins/core.cc 579-602 [abs_], integer part (the float branch formats with [std::to_string]: not modelled). *)
Definition bi_absb (x : value) : option res :=
  match x with
  | VInt t => Some (RVal (VInt (bi_abs t)))
  | VFloat _ => None
  | _ => Some (RErr EvalTypeError)
  end.

(** src/builtins/core.cc 260-390: equal, neq, lt, lte, gt, gte. *)
Definition bi_compare (op : bool_op) (x y : value) : outcome res := boolinfix op (RVal x) (RVal y).

(** Elements of an Array or Set argument. *)
Definition elements (v : value) : option (list value) :=
  match v with VArray l | VSet l => Some l | _ => None end.

(** src/builtins/core.cc 185-201 [sum] and 222-240 [product]: [std::accumulate]. *)
Fixpoint accumulate (op : arith_op) (acc : res) (l : list value) : outcome res :=
  match l with
  | [] => Ok acc
  | x :: l' => let! a := arithinfix op acc (RVal x) in accumulate op a l'
  end.
Definition bi_sum (v : value) : outcome res :=
  match elements v with Some l => accumulate OpAdd (RVal (VInt $"0")) l | None => Ok (RErr EvalTypeError) end.
Definition bi_product (v : value) : outcome res :=
  match elements v with Some l => accumulate OpMul (RVal (VInt $"1")) l | None => Ok (RErr EvalTypeError) end.

(** src/builtins/core.cc 13-30 [count] on collections (strings: Trieste's utf8, not modelled). *)
Definition bi_count (v : value) : option res :=
  match v with
  | VArray l | VSet l => Some (RVal (VInt (dec (Z.of_nat (length l)))))
  | VObject l => Some (RVal (VInt (dec (Z.of_nat (length l)))))
  | VString _ => None
  | _ => Some (RErr EvalTypeError)
  end.

(** src/builtins/core.cc 53-117 [max], [min]: [std::max_element], [std::min_element] by key. *)
Fixpoint max_elem (best : value) (l : list value) : value :=
  match l with
  | [] => best
  | x :: l' => max_elem (if str_ltb (key best) (key x) then x else best) l'
  end.
Fixpoint min_elem (best : value) (l : list value) : value :=
  match l with
  | [] => best
  | x :: l' => min_elem (if str_ltb (key x) (key best) then x else best) l'
  end.
Definition bi_max (v : value) : res :=
  match elements v with
  | None => RErr EvalTypeError
  | Some [] => RUndef
  | Some (x :: l) => RVal (max_elem x l)
  end.
Definition bi_min (v : value) : res :=
  match elements v with
  | None => RErr EvalTypeError
  | Some [] => RUndef
  | Some (x :: l) => RVal (min_elem x l)
  end.

(** src/builtins/core.cc 141-161 [sort]: by key; the result has the type of the argument. *)
Definition sort_vals (l : list value) : list value := sort_by (fun a b => str_ltb (key a) (key b)) l.
Definition bi_sort (v : value) : res :=
  match v with
  | VArray l => RVal (VArray (sort_vals l))
  | VSet l => RVal (VSet (sort_vals l))
  | _ => RErr EvalTypeError
  end.

(** src/builtins/core.cc 848-886 [and_], [or_]. *)
Definition bi_and (x y : value) : res :=
  match x, y with VSet a, VSet b => RVal (VSet (set_inter a b)) | _, _ => RErr WellFormedError end.
Definition bi_or (x y : value) : res :=
  match x, y with VSet a, VSet b => RVal (VSet (set_union a b)) | _, _ => RErr WellFormedError end.

(** src/builtins/core.cc 888-920 [intersection] and 941-961 [union_] of a set of sets. *)
Fixpoint inter_loop (y : list value) (xs : list value) : res :=
  match xs with
  | [] => RVal (VSet y)
  | VSet x :: xs' => inter_loop (set_inter y x) xs'
  | _ :: _ => RErr EvalTypeError
  end.
Definition bi_intersection (v : value) : res :=
  match v with
  | VSet [] => RVal (VSet [])
  | VSet (VSet y :: xs) => inter_loop y xs
  | VSet (_ :: _) => RErr EvalTypeError
  | _ => RErr EvalTypeError
  end.
Fixpoint union_loop (y : list value) (xs : list value) : res :=
  match xs with
  | [] => RVal (VSet y)
  | VSet x :: xs' => union_loop (set_union y x) xs'
  | _ :: _ => RErr EvalTypeError
  end.
Definition bi_union (v : value) : res :=
  match v with VSet xs => union_loop [] xs | _ => RErr EvalTypeError end.
End Resolver.

(** Evaluation of an integer expression bottom-up through the builtins its operators compile to
    (src/rego_to_bundle.cc 3700-3790): every operand is evaluated first, a non-value operand ends the evaluation. *)
Definition on_val (o : outcome res) (f : value -> outcome res) : outcome res :=
  match o with Ok (RVal v) => f v | _ => o end.
Fixpoint eval_iexpr (F : fops) (e : iexpr) : outcome res :=
  match e with
  | ILit z => Ok (RVal (VInt (dec z)))
  | IAdd a b => on_val (eval_iexpr F a) (fun x => on_val (eval_iexpr F b) (fun y => bi_plus F x y))
  | ISub a b => on_val (eval_iexpr F a) (fun x => on_val (eval_iexpr F b) (fun y => bi_minus F x y))
  | IMul a b => on_val (eval_iexpr F a) (fun x => on_val (eval_iexpr F b) (fun y => bi_times F x y))
  | INeg a => on_val (eval_iexpr F a) (fun x => bi_uminus F x)
  | IAbs a => on_val (eval_iexpr F a) (fun x => match bi_absb x with Some r => Ok r | None => Throw end)
  end.
