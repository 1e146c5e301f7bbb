(** Model of the compilation of terms, expressions and the literals of queries to statements: src/opblock.cc 345-833 and the
    literal cases of the pass [expr_to_opblock] (src/rego_to_bundle.cc 3297-3815), with what the pass [lift_functions] makes of
    iterations (4255-4318).
    Simplifications: variables are locals ([input], [data] and the variables of the rule) or the name of a rule; references to
    documents, calls of functions, [with], template strings, [print] and destructuring are left out.  [fresh] numbers the names it makes in the
    order in which the model asks for them; the code asks in the order of the rewriting.  Source locations are left out. *)
From Coq Require Import String ZArith List Bool.
From Verif Require Import Base BigIntSpec ValueModel VmModel PlanModel StrModel RuleModel.
Import ListNotations.
Local Open Scope Z_scope.

(** ** Source *)

(** Terms and expressions.  A reference a.b[c] is [TmDot (TmDot a "b") c]; its head is a variable, a collection or a call.
    Infix operators are calls of the builtin of that operator (3360-3495), except [==] outside an assignment. *)
Inductive term :=
| TmString (t : str)                       (* the text with its quotes *)
| TmNumber (t : str)
| TmBool (b : bool)
| TmNull
| TmVar (x : str)
| TmArray (l : terms)
| TmSet (l : terms)
| TmObject (l : items)
| TmDot (a k : term)
| TmCall (f : str) (args : terms)
| TmMinus (t : term)
| TmEqual (a b : term)
| TmMember (v seq : term)                  (* v in seq *)
| TmMember3 (k v seq : term)               (* k, v in seq *)
| TmArrayCompr (v : term) (q : query)
| TmSetCompr (v : term) (q : query)
| TmObjectCompr (k v : term) (q : query)
| TmRule (f : str)                         (* a variable that is the name of a rule; f is the name of its function *)
with terms := TNil | TCons (t : term) (l : terms)
with items := NoItems | Item (k v : term) (l : items)
(** Queries: an iteration (some k, v in t) has the rest of the query as its body. *)
with query :=
| QEnd
| QExpr (t : term) (q : query)
| QAssign (x : str) (t : term) (q : query)
| QNot (q1 q : query)
| QEvery (dom : str) (key : option str) (val : str) (body q : query)
| QScan (t : term) (key val : str) (q : query).

Fixpoint tlen (l : terms) : nat := match l with TNil => O | TCons _ l' => S (tlen l') end.

(** ** Names: Trieste's [fresh]. *)
Definition tmp (prefix : str) (k : nat) : str := (prefix ++ $"$" ++ dec (Z.of_nat k))%list.

(** 787-833 [to_operand] on a term that is a constant string keeps its quotes; [term_to_opblock] does not. *)
Definition as_operand (t : term) (o : opblock) : opblock := match t with TmString s => Ob (OString s) [] | _ => o end.
Definition truth (x : str) : nir := IAssignVar (OBool true) x.
(** src/rego_to_bundle.cc 4255-4305: the local that is iterated over; another operand is an error (see [scannable] in
    TermSpec). *)
Definition source (o : opblock) : str := match ob_op o with OLocal x => x | _ => [] end.

(** ** Terms: src/opblock.cc 647-707 [term_to_opblock]. *)
Fixpoint lower (k : nat) (t : term) {struct t} : nat * opblock :=
  match t with
  | TmString s => (k, Ob (OString (strip_quotes s)) [])                                             (* 345-350 *)
  | TmNumber s => (S k, Ob (OLocal (tmp $"number" k)) [IMakeNumberRef s (tmp $"number" k)])         (* 400-407 *)
  | TmBool b => (k, Ob (OBool b) [])                                                                (* 395-398 *)
  | TmNull => (S k, Ob (OLocal (tmp $"null" k)) [IMakeNull (tmp $"null" k)])                        (* 409-414 *)
  | TmVar x => (k, Ob (OLocal x) [])                                                                (* 578-584 *)
  | TmArray l =>                                                                                    (* 457-471 *)
      let x := tmp $"array" k in
      let '(k1, c) := lower_elems (IArrayAppend x) (S k) l in
      (k1, Ob (OLocal x) (IMakeArray (dec (Z.of_nat (tlen l) / 2)) x :: c))
  | TmSet l =>                                                                                      (* 473-485 *)
      let x := tmp $"set" k in
      let '(k1, c) := lower_elems (fun o => ISetAdd o x) (S k) l in
      (k1, Ob (OLocal x) (IMakeSet x :: c))
  | TmObject l =>                                                                                   (* 443-455 *)
      let x := tmp $"object" k in
      let '(k1, c) := lower_items x (S k) l in
      (k1, Ob (OLocal x) (IMakeObject x :: c))
  | TmDot a b =>                                                                                    (* 611-645 *)
      let '(k1, oa) := lower k a in
      let '(k2, ob) := lower k1 b in
      let x := tmp $"dot" k2 in
      (S k2, Ob (OLocal x) (ob_code oa ++ ob_code ob ++ [IDot (ob_op oa) (ob_op ob) x]))
  | TmCall f args =>                                                                                (* 759-785 *)
      let x := tmp $"call" k in
      let '(k1, ops, c) := lower_args (S k) args in
      (k1, Ob (OLocal x) (c ++ [ICall f ops x]))
  | TmMinus a =>                                                  (* src/rego_to_bundle.cc 3755-3789 *)
      let '(k1, o) := lower k a in
      let x := tmp $"unary" k1 in
      let z := tmp $"zero" (S k1) in
      (S (S k1), Ob (OLocal x) (ob_code o ++ [IMakeNumberInt $"0" z; ICall $"minus" [OLocal z; ob_op o] x]))
  | TmEqual a b =>                                                (* src/rego_to_bundle.cc 3402-3423 *)
      let x := tmp $"infix" k in
      let '(k1, oa0) := lower (S k) a in
      let '(k2, ob0) := lower k1 b in
      let oa := as_operand a oa0 in let ob := as_operand b ob0 in
      (k2, Ob (OLocal x) (ob_code oa ++ ob_code ob ++ [IEqual (ob_op oa) (ob_op ob); truth x]))
  | TmMember v seq =>                                                                               (* 487-503 *)
      let x := tmp $"membership" k in
      let '(k1, os0) := lower (S k) seq in
      let '(k2, ov0) := lower k1 v in
      let os := as_operand seq os0 in let ov := as_operand v ov0 in
      (k2, Ob (OLocal x) (ob_code os ++ ob_code ov ++ [ICall $"internal.member_2" [ob_op ov; ob_op os] x]))
  | TmMember3 i v seq =>                                                                            (* 505-512 *)
      let x := tmp $"membership" k in
      let '(k1, os0) := lower (S k) seq in
      let '(k2, oi0) := lower k1 i in
      let '(k3, ov0) := lower k2 v in
      let os := as_operand seq os0 in let oi := as_operand i oi0 in let ov := as_operand v ov0 in
      (k3, Ob (OLocal x) (ob_code os ++ ob_code oi ++ ob_code ov ++
                          [ICall $"internal.member_3" [ob_op oi; ob_op ov; ob_op os] x]))
  | TmArrayCompr v q =>                                                                             (* 514-533 *)
      let x := tmp $"arraycompr" k in
      let '(k1, ls) := lower_query false (S k) q in
      let '(k2, ov0) := lower k1 v in
      let ov := as_operand v ov0 in
      (k2, Ob (OLocal x) [IMakeArray $"1" x;
                          IBlock [append_inner (query_block ls) (ob_code ov ++ [IArrayAppend x (ob_op ov)])]])
  | TmSetCompr v q =>                                                                               (* 535-553 *)
      let x := tmp $"setcompr" k in
      let '(k1, ls) := lower_query false (S k) q in
      let '(k2, ov0) := lower k1 v in
      let ov := as_operand v ov0 in
      (k2, Ob (OLocal x) [IMakeSet x; IBlock [append_inner (query_block ls) (ob_code ov ++ [ISetAdd (ob_op ov) x])]])
  | TmObjectCompr i v q =>                                                                          (* 555-576 *)
      let x := tmp $"objectcompr" k in
      let '(k1, ls) := lower_query false (S k) q in
      let '(k2, oi0) := lower k1 i in
      let '(k3, ov0) := lower k2 v in
      let oi := as_operand i oi0 in let ov := as_operand v ov0 in
      (k3, Ob (OLocal x) [IMakeObject x;
                          IBlock [append_inner (query_block ls) (ob_code oi ++ ob_code ov ++ [IObjectInsertOnce (ob_op oi) (ob_op ov) x])]])
  | TmRule f =>                                                                                     (* 587-592 *)
      let x := tmp $"var" k in
      (S k, Ob (OLocal x) [ICall f [OLocal $"input"; OLocal $"data"] x])                            (* src/internal.cc 1113-1136 *)
  end
(** The elements of an array (464-468) or set (478-482). *)
with lower_elems (add : nop -> nir) (k : nat) (l : terms) {struct l} : nat * list nir :=
  match l with
  | TNil => (k, [])
  | TCons t l' =>
      let '(k1, o) := lower k t in
      let '(k2, c) := lower_elems add k1 l' in
      (k2, ob_code o ++ add (ob_op o) :: c)
  end
(** The items of an object (447-452). *)
with lower_items (x : str) (k : nat) (l : items) {struct l} : nat * list nir :=
  match l with
  | NoItems => (k, [])
  | Item i v l' =>
      let '(k1, oi) := lower k i in
      let '(k2, ov) := lower k1 v in
      let '(k3, c) := lower_items x k2 l' in
      (k3, ob_code oi ++ ob_code ov ++ IObjectInsert (ob_op oi) (ob_op ov) x :: c)
  end
(** The arguments of a call (771-777; for builtins [input] and [data] are dropped again, src/rego_to_bundle.cc 4236-4250). *)
with lower_args (k : nat) (l : terms) {struct l} : nat * list nop * list nir :=
  match l with
  | TNil => (k, [], [])
  | TCons t l' =>
      let '(k1, o0) := lower k t in
      let o := as_operand t o0 in
      let '(k2, ops, c) := lower_args k1 l' in
      (k2, ob_op o :: ops, ob_code o ++ c)
  end
(** ** Queries.  [top]: the query of a rule, where the code of what is iterated over becomes a literal of its own
    (src/rego_to_bundle.cc 4255-4279); in other queries it stands before the iteration (4281-4297). *)
with lower_query (top : bool) (k : nat) (q : query) {struct q} : nat * list literal :=
  match q with
  | QEnd => (k, [])
  | QExpr t q' =>                                                                                   (* 3806-3817 *)
      let '(k1, o) := lower k t in
      let '(k2, ls) := lower_query top k1 q' in (k2, LExpr o :: ls)
  | QAssign x t q' =>                                                                               (* 3508-3521 *)
      let '(k1, o0) := lower (S k) t in
      let o := as_operand t o0 in
      let '(k2, ls) := lower_query top k1 q' in
      (k2, LAssign (ob_code o ++ [IAssignVar (ob_op o) x; truth (tmp $"term" k)]) :: ls)
  | QNot q1 q' =>                                                                                   (* 3786-3802 *)
      let found := tmp $"found" k in
      let '(k1, ls1) := lower_query false (S k) q1 in
      let '(k2, ls) := lower_query top k1 q' in
      (k2, LStmt (INot (append_inner (fold_left add_literal ls1 [IResetLocal found]) [truth found] ++ [IIsDefined found])) :: ls)
  | QEvery dom key val body q' =>                                                                   (* 3672-3747 *)
      let scanindex := tmp $"scanindex" k in
      let scanvalue := tmp $"scanvalue" (S k) in
      let itemok := tmp $"itemok" (S (S k)) in
      let onebad := tmp $"onebad" (S (S (S k))) in
      let allok := tmp $"allok" (S (S (S (S k)))) in
      let '(k1, ls1) := lower_query false (S (S (S (S (S k))))) body in
      let '(k2, ls) := lower_query top k1 q' in
      let everyblock := append_inner (query_block ls1) [truth itemok] in
      let scanblock := match key with Some x => [IAssignVar (OLocal scanindex) x] | None => [] end ++
        [IAssignVar (OLocal scanvalue) val; IResetLocal itemok; IBlock [everyblock]; IIsUndefined itemok; truth onebad] in
      (k2, LExpr (Ob (OLocal allok) [IResetLocal onebad; IIsDefined dom; IScan dom scanindex scanvalue scanblock;
                                     IIsUndefined onebad; truth allok]) :: ls)
  | QScan t key val q' =>                                                                           (* 3618-3670 *)
      let '(k1, o) := lower k t in
      let '(k2, ls) := lower_query false k1 q' in
      let scan := IScan (source o) key val (query_block ls) in
      (k2, if top then match ob_code o with [] => [LStmt scan] | _ => [LExpr o; LStmt scan] end
           else [LAssign (ob_code o ++ [scan])])
  end.

(** ** Rules *)

(** src/internal.cc 129-158 [is_constant]. *)
Fixpoint constant (t : term) : bool :=
  match t with
  | TmString _ | TmNumber _ | TmBool _ | TmNull => true
  | TmArray l | TmSet l => constants l
  | TmObject l => constant_items l
  | _ => false
  end
with constants (l : terms) : bool := match l with TNil => true | TCons t l' => constant t && constants l' end
with constant_items (l : items) : bool :=
  match l with NoItems => true | Item k v l' => constant k && constant v && constant_items l' end.
(** A literal added at the end of a query. *)
Fixpoint extend (q q2 : query) : query :=
  match q with
  | QEnd => q2
  | QExpr t q' => QExpr t (extend q' q2)
  | QAssign x t q' => QAssign x t (extend q' q2)
  | QNot q1 q' => QNot q1 (extend q' q2)
  | QEvery d k v b q' => QEvery d k v b (extend q' q2)
  | QScan t k v q' => QScan t k v (extend q' q2)
  end.
(** src/rego_to_bundle.cc 793-845 (complete rules), 1020-1047 (objects), 1226-1259 (sets): a head that is not constant is assigned
    to a new variable at the end of the body.  The order in which later passes put the literals of a body is left out. *)
Definition head (name : str) (k : nat) (e : term) (q : query) : nat * term * query :=
  if constant e then (k, e, q) else (S k, TmVar (tmp name k), extend q (QAssign (tmp name k) e QEnd)).
(** A value with its body.  (One body for each value: a definition with several is left out.  The variable for the value of an
    [else] is called elsevalue.) *)
Definition branch_of (name : str) (k : nat) (b : term * query) : nat * instance :=
  let '(k1, h, q) := head name k (fst b) (snd b) in
  let '(k2, o) := lower k1 h in
  let '(k3, ls) := lower_query true k2 q in
  (k3, Inst o [query_block ls]).
Fixpoint each {A B} (f : nat -> A -> nat * B) (k : nat) (l : list A) : nat * list B :=
  match l with
  | [] => (k, [])
  | a :: l' => let '(k1, b) := f k a in let '(k2, bs) := each f k1 l' in (k2, b :: bs)
  end.
(** src/rego_to_bundle.cc 4360-4420: the branches of each definition (a head and its [else]s), then the default (4322-4358). *)
Definition complete_rule (k : nat) (defs : list (list (term * query))) (def : option term) : nat * list rbody :=
  let '(k1, l) := each (fun k d => let '(k1, is_) := each (branch_of $"compvalue") k d in (k1, BBody is_)) k defs in
  match def with
  | None => (k1, l)
  | Some t => let '(k2, o) := lower k1 t in (k2, l ++ [BDefault o])
  end.
(** 4538-4597. *)
Definition set_rule (k : nat) (l : list (term * query)) : nat * list rbody :=
  each (fun k b => let '(k1, i) := branch_of $"setvalue" k b in (k1, BSet i)) k l.
(** 1001-1098, 4733-4800: a key that is not constant; key and value are assigned at the end of the body. *)
Definition object_rule (k : nat) (l : list (term * term * query)) : nat * list rbody :=
  each (fun k b =>
    let '(k1, hk, q1) := head $"objkey" k (fst (fst b)) (snd b) in
    let '(k2, hv, q2) := head $"objval" k1 (snd (fst b)) q1 in
    let '(k3, ok) := lower k2 hk in
    let '(k4, ov) := lower k3 hv in
    let '(k5, ls) := lower_query true k4 q2 in
    (k5, BObjDynamic [ok] (Inst ov [query_block ls]))) k l.
