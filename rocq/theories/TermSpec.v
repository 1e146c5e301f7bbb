(** What terms and queries mean: the value of a term and the solutions of a query, as functions of the values of variables. *)
From Coq Require Import String ZArith List Bool.
From Verif Require Import Base BigIntSpec BigIntModel SMap ValueModel ResolverModel VmModel VmSpec PlanModel PlanSpec RuleModel RuleSpec TermModel.
Import ListNotations.
Local Open Scope Z_scope.

(** The values of variables; [None] is undefined. *)
Definition vals := str -> option value.
Definition bind_var (x : str) (v : value) (rho : vals) : vals := fun y => if str_eqb x y then Some v else rho y.

Section Meaning.
Variable F : fops.
(** The value a builtin gives for its arguments. *)
Variable call : str -> list value -> value.
(** The values of the rules that terms refer to. *)
Variable rules : str -> option value.

(** The comparison [==] of the language.  (Errors do not occur in a run without error; the machine lets them pass.) *)
Definition equal (a b : value) : bool :=
  match a, b with
  | VErr _, _ | _, VErr _ => true
  | _, _ => match bi_compare F OpEq a b with Ok (RVal VFalse) => false | _ => true end
  end.
(** A condition holds if its value is not [false]. *)
Definition holds (v : value) : bool :=
  match v with VErr _ => true | _ => match bi_compare F OpEq v VFalse with Ok (RVal VTrue) => false | _ => true end end.

Definition same (a b : value) : bool := str_eqb (to_key F a) (to_key F b).
(** Adding a member to a set, an item to an object; the last value given for a key counts. *)
Definition add_member (l : list value) (v : value) : list value := if existsb (same v) l then l else l ++ [v].
Fixpoint put_item (l : list (value * value)) (k v : value) : list (value * value) :=
  match l with
  | [] => [(k, v)]
  | (k', v') :: l' => if same k' k then (k', v) :: l' else (k', v') :: put_item l' k v
  end.
(** In an object comprehension the values given for a key have to be the same. *)
Fixpoint get_item (l : list (value * value)) (k : value) : option value :=
  match l with [] => None | (k', v) :: l' => if same k' k then Some v else get_item l' k end.
(** a[k]: the value of key [k], the element at index [k], or the member equal to [k]. *)
Definition select (a k : value) : option value :=
  match a with
  | VObject l => get_item l k
  | VSet l => find (fun m => same m k) l
  | VArray l => match k with
                | VInt t | VFloat t => match to_uint32 t with Some i => nth_error l (Z.to_nat i) | None => None end
                | _ => None
                end
  | _ => None
  end.
Definition number_of (t : str) : value := if int_regex t then VInt t else VFloat t.

Fixpoint eval (rho : vals) (t : term) {struct t} : option value :=
  match t with
  | TmString s => Some (VString (strip_quotes s))
  | TmNumber s => Some (number_of s)
  | TmBool b => Some (if b then VTrue else VFalse)
  | TmNull => Some VNull
  | TmVar x => rho x
  | TmArray l => option_map VArray (evals rho l)
  | TmSet l => option_map (fun vs => VSet (fold_left add_member vs [])) (evals rho l)
  | TmObject l => option_map (fun kvs => VObject (fold_left (fun o kv => put_item o (fst kv) (snd kv)) kvs [])) (eval_items rho l)
  | TmDot a k => match eval rho a, eval rho k with Some x, Some y => select x y | _, _ => None end
  | TmCall f args => option_map (call f) (evals rho args)
  | TmMinus a => option_map (fun v => call $"minus" [VInt $"0"; v]) (eval rho a)
  | TmEqual a b =>
      match eval rho a, eval rho b with Some x, Some y => if equal x y then Some VTrue else None | _, _ => None end
  | TmMember v s =>
      match eval rho s, eval rho v with Some y, Some x => Some (call $"internal.member_2" [x; y]) | _, _ => None end
  | TmMember3 k v s =>
      match eval rho s, eval rho k, eval rho v with
      | Some z, Some x, Some y => Some (call $"internal.member_3" [x; y; z])
      | _, _, _ => None
      end
  (** The values of the head in the solutions of the query, where it has one. *)
  | TmArrayCompr v q => Some (VArray (flat_map (fun r => match eval r v with Some x => [x] | None => [] end) (sols rho q)))
  | TmSetCompr v q =>
      Some (VSet (fold_left add_member (flat_map (fun r => match eval r v with Some x => [x] | None => [] end) (sols rho q)) []))
  | TmObjectCompr k v q =>
      Some (VObject (fold_left (fun o kv => put_item o (fst kv) (snd kv))
        (flat_map (fun r => match eval r k, eval r v with Some x, Some y => [(x, y)] | _, _ => [] end) (sols rho q)) []))
  | TmRule f => rules f
  end
with evals (rho : vals) (l : terms) {struct l} : option (list value) :=
  match l with
  | TNil => Some []
  | TCons t l' => match eval rho t, evals rho l' with Some v, Some vs => Some (v :: vs) | _, _ => None end
  end
with eval_items (rho : vals) (l : items) {struct l} : option (list (value * value)) :=
  match l with
  | NoItems => Some []
  | Item k v l' =>
      match eval rho k, eval rho v, eval_items rho l' with Some x, Some y, Some r => Some ((x, y) :: r) | _, _, _ => None end
  end
(** The solutions of a query: the values of variables at its end. *)
with sols (rho : vals) (q : query) {struct q} : list vals :=
  match q with
  | QEnd => [rho]
  | QExpr t q' => match eval rho t with Some v => if holds v then sols rho q' else [] | None => [] end
  | QAssign x t q' => match eval rho t with Some v => sols (bind_var x v rho) q' | None => [] end
  | QNot q1 q' => match sols rho q1 with [] => sols rho q' | _ => [] end
  | QEvery dom key val body q' =>
      match rho dom with
      | Some d =>
          match elements d with
          | Some l =>
              if forallb (fun kv => match sols (bind_var val (snd kv)
                            (match key with Some x => bind_var x (fst kv) rho | None => rho end)) body with [] => false | _ => true end) l
              then sols rho q' else []
          | None => []
          end
      | None => []
      end
  | QScan t key val q' =>
      match eval rho t with
      | Some d => match elements d with
                  | Some l => flat_map (fun kv => sols (bind_var val (snd kv) (bind_var key (fst kv) rho)) q') l
                  | None => []
                  end
      | None => []
      end
  end.
End Meaning.

(** ** Scopes *)

(** The variables a query binds on its way to its end, on top of [D]. *)
Fixpoint scope (D : list str) (q : query) : list str :=
  match q with
  | QEnd => D
  | QExpr _ q' | QNot _ q' | QEvery _ _ _ _ q' => scope D q'
  | QAssign x _ q' => scope (x :: D) q'
  | QScan _ k v q' => scope (v :: k :: D) q'
  end.
(** Constants cannot be iterated over. *)
Definition scannable (t : term) : bool := match t with TmString _ | TmBool _ => false | _ => true end.
Definition opt_var (o : option str) : list str := match o with Some x => [x] | None => [] end.
(** Every variable has a value where it is used ([D]: the variables that have one), none is bound where it has one already,
    and the text of a string is not again one in quotes. *)
Fixpoint safe (D : list str) (t : term) {struct t} : Prop :=
  match t with
  | TmString s => strip_quotes (strip_quotes s) = strip_quotes s
  | TmNumber _ | TmBool _ | TmNull | TmRule _ => True
  | TmVar x => In x D
  | TmArray l | TmSet l | TmCall _ l => safes D l
  | TmObject l => safe_items D l
  | TmDot a b | TmEqual a b | TmMember a b => safe D a /\ safe D b
  | TmMinus a => safe D a
  | TmMember3 a b c => safe D a /\ safe D b /\ safe D c
  | TmArrayCompr v q | TmSetCompr v q => safe_query D q /\ safe (scope D q) v
  | TmObjectCompr k v q => safe_query D q /\ safe (scope D q) k /\ safe (scope D q) v
  end
with safes (D : list str) (l : terms) {struct l} : Prop :=
  match l with TNil => True | TCons t l' => safe D t /\ safes D l' end
with safe_items (D : list str) (l : items) {struct l} : Prop :=
  match l with NoItems => True | Item k v l' => safe D k /\ safe D v /\ safe_items D l' end
with safe_query (D : list str) (q : query) {struct q} : Prop :=
  match q with
  | QEnd => True
  | QExpr t q' => safe D t /\ safe_query D q'
  | QAssign x t q' => safe D t /\ ~ In x D /\ safe_query (x :: D) q'
  | QNot q1 q' => safe_query D q1 /\ safe_query D q'
  | QEvery dom key val body q' =>
      In dom D /\ (forall x, In x (opt_var key) -> ~ In x D) /\ ~ In val D /\
      safe_query (val :: opt_var key ++ D) body /\ safe_query D q'
  | QScan t k v q' => safe D t /\ scannable t = true /\ ~ In k D /\ ~ In v D /\ safe_query (v :: k :: D) q'
  end.
(** All variables bound anywhere inside. *)
Fixpoint binds (t : term) : list str :=
  match t with
  | TmString _ | TmNumber _ | TmBool _ | TmNull | TmVar _ | TmRule _ => []
  | TmArray l | TmSet l | TmCall _ l => binds_list l
  | TmObject l => binds_items l
  | TmDot a b | TmEqual a b | TmMember a b => binds a ++ binds b
  | TmMinus a => binds a
  | TmMember3 a b c => binds a ++ binds b ++ binds c
  | TmArrayCompr v q | TmSetCompr v q => binds_query q ++ binds v
  | TmObjectCompr k v q => binds_query q ++ binds k ++ binds v
  end
with binds_list (l : terms) : list str := match l with TNil => [] | TCons t l' => binds t ++ binds_list l' end
with binds_items (l : items) : list str :=
  match l with NoItems => [] | Item k v l' => binds k ++ binds v ++ binds_items l' end
with binds_query (q : query) : list str :=
  match q with
  | QEnd => []
  | QExpr t q' => binds t ++ binds_query q'
  | QAssign x t q' => x :: binds t ++ binds_query q'
  | QNot q1 q' => binds_query q1 ++ binds_query q'
  | QEvery _ key val body q' => val :: opt_var key ++ binds_query body ++ binds_query q'
  | QScan t k v q' => v :: k :: binds t ++ binds_query q'
  end.

(** ** Circumstances *)

(** Builtins are functions with values: what one gives for defined arguments depends on nothing else and is never undefined. *)
Definition answers (E : env) (call : str -> list value -> value) : Prop :=
  forall f b k vs r, e_builtin E f = Some b -> b k (map Some vs) = Ok r -> r = Some (call f vs).

(** The functions a statement calls. *)
Fixpoint calls_in {L S'} (s : ir L S') : list str :=
  match s with
  | ICall f _ _ => [f]
  | IBlock bs => flat_map (flat_map calls_in) bs
  | IScan _ _ _ b | IWith _ _ _ b | INot b => flat_map calls_in b
  | _ => []
  end.

(** The variables [D] have these values in a state. *)
Definition agrees (num : str -> Z) (D : list str) (rho : vals) (s : state) : Prop :=
  forall x, In x D -> exists v, rho x = Some v /\ local s (num x) = Some (Some v).

(** The locals a statement writes. *)
Fixpoint writes {L S'} (s : ir L S') : list L :=
  match s with
  | IArrayAppend x _ | ISetAdd _ x | IAssignInt _ x | IMakeArray _ x | IMakeNull x
  | IMakeNumberInt _ x | IMakeNumberRef _ x | IMakeObject x | IMakeSet x | IResetLocal x
  | IAssignVarOnce _ x | IAssignVar _ x | ILen _ x | ICall _ _ x | ICallDynamic _ _ x | IDot _ _ x
  | IObjectInsertOnce _ _ x | IObjectInsert _ _ x | IObjectMerge _ _ x => [x]
  | IEqual _ _ | INotEqual _ _ | IIsArray _ | IIsObject _ | IIsSet _ | IBreak _ | IIsDefined _ | IIsUndefined _
  | IResultSetAdd _ | IReturnLocal _ => []
  | IBlock bs => flat_map (flat_map writes) bs
  | INot b => flat_map writes b
  | IScan x k v b => [k; v] ++ flat_map writes b
  | IWith x _ _ b => x :: flat_map writes b
  end.
(** What a statement does that others may notice: the locals it writes, the functions it calls and where it puts their
    values, whether it returns; [with], dynamic calls and breaks are [DOther]. *)
Inductive deed (L : Type) := DWrite (x : L) | DCall (f : str) (x : L) | DReturn | DOther.
Arguments DWrite {L}. Arguments DCall {L}. Arguments DReturn {L}. Arguments DOther {L}.
Fixpoint deeds {L S'} (s : ir L S') : list (deed L) :=
  match s with
  | ICall f _ x => [DCall f x; DWrite x]
  | ICallDynamic _ _ _ | IBreak _ => [DOther]
  | IReturnLocal _ => [DReturn]
  | IWith _ _ _ b => DOther :: flat_map deeds b
  | IBlock bs => flat_map (flat_map deeds) bs
  | INot b => flat_map deeds b
  | IScan _ k v b => [DWrite k; DWrite v] ++ flat_map deeds b
  | s' => map DWrite (writes s')
  end.
(** The variables that hold the values of rules. *)
Definition rule_var (x : str) : Prop := exists k, x = tmp $"var" k.
(** No function but [fn] writes the local [x]. *)
Definition unshared (E : env) (fn : str) (n x : Z) : Prop :=
  forall name i f, name <> fn -> sm_find name (b_name_to_func (e_bundle E)) = Some i ->
    znth (b_functions (e_bundle E)) (zn i) = Some f ->
    ~ In x (map zn (skipn 2 (f_params f))) /\
    exists ls, says_blocks (f_blocks f) = Some ls /\ in_frame n (concat ls) /\ ~ In x (flat_map writes (concat ls)).

(** The function [fn] has the variables [L], each in a slot of its own that no other function writes. *)
Record own_frame (E : env) (fn : str) (n : Z) (num : str -> Z) (L : list str) : Prop := {
  of_words : n <= 2 ^ 64;
  of_slots : forall x, In x L -> 0 <= num x < n /\ unshared E fn n (num x);
  of_apart : forall x y, In x L -> In y L -> num x = num y -> x = y
}.
(** The code works on these variables, its strings are in the bundle under their numbers, and it calls builtins only and refers
    to no rules. *)
Definition own_code (E : env) (sigma : str -> Z) (L : list str) (code : list nir) : Prop :=
  incl (flat_map locals_in code) L /\
  (forall u, In u (flat_map strings_in code) -> znth (b_strings (e_bundle E)) (sigma u mod 2 ^ 64) = Some u) /\
  (forall f x, In (DCall f x) (flat_map deeds code) -> e_builtin E f <> None /\ ~ rule_var x).
Definition own_op (E : env) (sigma : str -> Z) (L : list str) (o : nop) : Prop :=
  incl (op_local o) L /\ forall u, In u (op_string o) -> znth (b_strings (e_bundle E)) (sigma u mod 2 ^ 64) = Some u.
(** None of these is a name the compiler makes later than [k]. *)
Definition unmade (k : nat) (l : list str) : Prop := forall p j, In (tmp p j) l -> (j < k)%nat.
(** In [s] the function is running and the variables [D] have the values [rho]. *)
Definition at_work (fn : str) (n : Z) (num : str -> Z) (D : list str) (rho : vals) (s : state) : Prop :=
  In fn (s_stack s) /\ n <= zlen (s_frame s) /\ agrees num D rho s.

(** ** Rules *)
Section Rules.
Variable F : fops.
Variable call : str -> list value -> value.
Variable rules : str -> option value.
Definition option_list {A} (o : option A) : list A := match o with Some a => [a] | None => [] end.
(** The values of a head in the solutions of its body. *)
Definition head_values (rho : vals) (b : term * query) : list value :=
  flat_map (fun r => option_list (eval F call rules r (fst b))) (sols F call rules rho (snd b)).
(** The values of the first branch that has any. *)
Fixpoint first_values (rho : vals) (l : list (term * query)) : list value :=
  match l with
  | [] => []
  | b :: l' => match head_values rho b with [] => first_values rho l' | vs => vs end
  end.
Definition head_pairs (rho : vals) (b : term * term * query) : list (value * value) :=
  flat_map (fun r => match eval F call rules r (fst (fst b)), eval F call rules r (snd (fst b)) with Some x, Some y => [(x, y)] | _, _ => [] end)
    (sols F call rules rho (snd b)).
(** The value of a complete rule: the first value of its definitions, else the default's. *)
Definition rule_means (rho : vals) (defs : list (list (term * query))) (def : option term) : option value :=
  match flat_map (first_values rho) defs, def with
  | v :: _, _ => Some v
  | [], Some t => eval F call rules rho t
  | [], None => None
  end.
End Rules.
(** The body and head of a rule, on top of the variables [D], with no name the compiler makes later than [k]. *)
Definition good_branch (k : nat) (D : list str) (b : term * query) : Prop :=
  safe_query D (snd b) /\ safe (scope D (snd b)) (fst b) /\ unmade k (binds_query (snd b) ++ binds (fst b)).
Definition good_pair (k : nat) (D : list str) (b : term * term * query) : Prop :=
  safe_query D (snd b) /\ safe (scope D (snd b)) (fst (fst b)) /\ safe (scope D (snd b)) (snd (fst b)) /\
  unmade k (binds_query (snd b) ++ binds (fst (fst b)) ++ binds (snd (fst b))).
(** The code of the bodies of a rule with what stores their values in [ret], or in the variable [y j] of body number [j]. *)
Definition rule_code (ret : str) (y : nat -> str) (j : nat) (b : rbody) : list nir :=
  body_code b ++
  match b with
  | BDefault o => store ret (ob_op o)
  | BBody [i] => store ret (ob_op (in_value i))
  | BBody l => IResetLocal (y j) :: flat_map (fun i => store (y j) (ob_op (in_value i))) l
  | BSet i => collect ret (ob_op (in_value i))
  | BObjDynamic [k] i => [IObjectInsertOnce (ob_op k) (ob_op (in_value i)) ret]
  | _ => []
  end.
Fixpoint rules_code (ret : str) (y : nat -> str) (j : nat) (l : list rbody) : list nir :=
  match l with [] => [] | b :: l' => rule_code ret y j b ++ rules_code ret y (S j) l' end.
(** [z] is no variable of these rules and no name the compiler makes later than [k]. *)
Definition aside (k : nat) (l : list (term * query)) (z : str) : Prop :=
  unmade k [z] /\ Forall (fun b => ~ In z (binds_query (snd b) ++ binds (fst b))) l.

(** ** Programs *)

(** Function [i] of a program has the code of these bodies, calls builtins only, and no other function writes its variables. *)
Record source_of (E : env) (p : prog) (i : nat) (f : fn str str) (y : nat -> str) (l : list rbody) : Prop := {
  so_locals : incl (flat_map locals_in (rules_code (n_result f) y 0 l)) (flat_map locals_in (fn_body f));
  so_strings : incl (flat_map strings_in (rules_code (n_result f) y 0 l)) (flat_map strings_in (fn_body f));
  so_calls : forall g x, In (DCall g x) (flat_map deeds (rules_code (n_result f) y 0 l)) -> e_builtin E g <> None /\ ~ rule_var x;
  so_alone : forall x j g, In x (flat_map locals_in (fn_body f)) -> j <> i -> nth_error (g_fns p) j = Some g ->
    generated x \/ reserved x -> ~ In x (skipn 2 (n_params g) ++ flat_map writes (fn_body g))
}.
(** The variables of a policy when a query starts. *)
Definition asked_values (input : option value) (data : value) : vals :=
  fun x => if str_eqb x $"input" then input else if str_eqb x $"data" then Some data else None.

(** ** Policies whose rules refer to rules *)

(** What the code of rule [f] may do: it writes neither [input] nor [data], calls builtins and rules of the policy that rank
    lower (the compiler rejects recursion, src/rego_to_bundle.cc), and has no dynamic call, no `with` and no Break. *)
Definition linked (E : env) (p : prog) (rank : str -> nat) (f : str) (returns : bool) (d : deed str) : Prop :=
  match d with
  | DWrite x => ~ reserved x
  | DCall g x => (e_builtin E g <> None /\ ~ rule_var x) \/
                 (rule_var x /\ (rank g < rank f)%nat /\ exists h, In h (g_fns p) /\ n_name h = g)
  | DReturn => returns = true
  | DOther => False
  end.
(** The source of a rule: definitions with branches and a default, the bodies of a set, or those of an object. *)
Inductive rule_src :=
  | SrcValue (defs : list (list (term * query))) (def : option term)
  | SrcSet (l : list (term * query))
  | SrcObject (l : list (term * term * query)).
(** Its value: that of the definitions, or the set or object of the values of the heads in all solutions. *)
Definition src_means (F : fops) (call : str -> list value -> value) (rules : str -> option value) (rho : vals) (r : rule_src) : option value :=
  match r with
  | SrcValue defs def => rule_means F call rules rho defs def
  | SrcSet l => Some (VSet (fold_left (add_member F) (flat_map (head_values F call rules rho) l) []))
  | SrcObject l => Some (VObject (fold_left (fun o kv => put_item F o (fst kv) (snd kv)) (flat_map (head_pairs F call rules rho) l) []))
  end.
(** The compiler makes the bodies [l] of it, counting names from [k]. *)
Definition src_bodies (k : nat) (r : rule_src) (l : list rbody) : Prop :=
  match r with
  | SrcValue defs def => exists k', complete_rule k defs def = (k', l)
  | SrcSet bs => bs <> [] /\ exists k', set_rule k bs = (k', l)
  | SrcObject bs => bs <> [] /\ exists k', object_rule k bs = (k', l)
  end.
(** Its variables are bound where they are used, a default is a constant, and [ret] and the [y j] are none of its variables. *)
Definition good_src (k : nat) (D : list str) (ret : str) (y : nat -> str) (r : rule_src) (l : list rbody) : Prop :=
  match r with
  | SrcValue defs def =>
      Forall (Forall (good_branch k D)) defs /\ (forall t, def = Some t -> constant t = true /\ safe D t) /\ aside k (concat defs) ret /\
      (forall j d, In (j, d) (definitions 0 l) -> (1 < length d)%nat -> aside k (concat defs) (y j))
  | SrcSet bs => Forall (good_branch k D) bs /\ aside k bs ret
  | SrcObject bs =>
      Forall (good_pair k D) bs /\ unmade k [ret] /\
      Forall (fun b => ~ In ret (binds_query (snd b) ++ binds (fst (fst b)) ++ binds (snd (fst b)))) bs
  end.
(** Function [i] of the program is compiled from a rule with this source. *)
Record linked_rule (E : env) (p : prog) (rank : str -> nat) (i : nat) (f : fn str str) (fresh : nat -> nat -> nat -> str)
  (prefix : str) (k : nat) (r : rule_src) (l : list rbody) : Prop := {
  lr_rule : rule_of p i f fresh prefix l;
  lr_source : src_bodies k r l;
  lr_params : n_params f = [$"input"; $"data"];
  lr_name : e_builtin E (n_name f) = None;
  lr_locals : incl (flat_map locals_in (rules_code (n_result f) (fun j => fresh j 0%nat 0%nat) 0 l)) (flat_map locals_in (fn_body f));
  lr_strings : incl (flat_map strings_in (rules_code (n_result f) (fun j => fresh j 0%nat 0%nat) 0 l)) (flat_map strings_in (fn_body f));
  lr_code : forall d, In d (flat_map deeds (rules_code (n_result f) (fun j => fresh j 0%nat 0%nat) 0 l)) -> linked E p rank (n_name f) false d;
  lr_body : forall d, In d (flat_map deeds (fn_body f)) -> linked E p rank (n_name f) true d;
  lr_alone : forall x j g, In x (flat_map locals_in (fn_body f)) -> j <> i -> nth_error (g_fns p) j = Some g ->
    generated x -> ~ In x (flat_map writes (fn_body g));
  lr_good : good_src k [$"input"; $"data"] (n_result f) (fun j => fresh j 0%nat 0%nat) r l
}.
(** All functions of the program are compiled from the rules [src], and no rule refers to itself by way of others. *)
Definition linked_policy (E : env) (p : prog) (rank : str -> nat) (src : str -> rule_src) : Prop :=
  forall i f, nth_error (g_fns p) i = Some f -> exists fresh prefix k l, linked_rule E p rank i f fresh prefix k (src (n_name f)) l.
(** [rules] are the values of the rules, for this input and data: each rule has the value its source has when references to other
    rules have the values of those. *)
Definition policy_values (F : fops) (call : str -> list value -> value) (p : prog) (src : str -> rule_src)
  (input : value) (rules : str -> option value) : Prop :=
  forall f, In f (g_fns p) -> rules (n_name f) = src_means F call rules (asked_values (Some input) (g_data p)) (src (n_name f)).
(** The rules that are referred to. *)
Fixpoint refs (t : term) : list str :=
  match t with
  | TmString _ | TmNumber _ | TmBool _ | TmNull | TmVar _ => []
  | TmRule f => [f]
  | TmArray l | TmSet l | TmCall _ l => refs_list l
  | TmObject l => refs_items l
  | TmDot a b | TmEqual a b | TmMember a b => refs a ++ refs b
  | TmMinus a => refs a
  | TmMember3 a b c => refs a ++ refs b ++ refs c
  | TmArrayCompr v q | TmSetCompr v q => refs_query q ++ refs v
  | TmObjectCompr k v q => refs_query q ++ refs k ++ refs v
  end
with refs_list (l : terms) : list str := match l with TNil => [] | TCons t l' => refs t ++ refs_list l' end
with refs_items (l : items) : list str :=
  match l with NoItems => [] | Item k v l' => refs k ++ refs v ++ refs_items l' end
with refs_query (q : query) : list str :=
  match q with
  | QEnd => []
  | QExpr t q' | QAssign _ t q' | QScan t _ _ q' => refs t ++ refs_query q'
  | QNot q1 q' | QEvery _ _ _ q1 q' => refs_query q1 ++ refs_query q'
  end.
Definition rule_refs (r : rule_src) : list str :=
  match r with
  | SrcValue defs def => flat_map (fun b => refs_query (snd b) ++ refs (fst b)) (concat defs) ++ flat_map refs (option_list def)
  | SrcSet l => flat_map (fun b => refs_query (snd b) ++ refs (fst b)) l
  | SrcObject l => flat_map (fun b => refs_query (snd b) ++ refs (fst (fst b)) ++ refs (snd (fst b))) l
  end.
(** Rules refer to rules of the policy that rank lower. *)
Definition ranked (p : prog) (rank : str -> nat) (src : str -> rule_src) : Prop :=
  forall f g, In f (g_fns p) -> In g (rule_refs (src (n_name f))) -> (rank g < rank (n_name f))%nat /\ exists h, In h (g_fns p) /\ n_name h = g.
