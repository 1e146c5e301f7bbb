(** Vocabulary for [walk] and [sprintf]. *)
From Coq Require Import String ZArith List Bool.
From Verif Require Import Base BigIntSpec BigIntModel SMap ValueModel ValueSpec ResolverModel VmModel StrModel CoreModel.
Import ListNotations.
Local Open Scope Z_scope.
Local Open Scope list_scope.

(** Following the path [p] from [x] leads to [v]: indices into arrays, keys of objects, members of sets. *)
Inductive at_path : value -> list value -> value -> Prop :=
| at_here x : at_path x [] x
| at_index l i y p v : nth_error l i = Some y -> at_path y p v -> at_path (VArray l) (VInt (dec (Z.of_nat i)) :: p) v
| at_member l y p v : In y l -> at_path y p v -> at_path (VSet l) (y :: p) v
| at_key l k y p v : In (k, y) l -> at_path y p v -> at_path (VObject l) (k :: p) v.

(** The grammar of formats: literal text, directives (a percent sign, flags and a character), and at the end perhaps a directive
    without its character. *)
Inductive item := ILit (t : str) | IDir (flags : str) (c : Z) | ICut (flags : str).
Definition is_flag (c : Z) : Prop := In c $"0123456789.-+# ".
Inductive spelled : list item -> str -> Prop :=
| sp_nil : spelled [] []
| sp_lit t : t <> [] -> ~ In 37 t -> spelled [ILit t] t
| sp_cut t fl : ~ In 37 t -> Forall is_flag fl -> spelled [ILit t; ICut fl] (t ++ [37] ++ fl)
| sp_dir t fl c l f : ~ In 37 t -> Forall is_flag fl -> ~ is_flag c -> spelled l f ->
    spelled (ILit t :: IDir fl c :: l) (t ++ [37] ++ fl ++ [c] ++ f).
(** The characters of the directives that print an argument. *)
Definition takes_arg (c : Z) : Prop := In c $"tbdxXoOeEfFgGsv".

(** [shows P fl c a t]: the directive with flags [fl] and character [c] prints the argument [a] as [t]. *)
Inductive shows (P : print_ops) (fl : str) : Z -> value -> str -> Prop :=
| sh_raw a : shows P fl 115 a (p_raw P a)
| sh_string t : shows P fl 118 (VString t) (p_raw P (VString t))
| sh_value a : (forall t, a <> VString t) -> shows P fl 118 a (p_value P a)
| sh_true a : a <> VFalse -> shows P fl 116 a $"true"
| sh_false : shows P fl 116 VFalse $"false"
| sh_int c z : In c $"dxXoO" -> - 2 ^ 63 <= z < 2 ^ 63 -> shows P fl c (VInt (dec z)) (p_int P ([37] ++ fl ++ [c]) z)
| sh_double c a : In c $"eEfFgG" -> (exists t, a = VInt t \/ a = VFloat t) -> shows P fl c a (p_double P ([37] ++ fl ++ [c]) a).
(** [printed P l args rest out]: the items print as [out], taking arguments from the left and leaving [rest]. *)
Inductive printed (P : print_ops) : list item -> list value -> list value -> str -> Prop :=
| pr_nil args : printed P [] args args []
| pr_lit t l args rest out : printed P l args rest out -> printed P (ILit t :: l) args rest (t ++ out)
| pr_cut fl l args rest out : printed P l args rest out -> printed P (ICut fl :: l) args rest ([37] ++ fl ++ out)
| pr_percent fl l args rest out : printed P l args rest out -> printed P (IDir fl 37 :: l) args rest ([37] ++ out)
| pr_unknown fl c l args rest out : ~ takes_arg c -> c <> 37 -> printed P l args rest out ->
    printed P (IDir fl c :: l) args rest ([37] ++ fl ++ [c] ++ out)
| pr_arg fl c a t l args rest out : takes_arg c -> shows P fl c a t -> printed P l args rest out ->
    printed P (IDir fl c :: l) (a :: args) rest (t ++ out).
(** In no collection inside [x] does a set member or an object key occur twice. *)
Definition proper (x : value) : Prop :=
  forall p v, at_path x p v ->
    match v with VSet l => NoDup l | VObject l => NoDup (map fst l) | _ => True end.
