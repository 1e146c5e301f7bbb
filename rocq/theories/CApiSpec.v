(** Vocabulary for the properties of the C interface. *)
From Coq Require Import String ZArith List Bool.
From Verif Require Import Base BigIntSpec BigIntModel ValueModel ValueSpec ResolverModel JsonSpec CApiModel.
Import ListNotations.
Local Open Scope Z_scope.
Local Open Scope list_scope.

(** The string a C program finds in memory: the bytes up to the first zero. *)
Inductive c_string : str -> str -> Prop := cs_text t rest : ~ In 0 t -> c_string (t ++ [0] ++ rest) t.

(** Calls that push the parts of a value in post-order. *)
Inductive builds : value -> list call -> Prop :=
| bd_null : builds VNull [CNull]
| bd_bool z b : (z = 0 <-> b = false) -> builds (vbool b) [CBool z]
| bd_int z : - 2 ^ 63 <= z < 2 ^ 63 -> builds (VInt (dec z)) [CInt z]
| bd_float d : builds (VFloat (double_text d)) [CFloat d]
| bd_string s : ~ In 0 s -> builds (VString s) [CString s]
| bd_array l ps : Forall2 builds l ps -> Z.of_nat (length l) < 2 ^ 32 -> builds (VArray l) (concat ps ++ [CArray (Z.of_nat (length l))])
| bd_set l ps : Forall2 builds l ps -> Z.of_nat (length l) < 2 ^ 32 -> builds (VSet l) (concat ps ++ [CSet (Z.of_nat (length l))])
| bd_object (l : list (value * value)) ps :
    Forall2 (fun kv p => exists pk pv, builds (fst kv) pk /\ builds (snd kv) pv /\ p = pk ++ pv ++ [CItem]) l ps ->
    Z.of_nat (length l) < 2 ^ 32 -> builds (VObject l) (concat ps ++ [CObject (Z.of_nat (length l))]).

(** How many entries a call needs. *)
Definition needs (c : call) : Z := match c with CItem => 2 | CObject n | CArray n | CSet n => n | _ => 0 end.
(** The text of a double to six decimals: [N] millionths, the nearest to the double, and the even one of
    two that are equally near. *)
Definition six_decimals (neg : bool) (mag exp : Z) (t : str) : Prop :=
  exists w f N, t = (if neg then $"-" else []) ++ w ++ $"." ++ f /\ digits1 w /\ digits1 f /\ length f = 6%nat /\ zval_digits (w ++ f) = N /\
    (0 <= exp -> N = mag * 2 ^ exp * 10 ^ 6) /\
    (exp < 0 -> 2 * Z.abs (N * 2 ^ (- exp) - mag * 10 ^ 6) <= 2 ^ (- exp) /\ (2 * Z.abs (N * 2 ^ (- exp) - mag * 10 ^ 6) = 2 ^ (- exp) -> Z.even N = true)).
