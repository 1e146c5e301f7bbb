(** Model of the builtin [to_number] (src/builtins/core.cc 388-443) and of the text of doubles (src/resolver.cc 227-239). *)
From Coq Require Import String ZArith List Bool.
From Verif Require Import Base BigIntModel BigIntSpec ValueModel ResolverModel VmModel TimeModel.
Import ListNotations.
Local Open Scope Z_scope.
Local Open Scope list_scope.

(** ** [std::stod] of a text *)

(** What [std::strtod] makes of a text in the C locale: nothing ([std::stod] throws [std::invalid_argument]), not a number, infinity, or a number
    with its sign, [None] if it is out of the range of doubles ([std::out_of_range]).  The number is as long as can be; what follows is ignored. *)
Inductive scanned := SNone | SNan | SInf | SNum (sign : Z) (x : option (Z * Z)).
Definition is_blank (c : byte) : bool := ((9 <=? c) && (c <=? 13)) || (c =? 32).
Fixpoint skip_blanks (s : str) : str := match s with c :: s' => if is_blank c then skip_blanks s' else s | [] => [] end.
Definition lower (c : byte) : byte := if (65 <=? c) && (c <=? 90) then c + 32 else c.
Definition starts_any_case (w s : str) : bool := str_eqb (map lower (firstn (length w) s)) w.
Definition hex_value (c : byte) : option Z :=
  if is_digit c then Some (c - 48) else if (97 <=? lower c) && (lower c <=? 102) then Some (lower c - 87) else None.
Fixpoint hex_digits (s : str) : list Z * str :=
  match s with
  | c :: s' => match hex_value c with Some h => let '(d, r) := hex_digits s' in (h :: d, r) | None => ([], s) end
  | [] => ([], [])
  end.
Definition hex_number (l : list Z) : Z := fold_left (fun a h => a * 16 + h) l 0.
Definition binary_exponent (s : str) : Z :=
  match s with
  | c :: r => if lower c =? 112 then let '(sign, r') := scan_exponent_sign r in sign * zval_digits (fst (digits_of r')) else 0
  | [] => 0
  end.
(** A hexadecimal number [mant * 2 ^ exp]; there has to be a digit after the prefix. *)
Definition scan_hex (s : str) : option (Z * Z) :=
  match s with
  | 48 :: x :: r =>
      if lower x =? 120 then
        let '(d, r) := hex_digits r in
        let '(f, r) := match r with 46 :: r' => hex_digits r' | _ => ([], r) end in
        match d ++ f with [] => None | l => Some (hex_number l, binary_exponent r - 4 * Z.of_nat (length f)) end
      else None
  | _ => None
  end.
(** The bounds are those of [TimeModel.stod]. *)
Definition stod_binary (mant exp : Z) : option (Z * Z) :=
  let x := if 0 <=? exp then round_double (mant * 2 ^ exp) 1 else round_double mant (2 ^ (- exp)) in
  if mant =? 0 then Some x
  else if at_least x 1024 then None
  else if at_least x (-1022) then Some x else None.
Definition parse_double (s : str) : scanned :=
  let '(sign, r) := scan_exponent_sign (skip_blanks s) in
  if starts_any_case $"inf" r then SInf
  else if starts_any_case $"nan" r then SNan
  else match scan_hex r with
       | Some (m, e) => SNum sign (stod_binary m e)
       | None =>
           match scan_mantissa r with
           | None => SNone
           | Some (i, f, r) => let '(x, _) := scan_exponent r in SNum sign (stod (zval_digits (i ++ f)) (x - Z.of_nat (length f)))
           end
       end.

(** ** The text of a double *)

(** src/resolver.cc 227-232: [std::ostream] with precision [max_digits10 - 1 = 16] writes as [printf] with "%.16g" does: 16 significant digits of
    the exact value, to the nearest, in positional notation if the decimal exponent [x] is in [-4, 16), else in scientific notation, without zeros at
    the end of the fraction. *)
Definition ndigits (z : Z) : Z := if z <=? 0 then 0 else Z.of_nat (length (dec z)).
(** The decimal exponent of [n / d]. *)
Definition exponent10 (n d : Z) : Z := if d <=? n then ndigits (n / d) - 1 else - ndigits ((d - 1) / n).
Definition scaled10 (n d k : Z) : Z := if 0 <=? k then nearest (n * 10 ^ k) d else nearest n (d * 10 ^ (- k)).
Definition significant (n d : Z) : Z * Z :=
  let x := exponent10 n d in
  let m := scaled10 n d (15 - x) in
  if m =? 10 ^ 16 then (10 ^ 15, x + 1) else (m, x).
Fixpoint drop_zeros (s : str) : str := match s with 48 :: s' => drop_zeros s' | _ => s end.
Definition without_zeros (s : str) : str := rev (drop_zeros (rev s)).
Definition with_point (i f : str) : str := match without_zeros f with [] => i | f' => i ++ $"." ++ f' end.
Definition show16 (m x : Z) : str :=
  let s := dec m in
  if (-4 <=? x) && (x <? 16) then
    if 0 <=? x then with_point (firstn (Z.to_nat (x + 1)) s) (skipn (Z.to_nat (x + 1)) s)
    else with_point $"0" (repeat 48 (Z.to_nat (- x - 1)) ++ s)
  else with_point (firstn 1 s) (skipn 1 s) ++ $"e" ++ (if x <? 0 then $"-" else $"+") ++ pad0 2 (Z.abs x).
Definition double_text (sign : Z) (x : Z * Z) : str :=
  let '(n, d) := fraction_of x in
  (if sign <? 0 then $"-" else []) ++ (if n =? 0 then $"0" else let '(m, e) := significant n d in show16 m e).
(** src/resolver.cc 233-239. *)
Definition double_scalar (sign : Z) (x : Z * Z) : value :=
  let t := double_text sign x in if existsb (Z.eqb 46) t then VFloat t else VInt t.

(** src/builtins/core.cc 388-443.  [Throw]: [std::out_of_range] is not caught. *)
Definition to_number (v : value) : outcome res :=
  match v with
  | VString t =>
      if is_int t then Ok (RVal (VInt t))
      else match parse_double (strip_quotes t) with
           | SNone => Ok (RErr EvalBuiltInError)
           | SNan | SInf => Ok (RErr EvalTypeError)
           | SNum _ None => Throw
           | SNum sign (Some x) => Ok (RVal (double_scalar sign x))
           end
  | VNull | VFalse => Ok (RVal (VInt $"0"))
  | VTrue => Ok (RVal (VInt $"1"))
  | VInt _ | VFloat _ => Ok (RVal v)
  | _ => Ok (RErr EvalTypeError)
  end.
