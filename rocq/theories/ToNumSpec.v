(** What number a text is. *)
From Coq Require Import String ZArith List Bool.
From Verif Require Import Base TimeSpec.
Import ListNotations.
Local Open Scope Z_scope.
Local Open Scope list_scope.

(** [s] is a decimal numeral, with or without a fraction and an exponent: it denotes [sign * mant * 10 ^ exp]. *)
Definition numeral (s : str) (sign mant exp : Z) : Prop :=
  exists g m e i f x, s = g ++ m ++ e /\ minus g sign /\ mantissa m i f /\ exponent e x /\
    mant = number_of (i ++ f) /\ exp = x - Z.of_nat (length f).
(** [mant * 10 ^ exp] as a fraction. *)
Definition ratio (mant exp : Z) : Z * Z := if 0 <=? exp then (mant * 10 ^ exp, 1) else (mant, 10 ^ (- exp)).
(** The second number differs from the first by no more than one part in 10^15. *)
Definition nearly (mant exp mant' exp' : Z) : Prop :=
  let '(n, d) := ratio mant exp in let '(n', d') := ratio mant' exp' in
  Z.abs (n' * d - n * d') * 10 ^ 15 <= n * d'.
(** Zero, or from 10^-307 to 10^308. *)
Definition ordinary (mant exp : Z) : Prop :=
  mant = 0 \/ let '(n, d) := ratio mant exp in d <= n * 10 ^ 307 /\ n <= d * 10 ^ 308.
(** A text of digits, perhaps after a minus sign. *)
Definition integer_text (s : str) : Prop := exists g d, s = g ++ d /\ (g = [] \/ g = $"-") /\ digit_run1 d.

(** ** Texts that begin with a number *)
Definition blanks (s : str) : Prop := Forall (fun c => 9 <= c <= 13 \/ c = 32) s.
(** [s] is the small letters [w] in any case. *)
Definition any_case (w s : str) : Prop := Forall2 (fun l c => c = l \/ c = l - 32) w s.
Inductive opening : str -> Prop :=
| o_digit c : digit_char c -> opening [c]
| o_point c : digit_char c -> opening [46; c]
| o_inf s : any_case $"inf" s -> opening s
| o_nan s : any_case $"nan" s -> opening s.
Definition begins_number (s : str) : Prop :=
  exists b g o r, s = b ++ g ++ o ++ r /\ blanks b /\ In g [[]; $"-"; $"+"] /\ opening o.
