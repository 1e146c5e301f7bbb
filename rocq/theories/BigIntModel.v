(** Model of src/bigint.cc: integers as decimal text.
    A [BigInt] is its text ([m_loc]).  [Location] is Trieste's text slice; only its text matters here. *)
From Coq Require Import String ZArith List Bool.
From Verif Require Import Base.
Import ListNotations.
Local Open Scope Z_scope.

Definition c0 : byte := 48. (* '0' *)
Definition cminus : byte := 45. (* '-' *)

(** bigint.cc 578-602 [BigInt::is_int]. *)
Definition is_digit (c : byte) : bool := (48 <=? c) && (c <=? 57).
Definition is_int (t : str) : bool :=
  match t with
  | [] => false
  | c :: t' => if c =? cminus then forallb is_digit t' else forallb is_digit t
  end.

(** bigint.cc 24-27 [is_negative]: [m_loc.view()[0] == '-'].  On empty text the C++ reads out of bounds; a BigInt is
    never empty ([is_int], asserted at line 14). *)
Definition is_negative (t : str) : bool :=
  match t with c :: _ => c =? cminus | [] => false end.

(** bigint.cc 29-37 [negate]. *)
Definition bi_negate (t : str) : str :=
  if is_negative t then tl t else cminus :: t.

(** bigint.cc 39-47 [abs]. *)
Definition bi_abs (t : str) : str := if is_negative t then bi_negate t else t.

(** bigint.cc 521-529 [digits]. *)
Definition digits (t : str) : str := if is_negative t then tl t else t.

(** bigint.cc 531-534 [is_zero]. *)
Definition is_zero (t : str) : bool := str_eqb t [c0].

(** bigint.cc 417-431 [less_than]: by length, then lexicographic. *)
Definition less_than (l r : str) : bool :=
  if (length l <? length r)%nat then true
  else if (length r <? length l)%nat then false
  else str_ltb l r.

(** bigint.cc 433-447 [greater_than]. *)
Definition greater_than (l r : str) : bool :=
  if (length r <? length l)%nat then true
  else if (length l <? length r)%nat then false
  else str_ltb r l.

(** bigint.cc 90-131, the two loops of [add] over reversed texts; returns the reversed result. *)
Fixpoint add_loop (l r : list byte) (carry : Z) : list byte :=
  match l, r with
  | x :: l', y :: r' =>
      let sum := (x - c0) + (y - c0) + carry in
      if 9 <? sum then (sum - 10 + c0) :: add_loop l' r' 1 else (sum + c0) :: add_loop l' r' 0
  | x :: l', [] =>
      let sum := (x - c0) + carry in
      if 9 <? sum then (sum - 10 + c0) :: add_loop l' [] 1 else (sum + c0) :: add_loop l' [] 0
  | [], _ => if 0 <? carry then [49] else []
  end.

(** bigint.cc 85-141, [add] after the operands were ordered. *)
Definition add_ordered (l r : str) (negative : bool) : str :=
  if str_eqb r [c0] then l
  else rev (add_loop (rev l) (rev r) 0 ++ (if negative then [cminus] else [])).

(** bigint.cc 77-141 [add]: the recursive call at 82 happens at most once because [less_than] is asymmetric. *)
Definition add_digits (l r : str) (negative : bool) : str :=
  if less_than l r then add_ordered r l negative else add_ordered l r negative.

(** bigint.cc 203-241, the loops of [subtract] over reversed texts.  Returns result and final borrow. *)
Fixpoint sub_loop (l r : list byte) (borrow : bool) : list byte * bool :=
  match l, r with
  | x :: l', y :: r' =>
      let ld := (x - c0) - (if borrow then 1 else 0) in
      let rd := y - c0 in
      if ld <? rd
      then let '(res, b) := sub_loop l' r' true in ((ld + 10 - rd + c0) :: res, b)
      else let '(res, b) := sub_loop l' r' false in ((ld - rd + c0) :: res, b)
  | x :: l', [] =>
      let ld := (x - c0) - (if borrow then 1 else 0) in
      if ld <? 0
      then let '(res, b) := sub_loop l' [] true in ((ld + 10 + c0) :: res, b)
      else let '(res, b) := sub_loop l' [] false in ((ld + c0) :: res, b)
  | [], _ => ([], borrow)
  end.

(** bigint.cc 245-248: strip zeros from the (most significant) end, keeping one digit.
    Written on the un-reversed text, where it strips leading zeros. *)
Fixpoint strip_zeros (t : str) : str :=
  match t with
  | c :: ((_ :: _) as t') => if c =? c0 then strip_zeros t' else t
  | _ => t
  end.

(** bigint.cc 196-258 [subtract].  Lines 199 and 243 assert [lhs >= rhs] and no final borrow: a violation is [Ub]
    (abort in debug builds, garbage in release builds). *)
Definition sub_digits (l r : str) (negative : bool) : outcome str :=
  if less_than l r then Ub
  else
    let '(res, borrow) := sub_loop (rev l) (rev r) false in
    if borrow then Ub
    else
      let t := strip_zeros (rev res) in
      Ok (if negative && negb (str_eqb t [c0]) then cminus :: t else t).

(** bigint.cc 49-75 [operator+] and 143-194 [operator-] call each other; [fuel] bounds the nesting of those calls. *)
Fixpoint bi_addsub (fuel : nat) (is_add : bool) (l r : str) : outcome str :=
  match fuel with
  | O => OutOfFuel
  | S f =>
    if is_add then
      if is_negative l then
        if is_negative r then Ok (add_digits (digits l) (digits r) true)
        else bi_addsub f false r (bi_negate l)
      else
        if is_negative r then bi_addsub f false l (bi_negate r)
        else Ok (add_digits (digits l) (digits r) false)
    else
      if is_zero r then Ok l
      else if is_negative l then
        if is_negative r then
          if greater_than (digits l) (digits r) then sub_digits (digits l) (digits r) true
          else bi_addsub f false (bi_negate r) (bi_negate l)
        else bi_addsub f true l (bi_negate r)
      else
        if is_negative r then bi_addsub f true l (bi_negate r)
        else if less_than (digits l) (digits r) then
          let! d := bi_addsub f false r l in Ok (bi_negate d)
        else sub_digits (digits l) (digits r) false
  end.

(** At most three nested calls occur (proved: [OutOfFuel] never comes out on integers). *)
Definition bi_add (l r : str) : outcome str := bi_addsub 4 true l r.
Definition bi_sub (l r : str) : outcome str := bi_addsub 4 false l r.

(** bigint.cc 306-326: one row of the multiplication, over the reversed right operand. *)
Fixpoint mul_row (d : Z) (r : list byte) (carry : Z) : list byte :=
  match r with
  | [] => if 0 <? carry then [carry + c0] else []
  | y :: r' =>
      let product := d * (y - c0) + carry in
      if 9 <? product then (product mod 10 + c0) :: mul_row d r' (product / 10)
      else (product + c0) :: mul_row d r' 0
  end.

(** bigint.cc 302-331: the outer loop; [l] is the reversed left operand, [start] the zeros shifted in so far. *)
Fixpoint mul_loop (l : list byte) (rrev : list byte) (start : str) (result : str) : str :=
  match l with
  | [] => result
  | x :: l' =>
      let intermediate := rev (start ++ mul_row (x - c0) rrev 0) in
      mul_loop l' rrev (start ++ [c0]) (add_digits result intermediate false)
  end.

(** bigint.cc 287-334 [multiply]: smaller operand first (295-298, at most one recursive call). *)
Definition mul_digits (l r : str) : str :=
  if str_eqb l [c0] || str_eqb r [c0] then [c0]
  else if greater_than l r then mul_loop (rev r) (rev l) [] [c0]
  else mul_loop (rev l) (rev r) [] [c0].

(** bigint.cc 260-285 [operator*]. *)
Definition bi_mul (l r : str) : str :=
  let product := mul_digits (digits l) (digits r) in
  if str_eqb product [c0] then [c0]
  else if xorb (is_negative l) (is_negative r) then cminus :: product else product.

(** bigint.cc 399-403: repeated subtraction.  Each round that succeeds makes the remainder smaller; [fuel] bounds the
    rounds. *)
Fixpoint div_inner (fuel : nat) (remainder rhs : str) (digit : Z) : outcome (str * Z) :=
  match fuel with
  | O => OutOfFuel
  | S f =>
      if less_than remainder rhs then Ok (remainder, digit)
      else let! rem' := sub_digits remainder rhs false in div_inner f rem' rhs (digit + 1)
  end.

(** bigint.cc 388-415 [divide]: returns quotient and remainder.  The remainder is extended digit by digit without
    stripping a "0" left by the previous step. *)
Fixpoint div_loop (fuel : nat) (lhs rhs remainder quotient : str) (leading : bool) : outcome (str * str) :=
  match lhs with
  | [] => Ok (quotient, remainder)
  | c :: lhs' =>
      let! '(rem', digit) := div_inner fuel (remainder ++ [c]) rhs 0 in
      if (digit =? 0) && leading then div_loop fuel lhs' rhs rem' quotient leading
      else div_loop fuel lhs' rhs rem' (quotient ++ [digit + c0]) false
  end.

Definition div_fuel : nat := 64.
Definition bi_divide (l r : str) : outcome (str * str) := div_loop div_fuel l r [] [] true.

(** bigint.cc 336-365 [operator/]. *)
Definition bi_div (l r : str) : outcome str :=
  if less_than (digits l) (digits r) then Ok [c0]
  else if is_zero r then Throw
  else
    let! '(q, _) := bi_divide (digits l) (digits r) in
    Ok (if xorb (is_negative l) (is_negative r) then cminus :: q else q).

(** bigint.cc 367-386 [operator%]. *)
Definition bi_mod (l r : str) : outcome str :=
  if less_than (digits l) (digits r) then Ok l
  else if is_zero r then Throw
  else
    let! '(_, rem) := bi_divide (digits l) (digits r) in
    Ok (if is_negative l && negb (str_eqb rem [c0]) then cminus :: rem else rem).

(** bigint.cc 449-519 comparison operators. *)
Definition bi_lt (l r : str) : bool :=
  if is_negative l then
    if is_negative r then greater_than (digits l) (digits r) else true
  else
    if is_negative r then false else less_than (digits l) (digits r).
Definition bi_gt (l r : str) : bool :=
  if is_negative l then
    if is_negative r then less_than (digits l) (digits r) else false
  else
    if is_negative r then true else greater_than (digits l) (digits r).
Definition bi_le (l r : str) : bool := negb (bi_gt l r).
Definition bi_ge (l r : str) : bool := negb (bi_lt l r).
Definition bi_eq (l r : str) : bool := str_eqb l r.
Definition bi_ne (l r : str) : bool := negb (str_eqb l r).

(** bigint.cc 568-576 [increment], [decrement]. *)
Definition bi_inc (t : str) : outcome str := bi_add t [49].
Definition bi_dec (t : str) : outcome str := bi_sub t [49].

(** bigint.cc 536-547 [to_int]: [std::stoll]; [None] when out of int64 range.  The text of a BigInt is an optional '-'
    and digits, so the conversion consumes all of it. *)
Definition zval_digits (t : str) : Z := fold_left (fun a c => a * 10 + (c - c0)) t 0.
Definition zval (t : str) : Z :=
  if is_negative t then - zval_digits (tl t) else zval_digits t.
Definition int64_min : Z := - 9223372036854775808.
Definition int64_max : Z := 9223372036854775807.
Definition uint64_max : Z := 18446744073709551615.
Definition bi_to_int (t : str) : option Z :=
  let v := zval t in if (int64_min <=? v) && (v <=? int64_max) then Some v else None.
(** bigint.cc 549-560 [to_size]: [std::stoul] accepts a minus sign and negates in unsigned arithmetic; it is out of
    range when the magnitude is. *)
Definition bi_to_size (t : str) : option Z :=
  let m := zval_digits (digits t) in
  if uint64_max <? m then None
  else Some (if is_negative t then (- m) mod 18446744073709551616 else m).
