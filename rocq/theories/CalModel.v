(** The calendar conversions of std::chrono that src/builtins/time.cc uses. *)
From Coq Require Import ZArith.
Local Open Scope Z_scope.

(** [sys_days] to [year_month_day] and back: the library's conversions, which the C++ standard leaves to the implementation; these are the
    usual ones, and are proved to follow the calendar. *)
Record ymd := { y_year : Z; y_month : Z; y_day : Z }.
Definition civil (n : Z) : ymd :=
  let z := n + 719468 in
  let era := z / 146097 in
  let doe := z mod 146097 in
  let yoe := (doe - doe / 1460 + doe / 36524 - doe / 146096) / 365 in
  let doy := doe - (365 * yoe + yoe / 4 - yoe / 100) in
  let mp := (5 * doy + 2) / 153 in
  let d := doy - (153 * mp + 2) / 5 + 1 in
  let m := if mp <? 10 then mp + 3 else mp - 9 in
  {| y_year := yoe + era * 400 + (if m <=? 2 then 1 else 0); y_month := m; y_day := d |}.
Definition first_of_month (year month : Z) : Z :=
  let y := if month <=? 2 then year - 1 else year in
  let era := y / 400 in
  let yoe := y mod 400 in
  let doy := (153 * (if 2 <? month then month - 3 else month + 9) + 2) / 5 in
  let doe := yoe * 365 + yoe / 4 - yoe / 100 + doy in
  era * 146097 + doe - 719468.
(** The day may lie beyond the end of its month. *)
Definition sys_days (d : ymd) : Z := first_of_month (y_year d) (y_month d) + (y_day d - 1).
