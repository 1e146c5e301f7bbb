(** What the time builtins are meant to do, independently of the model. *)
From Coq Require Import String ZArith List Bool.
From Verif Require Import Base BigIntSpec ValueModel.
Import ListNotations.
Local Open Scope Z_scope.
Local Open Scope list_scope.

(** ** The calendar *)
Record date := { year : Z; month : Z; day : Z }.
Definition leap (y : Z) : Prop := (y mod 4 = 0 /\ y mod 100 <> 0) \/ y mod 400 = 0.
(** Thirty days hath September... *)
Inductive month_length (y : Z) : Z -> Z -> Prop :=
| ml_30 m : In m [4; 6; 9; 11] -> month_length y m 30
| ml_31 m : In m [1; 3; 5; 7; 8; 10; 12] -> month_length y m 31
| ml_feb : ~ leap y -> month_length y 2 28
| ml_leap : leap y -> month_length y 2 29.
Definition valid (d : date) : Prop := exists n, month_length (year d) (month d) n /\ 1 <= day d <= n.
Inductive tomorrow (d : date) : date -> Prop :=
| t_day n : month_length (year d) (month d) n -> 1 <= day d < n -> tomorrow d {| year := year d; month := month d; day := day d + 1 |}
| t_month n : month_length (year d) (month d) n -> day d = n -> month d < 12 -> tomorrow d {| year := year d; month := month d + 1; day := 1 |}
| t_year n : month_length (year d) (month d) n -> day d = n -> month d = 12 -> tomorrow d {| year := year d + 1; month := 1; day := 1 |}.
(** Days are counted from 1970-01-01, forwards and backwards. *)
Inductive day_number : date -> Z -> Prop :=
| dn_epoch : day_number {| year := 1970; month := 1; day := 1 |} 0
| dn_next d d' n : day_number d n -> tomorrow d d' -> day_number d' (n + 1)
| dn_prev d d' n : day_number d n -> tomorrow d' d -> day_number d' (n - 1).

(** ** Instants *)
Definition in64 (z : Z) : Prop := - 2 ^ 63 <= z < 2 ^ 63.
(** A wall clock shows [h:m:s] on the day numbered [n], for a local time of [ns] nanoseconds. *)
Definition shows (ns n h m s : Z) : Prop :=
  0 <= h < 24 /\ 0 <= m < 60 /\ 0 <= s < 60 /\ exists f, 0 <= f < 10 ^ 9 /\ ns = (((n * 24 + h) * 60 + m) * 60 + s) * 10 ^ 9 + f.
Definition triple (a b c : Z) : value := VArray [VInt (dec a); VInt (dec b); VInt (dec c)].
(** Adding years and months to a date keeps the day of the month, counting on into the following month if there is no such day
    (as Go's AddDate does); days are then added one by one. *)
Definition added (n years months days n' : Z) : Prop :=
  exists d y m first, day_number d n /\ 12 * y + m = 12 * (year d + years) + month d + months /\ 1 <= m <= 12 /\
    day_number {| year := y; month := m; day := 1 |} first /\ n' = first + (day d - 1) + days.
(** The years the calendar library can hold. *)
Definition holds_year (y : Z) : Prop := -32768 <= y <= 32767.
Definition weekdays : list str := [$"Monday"; $"Tuesday"; $"Wednesday"; $"Thursday"; $"Friday"; $"Saturday"; $"Sunday"].

(** ** Texts *)
Definition digit_char (c : Z) : Prop := 48 <= c <= 57.
(** [n] decimal digits with value [z]. *)
Definition field (n : nat) (z : Z) (s : str) : Prop := length s = n /\ Forall digit_char s /\ fold_left (fun a c => 10 * a + (c - 48)) s 0 = z.

(** ** Durations *)
Definition number_of (s : str) : Z := fold_left (fun a c => 10 * a + (c - 48)) s 0.
Definition digit_run (s : str) : Prop := Forall digit_char s.
Definition digit_run1 (s : str) : Prop := s <> [] /\ digit_run s.
(** The digits before and after the decimal point. *)
Inductive mantissa : str -> str -> str -> Prop :=
| m_int d : digit_run1 d -> mantissa d d []
| m_point d f : digit_run1 d -> digit_run f -> mantissa (d ++ $"." ++ f) d f
| m_frac f : digit_run1 f -> mantissa ($"." ++ f) [] f.
Inductive exponent : str -> Z -> Prop :=
| e_none : exponent [] 0
| e_plain c d : In c [101; 69] -> digit_run1 d -> exponent (c :: d) (number_of d)
| e_plus c d : In c [101; 69] -> digit_run1 d -> exponent (c :: 43 :: d) (number_of d)
| e_minus c d : In c [101; 69] -> digit_run1 d -> exponent (c :: 45 :: d) (- number_of d).
Inductive minus : str -> Z -> Prop := n_none : minus [] 1 | n_minus : minus [45] (-1).
Inductive unit_ns : str -> Z -> Prop :=
| u_ns : unit_ns $"ns" 1
| u_us : unit_ns $"us" (10 ^ 3)
| u_mu : unit_ns [194; 181; 115] (10 ^ 3)
| u_ms : unit_ns $"ms" (10 ^ 6)
| u_s : unit_ns $"s" (10 ^ 9)
| u_m : unit_ns $"m" (60 * 10 ^ 9)
| u_h : unit_ns $"h" (3600 * 10 ^ 9)
| u_d : unit_ns $"d" (86400 * 10 ^ 9)
| u_w : unit_ns $"w" (7 * 86400 * 10 ^ 9)
| u_y : unit_ns $"y" (365 * 86400 * 10 ^ 9).
(** The term's value is [t_sign * t_mant * 10 ^ t_exp * t_unit] nanoseconds. *)
Record term := { t_sign : Z; t_mant : Z; t_exp : Z; t_unit : Z }.
Definition term_text (s : str) (t : term) : Prop :=
  exists g m e u i f x, s = g ++ m ++ e ++ u /\ minus g (t_sign t) /\ mantissa m i f /\ exponent e x /\ unit_ns u (t_unit t) /\
    t_mant t = number_of (i ++ f) /\ t_exp t = x - Z.of_nat (length f).
Inductive duration_text : str -> list term -> Prop :=
| d_nil : duration_text [] []
| d_cons s t s' ts : term_text s t -> duration_text s' ts -> duration_text (s ++ s') (t :: ts).
(** Whole terms of moderate size. *)
Definition modest (t : term) : Prop := t_exp t = 0 /\ t_mant t <= 2 ^ 53 /\ t_mant t * t_unit t <= 2 ^ 53.
Definition exact (t : term) : Z := t_sign t * t_mant t * t_unit t.
Fixpoint sums_fit (acc : Z) (l : list Z) : Prop := match l with [] => True | a :: l => in64 (acc + a) /\ sums_fit (acc + a) l end.
Definition total (l : list Z) : Z := fold_left Z.add l 0.

(** ** Arguments: an instant in nanoseconds, in a named zone or in none, possibly with a layout. *)
Inductive instant_arg : value -> Z -> option str -> bool -> Prop :=
| ia_ns ns : instant_arg (VInt (dec ns)) ns None false
| ia_pair ns : instant_arg (VArray [VInt (dec ns); VString []]) ns None false
| ia_zone ns z : z <> [] -> instant_arg (VArray [VInt (dec ns); VString z]) ns (Some z) false
| ia_layout ns z l : instant_arg (VArray [VInt (dec ns); VString z; VString l]) ns (Some z) true.
(** The offset from Greenwich in seconds, given the database. *)
Definition local_time (zones : str -> option (Z -> Z)) (zone : option str) (ns l : Z) : Prop :=
  match zone with None => l = ns | Some z => exists off, zones z = Some off /\ l = ns + off ns * 10 ^ 9 end.
Definition known_zone (zones : str -> option (Z -> Z)) (zone : option str) : Prop := match zone with None => True | Some z => zones z <> None end.
(** The first whole day of the range of 64-bit nanoseconds. *)
Definition first_whole_day : Z := -106751.
Definition one_day : Z := 86400 * 10 ^ 9.
(** The term's value is [n / d] nanoseconds, up to its sign. *)
Definition term_value (t : term) (n d : Z) : Prop :=
  (0 <= t_exp t /\ n = t_mant t * 10 ^ t_exp t * t_unit t /\ d = 1) \/ (t_exp t < 0 /\ n = t_mant t * t_unit t /\ d = 10 ^ (- t_exp t)).
(** [a] is [n / d] to within one, plus one part in 2^51. *)
Definition close (a n d : Z) : Prop := Z.abs (a * d - n) * 2 ^ 51 <= n + d * 2 ^ 51.
(** The number is not vanishingly small, nor the value beyond 2^62 nanoseconds (146 years). *)
Definition moderate (t : term) : Prop := t_mant t = 0 \/ exists n d, term_value t n d /\ n <= d * 2 ^ 62 /\ d * t_unit t <= n * 2 ^ 1021.
(** The bare zeros. *)
Definition bare_zero (s : str) : Prop := In s [$"0"; $"+0"; $"-0"].
