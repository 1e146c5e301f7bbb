(** src/builtins/time.cc.  Parsing with a layout ([do_parse]) is not modelled: all its work is done by [std::chrono::parse]. *)
From Coq Require Import String ZArith List Bool.
From Verif Require Import Base BigIntModel BigIntSpec ValueModel ResolverModel StrModel MiscModel CalModel.
Import ListNotations.
Local Open Scope Z_scope.
Local Open Scope list_scope.

(** ** std::chrono *)

(** time.cc 18-20, 413-414. *)
Definition second_ns : Z := 1000000000.
Definition minute_ns : Z := 60 * second_ns.
Definition hour_ns : Z := 60 * minute_ns.
Definition day_ns : Z := 24 * hour_ns.
(** Signed 64-bit arithmetic: an overflow is undefined. *)
Definition int64b (z : Z) : bool := (int64_min <=? z) && (z <=? int64_max).
Definition checked (z : Z) : outcome Z := if int64b z then Ok z else Ub.
(** [year] holds a [short] (libstdc++ and libc++). *)
Definition wrap16 (z : Z) : Z := (z + 32768) mod 65536 - 32768.
(** [static_cast<int>] of a 64-bit integer. *)
Definition wrap32 (z : Z) : Z := (z + 2147483648) mod 4294967296 - 2147483648.
(** [ymd += years], [ymd += months]. *)
Definition add_years (d : ymd) (n : Z) : ymd := {| y_year := wrap16 (y_year d + n); y_month := y_month d; y_day := y_day d |}.
Definition add_months (d : ymd) (n : Z) : ymd :=
  let i := y_month d - 1 + n in {| y_year := wrap16 (y_year d + i / 12); y_month := i mod 12 + 1; y_day := y_day d |}.

(** ** Arguments *)
Inductive resolution := Seconds | Nano | NanoZero | Micro | MicroZero | Milli | MilliZero.
Inductive info_mode := MTime | MTimeZone | MTimeFormat | MTimeZoneFormat.
(** time.cc 480-489; [None] is [npos]. *)
Record time_info := { t_mode : info_mode; t_ns : Z; t_zone : str; t_format : str; t_resolution : resolution; t_fraction : option nat }.
(** time.cc 583-598 [get_timestamp]. *)
Definition get_timestamp (x : str) : option Z := if bi_lt (dec int64_max) x then None else bi_to_int x.
(** time.cc 416-437 [predefined_layouts]. *)
Definition predefined_layouts : list (str * str) := [
  ($"Layout", $"01/02 03:04:05PM '06 -0700"); ($"ANSIC", $"Mon Jan _2 15:04:05 2006"); ($"UnixDate", $"Mon Jan _2 15:04:05 MST 2006");
  ($"RubyDate", $"Mon Jan 02 15:04:05 -0700 2006"); ($"RFC822", $"02 Jan 06 15:04 MST"); ($"RFC822Z", $"02 Jan 06 15:04 -0700");
  ($"RFC850", $"Monday, 02-Jan-06 15:04:05 MST"); ($"RFC1123", $"Mon, 02 Jan 2006 15:04:05 MST"); ($"RFC1123Z", $"Mon, 02 Jan 2006 15:04:05 -0700");
  ($"RFC3339", $"2006-01-02T15:04:05Z07:00"); ($"RFC3339Nano", $"2006-01-02T15:04:05.999999999Z07:00"); ($"Kitchen", $"3:04PM");
  ($"Stamp", $"Jan _2 15:04:05"); ($"StampMilli", $"Jan _2 15:04:05.000"); ($"StampMicro", $"Jan _2 15:04:05.000000"); ($"StampNano", $"Jan _2 15:04:05.000000000")].
(** time.cc 439-451 [go_to_cpp]. *)
Definition go_to_cpp : list (str * str) := [
  ($"2006", $"%Y"); ($"06", $"%y"); ($"Jan", $"%b"); ($"January", $"%B"); ($"01", $"%m"); ($"1", $"%m"); ($"Mon", $"%a"); ($"Monday", $"%A"); ($"2", $"%d");
  ($"_2", $"%d"); ($"02", $"%d"); ($"__2", $"%j"); ($"002", $"%j"); ($"15", $"%H"); ($"3", $"%I"); ($"03", $"%I"); ($"4", $"%M"); ($"04", $"%M");
  ($"5", $"%S"); ($"05", $"%S"); ($"PM", $"%p"); ($"-0700", $"%z"); ($"-07:00", $"%Ez"); ($"-07", $"%z"); ($"-070000", $"%z"); ($"-07:00:00", $"%Ez");
  ($"Z0700", $"%Z"); ($"Z07:00", $"%Ez"); ($"Z07", $"%Z"); ($"Z070000", $"%Z"); ($"Z07:00:00", $"%Ez")].
(** time.cc 472-479 [res_lookup]; the empty text is never looked up. *)
Definition res_lookup : list (str * resolution) := [
  ($".000000000", Nano); ($".000000", Micro); ($".000", Milli); ($".999999999", NanoZero); ($".999999", MicroZero); ($".999", MilliZero)].
Fixpoint find_text {A} (l : list (str * A)) (k : str) : option A := match l with [] => None | (s, a) :: l => if str_eqb s k then Some a else find_text l k end.
(** time.cc 615-638: the longest of the first [len] bytes of the layout that is in a table. *)
Inductive piece := PRes (r : resolution) (len : nat) | PCpp (s : str) (len : nat).
Fixpoint longest (len : nat) (rest : str) : option piece :=
  match len with
  | O => None
  | S n =>
      let query := firstn len rest in
      match find_text res_lookup query with
      | Some r => Some (PRes r len)
      | None => match find_text go_to_cpp query with Some s => Some (PCpp s len) | None => longest n rest end
      end
  end.
(** time.cc 613-644; [fuel] is the number of bytes left, and suffices. *)
Fixpoint scan_format (fuel i : nat) (rest acc : str) (r : resolution * option nat) : str * (resolution * option nat) :=
  match fuel with
  | O => (acc, r)
  | S fuel =>
      match rest with
      | [] => (acc, r)
      | c :: rest' =>
          match longest (Nat.min 12 (length rest)) rest with
          | Some (PRes r' len) => scan_format fuel (i + len) (skipn len rest) acc (r', Some i)
          | Some (PCpp s len) => scan_format fuel (i + len) (skipn len rest) (acc ++ s) r
          | None => scan_format fuel (i + 1) rest' (acc ++ [c]) r
          end
      end
  end.
(** time.cc 600-647 [get_format]. *)
Definition get_format (layout : str) : str * (resolution * option nat) :=
  let go := match find_text predefined_layouts layout with Some l => l | None => layout end in
  scan_format (length go) 0 go [] (Seconds, None).
(** time.cc 649-746 [process_arg]: an error code or the information. *)
Definition process_arg (x : value) : str + time_info :=
  match x with
  | VInt t =>
      match get_timestamp t with
      | None => inl EvalBuiltInError
      | Some ns => inr {| t_mode := MTime; t_ns := ns; t_zone := []; t_format := []; t_resolution := Seconds; t_fraction := None |}
      end
  | VArray (a :: b :: l) =>
      match l with
      | _ :: _ :: _ => inl EvalTypeError
      | _ =>
          match a with
          | VInt t =>
              match get_timestamp t with
              | None => inl EvalBuiltInError
              | Some ns =>
                  match b with
                  | VString zone =>
                      match l with
                      | [] => inr {| t_mode := match zone with [] => MTime | _ => MTimeZone end; t_ns := ns; t_zone := zone; t_format := []; t_resolution := Seconds; t_fraction := None |}
                      | VString layout :: _ =>
                          let '(format, (r, i)) := get_format layout in
                          inr {| t_mode := match zone with [] => MTimeFormat | _ => MTimeZoneFormat end; t_ns := ns; t_zone := zone; t_format := format; t_resolution := r; t_fraction := i |}
                      | _ => inl EvalTypeError
                      end
                  | _ => inl EvalTypeError
                  end
              end
          | _ => inl EvalTypeError
          end
      end
  | VArray _ => inl EvalTypeError
  | _ => inl EvalTypeError
  end.
Definition with_arg (x : value) (f : time_info -> outcome res) : outcome res := match process_arg x with inl c => Ok (RErr c) | inr i => f i end.

(** ** Builtins *)
(** The time zone database: seconds east of Greenwich at an instant (in nanoseconds); an unknown name throws.  The formatting of an
    instant, or of a local time with its offset, by [std::format]; a bad format throws. *)
Record time_ops := { z_zone : str -> option (Z -> Z); z_format : str -> Z -> option str; z_format_zone : str -> Z -> Z -> option str }.
Section Ops.
Variable T : time_ops.
Definition locate_zone (name : str) : outcome (Z -> Z) := match z_zone T name with Some f => Ok f | None => Throw end.
(** [zoned_time<nanoseconds>::get_local_time] *)
Definition local_ns (zone : str) (ns : Z) : outcome Z := let! off := locate_zone zone in checked (ns + off ns * second_ns).
(** time.cc 858-871, 896-906: the local time of the argument; a layout without a zone asks for the zone with the empty name. *)
Definition wall_ns (i : time_info) : outcome Z := match t_mode i with MTime => Ok (t_ns i) | _ => local_ns (t_zone i) (t_ns i) end.
(** [tp - floor<days>(tp)]: the days are converted to nanoseconds. *)
Definition day_time (ns : Z) : outcome Z := let! d := checked (ns / day_ns * day_ns) in Ok (ns - d).
(** time.cc 850-880 [clock_]. *)
Definition time_clock (x : value) : outcome res :=
  with_arg x (fun i => let! w := wall_ns i in let! t := day_time w in
    Ok (RVal (VArray [VInt (dec (t / hour_ns)); VInt (dec (t mod hour_ns / minute_ns)); VInt (dec (t mod minute_ns / second_ns))]))).
(** time.cc 887-915 [date_]. *)
Definition time_date (x : value) : outcome res :=
  with_arg x (fun i => let! w := wall_ns i in let d := civil (w / day_ns) in
    Ok (RVal (VArray [VInt (dec (y_year d)); VInt (dec (y_month d)); VInt (dec (y_day d))]))).
(** time.cc 491-576 [add_date]. *)
Definition time_add_date (ns years months days : value) : outcome res :=
  match ns, years, months, days with
  | VInt ns, VInt years, VInt months, VInt days =>
      match bi_to_int ns, bi_to_int years, bi_to_int months, bi_to_int days with
      | Some ns, Some years, Some months, Some days =>
          let since := ns / day_ns in
          let d := add_months (add_years (civil since) (wrap32 years)) (wrap32 months) in
          let! n := checked (sys_days d + days) in
          let! t := day_time ns in
          let time := n * day_ns + t in
          Ok (if (time <? int64_min) || (int64_max <? time) then RErr EvalBuiltInError else RVal (VInt (dec time)))
      | _, _, _, _ => type_error
      end
  | _, _, _, _ => type_error
  end.
(** time.cc 940-960: only the zone's name is checked. *)
Definition instant (i : time_info) : outcome Z := match t_mode i with MTime => Ok (t_ns i) | _ => let! _ := locate_zone (t_zone i) in Ok (t_ns i) end.
(** time.cc 922-985 [diff]; [years] last 31556952 seconds and [months] 2629746. *)
Definition time_diff (x y : value) : outcome res :=
  with_arg x (fun i => with_arg y (fun j =>
    let! a := instant i in
    let! b := instant j in
    let! d := checked (if b <? a then a - b else b - a) in
    let s := d / second_ns in
    let years := s / 31556952 in
    let s := s - years * 365 * 24 * 60 * 60 in
    let months := s / 2629746 in
    let s := s - months * 2629746 in
    let days := s / 86400 in
    let s := s - days * 86400 in
    let hours := s / 3600 in
    let s := s - hours * 3600 in
    let minutes := s / 60 in
    let s := s - minutes * 60 in
    Ok (RVal (VArray (map (fun z => VInt (dec z)) [years; months; days; hours; minutes; s]))))).
(** [snprintf("%0nd")] *)
Definition pad0 (n : nat) (z : Z) : str :=
  let d := dec (Z.abs z) in
  let sign := if z <? 0 then $"-" else [] in
  sign ++ repeat 48 (n - length sign - length d) ++ d.
(** [substr(pos)] throws beyond the end. *)
Definition from (s : str) (pos : nat) : outcome str := if Nat.ltb (length s) pos then Throw else Ok (skipn pos s).
(** time.cc 763-802 [insert_fraction]; divisions truncate. *)
Definition insert_fraction (s : str) (i : time_info) : outcome str :=
  let fraction := match t_resolution i with
                  | Seconds => []
                  | Nano | NanoZero => $"." ++ pad0 9 (t_ns i)
                  | Micro | MicroZero => $"." ++ pad0 6 (Z.quot (t_ns i) 1000)
                  | Milli | MilliZero => $"." ++ pad0 3 (Z.quot (t_ns i) 1000000)
                  end in
  match t_fraction i with
  | None => Throw
  | Some pos => let! rest := from s pos in Ok (firstn pos s ++ fraction ++ rest)
  end.
Definition with_fraction (s : str) (i : time_info) : outcome str := match t_resolution i with Seconds => Ok s | _ => insert_fraction s i end.
(** [std::format("{0:%FT%TZ}", tp)] for years 0 to 9999. *)
Definition iso_text (ns : Z) : str :=
  let d := civil (ns / day_ns) in
  let t := ns mod day_ns in
  pad0 4 (y_year d) ++ $"-" ++ pad0 2 (y_month d) ++ $"-" ++ pad0 2 (y_day d) ++ $"T" ++
  pad0 2 (t / hour_ns) ++ $":" ++ pad0 2 (t mod hour_ns / minute_ns) ++ $":" ++ pad0 2 (t mod minute_ns / second_ns) ++ $"." ++ pad0 9 (t mod second_ns) ++ $"Z".
Definition formatted (o : option str) : outcome str := match o with Some s => Ok s | None => Throw end.
(** time.cc 748-762, 804-848 [info_string] and the functions it chooses from.  The text is not escaped. *)
Definition info_string (i : time_info) : outcome str :=
  match t_mode i with
  | MTime => Ok (iso_text (t_ns i))
  | MTimeZone => let! l := local_ns (t_zone i) (t_ns i) in formatted (z_format_zone T $"%FT%T%Ez" (t_ns i) l)
  | MTimeFormat => let! s := formatted (z_format T (t_format i) (t_ns i)) in with_fraction s i
  | MTimeZoneFormat =>
      let! off := locate_zone (t_zone i) in
      let s := t_ns i / second_ns in
      let! s := formatted (z_format_zone T (t_format i) (s * second_ns) ((s + off (s * second_ns)) * second_ns)) in
      with_fraction s i
  end.
(** time.cc 992-1001 [format]. *)
Definition time_format (x : value) : outcome res := with_arg x (fun i => let! s := info_string i in Ok (RVal (VString s))).
(** time.cc 1113-1129 [weekday]. *)
Definition time_weekday (x : value) : outcome res :=
  with_arg x (fun i => let! s := info_string {| t_mode := MTimeZoneFormat; t_ns := t_ns i; t_zone := match t_zone i with [] => $"UTC" | z => z end; t_format := $"%A";
                                               t_resolution := t_resolution i; t_fraction := t_fraction i |} in Ok (RVal (VString s))).
End Ops.

(** ** Durations *)
(** Doubles of one sign: [m * 2 ^ e] with [m <= 2 ^ 53].  [n / d] rounded to the nearest double, ties to even. *)
Definition nearest (n d : Z) : Z :=
  let q := n / d in let r := n mod d in
  match 2 * r ?= d with Lt => q | Gt => q + 1 | Eq => if Z.even q then q else q + 1 end.
Definition round_double (n d : Z) : Z * Z :=
  if n =? 0 then (0, 0)
  else
    let e := Z.max (-1074) (Z.log2 (n * 2 ^ 1100 / d) - 1152) in
    (if 0 <=? e then nearest n (d * 2 ^ e) else nearest (n * 2 ^ (- e)) d, e).
(** [m * 2 ^ e] as a fraction. *)
Definition fraction_of (x : Z * Z) : Z * Z := let '(m, e) := x in if 0 <=? e then (m * 2 ^ e, 1) else (m, 2 ^ (- e)).
(** A magnitude at least [2 ^ k], for a double. *)
Definition at_least (x : Z * Z) (k : Z) : bool := let '(n, d) := fraction_of x in if 0 <=? k then d * 2 ^ k <=? n else d <=? n * 2 ^ (- k).
(** time.cc 122-131: [std::stod] of [mant * 10 ^ exp], correctly rounded (glibc); beyond the range of doubles, or below that of normal doubles,
    it throws and the duration is refused.  (An exactly representable denormal does not throw; such a number has hundreds of digits and
    yields zero.  This is not modelled.) *)
Definition stod (mant exp : Z) : option (Z * Z) :=
  let x := if 0 <=? exp then round_double (mant * 10 ^ exp) 1 else round_double mant (10 ^ (- exp)) in
  if mant =? 0 then Some x
  else if at_least x 1024 then None
  else if at_least x (-1022) then Some x else None.
(** time.cc 133-141: the product of two doubles, its bounds and its truncation. *)
Definition duration_term (sign mant exp unit : Z) : option Z :=
  match stod mant exp with
  | None => None
  | Some x =>
      let '(n, d) := fraction_of x in
      let y := round_double (n * unit) d in
      if at_least y 63 then None else let '(n, d) := fraction_of y in Some (sign * (n / d))
  end.
Fixpoint digits_of (s : str) : str * str := match s with c :: s' => if is_digit c then let '(d, r) := digits_of s' in (c :: d, r) else ([], s) | [] => ([], []) end.
(** time.cc 56-66 [duration_units]. *)
Definition duration_units : list (str * Z) := [
  ($"ns", 1); ($"us", 1000); ([194; 181; 115], 1000); ($"ms", 1000000); ($"s", second_ns); ($"m", minute_ns); ($"h", hour_ns); ($"d", 24 * hour_ns);
  ($"w", 7 * 24 * hour_ns); ($"y", 365 * 24 * hour_ns)].
(** time.cc 94-95: the regular expression, as the scanner it is: the number is as long as can be, since no unit starts like the rest of a number. *)
Definition scan_sign (s : str) : Z * str := match s with 45 :: r => (-1, r) | _ => (1, s) end.
Definition scan_mantissa (s : str) : option (str * str * str) :=
  let '(d, r) := digits_of s in
  match d, r with
  | [], 46 :: r => match digits_of r with ([], _) => None | (f, r) => Some ([], f, r) end
  | [], _ => None
  | _, 46 :: r => let '(f, r) := digits_of r in Some (d, f, r)
  | _, _ => Some (d, [], r)
  end.
Definition scan_exponent_sign (r : str) : Z * str := match r with 45 :: r' => (-1, r') | 43 :: r' => (1, r') | _ => (1, r) end.
Definition scan_exponent (s : str) : Z * str :=
  match s with
  | c :: r =>
      if (c =? 101) || (c =? 69) then
        let '(sign, r') := scan_exponent_sign r in
        match digits_of r' with ([], _) => (0, s) | (d, r'') => (sign * zval_digits d, r'') end
      else (0, s)
  | [] => (0, s)
  end.
Fixpoint scan_unit (l : list (str * Z)) (s : str) : option (Z * str) :=
  match l with [] => None | (u, z) :: l => if prefixb u s then Some (z, skipn (length u) s) else scan_unit l s end.
Definition scan_term (s : str) : option (option Z * str) :=
  let '(sign, r) := scan_sign s in
  match scan_mantissa r with
  | None => None
  | Some (i, f, r) =>
      let '(x, r) := scan_exponent r in
      match scan_unit duration_units r with
      | None => None
      | Some (u, r) => Some (duration_term sign (zval_digits (i ++ f)) (x - Z.of_nat (length f)) u, r)
      end
  end.
(** time.cc 112-155; [fuel] is the length of the rest, and suffices. *)
Fixpoint duration_terms (fuel : nat) (s : str) (ns : Z) : outcome (option Z) :=
  match s with
  | [] => Ok (Some ns)
  | _ =>
      match fuel with
      | O => OutOfFuel
      | S fuel =>
          match scan_term s with
          | Some (Some a, r) => if int64b (ns + a) then duration_terms fuel r (ns + a) else Ok None
          | _ => Ok None
          end
      end
  end.
(** time.cc 91-165 [do_parse_duration]; the message of the error is not modelled, nor the refusal of texts that are not UTF-8. *)
Definition do_parse_duration (s : str) : outcome (option Z) :=
  match s with
  | [] => Ok None
  | _ => if existsb (str_eqb s) [$"0"; $"+0"; $"-0"] then Ok (Some 0) else duration_terms (length s) s 0
  end.
(** time.cc 167-185 [parse_duration_ns]. *)
Definition time_parse_duration (x : value) : outcome res :=
  match x with VString s => let! r := do_parse_duration s in Ok (match r with Some ns => RVal (VInt (dec ns)) | None => RErr EvalBuiltInError end) | _ => type_error end.

(** ** time.now_ns *)
(** time.cc 22-53: the cached reading; the clock is a list of readings to come. *)
Record clock_state := { c_cached : option Z; c_readings : list Z }.
Inductive clock_op := CCall | CClear.
Definition clock_step (o : clock_op) (s : clock_state) : clock_state * option Z :=
  match o with
  | CClear => ({| c_cached := None; c_readings := c_readings s |}, None)
  | CCall =>
      match c_cached s with
      | Some t => (s, Some t)
      | None => match c_readings s with [] => (s, None) | t :: r => ({| c_cached := Some t; c_readings := r |}, Some t) end
      end
  end.
