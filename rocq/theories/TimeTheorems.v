(** C47: the time builtins. *)
From Coq Require Import String ZArith List Bool Lia.
From Verif Require Import Base BigIntModel BigIntSpec BigIntProofs DecFacts ValueModel ResolverModel StrModel CollProofs CalModel TimeModel TimeSpec CalProofs TimeProofs DurProofs.
Import ListNotations.
Local Open Scope Z_scope.
Local Open Scope list_scope.

(** A small zone database for the examples. *)
Definition zones1 (z : str) : option (Z -> Z) := if str_eqb z $"UTC" then Some (fun _ => 0) else if str_eqb z $"Europe/Paris" then Some (fun _ => 3600) else None.
Definition ops1 : time_ops := {| z_zone := zones1; z_format := fun _ _ => Some $"Jan 02 03:04:05"; z_format_zone := fun _ _ l => Some (nth (Z.to_nat ((l / one_day + 3) mod 7)) weekdays []) |}.

(** *** The calendar: every day number has exactly one date, and every date that has a number has exactly one. *)
Theorem C47_calendar : forall n, day_number (as_date (civil n)) n /\ (forall d, day_number d n -> d = as_date (civil n)) /\ (forall d n', day_number d n -> day_number d n' -> n = n').
Proof. intro n. split; [apply civil_day|]. split; [intros d; apply day_civil|]. intros d n'. apply day_unique. Qed.
Print Assumptions C47_calendar.
Example C47_calendar_leap_day : day_number {| year := 2024; month := 2; day := 29 |} 19782.
Proof. apply (civil_day 19782). Qed.

(** *** time.clock and time.date decompose an instant, in any zone, so that recomposing the parts gives the instant to the second. *)
Theorem C47_clock_date : forall T x ns zone lay l,
  instant_arg x ns zone lay -> in64 ns -> local_time (z_zone T) zone ns l -> in64 l -> first_whole_day * one_day <= l ->
  exists y mo d n h mi s,
    time_date T x = Ok (RVal (triple y mo d)) /\ time_clock T x = Ok (RVal (triple h mi s)) /\
    day_number {| year := y; month := mo; day := d |} n /\ shows l n h mi s.
Proof.
  intros T x ns zone lay l A B L C W. destruct (date_result T x ns zone lay l A B L C) as (y & mo & d & E1 & D).
  assert (W' : first_whole_day <= l / one_day) by (apply Z.div_le_lower_bound; [reflexivity|lia]).
  destruct (clock_result T x ns zone lay l A B L C W') as (h & mi & s & E2 & S2). exists y, mo, d, (l / one_day), h, mi, s. auto.
Qed.
Print Assumptions C47_clock_date.
Example C47_clock_date_case : time_date ops1 (VArray [VInt (dec 1709164799000000000); VString $"Europe/Paris"]) = Ok (RVal (triple 2024 2 29)) /\
  time_clock ops1 (VArray [VInt (dec 1709164799000000000); VString $"Europe/Paris"]) = Ok (RVal (triple 0 59 59)).
Proof. split; vm_compute; reflexivity. Qed.
Example C47_clock_date_hyp : instant_arg (VArray [VInt (dec 1709164799000000000); VString $"Europe/Paris"]) 1709164799000000000 (Some $"Europe/Paris") false /\
  local_time (z_zone ops1) (Some $"Europe/Paris") 1709164799000000000 1709168399000000000 /\ first_whole_day * one_day <= 1709168399000000000.
Proof. split; [apply ia_zone; discriminate|]. split; [exists (fun _ => 3600); split; vm_compute; reflexivity|vm_compute; discriminate]. Qed.
(** time.date alone needs no exception for the first partial day of the range. *)
Theorem C47_date : forall T x ns zone lay l, instant_arg x ns zone lay -> in64 ns -> local_time (z_zone T) zone ns l -> in64 l ->
  exists y m d n, time_date T x = Ok (RVal (triple y m d)) /\ day_number {| year := y; month := m; day := d |} n /\ n * one_day <= l < (n + 1) * one_day.
Proof.
  intros T x ns zone lay l A B L C. destruct (date_result T x ns zone lay l A B L C) as (y & mo & d & E1 & D). exists y, mo, d, (l / one_day). split; [exact E1|]. split; [exact D|].
  pose proof (Z.div_mod l one_day ltac:(discriminate)). pose proof (Z.mod_pos_bound l one_day eq_refl). lia.
Qed.
Print Assumptions C47_date.
(** time.clock does overflow on that partial day. *)
Theorem C47_clock_first_day_refuted : forall T ns, in64 ns -> ns < first_whole_day * one_day -> time_clock T (VInt (dec ns)) = Ub.
Proof.
  intros T ns B H. destruct (process_instant _ _ _ _ (ia_ns ns) B) as (i & E & E1 & _ & _ & E2). unfold time_clock, with_arg. rewrite E.
  unfold wall_ns. rewrite (E2 eq_refl), E1. cbn [obind]. now rewrite day_time_out.
Qed.
Print Assumptions C47_clock_first_day_refuted.
Example C47_clock_first_day_case : in64 (- 2 ^ 63) /\ - 2 ^ 63 < first_whole_day * one_day.
Proof. unfold in64, first_whole_day, one_day. lia. Qed.
(** An unknown zone is an exception rather than an error value; so is the empty zone of an argument with a layout. *)
Theorem C47_unknown_zone_refuted : forall T x ns z lay, instant_arg x ns (Some z) lay -> in64 ns -> z_zone T z = None ->
  time_clock T x = Throw /\ time_date T x = Throw /\ (forall y, time_diff T x (VInt (dec y)) = Throw \/ ~ in64 y).
Proof.
  intros T x ns z lay A B Z. destruct (process_instant _ _ _ _ A B) as (i & E & E1 & E2 & _). unfold time_clock, time_date, time_diff, with_arg. rewrite E.
  rewrite (wall_unknown T i z E2 Z). split; [reflexivity|]. split; [reflexivity|]. intro y. destruct (int64b y) eqn:Y; [|right; rewrite <- int64b_iff, Y; discriminate]. left.
  apply int64b_iff in Y. destruct (process_instant _ _ _ _ (ia_ns y) Y) as (j & Ej & _). rewrite Ej. unfold instant. unfold zoned in E2. destruct (t_mode i); [discriminate| | |];
    (injection E2 as ->; unfold locate_zone; rewrite Z; reflexivity).
Qed.
Print Assumptions C47_unknown_zone_refuted.
Example C47_unknown_zone_case : instant_arg (VArray [VInt (dec 5); VString []; VString $"RFC3339"]) 5 (Some []) true /\ z_zone ops1 [] = None.
Proof. split; [apply ia_layout|reflexivity]. Qed.
(** Whatever is not an instant is refused. *)
Theorem C47_not_an_instant : forall T x, (forall t l, x = VInt t \/ x = VArray (VInt t :: l) -> exists z, t = dec z) ->
  (forall ns zone lay, instant_arg x ns zone lay -> ~ in64 ns) ->
  exists c, In c [EvalTypeError; EvalBuiltInError] /\ time_clock T x = Ok (RErr c) /\ time_date T x = Ok (RErr c) /\ time_format T x = Ok (RErr c) /\ time_weekday T x = Ok (RErr c).
Proof.
  intros T x W N. assert (K : exists c, In c [EvalTypeError; EvalBuiltInError] /\ process_arg x = inl c).
  { destruct x as [| | |t|t|s|l|l|l|c]; try (exists EvalTypeError; split; [cbn; auto|reflexivity]).
    - destruct (W t [] ltac:(auto)) as [z ->]. exists EvalBuiltInError. split; [cbn; auto|]. cbn [process_arg]. rewrite timestamp_out; [reflexivity|]. apply (N z None false). constructor.
    - destruct l as [|a [|b l]]; try (exists EvalTypeError; split; [cbn; auto|reflexivity]).
      cbn [process_arg]. destruct l as [|c [|d l]]; [| |exists EvalTypeError; split; [cbn; auto|reflexivity]].
      + destruct a as [| | |t|t|s|k|k|k|e]; try (exists EvalTypeError; split; [cbn; auto|reflexivity]). destruct (W t _ (or_intror eq_refl)) as [z ->].
        destruct (int64b z) eqn:Z; [apply int64b_iff in Z; rewrite timestamp_in by exact Z|exists EvalBuiltInError; split; [cbn; auto|]; rewrite timestamp_out; [reflexivity|]; rewrite <- int64b_iff; congruence].
        destruct b as [| | |t'|t'|s|k|k|k|e]; try (exists EvalTypeError; split; [cbn; auto|reflexivity]).
        exfalso. destruct s; [apply (N z None false); [apply ia_pair|exact Z]|eapply (N z); [apply ia_zone; discriminate|exact Z]].
      + destruct a as [| | |t|t|s|k|k|k|e]; try (exists EvalTypeError; split; [cbn; auto|reflexivity]). destruct (W t _ (or_intror eq_refl)) as [z ->].
        destruct (int64b z) eqn:Z; [apply int64b_iff in Z; rewrite timestamp_in by exact Z|exists EvalBuiltInError; split; [cbn; auto|]; rewrite timestamp_out; [reflexivity|]; rewrite <- int64b_iff; congruence].
        destruct b as [| | |t'|t'|s|k|k|k|e]; try (exists EvalTypeError; split; [cbn; auto|reflexivity]).
        destruct c as [| | |t'|t'|s'|k|k|k|e]; try (exists EvalTypeError; split; [cbn; auto|reflexivity]).
        exfalso. eapply (N z); [apply ia_layout|exact Z]. }
  destruct K as (c & I & E). exists c. split; [exact I|]. unfold time_clock, time_date, time_format, time_weekday, with_arg. rewrite E. auto.
Qed.
Print Assumptions C47_not_an_instant.
Example C47_not_an_instant_case : forall ns zone lay, instant_arg (VArray [VString $"now"; VString $"UTC"]) ns zone lay -> ~ in64 ns.
Proof. intros ns zone lay H. inversion H. Qed.

(** *** time.add_date *)
(** Within the years the calendar library can hold, the date is moved by years and months, then by days, and the time of day stays; a result
    outside the range of timestamps is an error. *)
Theorem C47_add_date_partial : forall ns years months days d y m first,
  in64 ns -> first_whole_day * one_day <= ns -> - 2 ^ 31 <= years < 2 ^ 31 -> - 2 ^ 31 <= months < 2 ^ 31 -> in64 days ->
  day_number d (ns / one_day) -> holds_year (year d + years) ->
  12 * y + m = 12 * (year d + years) + month d + months -> 1 <= m <= 12 -> holds_year y ->
  day_number {| year := y; month := m; day := 1 |} first -> in64 (first + (day d - 1) + days) ->
  let t := (first + (day d - 1) + days) * one_day + ns mod one_day in
  (in64 t -> time_add_date (VInt (dec ns)) (VInt (dec years)) (VInt (dec months)) (VInt (dec days)) = Ok (RVal (VInt (dec t)))) /\
  (~ in64 t -> time_add_date (VInt (dec ns)) (VInt (dec years)) (VInt (dec months)) (VInt (dec days)) = Ok (RErr EvalBuiltInError)).
Proof.
  intros ns years months days d y m first B W Ry Rm Bd D Hy E M Hy' F Bf t.
  apply (add_date_result ns years months days d y m first); auto; try (unfold in64; lia). apply Z.div_le_lower_bound; [reflexivity|]. lia.
Qed.
Print Assumptions C47_add_date_partial.
(** 2024-01-31 plus a month is 2024-03-02. *)
Example C47_add_date_case : time_add_date (VInt (dec (19753 * one_day + 7))) (VInt (dec 0)) (VInt (dec 1)) (VInt (dec 0)) = Ok (RVal (VInt (dec (19784 * one_day + 7)))) /\
  day_number {| year := 2024; month := 1; day := 31 |} 19753 /\ day_number {| year := 2024; month := 2; day := 1 |} 19754 /\ day_number {| year := 2024; month := 3; day := 2 |} 19784.
Proof. split; [vm_compute; reflexivity|]. split; [apply (civil_day 19753)|]. split; [apply (civil_day 19754)|apply (civil_day 19784)]. Qed.
(** Adding nothing changes nothing, for every timestamp of a whole day. *)
Theorem C47_add_date_nothing : forall ns, in64 ns -> first_whole_day * one_day <= ns ->
  time_add_date (VInt (dec ns)) (VInt (dec 0)) (VInt (dec 0)) (VInt (dec 0)) = Ok (RVal (VInt (dec ns))).
Proof. intros ns B W. apply (add_date_wraps ns 0 B); [apply Z.div_le_lower_bound; [reflexivity|lia]|unfold in64; lia]. Qed.
Print Assumptions C47_add_date_nothing.
(** Years are counted modulo 65536: adding that many changes nothing, where an error is due. *)
Theorem C47_add_date_years_refuted : forall ns k, in64 ns -> first_whole_day * one_day <= ns -> in64 (k * 2 ^ 16) ->
  time_add_date (VInt (dec ns)) (VInt (dec (k * 2 ^ 16))) (VInt (dec 0)) (VInt (dec 0)) = Ok (RVal (VInt (dec ns))).
Proof. intros ns k B W K. apply add_date_wraps; auto. apply Z.div_le_lower_bound; [reflexivity|lia]. Qed.
Print Assumptions C47_add_date_years_refuted.
Example C47_add_date_years_case : in64 0 /\ first_whole_day * one_day <= 0 /\ in64 (2 ^ 16 * 2 ^ 16).
Proof. unfold in64, first_whole_day, one_day. lia. Qed.
(** So many days that their count overflows are undefined behaviour. *)
Theorem C47_add_date_days_refuted : time_add_date (VInt (dec (2 * one_day))) (VInt (dec 0)) (VInt (dec 0)) (VInt (dec (2 ^ 63 - 1))) = Ub.
Proof. vm_compute. reflexivity. Qed.
Print Assumptions C47_add_date_days_refuted.

(** *** time.diff *)
(** The six parts add up to the difference in whole seconds, with years of 365 days and months of 2629746 seconds, and all but the months are
    in range. *)
Theorem C47_diff_partial : forall T x y a b za zb la lb,
  instant_arg x a za la -> instant_arg y b zb lb -> in64 a -> in64 b -> known_zone (z_zone T) za -> known_zone (z_zone T) zb -> Z.abs (a - b) < 2 ^ 63 ->
  exists Y M D h m s f, time_diff T x y = Ok (RVal (VArray (map (fun z => VInt (dec z)) [Y; M; D; h; m; s]))) /\
    0 <= Y /\ 0 <= M /\ 0 <= D <= 30 /\ 0 <= h < 24 /\ 0 <= m < 60 /\ 0 <= s < 60 /\ 0 <= f < 10 ^ 9 /\
    Z.abs (a - b) = (Y * 365 * 86400 + M * 2629746 + D * 86400 + h * 3600 + m * 60 + s) * 10 ^ 9 + f.
Proof.
  intros T x y a b za zb la lb A B Ra Rb Ka Kb H. rewrite (diff_result T x y a b za zb la lb) by assumption. rewrite checked_in by (unfold in64; lia). cbn [obind]. cbv zeta.
  change second_ns with (10 ^ 9). set (d := Z.abs (a - b)) in *. pose proof (Z.div_mod d (10 ^ 9) ltac:(discriminate)) as D0. pose proof (Z.mod_pos_bound d (10 ^ 9) eq_refl) as B0.
  set (s0 := d / 10 ^ 9) in *. assert (P0 : 0 <= s0) by (apply Z.div_pos; [unfold d|]; lia).
  pose proof (Z.div_mod s0 31556952 ltac:(discriminate)) as D1. pose proof (Z.mod_pos_bound s0 31556952 eq_refl) as B1. set (Y := s0 / 31556952) in *.
  assert (P1 : 0 <= Y) by (apply Z.div_pos; lia). replace (Y * 365 * 24 * 60 * 60) with (Y * 31536000) by lia. set (s1 := s0 - Y * 31536000) in *.
  assert (P1' : 0 <= s1) by (unfold s1; lia). pose proof (Z.div_mod s1 2629746 ltac:(discriminate)) as D2. pose proof (Z.mod_pos_bound s1 2629746 eq_refl) as B2. set (M := s1 / 2629746) in *.
  assert (P2 : 0 <= M) by (apply Z.div_pos; lia). set (s2 := s1 - M * 2629746) in *. pose proof (Z.div_mod s2 86400 ltac:(discriminate)) as D3. pose proof (Z.mod_pos_bound s2 86400 eq_refl) as B3.
  set (D := s2 / 86400) in *. set (s3 := s2 - D * 86400) in *. pose proof (Z.div_mod s3 3600 ltac:(discriminate)) as D4. pose proof (Z.mod_pos_bound s3 3600 eq_refl) as B4.
  set (h := s3 / 3600) in *. set (s4 := s3 - h * 3600) in *. pose proof (Z.div_mod s4 60 ltac:(discriminate)) as D5. pose proof (Z.mod_pos_bound s4 60 eq_refl) as B5. set (m := s4 / 60) in *.
  exists Y, M, D, h, m, (s4 - m * 60), (d mod 10 ^ 9). split; [reflexivity|]. clearbody Y M D h m s0. clear - D0 B0 P0 P1 P2 D1 B1 D2 B2 D3 B3 D4 B4 D5 B5.
  unfold s4, s3, s2, s1 in *. repeat split; lia.
Qed.
Print Assumptions C47_diff_partial.
Example C47_diff_case : time_diff ops1 (VInt (dec 0)) (VArray [VInt (dec (800 * one_day + 3661 * 10 ^ 9)); VString $"UTC"]) = Ok (RVal (VArray (map (fun z => VInt (dec z)) [2; 2; 9; 4; 2; 49]))) /\
  known_zone (z_zone ops1) (Some $"UTC").
Proof. split; [vm_compute; reflexivity|discriminate]. Qed.
(** The order of the instants does not matter. *)
Theorem C47_diff_symmetric : forall T x y a b za zb la lb,
  instant_arg x a za la -> instant_arg y b zb lb -> in64 a -> in64 b -> known_zone (z_zone T) za -> known_zone (z_zone T) zb -> time_diff T x y = time_diff T y x.
Proof.
  intros T x y a b za zb la lb A B Ra Rb Ka Kb. rewrite (diff_result T x y a b za zb la lb), (diff_result T y x b a zb za lb la) by assumption.
  replace (Z.abs (b - a)) with (Z.abs (a - b)) by lia. reflexivity.
Qed.
Print Assumptions C47_diff_symmetric.
(** A calendar year is not reported as a year, and there can be twelve months and more. *)
Theorem C47_diff_year_refuted : forall T, day_number {| year := 1971; month := 1; day := 1 |} 365 /\ day_number {| year := 1970; month := 1; day := 1 |} 0 /\
  time_diff T (VInt (dec 0)) (VInt (dec (365 * one_day))) = Ok (RVal (VArray (map (fun z => VInt (dec z)) [0; 11; 30; 4; 39; 54]))).
Proof. intro T. split; [apply (civil_day 365)|]. split; [apply dn_epoch|vm_compute; reflexivity]. Qed.
Print Assumptions C47_diff_year_refuted.
Theorem C47_diff_months_refuted : forall T, exists a b Y M l, in64 a /\ in64 b /\
  time_diff T (VInt (dec a)) (VInt (dec b)) = Ok (RVal (VArray (VInt (dec Y) :: VInt (dec M) :: l))) /\ 12 <= M.
Proof.
  intro T. exists 0, ((291 * 31556952 - 1) * 10 ^ 9), 290, 14. eexists. split; [unfold in64; lia|]. split; [unfold in64; lia|]. split; [vm_compute; reflexivity|lia].
Qed.
Print Assumptions C47_diff_months_refuted.
(** Instants too far apart overflow. *)
Theorem C47_diff_far_refuted : forall T a b, in64 a -> in64 b -> 2 ^ 63 <= Z.abs (a - b) -> time_diff T (VInt (dec a)) (VInt (dec b)) = Ub.
Proof.
  intros T a b A B H. rewrite (diff_result T _ _ a b None None false false) by (auto using ia_ns; exact I). rewrite checked_out; [reflexivity|]. unfold in64. lia.
Qed.
Print Assumptions C47_diff_far_refuted.
Example C47_diff_far_case : in64 (- 2 ^ 62 - 1) /\ in64 (2 ^ 62) /\ 2 ^ 63 <= Z.abs (- 2 ^ 62 - 1 - 2 ^ 62).
Proof. unfold in64. lia. Qed.

(** *** time.format *)
(** Without zone and layout the text shows the date, the time of day and the nanoseconds. *)
Theorem C47_format : forall T ns, in64 ns -> exists y mo d h mi s f n ty tmo td th tmi ts tf,
  time_format T (VInt (dec ns)) = Ok (RVal (VString (ty ++ $"-" ++ tmo ++ $"-" ++ td ++ $"T" ++ th ++ $":" ++ tmi ++ $":" ++ ts ++ $"." ++ tf ++ $"Z"))) /\
  field 4 y ty /\ field 2 mo tmo /\ field 2 d td /\ field 2 h th /\ field 2 mi tmi /\ field 2 s ts /\ field 9 f tf /\
  day_number {| year := y; month := mo; day := d |} n /\ shows ns n h mi s /\ ns = (((n * 24 + h) * 60 + mi) * 60 + s) * 10 ^ 9 + f.
Proof.
  intros T ns B. destruct (process_instant _ _ _ _ (ia_ns ns) B) as (i & E & E1 & _ & _ & E2). unfold time_format, with_arg. rewrite E. unfold info_string. rewrite (E2 eq_refl), E1. cbn [obind].
  unfold iso_text. rewrite day_ns_eq. pose proof (civil_years ns B) as Y. pose proof (civil_valid (ns / one_day)) as V. pose proof (civil_day (ns / one_day)) as D.
  pose proof (Z.mod_pos_bound ns one_day eq_refl) as M. pose proof (Z.div_mod ns one_day ltac:(discriminate)) as DM.
  pose proof (clock_parts (ns mod one_day) (ns / one_day) M) as C. set (t := ns mod one_day) in *. set (n := ns / one_day) in *.
  replace (n * one_day + t) with ns in C by lia. pose proof C as (C1 & C2 & C3 & f & Cf & C4).
  assert (F : t mod second_ns = f).
  { change second_ns with (10 ^ 9). set (h := t / hour_ns) in *. set (mi := t mod hour_ns / minute_ns) in *. set (s := t mod minute_ns / second_ns) in *.
    replace t with (f + ((h * 60 + mi) * 60 + s) * 10 ^ 9) by (unfold one_day in *; lia). rewrite Z.mod_add by discriminate. apply Z.mod_small. exact Cf. }
  destruct V as (k & Vm & Vd). pose proof (mlen_in _ _ _ Vm) as [Vm1 Vm2]. cbn [as_date year month day] in *. assert (Kd : k <= 31) by (destruct Vm; lia).
  exists (y_year (civil n)), (y_month (civil n)), (y_day (civil n)), (t / hour_ns), (t mod hour_ns / minute_ns), (t mod minute_ns / second_ns), (t mod second_ns), n.
  do 7 eexists. split; [reflexivity|]. rewrite F.
  split; [apply pad0_field; [change (p10 4) with 10000; lia|lia]|]. split; [apply pad0_field; [change (p10 2) with 100; lia|lia]|]. split; [apply pad0_field; [change (p10 2) with 100; lia|lia]|].
  split; [apply pad0_field; [change (p10 2) with 100; lia|lia]|]. split; [apply pad0_field; [change (p10 2) with 100; lia|lia]|]. split; [apply pad0_field; [change (p10 2) with 100; lia|lia]|].
  split; [apply pad0_field; [change (p10 9) with (10 ^ 9); lia|lia]|]. split; [exact D|]. split; [exact C|exact C4].
Qed.
Print Assumptions C47_format.
Example C47_format_case : time_format ops1 (VInt (dec 1709164799000000123)) = Ok (RVal (VString $"2024-02-28T23:59:59.000000123Z")).
Proof. vm_compute. reflexivity. Qed.
(** A layout with a fraction shows the whole timestamp in its place: ten digits and more where nine are due. *)
Theorem C47_format_fraction_refuted : forall T ns zone off s, in64 ns -> 10 ^ 9 <= ns -> zone <> [] -> z_zone T zone = Some off ->
  (forall a b, z_format_zone T $"%b %d %H:%M:%S" a b = Some s) -> length s = 15%nat ->
  time_format T (VArray [VInt (dec ns); VString zone; VString $"StampNano"]) = Ok (RVal (VString (s ++ $"." ++ dec ns))) /\ (9 < length (dec ns))%nat.
Proof.
  intros T ns zone off s B H N Z F L. assert (Lg : (9 < length (dec ns))%nat) by (apply dec_long; exact H). split; [|exact Lg].
  unfold time_format, with_arg. cbn [process_arg]. rewrite (timestamp_in ns B).
  replace (get_format $"StampNano") with ($"%b %d %H:%M:%S", (Nano, Some 15%nat)) by (vm_compute; reflexivity). cbv beta iota.
  unfold info_string. cbn [t_mode t_zone t_format t_ns t_resolution t_fraction]. destruct zone as [|c zone]; [congruence|]. unfold locate_zone. rewrite Z. cbn [obind]. rewrite F. cbn [formatted obind].
  unfold with_fraction, insert_fraction, from. cbn [t_resolution t_fraction t_ns]. rewrite L. change (Nat.ltb 15 15) with false. cbn [obind].
  rewrite pad0_long by lia. unfold str, byte in *. rewrite <- L, firstn_all, skipn_all, app_nil_r. reflexivity.
Qed.
Print Assumptions C47_format_fraction_refuted.
Example C47_format_fraction_case : time_format {| z_zone := zones1; z_format := fun _ _ => None; z_format_zone := fun _ _ _ => Some $"Jan 01 00:00:01" |}
  (VArray [VInt (dec 1500000000); VString $"UTC"; VString $"StampNano"]) = Ok (RVal (VString $"Jan 01 00:00:01.1500000000")).
Proof. vm_compute. reflexivity. Qed.

(** *** time.weekday *)
(** Day 0 is a Thursday, and the weekdays follow each other; a layout must not be given. *)
Definition names_days (T : time_ops) : Prop := forall a l, z_format_zone T $"%A" a l = Some (nth (Z.to_nat ((l / one_day + 3) mod 7)) weekdays []).
Theorem C47_weekday : forall T x ns zone off n, names_days T -> instant_arg x ns zone false -> in64 ns ->
  z_zone T (match zone with Some z => z | None => $"UTC" end) = Some off ->
  let s := ns / 10 ^ 9 in
  n * 86400 <= s + off (s * 10 ^ 9) < (n + 1) * 86400 ->
  time_weekday T x = Ok (RVal (VString (nth (Z.to_nat ((n + 3) mod 7)) weekdays []))).
Proof.
  intros T x ns zone off n Nd A B Z s H. destruct (process_instant _ _ _ _ A B) as (i & E & E1 & E2 & E3 & _). destruct (E3 eq_refl) as [R Zn].
  unfold time_weekday, with_arg. rewrite E. unfold info_string. cbn [t_mode t_zone t_format t_ns t_resolution t_fraction]. rewrite R.
  assert (Q : match t_zone i with [] => $"UTC" | z => z end = match zone with Some z => z | None => $"UTC" end).
  { rewrite Zn. destruct zone as [[|c z]|]; [|reflexivity|reflexivity]. inversion A; subst; congruence. }
  rewrite Q. unfold locate_zone. rewrite Z. cbn [obind]. rewrite E1. change second_ns with (10 ^ 9). fold s. rewrite Nd. cbn [formatted obind with_fraction t_resolution].
  do 6 f_equal. f_equal. f_equal. symmetry. apply (Z.div_unique _ _ n (((s + off (s * 10 ^ 9)) - n * 86400) * 10 ^ 9)); [|unfold one_day; lia]. left. unfold one_day. lia.
Qed.
Print Assumptions C47_weekday.
Example C47_weekday_case : names_days ops1 /\ time_weekday ops1 (VInt (dec (19782 * one_day))) = Ok (RVal (VString $"Thursday")).
Proof. split; [intros a l; reflexivity|vm_compute; reflexivity]. Qed.
(** With a layout that has a fraction, even the valid RFC3339Nano, it throws. *)
Theorem C47_weekday_layout_refuted : forall T ns zone off, names_days T -> in64 ns -> zone <> [] -> z_zone T zone = Some off ->
  time_weekday T (VArray [VInt (dec ns); VString zone; VString $"RFC3339Nano"]) = Throw.
Proof.
  intros T ns zone off Nd B N Z. unfold time_weekday, with_arg. cbn [process_arg]. rewrite (timestamp_in ns B).
  replace (get_format $"RFC3339Nano") with ($"%Y-%m-%dT%H:%M:%S%Ez", (NanoZero, Some 19%nat)) by (vm_compute; reflexivity). cbv beta iota.
  unfold info_string. cbn [t_mode t_zone t_format t_ns t_resolution t_fraction]. destruct zone as [|c zone]; [congruence|]. unfold locate_zone. rewrite Z. cbn [obind]. rewrite Nd. cbn [formatted obind].
  set (k := Z.to_nat _). unfold with_fraction, insert_fraction, from. cbn [t_resolution t_fraction t_ns].
  assert (L : (length (nth k weekdays []) < 19)%nat).
  { clearbody k. do 7 (destruct k as [|k]; [vm_compute; lia|]). change (nth (7 + k) weekdays []) with (nth k (@nil str) []). destruct k; cbn; lia. }
  apply Nat.ltb_lt in L. unfold str, byte in *. rewrite L. reflexivity.
Qed.
Print Assumptions C47_weekday_layout_refuted.
Example C47_weekday_layout_case : time_weekday ops1 (VArray [VInt (dec 0); VString $"UTC"; VString $"RFC3339Nano"]) = Throw.
Proof. vm_compute. reflexivity. Qed.

(** *** time.parse_duration_ns *)
(** Durations made of whole terms of moderate size (at most 2^53 nanoseconds each) are parsed exactly. *)
Theorem C47_duration_exact_partial : forall s ts, duration_text s ts -> s <> [] -> Forall modest ts ->
  (sums_fit 0 (map exact ts) -> time_parse_duration (VString s) = Ok (RVal (VInt (dec (total (map exact ts)))))) /\
  (~ sums_fit 0 (map exact ts) -> time_parse_duration (VString s) = Ok (RErr EvalBuiltInError)).
Proof.
  intros s ts D Ne M. apply parse_ok with ts; auto. clear Ne. induction D as [|s1 t s' ts T D IH]; [constructor|]. inversion M as [|? ? M1 M2]; subst. cbn [map]. constructor; [|auto].
  unfold amount, exact. destruct M1 as (X & M1 & M3). destruct T as (g & m & e & u & i & f & x & _ & _ & Mt & _ & U & Em & _).
  assert (Mp : 0 <= t_mant t). { rewrite Em, number_zval. apply (mant_nonneg _ _ _ Mt). }
  assert (Up : 0 < t_unit t) by (inversion U; lia).
  rewrite X, term_exact by lia. f_equal. lia.
Qed.
Print Assumptions C47_duration_exact_partial.
Example C47_duration_exact_case : exists ts, duration_text $"1h-30m" ts /\ Forall modest ts /\ sums_fit 0 (map exact ts) /\ time_parse_duration (VString $"1h-30m") = Ok (RVal (VInt (dec (1800 * 10 ^ 9)))).
Proof.
  exists [{| t_sign := 1; t_mant := 1; t_exp := 0; t_unit := 3600 * 10 ^ 9 |}; {| t_sign := -1; t_mant := 30; t_exp := 0; t_unit := 60 * 10 ^ 9 |}]. split; [|split; [|split]].
  - apply (d_cons $"1h" _ $"-30m"); [|apply (d_cons $"-30m" _ []); [|constructor]].
    + exists [], $"1", [], $"h", $"1", [], 0. split; [reflexivity|]. split; [constructor|]. split; [apply m_int; split; [discriminate|repeat constructor; discriminate]|]. split; [constructor|]. split; [constructor|]. split; reflexivity.
    + exists $"-", $"30", [], $"m", $"30", [], 0. split; [reflexivity|]. split; [constructor|]. split; [apply m_int; split; [discriminate|repeat constructor; discriminate]|]. split; [constructor|]. split; [constructor|]. split; reflexivity.
  - constructor; [|constructor; [|constructor]]; unfold modest; cbn; lia.
  - cbn [map sums_fit]. unfold exact, in64. cbn [t_sign t_mant t_unit]. lia.
  - vm_compute. reflexivity.
Qed.
(** In general every term is right to one nanosecond and one part in 2^51. *)
Theorem C47_duration_close : forall s ts, duration_text s ts -> s <> [] -> Forall moderate ts ->
  exists l, Forall2 (fun t a => exists n d b, term_value t n d /\ a = t_sign t * b /\ close b n d) ts l /\
    (sums_fit 0 l -> time_parse_duration (VString s) = Ok (RVal (VInt (dec (total l))))) /\
    (~ sums_fit 0 l -> time_parse_duration (VString s) = Ok (RErr EvalBuiltInError)).
Proof.
  intros s ts D Ne M. assert (K : exists l, Forall2 (fun t a => amount t = Some a /\ exists n d b, term_value t n d /\ a = t_sign t * b /\ close b n d) ts l).
  { clear Ne. induction D as [|s1 t s' ts T D IH]; [exists []; constructor|]. inversion M as [|? ? M1 M2]; subst. destruct (IH M2) as [l F]. clear IH.
    destruct T as (g & m & e & u & i & f & x & _ & G & Mt & _ & U & Em & _). assert (Mp : 0 <= t_mant t) by (rewrite Em, number_zval; apply (mant_nonneg _ _ _ Mt)).
    assert (Up : 0 < t_unit t) by (inversion U; lia). assert (Sg : t_sign t <> 0) by (inversion G; lia).
    set (n0 := if 0 <=? t_exp t then t_mant t * 10 ^ t_exp t else t_mant t). set (d0 := if 0 <=? t_exp t then 1 else 10 ^ (- t_exp t)).
    assert (Dp : 0 < d0) by (unfold d0; destruct (Z.leb_spec 0 (t_exp t)); [lia|apply Z.pow_pos_nonneg; lia]).
    assert (V : (0 <= t_exp t /\ n0 = t_mant t * 10 ^ t_exp t /\ d0 = 1) \/ (t_exp t < 0 /\ n0 = t_mant t /\ d0 = 10 ^ (- t_exp t))) by (unfold n0, d0; destruct (Z.leb_spec 0 (t_exp t)); auto).
    assert (TV : term_value t (n0 * t_unit t) d0) by (unfold term_value; destruct V as [(? & -> & ->)|(? & -> & ->)]; auto).
    assert (TVu : forall n d, term_value t n d -> n = n0 * t_unit t /\ d = d0) by (unfold term_value; intros n d; destruct V as [(? & -> & ->)|(? & -> & ->)]; intros [(? & -> & ->)|(? & -> & ->)]; split; try lia; reflexivity).
    assert (Md : t_mant t = 0 \/ (n0 * t_unit t <= d0 * 2 ^ 62 /\ d0 <= n0 * 2 ^ 1021)).
    { destruct M1 as [M1|(n & d & M1 & M3 & M4)]; [now left|]. right. destruct (TVu n d M1) as [-> ->]. split; [exact M3|]. generalize dependent (2 ^ 1021). intros p M4. nia. }
    destruct (term_accepts (t_sign t) (t_mant t) (t_exp t) (t_unit t) n0 d0 Mp Up Dp V Md) as [a Ha]. exists (t_sign t * a :: l). constructor; [|exact F].
    split; [exact Ha|]. exists (n0 * t_unit t), d0, a. split; [exact TV|]. split; [reflexivity|].
    apply (term_close (t_sign t) (t_mant t) (t_exp t) (t_unit t) a n0 d0 Mp Up Dp V); auto. destruct Md as [Md|[_ Md]]; [now left|]. right. unfold big.
    replace (2 ^ 1022) with (2 ^ 1021 * 2) by (replace 1022 with (1021 + 1) by reflexivity; rewrite pow_split by lia; reflexivity).
    assert (0 < 2 ^ 1021) by (apply Z.pow_pos_nonneg; lia). generalize dependent (2 ^ 1021). intros p Md Hp. nia. }
  destruct K as [l F]. exists l. split; [|apply parse_ok with ts; auto].
  - clear - F. induction F as [|t a ts l [_ H] F IH]; constructor; auto.
  - clear - F. induction F as [|t a ts l [H _] F IH]; constructor; auto.
Qed.
Print Assumptions C47_duration_close.
Example C47_duration_close_case : moderate {| t_sign := 1; t_mant := 41; t_exp := -1; t_unit := 10 ^ 9 |}.
Proof. right. exists (41 * 10 ^ 9), 10. split; [right; cbn; split; [lia|split; reflexivity]|]. split; apply Z.leb_le; vm_compute; reflexivity. Qed.
(** But not exactly, even when the value is a whole number of nanoseconds: 4.1s loses one. *)
Theorem C47_duration_decimal_refuted : time_parse_duration (VString $"4.1s") = Ok (RVal (VInt (dec (41 * 10 ^ 8 - 1)))) /\
  time_parse_duration (VString $"2.3h") = Ok (RVal (VInt (dec (23 * 360 * 10 ^ 9 - 1)))) /\
  time_parse_duration (VString $"9007199254740993ns") = Ok (RVal (VInt (dec 9007199254740992))).
Proof. split; [vm_compute; reflexivity|]. split; vm_compute; reflexivity. Qed.
Print Assumptions C47_duration_decimal_refuted.
(** Only durations are accepted, and the others are an error. *)
Theorem C47_duration_rejects : forall s, (s = [] \/ ~ bare_zero s /\ forall ts, ~ duration_text s ts) -> time_parse_duration (VString s) = Ok (RErr EvalBuiltInError).
Proof.
  intros s H. unfold time_parse_duration, do_parse_duration. destruct s as [|c s]; [reflexivity|]. destruct H as [H|[Z N]]; [discriminate|].
  assert (E : existsb (str_eqb (c :: s)) [$"0"; $"+0"; $"-0"] = false).
  { destruct (existsb _ _) eqn:E; [|reflexivity]. exfalso. apply Z. apply existsb_exists in E as (z & I & E). apply str_eqb_eq in E. subst z. exact I. }
  rewrite E. destruct (terms_inv (length (c :: s)) (c :: s) 0 (le_n _)) as (r & R & K). rewrite R. cbn [obind]. destruct r as [z|]; [|reflexivity].
  exfalso. destruct (K ltac:(discriminate)) as [ts D]. apply (N ts D).
Qed.
Print Assumptions C47_duration_rejects.
Theorem C47_duration_zero : forall s, bare_zero s -> time_parse_duration (VString s) = Ok (RVal (VInt (dec 0))).
Proof. intros s H. unfold bare_zero in H. cbn [In] in H. destruct H as [<-|[<-|[<-|[]]]]; vm_compute; reflexivity. Qed.
Print Assumptions C47_duration_zero.
(** A leading plus sign, which Go accepts, is refused. *)
Example C47_duration_plus : time_parse_duration (VString $"+5s") = Ok (RErr EvalBuiltInError).
Proof. vm_compute. reflexivity. Qed.

(** *** time.now_ns *)
(** Within a query all calls agree, whatever the clock does; after the query the clock is read anew. *)
Fixpoint run_clock (s : clock_state) (l : list clock_op) : clock_state * list Z :=
  match l with
  | [] => (s, [])
  | o :: l => let '(s', r) := clock_step o s in let '(s'', rs) := run_clock s' l in (s'', match r with Some t => t :: rs | None => rs end)
  end.
Theorem C47_now_constant : forall t readings k, k <> 0%nat ->
  run_clock {| c_cached := None; c_readings := t :: readings |} (repeat CCall k ++ [CClear]) = ({| c_cached := None; c_readings := readings |}, repeat t k).
Proof.
  intros t readings k Hk. destruct k as [|k]; [congruence|]. cbn [repeat app run_clock clock_step c_cached c_readings].
  assert (G : run_clock {| c_cached := Some t; c_readings := readings |} (repeat CCall k ++ [CClear]) = ({| c_cached := None; c_readings := readings |}, repeat t k)).
  { clear Hk. induction k as [|k IH]; [reflexivity|]. cbn [repeat app run_clock clock_step c_cached]. now rewrite IH. }
  now rewrite G.
Qed.
Print Assumptions C47_now_constant.
