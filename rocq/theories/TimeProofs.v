(** Lemmas about the time builtins. *)
From Coq Require Import String ZArith List Bool Lia.
From Verif Require Import Base BigIntModel BigIntSpec BigIntProofs DecFacts ValueModel ResolverModel StrModel CollSpec CollProofs CalModel TimeModel TimeSpec CalProofs.
Import ListNotations.
Local Open Scope Z_scope.
Local Open Scope list_scope.

(** ** Arguments *)
Lemma int64b_in z : in64 z -> int64b z = true.
Proof. unfold in64, int64b, int64_min, int64_max. intro H. apply andb_true_iff. split; apply Z.leb_le; lia. Qed.
Lemma int64b_iff z : int64b z = true <-> in64 z.
Proof. unfold in64, int64b, int64_min, int64_max. rewrite andb_true_iff, !Z.leb_le. lia. Qed.
Lemma int64b_out z : ~ in64 z -> int64b z = false.
Proof. rewrite <- int64b_iff. now destruct (int64b z). Qed.
Lemma checked_in z : in64 z -> checked z = Ok z.
Proof. intro H. unfold checked. now rewrite int64b_in. Qed.
Lemma checked_out z : ~ in64 z -> checked z = Ub.
Proof. intro H. unfold checked. now rewrite int64b_out. Qed.
Lemma timestamp_in z : in64 z -> get_timestamp (dec z) = Some z.
Proof.
  intro H. unfold get_timestamp. rewrite bi_lt_spec. replace (int64_max <? z) with false by (symmetry; apply Z.ltb_ge; unfold int64_max; unfold in64 in H; lia).
  apply to_int_in. exact H.
Qed.
Lemma timestamp_out z : ~ in64 z -> get_timestamp (dec z) = None.
Proof. intro H. unfold get_timestamp. rewrite bi_lt_spec. destruct (_ <? _); [reflexivity|]. apply to_int_out. exact H. Qed.
Definition zoned (i : time_info) : option str := match t_mode i with MTime => None | _ => Some (t_zone i) end.
Lemma process_instant x ns zone lay : instant_arg x ns zone lay -> in64 ns -> exists i, process_arg x = inr i /\ t_ns i = ns /\ zoned i = zone /\
  (lay = false -> t_resolution i = Seconds /\ t_zone i = match zone with Some z => z | None => [] end) /\ (x = VInt (dec ns) -> t_mode i = MTime).
Proof.
  intros [n|n|n z H|n z l] B; cbn [process_arg]; rewrite (timestamp_in n B).
  - eexists. split; [reflexivity|]. cbn. repeat split; auto.
  - eexists. split; [reflexivity|]. cbn. repeat split; auto; try discriminate.
  - eexists. split; [reflexivity|]. destruct z; [congruence|]. cbn. repeat split; auto; try discriminate.
  - destruct (get_format l) as [f [r k]]. eexists. split; [reflexivity|]. destruct z; cbn; repeat split; auto; try discriminate.
Qed.
Lemma wall_local T i l : local_time (z_zone T) (zoned i) (t_ns i) l -> in64 l -> wall_ns T i = Ok l.
Proof.
  unfold wall_ns, zoned, local_time, local_ns, locate_zone. destruct (t_mode i); [intros -> _; reflexivity| | |];
    (intros (off & E & ->) H; rewrite E; cbn [obind]; now rewrite checked_in).
Qed.
Lemma wall_unknown T i z : zoned i = Some z -> z_zone T z = None -> wall_ns T i = Throw.
Proof. unfold wall_ns, zoned, local_ns, locate_zone. destruct (t_mode i); [discriminate| | |]; (intros H E; injection H as ->; now rewrite E). Qed.
Lemma day_ns_eq : day_ns = one_day.
Proof. reflexivity. Qed.
Lemma day_time_in ns : in64 ns -> first_whole_day <= ns / one_day -> day_time ns = Ok (ns mod one_day).
Proof.
  intros B H. unfold day_time. rewrite day_ns_eq. pose proof (Z.div_mod ns one_day ltac:(discriminate)) as D. pose proof (Z.mod_pos_bound ns one_day eq_refl) as M.
  rewrite checked_in. { cbn [obind]. f_equal. lia. } unfold in64, first_whole_day, one_day in *. lia.
Qed.
Lemma day_time_out ns : ns < first_whole_day * one_day -> day_time ns = Ub.
Proof.
  intros H. unfold day_time. rewrite day_ns_eq. rewrite checked_out; [reflexivity|].
  assert (ns / one_day < first_whole_day) by (apply Z.div_lt_upper_bound; [reflexivity|]; unfold first_whole_day, one_day in *; lia).
  unfold in64, first_whole_day, one_day in *. lia.
Qed.
Lemma clock_parts t n : 0 <= t < one_day -> shows (n * one_day + t) n (t / hour_ns) (t mod hour_ns / minute_ns) (t mod minute_ns / second_ns).
Proof.
  intro H. unfold shows. change hour_ns with 3600000000000. change minute_ns with 60000000000. change second_ns with 1000000000.
  pose proof (Z.div_mod t 3600000000000 ltac:(lia)). pose proof (Z.mod_pos_bound t 3600000000000 ltac:(lia)).
  set (u := t mod 3600000000000) in *. assert (E : t mod 60000000000 = u mod 60000000000).
  { rewrite H0. replace (3600000000000 * (t / 3600000000000) + u) with (u + (60 * (t / 3600000000000)) * 60000000000) by lia. now rewrite Z.mod_add. }
  rewrite E. pose proof (Z.div_mod u 60000000000 ltac:(lia)). pose proof (Z.mod_pos_bound u 60000000000 ltac:(lia)).
  set (v := u mod 60000000000) in *. pose proof (Z.div_mod v 1000000000 ltac:(lia)). pose proof (Z.mod_pos_bound v 1000000000 ltac:(lia)).
  unfold one_day in *. repeat split; try (apply Z.div_pos; lia); try (apply Z.div_lt_upper_bound; lia).
  exists (v mod 1000000000). split; [lia|]. lia.
Qed.
Lemma clock_result T x ns zone lay l : instant_arg x ns zone lay -> in64 ns -> local_time (z_zone T) zone ns l -> in64 l -> first_whole_day <= l / one_day ->
  exists h m s, time_clock T x = Ok (RVal (triple h m s)) /\ shows l (l / one_day) h m s.
Proof.
  intros A B L C W. destruct (process_instant _ _ _ _ A B) as (i & E & E1 & E2 & _). unfold time_clock, with_arg. rewrite E. subst ns zone.
  rewrite (wall_local T i l L C). cbn [obind]. rewrite day_time_in by assumption. cbn [obind].
  do 3 eexists. split; [reflexivity|]. pose proof (Z.div_mod l one_day ltac:(discriminate)) as D. rewrite D at 1.
  replace (one_day * (l / one_day)) with (l / one_day * one_day) by lia. apply clock_parts. apply Z.mod_pos_bound. reflexivity.
Qed.
Lemma date_result T x ns zone lay l : instant_arg x ns zone lay -> in64 ns -> local_time (z_zone T) zone ns l -> in64 l ->
  exists y m d, time_date T x = Ok (RVal (triple y m d)) /\ day_number {| year := y; month := m; day := d |} (l / one_day).
Proof.
  intros A B L C. destruct (process_instant _ _ _ _ A B) as (i & E & E1 & E2 & _). unfold time_date, with_arg. rewrite E. subst ns zone.
  rewrite (wall_local T i l L C). cbn [obind]. do 3 eexists. split; [reflexivity|]. rewrite day_ns_eq. apply (civil_day (l / one_day)).
Qed.

(** ** Adding dates *)
Lemma wrap16_id y : holds_year y -> wrap16 y = y.
Proof. unfold wrap16, holds_year. intro H. rewrite Z.mod_small; lia. Qed.
Lemma wrap32_id z : - 2 ^ 31 <= z < 2 ^ 31 -> wrap32 z = z.
Proof. unfold wrap32. intro H. rewrite Z.mod_small; lia. Qed.
Lemma year_month_unique y m y' m' : 12 * y + m = 12 * y' + m' -> 1 <= m <= 12 -> 1 <= m' <= 12 -> y = y' /\ m = m'.
Proof. lia. Qed.
Lemma civil_parts n d : day_number d n -> y_year (civil n) = year d /\ y_month (civil n) = month d /\ y_day (civil n) = day d /\ 1 <= month d <= 12.
Proof.
  intro H. pose proof (civil_valid n) as V. apply day_civil in H. subst d. unfold as_date. cbn [year month day]. repeat split; auto;
  destruct V as (k & V & _); apply mlen_in in V; cbn [as_date year month day] in V; lia.
Qed.
Lemma add_date_result ns years months days d y m first : in64 ns -> first_whole_day <= ns / one_day -> in64 years -> in64 months -> in64 days ->
  - 2 ^ 31 <= years < 2 ^ 31 -> - 2 ^ 31 <= months < 2 ^ 31 ->
  day_number d (ns / one_day) -> holds_year (year d + years) -> 12 * y + m = 12 * (year d + years) + month d + months -> 1 <= m <= 12 -> holds_year y ->
  day_number {| year := y; month := m; day := 1 |} first -> in64 (first + (day d - 1) + days) ->
  let t := (first + (day d - 1) + days) * one_day + ns mod one_day in
  (in64 t -> time_add_date (VInt (dec ns)) (VInt (dec years)) (VInt (dec months)) (VInt (dec days)) = Ok (RVal (VInt (dec t)))) /\
  (~ in64 t -> time_add_date (VInt (dec ns)) (VInt (dec years)) (VInt (dec months)) (VInt (dec days)) = Ok (RErr EvalBuiltInError)).
Proof.
  intros B W By Bm Bd Ry Rm D Hy E M Hy' F Bf t. unfold time_add_date. rewrite !to_int_in by assumption. rewrite !day_ns_eq, (wrap32_id years), (wrap32_id months) by assumption.
  apply civil_parts in D as (D1 & D2 & D3 & D4).
  assert (Q : sys_days (add_months (add_years (civil (ns / one_day)) years) months) = first + (day d - 1)).
  { unfold sys_days, add_months, add_years. cbn [y_year y_month y_day]. rewrite D1, D2, D3, (wrap16_id _ Hy).
    pose proof (Z.div_mod (month d - 1 + months) 12 ltac:(lia)) as Q1. pose proof (Z.mod_pos_bound (month d - 1 + months) 12 ltac:(lia)) as Q2.
    destruct (year_month_unique y m (year d + years + (month d - 1 + months) / 12) ((month d - 1 + months) mod 12 + 1)) as [-> ->]; [lia|lia|lia|].
    rewrite (wrap16_id _ Hy'). f_equal. apply (day_unique _ _ _ (first_day _ _ M) F). }
  rewrite Q, checked_in by assumption. cbn [obind]. rewrite day_time_in by assumption. cbn [obind]. fold t. clearbody t. unfold in64, int64_min, int64_max. split; intro H.
  - replace (t <? -9223372036854775808) with false by (symmetry; apply Z.ltb_ge; lia). replace (9223372036854775807 <? t) with false by (symmetry; apply Z.ltb_ge; lia). reflexivity.
  - destruct (Z.ltb_spec t (-9223372036854775808)); [reflexivity|]. destruct (Z.ltb_spec 9223372036854775807 t); [reflexivity|lia].
Qed.
Lemma next_year d : valid d -> year d <= year (next d).
Proof. intros _. unfold next. destruct (_ <? _); [cbn; lia|]. destruct (_ <? _); cbn; lia. Qed.
Lemma civil_mono a b : a <= b -> year (as_date (civil a)) <= year (as_date (civil b)).
Proof.
  intro H. replace b with (a + (b - a)) by lia. assert (K : 0 <= b - a) by lia. revert K. generalize (b - a). clear. apply natlike_ind.
  - rewrite Z.add_0_r. lia.
  - intros k _ IH. replace (a + Z.succ k) with (a + k + 1) by lia. rewrite civil_next. pose proof (next_year (as_date (civil (a + k))) (civil_valid _)). lia.
Qed.
Lemma days_range ns : in64 ns -> -106752 <= ns / one_day <= 106752.
Proof. intro H. unfold in64, one_day in *. split; [apply Z.div_le_lower_bound; lia|]. apply Z.lt_le_incl, Z.div_lt_upper_bound; lia. Qed.
Lemma civil_years ns : in64 ns -> 1677 <= y_year (civil (ns / one_day)) <= 2262.
Proof.
  intro H. pose proof (days_range ns H) as A.
  pose proof (civil_mono (-106752) (ns / one_day) ltac:(lia)) as L. pose proof (civil_mono (ns / one_day) 106752 ltac:(lia)) as U.
  split; [exact L|exact U].
Qed.
Lemma add_date_wraps ns k : in64 ns -> first_whole_day <= ns / one_day -> in64 (k * 2 ^ 16) ->
  time_add_date (VInt (dec ns)) (VInt (dec (k * 2 ^ 16))) (VInt (dec 0)) (VInt (dec 0)) = Ok (RVal (VInt (dec ns))).
Proof.
  intros B W K. unfold time_add_date. assert (Z0 : in64 0) by (unfold in64; lia). rewrite !to_int_in by assumption. rewrite !day_ns_eq.
  replace (wrap32 0) with 0 by reflexivity. pose proof (civil_years ns B) as Y. pose proof (civil_valid (ns / one_day)) as V.
  assert (Q : sys_days (add_months (add_years (civil (ns / one_day)) (wrap32 (k * 2 ^ 16))) 0) = ns / one_day).
  { assert (E : add_months (add_years (civil (ns / one_day)) (wrap32 (k * 2 ^ 16))) 0 = civil (ns / one_day)).
    { destruct V as (j & V & _). apply mlen_in in V as [V _]. cbn [as_date year month day] in V. unfold add_months, add_years. cbn [y_year y_month y_day].
      assert (Wr : wrap32 (k * 2 ^ 16) = (k * 2 ^ 16 + 2147483648) mod 4294967296 - 2147483648) by reflexivity.
      assert (exists q, wrap32 (k * 2 ^ 16) = q * 65536) as [q ->].
      { rewrite Wr. rewrite Z.mod_eq by lia. exists (k - 65536 * ((k * 2 ^ 16 + 2147483648) / 4294967296)). lia. }
      replace (y_month (civil (ns / one_day)) - 1 + 0) with (y_month (civil (ns / one_day)) - 1) by lia.
      rewrite (Z.div_small (y_month (civil (ns / one_day)) - 1) 12), (Z.mod_small (y_month (civil (ns / one_day)) - 1) 12) by lia. rewrite Z.add_0_r.
      assert (E1 : wrap16 (y_year (civil (ns / one_day)) + q * 65536) = y_year (civil (ns / one_day))).
      { unfold wrap16. replace (y_year (civil (ns / one_day)) + q * 65536 + 32768) with (y_year (civil (ns / one_day)) + 32768 + q * 65536) by lia.
        rewrite Z.mod_add, Z.mod_small by lia. lia. }
      rewrite E1, wrap16_id by (unfold holds_year; lia). generalize dependent (civil (ns / one_day)). intros [a b c]. cbn [y_year y_month y_day as_date]. intros. f_equal. lia. }
    rewrite E. apply sys_civil. }
  rewrite Q, Z.add_0_r, checked_in. 2:{ pose proof (days_range ns B). unfold in64. lia. }
  cbn [obind]. rewrite day_time_in by assumption. cbn [obind]. pose proof (Z.div_mod ns one_day ltac:(discriminate)) as D.
  replace (ns / one_day * one_day + ns mod one_day) with ns by lia. unfold in64, int64_min, int64_max in *.
  replace (ns <? -9223372036854775808) with false by (symmetry; apply Z.ltb_ge; lia). replace (9223372036854775807 <? ns) with false by (symmetry; apply Z.ltb_ge; lia). reflexivity.
Qed.

(** ** Differences *)
Lemma instant_known T i : known_zone (z_zone T) (zoned i) -> instant T i = Ok (t_ns i).
Proof. unfold known_zone, zoned, instant, locate_zone. destruct (t_mode i); [reflexivity| | |]; (destruct (z_zone T (t_zone i)); [reflexivity|congruence]). Qed.
Lemma abs_diff a b : (if b <? a then a - b else b - a) = Z.abs (a - b).
Proof. destruct (Z.ltb_spec b a); lia. Qed.
Lemma diff_result T x y a b za zb la lb : instant_arg x a za la -> instant_arg y b zb lb -> in64 a -> in64 b -> known_zone (z_zone T) za -> known_zone (z_zone T) zb ->
  time_diff T x y =
    let! d := checked (Z.abs (a - b)) in
    let s := d / second_ns in
    let years := s / 31556952 in
    let s := s - years * 365 * 24 * 60 * 60 in
    let months := s / 2629746 in
    let s := s - months * 2629746 in
    let days := s / 86400 in
    let s := s - days * 86400 in
    let hours := s / 3600 in
    let s := s - hours * 3600 in
    let minutes := s / 60 in
    let s := s - minutes * 60 in
    Ok (RVal (VArray (map (fun z => VInt (dec z)) [years; months; days; hours; minutes; s]))).
Proof.
  intros A B Ra Rb Ka Kb. destruct (process_instant _ _ _ _ A Ra) as (i & Ei & E1 & E2 & _). destruct (process_instant _ _ _ _ B Rb) as (j & Ej & F1 & F2 & _).
  unfold time_diff, with_arg. rewrite Ei, Ej. subst. rewrite (instant_known T i Ka), (instant_known T j Kb). cbn [obind]. now rewrite abs_diff.
Qed.

(** ** Texts *)
Lemma zval_fold s : fold_left (fun a c => 10 * a + (c - 48)) s 0 = zval_digits s.
Proof.
  unfold zval_digits. assert (G : forall a, fold_left (fun a c => 10 * a + (c - 48)) s a = fold_left (fun a c => a * 10 + (c - c0)) s a); [|apply G].
  induction s as [|c s IH]; intro a; cbn [fold_left]; [reflexivity|]. rewrite IH. f_equal. unfold c0. lia.
Qed.
Lemma zval_zeros k s : zval_digits (repeat 48 k ++ s) = zval_digits s.
Proof. rewrite zval_app. enough (zval_digits (repeat 48 k) = 0) by lia. induction k; [reflexivity|]. cbn [repeat]. rewrite zval_cons. lia. Qed.
Lemma dec_length z k : 0 <= z < p10 k -> (0 < k)%nat -> (length (dec z) <= k)%nat.
Proof.
  intros H Hk. destruct (dec_canon z ltac:(lia)) as [D [E|(c & t & E & N)]]; [rewrite E; cbn; lia|]. pose proof (zval_dec z ltac:(lia)) as V. rewrite E in *. rewrite zval_cons in V.
  inversion D as [|? ? Dc Dt]; subst. pose proof (zval_bound t Dt) as B. unfold digit in Dc. destruct (le_lt_dec (S (length t)) k) as [L|L]; [exact L|].
  assert (p10 k <= p10 (length t)) by (apply p10_mono; lia). pose proof (p10_pos (length t)). nia.
Qed.
Lemma pad0_field k z : 0 <= z < p10 k -> (0 < k)%nat -> field k z (pad0 k z).
Proof.
  intros H Hk. unfold pad0. replace (z <? 0) with false by (symmetry; apply Z.ltb_ge; lia). rewrite Z.abs_eq by lia. cbn [app length]. rewrite Nat.sub_0_r.
  pose proof (dec_length z k H Hk) as L. destruct (dec_canon z ltac:(lia)) as [D _]. unfold field. split; [|split].
  - unfold str, byte in *. rewrite app_length, repeat_length. lia.
  - apply Forall_app. split.
    + apply Forall_forall. intros c I. apply repeat_spec in I. subst. unfold digit_char. lia.
    + apply (Forall_impl _ (fun c (Hc : digit c) => ltac:(unfold digit, digit_char in *; lia) : digit_char c) D).
  - rewrite zval_fold, zval_zeros. apply zval_dec. lia.
Qed.
Lemma pad0_long k z : (k <= length (dec z))%nat -> 0 <= z -> pad0 k z = dec z.
Proof.
  intros H Hz. unfold pad0. replace (z <? 0) with false by (symmetry; apply Z.ltb_ge; lia). rewrite Z.abs_eq by lia. cbn [app length]. rewrite Nat.sub_0_r.
  now replace (k - length (dec z))%nat with 0%nat by lia.
Qed.
Lemma dec_long z k : p10 k <= z -> (k < length (dec z))%nat.
Proof.
  intro H. pose proof (p10_pos k). destruct (dec_canon z ltac:(lia)) as [D _]. pose proof (zval_dec z ltac:(lia)) as V. pose proof (zval_bound _ D) as B.
  destruct (le_lt_dec (length (dec z)) k) as [L|L]; [|exact L]. apply p10_mono in L. lia.
Qed.
Lemma parts_unique ns n h m s h' m' s' : shows ns n h m s -> shows ns n h' m' s' -> h = h' /\ m = m' /\ s = s'.
Proof. intros (A & B & C & f & F & E) (A' & B' & C' & f' & F' & E'). lia. Qed.
