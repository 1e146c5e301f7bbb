(** The calendar conversions follow the calendar. *)
From Coq Require Import String ZArith List Bool Lia.
From Verif Require Import Base EncProofs TimeSpec CalModel.
Import ListNotations.
Local Open Scope Z_scope.
Local Open Scope list_scope.

(** ** The calendar *)
Definition as_date (d : ymd) : date := {| year := y_year d; month := y_month d; day := y_day d |}.
Definition leapb (y : Z) : bool := ((y mod 4 =? 0) && negb (y mod 100 =? 0)) || (y mod 400 =? 0).
Definition mlen (y m : Z) : Z := if (m =? 4) || (m =? 6) || (m =? 9) || (m =? 11) then 30 else if m =? 2 then if leapb y then 29 else 28 else 31.
Lemma leapb_spec y : leapb y = true <-> leap y.
Proof.
  unfold leapb, leap. rewrite orb_true_iff, andb_true_iff, negb_true_iff, !Z.eqb_eq, Z.eqb_neq. tauto.
Qed.
Lemma mlen_in y m n : month_length y m n -> 1 <= m <= 12 /\ n = mlen y m.
Proof.
  intros [m' I|m' I|L|L].
  - cbn in I. intuition subst; cbn; auto; lia.
  - cbn in I. intuition subst; cbn; auto; lia.
  - split; [lia|]. unfold mlen. cbn. destruct (leapb y) eqn:E; auto. exfalso. apply L, leapb_spec, E.
  - split; [lia|]. unfold mlen. cbn. apply leapb_spec in L. now rewrite L.
Qed.
Lemma in_mlen y m : 1 <= m <= 12 -> month_length y m (mlen y m).
Proof.
  intro H. assert (C : m = 1 \/ m = 2 \/ m = 3 \/ m = 4 \/ m = 5 \/ m = 6 \/ m = 7 \/ m = 8 \/ m = 9 \/ m = 10 \/ m = 11 \/ m = 12) by lia.
  destruct C as [C|[C|[C|[C|[C|[C|[C|[C|[C|[C|[C|C]]]]]]]]]]]; subst m;
    try (apply ml_30; cbn; tauto); try (apply ml_31; cbn; tauto).
  unfold mlen. cbn [Z.eqb orb]. destruct (leapb y) eqn:E.
  - apply ml_leap, leapb_spec, E.
  - apply ml_feb. rewrite <- leapb_spec, E. discriminate.
Qed.
Definition validb (d : date) : bool := (1 <=? month d) && (month d <=? 12) && (1 <=? day d) && (day d <=? mlen (year d) (month d)).
Lemma validb_spec d : validb d = true <-> valid d.
Proof.
  unfold validb, valid. rewrite !andb_true_iff, !Z.leb_le. split.
  - intros [[[H1 H2] H3] H4]. exists (mlen (year d) (month d)). split; [apply in_mlen|]; lia.
  - intros (n & M & H). apply mlen_in in M as [M ->]. lia.
Qed.
Definition next (d : date) : date :=
  if day d <? mlen (year d) (month d) then {| year := year d; month := month d; day := day d + 1 |}
  else if month d <? 12 then {| year := year d; month := month d + 1; day := 1 |} else {| year := year d + 1; month := 1; day := 1 |}.
Lemma tomorrow_next d d' : tomorrow d d' <-> valid d /\ d' = next d.
Proof.
  unfold next. split.
  - intros [n M H|n M H K|n M H K]; (split; [exists n; split; [exact M|]; apply mlen_in in M as [M E]|apply mlen_in in M as [M E]]).
    + lia.
    + now replace (day d <? mlen (year d) (month d)) with true by (symmetry; apply Z.ltb_lt; lia).
    + enough (1 <= n) by lia. unfold mlen in E. destruct (_ || _); [lia|]. destruct (_ =? _); [destruct (leapb _); lia|lia].
    + replace (day d <? mlen (year d) (month d)) with false by (symmetry; apply Z.ltb_ge; lia). now replace (month d <? 12) with true by (symmetry; apply Z.ltb_lt; lia).
    + enough (1 <= n) by lia. unfold mlen in E. destruct (_ || _); [lia|]. destruct (_ =? _); [destruct (leapb _); lia|lia].
    + replace (day d <? mlen (year d) (month d)) with false by (symmetry; apply Z.ltb_ge; lia). now replace (month d <? 12) with false by (symmetry; apply Z.ltb_ge; lia).
  - intros [(n & M & H) ->]. pose proof (mlen_in _ _ _ M) as [B E]. rewrite <- E. destruct (Z.ltb_spec (day d) n).
    + apply t_day with n; [auto|lia].
    + destruct (Z.ltb_spec (month d) 12); [apply t_month with n|apply t_year with n]; auto; lia.
Qed.
Definition shift (k : Z) (d : date) : date := {| year := year d + 400 * k; month := month d; day := day d |}.
Lemma leapb_shift y k : leapb (y + 400 * k) = leapb y.
Proof.
  unfold leapb. replace (y + 400 * k) with (y + (100 * k) * 4) at 1 by lia. rewrite Z.mod_add by lia.
  replace (y + 400 * k) with (y + (4 * k) * 100) at 1 by lia. rewrite Z.mod_add by lia.
  replace (y + 400 * k) with (y + k * 400) by lia. now rewrite Z.mod_add by lia.
Qed.
Lemma mlen_shift y m k : mlen (y + 400 * k) m = mlen y m.
Proof. unfold mlen. now rewrite leapb_shift. Qed.
Lemma next_shift d k : next (shift k d) = shift k (next d).
Proof.
  unfold next, shift. cbn [year month day]. rewrite mlen_shift. destruct (_ <? _); [auto|]. destruct (_ <? _); auto.
  cbn [year month day]. f_equal. lia.
Qed.
Lemma validb_shift d k : validb (shift k d) = validb d.
Proof. unfold validb, shift. cbn [year month day]. now rewrite mlen_shift. Qed.
(** Day [doe] of the era that starts on 0000-03-01. *)
Definition in_era (doe : Z) : date := as_date (civil (doe - 719468)).
Lemma civil_shift n k : as_date (civil (n + k * 146097)) = shift k (as_date (civil n)).
Proof.
  unfold civil, as_date, shift. replace (n + k * 146097 + 719468) with (n + 719468 + k * 146097) by lia.
  rewrite Z.mod_add, Z.div_add by lia. set (doe := (n + 719468) mod 146097). set (era := (n + 719468) / 146097).
  set (yoe := (doe - doe / 1460 + doe / 36524 - doe / 146096) / 365). set (doy := doe - (365 * yoe + yoe / 4 - yoe / 100)).
  set (mp := (5 * doy + 2) / 153). cbn [y_year y_month y_day year month day]. f_equal. lia.
Qed.
Lemma civil_era n : as_date (civil n) = shift ((n + 719468) / 146097) (in_era ((n + 719468) mod 146097)).
Proof.
  unfold in_era. rewrite <- civil_shift. do 2 f_equal. pose proof (Z.div_mod (n + 719468) 146097). lia.
Qed.
Definition date_eqb (a b : date) : bool := (year a =? year b) && (month a =? month b) && (day a =? day b).
Lemma date_eqb_eq a b : date_eqb a b = true -> a = b.
Proof. destruct a, b. unfold date_eqb. cbn. rewrite !andb_true_iff, !Z.eqb_eq. intros [[-> ->] ->]. auto. Qed.
(** Years from March to February: the year [yoe] of the era starts on its day [start yoe]. *)
Definition start (yoe : Z) : Z := 365 * yoe + yoe / 4 - yoe / 100.
Definition mon (doy : Z) : Z := let mp := (5 * doy + 2) / 153 in if mp <? 10 then mp + 3 else mp - 9.
Definition dom (doy : Z) : Z := doy - (153 * ((5 * doy + 2) / 153) + 2) / 5 + 1.
Definition form (y doy : Z) : date := {| year := y + (if mon doy <=? 2 then 1 else 0); month := mon doy; day := dom doy |}.
Definition year_days (yoe : Z) : Z := if leapb (yoe + 1) then 366 else 365.
Lemma yoe_range doe : 0 <= doe < 146097 -> let yoe := (doe - doe / 1460 + doe / 36524 - doe / 146096) / 365 in
  0 <= yoe < 400 /\ 0 <= doe - start yoe < (if (yoe mod 4 =? 3) && (negb (yoe mod 100 =? 99) || (yoe =? 399)) then 366 else 365).
Proof.
  intros H. cbv zeta. unfold start.
  assert (A : doe / 36524 = 0 \/ doe / 36524 = 1 \/ doe / 36524 = 2 \/ doe / 36524 = 3 \/ doe / 36524 = 4) by (Z.to_euclidean_division_equations; lia).
  set (c := doe / 36524) in *.
  assert (36524 * c <= doe < 36524 * c + 36524) by (unfold c; Z.to_euclidean_division_equations; lia). clearbody c.
  destruct (Z.eqb_spec ((doe - doe / 1460 + c - doe / 146096) / 365 mod 4) 3), (Z.eqb_spec ((doe - doe / 1460 + c - doe / 146096) / 365 mod 100) 99), (Z.eqb_spec ((doe - doe / 1460 + c - doe / 146096) / 365) 399); cbn [andb orb negb];
  destruct A as [A|[A|[A|[A|A]]]]; subst c; Z.to_euclidean_division_equations; try lia.
Qed.
Lemma year_days_eq yoe : 0 <= yoe < 400 -> year_days yoe = if (yoe mod 4 =? 3) && (negb (yoe mod 100 =? 99) || (yoe =? 399)) then 366 else 365.
Proof.
  intro H. unfold year_days, leapb.
  destruct (Z.eqb_spec ((yoe + 1) mod 4) 0), (Z.eqb_spec ((yoe + 1) mod 100) 0), (Z.eqb_spec ((yoe + 1) mod 400) 0),
    (Z.eqb_spec (yoe mod 4) 3), (Z.eqb_spec (yoe mod 100) 99), (Z.eqb_spec yoe 399); cbn [andb orb negb]; try reflexivity; exfalso; Z.to_euclidean_division_equations; lia.
Qed.
Lemma start_next yoe : 0 <= yoe < 399 -> start (yoe + 1) = start yoe + year_days yoe.
Proof.
  intro H. rewrite year_days_eq by lia. unfold start.
  destruct (Z.eqb_spec (yoe mod 4) 3), (Z.eqb_spec (yoe mod 100) 99), (Z.eqb_spec yoe 399); cbn [andb orb negb]; Z.to_euclidean_division_equations; lia.
Qed.
Lemma start_mono a b : 0 <= a -> a <= b -> b < 400 -> start a <= start b.
Proof.
  intros Ha Hb Hc. replace b with (a + (b - a)) by lia. assert (K : 0 <= b - a) by lia. assert (B : a + (b - a) < 400) by lia. revert K B. generalize (b - a). clear b Hb Hc.
  apply (natlike_ind (fun z => a + z < 400 -> start a <= start (a + z))).
  - rewrite Z.add_0_r. lia.
  - intros k Hk IH B. replace (a + Z.succ k) with (a + k + 1) by lia. rewrite start_next by lia. unfold year_days. destruct (leapb _); lia.
Qed.
Lemma yoe_unique a b i j : 0 <= a < 400 -> 0 <= b < 400 -> 0 <= i < year_days a -> 0 <= j < year_days b -> start a + i = start b + j -> a = b /\ i = j.
Proof.
  intros Ha Hb Hi Hj E. assert (T : a < b \/ a = b \/ b < a) by lia. destruct T as [T|[->|T]]; [|lia|].
  - pose proof (start_mono (a + 1) b ltac:(lia) ltac:(lia) ltac:(lia)). rewrite start_next in H by lia. lia.
  - pose proof (start_mono (b + 1) a ltac:(lia) ltac:(lia) ltac:(lia)). rewrite start_next in H by lia. lia.
Qed.
Lemma era_split doe : 0 <= doe < 146097 -> exists yoe doy, 0 <= yoe < 400 /\ 0 <= doy < year_days yoe /\ doe = start yoe + doy.
Proof.
  intro H. pose proof (yoe_range doe H) as Y. cbv zeta in Y. set (yoe := _ / 365) in *. clearbody yoe. destruct Y as [Y1 Y2]. rewrite <- year_days_eq in Y2 by exact Y1.
  exists yoe, (doe - start yoe). lia.
Qed.
Lemma era_bound yoe doy : 0 <= yoe < 400 -> 0 <= doy < year_days yoe -> 0 <= start yoe + doy < 146097.
Proof.
  intros H D. pose proof (start_mono 0 yoe ltac:(lia) ltac:(lia) ltac:(lia)) as A. change (start 0) with 0 in A. split; [lia|].
  destruct (Z.eq_dec yoe 399) as [->|N]; [change (start 399) with 145731; change (year_days 399) with 366 in D; lia|].
  pose proof (start_mono (yoe + 1) 399 ltac:(lia) ltac:(lia) ltac:(lia)) as B. rewrite start_next in B by lia. change (start 399) with 145731 in B. lia.
Qed.
Lemma in_era_form yoe doy : 0 <= yoe < 400 -> 0 <= doy < year_days yoe -> in_era (start yoe + doy) = form yoe doy.
Proof.
  intros H D. pose proof (era_bound yoe doy H D) as B. unfold in_era, civil, as_date.
  replace (start yoe + doy - 719468 + 719468) with (start yoe + doy) by lia. rewrite (Z.mod_small _ 146097), (Z.div_small _ 146097) by exact B.
  pose proof (yoe_range _ B) as Y. cbv zeta in Y. set (y := _ / 365) in *. clearbody y. destruct Y as [Y1 Y2]. rewrite <- year_days_eq in Y2 by exact Y1.
  destruct (yoe_unique y yoe (start yoe + doy - start y) doy Y1 H Y2 D ltac:(lia)) as [-> E]. fold (start yoe). rewrite E. clear.
  unfold form, mon, dom. cbn [y_year y_month y_day]. f_equal. lia.
Qed.
Definition month_days (leap_year : bool) (m : Z) : Z := if (m =? 4) || (m =? 6) || (m =? 9) || (m =? 11) then 30 else if m =? 2 then if leap_year then 29 else 28 else 31.
(** One year, day by day. *)
Definition day_ok (b : bool) (doy : Z) : bool :=
  let m := mon doy in let d := dom doy in let l := month_days b m in let last := if b then 365 else 364 in
  if doy <=? last then
    (1 <=? m) && (m <=? 12) && (1 <=? d) && (d <=? l) && ((153 * (if 2 <? m then m - 3 else m + 9) + 2) / 5 + (d - 1) =? doy) &&
    (if doy =? last then (m =? 2) && (d =? l)
     else if d <? l then (mon (doy + 1) =? m) && (dom (doy + 1) =? d + 1)
     else if m <? 12 then (mon (doy + 1) =? m + 1) && (dom (doy + 1) =? 1) && eqb (m <=? 2) (m + 1 <=? 2)
     else (mon (doy + 1) =? 1) && (dom (doy + 1) =? 1))
  else true.
Lemma year_by_day b : forall doy, 0 <= doy < 366 -> day_ok b doy = true.
Proof. destruct b; apply (all_below 366); vm_cast_no_check (eq_refl true). Qed.
Lemma form_mlen y doy : 1 <= mon doy <= 12 -> mlen (year (form y doy)) (mon doy) = month_days (leapb (y + 1)) (mon doy).
Proof.
  intro H. unfold mlen, month_days, form. cbn [year]. destruct (_ || _); [reflexivity|]. destruct (Z.eqb_spec (mon doy) 2) as [->|N]; reflexivity.
Qed.
Lemma form_ok y doy : 0 <= doy < year_days y ->
  validb (form y doy) = true /\ next (form y doy) = (if doy =? year_days y - 1 then form (y + 1) 0 else form y (doy + 1)) /\
  (153 * (if 2 <? mon doy then mon doy - 3 else mon doy + 9) + 2) / 5 + (dom doy - 1) = doy.
Proof.
  intro H. unfold year_days in *. pose proof (year_by_day (leapb (y + 1)) doy ltac:(destruct (leapb (y + 1)); lia)) as Q. unfold day_ok in Q. cbv zeta in Q.
  replace (doy <=? _) with true in Q by (symmetry; apply Z.leb_le; destruct (leapb (y + 1)); lia).
  rewrite !andb_true_iff, !Z.leb_le in Q. destruct Q as (((((Q1 & Q2) & Q3) & Q4) & Q5) & Q6). apply Z.eqb_eq in Q5.
  assert (ML : mlen (year (form y doy)) (month (form y doy)) = month_days (leapb (y + 1)) (mon doy)) by (apply form_mlen; lia).
  split; [|split; [|exact Q5]].
  - unfold validb. rewrite ML. unfold form. cbn [month day]. rewrite !andb_true_iff, !Z.leb_le. auto.
  - unfold next. rewrite ML. change (day (form y doy)) with (dom doy). change (month (form y doy)) with (mon doy).
    replace (doy =? (if leapb (y + 1) then 366 else 365) - 1) with (doy =? (if leapb (y + 1) then 365 else 364)) by (destruct (leapb (y + 1)); reflexivity).
    destruct (doy =? (if leapb (y + 1) then 365 else 364)).
    + apply andb_true_iff in Q6 as [Q6 Q7]. apply Z.eqb_eq in Q6, Q7. rewrite Q7, Z.ltb_irrefl, Q6. change (2 <? 12) with true. cbv iota. unfold form. cbn [year month day]. rewrite Q6.
      change (mon 0) with 3. change (dom 0) with 1. change (2 <=? 2) with true. change (3 <=? 2) with false. cbv iota. f_equal. lia.
    + destruct (dom doy <? _).
      * apply andb_true_iff in Q6 as [Q6 Q7]. apply Z.eqb_eq in Q6, Q7. unfold form. rewrite Q6, Q7. reflexivity.
      * destruct (Z.ltb_spec (mon doy) 12) as [L|L].
        -- apply andb_true_iff in Q6 as [Q6 Q8]. apply andb_true_iff in Q6 as [Q6 Q7]. apply Z.eqb_eq in Q6, Q7. apply eqb_prop in Q8. unfold form. cbn [year month day]. rewrite Q6, Q7, <- Q8. reflexivity.
        -- apply andb_true_iff in Q6 as [Q6 Q7]. apply Z.eqb_eq in Q6, Q7. unfold form. cbn [year month day]. rewrite Q6, Q7. replace (mon doy <=? 2) with false by (symmetry; apply Z.leb_gt; lia).
           change (1 <=? 2) with true. cbv iota. f_equal. lia.
Qed.
Lemma sys_form yoe doy : 0 <= yoe < 400 -> 0 <= doy < year_days yoe ->
  sys_days {| y_year := year (form yoe doy); y_month := month (form yoe doy); y_day := day (form yoe doy) |} = start yoe + doy - 719468.
Proof.
  intros H D. destruct (form_ok yoe doy D) as (_ & _ & Q). unfold sys_days, first_of_month. unfold form. cbn [y_year y_month y_day year month day]. fold (start (yoe mod 400)).
  replace (if mon doy <=? 2 then yoe + (if mon doy <=? 2 then 1 else 0) - 1 else yoe + (if mon doy <=? 2 then 1 else 0)) with yoe by (destruct (mon doy <=? 2); lia).
  rewrite Z.div_small, Z.mod_small by lia. unfold start. lia.
Qed.
Definition era_ok (doe : Z) : bool := validb (in_era doe) && date_eqb (in_era (doe + 1)) (next (in_era doe)) && (sys_days (civil (doe - 719468)) =? doe - 719468).
Lemma date_eqb_refl d : date_eqb d d = true.
Proof. unfold date_eqb. now rewrite !Z.eqb_refl. Qed.
Lemma era_days : forall a, 0 <= a < 146097 -> era_ok a = true.
Proof.
  intros a Ha. destruct (era_split a Ha) as (y & i & Y & I & ->). unfold era_ok. rewrite (in_era_form y i Y I). destruct (form_ok y i I) as (V & N & _). rewrite V, N. cbn [andb].
  apply andb_true_iff. split.
  - assert (E : in_era (start y + i + 1) = if i =? year_days y - 1 then form (y + 1) 0 else form y (i + 1)); [|rewrite E; apply date_eqb_refl].
    destruct (Z.eqb_spec i (year_days y - 1)) as [E|E].
    + destruct (Z.eq_dec y 399) as [->|Ny]; [subst i; reflexivity|]. replace (start y + i + 1) with (start (y + 1) + 0) by (rewrite start_next by lia; lia).
      apply in_era_form; [lia|]. unfold year_days. destruct (leapb _); lia.
    + rewrite <- Z.add_assoc. apply in_era_form; lia.
  - apply Z.eqb_eq. pose proof (sys_form y i Y I) as G. pose proof (in_era_form y i Y I) as F. unfold in_era, as_date in F. rewrite <- F in G. rewrite <- G at 2. clear.
    cbn [year month day]. generalize (civil (start y + i - 719468)). intros [u v w]. reflexivity.
Qed.
Lemma civil_valid n : valid (as_date (civil n)).
Proof.
  apply validb_spec. rewrite civil_era, validb_shift. pose proof (Z.mod_pos_bound (n + 719468) 146097 ltac:(lia)) as B.
  apply era_days in B. unfold era_ok in B. rewrite !andb_true_iff in B. tauto.
Qed.
Lemma civil_next n : as_date (civil (n + 1)) = next (as_date (civil n)).
Proof.
  rewrite (civil_era n), next_shift. pose proof (Z.mod_pos_bound (n + 719468) 146097 ltac:(lia)) as B.
  pose proof (Z.div_mod (n + 719468) 146097 ltac:(lia)) as D. apply era_days in B. unfold era_ok in B. rewrite !andb_true_iff in B. destruct B as [[_ B] _]. apply date_eqb_eq in B. rewrite <- B.
  unfold in_era. rewrite <- civil_shift. do 2 f_equal. lia.
Qed.
Lemma civil_tomorrow n : tomorrow (as_date (civil n)) (as_date (civil (n + 1))).
Proof. apply tomorrow_next. split; [apply civil_valid|apply civil_next]. Qed.
Lemma next_inj a b : valid a -> valid b -> next a = next b -> a = b.
Proof.
  rewrite <- !validb_spec. unfold validb, next. destruct a as [y m d], b as [y' m' d']. cbn [year month day].
  rewrite !andb_true_iff, !Z.leb_le. intros A B.
  destruct (Z.ltb_spec d (mlen y m)), (Z.ltb_spec d' (mlen y' m')).
  - intro E. injection E as -> -> E. f_equal. lia.
  - destruct (Z.ltb_spec m' 12); intro E; injection E; lia.
  - destruct (Z.ltb_spec m 12); intro E; injection E; lia.
  - destruct (Z.ltb_spec m 12), (Z.ltb_spec m' 12); intro E; injection E; intros.
    + assert (y' = y) as -> by lia. assert (m' = m) as -> by lia. f_equal. lia.
    + lia.
    + lia.
    + assert (y' = y) as -> by lia. assert (m' = m) as -> by lia. f_equal. lia.
Qed.
Lemma civil_day n : day_number (as_date (civil n)) n.
Proof.
  assert (P : forall k, 0 <= k -> day_number (as_date (civil k)) k /\ day_number (as_date (civil (- k))) (- k)).
  { apply natlike_ind.
    - split; apply dn_epoch.
    - intros k Hk [H1 H2]. unfold Z.succ. split.
      + apply dn_next with (as_date (civil k)); [auto|apply civil_tomorrow].
      + replace (- (k + 1)) with (- k - 1) by lia. apply dn_prev with (as_date (civil (- k))); [auto|].
        replace (civil (- k)) with (civil (- k - 1 + 1)) by (f_equal; lia). apply civil_tomorrow. }
  destruct (Z.le_ge_cases 0 n) as [H|H]; [apply P, H|]. specialize (P (- n) ltac:(lia)). rewrite Z.opp_involutive in P. apply P.
Qed.
Lemma day_civil d n : day_number d n -> d = as_date (civil n).
Proof.
  induction 1 as [|d d' n H IH T|d d' n H IH T].
  - reflexivity.
  - apply tomorrow_next in T as [_ ->]. rewrite IH. now rewrite civil_next.
  - apply tomorrow_next in T as [V T]. apply next_inj; auto using civil_valid. rewrite <- civil_next. replace (n - 1 + 1) with n by lia. now rewrite <- IH.
Qed.
(** First days of months *)
Lemma first_shift y m k : first_of_month (y + 400 * k) m = first_of_month y m + k * 146097.
Proof.
  unfold first_of_month. replace (if m <=? 2 then y + 400 * k - 1 else y + 400 * k) with ((if m <=? 2 then y - 1 else y) + k * 400) by (destruct (m <=? 2); lia).
  rewrite Z.div_add, Z.mod_add by lia. lia.
Qed.
Lemma first_table m : 1 <= m <= 12 -> let i := (153 * (if 2 <? m then m - 3 else m + 9) + 2) / 5 in mon i = m /\ dom i = 1 /\ 0 <= i < 365.
Proof.
  intro H. assert (C : m = 1 \/ m = 2 \/ m = 3 \/ m = 4 \/ m = 5 \/ m = 6 \/ m = 7 \/ m = 8 \/ m = 9 \/ m = 10 \/ m = 11 \/ m = 12) by lia.
  destruct C as [C|[C|[C|[C|[C|[C|[C|[C|[C|[C|[C|C]]]]]]]]]]]; subst m; repeat split; reflexivity || discriminate.
Qed.
Lemma first_civil y m : 1 <= m <= 12 -> as_date (civil (first_of_month y m)) = {| year := y; month := m; day := 1 |}.
Proof.
  intro H. destruct (first_table m H) as (M & D & B). unfold first_of_month. set (y' := if m <=? 2 then y - 1 else y). set (i := _ / 5) in *.
  pose proof (Z.mod_pos_bound y' 400 ltac:(lia)) as Y. pose proof (Z.div_mod y' 400 ltac:(lia)) as DM.
  replace (y' / 400 * 146097 + (y' mod 400 * 365 + y' mod 400 / 4 - y' mod 400 / 100 + i) - 719468) with (start (y' mod 400) + i - 719468 + y' / 400 * 146097) by (unfold start; lia).
  rewrite civil_shift. change (as_date (civil (start (y' mod 400) + i - 719468))) with (in_era (start (y' mod 400) + i)).
  rewrite in_era_form; [|exact Y|unfold year_days; destruct (leapb _); lia]. unfold shift, form. cbn [year month day]. rewrite M, D. f_equal. unfold y' in *. destruct (m <=? 2); lia.
Qed.
Lemma sys_civil n : sys_days (civil n) = n.
Proof.
    pose proof (Z.div_mod (n + 719468) 146097 ltac:(lia)) as D. pose proof (Z.mod_pos_bound (n + 719468) 146097 ltac:(lia)) as B.
    set (k := (n + 719468) / 146097) in *. set (m := (n + 719468) mod 146097) in *. apply era_days in B. unfold era_ok in B. rewrite !andb_true_iff in B. destruct B as [_ Q].
    apply Z.eqb_eq in Q. replace n with (m - 719468 + k * 146097) by lia.
    pose proof (civil_shift (m - 719468) k) as C. generalize dependent (civil (m - 719468 + k * 146097)). generalize dependent (civil (m - 719468)).
    intros [y0 m0 d0] Q [y1 m1 d1] C. unfold as_date, shift in C. cbn [y_year y_month y_day year month day] in C. injection C as C1 C2 C3. unfold sys_days in *.
    cbn [y_year y_month y_day] in *. subst m1 d1. replace y1 with (y0 + 400 * k) by (rewrite C1; reflexivity). rewrite first_shift. lia.
Qed.
Lemma civil_inj a b : as_date (civil a) = as_date (civil b) -> a = b.
Proof.
  intro H. rewrite <- (sys_civil a), <- (sys_civil b). generalize dependent (civil a). generalize dependent (civil b). intros [y0 m0 d0] [y1 m1 d1] H.
  unfold as_date in H. cbn [y_year y_month y_day] in H. injection H as -> -> ->. reflexivity.
Qed.
Lemma day_unique d n n' : day_number d n -> day_number d n' -> n = n'.
Proof. intros H H'. apply day_civil in H, H'. apply civil_inj. congruence. Qed.
Lemma first_day y m : 1 <= m <= 12 -> day_number {| year := y; month := m; day := 1 |} (first_of_month y m).
Proof. intro H. rewrite <- first_civil by exact H. apply civil_day. Qed.
