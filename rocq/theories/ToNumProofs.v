(** Lemmas about [to_number]. *)
From Coq Require Import String ZArith List Bool Lia.
From Verif Require Import Base BigIntModel BigIntSpec BigIntProofs DecFacts ValueModel ResolverModel VmModel StrModel StrProofs TimeModel TimeSpec TimeProofs DurProofs ToNumModel ToNumSpec.
Import ListNotations.
Local Open Scope Z_scope.
Local Open Scope list_scope.

(** ** Powers and digits *)
Lemma p10_z k : 0 <= k -> p10 (Z.to_nat k) = 10 ^ k.
Proof. intro H. unfold p10. now rewrite Z2Nat.id. Qed.
Lemma pow10_pos k : 0 <= k -> 0 < 10 ^ k.
Proof. intro H. apply Z.pow_pos_nonneg; lia. Qed.
Lemma ndigits_spec z : 0 < z -> 1 <= ndigits z /\ 10 ^ (ndigits z - 1) <= z < 10 ^ ndigits z.
Proof.
  intro H. unfold ndigits. destruct (Z.leb_spec z 0); [lia|]. set (k := length (dec z)).
  assert (K : (1 <= k)%nat).
  { destruct k eqn:E; [|lia]. pose proof (dec_long z 0 ltac:(unfold p10; cbn; lia)). unfold k in E. lia. }
  split; [lia|]. split.
  - destruct (Z_lt_ge_dec z (10 ^ (Z.of_nat k - 1))) as [L|G]; [|lia]. exfalso.
    replace (Z.of_nat k - 1) with (Z.of_nat (k - 1)) in L by lia. fold (p10 (k - 1)) in L.
    destruct (Nat.eq_dec k 1) as [->|N]; [unfold p10 in L; cbn in L; lia|].
    pose proof (dec_length z (k - 1) ltac:(lia) ltac:(lia)). fold k in H1. lia.
  - destruct (Z_lt_ge_dec z (10 ^ Z.of_nat k)) as [L|G]; [lia|]. exfalso.
    pose proof (dec_long z k ltac:(unfold p10; lia)) as L. fold k in L. lia.
Qed.
(** [10 ^ x <= n / d < 10 ^ (x + 1)]. *)
Definition decade (n d x : Z) : Prop :=
  if 0 <=? x then d * 10 ^ x <= n < d * 10 ^ (x + 1) else d <= n * 10 ^ (- x) /\ n * 10 ^ (- x - 1) < d.
Lemma exponent10_spec n d : 0 < n -> 0 < d -> decade n d (exponent10 n d).
Proof.
  intros Hn Hd. unfold exponent10. destruct (Z.leb_spec d n) as [L|L].
  - assert (Q : 0 < n / d) by (apply Z.div_str_pos; lia). destruct (ndigits_spec _ Q) as (A & B & C). set (k := ndigits (n / d)) in *. clearbody k.
    unfold decade. replace (0 <=? k - 1) with true by (symmetry; apply Z.leb_le; lia). replace (k - 1 + 1) with k by lia.
    pose proof (Z.div_mod n d ltac:(lia)). pose proof (Z.mod_pos_bound n d Hd). set (q := n / d) in *. nia.
  - assert (Q : 0 < (d - 1) / n) by (apply Z.div_str_pos; lia). destruct (ndigits_spec _ Q) as (A & B & C). set (k := ndigits ((d - 1) / n)) in *. clearbody k.
    unfold decade. replace (0 <=? - k) with false by (symmetry; apply Z.leb_gt; lia). rewrite Z.opp_involutive.
    pose proof (Z.div_mod (d - 1) n ltac:(lia)). pose proof (Z.mod_pos_bound (d - 1) n Hn). set (q := (d - 1) / n) in *. nia.
Qed.
(** [m * 10 ^ (- k)] as a fraction. *)
Definition shifted (m k : Z) : Z * Z := if 0 <=? k then (m, 10 ^ k) else (m * 10 ^ (- k), 1).
Lemma scaled_close n d k : 0 < n -> 0 < d -> decade n d (15 - k) ->
  10 ^ 15 <= scaled10 n d k <= 10 ^ 16 /\ let '(a, b) := shifted (scaled10 n d k) k in 0 < b /\ Z.abs (a * d - n * b) * (2 * 10 ^ 15) <= n * b.
Proof.
  intros Hn Hd D. unfold scaled10, shifted. destruct (Z.leb_spec 0 k) as [K|K].
  - assert (P : 0 < 10 ^ k) by (apply pow10_pos; lia).
    assert (B : d * 10 ^ 15 <= n * 10 ^ k < d * 10 ^ 16).
    { unfold decade in D. destruct (Z.leb_spec 0 (15 - k)) as [X|X].
      - assert (E1 : 10 ^ 15 = 10 ^ (15 - k) * 10 ^ k) by (rewrite <- Z.pow_add_r by lia; f_equal; lia).
        assert (E2 : 10 ^ 16 = 10 ^ (15 - k + 1) * 10 ^ k) by (rewrite <- Z.pow_add_r by lia; f_equal; lia).
        rewrite E1, E2. generalize dependent (10 ^ (15 - k)). generalize dependent (10 ^ (15 - k + 1)). intros u E2 w D E1. nia.
      - assert (E1 : 10 ^ k = 10 ^ 15 * 10 ^ (- (15 - k))) by (rewrite <- Z.pow_add_r by lia; f_equal; lia).
        assert (E2 : 10 ^ k = 10 ^ 16 * 10 ^ (- (15 - k) - 1)) by (rewrite <- Z.pow_add_r by lia; f_equal; lia).
        destruct D as [D1 D2]. split; [rewrite E1|rewrite E2].
        + generalize dependent (10 ^ (- (15 - k))). intros u D1 E1. assert (0 < 10 ^ 15) by reflexivity. nia.
        + generalize dependent (10 ^ (- (15 - k) - 1)). intros u D2 E2. assert (0 < 10 ^ 16) by reflexivity. nia. }
    pose proof (nearest_bound (n * 10 ^ k) d Hd) as NB. set (m := nearest (n * 10 ^ k) d) in *. clearbody m.
    generalize dependent (10 ^ k). intros p P B NB. change (10 ^ 15) with 1000000000000000 in *. change (10 ^ 16) with 10000000000000000 in *.
    split; [split; nia|]. split; [exact P|]. nia.
  - assert (P : 0 < 10 ^ (- k)) by (apply pow10_pos; lia). unfold decade in D. replace (0 <=? 15 - k) with true in D by (symmetry; apply Z.leb_le; lia).
    replace (10 ^ (15 - k)) with (10 ^ 15 * 10 ^ (- k)) in D by (rewrite <- Z.pow_add_r by lia; f_equal; lia).
    replace (10 ^ (15 - k + 1)) with (10 ^ 16 * 10 ^ (- k)) in D by (rewrite <- Z.pow_add_r by lia; f_equal; lia).
    pose proof (nearest_bound n (d * 10 ^ (- k)) ltac:(nia)) as NB. set (m := nearest n (d * 10 ^ (- k))) in *. clearbody m.
    generalize dependent (10 ^ (- k)). intros p D P NB. change (10 ^ 15) with 1000000000000000 in *. change (10 ^ 16) with 10000000000000000 in *.
    assert (PD : 0 < d * p) by nia. replace (m * p * d) with (m * (d * p)) by ring. rewrite Z.mul_1_r.
    replace (d * (1000000000000000 * p)) with (1000000000000000 * (d * p)) in D by ring. replace (d * (10000000000000000 * p)) with (10000000000000000 * (d * p)) in D by ring.
    set (w := d * p) in *. clearbody w. split; [split; nia|]. split; [lia|]. nia.
Qed.
Lemma significant_close n d : 0 < n -> 0 < d -> let '(m, x) := significant n d in
  10 ^ 15 <= m < 10 ^ 16 /\ let '(a, b) := shifted m (15 - x) in 0 < b /\ Z.abs (a * d - n * b) * (2 * 10 ^ 15) <= n * b.
Proof.
  intros Hn Hd. unfold significant. set (x := exponent10 n d). pose proof (exponent10_spec n d Hn Hd) as D. fold x in D. replace x with (15 - (15 - x)) in D by lia.
  destruct (scaled_close n d (15 - x) Hn Hd D) as [B C]. set (m := scaled10 n d (15 - x)) in *. clearbody m x.
  destruct (Z.eqb_spec m (10 ^ 16)) as [->|N]; [|split; [lia|exact C]]. split; [split; [reflexivity|reflexivity]|].
  unfold shifted in *. replace (15 - (x + 1)) with (15 - x - 1) by lia. set (k := 15 - x) in *. clearbody k.
  change (10 ^ 16) with (10 ^ 15 * 10) in C. destruct (Z.leb_spec 0 k) as [K|K].
  - destruct (Z.leb_spec 0 (k - 1)) as [K1|K1].
    + assert (E : 10 ^ k = 10 ^ (k - 1) * 10) by (replace k with (k - 1 + 1) at 1 by lia; rewrite Z.pow_add_r by lia; reflexivity). rewrite E in C.
      assert (P : 0 < 10 ^ (k - 1)) by (apply pow10_pos; lia). split; [exact P|]. destruct C as [_ C]. set (p := 10 ^ (k - 1)) in *. clearbody p.
      replace (10 ^ 15 * 10 * d - n * (p * 10)) with ((10 ^ 15 * d - n * p) * 10) in C by ring. rewrite Z.abs_mul in C. change (Z.abs 10) with 10 in C.
      set (A := Z.abs _) in *. change (10 ^ 15) with 1000000000000000 in *. nia.
    + assert (k = 0) as -> by lia. change (10 ^ 0) with 1 in *. change (- (0 - 1)) with 1. change (10 ^ 1) with 10. exact C.
  - replace (0 <=? k - 1) with false by (symmetry; apply Z.leb_gt; lia). split; [lia|]. destruct C as [_ C].
    replace (- (k - 1)) with (- k + 1) by lia. rewrite Z.pow_add_r by lia. change (10 ^ 1) with 10. replace (10 ^ 15 * (10 ^ (- k) * 10)) with (10 ^ 15 * 10 * 10 ^ (- k)) by ring. exact C.
Qed.

(** ** The text of a number *)
Lemma digits_are s : digit_run s -> Forall digit s.
Proof. apply Forall_impl. unfold digit_char, digit. lia. Qed.
Lemma dec_run z : 0 <= z -> digit_run (dec z).
Proof. intro H. destruct (dec_canon z H) as [D _]. revert D. apply Forall_impl. unfold digit_char, digit. lia. Qed.
Lemma dec_some z : 0 <= z -> dec z <> [].
Proof.
  intros H E. destruct (dec_canon z H) as [_ [D|(c & t & D & _)]]; rewrite E in D; discriminate.
Qed.
Lemma zeros_run k : digit_run (repeat 48 k).
Proof. induction k; constructor; [unfold digit_char; lia|exact IHk]. Qed.
Lemma drop_zeros_split s : exists j, s = repeat 48 j ++ drop_zeros s.
Proof.
  induction s as [|c s [j IH]]; [now exists 0%nat|]. destruct (Z.eq_dec c 48) as [->|N]; [exists (S j); cbn; now rewrite <- IH|]. exists 0%nat. cbn [repeat app].
  cbn [drop_zeros]. clear - N. destruct c as [|p|p]; try reflexivity. do 6 (destruct p as [p|p|]; try reflexivity). congruence.
Qed.
Lemma rev_zeros j : rev (repeat 48 j) = repeat (48 : Z) j.
Proof. induction j as [|j IH]; [reflexivity|]. cbn [repeat rev]. rewrite IH. clear IH. induction j as [|j IH]; [reflexivity|]. cbn [repeat app]. now f_equal. Qed.
Lemma without_zeros_split s : exists j, s = without_zeros s ++ repeat 48 j.
Proof.
  unfold without_zeros. destruct (drop_zeros_split (rev s)) as [j E]. exists j. rewrite <- (rev_involutive s) at 1. rewrite E at 1. now rewrite rev_app_distr, rev_zeros.
Qed.
(** A positional text and its value. *)
Lemma with_point_ok i f : digit_run1 i -> digit_run f -> exists f' j, mantissa (with_point i f) i f' /\
  zval_digits (i ++ f) = zval_digits (i ++ f') * 10 ^ Z.of_nat j /\ Z.of_nat (length f) = Z.of_nat (length f') + Z.of_nat j.
Proof.
  intros I F. destruct (without_zeros_split f) as [j E]. unfold with_point. set (f' := without_zeros f) in *. clearbody f'. exists f', j.
  assert (F' : digit_run f') by (rewrite E in F; apply Forall_app in F; tauto). split.
  - destruct f' as [|c f']; [now constructor|]. now constructor.
  - rewrite E. rewrite app_assoc, zval_app, !app_length, repeat_length, Nat2Z.inj_add. split; [|reflexivity].
    replace (zval_digits (repeat 48 j)) with 0; [unfold p10; lia|]. rewrite <- (app_nil_r (repeat 48 j)), zval_zeros. reflexivity.
Qed.
Lemma pad_run n z : 0 <= z -> digit_run1 (pad0 n z) /\ zval_digits (pad0 n z) = z.
Proof.
  intro H. unfold pad0. rewrite Z.abs_eq by assumption. replace (z <? 0) with false by (symmetry; apply Z.ltb_ge; lia). cbn [app]. set (k := (n - _ - _)%nat). clearbody k. split.
  - split; [|apply Forall_app; split; [apply zeros_run|now apply dec_run]]. intro E. apply app_eq_nil in E as [_ E]. now apply dec_some in E.
  - rewrite zval_zeros. now apply zval_dec.
Qed.
Lemma show16_ok m x : 10 ^ 15 <= m < 10 ^ 16 -> exists m' j, numeral (show16 m x) 1 m' (x - 15 + Z.of_nat j) /\ m = m' * 10 ^ Z.of_nat j.
Proof.
  intro M. assert (M0 : 0 <= m) by (pose proof (pow10_pos 15); lia).
  assert (L : length (dec m) = 16%nat).
  { pose proof (dec_length m 16 ltac:(unfold p10; change (Z.of_nat 16) with 16; lia) ltac:(lia)). pose proof (dec_long m 15 ltac:(unfold p10; change (Z.of_nat 15) with 15; lia)). lia. }
  pose proof (dec_run m M0) as R. pose proof (zval_dec m M0) as V. unfold show16. set (s := dec m) in *. clearbody s.
  assert (Sp : forall k, digit_run (firstn k s) /\ digit_run (skipn k s)). { intro k. rewrite <- (firstn_skipn k s) in R. now apply Forall_app in R. }
  destruct ((-4 <=? x) && (x <? 16)) eqn:X.
  - apply andb_true_iff in X as [X1 X2]. apply Z.leb_le in X1. apply Z.ltb_lt in X2. destruct (Z.leb_spec 0 x) as [Y|Y].
    + set (k := Z.to_nat (x + 1)). assert (K : (1 <= k <= 16)%nat) by lia. destruct (Sp k) as [Si Sf].
      destruct (with_point_ok (firstn k s) (skipn k s)) as (f' & j & Mt & Ev & El).
      { split; [|exact Si]. intro E. apply (f_equal (@length Z)) in E. rewrite firstn_length in E. cbn in E. lia. }
      { exact Sf. }
      exists (zval_digits (firstn k s ++ f')), j. split.
      * exists [], (with_point (firstn k s) (skipn k s)), [], (firstn k s), f', 0. rewrite app_nil_r, number_zval. repeat split; auto; try constructor.
        rewrite skipn_length in El. lia.
      * rewrite firstn_skipn in Ev. lia.
    + set (k := Z.to_nat (- x - 1)). destruct (with_point_ok $"0" (repeat 48 k ++ s)) as (f' & j & Mt & Ev & El).
      { split; [discriminate|]. apply (zeros_run 1). }
      { apply Forall_app. split; [apply zeros_run|exact R]. }
      exists (zval_digits ($"0" ++ f')), j. split.
      * exists [], (with_point $"0" (repeat 48 k ++ s)), [], $"0", f', 0. rewrite app_nil_r, number_zval. repeat split; auto; try constructor.
        rewrite app_length, repeat_length, Nat2Z.inj_add in El. unfold str, byte in *. rewrite L in El. lia.
      * change ($"0" ++ repeat 48 k ++ s) with (repeat 48 (S k) ++ s) in Ev. rewrite zval_zeros in Ev. lia.
  - clear X. destruct (Sp 1%nat) as [Si Sf]. destruct (with_point_ok (firstn 1 s) (skipn 1 s)) as (f' & j & Mt & Ev & El).
    { split; [|exact Si]. intro E. destruct s; discriminate. }
    { exact Sf. }
    destruct (pad_run 2 (Z.abs x) ltac:(lia)) as [P1 P2].
    exists (zval_digits (firstn 1 s ++ f')), j. split.
    + exists [], (with_point (firstn 1 s) (skipn 1 s)), ($"e" ++ (if x <? 0 then $"-" else $"+") ++ pad0 2 (Z.abs x)), (firstn 1 s), f', x.
      rewrite number_zval. repeat split; auto; try constructor.
      * destruct (Z.ltb_spec x 0); cbn [app].
        -- replace x with (- number_of (pad0 2 (Z.abs x))) at 2 by (rewrite number_zval; lia). apply (e_minus 101); [cbn; tauto|exact P1].
        -- replace x with (number_of (pad0 2 (Z.abs x))) at 2 by (rewrite number_zval; lia). apply (e_plus 101); [cbn; tauto|exact P1].
      * rewrite skipn_length in El. lia.
    + rewrite firstn_skipn in Ev. lia.
Qed.

(** ** Reading a number *)
Lemma scan_mantissa_end m i f : mantissa m i f -> scan_mantissa m = Some (i, f, []).
Proof.
  intro M. unfold scan_mantissa. destruct M as [d [Dn D]|d f [Dn D] F|f [Fn F]].
  - rewrite <- (app_nil_r d) at 1. rewrite digits_run by (auto; exact I). destruct d; [congruence|reflexivity].
  - change (d ++ $"." ++ f) with (d ++ 46 :: f). rewrite digits_run by (auto; reflexivity). destruct d; [congruence|].
    rewrite <- (app_nil_r f) at 1. now rewrite digits_run by (auto; exact I).
  - change ($"." ++ f) with ([] ++ 46 :: f). rewrite digits_run by (try constructor; reflexivity).
    rewrite <- (app_nil_r f) at 1. rewrite digits_run by (auto; exact I). destruct f; [congruence|reflexivity].
Qed.
Lemma digit_no_sign c r : is_digit c = true -> scan_exponent_sign (c :: r) = (1, c :: r).
Proof.
  intro D. apply digit_iff in D. unfold digit_char in D. destruct (sign_cases (c :: r)) as (sg & r' & E & [[H _]|[[H _]|[-> ->]]]); [injection H as -> _; lia|injection H as -> _; lia|exact E].
Qed.
Lemma scan_exponent_end e x : exponent e x -> scan_exponent e = (x, []).
Proof.
  intro E. unfold scan_exponent. destruct E as [|g d G D|g d G D|g d G D]; [reflexivity| | |];
    replace ((g =? 101) || (g =? 69)) with true by (symmetry; apply (in_cases _ _ G); repeat constructor); destruct D as [Dn D]; rewrite number_zval.
  - destruct d as [|h d]; [congruence|]. rewrite digit_no_sign by (apply digit_iff; now inversion D). rewrite <- (app_nil_r (h :: d)) at 1. rewrite digits_run by (auto; exact I). f_equal; lia.
  - cbn [scan_exponent_sign]. rewrite <- (app_nil_r d) at 1. rewrite digits_run by (auto; exact I). destruct d as [|h d]; [congruence|]. f_equal; lia.
  - cbn [scan_exponent_sign]. rewrite <- (app_nil_r d) at 1. rewrite digits_run by (auto; exact I). destruct d as [|h d]; [congruence|]. f_equal; lia.
Qed.
Lemma scan_mantissa_then m i f e x : mantissa m i f -> exponent e x -> scan_mantissa (m ++ e) = Some (i, f, e).
Proof.
  intros M E. destruct e as [|c r]; [rewrite app_nil_r; now apply scan_mantissa_end|]. apply scan_mantissa_ok; auto.
  - inversion E; subst; (apply (in_cases c [101; 69]); [assumption|repeat constructor]).
  - inversion E; subst; (apply (in_cases c [101; 69] ltac:(assumption) (fun c => c <> 46)); repeat constructor; lia).
Qed.
Lemma hex_none c t e x m i f : mantissa m i f -> exponent e x -> m ++ e = c :: t -> scan_hex (c :: t) = None.
Proof.
  intros M E H. unfold scan_hex. destruct (Z.eq_dec c 48) as [->|N].
  - destruct t as [|y r]; [reflexivity|]. replace (lower y =? 120) with false; [reflexivity|].
    assert (Y : is_digit y = true \/ y = 46 \/ y = 101 \/ y = 69).
    { destruct M as [d [Dn D]|d g [Dn D] G|g [Gn G]].
      - destruct d as [|h [|h' d]]; [congruence| |].
        + cbn [app] in H. injection H as -> ->. inversion E; subst; cbn in *; intuition lia.
        + cbn [app] in H. injection H as -> -> _. left. apply digit_iff. inversion D as [|? ? _ D']. now inversion D'.
      - destruct d as [|h [|h' d]]; [congruence| |].
        + cbn in H. injection H as -> -> _. auto.
        + cbn [app] in H. injection H as -> -> _. left. apply digit_iff. inversion D as [|? ? _ D']. now inversion D'.
      - discriminate H. }
    symmetry. apply Z.eqb_neq. unfold lower. destruct Y as [Y|[->|[->| ->]]]; [|cbn; lia|cbn; lia|cbn; lia]. apply digit_iff in Y. unfold digit_char in Y.
    destruct ((65 <=? y) && (y <=? 90)) eqn:Z; [apply andb_true_iff in Z as [Z _]; apply Z.leb_le in Z; lia|lia].
  - clear - N. destruct c as [|p|p]; try reflexivity. do 6 (destruct p as [p|p|]; try reflexivity). congruence.
Qed.
Lemma not_word c t w0 w : (is_digit c = true \/ c = 46) -> 97 <= w0 -> starts_any_case (w0 :: w) (c :: t) = false.
Proof.
  intros H W. unfold starts_any_case. cbn [length firstn map]. apply not_true_is_false. intro E. apply str_eqb_eq in E. injection E as E _.
  assert (C : c < 65) by (destruct H as [H| ->]; [apply digit_iff in H; unfold digit_char in H; lia|lia]). unfold lower in E.
  replace (65 <=? c) with false in E by (symmetry; apply Z.leb_gt; lia). cbn in E. lia.
Qed.
Lemma parse_ok t sg m e : numeral t sg m e -> parse_double t = SNum sg (stod m e).
Proof.
  intros (g & ms & es & i & f & x & -> & G & M & E & -> & ->). destruct (mantissa_head ms i f es M) as (c & r & H & C). unfold parse_double.
  assert (B : scan_exponent_sign (skip_blanks (g ++ ms ++ es)) = (sg, ms ++ es)).
  { rewrite H. destruct G; cbn [app].
    - assert (Bl : is_blank c = false).
      { assert (45 < c) by (destruct C as [C| ->]; [apply digit_iff in C; unfold digit_char in C; lia|lia]). unfold is_blank. destruct (Z.leb_spec c 13), (Z.eqb_spec c 32); lia. }
      cbn [skip_blanks]. rewrite Bl. destruct C as [C| ->]; [now apply digit_no_sign|reflexivity].
    - reflexivity. }
  rewrite B. rewrite H. change $"inf" with (105 :: $"nf"). change $"nan" with (110 :: $"an"). rewrite !not_word by (auto; lia). rewrite (hex_none c r es x ms i f M E H). rewrite <- H.
  rewrite (scan_mantissa_then _ _ _ _ _ M E), (scan_exponent_end _ _ E), number_zval. reflexivity.
Qed.
Lemma numeral_mant t sg m e : numeral t sg m e -> 0 <= m.
Proof. intros (g & ms & es & i & f & x & _ & _ & M & _ & -> & _). rewrite number_zval. eapply mant_nonneg; eassumption. Qed.
Lemma numeral_strip t sg m e : numeral t sg m e -> strip_quotes t = t.
Proof.
  intros (g & ms & es & i & f & x & -> & G & M & E & _). destruct (mantissa_head ms i f es M) as (c & r & H & C). rewrite H.
  assert (Q : exists c' r', g ++ c :: r = c' :: r' /\ c' <> 34).
  { destruct G; cbn [app]; eexists; eexists; (split; [reflexivity|]); [destruct C as [C| ->]; [intros ->; discriminate|lia]|lia]. }
  destruct Q as (c' & r' & -> & Q). unfold strip_quotes, is_quoted. apply Z.eqb_neq in Q.
  destruct r'; cbn; rewrite ?Q; reflexivity.
Qed.

(** ** The error *)
Lemma ratio_pos m e : 0 <= m -> let '(n, d) := ratio m e in 0 <= n /\ 0 < d /\ (0 < m -> 0 < n).
Proof.
  intro H. unfold ratio. destruct (Z.leb_spec 0 e).
  - pose proof (pow10_pos e ltac:(lia)). repeat split; nia.
  - pose proof (pow10_pos (- e) ltac:(lia)). repeat split; auto.
Qed.
Lemma abs_le a b : Z.abs a <= b <-> - b <= a /\ a <= b.
Proof. lia. Qed.
Lemma stod_close m e : 0 < m -> ordinary m e -> let '(n, d) := ratio m e in
  stod m e = Some (round_double n d) /\ let '(N, D) := fraction_of (round_double n d) in 0 < D /\ 0 < N /\ Z.abs (N * d - n * D) * 2 ^ 53 <= n * D.
Proof.
  intros M [O|O]; [lia|]. pose proof (ratio_pos m e ltac:(lia)) as R.
  assert (S : let '(n, d) := ratio m e in stod m e = if at_least (round_double n d) 1024 then None else if at_least (round_double n d) (-1022) then Some (round_double n d) else None).
  { unfold ratio, stod. replace (m =? 0) with false by (symmetry; apply Z.eqb_neq; lia). destruct (0 <=? e); reflexivity. }
  destruct (ratio m e) as [n d]. destruct R as (_ & Hd & Hn). specialize (Hn M). destruct O as [O1 O2].
  assert (B : big n d). { unfold big. assert (10 ^ 307 <= 2 ^ 1022) by (vm_compute; discriminate). nia. }
  pose proof (round_close n d Hn Hd B) as C.
  destruct (at_least (round_double n d) 1024) eqn:A1.
  { exfalso. apply at_least_spec in A1. destruct (fraction_of (round_double n d)) as [N D]. destruct C as (HD & HN & C). destruct A1 as [[_ A1]|[A1 _]]; [|lia].
    assert (C2 : 2 * (N * d) <= 3 * (n * D)). { change (2 ^ 53) with 9007199254740992 in C. lia. }
    assert (K : 3 * 10 ^ 308 < 2 * 2 ^ 1024) by reflexivity. set (P := 10 ^ 308) in *. set (Q := 2 ^ 1024) in *. clearbody P Q. clear - HD Hd A1 O2 C2 K.
    assert (E1 : D * d * Q <= N * d) by nia. assert (E2 : n * D <= D * d * P) by nia. assert (0 < D * d) by nia. set (w := D * d) in *. clearbody w. nia. }
  assert (C2 : let '(N, D) := fraction_of (round_double n d) in 0 < D /\ n * D <= 2 * (N * d)).
  { destruct (fraction_of (round_double n d)) as [N D]. destruct C as (HD & HN & C). split; [exact HD|]. change (2 ^ 53) with 9007199254740992 in C. lia. }
  assert (K : 2 * 10 ^ 307 <= 2 ^ 1022) by (vm_compute; discriminate).
  destruct (at_least (round_double n d) (-1022)) eqn:A2.
  - split; [exact S|]. destruct (fraction_of (round_double n d)) as [N D]. destruct C as (HD & HN & C). destruct C2 as [_ C2]. repeat split; auto. clear - C2 HD Hd Hn. nia.
  - exfalso. apply not_true_iff_false in A2. apply A2. apply at_least_spec. destruct (fraction_of (round_double n d)) as [N D]. destruct C2 as [HD C2]. right. split; [lia|]. change (- -1022) with 1022.
    set (P := 10 ^ 307) in *. set (Q := 2 ^ 1022) in *. assert (HP : 0 < P) by reflexivity. clearbody P Q. clear - HD Hd O1 C2 K HP Hn.
    assert (HN : 0 <= N) by nia.
    assert (E1 : d * D <= n * D * P) by nia. assert (E2 : n * D * P <= 2 * (N * d) * P) by nia. assert (E3 : N * d * (2 * P) <= N * d * Q) by nia.
    assert (E4 : d * D <= d * (N * Q)) by nia. nia.
Qed.
Lemma error_sum n d N D a b : 0 < n -> 0 < d -> 0 < N -> 0 < D -> 0 < b -> Z.abs (N * d - n * D) * 2 ^ 53 <= n * D -> Z.abs (a * D - N * b) * (2 * 10 ^ 15) <= N * b ->
  Z.abs (a * d - n * b) * 10 ^ 15 <= n * b.
Proof.
  intros Hn Hd HN HD Hb H1 H2. change (2 ^ 53) with 9007199254740992 in *. change (2 * 10 ^ 15) with 2000000000000000 in *. change (10 ^ 15) with 1000000000000000 in *.
  set (u := N * d - n * D) in *. set (v := a * D - N * b) in *.
  assert (E : (a * d - n * b) * D = d * v + b * u) by (unfold u, v; ring).
  assert (A : Z.abs (a * d - n * b) * D <= d * Z.abs v + b * Z.abs u).
  { rewrite <- (Z.abs_eq D) at 1 by lia. rewrite <- Z.abs_mul, E. pose proof (Z.abs_triangle (d * v) (b * u)) as T. rewrite !Z.abs_mul, (Z.abs_eq d), (Z.abs_eq b) in T by lia. exact T. }
  assert (U : N * d <= n * D + Z.abs u) by (unfold u; lia). set (w := Z.abs (a * d - n * b)) in *. set (p := Z.abs u) in *. set (q := Z.abs v) in *. clearbody w p q.
  assert (X1 : d * q * 2000000000000000 <= b * (n * D + p)) by nia. assert (X2 : b * p * 9007199254740992 <= b * (n * D)) by nia.
  assert (X3 : w * D * 1000000000000000 <= n * b * D). { set (g1 := d * q) in *. set (g2 := b * p) in *. replace (b * (n * D + p)) with (b * (n * D) + g2) in X1 by (unfold g2; ring). replace (n * b * D) with (b * (n * D)) by ring.
    assert (0 < b * (n * D)) by nia. set (g3 := b * (n * D)) in *. clearbody g1 g2 g3. lia. }
  nia.
Qed.
Lemma shifted_ratio m' j x : 0 <= j -> let '(a, b) := shifted (m' * 10 ^ j) (15 - x) in let '(n, d) := ratio m' (x - 15 + j) in n * b = a * d.
Proof.
  intro J. unfold shifted, ratio. destruct (Z.leb_spec 0 (15 - x)), (Z.leb_spec 0 (x - 15 + j)).
  - assert (E : 10 ^ j = 10 ^ (x - 15 + j) * 10 ^ (15 - x)) by (rewrite <- Z.pow_add_r by lia; f_equal; lia). rewrite E. ring.
  - assert (E : 10 ^ (15 - x) = 10 ^ j * 10 ^ (- (x - 15 + j))) by (rewrite <- Z.pow_add_r by lia; f_equal; lia). rewrite E. ring.
  - assert (E : 10 ^ (x - 15 + j) = 10 ^ j * 10 ^ (- (15 - x))) by (rewrite <- Z.pow_add_r by lia; f_equal; lia). rewrite E. ring.
  - lia.
Qed.
Lemma text_close m e x : 0 < m -> ordinary m e -> stod m e = Some x -> exists m' e', numeral (double_text 1 x) 1 m' e' /\ nearly m e m' e'.
Proof.
  intros M O Sx. pose proof (stod_close m e M O) as C. unfold nearly. pose proof (ratio_pos m e ltac:(lia)) as R. destruct (ratio m e) as [n d]. destruct R as (_ & Hd & Hn). specialize (Hn M).
  destruct C as [St C]. rewrite Sx in St. injection St as ->. unfold double_text. destruct (fraction_of (round_double n d)) as [N D]. destruct C as (HD & HN & C).
  replace (N =? 0) with false by (symmetry; apply Z.eqb_neq; lia). cbn [Z.ltb Z.compare app]. pose proof (significant_close N D HN HD) as SC. destruct (significant N D) as [k y]. destruct SC as [K SC].
  destruct (show16_ok k y K) as (m' & j & Nu & E). exists m', (y - 15 + Z.of_nat j). split; [exact Nu|]. pose proof (shifted_ratio m' (Z.of_nat j) y ltac:(lia)) as Q. rewrite <- E in Q.
  pose proof (ratio_pos m' (y - 15 + Z.of_nat j) (numeral_mant _ _ _ _ Nu)) as R.
  destruct (shifted k (15 - y)) as [a b]. destruct (ratio m' (y - 15 + Z.of_nat j)) as [n2 d2]. destruct SC as [Hb SC]. destruct R as (_ & Hd2 & _).
  pose proof (error_sum n d N D a b Hn Hd HN HD Hb C SC) as F.
  assert (W : Z.abs (n2 * d - n * d2) * b = d2 * Z.abs (a * d - n * b)).
  { rewrite <- (Z.abs_eq b) at 1 by lia. rewrite <- (Z.abs_eq d2) at 2 by lia. rewrite <- !Z.abs_mul. f_equal. replace ((n2 * d - n * d2) * b) with (n2 * b * d - n * d2 * b) by ring. rewrite Q. ring. }
  set (w := Z.abs (n2 * d - n * d2)) in *. set (w' := Z.abs (a * d - n * b)) in *. set (T := 10 ^ 15) in *. clearbody w w' T. clear - Hb Hd2 F W. assert (G : (w * T) * b <= (n * d2) * b).
  { replace (w * T * b) with (w * b * T) by ring. rewrite W. replace (d2 * w' * T) with (d2 * (w' * T)) by ring. replace (n * d2 * b) with (d2 * (n * b)) by ring. apply Z.mul_le_mono_nonneg_l; lia. }
  apply Z.mul_le_mono_pos_r in G; auto.
Qed.
Lemma nearly_refl m e : 0 <= m -> nearly m e m e.
Proof.
  intro M. unfold nearly. pose proof (ratio_pos m e M) as R. destruct (ratio m e) as [n d]. replace (n * d - n * d) with 0 by lia. cbn [Z.abs Z.mul]. nia.
Qed.
Lemma numeral_sign t m e : numeral t 1 m e -> numeral ($"-" ++ t) (-1) m e.
Proof.
  intros (g & ms & es & i & f & x & -> & G & M & E & E1 & E2). exists [45], ms, es, i, f, x. repeat split; auto; [|constructor]. inversion G; subst. reflexivity.
Qed.
Lemma value_ok t sg m e : numeral t sg m e -> ordinary m e ->
  exists t' m' e', (to_number (VString t) = Ok (RVal (VInt t')) \/ to_number (VString t) = Ok (RVal (VFloat t'))) /\ numeral t' sg m' e' /\ nearly m e m' e'.
Proof.
  intros Nu O. pose proof (numeral_mant _ _ _ _ Nu) as M. unfold to_number. destruct (is_int t) eqn:I.
  { exists t, m, e. split; [auto|]. split; [exact Nu|now apply nearly_refl]. }
  rewrite (numeral_strip _ _ _ _ Nu), (parse_ok _ _ _ _ Nu).
  assert (T : exists x m' e', stod m e = Some x /\ numeral (double_text 1 x) 1 m' e' /\ nearly m e m' e').
  { destruct (Z.eq_dec m 0) as [->|N0].
    - assert (X : exists x, stod 0 e = Some x /\ double_text 1 x = $"0").
      { unfold stod. rewrite Z.mul_0_l. replace (round_double 0 1) with (0, 0) by reflexivity. replace (round_double 0 (10 ^ - e)) with (0, 0) by reflexivity. exists (0, 0). now destruct (0 <=? e). }
      destruct X as (x & X1 & X2). exists x, 0, 0. split; [exact X1|]. rewrite X2. split.
      + exists [], $"0", [], $"0", [], 0. split; [reflexivity|]. split; [constructor|]. split; [constructor; split; [discriminate|apply (zeros_run 1)]|]. split; [constructor|]. split; reflexivity.
      + unfold nearly, ratio. destruct (0 <=? e); cbn; lia.
    - pose proof (stod_close m e ltac:(lia) O) as C. destruct (ratio m e) as [n d]. destruct C as [St _]. destruct (text_close m e _ ltac:(lia) O St) as (m' & e' & A & B). eauto 8. }
  destruct T as (x & m' & e' & -> & T1 & T2).
  assert (D : numeral (double_text sg x) sg m' e').
  { assert (Sg : sg = 1 \/ sg = -1) by (destruct Nu as (g & ms & es & i & f & y & _ & G & _); inversion G; auto). destruct Sg as [-> | ->]; [exact T1|].
    replace (double_text (-1) x) with ($"-" ++ double_text 1 x); [now apply numeral_sign|]. unfold double_text. destruct (fraction_of x) as [N D]. reflexivity. }
  exists (double_text sg x), m', e'. split; [|auto]. unfold double_scalar. destruct (existsb (Z.eqb 46) (double_text sg x)); auto.
Qed.

(** ** Texts that are no number *)
Lemma blank_iff c : is_blank c = true <-> 9 <= c <= 13 \/ c = 32.
Proof. unfold is_blank. rewrite orb_true_iff, andb_true_iff, !Z.leb_le, Z.eqb_eq. reflexivity. Qed.
Lemma skip_blanks_split s : exists b, s = b ++ skip_blanks s /\ blanks b.
Proof.
  induction s as [|c s (b & E & B)]; [exists []; split; [reflexivity|constructor]|]. cbn [skip_blanks]. destruct (is_blank c) eqn:C.
  - exists (c :: b). split; [cbn; now rewrite <- E|]. constructor; [now apply blank_iff|exact B].
  - exists []. split; [reflexivity|constructor].
Qed.
Lemma skip_blanks_app b c r : blanks b -> is_blank c = false -> skip_blanks (b ++ c :: r) = c :: r.
Proof.
  intros B C. induction B as [|x b X B IH]; cbn [app skip_blanks]; [now rewrite C|]. apply blank_iff in X. now rewrite X.
Qed.
Lemma any_case_iff l c : 97 <= l <= 122 -> (lower c = l <-> (c = l \/ c = l - 32)).
Proof.
  intro L. unfold lower. destruct ((65 <=? c) && (c <=? 90)) eqn:E.
  - apply andb_true_iff in E as [E1 E2]. apply Z.leb_le in E1, E2. lia.
  - apply andb_false_iff in E. rewrite !Z.leb_gt in E. lia.
Qed.
Lemma starts_iff w s : Forall (fun l => 97 <= l <= 122) w -> (starts_any_case w s = true <-> exists o r, s = o ++ r /\ any_case w o).
Proof.
  intro W. unfold starts_any_case. rewrite str_eqb_eq. revert s. induction W as [|l w L W IH]; intro s.
  - cbn. split; [intros _; exists [], s; split; [reflexivity|constructor]|reflexivity].
  - destruct s as [|c s]; cbn [length firstn map].
    + split; [discriminate|]. intros (o & r & E & A). inversion A; subst. discriminate.
    + split.
      * intro E. injection E as E1 E2. apply IH in E2 as (o & r & -> & A). exists (c :: o), r. split; [reflexivity|]. constructor; [now apply any_case_iff|exact A].
      * intros (o & r & E & A). inversion A as [|? c' ? o' X Y]; subst. injection E as -> ->. f_equal; [now apply any_case_iff|]. apply IH. eauto.
Qed.
Lemma inf_letters : Forall (fun l => 97 <= l <= 122) $"inf". Proof. repeat constructor; discriminate. Qed.
Lemma nan_letters : Forall (fun l => 97 <= l <= 122) $"nan". Proof. repeat constructor; discriminate. Qed.
(** What is left after blanks and a sign. *)
Definition body_scanned (r : str) (sign : Z) : scanned :=
  if starts_any_case $"inf" r then SInf
  else if starts_any_case $"nan" r then SNan
  else match scan_hex r with
       | Some (m, e) => SNum sign (stod_binary m e)
       | None =>
           match scan_mantissa r with
           | None => SNone
           | Some (i, f, r) => let '(x, _) := scan_exponent r in SNum sign (stod (zval_digits (i ++ f)) (x - Z.of_nat (length f)))
           end
       end.
Lemma parse_body s : parse_double s = let '(sign, r) := scan_exponent_sign (skip_blanks s) in body_scanned r sign.
Proof. reflexivity. Qed.
Lemma body_none r sg : body_scanned r sg = SNone <-> ~ exists o r', r = o ++ r' /\ opening o.
Proof.
  unfold body_scanned. destruct (starts_any_case $"inf" r) eqn:A1; [|destruct (starts_any_case $"nan" r) eqn:A2]; [| |destruct (scan_hex r) as [[m e]|] eqn:Hx; [|destruct (scan_mantissa r) as [[[i f] q]|] eqn:Sm]].
  - apply (starts_iff _ _ inf_letters) in A1 as (o & r' & -> & A). split; [discriminate|]. intro H. exfalso. apply H. exists o, r'. split; [reflexivity|now apply o_inf].
  - apply (starts_iff _ _ nan_letters) in A2 as (o & r' & -> & A). split; [discriminate|]. intro H. exfalso. apply H. exists o, r'. split; [reflexivity|now apply o_nan].
  - split; [discriminate|]. intro H. exfalso. apply H. destruct r as [|c r]; [discriminate|]. assert (c = 48) as ->.
    { destruct (Z.eq_dec c 48); [assumption|]. exfalso. unfold scan_hex in Hx. destruct c as [|p|p]; try discriminate. do 6 (destruct p as [p|p|]; try discriminate). congruence. }
    exists [48], r. split; [reflexivity|]. apply o_digit. unfold digit_char. lia.
  - split; [destruct (scan_exponent q); discriminate|]. intro H. exfalso. apply H. apply scan_mantissa_inv in Sm as (m & -> & M). destruct M as [d [Dn D]|d g [Dn D] G|g [Gn G]].
    + destruct d as [|c d]; [congruence|]. exists [c], (d ++ q). split; [reflexivity|]. apply o_digit. now inversion D.
    + destruct d as [|c d]; [congruence|]. eexists [c], _. split; [reflexivity|]. apply o_digit. now inversion D.
    + destruct g as [|c g]; [congruence|]. eexists [46; c], _. split; [reflexivity|]. apply o_point. now inversion G.
  - split; [intros _|reflexivity]. intros (o & r' & -> & O). destruct O as [c C|c C|s A|s A].
    + apply digit_iff in C. unfold scan_mantissa in Sm. cbn [app digits_of] in Sm. rewrite C in Sm. destruct (digits_of r') as [d q]. destruct q as [|z q]; [discriminate|].
      destruct (Z.eq_dec z 46) as [->|N]; [destruct (digits_of q); discriminate|]. rewrite not_dot in Sm by assumption. discriminate.
    + apply digit_iff in C. unfold scan_mantissa in Sm. cbn [app digits_of] in Sm. change (is_digit 46) with false in Sm. cbv iota in Sm. cbn [digits_of] in Sm. rewrite C in Sm. destruct (digits_of r'). discriminate.
    + apply not_true_iff_false in A1. apply A1. apply (starts_iff _ _ inf_letters). eauto.
    + apply not_true_iff_false in A2. apply A2. apply (starts_iff _ _ nan_letters). eauto.
Qed.
Lemma opening_head o r : opening o -> exists c t, o ++ r = c :: t /\ is_blank c = false /\ c <> 45 /\ c <> 43.
Proof.
  intro O. assert (H : exists c t, o ++ r = c :: t /\ (46 <= c)).
  { destruct O as [c C|c C|s A|s A].
    - exists c, r. split; [reflexivity|]. unfold digit_char in C. lia.
    - exists 46, (c :: r). split; [reflexivity|lia].
    - inversion A as [|? c ? t X Y]; subst. exists c, (t ++ r). split; [reflexivity|]. lia.
    - inversion A as [|? c ? t X Y]; subst. exists c, (t ++ r). split; [reflexivity|]. lia. }
  destruct H as (c & t & E & C). exists c, t. split; [exact E|]. split; [|lia]. apply not_true_iff_false. intro B. apply blank_iff in B. lia.
Qed.
Lemma no_sign c r : c <> 45 -> c <> 43 -> scan_exponent_sign (c :: r) = (1, c :: r).
Proof.
  intros A B. destruct (sign_cases (c :: r)) as (sg & r' & E & [[H _]|[[H _]|[-> ->]]]); [injection H as -> _; lia|injection H as -> _; lia|exact E].
Qed.
Lemma parse_none s : parse_double s = SNone <-> ~ begins_number s.
Proof.
  rewrite parse_body. destruct (scan_exponent_sign (skip_blanks s)) as [sg r] eqn:Sg. rewrite body_none.
  enough (E : (exists o r', r = o ++ r' /\ opening o) <-> begins_number s) by (rewrite E; reflexivity). split.
  - intros (o & r' & -> & O). destruct (skip_blanks_split s) as (b & E & B). destruct (sign_cases (skip_blanks s)) as (sg' & q & Q & C). rewrite Q in Sg. injection Sg as -> ->.
    destruct C as [[C _]|[[C _]|[C _]]].
    + exists b, $"-", o, r'. rewrite E, C. repeat split; auto. cbn. auto.
    + exists b, $"+", o, r'. rewrite E, C. repeat split; auto. cbn. auto.
    + exists b, [], o, r'. rewrite E, <- C. repeat split; auto. cbn. auto.
  - intros (b & g & o & r' & -> & B & G & O). exists o, r'. split; [|exact O]. destruct (opening_head o r' O) as (c & t & E & C1 & C2 & C3).
    rewrite E in *. destruct G as [<-|[<-|[<-|[]]]]; cbn [app] in Sg.
    + rewrite skip_blanks_app, no_sign in Sg by auto. now injection Sg.
    + change ($"-" ++ c :: t) with (45 :: c :: t) in Sg. rewrite skip_blanks_app in Sg by auto. now injection Sg.
    + change ($"+" ++ c :: t) with (43 :: c :: t) in Sg. rewrite skip_blanks_app in Sg by auto. now injection Sg.
Qed.
Lemma int_begins t : is_int t = true -> t <> $"-" -> begins_number t.
Proof.
  intros I N. unfold is_int in I. destruct t as [|c t]; [discriminate|]. destruct (Z.eqb_spec c cminus) as [->|C].
  - destruct t as [|d t]; [now elim N|]. cbn [forallb] in I. apply andb_true_iff in I as [I _]. exists [], $"-", [d], t. repeat split; [constructor|cbn; auto|]. apply o_digit. now apply digit_iff.
  - cbn [forallb] in I. apply andb_true_iff in I as [I _]. exists [], [], [c], t. repeat split; [constructor|cbn; auto|]. apply o_digit. now apply digit_iff.
Qed.
Lemma unquoted t : (forall r, t <> 34 :: r) -> strip_quotes t = t.
Proof.
  intro Q. unfold strip_quotes, is_quoted. destruct t as [|c [|c' t]]; try reflexivity. destruct (Z.eqb_spec c 34) as [->|N]; [now elim (Q (c' :: t))|reflexivity].
Qed.
Lemma refused t : (forall r, t <> 34 :: r) -> t <> $"-" -> (to_number (VString t) = Ok (RErr EvalBuiltInError) <-> ~ begins_number t).
Proof.
  intros Q N. unfold to_number. destruct (is_int t) eqn:I.
  - split; [discriminate|]. intro H. exfalso. apply H. now apply int_begins.
  - rewrite (unquoted t Q), <- parse_none. destruct (parse_double t) as [| | |sg [x|]]; split; intro H; try reflexivity; discriminate.
Qed.
Lemma integer_ok t : integer_text t -> is_int t = true.
Proof.
  intros (g & d & -> & G & [Dn D]). assert (F : forallb is_digit d = true) by (apply forallb_forall; intros c C; apply digit_iff; unfold digit_run in D; rewrite Forall_forall in D; auto).
  destruct d as [|c d]; [congruence|]. destruct G as [-> | ->]; [|exact F]. cbn [app]. unfold is_int. destruct (Z.eqb_spec c cminus) as [->|]; [discriminate F|exact F].
Qed.
Lemma dec_integer z : integer_text (dec z).
Proof.
  destruct (Z_le_gt_dec 0 z) as [H|H].
  - exists [], (dec z). repeat split; auto; [now apply dec_some|now apply dec_run].
  - exists $"-", (dec (- z)). split; [|split; [auto|split; [apply dec_some; lia|apply dec_run; lia]]]. destruct z as [|p|p]; try lia. reflexivity.
Qed.
Lemma digit_runb s : forallb is_digit s = true -> digit_run s.
Proof. intro H. rewrite forallb_forall in H. apply Forall_forall. intros c C. apply digit_iff. auto. Qed.
