(** C31 (semver), C32 (units), C36 (UUIDs) and C55 (rand.intn). *)
From Coq Require Import String ZArith List Bool Lia.
From Verif Require Import Base SMap SMapFacts BigIntSpec BigIntModel DecFacts BigIntProofs ValueModel ValueSpec ResolverModel VmModel
  CollObjProofs StrModel StrSpec StrProofs EncModel EncSpec EncProofs UriProofs MiscModel MiscSpec MiscProofs.
Import ListNotations.
Local Open Scope Z_scope.
Local Open Scope list_scope.

(** ** C31 *)

(** Every release whose numbers fit an [int] is a valid version, and so is every pre-release of it. *)
Theorem C31_valid a b c pre : part a -> part b -> part c -> ~ In 43 pre ->
  semver_is_valid (VString (release a b c)) = Ok (RVal VTrue) /\ semver_is_valid (VString (prerelease a b c pre)) = Ok (RVal VTrue).
Proof.
  intros A B C P. unfold semver_is_valid, prerelease. split.
  - rewrite <- (app_nil_r (release a b c)), parse_parts; auto.
  - rewrite parse_parts; auto; [ right; now exists pre | ]. intros [H | H]; [ discriminate | auto ].
Qed.
Print Assumptions C31_valid.
Example C31_valid_ex : release 1 20 3 = $"1.20.3" /\ prerelease 1 20 3 $"rc.1" = $"1.20.3-rc.1".
Proof. split; reflexivity. Qed.

(** What comparing two releases gives, for all of them: -1 when any number of the first is less or its text comes first. *)
Theorem C31_releases a b c a' b' c' : part a -> part b -> part c -> part a' -> part b' -> part c' -> exists r,
  semver_compare (VString (release a b c)) (VString (release a' b' c')) = Ok (RVal (VInt (dec r))) /\
  (r = -1 <-> a < a' \/ b < b' \/ c < c' \/ str_ltb (release a b c) (release a' b' c') = true) /\
  (r = 0 <-> a = a' /\ b = b' /\ c = c') /\ (r = -1 \/ r = 0 \/ r = 1).
Proof.
  intros A B C A' B' C'. unfold semver_compare.
  pose proof (parse_parts a b c [] A B C (or_introl eq_refl) (fun H => H)) as P1. rewrite app_nil_r in P1. rewrite P1.
  pose proof (parse_parts a' b' c' [] A' B' C' (or_introl eq_refl) (fun H => H)) as P2. rewrite app_nil_r in P2. rewrite P2. cbn [obind]. unfold semver_lt. cbn [sv_major sv_minor sv_patch sv_pre sv_meta str_ltb].
  pose proof (str_ltb_trichotomy (release a b c) (release a' b' c')) as T.
  assert (Q : a = a' -> b = b' -> c = c' -> release a b c = release a' b' c') by congruence.
  destruct (str_ltb (release a b c) (release a' b' c')) eqn:X, (str_ltb (release a' b' c') (release a b c)) eqn:Y;
    [ exfalso; intuition congruence | | | ]; cbn [orb]; rewrite ?orb_true_r, ?orb_false_r.
  - exists (-1). split; [ reflexivity | ]. repeat split; auto; try lia. intros (E1 & E2 & E3). specialize (Q E1 E2 E3). intuition congruence.
  - destruct ((a <? a') || (b <? b') || (c <? c')) eqn:L.
    + exists (-1). split; [ reflexivity | ]. repeat split; auto; try lia.
    + exists 1. split; [ reflexivity | ]. repeat split; auto; try lia. intros (E1 & E2 & E3). specialize (Q E1 E2 E3). intuition congruence.
  - destruct ((a <? a') || (b <? b') || (c <? c')) eqn:L.
    + exists (-1). split; [ reflexivity | ]. repeat split; auto; try lia.
    + destruct ((a' <? a) || (b' <? b) || (c' <? c)) eqn:L'.
      * exists 1. split; [ reflexivity | ]. repeat split; auto; try lia.
      * exists 0. split; [ reflexivity | ]. repeat split; auto; try lia.
Qed.
Print Assumptions C31_releases.
Example C31_releases_ex : part 1 /\ semver_compare (VString $"1.2.3") (VString $"1.2.4") = Ok (RVal (VInt (dec (-1)))).
Proof. split; [ unfold part; lia | reflexivity ]. Qed.

Lemma ltb_app x y u v : length x = length y -> str_ltb (x ++ u) (y ++ v) = str_ltb x y || (str_eqb x y && str_ltb u v).
Proof.
  revert y. induction x as [ | a x IH ]; intros [ | b y ] L; try discriminate; [ reflexivity | ]. injection L as L. cbn [app str_ltb str_eqb].
  rewrite (IH y L). destruct (Z.ltb_spec a b), (Z.eqb_spec a b), (Z.ltb_spec b a); try lia; reflexivity.
Qed.
Lemma ltb_dec m n : 0 <= m -> 0 <= n -> length (dec m) = length (dec n) -> str_ltb (dec m) (dec n) = (m <? n).
Proof.
  intros Hm Hn L. pose proof (dec_canon m Hm) as [Dm _]. pose proof (dec_canon n Hn) as [Dn _].
  rewrite ltb_same_len; auto. now rewrite !zval_dec.
Qed.
(** The comparison agrees with precedence, in both directions, when no number of one version is greater than in the other and the
    numbers have as many digits.  Missing: all other pairs, for which it is false (below). *)
Theorem C31_order_partial a b c a' b' c' : part a -> part b -> part c -> part a' -> part b' -> part c' ->
  a <= a' -> b <= b' -> c <= c' -> precedes a b c a' b' c' ->
  semver_compare (VString (release a b c)) (VString (release a' b' c')) = Ok (RVal (VInt $"-1")) /\
  (length (dec a) = length (dec a') -> length (dec b) = length (dec b') -> length (dec c) = length (dec c') ->
   semver_compare (VString (release a' b' c')) (VString (release a b c)) = Ok (RVal (VInt $"1"))).
Proof.
  intros A B C A' B' C' La Lb Lc P. unfold precedes in P. split.
  - destruct (C31_releases a b c a' b' c' A B C A' B' C') as (r & -> & R1 & R2 & R3). replace r with (-1) by lia. reflexivity.
  - intros Na Nb Nc. destruct (C31_releases a' b' c' a b c A' B' C' A B C) as (r & -> & R1 & R2 & R3).
    assert (X : str_ltb (release a' b' c') (release a b c) = false).
    { unfold part in *. unfold release. rewrite ltb_app by congruence. rewrite ltb_dec by (auto; lia). replace (a' <? a) with false by lia. cbn [orb].
      destruct (str_eqb (dec a') (dec a)); [ cbn [andb] | reflexivity ].
      rewrite (ltb_app [46] [46]) by reflexivity. cbn [str_ltb str_eqb Z.ltb Z.eqb Z.compare Pos.compare Pos.compare_cont Pos.eqb andb orb].
      rewrite ltb_app by congruence. rewrite ltb_dec by (auto; lia). replace (b' <? b) with false by lia. cbn [orb].
      destruct (str_eqb (dec b') (dec b)); [ cbn [andb] | reflexivity ].
      rewrite (ltb_app [46] [46]) by reflexivity. cbn [str_ltb str_eqb Z.ltb Z.eqb Z.compare Pos.compare Pos.compare_cont Pos.eqb andb orb].
      rewrite ltb_dec by (auto; lia). lia. }
    rewrite X in R1. assert (r <> -1) by (intros E; apply R1 in E; decompose [or] E; try lia; discriminate).
    assert (r <> 0) by (intros E; apply R2 in E; lia). replace r with 1 by lia. reflexivity.
Qed.
Print Assumptions C31_order_partial.
Example C31_order_ex : precedes 1 2 3 1 2 4 /\ semver_compare (VString $"1.2.4") (VString $"1.2.3") = Ok (RVal (VInt $"1")).
Proof. split; [ right; split; [ reflexivity | right; lia ] | reflexivity ]. Qed.
(** It is not antisymmetric and not lexicographic: a later major version is less when its minor number is less. *)
Theorem C31_antisymmetric_refuted : exists a b, a <> b /\
  semver_compare (VString a) (VString b) = Ok (RVal (VInt $"-1")) /\ semver_compare (VString b) (VString a) = Ok (RVal (VInt $"-1")).
Proof. exists $"2.0.0", $"1.1.0". repeat split. discriminate. Qed.
Theorem C31_precedence_refuted : precedes 1 9 0 1 10 0 /\
  semver_compare (VString (release 1 10 0)) (VString (release 1 9 0)) = Ok (RVal (VInt $"-1")).
Proof. split; [ right; split; [ reflexivity | left; lia ] | reflexivity ]. Qed.
(** A release precedes its pre-releases, and build metadata matters. *)
Theorem C31_prerelease_refuted : semver_compare (VString $"1.0.0") (VString $"1.0.0-alpha") = Ok (RVal (VInt $"-1")) /\
  semver_compare (VString $"1.0.0+a") (VString $"1.0.0+b") = Ok (RVal (VInt $"-1")).
Proof. split; reflexivity. Qed.
(** Text that is no version is accepted, and large numbers make the builtin throw. *)
Theorem C31_valid_refuted : semver_is_valid (VString $" 1.2x.3junk") = Ok (RVal VTrue) /\ semver_is_valid (VString $"1.2.99999999999") = Throw.
Proof. split; reflexivity. Qed.
(** Text with fewer than two points is rejected. *)
Theorem C31_rejects t u : ~ In 46 t -> ~ In 46 u ->
  semver_is_valid (VString t) = Ok (RVal VFalse) /\
  (semver_is_valid (VString (t ++ $"." ++ u)) = Ok (RVal VFalse) \/ semver_is_valid (VString (t ++ $"." ++ u)) = Throw).
Proof.
  intros T U. unfold semver_is_valid, parse_semver. rewrite find_char_none by exact T. split; [ reflexivity | ].
  rewrite find_char_some by exact T. unfold substr_to, substr. cbn [skipn].
  assert (SP : forall s, (exists r, semver_part s = Ok r) \/ semver_part s = Throw).
  { intros s. unfold semver_part. destruct s; [ eauto | ]. unfold stoi.
    match goal with |- context [match ?x with [] => (false, _) | _ => _ end] => destruct (match x with c :: s' => if c =? 45 then (true, s') else if c =? 43 then (false, s') else (false, x) | [] => (false, x) end) as [neg w] end.
    destruct (fst (span is_digit w)); [ eauto | ]. destruct ((_ <=? _) && _); eauto. }
  destruct (SP (firstn (length t) (t ++ [46] ++ u))) as [[r E] | E]; change $"." with [46] in *; unfold str, byte in *; rewrite E; cbn [obind]; [ | now right ].
  left. destruct r as [m | ]; [ | reflexivity ].
  assert (N : find_from [46] (t ++ [46] ++ u) (S (length t)) = None).
  { rewrite app_assoc. replace (S (length t)) with (length (t ++ [46])) by (rewrite app_length; cbn [length]; lia). now apply find_from_no_char. }
  unfold str, byte in *. rewrite N. reflexivity.
Qed.
Print Assumptions C31_rejects.

(** ** C32 *)

Section C32.
Variable F : fops.
Variable R : str -> str.

Lemma no_backslash_strip t : (forall u, t <> 92 :: u) -> strip_escaped_quotes t = t.
Proof.
  intros N. unfold strip_escaped_quotes. replace (prefixb [92; 34] t) with false; [ reflexivity | ].
  destruct t as [ | c t ]; [ reflexivity | ]. cbn [prefixb]. destruct (Z.eqb_spec 92 c) as [<- | ]; [ elim (N t); reflexivity | reflexivity ].
Qed.
Lemma amount_start a u : amount a -> forall v, a ++ u <> 92 :: v.
Proof. intros A v E. destruct (amount_head a A) as (c & w & -> & H & _). injection E as -> _. discriminate. Qed.
Lemma strip_b x b : byte_mark b -> (b = [] -> suffixb $"b" x || suffixb $"B" x = false) ->
  (if suffixb $"b" (x ++ b) || suffixb $"B" (x ++ b) then substr (x ++ b) 0 (length (x ++ b) - 1) else x ++ b) = x.
Proof.
  intros B H. destruct B as [-> | [-> | ->]].
  - rewrite app_nil_r, (H eq_refl). reflexivity.
  - replace (suffixb $"b" (x ++ $"b")) with true by (symmetry; apply suffixb_iff; eauto). cbn [orb]. unfold substr. cbn [skipn].
    change $"b" with [98]. rewrite app_length. cbn [length]. replace (length x + 1 - 1)%nat with (length x) by lia. apply firstn_app_length.
  - replace (suffixb $"B" (x ++ $"B")) with true by (symmetry; apply suffixb_iff; eauto). rewrite orb_true_r. unfold substr. cbn [skipn].
    change $"B" with [66]. rewrite app_length. cbn [length]. replace (length x + 1 - 1)%nat with (length x) by lia. apply firstn_app_length.
Qed.
Lemma unit_no_b a u f : amount a -> unit_factor u f -> suffixb $"b" (a ++ u) || suffixb $"B" (a ++ u) = false.
Proof.
  intros A U. assert (E : exists x c, a ++ u = x ++ [c] /\ c <> 98 /\ c <> 66).
  { destruct (unit_tables u f U) as [(-> & _) | T].
    - rewrite app_nil_r. destruct (amount_last a A) as (x & c & -> & C). exists x, c. unfold is_dec in C. repeat split; lia.
    - assert (L : exists w c, map to_lower u = w ++ [c] /\ c <> 98 /\ 97 <= c <= 122).
      { destruct T as [T | T].
        - destruct (byte_table _ _ T) as (d & E & _). exists [d], 105. split; [ exact E | lia ].
        - destruct (big_table _ _ T) as (d & E & D & _). exists [], d. split; [ exact E | ]. cbn [In] in D. lia. }
      destruct L as (w & c & E & N & Rc). apply map_eq_app in E as (u1 & u2 & -> & _ & E). destruct u2 as [ | y [ | ? ? ] ]; try discriminate.
      injection E as E. exists (a ++ u1), y. rewrite <- app_assoc. split; [ reflexivity | ]. unfold to_lower in E.
      destruct ((65 <=? y) && (y <=? 90)) eqn:Q; lia. }
  destruct E as (x & c & -> & N1 & N2).
  destruct (suffixb $"b" (x ++ [c])) eqn:Q; [ apply suffixb_iff in Q as [z Q]; change $"b" with [98] in Q; apply app_inj_tail in Q; lia | ].
  destruct (suffixb $"B" (x ++ [c])) eqn:Q'; [ apply suffixb_iff in Q' as [z Q']; change $"B" with [66] in Q'; apply app_inj_tail in Q'; lia | ]. reflexivity.
Qed.
Lemma dec_lower n : map to_lower (dec n) = dec n.
Proof. apply map_lower_same. eapply Forall_impl; [ | apply dec_chars ]. cbv beta. unfold is_dec. intros; lia. Qed.
Lemma exact_unit n u f small round : unit_factor u f -> (small = true -> u <> $"m") ->
  units_do_parse F R (dec n ++ u) small round = Ok (RVal (VInt (dec (n * f)))).
Proof.
  intros U M. rewrite (do_parse_unit F R (dec n) u f) by (auto using dec_amount). unfold with_number. rewrite dec_lower, parse_dec.
  destruct u as [ | c u ].
  - destruct (unit_tables [] f U) as [(_ & ->) | [I | I]]; [ now rewrite Z.mul_1_r | | ].
    + destruct (byte_table _ _ I) as (d & E & _). discriminate.
    + destruct (big_table _ _ I) as (d & E & _). discriminate.
  - cbn [scale_int]. now rewrite bi_mul_spec.
Qed.
(** Integers of any size are scaled exactly: in bytes, *)
Theorem C32_parse_bytes_exact n u b f : unit_factor u f -> byte_mark b ->
  units_parse_bytes F R (VString (dec n ++ u ++ b)) = Ok (RVal (VInt (dec (n * f)))).
Proof.
  intros U B. unfold units_parse_bytes. rewrite no_backslash_strip by (apply amount_start, dec_amount).
  rewrite app_assoc, strip_b; auto; [ | intros _; apply (unit_no_b _ _ f); auto using dec_amount ]. now apply exact_unit.
Qed.
(** and in general, where "m" is a thousandth. *)
Theorem C32_parse_exact n u f : unit_factor u f -> u <> $"m" ->
  units_parse F R (VString (dec n ++ u)) = Ok (RVal (VInt (dec (n * f)))).
Proof. intros U M. unfold units_parse. rewrite no_backslash_strip by (apply amount_start, dec_amount). now apply exact_unit. Qed.
(** Everything else is an error: text that is not a number followed by a known unit. *)
Theorem C32_parse_bytes_errors t : (forall u, t <> 92 :: u) ->
  (forall a u b f, t = a ++ u ++ b -> amount a -> unit_factor u f -> ~ byte_mark b) ->
  units_parse_bytes F R (VString t) = Ok (RErr EvalBuiltInError).
Proof.
  intros N H. unfold units_parse_bytes. rewrite no_backslash_strip by exact N.
  assert (E : exists x b, byte_mark b /\ t = x ++ b /\ (if suffixb $"b" t || suffixb $"B" t then substr t 0 (length t - 1) else t) = x).
  { destruct (suffixb $"b" t || suffixb $"B" t) eqn:Q.
    - apply orb_true_iff in Q. destruct Q as [Q | Q]; apply suffixb_iff in Q as [x ->]; exists x; eexists; (split; [ | split; [ reflexivity | ] ]).
      + right. now left.
      + pose proof (strip_b x $"b" (or_intror (or_introl eq_refl)) (fun E => ltac:(discriminate E))) as S.
        replace (suffixb $"b" (x ++ $"b")) with true in S by (symmetry; apply suffixb_iff; eauto). exact S.
      + right. now right.
      + pose proof (strip_b x $"B" (or_intror (or_intror eq_refl)) (fun E => ltac:(discriminate E))) as S.
        replace (suffixb $"B" (x ++ $"B")) with true in S by (symmetry; apply suffixb_iff; eauto). rewrite orb_true_r in S. exact S.
    - exists t, []. split; [ now left | ]. rewrite app_nil_r. auto. }
  destruct E as (x & b & B & E & Ex). unfold str, byte in *. rewrite Ex. apply do_parse_error. intros a u -> A. split; [ | discriminate ]. intros f U.
  apply (H a u b f); auto. now rewrite <- app_assoc in E.
Qed.
Theorem C32_parse_errors t : (forall u, t <> 92 :: u) ->
  (forall a u f, t = a ++ u -> amount a -> ~ unit_factor u f /\ ~ small_unit u) ->
  units_parse F R (VString t) = Ok (RErr EvalBuiltInError).
Proof.
  intros N H. unfold units_parse. rewrite no_backslash_strip by exact N. apply do_parse_error. intros a u E A.
  split; [ intros f; apply (H a u f E A) | intros _; apply (H a u 0 E A) ].
Qed.
(** A number with a known unit is never an error; unless a double is involved it is a number. *)
Theorem C32_parse_bytes_accepts a u b f : amount a -> unit_factor u f -> byte_mark b ->
  match units_parse_bytes F R (VString (a ++ u ++ b)) with Ok (RVal _) | Throw | Ub => True | _ => False end.
Proof.
  intros A U B. unfold units_parse_bytes. rewrite no_backslash_strip by (now apply amount_start).
  rewrite app_assoc, strip_b; auto; [ | intros _; now apply (unit_no_b _ _ f) ].
  rewrite (do_parse_unit F R a u f); auto; [ | discriminate ]. unfold with_number. destruct u as [ | c u ].
  - rewrite parse_number_ok by exact A. exact I.
  - rewrite parse_number_ok by (now apply amount_lower).
    destruct (_ || _); cbn [scale_int]; [ | exact I ]. 
    assert (X : exists s, bi_to_int (dec f) = Some s).
    { unfold unit_factor in U. cbn [In] in U. decompose [or] U; try contradiction;
        match goal with E : _ = (_, f) |- _ => apply pair_equal_spec in E as [_ <-] end; eexists; vm_compute; reflexivity. }
    destruct X as [s ->]. unfold get_double. destruct (f_ok F _); cbn [obind]; [ | exact I ].
    unfold mul_double. destruct (f_arith F OpMul _ _); exact I.
Qed.
(** Escaped quotes round the text make no difference. *)
Theorem C32_quoted t : (forall u, t <> 92 :: u) ->
  units_parse_bytes F R (VString ([92; 34] ++ t ++ [92; 34])) = units_parse_bytes F R (VString t) /\
  units_parse F R (VString ([92; 34] ++ t ++ [92; 34])) = units_parse F R (VString t).
Proof.
  intros N. unfold units_parse_bytes, units_parse.
  assert (E : strip_escaped_quotes ([92; 34] ++ t ++ [92; 34]) = t).
  { unfold strip_escaped_quotes. replace (suffixb [92; 34] ([92; 34] ++ t ++ [92; 34])) with true by (symmetry; apply suffixb_iff; exists ([92; 34] ++ t); now rewrite <- app_assoc).
    cbn [app prefixb Z.eqb Pos.eqb andb length]. unfold substr. cbn [skipn]. rewrite app_length. cbn [length].
    replace (S (S (length t + 2)) - 4)%nat with (length t) by lia. apply firstn_app_length. }
  rewrite E, (no_backslash_strip t N). split; reflexivity.
Qed.
(** Leading zeros stay in the result, which is then not the number; a plus sign spoils it. *)
Theorem C32_digits_refuted : units_parse_bytes F R (VString $"007") = Ok (RVal (VInt $"007")) /\
  (forall z, $"007" <> dec z) /\ units_parse_bytes F R (VString $"+5k") <> Ok (RVal (VInt $"5000")).
Proof.
  split; [ vm_compute; reflexivity | ]. split.
  - intros z E. assert (z = 7) by (rewrite <- (zval_dec_all z), <- E; reflexivity). subst z. discriminate.
  - vm_compute. discriminate.
Qed.
End C32.
Print Assumptions C32_parse_bytes_exact.
Print Assumptions C32_parse_exact.
Print Assumptions C32_parse_bytes_errors.
Print Assumptions C32_parse_errors.
Print Assumptions C32_parse_bytes_accepts.
Print Assumptions C32_quoted.
Print Assumptions C32_digits_refuted.
Example C32_ex F R : unit_factor $"Gi" (1024 ^ 3) /\ units_parse_bytes F R (VString $"128GiB") = Ok (RVal (VInt (dec (128 * 1024 ^ 3)))).
Proof. split; [ cbn; tauto | vm_compute; reflexivity ]. Qed.
Example C32_error_ex F R : units_parse_bytes F R (VString $"12xb") = Ok (RErr EvalBuiltInError) /\ units_parse F R (VString $"1 k") = Ok (RErr EvalBuiltInError).
Proof. split; reflexivity. Qed.
Example C32_amount_ex : amount $"-1.5e+3".
Proof.
  exists $"-", $"1", $".", $"5", $"e+3". split; [ reflexivity | ]. split; [ now right; right | ].
  split; [ repeat constructor; discriminate | ]. split; [ repeat constructor; discriminate | ]. split.
  - right. exists 101, $"+", $"3". split; [ reflexivity | ]. split; [ now left | ]. split; [ now right; left | ].
    split; [ repeat constructor; discriminate | ]. split; [ discriminate | cbn; lia ].
  - right. split; [ reflexivity | left; discriminate ].
Qed.

(** ** C36 *)

(** Parsing accepts exactly 32 hexadecimal digits with dashes anywhere, perhaps in braces and after "urn:uuid:". *)
Theorem C36_parse t : (forall u, t <> $"urn:uuid:" ++ u) ->
  (forall id, uuid_text id t -> uuid_parse (VString t) = let! l := uuid_items id in ok (VObject l)) /\
  ((forall id, ~ uuid_text id t) -> uuid_parse (VString t) = Ok (RErr WellFormedError)) /\
  uuid_parse (VString ($"urn:uuid:" ++ t)) = uuid_parse (VString t).
Proof.
  intros N. unfold uuid_parse.
  assert (P : prefixb $"urn:uuid:" t = false).
  { destruct (prefixb $"urn:uuid:" t) eqn:E; auto. apply prefixb_iff in E as [u ->]. elim (N u). reflexivity. }
  assert (P' : prefixb $"urn:uuid:" ($"urn:uuid:" ++ t) = true) by (apply prefixb_iff; eauto).
  rewrite P, P'. split; [ | split ].
  - intros id H. apply uuid_text_spec in H. now rewrite H.
  - intros H. destruct (uuid_from_string t) as [id | ] eqn:E; [ | reflexivity ]. apply uuid_text_spec in E. elim (H id E).
  - reflexivity.
Qed.
Print Assumptions C36_parse.
(** The text of a UUID determines it, and what is printed is read back. *)
Theorem C36_text_unique id id' t : uuid_text id t -> uuid_text id' t -> id = id'.
Proof. intros H H'. apply uuid_text_spec in H, H'. congruence. Qed.
Print Assumptions C36_text_unique.
Theorem C36_round_trip id : uuid id -> uuid_text id (uuid_to_string id) /\ uuid_from_string (uuid_to_string id) = Some id.
Proof. intros U. split; [ apply uuid_text_spec | ]; now apply uuid_round_trip. Qed.
Print Assumptions C36_round_trip.
(** The printed text has the canonical form: groups of 8, 4, 4, 4 and 12 lower-case digits. *)
Theorem C36_canonical id : uuid id -> exists a b c d e, uuid_to_string id = a ++ $"-" ++ b ++ $"-" ++ c ++ $"-" ++ d ++ $"-" ++ e /\
  map (@length Z) [a; b; c; d; e] = [8; 4; 4; 4; 12]%nat /\ Forall (fun x => In x $"0123456789abcdef") (a ++ b ++ c ++ d ++ e).
Proof.
  intros [L O]. unfold uuid_to_string.
  do 16 (destruct id as [ | ? id ]; [ discriminate | ]). destruct id; [ | discriminate ].
  repeat match goal with H : octets (_ :: _) |- _ => inversion H; subst; clear H; match goal with K : Forall _ ?l |- _ => change (octets l) in K end end.
  unfold at_. cbn [seq flat_map nth existsb Nat.eqb orb]. rewrite ?app_nil_r.
  repeat match goal with H : 0 <= ?b < 256 |- _ => let x := fresh "x" in let y := fresh "y" in let E := fresh in
    destruct (hex2_digits b H) as (x & y & E & _ & _ & ? & ?); rewrite E; clear H E end.
  cbn [app]. 
  match goal with |- exists a b c d e, ?x = _ /\ _ =>
    exists (firstn 8 x), (firstn 4 (skipn 9 x)), (firstn 4 (skipn 14 x)), (firstn 4 (skipn 19 x)), (skipn 24 x) end.
  cbn [firstn skipn app bytes_of]. split; [ reflexivity | ]. split; [ reflexivity | ].
  repeat (apply Forall_cons; [ assumption | ]). constructor.
Qed.
Print Assumptions C36_canonical.
Definition sample : list Z := [18; 62; 69; 103; 232; 155; 18; 211; 164; 86; 66; 102; 20; 23; 64; 2].
Example C36_ex : uuid sample /\ uuid_to_string sample = $"123e4567-e89b-12d3-a456-426614174002" /\
  uuid_text sample $"{123E4567e89b12d3A456426614174002}".
Proof.
  split; [ split; [ reflexivity | repeat (apply Forall_cons; [ lia | ]); constructor ] | ]. split; [ vm_compute; reflexivity | ].
  apply uuid_text_spec. vm_compute. reflexivity.
Qed.

(** The fields are those of RFC 4122: variant and version for all UUIDs; timestamp, clock sequence and node for versions 1 and 2. *)
Theorem C36_fields id : uuid id -> exists l, forall t, uuid_text id t -> (forall u, t <> $"urn:uuid:" ++ u) ->
  rfc_version id <> 1 -> rfc_version id <> 2 ->
  uuid_parse (VString t) = Ok (RVal (VObject l)) /\
  l = [(VString $"variant", VString (rfc_variant id)); (VString $"version", VInt (dec (rfc_version id)))].
Proof.
  intros [L O]. eexists. intros t T N V1 V2. split; [ | reflexivity ]. destruct (C36_parse t N) as (P & _). rewrite (P id T). unfold uuid_items.
  rewrite variant_eq by exact O. change (at_ id 6) with (byte_of id 6). unfold rfc_version in *. rewrite Z.shiftr_div_pow2 by lia. change (2 ^ 4) with 16.
  replace (byte_of id 6 / 16 =? 1) with false by lia. replace (byte_of id 6 / 16 =? 2) with false by lia. cbn [orb obind]. unfold ok, vint. do 4 f_equal.
  f_equal. unfold mkstr, strip_quotes. unfold rfc_variant. destruct (_ <? 128); [ reflexivity | ]. destruct (_ <? 192); [ reflexivity | ]. destruct (_ <? 224); reflexivity.
Qed.
Print Assumptions C36_fields.
Definition field (k : str) (l : list (value * value)) (v : value) : Prop := In (VString k, v) l /\ forall w, In (VString k, w) l -> w = v.
(** Partial: when the time in nanoseconds fits 64 bits and the MAC address is not local multicast. *)
Theorem C36_time_fields_partial id t : uuid id -> uuid_text id t -> (forall u, t <> $"urn:uuid:" ++ u) ->
  rfc_version id = 1 \/ rfc_version id = 2 -> int64_min <= rfc_unix_ns id <= int64_max -> byte_of id 10 mod 4 <> 3 ->
  exists l, uuid_parse (VString t) = Ok (RVal (VObject l)) /\
    field $"variant" l (VString (rfc_variant id)) /\ field $"version" l (VInt (dec (rfc_version id))) /\
    field $"time" l (VInt (dec (rfc_unix_ns id))) /\ field $"clocksequence" l (VInt (dec (rfc_clock id))) /\
    field $"macvariables" l (VString (rfc_mac id)) /\
    field $"nodeid" l (VString (intercalate $"-" (map (fun i => hex2 (byte_of id i)) [10; 11; 12; 13; 14; 15]%nat))) /\
    (rfc_version id = 2 -> field $"id" l (VInt (dec (byte_of id 0 * 2 ^ 24 + byte_of id 1 * 2 ^ 16 + byte_of id 2 * 2 ^ 8 + byte_of id 3)))) /\
    (rfc_version id = 2 -> field $"domain" l (VString (dce_domain id))).
Proof.
  intros [L O] T N V Tm Mc. destruct (C36_parse t N) as (P & _). rewrite (P id T). unfold uuid_items.
  rewrite variant_eq, get_time_eq, clock_eq, mac_eq, low32_eq by assumption. change (at_ id 6) with (byte_of id 6).
  rewrite Z.shiftr_div_pow2 by lia. change (2 ^ 4) with 16. fold (rfc_version id).
  replace ((rfc_version id =? 1) || (rfc_version id =? 2)) with true by lia.
  unfold rfc_unix_ns in *. change ((2440587 - 2299160) * 86400 * 10 ^ 7) with g1582ns100 in *.
  unfold int64 at 1. replace ((int64_min <=? rfc_timestamp id - g1582ns100) && (rfc_timestamp id - g1582ns100 <=? int64_max)) with true.
  2:{ unfold int64_min, int64_max in *. lia. }
  cbn [obind]. unfold int64. replace ((int64_min <=? (rfc_timestamp id - g1582ns100) * 100) && ((rfc_timestamp id - g1582ns100) * 100 <=? int64_max)) with true by lia.
  cbn [obind].
  assert (Mv : mkstr (rfc_variant id) = VString (rfc_variant id)).
  { unfold mkstr, strip_quotes, rfc_variant. destruct (_ <? 128); [ reflexivity | ]. destruct (_ <? 192); [ reflexivity | ]. destruct (_ <? 224); reflexivity. }
  assert (Mm : mkstr (rfc_mac id) = VString (rfc_mac id)).
  { unfold mkstr, strip_quotes, rfc_mac. destruct (_ / 2 mod 2 =? 1), (_ mod 2 =? 1); reflexivity. }
  assert (Mn : mkstr (get_node_id id) = VString (intercalate $"-" (map (fun i => hex2 (byte_of id i)) [10; 11; 12; 13; 14; 15]%nat))).
  { assert (E : get_node_id id = intercalate $"-" (map (fun i => hex2 (byte_of id i)) [10; 11; 12; 13; 14; 15]%nat)).
    { unfold get_node_id. change (at_ id) with (byte_of id). cbn [seq flat_map Nat.ltb Nat.leb map intercalate bytes_of]. rewrite ?app_nil_r. rewrite <- ?app_assoc. reflexivity. }
    rewrite E. unfold mkstr. f_equal. apply strip_no_quote. cbn [map intercalate]. rewrite !in_app_iff.
    assert (Q : forall i, ~ In 34 (hex2 (byte_of id i))).
    { intros i. destruct (hex2_digits _ (byte_bound id i O)) as (x & y & -> & _ & _ & Ix & Iy). apply hex_char_not in Ix, Iy. cbn [In]. lia. }
    intros H. decompose [or] H; try (eapply Q; eassumption); match goal with K : In 34 $"-" |- _ => cbn in K; lia end. }
  assert (Md : mkstr (get_domain id) = VString (dce_domain id)).
  { assert (E : get_domain id = dce_domain id).
    { unfold get_domain, dce_domain. change (at_ id 9) with (byte_of id 9). destruct (byte_of id 9) as [ | [p | [p | p | ] | ] | p ]; reflexivity. }
    rewrite E. unfold mkstr. f_equal. apply strip_no_quote. rewrite <- E. unfold get_domain.
    destruct (_ =? 0); [ cbn; lia | ]. destruct (_ =? 1); [ cbn; lia | ]. destruct (_ =? 2); [ cbn; lia | ].
    rewrite in_app_iff. intros [H | H]; [ cbn in H; lia | ]. pose proof (dec_chars (at_ id 9)) as Fc. rewrite Forall_forall in Fc. apply Fc in H. unfold is_dec in H. lia. }
  rewrite Mv, Mm, Mn, Md. eexists. split; [ reflexivity | ].
  assert (K : forall k v l, In (VString k, v) l -> NoDup (map fst l) -> field k l v).
  { intros k v l I Nd. split; auto. intros w J. exact (fst_inj l _ _ _ Nd J I). }
  assert (Nd : forall (v1 v2 v3 v4 v5 v6 v7 v8 : value),
     NoDup (map fst ([(VString $"variant", v1); (VString $"version", v2)] ++
      [(VString $"time", v3); (VString $"clocksequence", v4); (VString $"nodeid", v5); (VString $"macvariables", v6)] ++
      (if rfc_version id =? 2 then [(VString $"id", v7); (VString $"domain", v8)] else [])))).
  { intros. destruct (rfc_version id =? 2); cbn [app map fst]; repeat (apply NoDup_cons; [ cbn; intuition discriminate | ]); constructor. }
  repeat split; try (apply K; [ cbn [app In]; tauto | apply Nd ]); try (intros w J; refine (fst_inj _ _ _ _ (Nd _ _ _ _ _ _ _ _) J _); cbn [app In]; tauto);
    try (cbn [app In]; tauto).
  all: assert (E2 : (rfc_version id =? 2) = true) by (apply Z.eqb_eq; assumption).
  all: try (intros w J; refine (fst_inj _ _ _ _ (Nd _ _ _ _ _ _ _ _) J _)); apply in_or_app; right; apply in_or_app; right; rewrite E2;
    first [ now left | right; now left ].
Qed.
Print Assumptions C36_time_fields_partial.
Example C36_fields_ex : rfc_version sample = 1 /\ (int64_min <= rfc_unix_ns sample <= int64_max) /\ byte_of sample 10 mod 4 <> 3.
Proof. vm_compute. repeat split; discriminate. Qed.
(** Local multicast addresses are reported as global unicast; times before 1677 or after 2262 overflow. *)
Theorem C36_mac_refuted : exists id, uuid id /\ rfc_mac id = $"local:multicast" /\ get_mac_vars id = $"global:unicast".
Proof. exists (repeat 3 16). repeat split. apply Forall_forall. intros x H. apply repeat_spec in H. lia. Qed.
Theorem C36_time_refuted : uuid_parse (VString $"00000000-0000-1000-8000-000000000000") = Ub.
Proof. vm_compute. reflexivity. Qed.

(** Generated UUIDs: whatever the generator produces, and after any calls, the answer is the canonical text of a UUID of version 4
    and RFC 4122 variant, and within a query the same argument gives the same answer. *)
Section History.
Variable gen : nat -> Z.
Fixpoint calls (st : uuid_state) (ks : list str) : uuid_state :=
  match ks with [] => st | k :: ks' => calls (fst (rfc4122 gen st (VString k))) ks' end.
Definition fresh (n : nat) : uuid_state := {| u_cache := []; u_next := n |}.
Definition good (t : str) : Prop := exists id, uuid id /\ t = uuid_to_string id /\ rfc_version id = 4 /\ rfc_variant id = $"RFC4122".
Lemma good_text t : good t -> mkstr t = VString t.
Proof.
  intros (id & U & -> & _). unfold mkstr. f_equal. apply strip_no_quote. destruct (C36_canonical id U) as (a & b & c & d & e & -> & _ & H).
  rewrite !Forall_app in H. destruct H as (Ha & Hb & Hc & Hd & He). rewrite !in_app_iff.
  assert (Q : forall x, Forall (fun x => In x $"0123456789abcdef") x -> ~ In 34 x).
  { intros x Hx I. rewrite Forall_forall in Hx. apply Hx, hex_char_not in I. lia. }
  intros H. decompose [or] H; try (eapply Q; [ | eassumption ]; assumption); match goal with K : In 34 $"-" |- _ => cbn in K; lia end.
Qed.
Lemma random_good w0 w1 w2 w3 : good (uuid_to_string (uuid_random w0 w1 w2 w3)).
Proof. destruct (random_uuid w0 w1 w2 w3) as (U & V & W). exists (uuid_random w0 w1 w2 w3). auto. Qed.
Definition inv (st : uuid_state) : Prop := keyed (u_cache st) /\ forall k t, sm_find k (u_cache st) = Some t -> good t.
Lemma inv_call st k : inv st -> inv (fst (rfc4122 gen st (VString k))) /\
  exists t, good t /\ snd (rfc4122 gen st (VString k)) = Ok (RVal (VString t)) /\ sm_find k (u_cache (fst (rfc4122 gen st (VString k)))) = Some t /\
    forall k' t', sm_find k' (u_cache st) = Some t' -> sm_find k' (u_cache (fst (rfc4122 gen st (VString k)))) = Some t'.
Proof.
  intros [K G]. cbn [rfc4122]. destruct (sm_find k (u_cache st)) as [t | ] eqn:E.
  - cbn [fst snd]. split; [ split; assumption | ]. exists t. repeat split; auto. now apply G with k.
  - cbn [fst snd u_cache]. set (t := uuid_to_string _). assert (Gt : good t) by apply random_good. split.
    + split; [ now apply sm_set_keyed | ]. intros k' t'. cbn [u_cache]. rewrite sm_find_set by exact K. destruct (str_eqb k' k) eqn:Q; [ congruence | apply G ].
    + exists t. repeat split; auto.
      * unfold ok. now rewrite good_text.
      * rewrite sm_find_set by exact K. now rewrite str_eqb_refl.
      * intros k' t' H. rewrite sm_find_set by exact K. destruct (str_eqb k' k) eqn:Q; [ | exact H ]. apply str_eqb_eq in Q. congruence.
Qed.
Lemma inv_calls ks : forall st, inv st -> inv (calls st ks) /\
  forall k t, sm_find k (u_cache st) = Some t -> sm_find k (u_cache (calls st ks)) = Some t.
Proof.
  induction ks as [ | k ks IH ]; intros st I; cbn [calls]; [ auto | ]. destruct (inv_call st k I) as (I' & t & _ & _ & _ & M).
  destruct (IH _ I') as [J N]. split; auto.
Qed.
Theorem C36_generated n before k : let st := calls (fresh n) before in exists id,
  snd (rfc4122 gen st (VString k)) = Ok (RVal (VString (uuid_to_string id))) /\ uuid id /\ rfc_version id = 4 /\ rfc_variant id = $"RFC4122".
Proof.
  intros st. assert (I : inv st). { apply inv_calls. split; [ exact keyed_nil | discriminate ]. }
  destruct (inv_call st k I) as (_ & t & (id & U & -> & V & W) & E & _). exists id. auto.
Qed.
Theorem C36_consistent n before k between : let st := calls (fresh n) before in
  snd (rfc4122 gen (calls (fst (rfc4122 gen st (VString k))) between) (VString k)) = snd (rfc4122 gen st (VString k)).
Proof.
  intros st. assert (I : inv st). { apply inv_calls. split; [ exact keyed_nil | discriminate ]. }
  destruct (inv_call st k I) as (I' & t & _ & E & Fk & _). destruct (inv_calls between _ I') as [I'' M].
  rewrite E. cbn [rfc4122] in *. rewrite (M k t Fk). reflexivity.
Qed.
(** Different arguments use different outputs of the generator. *)
Theorem C36_distinct n before k k' : let st := calls (fresh n) before in
  sm_find k (u_cache st) = None -> sm_find k' (u_cache st) = None -> k <> k' ->
  u_next (fst (rfc4122 gen (fst (rfc4122 gen st (VString k))) (VString k'))) = (u_next st + 8)%nat.
Proof.
  intros st N N' D. assert (I : inv st). { apply inv_calls. split; [ exact keyed_nil | discriminate ]. } destruct I as [K _].
  cbn [rfc4122]. rewrite N. cbn [fst u_cache]. rewrite sm_find_set by exact K. replace (str_eqb k' k) with false.
  - rewrite N'. cbn [fst u_next]. lia.
  - symmetry. destruct (str_eqb k' k) eqn:Q; auto. apply str_eqb_eq in Q. congruence.
Qed.
End History.
Print Assumptions C36_generated.
Print Assumptions C36_consistent.
Print Assumptions C36_distinct.
Example C36_generated_ex : snd (rfc4122 (fun n => Z.of_nat n * 1000003) (fresh 0) (VString $"k")) = Ok (RVal (VString $"00000000-4342-4f00-8684-1e00c9c62d00")).
Proof. vm_compute. reflexivity. Qed.

(** ** C55 *)

Section C55.
Variable rng : str -> Z.
(** rand.intn gives a number from 0 up to the bound for every bound of 64 bits, the same for the same seed. *)
Theorem C55_range s n : 0 < n < 2 ^ 64 -> exists r, rand_intn rng (VString s) (VInt (dec n)) = Ok (RVal (VInt (dec r))) /\ 0 <= r < n.
Proof.
  intros H. unfold rand_intn. rewrite bi_to_size_spec by lia. exists (rng s mod n). split; [ | apply Z.mod_pos_bound; lia ].
  replace (n =? 0) with false by lia. reflexivity.
Qed.
(** Not for a bound of zero (division by zero), nor for a negative one, whose absolute value is documented to be the bound. *)
Theorem C55_zero_refuted s : rand_intn rng (VString s) (VInt $"0") = Ub.
Proof. reflexivity. Qed.
Theorem C55_negative_refuted : exists rng0 : str -> Z, (forall t, 0 <= rng0 t < 2 ^ 32) /\ exists r, rand_intn rng0 (VString []) (VInt $"-5") = Ok (RVal (VInt (dec r))) /\ ~ 0 <= r < 5.
Proof. exists (fun _ => 4000000000). split; [ lia | ]. exists 4000000000. split; [ vm_compute; reflexivity | lia ]. Qed.
End C55.
Print Assumptions C55_range.
Example C55_ex : rand_intn (fun _ => 3499211612) (VString $"seed") (VInt $"100") = Ok (RVal (VInt $"12")).
Proof. reflexivity. Qed.
