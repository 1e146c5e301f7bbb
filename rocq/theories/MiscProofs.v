(** Lemmas about versions, quantities and UUIDs. *)
From Coq Require Import String ZArith List Bool Lia.
From Verif Require Import Base SMap SMapFacts BigIntSpec BigIntModel DecFacts BigIntProofs ValueModel ValueSpec ResolverModel VmModel
  StrModel StrSpec StrProofs EncModel EncSpec EncProofs UriProofs MiscModel MiscSpec.
Import ListNotations.
Local Open Scope Z_scope.
Local Open Scope list_scope.
Local Notation len := (@length Z).

(** ** Searching for a character *)

Lemma find_from_char c pre t u : ~ In c t -> find_from [c] (pre ++ t ++ [c] ++ u) (length pre) = Some (length pre + length t)%nat.
Proof.
  intros H. unfold find_from. rewrite app_length. replace (length pre <=? _)%nat with true by (symmetry; apply Nat.leb_le; lia).
  rewrite skipn_app_length, find_char_some by exact H. reflexivity.
Qed.
Lemma find_from_no_char c pre t : ~ In c t -> find_from [c] (pre ++ t) (length pre) = None.
Proof.
  intros H. unfold find_from. rewrite app_length. replace (length pre <=? _)%nat with true by (symmetry; apply Nat.leb_le; lia).
  rewrite skipn_app_length, find_char_none by exact H. reflexivity.
Qed.

Lemma dec_digits n : 0 <= n -> Forall (fun c => is_digit c = true) (dec n).
Proof.
  intros H. apply dec_canon in H. apply canon_iff in H. destruct H as (H & _).
  eapply Forall_impl; [ | exact H ]. intros c Hc. now apply is_digit_spec.
Qed.
Lemma dec_no_char n c : 0 <= n -> is_digit c = false -> ~ In c (dec n).
Proof. intros H D I. pose proof (dec_digits n H) as A. rewrite Forall_forall in A. rewrite (A c I) in D. discriminate. Qed.
Lemma dec_nonempty n : 0 <= n -> dec n <> [].
Proof. intros H E. destruct (dec_cons_digit n H) as (c & t & E' & _). congruence. Qed.

(** ** Versions *)

Lemma stoi_dec n rest : part n -> (forall c t, rest = c :: t -> is_digit c = false) -> stoi (dec n ++ rest) = Ok (Some n).
Proof.
  intros [H0 H1] R. unfold stoi. destruct (dec_cons_digit n H0) as (c & t & E & D).
  assert (S : span is_space (dec n ++ rest) = ([], dec n ++ rest)).
  { apply (span_eq is_space [] (dec n ++ rest)); [ constructor | ]. intros x y Hx. rewrite E in Hx. injection Hx as <- _.
    unfold digit in D. unfold is_space. lia. }
  rewrite S. cbn [snd]. rewrite E. cbn [app]. unfold digit in D. replace (c =? 45) with false by lia. replace (c =? 43) with false by lia.
  assert (G : span is_digit (c :: t ++ rest) = (dec n, rest)).
  { pose proof (span_eq is_digit (dec n) rest (dec_digits n H0) R) as G. rewrite E in G at 1. exact G. }
  rewrite G. cbn [fst]. rewrite zval_dec by exact H0. replace ((-2147483648 <=? n) && (n <=? 2147483647)) with true by lia. rewrite E. reflexivity.
Qed.
Lemma part_dec n : part n -> semver_part (dec n) = Ok (Some n).
Proof.
  intros H. unfold semver_part. destruct (dec n) eqn:E; [ elim (dec_nonempty n); [ apply H | exact E ] | ]. rewrite <- E, <- (app_nil_r (dec n)).
  apply stoi_dec; [ exact H | discriminate ].
Qed.
Lemma part_dec_cut n c u k : part n -> is_digit c = false -> (length (dec n) < k)%nat ->
  semver_part (firstn k (dec n ++ [c] ++ u)) = Ok (Some n).
Proof.
  intros H C K. rewrite firstn_app. rewrite (firstn_all2 (dec n)) by lia.
  replace (k - length (dec n))%nat with (S (k - length (dec n) - 1)) by lia. cbn [app firstn].
  unfold semver_part. destruct (dec n) eqn:E; [ elim (dec_nonempty n); [ apply H | exact E ] | ]. rewrite <- E. cbn [app].
  change (semver_part (dec n ++ c :: firstn (k - length (dec n) - 1) u) = Ok (Some n)).
  unfold semver_part. destruct (dec n ++ _) eqn:E'; [ apply app_eq_nil in E'; destruct E'; congruence | ]. rewrite <- E'.
  apply stoi_dec; [ exact H | ]. intros x y Hx. congruence.
Qed.

Ltac llia := repeat rewrite app_length; unfold str, byte in *; repeat rewrite app_length; cbn [length]; lia.
Lemma parse_parts a b c u : part a -> part b -> part c -> (u = [] \/ exists v, u = [45] ++ v) -> ~ In 43 u ->
  parse_semver (release a b c ++ u) = Ok (Some {| sv_major := a; sv_minor := b; sv_patch := c;
    sv_pre := match u with [] => release a b c | _ :: v => v end; sv_meta := [] |}).
Proof.
  intros A B C U P. assert (Ea := proj1 A). assert (Eb := proj1 B). assert (Ec := proj1 C).
  unfold parse_semver, release.
  set (s := (dec a ++ _) ++ u). unfold str, byte in *.
  assert (S1 : s = dec a ++ [46] ++ (dec b ++ [46] ++ dec c ++ u)) by (unfold s; now rewrite <- !app_assoc).
  assert (S2 : s = (dec a ++ [46]) ++ dec b ++ [46] ++ (dec c ++ u)) by (unfold s; now rewrite <- !app_assoc).
  assert (S3 : s = (dec a ++ [46] ++ dec b ++ [46]) ++ dec c ++ u) by (unfold s; now rewrite <- !app_assoc).
  assert (N46 : forall n, 0 <= n -> ~ In 46 (dec n)) by (intros; now apply dec_no_char).
  replace (find0 [46] s) with (Some (len (dec a))) by (rewrite S1; now rewrite find_char_some by auto).
  cbv zeta. unfold substr_to at 1. unfold substr. cbn [skipn]. unfold str, byte in *.
  replace (firstn (len (dec a)) s) with (dec a) by (rewrite S1; now rewrite firstn_app_length). 
  rewrite (part_dec a A). cbn [obind].
  replace (find_from [46] s (S (len (dec a)))) with (Some (len (dec a ++ [46%Z]) + len (dec b))%nat).
  2:{ rewrite S2. replace (S (len (dec a))) with (len (dec a ++ [46])) by (llia). now rewrite find_from_char by auto. }
  unfold substr_to at 1. unfold substr.
  replace (skipn (S (len (dec a))) s) with (dec b ++ [46] ++ (dec c ++ u)).
  2:{ rewrite S2. replace (S (len (dec a))) with (len (dec a ++ [46])) by (llia). now rewrite skipn_app_length. }
  rewrite part_dec_cut; auto; [ | llia ]. cbn [obind].
  set (p := dec a ++ [46] ++ dec b ++ [46]) in *.
  replace (S (len (dec a ++ [46%Z]) + len (dec b))) with (len p) by (unfold p; llia).
  destruct U as [-> | [v ->]].
  - replace (find_from [45] s (len p)) with (@None nat).
    2:{ rewrite S3, app_nil_r. symmetry. apply find_from_no_char. now apply dec_no_char. }
    change (substr_to s (len p) None) with (skipn (len p) s). replace (skipn (len p) s) with (dec c) by (rewrite S3, app_nil_r; now rewrite skipn_app_length).
    rewrite (part_dec c C). cbn [obind after].
    assert (NP : find_from [43] s 0 = None).
    { apply (find_from_no_char 43 [] s). rewrite S3, app_nil_r. unfold p. rewrite !in_app_iff. cbn [In].
      pose proof (dec_no_char a 43 Ea eq_refl). pose proof (dec_no_char b 43 Eb eq_refl). pose proof (dec_no_char c 43 Ec eq_refl).
      intros H2. decompose [or] H2; try tauto; discriminate. }
    rewrite NP. unfold substr_to. cbn [skipn]. do 3 f_equal. unfold s. now rewrite app_nil_r.
  - replace (find_from [45] s (len p)) with (Some (len p + len (dec c))%nat).
    2:{ rewrite S3. symmetry. apply find_from_char. now apply dec_no_char. }
    change (substr_to s (len p) (Some (len p + len (dec c))%nat)) with (firstn (len p + len (dec c)) (skipn (len p) s)). replace (skipn (len p) s) with (dec c ++ [45] ++ v) by (rewrite S3; now rewrite skipn_app_length).
    rewrite part_dec_cut; auto; [ | unfold p; llia ]. cbn [obind after].
    assert (S4 : s = (p ++ dec c ++ [45]) ++ v) by (rewrite S3; rewrite <- (app_assoc p), <- (app_assoc (dec c)); reflexivity).
    replace (S (len p + len (dec c))) with (len (p ++ dec c ++ [45])) by (clearbody p; llia).
    replace (find_from [43] s (len (p ++ dec c ++ [45]))) with (@None nat).
    2:{ rewrite S4. symmetry. apply find_from_no_char. intros H. apply P. now right. }
    unfold substr_to. rewrite S4. now rewrite skipn_app_length.
Qed.

(** ** Quantities *)

Lemma span_all f a : Forall (fun c => f c = true) a -> span f a = (a, []).
Proof. intros H. pose proof (span_eq f a [] H) as E. rewrite app_nil_r in E. apply E. discriminate. Qed.
Lemma is_digit_dec c : is_digit c = true <-> is_dec c.
Proof. unfold is_digit, is_dec. lia. Qed.
Lemma digits_dec_all l : Forall (fun c => is_digit c = true) l <-> Forall is_dec l.
Proof. split; intros H; (eapply Forall_impl; [ | exact H ]); intros c; apply is_digit_dec. Qed.

Lemma take_sign_split s : exists sg, s = sg ++ take_sign s /\ sign sg.
Proof.
  destruct s as [ | c s ]; [ exists []; split; [ reflexivity | now left ] | ]. cbn [take_sign].
  destruct (Z.eqb_spec c 43) as [-> | N]; [ exists [43]; split; [ reflexivity | right; now left ] | ].
  destruct (Z.eqb_spec c 45) as [-> | M]; [ exists [45]; split; [ reflexivity | right; now right ] | ].
  exists []. split; [ reflexivity | now left ].
Qed.
Definition unsigned (t : str) : Prop := forall c t', t = c :: t' -> c <> 43 /\ c <> 45.
Lemma take_sign_app sg t : sign sg -> unsigned t -> take_sign (sg ++ t) = t.
Proof.
  intros [-> | [-> | ->]] U; try reflexivity. cbn [app]. destruct t as [ | c t ]; [ reflexivity | ]. cbn [take_sign].
  destruct (U c t eq_refl). replace (c =? 43) with false by lia. replace (c =? 45) with false by lia. reflexivity.
Qed.
Lemma digits_unsigned k t : Forall is_dec k -> k <> [] -> unsigned (k ++ t).
Proof. intros K N c t' E. destruct K as [ | x k Hx K ]; [ congruence | ]. injection E as -> _. unfold is_dec in Hx. lia. Qed.

(** An exponent with any number of digits. *)
Definition expo (e : str) : Prop :=
  e = [] \/ exists c s k, e = [c] ++ s ++ k /\ (c = 101 \/ c = 69) /\ sign s /\ Forall is_dec k /\ k <> [].
Lemma match_exponent_iff e : match_exponent e = true <-> expo e.
Proof.
  unfold expo. destruct e as [ | c e ]; [ split; auto | ]. cbn [match_exponent]. split.
  - intros H. apply andb_true_iff in H as [C H]. right. destruct (take_sign_split e) as (sg & E & S).
    destruct (span is_digit (take_sign e)) as [k r] eqn:K. apply span_spec in K as (K & D & _).
    destruct k as [ | x k ]; [ discriminate | ]. destruct r; [ | discriminate ]. rewrite app_nil_r in K.
    exists c, sg, (x :: k). repeat split; auto; [ cbn [app]; congruence | lia | now apply digits_dec_all | discriminate ].
  - intros [H | (c' & s & k & E & C & S & K & N)]; [ discriminate | ]. injection E as -> ->. apply andb_true_iff. split; [ lia | ].
    rewrite take_sign_app; auto; [ | rewrite <- (app_nil_r k); now apply digits_unsigned ].
    pose proof (span_eq is_digit k []) as Sp. rewrite app_nil_r in Sp. rewrite Sp; [ | now apply digits_dec_all | discriminate ].
    destruct k; [ congruence | reflexivity ].
Qed.
Definition shape (i d f : str) : Prop := d = [] /\ f = [] /\ i <> [] \/ d = [46] /\ (i <> [] \/ f <> []).
Lemma expo_head e c t : expo e -> e = c :: t -> is_digit c = false /\ c <> 46 /\ c <> 43 /\ c <> 45.
Proof. intros [-> | (x & s & k & -> & C & _)] E; [ discriminate | ]. injection E as -> _. unfold is_digit. lia. Qed.
Lemma match_number_iff t : match_number t = true <->
  exists s i d f e, t = s ++ i ++ d ++ f ++ e /\ sign s /\ Forall is_dec i /\ Forall is_dec f /\ expo e /\ shape i d f.
Proof.
  unfold match_number, shape. split.
  - intros H. destruct (take_sign_split t) as (sg & E & S). destruct (span is_digit (take_sign t)) as [i s1] eqn:I.
    apply span_spec in I as (I & D & N). rewrite I in E. apply digits_dec_all in D. destruct s1 as [ | c s2 ].
    + exists sg, i, [], [], []. repeat split; auto; [ now left | ]. left. repeat split. intros ->. discriminate.
    + destruct (Z.eqb_spec c 46) as [-> | M].
      * destruct (span is_digit s2) as [f s3] eqn:Ff. apply span_spec in Ff as (Ff & Df & Nf). apply digits_dec_all in Df.
        exists sg, i, [46], f, s3. subst s2. repeat split; auto.
        -- apply match_exponent_iff. destruct i, f; auto; discriminate.
        -- right. split; [ reflexivity | ]. destruct i; [ right | left; discriminate ]. intros ->. discriminate.
      * exists sg, i, [], [], (c :: s2). repeat split; auto.
        -- apply match_exponent_iff. destruct i; auto; discriminate.
        -- left. repeat split. intros ->. discriminate.
  - intros (s & i & d & f & e & -> & S & I & Ff & E & Sh).
    assert (U : unsigned (i ++ d ++ f ++ e)).
    { destruct i as [ | x i ].
      - destruct Sh as [(-> & -> & N) | (-> & _)]; [ congruence | ]. intros c t' Hc. injection Hc as <- _. lia.
      - apply digits_unsigned; [ exact I | discriminate ]. }
    rewrite take_sign_app; auto.
    assert (Hd : forall c t, d ++ f ++ e = c :: t -> is_digit c = false).
    { destruct Sh as [(-> & -> & N) | (-> & _)]; intros c t Hc; [ eapply (expo_head e) in E; [ apply E | exact Hc ] | ]. injection Hc as <- _. reflexivity. }
    unfold str, byte in *. rewrite (span_eq is_digit i (d ++ f ++ e)); [ | now apply digits_dec_all | exact Hd ].
    destruct Sh as [(-> & -> & N) | (-> & N)]; cbn [app].
    + destruct e as [ | c e ]; [ destruct i; congruence | ]. destruct (expo_head (c :: e) c e E eq_refl) as (_ & M & _).
      replace (c =? 46) with false by lia. destruct i; [ congruence | ]. now apply match_exponent_iff.
    + cbn [Z.eqb Pos.eqb]. rewrite (span_eq is_digit f e); [ | now apply digits_dec_all | ].
      * apply match_exponent_iff in E. destruct i, f; auto. destruct N; congruence.
      * intros c t Hc. eapply expo_head in E; [ apply E | exact Hc ].
Qed.

Lemma sign_chars s c : sign s -> In c s -> c = 43 \/ c = 45.
Proof. intros [-> | [-> | ->]] H; cbn in H; intuition. Qed.
Lemma after_exp_amount s i d f e : sign s -> Forall is_dec i -> Forall is_dec f -> expo e -> shape i d f ->
  after_exp (s ++ i ++ d ++ f ++ e) = match e with [] => None | _ :: r => Some r end.
Proof.
  intros S I Ff E Sh. unfold after_exp. rewrite !app_assoc. unfold str, byte in *. rewrite (span_eq (fun c => negb (is_exp c)) _ e).
  - destruct e; reflexivity.
  - rewrite !Forall_app. repeat split.
    + apply Forall_forall. intros c Hc. apply (sign_chars s c S) in Hc. unfold is_exp. lia.
    + eapply Forall_impl; [ | exact I ]. unfold is_dec, is_exp. intros; lia.
    + destruct Sh as [(-> & _) | (-> & _)]; constructor; [ reflexivity | constructor ].
    + eapply Forall_impl; [ | exact Ff ]. unfold is_dec, is_exp. intros; lia.
  - intros c t ->. destruct E as [E | (x & sg & k & E & C & _)]; [ discriminate | ]. injection E as -> _. unfold is_exp. lia.
Qed.
Lemma expo_exponent e : exponent e <-> expo e /\ match e with [] => True | _ :: r => (length (take_sign r) <= 6)%nat end.
Proof.
  unfold exponent, expo. split.
  - intros [-> | (c & s & k & -> & C & S & K & N & L)]; [ auto | ]. split; [ right; exists c, s, k; auto 6 | ]. cbn [app].
    rewrite take_sign_app; auto. rewrite <- (app_nil_r k). now apply digits_unsigned.
  - intros [[-> | (c & s & k & -> & C & S & K & N)] L]; [ auto | ]. right. exists c, s, k. repeat split; auto. cbn [app] in L.
    rewrite take_sign_app in L; auto. rewrite <- (app_nil_r k). now apply digits_unsigned.
Qed.
Lemma amount_head t : amount t -> exists c u, t = c :: u /\ (is_digit c || (c =? 46) || (c =? 43) || (c =? 45)) = true /\ is_exp c = false.
Proof.
  intros (s & i & d & f & e & -> & S & I & Ff & _ & Sh). destruct S as [-> | [-> | ->]]; [ cbn [app] | exists 43; eexists; repeat split | exists 45; eexists; repeat split ].
  destruct i as [ | x i ].
  - destruct Sh as [(_ & _ & N) | (-> & _)]; [ congruence | ]. exists 46, (f ++ e). repeat split.
  - inversion I as [ | ? ? Hx I' ]; subst. cbn [app]. exists x. eexists. split; [ reflexivity | ]. unfold is_dec in Hx. unfold is_digit, is_exp. split; lia.
Qed.
Lemma parse_number_ok t : amount t -> parse_number t =
  Some (if match after_exp t with Some _ => true | None => false end || existsb (Z.eqb 46) t then VFloat t else VInt t).
Proof.
  intros A. destruct (amount_head t A) as (c & u & E & B & X). unfold parse_number. rewrite E. rewrite <- E. rewrite X, B. cbn [negb].
  destruct A as (s & i & d & f & e & Et & S & I & Ff & Ex & Sh). apply expo_exponent in Ex as [Ex L].
  replace (match_number t) with true.
  2:{ symmetry. apply match_number_iff. exists s, i, d, f, e. auto 8. }
  cbn [negb]. assert (Q : after_exp t = match e with [] => None | _ :: r => Some r end) by (rewrite Et; now apply after_exp_amount). rewrite Q. destruct e as [ | x r ].
  - cbn [orb]. destruct (existsb (Z.eqb 46) t); reflexivity.
  - replace (6 <? length (take_sign r))%nat with false by (symmetry; apply Nat.ltb_ge; lia). reflexivity.
Qed.
Lemma parse_number_some t v : parse_number t = Some v -> amount t.
Proof.
  unfold parse_number. destruct t as [ | c u ]; [ discriminate | ]. set (t := c :: u). clearbody t.
  destruct (negb (if is_exp c then _ else _)); [ discriminate | ]. destruct (match_number t) eqn:M; [ | discriminate ]. cbn [negb].
  apply match_number_iff in M as (s & i & d & f & e & Et & S & I & Ff & Ex & Sh).
  assert (Q : after_exp t = match e with [] => None | _ :: r => Some r end) by (rewrite Et; now apply after_exp_amount). rewrite Q. intros H. exists s, i, d, f, e. repeat split; auto.
  apply expo_exponent. split; auto. destruct e as [ | x r ]; auto. destruct (6 <? length (take_sign r))%nat eqn:L; [ discriminate | ].
  apply Nat.ltb_ge in L. exact L.
Qed.
Lemma parse_number_none t : ~ amount t -> parse_number t = None.
Proof. intros N. destruct (parse_number t) eqn:E; auto. elim N. eapply parse_number_some; eauto. Qed.

Lemma dec_amount n : amount (dec n).
Proof.
  exists (if n <? 0 then [45] else []), (dec (Z.abs n)), [], [], []. rewrite !app_nil_r. repeat split.
  - destruct (Z.ltb_spec n 0) as [H | H]; [ | rewrite Z.abs_eq by lia; reflexivity ].
    rewrite <- (dec_neg' n H). now replace (- n) with (Z.abs n) by lia.
  - destruct (n <? 0); [ right; now right | now left ].
  - apply digits_dec_all. apply dec_digits. lia.
  - constructor.
  - now left.
  - left. repeat split. apply dec_nonempty. lia.
Qed.
Lemma dec_chars n : Forall (fun c => is_dec c \/ c = 45) (dec n).
Proof.
  destruct (Z.ltb_spec n 0) as [H | H].
  - rewrite <- (dec_neg' n H). constructor; [ now right | ]. eapply Forall_impl; [ | apply (proj1 (digits_dec_all _)), (dec_digits (- n)); lia ]. auto.
  - eapply Forall_impl; [ | apply (proj1 (digits_dec_all _)), (dec_digits n H) ]. auto.
Qed.
Lemma existsb_none {A} (f : A -> bool) l : Forall (fun x => f x = false) l -> existsb f l = false.
Proof. induction 1; cbn [existsb]; [ reflexivity | ]. now rewrite H. Qed.
Lemma parse_dec n : parse_number (dec n) = Some (VInt (dec n)).
Proof.
  rewrite parse_number_ok by apply dec_amount. unfold after_exp. rewrite span_all.
  - cbn [snd orb]. rewrite existsb_none; [ reflexivity | ]. eapply Forall_impl; [ | apply dec_chars ]. cbv beta. unfold is_dec. intros; lia.
  - eapply Forall_impl; [ | apply dec_chars ]. cbv beta. unfold is_dec, is_exp. intros; lia.
Qed.

Lemma to_lower_case c : to_lower c = lower_case c. Proof. reflexivity. Qed.
(** Characters that are not letters are their own lower case, and nothing else has them as lower case. *)
Lemma lower_fix c : ~ (97 <= c <= 122) -> ~ (65 <= c <= 90) -> forall x, to_lower x = c -> x = c.
Proof. unfold to_lower. intros H1 H2 x. destruct ((65 <=? x) && (x <=? 90)) eqn:E; lia. Qed.
Lemma lower_same c : ~ (65 <= c <= 90) -> to_lower c = c.
Proof. unfold to_lower. intros H. replace ((65 <=? c) && (c <=? 90)) with false by lia. reflexivity. Qed.
Lemma map_lower_same l : Forall (fun c => ~ (65 <= c <= 90)) l -> map to_lower l = l.
Proof. induction 1; cbn [map]; [ reflexivity | ]. rewrite lower_same by assumption. congruence. Qed.
Lemma map_lower_fix l : Forall (fun c => ~ (97 <= c <= 122) /\ ~ (65 <= c <= 90)) l -> forall x, map to_lower x = l -> x = l.
Proof.
  induction 1 as [ | c l [H1 H2] H IH ]; intros [ | y x ] E; try discriminate; [ reflexivity | ]. cbn [map] in E. injection E as E1 E2.
  f_equal; auto. now apply lower_fix.
Qed.
Lemma sign_plain s : sign s -> Forall (fun c => ~ (97 <= c <= 122) /\ ~ (65 <= c <= 90)) s.
Proof. intros S. apply Forall_forall. intros c H. apply (sign_chars s c S) in H. lia. Qed.
Lemma dec_plain i : Forall is_dec i -> Forall (fun c => ~ (97 <= c <= 122) /\ ~ (65 <= c <= 90)) i.
Proof. intros H. eapply Forall_impl; [ | exact H ]. unfold is_dec. intros; lia. Qed.
Lemma plain_same l : Forall (fun c => ~ (97 <= c <= 122) /\ ~ (65 <= c <= 90)) l -> map to_lower l = l.
Proof. intros H. apply map_lower_same. eapply Forall_impl; [ | exact H ]. intros c [_ X]. exact X. Qed.
Lemma amount_lower a : amount (map to_lower a) <-> amount a.
Proof.
  split.
  - intros (s & i & d & f & e & E & S & I & Ff & Ex & Sh).
    assert (Pd : Forall (fun c => ~ (97 <= c <= 122) /\ ~ (65 <= c <= 90)) d).
    { destruct Sh as [(-> & _) | (-> & _)]; [ constructor | ]. apply Forall_cons; [ cbn; lia | constructor ]. }
    apply map_eq_app in E as (s0 & r & -> & Es & E). apply map_eq_app in E as (i0 & r1 & -> & Ei & E).
    apply map_eq_app in E as (d0 & r2 & -> & Ed & E). apply map_eq_app in E as (f0 & e0 & -> & Ef & Ee).
    apply (map_lower_fix s (sign_plain s S)) in Es. apply (map_lower_fix i (dec_plain i I)) in Ei. apply (map_lower_fix d Pd) in Ed.
    apply (map_lower_fix f (dec_plain f Ff)) in Ef. subst s0 i0 d0 f0. exists s, i, d, f, e0. repeat split; auto.
    destruct Ex as [-> | (c & sg & k & -> & C & Sg & K & N & L)]; [ left; now apply map_eq_nil in Ee | ]. right.
    destruct e0 as [ | c0 e0 ]; [ discriminate | ]. cbn [map app] in Ee. injection Ee as Ec Ee.
    apply map_eq_app in Ee as (sg0 & k0 & -> & Esg & Ek). apply (map_lower_fix sg (sign_plain sg Sg)) in Esg.
    apply (map_lower_fix k (dec_plain k K)) in Ek. subst sg0 k0. exists c0, sg, k. repeat split; auto.
    unfold to_lower in Ec. destruct ((65 <=? c0) && (c0 <=? 90)) eqn:Q; lia.
  - intros (s & i & d & f & e & -> & S & I & Ff & Ex & Sh). exists s, i, d, f, (map to_lower e). repeat split; auto.
    + unfold str, byte in *. rewrite !map_app. rewrite (plain_same s), (plain_same i), (plain_same f) by (first [ now apply sign_plain | now apply dec_plain ]).
      replace (map to_lower d) with d; [ reflexivity | ]. destruct Sh as [(-> & _) | (-> & _)]; reflexivity.
    + destruct Ex as [-> | (c & sg & k & -> & C & Sg & K & N & L)]; [ now left | ]. right. exists (to_lower c), sg, k.
      cbn [map app]. unfold str, byte in *. rewrite map_app, (plain_same sg), (plain_same k) by (first [ now apply sign_plain | now apply dec_plain ]).
      repeat split; auto. destruct C as [-> | ->]; left; reflexivity.
Qed.

Lemma amount_last a : amount a -> exists x c, a = x ++ [c] /\ (is_dec c \/ c = 46).
Proof.
  assert (D : forall k, Forall is_dec k -> k <> [] -> exists x c, k = x ++ [c] /\ is_dec c).
  { intros k K N. destruct (exists_last N) as (x & c & ->). apply Forall_app in K as [_ K]. inversion K; subst. eauto. }
  intros (s & i & d & f & e & -> & S & I & Ff & Ex & Sh).
  destruct Ex as [-> | (c & sg & k & -> & C & Sg & K & N & L)].
  - rewrite app_nil_r. destruct f as [ | y f ].
    + destruct Sh as [(-> & _ & N) | (-> & _)].
      * destruct (D i I N) as (x & c & -> & Hc). exists (s ++ x), c. rewrite !app_nil_r, <- app_assoc. auto.
      * exists (s ++ i), 46. rewrite app_nil_r, <- app_assoc. auto.
    + destruct (D (y :: f) Ff) as (x & c & E & Hc); [ discriminate | ]. rewrite E. exists (s ++ i ++ d ++ x), c. rewrite <- !app_assoc. auto.
  - destruct (D k K N) as (x & c' & -> & Hc). exists (s ++ i ++ d ++ f ++ [c] ++ sg ++ x), c'. rewrite <- !app_assoc. auto.
Qed.
Lemma amount_no_space a : amount a -> Forall (fun c => is_space c = false) a.
Proof.
  assert (G : forall s, sign s -> Forall (fun c => is_space c = false) s).
  { intros s S. apply Forall_forall. intros c H. apply (sign_chars s c S) in H. unfold is_space. lia. }
  assert (D : forall s, Forall is_dec s -> Forall (fun c => is_space c = false) s).
  { intros s H. eapply Forall_impl; [ | exact H ]. unfold is_dec, is_space. intros; lia. }
  intros (s & i & d & f & e & -> & S & I & Ff & Ex & Sh). rewrite !Forall_app. repeat split; auto.
  - destruct Sh as [(-> & _) | (-> & _)]; [ constructor | ]. apply Forall_cons; [ reflexivity | constructor ].
  - destruct Ex as [-> | (c & sg & k & -> & C & Sg & K & N & L)]; [ constructor | ]. rewrite !Forall_app. repeat split; auto.
    constructor; [ unfold is_space; lia | constructor ].
Qed.

Lemma find_unit_some us l u f n : find_unit us l = Some (u, f, n) -> In (u, f) us /\ l = n ++ u.
Proof.
  induction us as [ | [u' f'] us IH ]; cbn [find_unit]; [ discriminate | ]. destruct (suffixb u' l) eqn:S.
  - intros H. injection H as <- <- <-. split; [ now left | ]. apply suffixb_iff in S as [a ->]. unfold substr. cbn [skipn]. f_equal.
    unfold str, byte in *. rewrite app_length. replace (length a + length u' - length u')%nat with (length a) by lia. symmetry. apply firstn_app_length.
  - intros H. destruct (IH H). split; [ now right | assumption ].
Qed.
Lemma find_unit_none us l : find_unit us l = None -> forall u f n, In (u, f) us -> l <> n ++ u.
Proof.
  induction us as [ | [u' f'] us IH ]; cbn [find_unit]; [ intros _ ? ? ? [] | ]. destruct (suffixb u' l) eqn:S; [ discriminate | ].
  intros H u f n [E | I]; [ | now apply IH with f ]. injection E as -> ->. intros ->.
  assert (T : suffixb u (n ++ u) = true) by (apply suffixb_iff; now exists n). congruence.
Qed.
(** In a table of units of one length, the unit that is found is the unit of the text. *)
Lemma find_unit_here us k l n u f : (forall v g, In (v, g) us -> length v = k /\ (v = u -> g = f)) -> In (u, f) us -> l = n ++ u ->
  find_unit us l = Some (u, f, n).
Proof.
  intros T I E. destruct (find_unit us l) as [[[v g] m] | ] eqn:Q.
  - apply find_unit_some in Q as [Iv Ev]. assert (L : length v = length u) by (rewrite (proj1 (T v g Iv)), (proj1 (T u f I)); reflexivity).
    assert (Lm : length m = length n). { pose proof (f_equal (@length Z) Ev) as L1. rewrite E in L1. rewrite !app_length in L1. unfold str, byte in *. lia. }
    rewrite E in Ev. symmetry in Ev. apply app_eq_length in Ev as [-> ->]; auto. now rewrite (proj2 (T u g Iv) eq_refl).
  - exfalso. exact (find_unit_none us l Q u f n I E).
Qed.
(** No unit of the table ends as the text does. *)
Lemma find_unit_last us x c : (forall v g, In (v, g) us -> exists w d, v = w ++ [d] /\ d <> c) -> find_unit us (x ++ [c]) = None.
Proof.
  intros T. destruct (find_unit us (x ++ [c])) as [[[v g] m] | ] eqn:Q; auto. apply find_unit_some in Q as [I E].
  destruct (T v g I) as (w & d & -> & N). rewrite app_assoc in E. apply app_inj_tail in E as [_ E]. congruence.
Qed.

Lemma lower_letters u v : map lower_case u = v -> map to_lower u = v. Proof. exact (fun H => H). Qed.
Lemma unit_tables u f : unit_factor u f ->
  u = [] /\ f = 1 \/ In (map to_lower u, dec f) byte_units \/ In (map to_lower u, dec f) big_units.
Proof.
  unfold unit_factor. intros H. change lower_case with to_lower in H.
  repeat (destruct H as [H | H]; [ apply pair_equal_spec in H as [H1 H2]; rewrite <- H1, <- H2; first
    [ left; split; [ symmetry in H1; now apply map_eq_nil in H1 | reflexivity ]
    | right; left; vm_compute; tauto | right; right; vm_compute; tauto ] | ]).
  destruct H.
Qed.
Lemma byte_table v g : In (v, g) byte_units -> exists c, v = [c; 105] /\ In c [101; 103; 107; 109; 112; 116] /\ forall u, map to_lower u = v -> exists f, unit_factor u f.
Proof.
  unfold byte_units, unit_factor. change lower_case with to_lower.
  intros H. repeat (destruct H as [H | H]; [ apply pair_equal_spec in H as [<- _]; eexists; split; [ reflexivity | ]; split;
    [ cbn; tauto | intros u ->; eexists; cbn [In]; repeat first [ left; reflexivity | right ] ] | ]).
  destruct H.
Qed.
Lemma big_table v g : In (v, g) big_units -> exists c, v = [c] /\ In c [101; 103; 107; 109; 112; 116] /\ forall u, map to_lower u = v -> exists f, unit_factor u f.
Proof.
  unfold big_units, unit_factor. change lower_case with to_lower.
  intros H. repeat (destruct H as [H | H]; [ apply pair_equal_spec in H as [<- _]; eexists; split; [ reflexivity | ]; split;
    [ cbn; tauto | intros u ->; eexists; cbn [In]; repeat first [ left; reflexivity | right ] ] | ]).
  destruct H.
Qed.
Lemma small_table v g : In (v, g) small_units -> exists c, v = [c] /\ In c [99; 100; 109; 110; 117].
Proof.
  unfold small_units.
  intros H. repeat (destruct H as [H | H]; [ apply pair_equal_spec in H as [<- _]; eexists; split; [ reflexivity | ]; cbn; tauto | ]).
  destruct H.
Qed.
Lemma fst_inj {A B} (l : list (A * B)) k x y : NoDup (map fst l) -> In (k, x) l -> In (k, y) l -> x = y.
Proof.
  induction l as [ | [k' z] l IH ]; cbn [map fst In]; [ tauto | ]. intros N H H'. inversion N; subst.
  destruct H as [H | H], H' as [H' | H']; try congruence; auto.
  - exfalso. apply pair_equal_spec in H as [-> _]. apply (in_map fst) in H'. auto.
  - exfalso. apply pair_equal_spec in H' as [-> _]. apply (in_map fst) in H. auto.
Qed.
Lemma byte_same v g g' : In (v, g) byte_units -> In (v, g') byte_units -> g = g'.
Proof. apply fst_inj. change (NoDup (map fst byte_units)). vm_compute. repeat (constructor; [ cbn; intuition discriminate | ]). constructor. Qed.
Lemma big_same v g g' : In (v, g) big_units -> In (v, g') big_units -> g = g'.
Proof. apply fst_inj. change (NoDup (map fst big_units)). vm_compute. repeat (constructor; [ cbn; intuition discriminate | ]). constructor. Qed.
Lemma small_same v g g' : In (v, g) small_units -> In (v, g') small_units -> g = g'.
Proof. apply fst_inj. change (NoDup (map fst small_units)). vm_compute. repeat (constructor; [ cbn; intuition discriminate | ]). constructor. Qed.

Lemma lower_last a : amount a -> exists x c, map to_lower a = x ++ [c] /\ (48 <= c <= 57 \/ c = 46).
Proof. intros A. apply amount_lower in A. now apply amount_last. Qed.
Lemma byte_none x c : c <> 105 -> find_unit byte_units (x ++ [c]) = None.
Proof. intros N. apply find_unit_last. intros v g I. destruct (byte_table v g I) as (d & -> & _). exists [d], 105. auto. Qed.
Lemma big_none x c : ~ In c [101; 103; 107; 109; 112; 116] -> find_unit big_units (x ++ [c]) = None.
Proof. intros N. apply find_unit_last. intros v g I. destruct (big_table v g I) as (d & -> & D & _). exists [], d. split; auto. intros ->. auto. Qed.
Lemma small_none x c : ~ In c [99; 100; 109; 110; 117] -> find_unit small_units (x ++ [c]) = None.
Proof. intros N. apply find_unit_last. intros v g I. destruct (small_table v g I) as (d & -> & D). exists [], d. split; auto. intros ->. auto. Qed.
Lemma byte_found n v g : In (v, g) byte_units -> find_unit byte_units (n ++ v) = Some (v, g, n).
Proof.
  intros I. apply find_unit_here with (k := 2%nat); auto. intros w h J. destruct (byte_table w h J) as (d & E & _). split; [ now rewrite E | ].
  intros ->. eapply byte_same; eauto.
Qed.
Lemma big_found n v g : In (v, g) big_units -> find_unit big_units (n ++ v) = Some (v, g, n).
Proof.
  intros I. apply find_unit_here with (k := 1%nat); auto. intros w h J. destruct (big_table w h J) as (d & E & _). split; [ now rewrite E | ].
  intros ->. eapply big_same; eauto.
Qed.
Lemma small_found n v g : In (v, g) small_units -> find_unit small_units (n ++ v) = Some (v, g, n).
Proof.
  intros I. apply find_unit_here with (k := 1%nat); auto. intros w h J. destruct (small_table w h J) as (d & E & _). split; [ now rewrite E | ].
  intros ->. eapply small_same; eauto.
Qed.

Section UnitsFacts.
Variable F : fops.
Variable R : str -> str.

Lemma amount_nonempty a : amount a -> a <> [].
Proof. intros A. destruct (amount_last a A) as (x & c & -> & _). now destruct x. Qed.
Lemma lower_no_space u v : map to_lower u = v -> Forall (fun c => 97 <= c <= 122) v -> Forall (fun c => is_space c = false) u.
Proof.
  intros E H. apply Forall_forall. intros c Hc. rewrite Forall_forall in H. specialize (H (to_lower c)). rewrite <- E in H. specialize (H (in_map to_lower u c Hc)).
  unfold to_lower in H. unfold is_space. destruct ((65 <=? c) && (c <=? 90)) eqn:Q; lia.
Qed.
Lemma do_parse_start x small round : x <> [] -> Forall (fun c => is_space c = false) x ->
  units_do_parse F R x small round =
    match find_unit byte_units (map to_lower x) with
    | Some (_, f, num) => with_number num (fun v => scale_int F R v f round)
    | None =>
        match (match (if small then find_unit small_units (map to_lower x) else None) with
               | Some (u, f, num) => if str_eqb u $"m" && suffixb $"M" x then None else (if small then find_unit small_units (map to_lower x) else None)
               | None => None
               end) with
        | Some (_, f, num) => with_number num (fun v => scale_double F v f)
        | None =>
            match find_unit big_units (map to_lower x) with
            | Some (_, f, num) => with_number num (fun v => scale_int F R v f round)
            | None => with_number x ok
            end
        end
    end.
Proof.
  intros N S. unfold units_do_parse. unfold str, byte in *. destruct (length x =? 0)%nat eqn:L; [ apply Nat.eqb_eq in L; apply length_zero_iff_nil in L; congruence | ].
  rewrite existsb_none by exact S. reflexivity.
Qed.
Lemma do_parse_unit a u f small round : amount a -> unit_factor u f -> (small = true -> u <> $"m") ->
  units_do_parse F R (a ++ u) small round =
    match u with [] => with_number a ok | _ => with_number (map to_lower a) (fun v => scale_int F R v (dec f) round) end.
Proof.
  intros A U M. unfold str, byte in *.
  assert (Na : a ++ u <> []) by (intros E; apply app_eq_nil in E as [E _]; now apply (amount_nonempty a)).
  destruct (unit_tables u f U) as [(-> & _) | [I | I]].
  - rewrite app_nil_r in *. rewrite do_parse_start; auto; [ | now apply amount_no_space ].
    destruct (lower_last a A) as (x & c & E & C). rewrite E. rewrite byte_none by lia. rewrite small_none by (cbn; lia). rewrite big_none by (cbn; lia).
    destruct small; reflexivity.
  - rewrite do_parse_start; auto.
    + rewrite map_app. rewrite (byte_found _ _ _ I). destruct u; [ | reflexivity ]. destruct (byte_table _ _ I) as (d & E & _). discriminate.
    + apply Forall_app. split; [ now apply amount_no_space | ]. destruct (byte_table _ _ I) as (d & E & D & _).
      apply (lower_no_space u [d; 105] E). cbn [In] in D. repeat constructor; lia.
  - destruct (big_table _ _ I) as (d & E & D & _). rewrite do_parse_start; auto.
    + rewrite map_app, E. cbn [In] in D. rewrite byte_none by lia. rewrite E in I. rewrite (big_found _ _ _ I).
      assert (Nu : u <> []) by (destruct u; [ discriminate | discriminate ]).
      replace (match (if small then find_unit small_units (map to_lower a ++ [d]) else None) with
               | Some (u0, f0, num) => if str_eqb u0 $"m" && suffixb $"M" (a ++ u) then None else (if small then find_unit small_units (map to_lower a ++ [d]) else None)
               | None => None end) with (@None (list Z * list Z * list Z)).
      * destruct u; [ congruence | reflexivity ].
      * destruct small; [ | reflexivity ]. destruct (Z.eqb_spec d 109) as [-> | Nd].
        -- assert (SF : find_unit small_units (map to_lower a ++ [109]) = Some ([109], $"0.001", map to_lower a)) by (apply small_found; cbn; tauto).
           unfold str, byte in *. rewrite SF. cbn [str_eqb bytes_of andb].
           replace (suffixb _ (a ++ u)) with true; [ reflexivity | ]. symmetry. apply suffixb_iff. exists a. f_equal.
           destruct u as [ | y [ | z u ] ]; try discriminate. cbn [map] in E. injection E as Ey. specialize (M eq_refl).
           unfold to_lower in Ey. destruct ((65 <=? y) && (y <=? 90)) eqn:Q; [ replace y with 77 by lia; reflexivity | ].
           subst y. elim M. reflexivity.
        -- unfold str, byte in *. rewrite small_none by (cbn [In]; lia). reflexivity.
    + apply Forall_app. split; [ now apply amount_no_space | ]. apply (lower_no_space u [d] E). cbn [In] in D. repeat constructor; lia.
Qed.
Lemma do_parse_small a u round : amount a -> small_unit u -> exists f, In (map to_lower u, f) small_units /\
  units_do_parse F R (a ++ u) true round = with_number (map to_lower a) (fun v => scale_double F v f).
Proof.
  intros A U. unfold str, byte in *.
  assert (Na : a ++ u <> []) by (intros E; apply app_eq_nil in E as [E _]; now apply (amount_nonempty a)).
  assert (X : exists f, In (map to_lower u, f) small_units).
  { destruct U as [-> | U]; [ eexists; cbn; tauto | ]. change lower_case with to_lower in U. cbn [In] in U.
    decompose [or] U; try contradiction; match goal with H : _ = map to_lower u |- _ => rewrite <- H end; eexists; cbn; tauto. }
  destruct X as [f I]. exists f. split; auto. destruct (small_table _ _ I) as (d & E & D). cbn [In] in D. rewrite do_parse_start; auto.
  - rewrite map_app, E. rewrite byte_none by lia. rewrite E in I. rewrite (small_found _ _ _ I).
    replace (str_eqb [d] $"m" && suffixb $"M" (a ++ u)) with false; [ reflexivity | ]. symmetry. apply andb_false_iff.
    destruct U as [-> | U].
    + right. destruct (suffixb $"M" (a ++ $"m")) eqn:Q; auto. apply suffixb_iff in Q as [b Q]. apply app_inj_tail in Q as [_ Q]. discriminate.
    + left. change lower_case with to_lower in U. rewrite E in U. cbn [In] in U. decompose [or] U; try contradiction;
        match goal with H : _ = [d] |- _ => injection H as <- end; reflexivity.
  - apply Forall_app. split; [ now apply amount_no_space | ]. apply (lower_no_space u [d] E). repeat constructor; lia.
Qed.
Lemma do_parse_error x small round :
  (forall a u, x = a ++ u -> amount a -> (forall f, ~ unit_factor u f) /\ (small = true -> ~ small_unit u)) ->
  units_do_parse F R x small round = Ok (RErr EvalBuiltInError).
Proof.
  intros H. unfold units_do_parse. unfold str, byte in *. destruct (length x =? 0)%nat; [ reflexivity | ]. destruct (existsb is_space x); [ reflexivity | ].
  assert (K : forall us num v g k, (forall w g, In (w, g) us -> forall u, map to_lower u = w -> (exists f, unit_factor u f) \/ small = true /\ small_unit u) ->
    find_unit us (map to_lower x) = Some (v, g, num) -> with_number num k = Ok (RErr EvalBuiltInError)).
  { intros us num v g k T Q. apply find_unit_some in Q as [I E]. apply map_eq_app in E as (a & u & Ex & Ea & Eu). unfold with_number.
    rewrite parse_number_none; [ reflexivity | ]. rewrite <- Ea, amount_lower. intros A. destruct (H a u Ex A) as [H1 H2].
    destruct (T v g I u Eu) as [[f X] | [X Y]]; [ exact (H1 f X) | exact (H2 X Y) ]. }
  destruct (find_unit byte_units (map to_lower x)) as [[[v g] num] | ] eqn:B.
  { eapply K; [ | exact B ]. intros w h I u Eu. left. destruct (byte_table w h I) as (_ & _ & _ & T). auto. }
  assert (Bg : match find_unit big_units (map to_lower x) with
    | Some (_, f, num) => with_number num (fun v => scale_int F R v f round) | None => with_number x ok end = Ok (RErr EvalBuiltInError)).
  { destruct (find_unit big_units (map to_lower x)) as [[[v g] num] | ] eqn:G.
    - eapply K; [ | exact G ]. intros w h I u Eu. left. destruct (big_table w h I) as (_ & _ & _ & T). auto.
    - unfold with_number. rewrite parse_number_none; [ reflexivity | ]. intros A. destruct (H x [] (eq_sym (app_nil_r x)) A) as [H1 _].
      apply (H1 1). now left. }
  cbv zeta. destruct small; [ | exact Bg ]. destruct (find_unit small_units (map to_lower x)) as [[[v g] num] | ] eqn:Q; [ | exact Bg ].
  destruct (str_eqb v $"m" && suffixb $"M" x) eqn:Y; [ exact Bg | ].
    apply find_unit_some in Q as [I E]. apply map_eq_app in E as (a & u & Ex & Ea & Eu).
    unfold with_number. rewrite parse_number_none; [ reflexivity | ]. rewrite <- Ea, amount_lower. intros A.
    destruct (H a u Ex A) as [_ H2]. apply (H2 eq_refl). unfold small_unit. change lower_case with to_lower.
    unfold small_units in I. cbn [In] in I. unfold str, byte in *. rewrite Eu. decompose [or] I; try contradiction;
      match goal with J : _ = (v, g) |- _ => injection J as <- _ end; try (right; cbn; tauto).
    left. destruct u as [ | y [ | z u ] ]; try discriminate. cbn [map] in Eu. injection Eu as Ey. unfold to_lower in Ey.
    destruct ((65 <=? y) && (y <=? 90)) eqn:Q; [ | now subst y ]. replace y with 77 in * by lia. exfalso.
    assert (T : suffixb $"M" x = true) by (apply suffixb_iff; exists a; exact Ex). rewrite T in Y. discriminate.
Qed.
End UnitsFacts.

(** ** UUIDs *)

Lemma hex_byte_digit c d : hex_to_byte c = Some d <-> digit16 c d.
Proof.
  rewrite digit16_hex. unfold hex_to_byte, hexdigit.
  destruct ((48 <=? c) && (c <=? 57)) eqn:A; [ reflexivity | ]. destruct ((97 <=? c) && (c <=? 102)) eqn:B, ((65 <=? c) && (c <=? 70)) eqn:C;
    try (exfalso; lia); try reflexivity; split; intros H; injection H as <-; f_equal; lia.
Qed.
Lemma set_at_app a x y l : set_at (length a) x (a ++ y :: l) = a ++ x :: l.
Proof. induction a as [ | z a IH ]; cbn [length app set_at]; [ reflexivity | ]. now rewrite IH. Qed.
Lemma at_app a y l : at_ (a ++ y :: l) (length a) = y.
Proof. unfold at_. induction a; cbn [app length nth]; auto. Qed.
Lemma zeros_S n : (n < 16)%nat -> repeat 0 (16 - n) = 0 :: repeat 0 (16 - S n).
Proof. intros H. replace (16 - n)%nat with (S (16 - S n)) by lia. reflexivity. Qed.
Lemma hex_text_length b t : hex_text b t -> length t = (2 * length b)%nat.
Proof. induction 1; cbn [length]; lia. Qed.

Lemma uuid_loop_spec t : forall done, (length done <= 16)%nat ->
  (forall id, uuid_loop t true (length done) (done ++ repeat 0 (16 - length done)) = Some (16%nat, id) <->
     exists rest, id = done ++ rest /\ hex_text rest (no_dashes t) /\ length id = 16%nat) /\
  (forall h id, (length done < 16)%nat -> 0 <= h < 16 ->
     (uuid_loop t false (length done) (done ++ h * 16 :: repeat 0 (16 - S (length done))) = Some (16%nat, id) <->
      exists c d t' rest, no_dashes t = c :: t' /\ digit16 c d /\ id = done ++ (h * 16 + d) :: rest /\ hex_text rest t' /\ length id = 16%nat)).
Proof.
  induction t as [ | c t IH ]; intros done L.
  - cbn [uuid_loop no_dashes filter]. split.
    + intros id. split.
      * intros H. injection H as H <-. exists (repeat 0 (16 - length done)). rewrite H. cbn [Nat.sub repeat]. rewrite app_nil_r. repeat split; [ constructor | lia ].
      * intros (rest & -> & H & E). inversion H; subst. rewrite app_nil_r in *. rewrite E. cbn [Nat.sub repeat]. now rewrite app_nil_r.
    + intros h id Lt Hh. split; [ intros H; injection H as H _; lia | ]. intros (c & d & t' & rest & E & _). discriminate.
  - cbn [uuid_loop]. destruct (Z.eqb_spec c 45) as [-> | N].
    { cbn [no_dashes filter Z.eqb Pos.eqb negb]. exact (IH done L). }
    assert (Nd : no_dashes (c :: t) = c :: no_dashes t).
    { unfold no_dashes. cbn [filter]. replace (c =? 45) with false by lia. reflexivity. }
    rewrite Nd. split.
    + intros id. destruct (16 <=? length done)%nat eqn:G.
      { apply Nat.leb_le in G. split; [ discriminate | ]. intros (rest & -> & H & E). rewrite app_length in E. inversion H; subst. cbn [length] in E. lia. }
      apply Nat.leb_gt in G. destruct (hex_to_byte c) as [h | ] eqn:Hc.
      2:{ split; [ discriminate | ]. intros (rest & -> & H & E). inversion H; subst.
          match goal with D : digit16 c ?x |- _ => apply hex_byte_digit in D; congruence end. }
      apply hex_byte_digit in Hc. pose proof (digit16_range _ _ Hc) as Rh.
      rewrite (zeros_S (length done) G), set_at_app. replace (Z.shiftl h 4 mod 256) with (h * 16).
      2:{ rewrite Z.shiftl_mul_pow2 by lia. rewrite Z.mod_small; lia. }
      destruct (IH done L) as [_ I2]. rewrite (I2 h id G Rh). split.
      * intros (c' & d & t' & rest & E & D & -> & H & El). exists ((h * 16 + d) :: rest). repeat split; auto. rewrite E. econstructor; eauto.
      * intros (rest & -> & H & El). inversion H as [ | a0 b0 x0 y0 s0 t0 Da Db Ht E1 E2 ]. subst rest a0.
        assert (x0 = h) by (apply digit16_hex in Da; apply digit16_hex in Hc; congruence). subst x0.
        exists b0, y0, t0, s0. auto.
    + intros h id Lt Hh. replace (16 <=? length done)%nat with false by (symmetry; apply Nat.leb_gt; lia).
      destruct (hex_to_byte c) as [d | ] eqn:Hc.
      2:{ split; [ discriminate | ]. intros (c' & d & t' & rest & E & D & _). injection E as <- _. apply hex_byte_digit in D. congruence. }
      apply hex_byte_digit in Hc. pose proof (digit16_range _ _ Hc) as Rd. rewrite at_app, set_at_app.
      replace (Z.lor (h * 16) d) with (h * 16 + d).
      2:{ rewrite <- (lor_16 h d) by lia. f_equal. rewrite Z.shiftl_mul_pow2 by lia. reflexivity. }
      destruct (IH (done ++ [h * 16 + d])) as [I1 _]; [ rewrite app_length; cbn [length]; lia | ].
      rewrite app_length in I1. cbn [length] in I1. replace (length done + 1)%nat with (S (length done)) in I1 by lia.
      rewrite <- app_assoc in I1. cbn [app] in I1. rewrite (I1 id). split.
      * intros (rest & -> & H & El). rewrite <- app_assoc. cbn [app]. exists c, d, (no_dashes t), rest.
        rewrite <- app_assoc in El. auto 6.
      * intros (c' & d' & t' & rest & E & D & -> & H & El). injection E as <- <-. exists rest. rewrite <- app_assoc. cbn [app]. repeat split; auto.
        -- do 2 f_equal. f_equal. apply digit16_hex in D. apply digit16_hex in Hc. congruence.
Qed.
Lemma uuid_loop_index t : forall first n id m id', (n <= 16)%nat -> uuid_loop t first n id = Some (m, id') -> (m <= 16)%nat.
Proof.
  induction t as [ | c t IH ]; intros first n id m id' L; cbn [uuid_loop]; [ intros H; injection H as <- _; exact L | ].
  destruct (c =? 45); [ now apply IH | ]. destruct (16 <=? n)%nat eqn:G; [ discriminate | ]. apply Nat.leb_gt in G.
  destruct (hex_to_byte c); [ | discriminate ]. destruct first; apply IH; lia.
Qed.
Lemma uuid_loop_final t id : (match uuid_loop t true 0 (repeat 0 16) with Some (n, x) => if (n <? 16)%nat then None else Some x | None => None end) = Some id <->
  hex_text id (no_dashes t) /\ length id = 16%nat.
Proof.
  destruct (uuid_loop_spec t [] (Nat.le_0_l 16)) as [S _]. specialize (S id). cbn [length app Nat.sub] in S.
  transitivity (uuid_loop t true 0 (repeat 0 16) = Some (16%nat, id)).
  - destruct (uuid_loop t true 0 (repeat 0 16)) as [[n x] | ] eqn:E; [ | split; discriminate ].
    assert (n <= 16)%nat by (eapply uuid_loop_index; [ | exact E ]; lia). destruct (n <? 16)%nat eqn:Q.
    + apply Nat.ltb_lt in Q. split; [ discriminate | ]. intros H1. injection H1 as -> _. lia.
    + apply Nat.ltb_ge in Q. replace n with 16%nat by lia. split; congruence.
  - rewrite S. split; [ intros (rest & -> & H & L); auto | intros [H L]; exists id; auto ].
Qed.
Lemma uuid_text_spec s id : uuid_from_string s = Some id <-> uuid_text id s.
Proof.
  unfold uuid_text, uuid_from_string. unfold str, byte in *. destruct s as [ | c s ].
  { split; [ discriminate | ]. intros (t & [<- | E] & H & L); [ | discriminate ]. apply hex_text_length in H. unfold no_dashes in H. cbn [filter length] in H. unfold str, byte in *. lia. }
  destruct (Z.eqb_spec c 123) as [-> | N]; cbn [andb].
  - destruct (exists_last (l := 123 :: s)) as (x & d & E); [ discriminate | ].
    assert (La : last (123 :: s) 0 = d) by (rewrite E; apply last_last). rewrite La.
    assert (NH : forall t, hex_text id (no_dashes (123 :: t)) -> False).
    { intros t H. unfold no_dashes in H. cbn [filter Z.eqb Pos.eqb negb] in H. inversion H; subst.
      match goal with D : digit16 123 ?v |- _ => apply digit16_hex in D; discriminate end. }
    destruct (Z.eqb_spec d 125) as [-> | Nd]; cbn [negb].
    + destruct x as [ | y x ].
      { exfalso. cbn [app] in E. congruence. }
      injection E as <- E. subst s. change (length (123 :: x ++ [125])) with (S (length (x ++ [125]))). rewrite app_length. cbn [length].
      replace (S (length x + 1) - 1 - 1)%nat with (length x) by lia. unfold substr. cbn [skipn]. rewrite firstn_app_length.
      rewrite uuid_loop_final. split.
      * intros [H L]. exists x. repeat split; auto.
      * intros (t & [<- | Et] & H & L); [ elim (NH _ H) | ]. injection Et as Et. apply app_inj_tail in Et as [<- _]. auto.
    + split; [ discriminate | ]. intros (t & [<- | Et] & H & L); [ elim (NH _ H) | ]. exfalso. rewrite Et in E.
      change ($"{" ++ t ++ $"}") with ((123 :: t) ++ [125]) in E. apply app_inj_tail in E as [_ E]. congruence.
  - rewrite !Nat.sub_0_r. unfold substr. cbn [skipn]. rewrite firstn_all. rewrite uuid_loop_final. split.
    + intros [H L]. exists (c :: s). auto.
    + intros (t & [<- | Et] & H & L); [ auto | ]. injection Et as Et _. congruence.
Qed.

Lemma hex2_digits b : 0 <= b < 256 -> exists x y, hex2 b = [x; y] /\ digit16 x (b / 16) /\ digit16 y (b mod 16) /\
  In x $"0123456789abcdef" /\ In y $"0123456789abcdef".
Proof.
  intros H. unfold hex2. assert (D : forall n, 0 <= n < 16 -> digit16 (if n <? 10 then 48 + n else 87 + n) n /\ In (if n <? 10 then 48 + n else 87 + n) $"0123456789abcdef").
  { intros n Hn. assert (E : hexdigit (if n <? 10 then 48 + n else 87 + n) = Some n /\ existsb (Z.eqb (if n <? 10 then 48 + n else 87 + n)) $"0123456789abcdef" = true).
    { apply (all_below 16 (fun n => match hexdigit (if n <? 10 then 48 + n else 87 + n) with Some m => (m =? n) && existsb (Z.eqb (if n <? 10 then 48 + n else 87 + n)) $"0123456789abcdef" | None => false end) eq_refl) in Hn.
      destruct (hexdigit (if n <? 10 then 48 + n else 87 + n)); [ | discriminate ]. apply andb_true_iff in Hn as [Hn ->]. apply Z.eqb_eq in Hn. now subst. }
    destruct E as [E1 E2]. split; [ now apply digit16_hex | now apply existsb_eqb ]. }
  pose proof (Z.div_pos b 16). pose proof (Z.div_lt_upper_bound b 16 16). pose proof (Z.mod_pos_bound b 16).
  destruct (D (b / 16)) as [D1 I1]; [ lia | ]. destruct (D (b mod 16)) as [D2 I2]; [ lia | ]. do 2 eexists. split; [ reflexivity | ]. auto.
Qed.
Lemma no_dashes_app a b : no_dashes (a ++ b) = no_dashes a ++ no_dashes b.
Proof. apply filter_app. Qed.
Lemma hex_char_not c : In c $"0123456789abcdef" -> c <> 45 /\ c <> 34 /\ c <> 117 /\ c <> 123.
Proof. intros H. apply existsb_eqb in H. cbn in H. repeat split; intros ->; discriminate. Qed.
Lemma hex2_text b t u : 0 <= b < 256 -> hex_text t u -> hex_text (b :: t) (no_dashes (hex2 b) ++ u).
Proof.
  intros H T. destruct (hex2_digits b H) as (x & y & -> & Dx & Dy & Ix & Iy). apply hex_char_not in Ix, Iy.
  unfold no_dashes. cbn [filter]. replace (x =? 45) with false by lia. replace (y =? 45) with false by lia. cbn [negb app].
  rewrite (Z.div_mod b 16) at 1 by lia. rewrite (Z.mul_comm 16). now constructor.
Qed.
Lemma uuid_print_text id : uuid id -> hex_text id (no_dashes (uuid_to_string id)).
Proof.
  intros [L O]. unfold uuid_to_string.
  do 16 (destruct id as [ | ? id ]; [ discriminate | ]). destruct id; [ | discriminate ].
  repeat match goal with H : octets (_ :: _) |- _ => inversion H; subst; clear H; match goal with K : Forall _ ?l |- _ => change (octets l) in K end end.
  unfold at_. cbn [seq flat_map nth existsb Nat.eqb orb]. rewrite !no_dashes_app.
  change (no_dashes [45]) with (@nil Z). change (no_dashes []) with (@nil Z). rewrite ?app_nil_r.
  repeat (apply hex2_text; [ assumption | ]). rewrite <- (app_nil_r (no_dashes _)). apply hex2_text; [ assumption | constructor ].
Qed.
Lemma uuid_round_trip id : uuid id -> uuid_from_string (uuid_to_string id) = Some id.
Proof. intros U. apply uuid_text_spec. exists (uuid_to_string id). split; [ now left | ]. split; [ now apply uuid_print_text | apply U ]. Qed.

Lemma lor_add x b n : 0 <= n -> x mod 2 ^ n = 0 -> 0 <= b < 2 ^ n -> Z.lor x b = x + b.
Proof.
  intros Hn Hx Hb. assert (L : Z.land x b = 0).
  { apply Z.bits_inj'. intros i Hi. rewrite Z.land_spec, Z.bits_0. destruct (Z.ltb_spec i n) as [Lt | Ge].
    - replace (Z.testbit x i) with false; [ reflexivity | ]. symmetry. rewrite <- (Z.mod_pow2_bits_low x n i) by lia. rewrite Hx. apply Z.bits_0.
    - rewrite <- (Z.mod_small b (2 ^ n)) by lia. rewrite Z.mod_pow2_bits_high by lia. apply andb_false_r. }
  rewrite <- Z.lxor_lor by exact L. symmetry. now apply Z.add_nocarry_lxor.
Qed.
Lemma lor_bytes x a b k n : 0 <= k <= n -> x mod 2 ^ n = 0 -> 0 <= a -> 0 <= a * 2 ^ k < 2 ^ n -> b = Z.shiftl a k -> Z.lor x b = x + a * 2 ^ k.
Proof. intros Hk Hx Ha Hb ->. rewrite Z.shiftl_mul_pow2 by lia. apply lor_add with n; lia. Qed.
Lemma byte_bound id i : octets id -> 0 <= byte_of id i < 256.
Proof.
  intros O. unfold byte_of. unfold octets, str, byte in *. rewrite Forall_forall in O. destruct (nth_in_or_default i id 0) as [H | H]; [ now apply O | rewrite H; lia ].
Qed.
Lemma low32_eq id : octets id -> low32 id = byte_of id 0 * 2 ^ 24 + byte_of id 1 * 2 ^ 16 + byte_of id 2 * 2 ^ 8 + byte_of id 3.
Proof.
  intros O. unfold low32. change (at_ id) with (byte_of id).
  pose proof (byte_bound id 0 O). pose proof (byte_bound id 1 O). pose proof (byte_bound id 2 O). pose proof (byte_bound id 3 O).
  rewrite !Z.shiftl_mul_pow2 by lia. rewrite (lor_add (_ * 2 ^ 24) _ 24) by (try lia; apply Z.mod_mul; lia).
  rewrite (lor_add _ (_ * 2 ^ 8) 16); try lia.
  2:{ replace (byte_of id 0 * 2 ^ 24 + byte_of id 1 * 2 ^ 16) with ((byte_of id 0 * 2 ^ 8 + byte_of id 1) * 2 ^ 16) by lia. apply Z.mod_mul. lia. }
  rewrite (lor_add _ (byte_of id 3) 8); try lia.
  replace (byte_of id 0 * 2 ^ 24 + byte_of id 1 * 2 ^ 16 + byte_of id 2 * 2 ^ 8) with ((byte_of id 0 * 2 ^ 16 + byte_of id 1 * 2 ^ 8 + byte_of id 2) * 2 ^ 8) by lia.
  apply Z.mod_mul. lia.
Qed.
Lemma word16 a b : 0 <= a < 256 -> 0 <= b < 256 -> Z.lor (Z.shiftl a 8) b = a * 2 ^ 8 + b.
Proof. intros Ha Hb. rewrite Z.shiftl_mul_pow2 by lia. apply lor_add with 8; try lia. apply Z.mod_mul. lia. Qed.
Lemma get_time_eq id : octets id -> get_time id = let! t := int64 (rfc_timestamp id - g1582ns100) in int64 (t * 100).
Proof.
  intros O. unfold get_time, rfc_timestamp. rewrite low32_eq by exact O. change (at_ id) with (byte_of id).
  pose proof (byte_bound id 0 O). pose proof (byte_bound id 1 O). pose proof (byte_bound id 2 O). pose proof (byte_bound id 3 O).
  pose proof (byte_bound id 4 O). pose proof (byte_bound id 5 O). pose proof (byte_bound id 6 O). pose proof (byte_bound id 7 O).
  rewrite !word16 by assumption. replace 4095 with (Z.ones 12) by reflexivity. rewrite Z.land_ones by lia.
  assert (E : (byte_of id 6 * 2 ^ 8 + byte_of id 7) mod 2 ^ 12 = (byte_of id 6 mod 16) * 2 ^ 8 + byte_of id 7).
  { symmetry. apply Z.mod_unique with (byte_of id 6 / 16); [ | pose proof (Z.div_mod (byte_of id 6) 16); lia ].
    left. pose proof (Z.mod_pos_bound (byte_of id 6) 16). lia. }
  rewrite E. pose proof (Z.mod_pos_bound (byte_of id 6) 16). rewrite !Z.shiftl_mul_pow2 by lia.
  rewrite (lor_add _ (_ * 2 ^ 32) 48) by (try lia; apply Z.mod_mul; lia).
  rewrite (lor_add _ (_ + byte_of id 3) 32); try lia.
  2:{ match goal with |- (?x * 2 ^ 48 + ?y * 2 ^ 32) mod _ = 0 => replace (x * 2 ^ 48 + y * 2 ^ 32) with ((x * 2 ^ 16 + y) * 2 ^ 32) by lia end. apply Z.mod_mul. lia. }
  do 2 f_equal. lia.
Qed.
Lemma clock_eq id : octets id -> get_clock_sequence id = rfc_clock id.
Proof.
  intros O. unfold get_clock_sequence, rfc_clock. change (at_ id) with (byte_of id).
  pose proof (byte_bound id 8 O). pose proof (byte_bound id 9 O). rewrite word16 by assumption.
  replace 16383 with (Z.ones 14) by reflexivity. rewrite Z.land_ones by lia.
  symmetry. apply Z.mod_unique with (byte_of id 8 / 64); [ | pose proof (Z.div_mod (byte_of id 8) 64); lia ].
  left. pose proof (Z.mod_pos_bound (byte_of id 8) 64). lia.
Qed.
Lemma variant_eq id : octets id -> variant_name (uuid_variant id) = rfc_variant id.
Proof.
  intros O. unfold uuid_variant, rfc_variant. change (at_ id) with (byte_of id). pose proof (byte_bound id 8 O) as H. apply str_eqb_eq.
  set (b := byte_of id 8) in *. clearbody b. revert b H.
  apply (all_below 256 (fun b => str_eqb (variant_name (if Z.land b 128 =? 0 then Ncs else if Z.land b 192 =? 128 then Rfc else if Z.land b 224 =? 192 then Microsoft else Reserved))
    (if b <? 128 then $"ncs" else if b <? 192 then $"RFC4122" else if b <? 224 then $"microsoft" else $"reserved"))). vm_compute. reflexivity.
Qed.
Lemma mac_eq id : octets id -> byte_of id 10 mod 4 <> 3 -> get_mac_vars id = rfc_mac id.
Proof.
  intros O. unfold get_mac_vars, rfc_mac. change (at_ id) with (byte_of id). pose proof (byte_bound id 10 O) as H. set (b := byte_of id 10) in *. clearbody b.
  intros N. assert (Q : ((b mod 4 =? 3) || str_eqb (let v := Z.land b 3 in if v =? 2833 then $"local:multicast" else if v =? 2 then $"local:unicast" else if v =? 1 then $"global:multicast" else $"global:unicast")
    ((if b / 2 mod 2 =? 1 then $"local:" else $"global:") ++ (if b mod 2 =? 1 then $"multicast" else $"unicast"))) = true).
  { revert b H N. intros b H _. revert b H. apply (all_below 256 (fun b => (b mod 4 =? 3) || str_eqb _ _)). vm_compute. reflexivity. }
  apply orb_true_iff in Q as [Q | Q]; [ apply Z.eqb_eq in Q; congruence | ]. now apply str_eqb_eq in Q.
Qed.

Lemma word_octets w : octets (word_bytes w).
Proof. unfold word_bytes. repeat (apply Forall_cons; [ apply Z.mod_pos_bound; lia | ]). constructor. Qed.
Lemma random_uuid w0 w1 w2 w3 : uuid (uuid_random w0 w1 w2 w3) /\
  rfc_version (uuid_random w0 w1 w2 w3) = 4 /\ rfc_variant (uuid_random w0 w1 w2 w3) = $"RFC4122".
Proof.
  unfold uuid_random. pose proof (word_octets w0) as O0. pose proof (word_octets w1) as O1. pose proof (word_octets w2) as O2. pose proof (word_octets w3) as O3.
  unfold word_bytes in *.
  repeat match goal with H : octets (_ :: _) |- _ => inversion H; subst; clear H; match goal with K : Forall _ ?l |- _ => change (octets l) in K end end.
  repeat match goal with H : octets [] |- _ => clear H end.
  cbn [app at_ nth set_at].
  repeat match goal with |- context [?a mod 256] => let v := fresh "v" in set (v := a mod 256) in *; clearbody v end.
  unfold at_. cbn [nth]. 
  assert (V : forall x, 0 <= x < 256 -> 128 <= Z.lor (Z.land x 191) 128 < 192).
  { intros x Hx. apply (all_below 256 (fun x => (128 <=? Z.lor (Z.land x 191) 128) && (Z.lor (Z.land x 191) 128 <? 192)) eq_refl) in Hx. lia. }
  assert (W : forall x, 0 <= x < 256 -> 64 <= Z.lor (Z.land x 79) 64 < 80).
  { intros x Hx. apply (all_below 256 (fun x => (64 <=? Z.lor (Z.land x 79) 64) && (Z.lor (Z.land x 79) 64 <? 80)) eq_refl) in Hx. lia. }
  unfold rfc_version, rfc_variant, byte_of. cbn [nth].
  match goal with |- context [Z.lor (Z.land ?x 191) 128] => specialize (V x); set (b8 := Z.lor (Z.land x 191) 128) in * end.
  match goal with |- context [Z.lor (Z.land ?x 79) 64] => specialize (W x); set (b6 := Z.lor (Z.land x 79) 64) in * end.
  clearbody b8 b6. specialize (V ltac:(assumption)). specialize (W ltac:(assumption)).
  split; [ | split ].
  - split; [ reflexivity | ]. repeat (apply Forall_cons; [ first [ assumption | lia ] | ]). constructor.
  - symmetry. apply Z.div_unique with (b6 - 64); lia.
  - replace (b8 <? 128) with false by lia. replace (b8 <? 192) with true by lia. reflexivity.
Qed.
