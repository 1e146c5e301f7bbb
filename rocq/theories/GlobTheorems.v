(** * C33: glob.match implements its pattern language

    [glob_match] models the builtin; its first argument bounds the frames taken from its stack, and [returns] says what it returns once
    the bound is large enough.  [denotes] in GlobSpec is the pattern language. *)
From Coq Require Import String ZArith List Bool Lia.
From Verif Require Import Base SMap ValueModel ResolverModel VmModel StrModel EncModel EncSpec EncProofs GlobModel GlobSpec GlobProofs.
Import ListNotations.
Local Open Scope Z_scope.
Local Open Scope list_scope.

Definition answers (J : json_ops) (p d t : value) (r : res) : Prop := returns (fun n => glob_match J n p d t) r.
Definition octets (s : str) : Prop := Forall (fun c => 0 <= c < 256) s.
(** Two answers are the same. *)
Lemma answers_det J p d t r r' : answers J p d t r -> answers J p d t r' -> r = r'.
Proof. intros [n Hn] [m Hm]. specialize (Hn (max n m) ltac:(lia)). specialize (Hm (max n m) ltac:(lia)). congruence. Qed.

Section Facts.
Variable J : json_ops.
Notation unesc := (j_unescape J).
Lemma chars_spec l : (forall chars, delimiter_chars J l = Some chars -> Forall (fun x => exists t, x = VString t /\ (length (unesc t) <= 1)%nat) l /\
    forall c, In c chars <-> exists t, In (VString t) l /\ unesc t = [c]) /\
  (delimiter_chars J l = None -> ~ Forall (fun x => exists t, x = VString t /\ (length (unesc t) <= 1)%nat) l).
Proof.
  induction l as [ | x l [IH1 IH2] ].
  - split; [ | discriminate ]. intros chars H. injection H as <-. split; [ constructor | ]. intros c. split; [ contradiction | now intros (t & [] & _) ].
  - assert (B : forall y, (forall t, y <> VString t) -> ~ Forall (fun x => exists t, x = VString t /\ (length (unesc t) <= 1)%nat) (y :: l)).
    { intros y N F. inversion F as [ | ? ? (t & E & _) _ ]; subst. now apply (N t). }
    destruct x as [ | | | ? | ? | text | items | ? | ? | ? ]; try (split; [ discriminate | intros _; apply B; discriminate ]). cbn [delimiter_chars].
    destruct (unesc text) as [ | c [ | c' r ] ] eqn:E.
    + split.
      * intros chars H. destruct (IH1 _ H) as [F G]. split; [ constructor; [ exists text; rewrite E; cbn; auto | exact F ] | ]. intros c. rewrite G. split.
        -- intros (t & I & U). exists t. split; [ now right | exact U ].
        -- intros (t & [K | I] & U); [ injection K as <-; congruence | eauto ].
      * intros H F. inversion F; subst. now apply IH2.
    + destruct (delimiter_chars J l) as [chars' | ] eqn:D; split; try discriminate.
      * intros chars H. injection H as <-. destruct (IH1 _ eq_refl) as [F G]. split; [ constructor; [ exists text; rewrite E; cbn; auto | exact F ] | ]. intros c0. cbn [In]. rewrite G. split.
        -- intros [<- | (t & I & U)]; [ exists text; auto | exists t; auto ].
        -- intros (t & [K | I] & U); [ injection K as <-; left; congruence | right; eauto ].
      * intros _ F. inversion F; subst. now apply IH2.
    + split; [ discriminate | ]. intros _ F. inversion F as [ | ? ? (t & K & L) _ ]; subst. injection K as <-. rewrite E in L. cbn in L. lia.
Qed.
Lemma delimiters_some d chars enabled : parse_delimiters J d = Some (chars, enabled) ->
  exists D, separators unesc d D /\ forall c, D c <-> delim (fun c => existsb (Z.eqb c) chars) enabled c.
Proof.
  unfold parse_delimiters, delim. destruct d as [ | | | ? | ? | text | items | ? | ? | ? ]; try discriminate.
  - intros H. injection H as <- <-. exists (fun _ => False). split; [ constructor | ]. intuition discriminate.
  - destruct items as [ | x l ].
    + intros H. injection H as <- <-. exists (fun c => c = 46). split; [ constructor | ]. intros c. change ($".") with [46]. cbn [existsb]. rewrite orb_false_r, Z.eqb_eq. tauto.
    + destruct (delimiter_chars J (x :: l)) as [cs | ] eqn:E; [ | discriminate ]. intros H. injection H as <- <-. destruct (proj1 (chars_spec _) _ E) as [F G].
      eexists. split; [ apply s_list; [ discriminate | exact F ] | ]. intros c. cbn beta. rewrite <- G, existsb_exists. split.
      * intros I. split; [ reflexivity | ]. exists c. now rewrite Z.eqb_refl.
      * intros (_ & y & I & K). apply Z.eqb_eq in K. now subst y.
Qed.
Lemma delimiters_complete d D : separators unesc d D -> exists chars enabled, parse_delimiters J d = Some (chars, enabled) /\ (d = VNull \/ exists l, d = VArray l) /\
  forall c, D c <-> delim (fun c => existsb (Z.eqb c) chars) enabled c.
Proof.
  intros H. assert (Some' : exists ce, parse_delimiters J d = Some ce).
  { destruct H as [ | | l N F ]; cbn; eauto. destruct l as [ | x l ]; [ congruence | ]. destruct (delimiter_chars J (x :: l)) as [cs | ] eqn:E; eauto. exfalso. revert F. now apply (proj2 (chars_spec (x :: l))). }
  destruct Some' as [[chars enabled] E]. exists chars, enabled. split; [ exact E | ]. split; [ destruct H; eauto | ].
  destruct (delimiters_some _ _ _ E) as (D' & H' & G). intros c. rewrite <- G.
  inversion H; subst; inversion H'; subst; try tauto; congruence.
Qed.
Lemma delimiters_none d : parse_delimiters J d = None -> forall D, ~ separators unesc d D.
Proof. intros E D H. destruct (delimiters_complete _ _ H) as (? & ? & K & _). congruence. Qed.
End Facts.
Lemma den_ext D D' stop p t : (forall c, D c <-> D' c) -> denotes D stop p t -> denotes D' stop p t.
Proof.
  intros E H. induction H; try (econstructor; eauto; fail).
  - apply d_any; [ now rewrite <- E | assumption ].
  - apply d_star; [ assumption | | assumption ]. eapply Forall_impl; [ | eassumption ]. intros c Hc. now rewrite <- E.
Qed.

(** glob.match returns for all arguments. *)
Theorem C33_terminates J p d t : (forall s, p = VString s -> octets (j_unescape J s)) -> (forall s, t = VString s -> octets (j_unescape J s)) ->
  exists r, answers J p d t r /\ (r = RVal VTrue \/ r = RVal VFalse \/ exists code, r = RErr code).
Proof.
  intros Hp Ht. unfold answers, returns, glob_match.
  assert (E : forall c, exists r, (exists n : nat, forall m, (n <= m)%nat -> Ok (RErr c) = Ok r) /\ (r = RVal VTrue \/ r = RVal VFalse \/ exists code, r = RErr code)).
  { intros c. exists (RErr c). split; [ now exists 0%nat | eauto ]. }
  assert (T : forall x y chars en, octets x -> octets y -> exists r, (exists n : nat, forall m, (n <= m)%nat ->
     (let! r := glob_match_iterative x (fun c => existsb (Z.eqb c) chars) en m y in match r with inl _ => Ok (RErr EvalBuiltInError) | inr b => ok (vbool b) end) = Ok r) /\
     (r = RVal VTrue \/ r = RVal VFalse \/ exists code, r = RErr code)).
  { intros x y chars en Hx Hy. destruct (match_spec x (fun c => existsb (Z.eqb c) chars) en Hx y Hy) as (r & [n Hn] & _).
    exists (match r with inl _ => RErr EvalBuiltInError | inr b => RVal (vbool b) end). split; [ exists n; intros m Hm; rewrite (Hn m Hm); destruct r; reflexivity | ]. destruct r as [ | [ | ] ]; eauto. }
  destruct p as [ | | | ? | ? | text | items | ? | ? | ? ]; try apply E. destruct d as [ | | | ? | ? | ? | items | ? | ? | ? ]; try apply E.
  - destruct t; try apply E. cbn [parse_delimiters]. apply T; [ now apply Ht | now apply Hp ].
  - destruct t; try apply E. destruct (parse_delimiters J (VArray items)) as [[chars en] | ]; [ | apply E ]. apply T; [ now apply Ht | now apply Hp ].
Qed.
(** The arguments it refuses: operands of other types, and delimiters that are not single bytes. *)
Theorem C33_arguments J p d t r : answers J p d t r ->
  ((forall s, p <> VString s) \/ (forall s, t <> VString s) \/ (d <> VNull /\ forall l, d <> VArray l) -> r = RErr EvalTypeError) /\
  ((exists s, p = VString s) -> (exists s, t = VString s) -> (exists l, d = VArray l) -> (forall D, ~ separators (j_unescape J) d D) -> r = RErr EvalBuiltInError).
Proof.
  intros [n Hn]. specialize (Hn n (le_n _)). unfold glob_match in Hn. split.
  - intros H.
    assert (glob_match J n p d t = Ok (RErr EvalTypeError)).
    { unfold glob_match. destruct H as [H | [H | [H1 H2]]].
      - destruct p as [ | | | ? | ? | text | items | ? | ? | ? ]; try reflexivity. now destruct (H text).
      - destruct p; try reflexivity. destruct d; try reflexivity; destruct t as [ | | | ? | ? | text | items | ? | ? | ? ]; try reflexivity; now destruct (H text).
      - destruct p; try reflexivity. destruct d as [ | | | ? | ? | text | items | ? | ? | ? ]; try reflexivity; [ congruence | now destruct (H2 items) ]. }
    unfold glob_match in H0. congruence.
  - intros [s ->] [s' ->] [l ->] N. destruct (parse_delimiters J (VArray l)) as [[chars en] | ] eqn:E; [ | congruence ].
    destruct (delimiters_some _ _ _ _ E) as (D & H & _). now destruct (N D).
Qed.

Section Answer.
Variable J : json_ops.
Variables (p t : str) (d : value) (D : Z -> Prop).
Hypothesis Hd : separators (j_unescape J) d D.
Hypothesis Hp : octets (j_unescape J p).
Hypothesis Ht : octets (j_unescape J t).
Notation P := (j_unescape J p).
Notation T := (j_unescape J t).
Lemma answer_spec : small P -> exists r, answers J (VString p) d (VString t) r /\
  (r = RVal VTrue /\ denotes D true P T \/ r = RVal VFalse /\ ~ denotes D true P T \/
   r = RErr EvalBuiltInError /\ (~ well_formed P \/ In 123 P \/ 4096 <= Z.of_nat (count_byte 42 P))).
Proof.
  intros Hs. destruct (delimiters_complete _ _ _ Hd) as (chars & en & E & Hsh & HD). set (f := fun c => existsb (Z.eqb c) chars) in *.
  destruct (match_spec T f en Ht P Hp) as (r & [n Hn] & Hr).
  exists (match r with inl _ => RErr EvalBuiltInError | inr b => RVal (vbool b) end). split.
  - exists n. intros m Hm. unfold glob_match. assert (G : (match parse_delimiters J d with
      | None => Ok (RErr EvalBuiltInError)
      | Some (chars, enabled) =>
          let! r := glob_match_iterative T (fun c => existsb (Z.eqb c) chars) enabled m P in
          match r with inl _ => Ok (RErr EvalBuiltInError) | inr b => ok (vbool b) end
      end) = Ok match r with inl _ => RErr EvalBuiltInError | inr b => RVal (vbool b) end).
    { rewrite E. fold f. rewrite (Hn m Hm). destruct r; reflexivity. }
    destruct Hsh as [-> | [l ->]]; exact G.
  - destruct r as [e | [ | ]].
    + right. right. split; [ reflexivity | ]. specialize (Hn n (le_n _)). unfold glob_match_iterative in Hn.
      destruct (in_dec Z.eq_dec 123 P) as [I | I]; [ tauto | ]. destruct (Z_le_gt_dec 4096 (Z.of_nat (count_byte 42 P))) as [L | L]; [ tauto | ]. left. intros W. destruct e.
      * apply (loop_no_syntax T f en Ht) in Hn; [ congruence | ]. constructor; [ | constructor ]. unfold good_frame, good. auto.
      * apply (loop_no_complex T f en n (S (count_byte 42 P))) in Hn; [ congruence | lia | ]. constructor; [ unfold stars; cbn [g_pattern length]; lia | exact I | constructor ].
    + left. split; [ reflexivity | ]. apply (den_ext (delim f en)); [ intros c; now rewrite HD | exact Hr ].
    + right. left. split; [ reflexivity | ]. intros H. apply (Hr Hs). apply (den_ext D); [ exact HD | exact H ].
Qed.

(** What is missing: patterns with a backslash, patterns beyond the limits, and which patterns with braces are refused. *)
Theorem C33_match_partial : ~ In 92 P -> small P -> exists r, answers J (VString p) d (VString t) r /\
  (r = RVal VTrue /\ denotes D false P T \/ r = RVal VFalse /\ ~ denotes D false P T \/
   r = RErr EvalBuiltInError /\ (~ well_formed P \/ In 123 P \/ 4096 <= Z.of_nat (count_byte 42 P))).
Proof.
  intros N Hs. destruct (answer_spec Hs) as (r & A & H). exists r. split; [ exact A | ].
  destruct H as [[-> H] | [[-> H] | H]]; [ left | right; left | right; right; exact H ]; (split; [ reflexivity | ]).
  - now apply (den_no_escape _ _ _ true).
  - intros K. apply H. now apply (den_no_escape _ _ _ false).
Qed.
(** Patterns of bytes, '?', '*', '**' and classes: true exactly when the pattern denotes the text, false otherwise. *)
Theorem C33_match_plain : well_formed P -> ~ In 92 P -> ~ In 123 P -> Z.of_nat (count_byte 42 P) < 4096 -> Z.of_nat (count_byte 44 P) <= 4096 ->
  (answers J (VString p) d (VString t) (RVal VTrue) <-> denotes D false P T) /\
  (answers J (VString p) d (VString t) (RVal VFalse) <-> ~ denotes D false P T).
Proof.
  intros W N B S C. destruct C33_match_partial as (r & A & H); [ exact N | | ].
  { split; [ | exact C ]. assert (E : count_byte 123 P = 0%nat) by now apply count_occ_not_In. rewrite E. lia. }
  destruct H as [[-> H] | [[-> H] | [_ [H | [H | H]]]]]; try (contradiction || lia).
  - split; split; auto; try contradiction. intros K. pose proof (answers_det _ _ _ _ _ _ A K). discriminate.
  - split; split; auto; try contradiction. intros K. pose proof (answers_det _ _ _ _ _ _ A K). discriminate.
Qed.
(** The answer for every pattern within the limits, escapes included: a pattern ends after its first escaped byte. *)
Theorem C33_match_escapes : small P -> exists r, answers J (VString p) d (VString t) r /\
  (r = RVal VTrue /\ denotes D true P T \/ r = RVal VFalse /\ ~ denotes D true P T \/
   r = RErr EvalBuiltInError /\ (~ well_formed P \/ In 123 P \/ 4096 <= Z.of_nat (count_byte 42 P))).
Proof. exact answer_spec. Qed.
End Answer.

(** ** glob.quote_meta *)
Definition meta (c : Z) : Prop := In c ($"*?\[]{}").
Lemma is_meta c : is_glob_meta c = true <-> meta c.
Proof.
  unfold is_glob_meta, meta. rewrite existsb_exists. split.
  - intros (x & I & E). apply Z.eqb_eq in E. subst x. cbn in *. tauto.
  - intros I. exists c. rewrite Z.eqb_refl. split; [ cbn in *; tauto | reflexivity ].
Qed.
Lemma quote_denotes D s : forall t, denotes D false (quote_meta s) t <-> t = s.
Proof.
  induction s as [ | c s IH ]; intros t; cbn [quote_meta flat_map].
  - apply den_nil.
  - destruct (is_glob_meta c) eqn:E; cbn [app].
    + rewrite den_escape. split.
      * intros (c' & q & t' & E1 & -> & H). injection E1 as <- <-. apply IH in H. now subst.
      * intros ->. exists c, (quote_meta s), s. repeat split. now apply IH.
    + assert (N : ~ In c [92; 42; 63; 91; 123]).
      { intros I. assert (K : is_glob_meta c = true) by (apply is_meta; unfold meta; cbn in *; tauto). congruence. }
      rewrite den_byte by exact N. split.
      * intros (t' & -> & H). apply IH in H. now subst.
      * intros ->. exists s. split; [ reflexivity | now apply IH ].
Qed.
(** Read as a pattern of the intended language, the quoted text denotes the text and nothing else. *)
Theorem C33_quote_meta J D x s : json_ok J -> x = VString s ->
  exists q, glob_quote_meta J x = ok (VString q) /\ forall t, denotes D false (j_unescape J q) t <-> t = j_unescape J s.
Proof.
  intros (HJ & HQ & _) ->. exists (j_escape J (quote_meta (j_unescape J s))). split.
  - cbn [glob_quote_meta]. unfold mkstr, strip_quotes. now rewrite (json_text_plain _ (HQ _)).
  - intros t. rewrite HJ. apply quote_denotes.
Qed.
(** glob.match finds a quoted text, and only it, when the text has none of the special bytes. *)
Theorem C33_quote_match_partial J p t s d D : separators (j_unescape J) d D -> octets (j_unescape J t) -> j_unescape J p = quote_meta s -> octets s ->
  (forall c, In c s -> ~ meta c) -> Z.of_nat (count_byte 44 s) <= 4096 ->
  (answers J (VString p) d (VString t) (RVal VTrue) <-> j_unescape J t = s) /\
  (answers J (VString p) d (VString t) (RVal VFalse) <-> j_unescape J t <> s).
Proof.
  intros Hd Ht Ep Hs Nm Hc.
  assert (Q : quote_meta s = s).
  { clear -Nm. induction s as [ | c s IH ]; [ reflexivity | ]. cbn [quote_meta flat_map]. destruct (is_glob_meta c) eqn:E; [ exfalso; apply (Nm c); [ now left | now apply is_meta ] | ].
    cbn [app]. f_equal. apply IH. intros c' I. apply Nm. now right. }
  assert (Nb : forall c, meta c -> ~ In c (j_unescape J p)) by (intros c Hm I; rewrite Ep, Q in I; now apply (Nm c)).
  pose proof (C33_match_plain J p t d D Hd) as G. rewrite Ep, (quote_denotes D s) in G. rewrite <- Ep in G. apply G; auto.
  - rewrite Ep, Q. exact Hs.
  - rewrite Ep, Q. clear -Nm. induction s as [ | c s IH ]; [ constructor | ]. apply w_byte; [ | apply IH; intros c' I; apply Nm; now right ].
    intros I. apply (Nm c); [ now left | ]. unfold meta. cbn in *. tauto.
  - apply Nb. unfold meta. cbn. tauto.
  - apply Nb. unfold meta. cbn. tauto.
  - assert (E : count_byte 42 (j_unescape J p) = 0%nat) by (apply count_occ_not_In; apply Nb; unfold meta; cbn; tauto). rewrite E. lia.
  - rewrite Ep, Q. exact Hc.
Qed.

(** ** What fails *)
Lemma computed J n p d t r : glob_match J n p d t = Ok r -> answers J p d t r.
Proof.
  intros H. exists n. intros m Hm. revert H. unfold glob_match.
  assert (G : forall x f en y (k : glob_error + bool -> outcome res), obind (glob_match_iterative x f en n y) k = Ok r -> obind (glob_match_iterative x f en m y) k = Ok r).
  { intros x f en y k H. destruct (glob_match_iterative x f en n y) as [r0 | | | ] eqn:E; try discriminate. unfold glob_match_iterative in *. now rewrite (loop_more _ _ _ _ _ _ E m Hm). }
  destruct p; auto. destruct d as [ | | | ? | ? | ? | items | ? | ? | ? ]; auto; destruct t; auto; [ apply G | ]. destruct (parse_delimiters J (VArray items)) as [[chars en] | ]; auto.
Qed.
Notation glob_text s := (VString ($ s)).
(** A byte after a backslash ends the match, so a pattern that denotes the text is not found and one that does not is. *)
Theorem C33_escape_refuted :
  (denotes (fun _ => False) false ($"\*b") ($"*b") /\ answers json_ops0 (VString ($"\\*b")) VNull (glob_text "*b") (RVal VFalse)) /\
  (~ denotes (fun _ => False) false ($"\*b") ($"*") /\ answers json_ops0 (VString ($"\\*b")) VNull (glob_text "*") (RVal VTrue)).
Proof.
  split; split.
  - apply d_escape; [ reflexivity | ]. apply d_byte; [ cbn; intuition lia | constructor ].
  - apply (computed _ 10). vm_compute. reflexivity.
  - change ($"\*b") with [92; 42; 98]. rewrite den_escape. intros (c & q & t' & E1 & E2 & H). injection E1 as <- <-. injection E2 as <-. apply den_byte in H; [ | cbn; intuition lia ]. destruct H as (? & H & _). discriminate.
  - apply (computed _ 10). vm_compute. reflexivity.
Qed.
(** So a quoted text does not match itself. *)
Theorem C33_quote_meta_refuted : exists q, glob_quote_meta json_ops0 (glob_text "a*b") = ok (VString q) /\
  answers json_ops0 (VString q) VNull (glob_text "a*b") (RVal VFalse) /\ answers json_ops0 (VString q) VNull (glob_text "a*") (RVal VTrue).
Proof.
  eexists. split; [ vm_compute; reflexivity | ]. split; apply (computed _ 10); vm_compute; reflexivity.
Qed.
(** Braces nested more than 64 deep match nothing, without an error. *)
Fixpoint nested (n : nat) : str := match n with O => $"a" | S n => [123] ++ nested n ++ [125] end.
Lemma nested_alternative n : alternative (nested n) /\ balanced (nested n).
Proof.
  induction n as [ | n [IH1 IH2] ]; cbn [nested].
  - change ($"a") with [97]. split; [ apply a_byte; try lia; constructor | apply b_byte; try lia; constructor ].
  - split; [ apply (a_group _ []); [ exact IH2 | constructor ] | apply (b_group _ []); [ exact IH2 | constructor ] ].
Qed.
Lemma nested_denotes D n : denotes D false (nested n) ($"a").
Proof.
  induction n as [ | n IH ]; cbn [nested].
  - change ($"a") with [97]. apply d_byte; [ cbn; intuition lia | constructor ].
  - apply (d_alternatives _ _ [nested n] (nested n) []); [ constructor; [ apply nested_alternative | constructor ] | now left | now rewrite app_nil_r ].
Qed.
Theorem C33_depth_refuted : (forall n, denotes (fun _ => False) false (nested n) ($"a")) /\
  answers json_ops0 (VString (nested 64)) VNull (glob_text "a") (RVal VTrue) /\ answers json_ops0 (VString (nested 65)) VNull (glob_text "a") (RVal VFalse).
Proof. split; [ apply nested_denotes | ]. split; apply (computed _ 100); vm_compute; reflexivity. Qed.
(** Bytes, not characters: '?' does not match a letter of two bytes. *)
Theorem C33_bytes : answers json_ops0 (glob_text "?") VNull (VString [195; 169]) (RVal VFalse) /\ answers json_ops0 (glob_text "??") VNull (VString [195; 169]) (RVal VTrue).
Proof. split; apply (computed _ 10); vm_compute; reflexivity. Qed.

(** ** Examples *)
Definition hosts : str := $"*.{com,org}".
Example C33_match_partial_used : exists r, answers json_ops0 (VString hosts) (VArray []) (glob_text "api.org") r /\ denotes (fun c => c = 46) false hosts ($"api.org") /\ r = RVal VTrue.
Proof.
  assert (H : denotes (fun c => c = 46) false hosts ($"api.org")).
  { unfold hosts. apply (d_star _ _ ($".{com,org}") ($"api") ($".org")); [ discriminate | repeat constructor; vm_compute; discriminate | ].
    apply (d_byte _ _ 46 ($"{com,org}") ($"org")); [ vm_compute; intuition discriminate | ].
    apply (d_alternatives _ _ [$"com"; $"org"] ($"org") []); [ | vm_compute; auto | ].
    - repeat constructor; vm_compute; discriminate.
    - repeat (apply d_byte; [ vm_compute; intuition discriminate | ]). constructor. }
  exists (RVal VTrue). split; [ apply (computed _ 40); vm_compute; reflexivity | auto ].
Qed.
Example C33_limits_met : small hosts /\ ~ In 92 hosts /\ octets hosts /\ separators (j_unescape json_ops0) (VArray [VString ($"/"); VString ($":")]) (fun c => exists t, In (VString t) [VString ($"/"); VString ($":")] /\ j_unescape json_ops0 t = [c]).
Proof.
  repeat split; try (vm_compute; intuition discriminate).
  - repeat constructor; vm_compute; intuition discriminate.
  - apply s_list; [ discriminate | ]. repeat constructor; eexists; (split; [ reflexivity | vm_compute; auto ]).
Qed.
Definition logs : str := $"log[0-9]?/**.t*t".
Example C33_match_plain_used : well_formed logs /\ ~ In 92 logs /\ ~ In 123 logs /\ answers json_ops0 (VString logs) (VArray [glob_text "/"]) (glob_text "log7x/a/b.txt") (RVal VTrue) /\
  answers json_ops0 (VString logs) (VArray [glob_text "/"]) (glob_text "log7x/a/b.t/t") (RVal VFalse).
Proof.
  split.
  - unfold logs. do 3 (apply w_byte; [ vm_compute; intuition discriminate | ]). apply (w_class ($"0-9") [(48, 57)] ($"?/**.t*t")); [ discriminate | | ].
    + apply (ci_range true ($"0") 48 ($"9") 57 [] []); try constructor; try discriminate; vm_compute; discriminate.
    + apply w_wild; [ now right | ]. apply w_byte; [ vm_compute; intuition discriminate | ]. do 2 (apply w_wild; [ now left | ]). do 2 (apply w_byte; [ vm_compute; intuition discriminate | ]).
      apply w_wild; [ now left | ]. apply w_byte; [ vm_compute; intuition discriminate | constructor ].
  - repeat split; try (vm_compute; intuition discriminate); apply (computed _ 200); vm_compute; reflexivity.
Qed.
Example C33_error_used : answers json_ops0 (glob_text "a[b") VNull (glob_text "ab") (RErr EvalBuiltInError) /\ answers json_ops0 (glob_text "a[b") VNull (glob_text "b") (RVal VFalse).
Proof. split; apply (computed _ 10); vm_compute; reflexivity. Qed.
Example C33_quote_used : glob_quote_meta json_ops0 (glob_text "a*{b}") = ok (glob_text "a\\*\\{b\\}").
Proof. vm_compute. reflexivity. Qed.

Print Assumptions C33_terminates.
Print Assumptions C33_arguments.
Print Assumptions C33_match_partial.
Print Assumptions C33_match_plain.
Print Assumptions C33_match_escapes.
Print Assumptions C33_quote_meta.
Print Assumptions C33_quote_match_partial.
Print Assumptions C33_escape_refuted.
Print Assumptions C33_quote_meta_refuted.
Print Assumptions C33_depth_refuted.
Print Assumptions C33_bytes.
