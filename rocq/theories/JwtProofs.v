(** Lemmas about JSON Web Tokens. *)
From Coq Require Import String ZArith List Bool Lia.
From Verif Require Import Base SMap SMapFacts BigIntSpec BigIntModel ValueModel ValueSpec ResolverModel VmModel
  StrModel StrSpec StrProofs EncModel EncSpec EncProofs UriProofs MiscProofs JsonModel JsonSpec JsonProofs JwtModel JwtSpec.
Import ListNotations.
Local Open Scope Z_scope.
Local Open Scope list_scope.

(** ** Sections *)

Lemma find_char c (t : list Z) :
  match find0 [c] t with
  | Some d => exists a b, t = a ++ [c] ++ b /\ length a = d /\ ~ In c a
  | None => ~ In c t
  end.
Proof.
  induction t as [ | x t IH ]; cbn [find0 prefixb].
  - auto.
  - destruct (c =? x) eqn:E; cbn [andb].
    + apply Z.eqb_eq in E. subst. now exists [], t.
    + destruct (find0 [c] t) as [d | ]; cbn [option_map].
      * destruct IH as (a & b & -> & L & N). exists (x :: a), b. cbn [app length]. repeat split; auto. intros [H | H]; [ lia | auto ].
      * intros [H | H]; [ lia | auto ].
Qed.
Lemma find_from_app (d pre t : list Z) : find_from d (pre ++ t) (length pre) = option_map (fun i => (length pre + i)%nat) (find0 d t).
Proof.
  unfold find_from. rewrite app_length. replace (length pre <=? _)%nat with true by (symmetry; apply Nat.leb_le; lia). now rewrite skipn_app_length.
Qed.
Lemma count_app a b : count_dots (a ++ b) = (count_dots a + count_dots b)%nat.
Proof. unfold count_dots. now rewrite filter_app, app_length. Qed.
Lemma count_none a : ~ In 46 a -> count_dots a = 0%nat.
Proof.
  unfold count_dots. induction a as [ | x a IH ]; intros H; [ reflexivity | ]. cbn [filter]. destruct (46 =? x) eqn:E; [ elim H; left; lia | ].
  apply IH. intros I. apply H. now right.
Qed.
Lemma firstn_app_len {A} (a b : list A) : firstn (length a) (a ++ b) = a.
Proof. now rewrite firstn_app, Nat.sub_diag, firstn_all, firstn_O, app_nil_r. Qed.

Lemma split_of_sections t h p s : sections t h p s -> split_jwt t = Some (Parts h p s (signing_input h p)) /\ find0 DOT t = Some (length h) /\ count_dots t = 2%nat.
Proof.
  intros (-> & Nh & Np & Ns). unfold split_jwt, DOT, str, byte in *. change byte with Z in *.
  pose proof (find_char_some 46 h (p ++ [46] ++ s) Nh) as FF. rewrite FF.
  assert (E1 : h ++ [46] ++ p ++ [46] ++ s = (h ++ [46]) ++ p ++ [46] ++ s) by now rewrite <- app_assoc.
  assert (L1 : S (length h) = length (h ++ [46])) by (rewrite app_length; cbn; lia).
  assert (E2 : h ++ [46] ++ p ++ [46] ++ s = (h ++ [46] ++ p ++ [46]) ++ s) by (repeat rewrite <- app_assoc; reflexivity).
  split.
  - rewrite L1 at 1. rewrite E1 at 1. rewrite find_from_app, find_char_some by exact Np. cbn [option_map].
    assert (L2 : S (length (h ++ [46]) + length p) = length (h ++ [46] ++ p ++ [46])) by (repeat rewrite app_length; cbn; lia).
    rewrite L2 at 1. rewrite E2 at 1. rewrite find_from_app, find_char_none by exact Ns. cbn [option_map]. f_equal. f_equal.
    + now rewrite firstn_app_len.
    + unfold substr. rewrite L1, E1. rewrite skipn_app_length. replace (length (h ++ [46%Z]) + length p - length h - 1)%nat with (length p) by (rewrite app_length; cbn; lia).
      now rewrite firstn_app_len.
    + rewrite L2, E2. now rewrite skipn_app_length.
    + unfold signing_input. assert (E3 : h ++ [46] ++ p ++ [46] ++ s = (h ++ [46] ++ p) ++ [46] ++ s) by (repeat rewrite <- app_assoc; reflexivity).
      rewrite E3. replace (length (h ++ [46%Z]) + length p)%nat with (length (h ++ [46] ++ p)) by (repeat rewrite app_length; cbn; lia). now rewrite firstn_app_len.
  - split; [ reflexivity | ]. rewrite !count_app, (count_none h), (count_none p), (count_none s) by auto. reflexivity.
Qed.
Lemma token_parts_iff t p : token_parts t = Some p <->
  sections t (p_header p) (p_payload p) (p_sig p) /\ p_input p = signing_input (p_header p) (p_payload p).
Proof.
  split.
  - unfold token_parts. destruct (find0 DOT t) as [d | ] eqn:E; [ | discriminate ]. destruct (count_dots t =? 2)%nat; [ | discriminate ].
    intros H. assert (S0 : exists h q s, sections t h q s).
    { unfold split_jwt in H. unfold DOT, str, byte in *. change byte with Z in *. pose proof (find_char 46 t) as F. rewrite E in F, H. destruct F as (a & b & -> & <- & Na).
      assert (E1 : a ++ [46] ++ b = (a ++ [46]) ++ b) by now rewrite <- app_assoc.
      assert (L1 : S (length a) = length (a ++ [46])) by (rewrite app_length; cbn; lia).
      replace (find_from [46] (a ++ [46] ++ b) (S (length a))) with (option_map (fun i => (length (a ++ [46%Z]) + i)%nat) (find0 [46] b)) in H
        by (rewrite L1, E1; symmetry; apply find_from_app).
      pose proof (find_char 46 b) as F. destruct (find0 [46] b) as [i | ]; [ | discriminate ]. destruct F as (c & e & -> & <- & Nc). cbn [option_map] in H.
      replace (find_from [46] (a ++ [46] ++ c ++ [46] ++ e) (S (length (a ++ [46]) + length c)))
        with (option_map (fun i => (length (a ++ [46%Z] ++ c ++ [46%Z]) + i)%nat) (find0 [46] e)) in H.
      2: { symmetry. replace (S (length (a ++ [46]) + length c)) with (length (a ++ [46] ++ c ++ [46])) by (repeat rewrite app_length; cbn; lia).
           replace (a ++ [46] ++ c ++ [46] ++ e) with ((a ++ [46] ++ c ++ [46]) ++ e) by (repeat rewrite <- app_assoc; reflexivity). apply find_from_app. }
      pose proof (find_char 46 e) as F. destruct (find0 [46] e); [ discriminate | ]. exists a, c, e. now repeat split. }
    destruct S0 as (h & q & s & S0). destruct (split_of_sections _ _ _ _ S0) as (Q & _ & _). rewrite Q in H. injection H as <-. now split.
  - intros [S0 I]. destruct (split_of_sections _ _ _ _ S0) as (Q & F & C). unfold token_parts. rewrite F, C, Q. cbn. f_equal. destruct p. cbn in *. now subst.
Qed.

(** ** Names of algorithms *)

Lemma parse_algorithm_iff s a : parse_algorithm s = Some a <-> s = alg_name a.
Proof.
  split.
  - unfold parse_algorithm. assert (G : Forall (fun x => fst x = alg_name (snd x)) alg_names) by (unfold alg_names; repeat constructor).
    induction G as [ | [n b] l E G IH ]; cbn [lookup_alg]; [ discriminate | ]. cbn [fst snd] in E. destruct (str_eqb n s) eqn:Q; [ | exact IH ].
    intros H. injection H as <-. apply str_eqb_eq in Q. congruence.
  - intros ->. now destruct a.
Qed.
Lemma is_hmac_iff a : is_hmac a = true <-> symmetric a.
Proof. unfold symmetric. destruct a; cbn; split; intuition (try discriminate; auto). Qed.
Lemma alg_eqb_iff a b : alg_eqb a b = true <-> a = b.
Proof. unfold alg_eqb. destruct (alg_eq_dec a b); split; congruence. Qed.

Section P.
Context {K P D : Type}.
Variable W : jwt_lib K P D.
Variable L : json_lib.

Lemma select_string_iff t n s : select_string W t n = Some s <-> string_member W t n s.
Proof.
  unfold select_string, string_member. split.
  - destruct (w_member W t n) as [m | ]; [ | discriminate ]. destruct m; cbn [get_string]; try discriminate. intros E. injection E as <-. eauto.
  - intros (q & -> & <-). reflexivity.
Qed.
Lemma says_nested_iff t : says_nested W t = true <-> string_member W t $"cty" $"JWT".
Proof.
  unfold says_nested. rewrite <- select_string_iff. destruct (select_string W t $"cty") as [s | ].
  - rewrite str_eqb_eq. split; congruence.
  - split; discriminate.
Qed.
Lemma select_view_ne t n : emptyb (select_view W t n) = false -> string_member W t n (select_view W t n).
Proof. unfold select_view. destruct (select_string W t n) eqn:E; [ | discriminate ]. intros _. now apply select_string_iff. Qed.
Lemma mentions_iff p s : mentions p s = true <-> occurs p s.
Proof. unfold mentions. rewrite <- find0_iff. destruct (find0 p s); split; eauto; try discriminate. intros [i E]. discriminate. Qed.

(** ** Keys *)

Lemma key_of_jwk_sound t k : key_of_jwk W t = Ok (Some k) -> jwk_key W t k.
Proof.
  unfold key_of_jwk. destruct (str_eqb (select_view W t $"kty") $"RSA") eqn:E1.
  { apply str_eqb_eq in E1. assert (T : string_member W t $"kty" $"RSA") by (rewrite <- E1; apply select_view_ne; now rewrite E1).
    destruct (emptyb (select_view W t $"n")) eqn:En; [ discriminate | ]. destruct (emptyb (select_view W t $"e")) eqn:Ee; [ discriminate | ].
    cbn [orb]. destruct (_ || _); [ discriminate | ].
    destruct (base64_decode (select_view W t $"n")) as [n | | | ] eqn:Dn; cbn [obind]; try discriminate.
    destruct (base64_decode (select_view W t $"e")) as [e | | | ] eqn:De; cbn [obind]; try discriminate. intros Q. injection Q as Q.
    eapply jk_rsa; eauto using select_view_ne. }
  destruct (str_eqb (select_view W t $"kty") $"EC") eqn:E2.
  { apply str_eqb_eq in E2. assert (T : string_member W t $"kty" $"EC") by (rewrite <- E2; apply select_view_ne; now rewrite E2).
    destruct (emptyb (select_view W t $"crv")) eqn:Ec; [ discriminate | ]. destruct (emptyb (select_view W t $"x")) eqn:Ex; [ discriminate | ].
    destruct (emptyb (select_view W t $"y")) eqn:Ey; [ discriminate | ]. cbn [orb]. destruct (_ || _); [ discriminate | ].
    destruct (known_curve (select_view W t $"crv")) eqn:C; [ | discriminate ].
    destruct (base64_decode (select_view W t $"x")) as [x | | | ] eqn:Dx; cbn [obind]; try discriminate.
    destruct (base64_decode (select_view W t $"y")) as [y | | | ] eqn:Dy; cbn [obind]; try discriminate. intros Q. injection Q as Q.
    eapply jk_ec; eauto using select_view_ne. unfold known_curve in C. rewrite !orb_true_iff, !str_eqb_eq in C.
    destruct C as [[-> | ->] | ->]; [ left | right; left | right; right; left ]; reflexivity. }
  destruct (str_eqb (select_view W t $"kty") $"OKP") eqn:E3; [ | discriminate ].
  apply str_eqb_eq in E3. assert (T : string_member W t $"kty" $"OKP") by (rewrite <- E3; apply select_view_ne; now rewrite E3).
  destruct (emptyb (select_view W t $"x")) eqn:Ex; [ discriminate | ]. cbn [orb]. destruct (max_ec <? _); [ discriminate | ].
  destruct (base64_decode (select_view W t $"x")) as [x | | | ] eqn:Dx; cbn [obind]; try discriminate. intros Q. injection Q as Q.
  eapply jk_okp; eauto using select_view_ne.
Qed.
Lemma jwks_in t j : In j (jwks_keys W t) -> exists l, w_member W t $"keys" = Some (JArray l) /\ In j l.
Proof.
  unfold jwks_keys. destruct (w_member W t $"keys") as [m | ]; [ | intros [] ]. destruct m; try (intros []). rewrite filter_In. intros [I _]. eauto.
Qed.
Lemma key_json_parse s t : key_json L s = Some t -> jl_parse L s = Some t.
Proof. unfold key_json. destruct (skip_blank s); [ discriminate | ]. destruct (_ || _); [ auto | discriminate ]. Qed.
Lemma load_sound s k : load_public_key W L s = Ok (Some k) -> holds W L s k.
Proof.
  unfold load_public_key. destruct (mentions CERT_BEGIN s) eqn:C.
  { intros E. injection E as E. apply mentions_iff in C. now apply ho_cert. }
  destruct (mentions KEY_BEGIN s) eqn:C2.
  { intros E. injection E as E. apply mentions_iff in C2. now apply ho_pem. }
  destruct (key_json L s) as [t | ] eqn:J; [ | discriminate ]. apply key_json_parse in J. destruct (jwks_keys W t) as [ | j l ] eqn:Q.
  - destruct (emptyb _); [ discriminate | ]. intros E. eapply ho_jwk; eauto using key_of_jwk_sound.
  - intros E. destruct (jwks_in t j) as (l' & M & I); [ rewrite Q; now left | ]. eapply ho_jwks; eauto using key_of_jwk_sound.
Qed.
Lemma verify_key_iff a k input sig : verify_key W a k input sig = true <-> ~ symmetric a /\ right_length a sig /\ w_check W a k input sig = true.
Proof.
  rewrite <- is_hmac_iff. unfold verify_key, sig_length, right_length.
  destruct a; cbn [is_hmac]; try (split; [ intros H; repeat split; auto; discriminate | now intros (_ & _ & H) ]);
    try (split; [ discriminate | intros (H & _); now elim H ]);
    match goal with |- context [zlen sig =? ?n] => destruct (Z.eqb_spec (zlen sig) n) as [-> | N] end;
    (split; [ intros H; repeat split; auto; discriminate | intros (_ & Q & H); auto; contradiction ]).
Qed.
Lemma verify_hmac_iff a input sig s : verify_hmac W a input sig s = true <-> w_hmac W a s input = Some sig.
Proof. unfold verify_hmac. destruct (w_hmac W a s input); [ rewrite str_eqb_eq | ]; split; congruence. Qed.
Lemma verify_sound a input sig key : verify_signature W L a input sig key = Ok Valid -> good_signature W L key a input sig.
Proof.
  unfold verify_signature, good_signature. destruct (is_hmac a) eqn:H.
  { intros E. left. split; [ now apply is_hmac_iff | ]. apply verify_hmac_iff. destruct (verify_hmac W a input sig key); [ reflexivity | discriminate ]. }
  destruct (valid_pem key); cbn [negb]; [ | discriminate ].
  destruct (load_public_key W L key) as [[k | ] | | | ] eqn:E; cbn [obind]; try discriminate.
  - intros Q. right. assert (V : verify_key W a k input sig = true) by (destruct (verify_key W a k input sig); [ reflexivity | discriminate ]).
    apply verify_key_iff in V. destruct V as (N & R & C). repeat split; auto. exists k. split; [ now apply load_sound | exact C ].
  - destruct (_ || _); discriminate.
Qed.
Lemma verify_keys_sound a input sig l : verify_keys W a input sig l = Ok Valid -> exists j k, In j l /\ jwk_key W j k /\ verify_key W a k input sig = true.
Proof.
  induction l as [ | j l IH ]; cbn [verify_keys]; [ discriminate | ].
  destruct (key_of_jwk W j) as [[k | ] | | | ] eqn:E; cbn [obind]; try discriminate.
  - destruct (verify_key W a k input sig) eqn:V.
    + intros _. exists j, k. split; [ now left | ]. split; [ now apply key_of_jwk_sound | exact V ].
    + intros Q. destruct (IH Q) as (j' & k' & I & R). exists j', k'. split; [ now right | exact R ].
  - intros Q. destruct (IH Q) as (j' & k' & I & R). exists j', k'. split; [ now right | exact R ].
Qed.
Lemma verify_any_sound a input sig key : verify_signature_any_key W L a input sig key = Ok Valid -> good_signature W L key a input sig.
Proof.
  unfold verify_signature_any_key. destruct (key_json L key) as [t | ] eqn:J; [ | apply verify_sound ].
  destruct (length (jwks_keys W t) <=? 1)%nat; [ apply verify_sound | ]. intros Q. apply verify_keys_sound in Q. destruct Q as (j & k & I & R & V).
  apply key_json_parse in J. apply jwks_in in I. destruct I as (l & M & I). apply verify_key_iff in V. destruct V as (N & Len & C). right. repeat split; auto.
  exists k. split; auto. eapply ho_jwks; eauto.
Qed.

(** ** Constraints *)

Lemma nodup_key {A B} (c : list (A * B)) k v w : NoDup (map fst c) -> In (k, v) c -> In (k, w) c -> v = w.
Proof.
  induction c as [ | [a b] c IH ]; cbn [map fst In]; [ intros _ [] | ]. intros N H1 H2. inversion N as [ | ? ? Na Nc ]; subst.
  destruct H1 as [H1 | H1], H2 as [H2 | H2].
  - congruence.
  - injection H1 as -> ->. elim Na. now apply (in_map fst) in H2.
  - injection H2 as -> ->. elim Na. now apply (in_map fst) in H1.
  - auto.
Qed.
Lemma object_string_none c n : object_string c n = None <-> forall x, ~ wants c n x.
Proof.
  unfold wants. induction c as [ | [k v] c IH ]; cbn [object_string].
  - split; auto.
  - assert (O : forall x, (k = VString n -> v <> VString x) -> (~ In (VString n, VString x) ((k, v) :: c) <-> ~ In (VString n, VString x) c)).
    { intros x H. cbn [In]. split; [ tauto | ]. intros Q [E | E]; [ injection E as -> ->; now apply H | auto ]. }
    destruct k; try (rewrite IH; split; intros H x; apply O; auto; try discriminate; fail).
    destruct v; try (rewrite IH; split; intros H x; apply O; auto; try discriminate; fail).
    destruct (str_eqb t n) eqn:E.
    + apply str_eqb_eq in E. subst. split; [ discriminate | ]. intros H. elim (H t0). now left.
    + rewrite IH. split; intros H x; apply O; auto; intros Q; injection Q as ->; now rewrite str_eqb_refl in E.
Qed.
Lemma object_string_in c n x : object_string c n = Some x -> wants c n x.
Proof.
  unfold wants. induction c as [ | [k v] c IH ]; cbn [object_string]; [ discriminate | ].
  destruct k; try (intros H; right; now apply IH). destruct v; try (intros H; right; now apply IH).
  destruct (str_eqb t n) eqn:E; [ | intros H; right; now apply IH ]. apply str_eqb_eq in E. intros Q. injection Q as <-. subst. now left.
Qed.
Lemma object_string_iff c n x : NoDup (map fst c) -> (object_string c n = Some x <-> wants c n x).
Proof.
  intros N. split; [ apply object_string_in | ]. intros H. destruct (object_string c n) as [y | ] eqn:E.
  - apply object_string_in in E. unfold wants in *. pose proof (nodup_key c _ _ _ N H E) as Q. congruence.
  - rewrite object_string_none in E. now apply E in H.
Qed.

Lemma object_number_in c n d : object_number W c n = Some d ->
  exists t, (In (VString n, VInt t) c \/ In (VString n, VFloat t) c) /\ d = w_double W t.
Proof.
  induction c as [ | [k v] c IH ]; cbn [object_number]; [ discriminate | ].
  assert (G : object_number W c n = Some d -> exists t, (In (VString n, VInt t) ((k, v) :: c) \/ In (VString n, VFloat t) ((k, v) :: c)) /\ d = w_double W t).
  { intros H. destruct (IH H) as (t & [I | I] & E); exists t; (split; [ first [ left; now right | right; now right ] | exact E ]). }
  destruct k; try exact G. destruct v; try exact G;
    (destruct (str_eqb t n) eqn:E; [ | exact G ]; apply str_eqb_eq in E; subst; intros Q; injection Q as <-; exists t0; split; [ first [ left; now left | right; now left ] | reflexivity ]).
Qed.
Lemma object_number_none c n : object_number W c n = None -> forall t, ~ In (VString n, VInt t) c /\ ~ In (VString n, VFloat t) c.
Proof.
  induction c as [ | [k v] c IH ]; cbn [object_number]; [ intros _ t; split; intros [] | ]. intros H t.
  assert (G : object_number W c n = None -> (k = VString n -> v <> VInt t /\ v <> VFloat t) -> ~ In (VString n, VInt t) ((k, v) :: c) /\ ~ In (VString n, VFloat t) ((k, v) :: c)).
  { intros Q N. destruct (IH Q t) as [A B]. split; intros [E | E]; auto; injection E as E1 E2; destruct (N E1); auto. }
  destruct k; try (apply G; auto; intros Q; discriminate Q). destruct v; try (apply G; auto; intros _; split; discriminate);
    (destruct (str_eqb t0 n) eqn:E; [ discriminate | ]; apply G; auto; intros Q; injection Q as ->; now rewrite str_eqb_refl in E).
Qed.
Lemma now_time c : time_is W c (now_seconds W c).
Proof.
  unfold now_seconds. destruct (object_number W c $"time") as [d | ] eqn:E.
  - apply object_number_in in E. destruct E as (t & [I | I] & ->); [ now apply ti_int | now apply ti_float ].
  - apply ti_clock; intros t; now apply object_number_none with (t := t) in E.
Qed.
Lemma time_now c d : NoDup (map fst c) -> time_is W c d -> d = now_seconds W c.
Proof.
  intros N H. unfold now_seconds. destruct (object_number W c $"time") as [x | ] eqn:E.
  - apply object_number_in in E. destruct E as (t & I & ->).
    destruct H as [t' I' | t' I' | H1 H2]; [ destruct I as [I | I] | destruct I as [I | I] | destruct I as [I | I]; [ now apply H1 in I | now apply H2 in I ] ];
      pose proof (nodup_key c _ _ _ N I I') as Q; congruence.
  - pose proof (object_number_none _ _ E) as Q. destruct H as [t' I' | t' I' | H1 H2]; [ now apply Q in I' | now apply Q in I' | reflexivity ].
Qed.

(** ** Claims *)

Lemma string_claim_iff c n t : NoDup (map fst c) ->
  (check_string_claim W t n (object_string c n) = true <-> forall x, wants c n x -> string_member W t n x).
Proof.
  intros N. unfold check_string_claim. destruct (object_string c n) as [x | ] eqn:E.
  - apply object_string_iff in E; auto. split.
    + intros H y Hy. pose proof (nodup_key c _ _ _ N E Hy) as Q. injection Q as <-. apply select_string_iff.
      destruct (select_string W t n) as [v | ]; [ | discriminate ]. apply str_eqb_eq in H. congruence.
    + intros H. apply H, select_string_iff in E. rewrite E. apply str_eqb_refl.
  - rewrite object_string_none in E. split; auto. intros _ x H. now apply E in H.
Qed.
Lemma aud_array_iff l x : aud_array_contains l x = true <-> exists q, In (JString q) l /\ strip_quotes q = x.
Proof.
  unfold aud_array_contains. rewrite existsb_exists. split.
  - intros (t & I & H). destruct t; cbn [get_string] in H; try discriminate. apply str_eqb_eq in H. eauto.
  - intros (q & I & <-). exists (JString q). split; auto. cbn [get_string]. apply str_eqb_refl.
Qed.
Lemma aud_claim_iff c t : NoDup (map fst c) ->
  (check_aud_claim W t (object_string c $"aud") = true <->
   (forall x, wants c $"aud" x -> audience W t x) /\ ((forall x, ~ wants c $"aud" x) -> no_member W t $"aud")).
Proof.
  intros N. unfold check_aud_claim, no_member. destruct (object_string c $"aud") as [x | ] eqn:E.
  - apply object_string_iff in E; auto.
    assert (U : (forall y, wants c $"aud" y -> audience W t y) <-> audience W t x).
    { split; [ auto | ]. intros H y Hy. pose proof (nodup_key c _ _ _ N E Hy) as Q. now injection Q as <-. }
    rewrite U. assert (V : ((forall y, ~ wants c $"aud" y) -> w_member W t $"aud" = None) <-> True) by (split; auto; intros _ H; now apply H in E).
    rewrite V. unfold audience, string_member. destruct (w_member W t $"aud") as [m | ].
    + destruct m; cbn [get_string];
        try (split; [ discriminate | intros [[(q & Q & _) | (l9 & q & Q & _)] _]; discriminate ]).
      * rewrite str_eqb_eq. split; [ intros <-; split; auto; left; eauto | ]. intros [[(q & Q & <-) | (l & q & Q & _)] _]; [ now injection Q as -> | discriminate ].
      * rewrite aud_array_iff. split; [ intros (q & I & R); split; auto; right; eauto | ].
        intros [[(q & Q & _) | (l' & q & Q & I & R)] _]; [ discriminate | injection Q as ->; eauto ].
    + split; [ discriminate | ]. intros [[(q & Q & _) | (l & q & Q & _)] _]; discriminate.
  - rewrite object_string_none in E. destruct (w_member W t $"aud") as [m | ].
    + assert (F : (match m with JArray _ => false | _ => false end) = false) by now destruct m. split; [ destruct m; discriminate | ].
      intros [_ H]. specialize (H E). discriminate.
    + split; auto. intros _. split; auto. intros x H. now apply E in H.
Qed.
Lemma check_claims_iff c header pj h p : NoDup (map fst c) ->
  (check_claims W L c header pj = Ok (RVal (VArray [VTrue; h; p])) <->
   exists payload, jl_parse L pj = Some payload /\ claims_hold W c (now_seconds W c) payload /\ json_to_rego header = Some h /\ json_to_rego payload = Some p).
Proof.
  intros N. unfold check_claims. destruct (jl_parse L pj) as [t | ]; [ | split; [ discriminate | intros (? & Q & _); discriminate ] ].
  assert (F : failure <> Ok (RVal (VArray [VTrue; h; p]))) by discriminate. assert (B : builtin_error <> Ok (RVal (VArray [VTrue; h; p]))) by discriminate.
  transitivity (claims_hold W c (now_seconds W c) t /\ json_to_rego header = Some h /\ json_to_rego t = Some p).
  2: { split; [ intros H; exists t; tauto | intros (t' & Q & H); injection Q as <-; tauto ]. }
  destruct (check_string_claim W t $"iss" (object_string c $"iss")) eqn:E1; cbn [negb orb].
  2: { split; [ now intros H | ]. intros [[H _ _ _ _ _] _]. apply string_claim_iff in H; auto. congruence. }
  destruct (check_string_claim W t $"sub" (object_string c $"sub")) eqn:E2; cbn [negb orb].
  2: { split; [ now intros H | ]. intros [[_ H _ _ _ _] _]. apply string_claim_iff in H; auto. congruence. }
  destruct (check_aud_claim W t (object_string c $"aud")) eqn:E3; cbn [negb].
  2: { split; [ now intros H | ]. intros [[_ _ H1 H2 _ _] _]. assert (Q := proj2 (aud_claim_iff c t N) (conj H1 H2)). congruence. }
  rewrite string_claim_iff in E1, E2 by auto. rewrite aud_claim_iff in E3 by auto. destruct E3 as [E3 E4].
  set (finish := match json_to_rego header with None => builtin_error | Some _ => _ end).
  assert (Fin : finish = Ok (RVal (VArray [VTrue; h; p])) <-> json_to_rego header = Some h /\ json_to_rego t = Some p).
  { unfold finish. destruct (json_to_rego header) as [h' | ]; [ | split; [ now intros H | intros [Q _]; discriminate ] ].
    destruct (json_to_rego t) as [p' | ]; [ | split; [ now intros H | intros [_ Q]; discriminate ] ]. split; [ intros Q; now injection Q as -> -> | ]. intros [Q1 Q2]. injection Q1 as ->. injection Q2 as ->. reflexivity. }
  set (nbf := match numeric_claim W t $"nbf" with Absent => finish | NotNumber => _ | IsNumber _ => _ end).
  assert (Nbf : nbf = Ok (RVal (VArray [VTrue; h; p])) <->
    (forall m, w_member W t $"nbf" = Some m -> exists n, m = JNumber n /\ w_lt W (now_seconds W c) (w_double W n) = false) /\ json_to_rego header = Some h /\ json_to_rego t = Some p).
  { unfold nbf, numeric_claim. destruct (w_member W t $"nbf") as [m | ].
    - destruct m; try (split; [ now intros H | ]; intros [H _]; destruct (H _ eq_refl) as (n & Q & _); discriminate).
      destruct (w_lt W (now_seconds W c) (w_double W t0)) eqn:E.
      + split; [ now intros H | ]. intros [H _]. destruct (H _ eq_refl) as (n & Q & R). injection Q as <-. congruence.
      + rewrite Fin. split; [ | tauto ]. intros H. split; auto. intros m Q. injection Q as <-. eauto.
    - rewrite Fin. split; [ | tauto ]. intros H. split; auto. discriminate. }
  unfold numeric_claim. destruct (w_member W t $"exp") as [m | ] eqn:X.
  - destruct m; try (split; [ now intros H | ]; intros [[_ _ _ _ H _] _]; destruct (H _ X) as (n & Q & _); discriminate).
    destruct (w_le W (w_double W t0) (now_seconds W c)) eqn:E.
    + split; [ now intros H | ]. intros [[_ _ _ _ H _] _]. destruct (H _ X) as (n & Q & R). injection Q as <-. congruence.
    + rewrite Nbf. split; [ | intros [[] R]; tauto ]. intros [H R]. split; auto. split; auto. intros m Q. rewrite X in Q. injection Q as <-. eauto.
  - rewrite Nbf. split; [ | intros [[] R]; tauto ]. intros [H R]. split; auto. split; auto. intros m Q. congruence.
Qed.

(** ** decode_verify *)

Definition exact_signature (c : list (value * value)) (key : str) (a : alg) (input sig : str) : Prop :=
  match object_string c $"cert" with
  | Some _ => verify_signature_any_key W L a input sig key = Ok Valid
  | None => verify_signature W L a input sig key = Ok Valid
  end.
Lemma string_member_fun t n a b : string_member W t n a -> string_member W t n b -> a = b.
Proof. intros (q & E & <-) (q' & E' & <-). congruence. Qed.
Lemma obind_inv {A B} (o : outcome A) (f : A -> outcome B) r : obind o f = Ok r -> exists a, o = Ok a /\ f a = Ok r.
Proof. destruct o; cbn [obind]; try discriminate. eauto. Qed.
Lemma inner_value pj : inner_token pj = VString (strip_quotes (strip_quotes pj)).
Proof. reflexivity. Qed.

Lemma decode_verify_to c h p : NoDup (map fst c) -> forall n t,
  decode_verify_impl W L n (VString t) (VObject c) = Ok (RVal (VArray [VTrue; h; p])) -> accepted W L (exact_signature c) c n (unescape L t) h p.
Proof.
  intros N n. induction n as [ | n IH ]; intros t; cbn [decode_verify_impl]; [ discriminate | ].
  destruct (token_parts (unescape L t)) as [pt | ] eqn:T; [ | discriminate ]. apply token_parts_iff in T. destruct T as [T TI].
  intros H. apply obind_inv in H. destruct H as (hj & Eh & H). destruct (jl_parse L hj) as [header | ] eqn:J; [ | discriminate ].
  destruct (w_member W header $"enc") eqn:Enc; [ discriminate | ]. destruct (w_member W header $"crit") eqn:Crit; [ discriminate | ].
  destruct (select_string W header $"alg") as [name | ] eqn:Al; [ | discriminate ]. destruct (parse_algorithm name) as [a | ] eqn:Pa; [ | discriminate ].
  apply select_string_iff in Al. apply parse_algorithm_iff in Pa.
  destruct (negb _) eqn:Nm in H; [ discriminate | ]. apply negb_false_iff in Nm.
  apply obind_inv in H. destruct H as (sig & Es & H). apply obind_inv in H. destruct H as (v & Ev & H). destruct v; try discriminate.
  apply obind_inv in H. destruct H as (pj & Ep & H).
  assert (ST : signed_token W L (exact_signature c) c (unescape L t) header pj).
  { constructor.
    assert (KT : exists key, key_text L c key /\ exact_signature c key a (p_input pt) sig).
    { unfold exact_signature. destruct (object_string c $"cert") as [k | ] eqn:C.
      - exists (unescape L k). split; [ constructor; now apply object_string_in | exact Ev ].
      - destruct (object_string c $"secret") as [k | ] eqn:Sx; [ | discriminate ]. exists (unescape L k). split; [ | exact Ev ].
        apply kt_secret; [ now apply object_string_none | now apply object_string_in ]. }
    destruct KT as (key & KT & EX). rewrite TI in EX.
    exists (p_header pt), (p_payload pt), (p_sig pt), hj, sig, key, name, a. repeat split; auto; try apply T.
    intros x Hx. apply object_string_iff in Hx; auto. rewrite Hx in Nm. now apply str_eqb_eq in Nm. }
  destruct (says_nested W header) eqn:Nest.
  - apply ac_nested with (header := header) (pj := pj); auto; [ now apply says_nested_iff | ]. apply IH. exact H.
  - apply check_claims_iff in H; auto. destruct H as (payload & Jp & Ch & R1 & R2).
    apply ac_claims with (header := header) (pj := pj) (payload := payload) (now := now_seconds W c); auto; [ | apply now_time ].
    intros Q. apply says_nested_iff in Q. congruence.
Qed.
Lemma decode_verify_from c h p : NoDup (map fst c) -> forall n t' t, t' = unescape L t ->
  accepted W L (exact_signature c) c n t' h p -> decode_verify_impl W L n (VString t) (VObject c) = Ok (RVal (VArray [VTrue; h; p])).
Proof.
  intros N n. induction n as [ | n IH ]; intros t' t -> H; [ inversion H | ]. cbn [decode_verify_impl].
  assert (G : forall header pj rest, signed_token W L (exact_signature c) c (unescape L t) header pj ->
    (if says_nested W header then decode_verify_impl W L n (inner_token pj) (VObject c) else check_claims W L c header pj) = rest ->
    decode_verify_impl W L (S n) (VString t) (VObject c) = rest).
  { intros header pj rest [(h0 & p0 & s0 & hj & sig & key & name & a & S0 & Eh & J & Enc & Crit & Al & Pa & Nm & Es & KT & EX & Ep)] R.
    cbn [decode_verify_impl]. rewrite (proj2 (token_parts_iff (unescape L t) (Parts h0 p0 s0 (signing_input h0 p0)))) by (split; [ exact S0 | reflexivity ]).
    cbn [p_header p_payload p_sig p_input]. rewrite Eh. cbn [obind]. rewrite J, Enc, Crit. rewrite (proj2 (select_string_iff _ _ _) Al), (proj2 (parse_algorithm_iff _ _) Pa).
    replace (match object_string c $"alg" with Some x => str_eqb x name | None => true end) with true.
    2: { destruct (object_string c $"alg") as [x | ] eqn:E; [ | reflexivity ]. apply object_string_in, Nm in E. subst x. symmetry. apply str_eqb_refl. }
    cbn [negb]. rewrite Es. cbn [obind].
    replace (match object_string c $"cert" with Some k => _ | None => _ end) with (@Ok verdict Valid).
    2: { unfold exact_signature in EX. destruct KT as [k Hk | k Nk Hk].
         - apply object_string_iff in Hk; auto. rewrite Hk in *. now rewrite EX.
         - rewrite <- object_string_none in Nk. apply object_string_iff in Hk; auto. rewrite Nk, Hk in *. now rewrite EX. }
    cbn [obind]. rewrite Ep. cbn [obind]. exact R. }
  inversion H as [n0 t0 header pj payload now h0 p0 ST Nest Jp Ti Ch R1 R2 | n0 t0 header pj h0 p0 ST Nest A]; subst.
  - eapply (G header pj); [ exact ST | ]. replace (says_nested W header) with false.
    + apply check_claims_iff; auto. exists payload. split; [ exact Jp | ]. split; [ | now split ]. rewrite <- (time_now c now) by auto. exact Ch.
    + symmetry. apply not_true_iff_false. rewrite says_nested_iff. exact Nest.
  - eapply (G header pj); [ exact ST | ]. apply says_nested_iff in Nest. rewrite Nest. rewrite inner_value. eapply IH; eauto.
Qed.
Lemma signed_mono (ok ok' : str -> alg -> str -> str -> Prop) c t header pj : (forall key a i s, ok key a i s -> ok' key a i s) ->
  signed_token W L ok c t header pj -> signed_token W L ok' c t header pj.
Proof.
  intros M [(h & p & s & hj & sig & key & name & a & H)]. constructor. exists h, p, s, hj, sig, key, name, a. intuition.
Qed.
Lemma accepted_mono (ok ok' : str -> alg -> str -> str -> Prop) c : (forall key a i s, ok key a i s -> ok' key a i s) ->
  forall n t h p, accepted W L ok c n t h p -> accepted W L ok' c n t h p.
Proof.
  intros M n t h p H. induction H; [ eapply ac_claims | eapply ac_nested ]; eauto using signed_mono.
Qed.
Lemma exact_good c key a i s : exact_signature c key a i s -> good_signature W L key a i s.
Proof. unfold exact_signature. destruct (object_string c $"cert"); [ apply verify_any_sound | apply verify_sound ]. Qed.

(** ** decode *)

Lemma url_char_spec : forall c, 0 <= c < 256 -> (is_alnum c || (c =? 45) || (c =? 95) || (c =? 61)) = existsb (Z.eqb c) ($"ABCDEFGHIJKLMNOPQRSTUVWXYZabcdefghijklmnopqrstuvwxyz0123456789-_=").
Proof. intros c H. apply eqb_prop. revert c H. apply (all_below 256 (fun c => Bool.eqb _ _)). vm_compute. reflexivity. Qed.
Lemma url_char_iff c : (is_alnum c || (c =? 45) || (c =? 95) || (c =? 61)) = true <-> In c ($"ABCDEFGHIJKLMNOPQRSTUVWXYZabcdefghijklmnopqrstuvwxyz0123456789-_=").
Proof.
  assert (G : 0 <= c < 256 \/ ~ 0 <= c < 256) by lia. destruct G as [G | G].
  - rewrite url_char_spec by exact G. apply existsb_eqb.
  - split.
    + unfold is_alnum. rewrite !orb_true_iff, !andb_true_iff. lia.
    + intros I. elim G. revert c I G. assert (F : Forall (fun c => 0 <= c < 256) ($"ABCDEFGHIJKLMNOPQRSTUVWXYZabcdefghijklmnopqrstuvwxyz0123456789-_=")).
      { repeat constructor; vm_compute; congruence. } intros c I _. rewrite Forall_forall in F. now apply F.
Qed.
Lemma valid_base64url_iff s : valid_base64url s = true <-> base64url_text s.
Proof.
  unfold valid_base64url, base64url_text. rewrite forallb_forall, Forall_forall. split; intros H c I; apply url_char_iff; auto.
Qed.
Lemma bytes_to_hex_spec s : octets s -> hex_text s (bytes_to_hex s).
Proof.
  intros O. unfold bytes_to_hex. induction O as [ | c s R O IH ]; cbn [flat_map]; [ constructor | ].
  assert (E : Z.shiftr c 4 = c / 16) by now rewrite Z.shiftr_div_pow2. assert (E2 : Z.land c 15 = c mod 16) by (change 15 with (Z.ones 4); now rewrite Z.land_ones by lia).
  rewrite E, E2. cbn [app]. rewrite (Z.div_mod c 16) at 1 by lia. rewrite Z.mul_comm.
  assert (Dg : forall d, 0 <= d < 16 -> digit16 (nth (Z.to_nat d) hex_chars 0) d).
  { intros d Hd. split; [ lia | ]. left. apply nth_error_nth'. cbn. lia. }
  constructor; auto; apply Dg; [ split; [ apply Z.div_pos; lia | apply Z.div_lt_upper_bound; lia ] | apply Z.mod_pos_bound; lia ].
Qed.
Lemma decode_iff vh vp x : forall n t,
  decode_impl W L n (VString t) = Ok (RVal (VArray [vh; vp; VString x])) <-> exists sig, decoded W L n (unescape L t) vh vp sig /\ x = bytes_to_hex sig.
Proof.
  intros n. induction n as [ | n IH ]; intros t; [ split; [ discriminate | intros (s & H & _); inversion H ] | ]. cbn [decode_impl]. split.
  - destruct (token_parts (unescape L t)) as [pt | ] eqn:T; [ | discriminate ]. apply token_parts_iff in T. destruct T as [T _].
    destruct (valid_base64url (p_header pt)) eqn:V1; cbn [negb]; [ | discriminate ]. destruct (valid_base64url (p_payload pt)) eqn:V2; cbn [negb]; [ | discriminate ].
    destruct (valid_base64url (p_sig pt)) eqn:V3; cbn [negb]; [ | discriminate ]. rewrite valid_base64url_iff in V1, V2, V3.
    intros H. apply obind_inv in H. destruct H as (hj & Eh & H). destruct (jl_parse L hj) as [header | ] eqn:J; [ | discriminate ].
    destruct (w_member W header $"enc") eqn:Enc; [ discriminate | ]. apply obind_inv in H. destruct H as (pj & Ep & H).
    destruct (says_nested W header) eqn:Nest.
    + rewrite inner_value in H. apply IH in H. destruct H as (sig & H & ->). exists sig. split; auto. apply says_nested_iff in Nest. eapply de_nested; eauto.
    + destruct (json_to_rego header) as [h | ] eqn:R1; [ | discriminate ]. destruct (jl_parse L pj) as [payload | ] eqn:J2; [ | discriminate ].
      destruct (json_to_rego payload) as [b | ] eqn:R2; [ | discriminate ]. apply obind_inv in H. destruct H as (sig & Es & H).
      unfold ok in H. injection H as <- <- <-. exists sig. split; auto. eapply de_leaf; eauto. intros Q. apply says_nested_iff in Q. congruence.
  - intros (sig & H & ->).
    inversion H as [n0 t0 h0 p0 s0 hj pj sg header payload v1 v2 S0 B1 B2 B3 Eh Ep Es J Enc Nest J2 R1 R2 | n0 t0 h0 p0 s0 hj pj header v1 v2 sg S0 B1 B2 B3 Eh Ep J Enc Nest A]; subst;
      rewrite (proj2 (token_parts_iff (unescape L t) (Parts h0 p0 s0 (signing_input h0 p0)))) by (split; [ exact S0 | reflexivity ]);
      cbn [p_header p_payload p_sig p_input]; rewrite (proj2 (valid_base64url_iff _) B1), (proj2 (valid_base64url_iff _) B2), (proj2 (valid_base64url_iff _) B3); cbn [negb];
      rewrite Eh; cbn [obind]; rewrite J; unfold no_member in Enc; rewrite Enc, Ep; cbn [obind].
    + replace (says_nested W header) with false by (symmetry; apply not_true_iff_false; now rewrite says_nested_iff). rewrite R1, J2, R2, Es. reflexivity.
    + rewrite (proj2 (says_nested_iff _) Nest), inner_value. apply IH. exists sig. auto.
Qed.
End P.
