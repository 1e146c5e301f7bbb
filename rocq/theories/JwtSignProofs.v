(** Lemmas about keys and signed tokens. *)
From Coq Require Import String ZArith List Bool Lia.
From Verif Require Import Base SMap SMapFacts BigIntSpec BigIntModel ValueModel ValueSpec ResolverModel VmModel
  StrModel StrSpec StrProofs EncModel EncSpec EncProofs UriProofs MiscProofs JsonModel JsonSpec JsonProofs JwtModel JwtSpec JwtProofs.
Import ListNotations.
Local Open Scope Z_scope.
Local Open Scope list_scope.

Lemma occurs_app {A} (p q x : list A) : occurs (p ++ q) x -> occurs p x.
Proof. intros (i & a & b & -> & E). exists i, a, (q ++ b). now rewrite <- app_assoc. Qed.
Lemma blank_iff c : is_blank c = true <-> In c [32; 9; 10; 13].
Proof. unfold is_blank. rewrite !orb_true_iff, !Z.eqb_eq. cbn. intuition. Qed.
Lemma skip_blank_all s : blank s -> skip_blank s = [].
Proof. intros H. induction H as [ | c s Hc H IH ]; [ reflexivity | ]. cbn [skip_blank]. apply blank_iff in Hc. now rewrite Hc. Qed.
Lemma skip_blank_split s : exists b, blank b /\ s = b ++ skip_blank s /\ match skip_blank s with c :: _ => is_blank c = false | [] => True end.
Proof.
  induction s as [ | c s IH ]; [ exists []; repeat split; constructor | ]. cbn [skip_blank]. destruct (is_blank c) eqn:E.
  - destruct IH as (b & B & Q & R). exists (c :: b). split; [ constructor; [ now apply blank_iff | exact B ] | ]. split; [ cbn [app]; now rewrite <- Q | exact R ].
  - exists []. repeat split; auto. constructor.
Qed.

Section P.
Context {K P D : Type}.
Variable W : jwt_lib K P D.
Variable L : json_lib.

Lemma key_json_none s : ~ looks_like_json s -> key_json L s = None.
Proof.
  intros N. unfold key_json. destruct (skip_blank_split s) as (b & B & Q & R). destruct (skip_blank s) as [ | c r ]; [ reflexivity | ].
  destruct ((c =? 123) || (c =? 91)) eqn:E; [ | reflexivity ]. elim N. exists b, c, r. repeat split; auto. rewrite orb_true_iff, !Z.eqb_eq in E. cbn. intuition.
Qed.
Lemma pem_loads s k : pem_text W s k -> valid_pem s = true /\ load_public_key W L s = Ok (Some k).
Proof.
  intros H. destruct H as [a b r k E B U Q | a b r k E N Q].
  - assert (O : occurs CERT_BEGIN s). { exists (length a), a, (b ++ CERT_END ++ r). now split. }
    split.
    + unfold valid_pem. destruct (proj2 (find0_iff _ _) O) as (i & F). rewrite F. pose proof (find0_spec CERT_BEGIN s) as S0. rewrite F in S0. destruct S0 as [_ S0].
      assert (Li : (i <= length a)%nat). { destruct (Nat.le_gt_cases i (length a)) as [H | H]; auto. elim (S0 (length a) H). exists a, (b ++ CERT_END ++ r). now split. }
      assert (Oe : occurs_at CERT_END s (length (a ++ CERT_BEGIN ++ b))). { exists (a ++ CERT_BEGIN ++ b), r. split; auto. rewrite E. now rewrite <- !app_assoc. }
      assert (Le : (i <= length (a ++ CERT_BEGIN ++ b))%nat) by (rewrite app_length; lia).
      pose proof (find_from_spec CERT_END s i) as S1. destruct (find_from CERT_END s i) as [e | ]; [ | now apply S1 in Oe ].
      destruct S1 as (Oe' & _ & _). apply U in Oe'. subst e.
      replace (skipn (length (a ++ $"-----BEGIN CERTIFICATE-----" ++ b) + length CERT_END) s) with r.
      * rewrite skip_blank_all by exact B. reflexivity.
      * rewrite E. change CERT_END with ($"-----END CERTIFICATE-----"). rewrite <- app_length.
        replace (a ++ $"-----BEGIN CERTIFICATE-----" ++ b ++ $"-----END CERTIFICATE-----" ++ r) with (((a ++ $"-----BEGIN CERTIFICATE-----" ++ b) ++ $"-----END CERTIFICATE-----") ++ r) by now rewrite <- !app_assoc.
        symmetry. apply skipn_app_length.
    + unfold load_public_key. apply mentions_iff in O. rewrite O. now rewrite Q.
  - assert (NC : ~ occurs CERT_BEGIN s). { intros H. apply N. now apply (occurs_app $"-----BEGIN CERT" $"IFICATE-----"). }
    assert (O : occurs KEY_BEGIN s). { exists (length a), a, (b ++ KEY_END ++ r). now split. }
    split.
    + unfold valid_pem. destruct (find0 CERT_BEGIN s) eqn:F; [ elim NC; apply find0_iff; eauto | ].
      destruct (mentions $"-----BEGIN CERT" s) eqn:M; [ elim N; now apply mentions_iff | ].
      destruct (proj2 (find0_iff _ _) O) as (i & F'). rewrite F'. pose proof (find0_spec KEY_BEGIN s) as S0. rewrite F' in S0. destruct S0 as [_ S0].
      assert (Li : (i <= length a)%nat). { destruct (Nat.le_gt_cases i (length a)) as [H | H]; auto. elim (S0 (length a) H). exists a, (b ++ KEY_END ++ r). now split. }
      assert (Oe : occurs_at KEY_END s (length (a ++ KEY_BEGIN ++ b))). { exists (a ++ KEY_BEGIN ++ b), r. split; auto. rewrite E. now rewrite <- !app_assoc. }
      assert (Le : (i <= length (a ++ KEY_BEGIN ++ b))%nat) by (rewrite app_length; lia).
      pose proof (find_from_spec KEY_END s i) as S1. destruct (find_from KEY_END s i) as [e | ]; [ reflexivity | now apply S1 in Oe ].
    + unfold load_public_key. destruct (mentions CERT_BEGIN s) eqn:M; [ elim NC; now apply mentions_iff | ]. apply mentions_iff in O. rewrite O. now rewrite Q.
Qed.
Lemma verify_plain a input sig key : plain_signature W key a input sig -> verify_signature W L a input sig key = Ok Valid.
Proof.
  unfold verify_signature. intros [[S0 H] | (S0 & R & k & Pk & H)].
  - apply is_hmac_iff in S0. rewrite S0. apply verify_hmac_iff in H. now rewrite H.
  - assert (N : is_hmac a = false) by (apply not_true_iff_false; now rewrite is_hmac_iff). rewrite N. destruct (pem_loads _ _ Pk) as [V Q]. rewrite V, Q. cbn [negb obind].
    now rewrite (proj2 (verify_key_iff W a k input sig)) by auto.
Qed.
Lemma verify_any_plain a input sig key : ~ looks_like_json key -> plain_signature W key a input sig -> verify_signature_any_key W L a input sig key = Ok Valid.
Proof. intros N H. unfold verify_signature_any_key. rewrite key_json_none by exact N. now apply verify_plain. Qed.

(** ** base64url without padding *)

Lemma drop_pad_repeat k u : drop_pad (repeat 61 k ++ u) = drop_pad u.
Proof. induction k; cbn; auto. Qed.
Lemma rev_repeat {A} (x : A) k : rev (repeat x k) = repeat x k.
Proof. induction k as [ | k IH ]; [ reflexivity | ]. cbn [repeat rev]. rewrite IH. clear. induction k as [ | k IH ]; [ reflexivity | ]. cbn. now rewrite IH. Qed.
Lemma drop_unpadded t u : unpadded t u -> rev (drop_pad (rev t)) = u.
Proof.
  intros (k & -> & H). unfold str, byte in *. rewrite rev_app_distr, rev_repeat, drop_pad_repeat. destruct u as [ | c u _ ] using rev_ind; [ reflexivity | ].
  rewrite rev_app_distr. cbn [rev app drop_pad]. destruct (c =? 61) eqn:E; [ elim H; apply in_or_app; right; left; lia | ]. cbn [rev]. now rewrite rev_involutive.
Qed.
Lemma url_digit c d : digit64 true c d -> In c ($"ABCDEFGHIJKLMNOPQRSTUVWXYZabcdefghijklmnopqrstuvwxyz0123456789-_=").
Proof. intros [_ H]. apply nth_error_In in H. change (In c (alphabet true ++ [61])). apply in_or_app. now left. Qed.
Lemma rfc_chars s t : rfc4648 true s t -> base64url_text t.
Proof.
  assert (E : In 61 ($"ABCDEFGHIJKLMNOPQRSTUVWXYZabcdefghijklmnopqrstuvwxyz0123456789-_=")) by (apply existsb_eqb; reflexivity).
  intros H. unfold base64url_text. induction H; repeat first [ assumption | apply Forall_nil | apply Forall_cons ]; first [ eapply url_digit; eassumption | assumption ].
Qed.
Lemma encode_nopad_spec s : octets s -> base64_decode (encode_nopad s) = Ok s /\ base64url_text (encode_nopad s).
Proof.
  intros O. pose proof (encode_rfc true s O) as R. destruct (rfc_unpadded true s _ O R) as (u & U & Dd & _). unfold encode_nopad. rewrite (drop_unpadded _ _ U).
  split; auto. apply rfc_chars in R. destruct U as (k & E & _). rewrite E in R. unfold base64url_text in *. now apply Forall_app in R.
Qed.
Lemma url_no_dot s : base64url_text s -> ~ In 46 s /\ ~ In 92 s /\ ~ In 34 s.
Proof.
  intros H. unfold base64url_text in H. rewrite Forall_forall in H.
  repeat split; intros I; apply H, existsb_eqb in I; vm_compute in I; discriminate.
Qed.
Lemma signed_sections h p s : octets h -> octets p -> octets s ->
  sections (encode_nopad h ++ [46] ++ encode_nopad p ++ [46] ++ encode_nopad s) (encode_nopad h) (encode_nopad p) (encode_nopad s).
Proof. intros Oh Op Os. split; [ reflexivity | ]. repeat split; eapply url_no_dot, encode_nopad_spec; assumption. Qed.
Lemma strip_plain s : ~ In 34 s -> strip_quotes s = s.
Proof.
  intros H. unfold strip_quotes. replace (is_quoted s) with false; [ reflexivity | ]. symmetry. destruct s as [ | c s ]; [ reflexivity | ].
  unfold is_quoted. destruct (c =? 34) eqn:E; [ elim H; left; lia | ]. now destruct s.
Qed.
Lemma signed_plain h p s : octets h -> octets p -> octets s -> let t := encode_nopad h ++ [46] ++ encode_nopad p ++ [46] ++ encode_nopad s in
  ~ In 34 t /\ ~ In 92 t.
Proof.
  intros Oh Op Os t. destruct (encode_nopad_spec h Oh) as [_ A]. destruct (encode_nopad_spec p Op) as [_ B]. destruct (encode_nopad_spec s Os) as [_ C].
  apply url_no_dot in A, B, C. unfold t. split; rewrite !in_app_iff; cbn [In]; intuition; discriminate.
Qed.

Lemma encode_sign_token h p k tok : encode_sign_raw W L (VString h) (VString p) (VString k) = Ok (RVal tok) ->
  exists ht a sig, jl_parse L (unescape L h) = Some ht /\ string_member W ht $"alg" (alg_name a) /\
    sign W L a (encode_nopad (unescape L h) ++ [46] ++ encode_nopad (unescape L p)) (unescape L k) = Some sig /\
    tok = mkstr ((encode_nopad (unescape L h) ++ [46] ++ encode_nopad (unescape L p)) ++ [46] ++ encode_nopad sig).
Proof.
  unfold encode_sign_raw. destruct (jl_parse L (unescape L h)) as [ht | ]; [ | discriminate ].
  destruct (select_string W ht $"alg") as [name | ] eqn:E; [ | discriminate ]. destruct (parse_algorithm name) as [a | ] eqn:A; [ | discriminate ].
  apply select_string_iff in E. apply parse_algorithm_iff in A. subst name.
  destruct (_ && _); [ discriminate | ]. unfold DOT. destruct (sign W L a _ (unescape L k)) as [sig | ] eqn:S0; [ | discriminate ]. intros Q. injection Q as <-.
  exists ht, a, sig. auto.
Qed.
Lemma verify_of a t k pt hj ht sig : token_parts (unescape L t) = Some pt -> base64_decode (p_header pt) = Ok hj -> jl_parse L hj = Some ht ->
  string_member W ht $"alg" (alg_name a) -> base64_decode (p_sig pt) = Ok sig -> verify_signature W L a (p_input pt) sig (unescape L k) = Ok Valid ->
  jwt_verify W L a (VString t) (VString k) = Ok (RVal VTrue).
Proof.
  intros T Eh J Al Es V. unfold jwt_verify. rewrite T, Eh. cbn [obind]. rewrite J, (proj2 (select_string_iff _ _ _ _) Al), (proj2 (parse_algorithm_iff _ _) eq_refl), Es. cbn [obind].
  rewrite V. cbn [obind]. rewrite (proj2 (alg_eqb_iff a a) eq_refl). reflexivity.
Qed.
Lemma decode_two s : (length s mod 4 = 2)%nat -> base64_decode (s ++ [61; 61]) = base64_decode s.
Proof.
  induction s as [ | a | a b | a b c | a b c d s IH ] using list4_ind; intros H; try discriminate H.
  - cbn [app base64_decode]. destruct (char_pos b); cbn [obind]; try reflexivity; destruct (char_pos a); reflexivity.
  - cbn [app base64_decode]. rewrite IH; [ reflexivity | ]. cbn [length] in H. replace (S (S (S (S (length s))))) with (length s + 1 * 4)%nat in H by lia. now rewrite Nat.mod_add in H.
Qed.

(** ** Results *)

Definition settled {A} (o : outcome A) : Prop := o = Throw \/ exists a, o = Ok a.
Lemma settled_decode s : settled (base64_decode s).
Proof. destruct (decode_outcomes s) as [[x ->] | ->]; [ right; eauto | now left ]. Qed.
Lemma settled_bind {A B} (o : outcome A) (f : A -> outcome B) : settled o -> (forall a, settled (f a)) -> settled (obind o f).
Proof. intros [-> | (a & ->)] H; [ now left | apply H ]. Qed.
Lemma settled_ok {A} (a : A) : settled (Ok a).
Proof. right. eauto. Qed.
Lemma settled_jwk t : settled (key_of_jwk W t).
Proof.
  unfold key_of_jwk. repeat match goal with |- settled (if ?b then _ else _) => destruct b end; try apply settled_ok;
    repeat (apply settled_bind; [ apply settled_decode | intros ? ]); apply settled_ok.
Qed.
Lemma settled_load s : settled (load_public_key W L s).
Proof.
  unfold load_public_key. destruct (mentions CERT_BEGIN s); [ apply settled_ok | ]. destruct (mentions KEY_BEGIN s); [ apply settled_ok | ].
  destruct (key_json L s) as [t | ]; [ | apply settled_ok ]. destruct (jwks_keys W t); [ destruct (emptyb _); [ apply settled_ok | ] | ]; apply settled_jwk.
Qed.
Lemma settled_verify a i s k : settled (verify_signature W L a i s k).
Proof.
  unfold verify_signature. destruct (is_hmac a); [ apply settled_ok | ]. destruct (negb _); [ apply settled_ok | ]. apply settled_bind; [ apply settled_load | ].
  intros [x | ]; [ apply settled_ok | ]. destruct (_ || _); apply settled_ok.
Qed.
Lemma settled_keys a i s l : settled (verify_keys W a i s l).
Proof.
  induction l as [ | j l IH ]; cbn [verify_keys]; [ apply settled_ok | ]. apply settled_bind; [ apply settled_jwk | ]. intros [x | ]; [ | exact IH ].
  destruct (verify_key W a x i s); [ apply settled_ok | exact IH ].
Qed.
Lemma settled_any a i s k : settled (verify_signature_any_key W L a i s k).
Proof. unfold verify_signature_any_key. destruct (key_json L k); [ destruct (_ <=? _)%nat | ]; auto using settled_verify, settled_keys. Qed.

Definition shaped (o : outcome res) : Prop :=
  o = Throw \/ (exists code, o = Ok (RErr code)) \/ o = Ok (RVal (VArray [VFalse; VObject []; VObject []])) \/ exists h p, o = Ok (RVal (VArray [VTrue; h; p])).
Lemma shaped_bind {A} (o : outcome A) (f : A -> outcome res) : settled o -> (forall a, shaped (f a)) -> shaped (obind o f).
Proof. intros [-> | (a & ->)] H; [ now left | apply H ]. Qed.
Lemma shaped_error : shaped builtin_error.
Proof. right. left. eexists. reflexivity. Qed.
Lemma shaped_type : shaped type_error.
Proof. right. left. eexists. reflexivity. Qed.
Lemma shaped_failure : shaped failure.
Proof. right. right. now left. Qed.
Lemma shaped_claims c header pj : shaped (check_claims W L c header pj).
Proof.
  unfold check_claims. destruct (jl_parse L pj); [ | apply shaped_error ]. destruct (_ || _); [ apply shaped_failure | ]. destruct (negb _); [ apply shaped_failure | ].
  assert (F : forall p, shaped (match json_to_rego header with None => builtin_error | Some h => match json_to_rego p with None => builtin_error | Some b => ok (VArray [VTrue; h; b]) end end)).
  { intros p. destruct (json_to_rego header); [ destruct (json_to_rego p) | ]; try apply shaped_error. right. right. right. eexists. eexists. reflexivity. }
  destruct (numeric_claim W j $"exp"); [ | apply shaped_error | destruct (w_le W d _); [ apply shaped_failure | ] ];
    (destruct (numeric_claim W j $"nbf"); [ apply F | apply shaped_error | match goal with |- shaped (if ?b then _ else _) => destruct b end; [ apply shaped_failure | apply F ] ]).
Qed.
Lemma decode_verify_shaped n : forall t c, shaped (decode_verify_impl W L n t c).
Proof.
  induction n as [ | n IH ]; intros t c; cbn [decode_verify_impl]; (destruct t; try apply shaped_type); [ apply shaped_error | ].
  destruct c; try apply shaped_type. destruct (token_parts _) as [p | ]; [ | apply shaped_error ]. apply shaped_bind; [ apply settled_decode | ]. intros hj.
  destruct (jl_parse L hj) as [header | ]; [ | apply shaped_error ]. destruct (w_member W header $"enc"); [ apply shaped_error | ]. destruct (w_member W header $"crit"); [ apply shaped_failure | ].
  destruct (select_string W header $"alg") as [name | ]; [ | apply shaped_failure ]. destruct (parse_algorithm name) as [a | ]; [ | apply shaped_failure ]. destruct (negb _); [ apply shaped_failure | ].
  apply shaped_bind; [ apply settled_decode | ]. intros sig. apply shaped_bind.
  { destruct (object_string _ $"cert"); [ apply settled_any | ]. destruct (object_string _ $"secret"); [ apply settled_verify | apply settled_ok ]. }
  intros [ | | ]; [ | apply shaped_failure | apply shaped_error ]. apply shaped_bind; [ apply settled_decode | ]. intros pj. destruct (says_nested W header); [ apply IH | apply shaped_claims ].
Qed.
Lemma settled_error : settled builtin_error.
Proof. apply settled_ok. Qed.
Lemma jwt_verify_results a t k : jwt_verify W L a t k = Throw \/ (exists code, jwt_verify W L a t k = Ok (RErr code)) \/ exists b, jwt_verify W L a t k = Ok (RVal (vbool b)).
Proof.
  set (Q := fun o : outcome res => o = Throw \/ (exists code, o = Ok (RErr code)) \/ exists b, o = Ok (RVal (vbool b))). change (Q (jwt_verify W L a t k)).
  assert (B : forall A (o : outcome A) f, settled o -> (forall x, Q (f x)) -> Q (obind o f)) by (intros A o f [-> | (x & ->)] H; [ now left | apply H ]).
  assert (E : forall c, Q (Ok (RErr c))) by (intros c; right; left; eauto).
  assert (V : forall b, Q (ok (vbool b))) by (intros b; right; right; exists b; reflexivity).
  unfold jwt_verify. destruct t; try apply E; destruct k; try apply E. destruct (token_parts _) as [p | ]; [ | apply E ]. apply B; [ apply settled_decode | ]. intros hj.
  destruct (jl_parse L hj) as [header | ]; [ | apply V ]. destruct (select_string W header $"alg") as [name | ]; [ | apply V ]. destruct (parse_algorithm name) as [x | ]; [ | apply V ].
  apply B; [ apply settled_decode | ]. intros sig. apply B; [ apply settled_verify | ]. intros [ | | ]; [ apply V | apply V | apply E ].
Qed.
Lemma verify_to a t k : jwt_verify W L a (VString t) (VString k) = Ok (RVal VTrue) ->
  exists h p s hj header sig, sections (unescape L t) h p s /\ base64_decode h = Ok hj /\ jl_parse L hj = Some header /\ string_member W header $"alg" (alg_name a) /\
    base64_decode s = Ok sig /\ verify_signature W L a (signing_input h p) sig (unescape L k) = Ok Valid.
Proof.
  unfold jwt_verify. destruct (token_parts (unescape L t)) as [pt | ] eqn:T; [ | discriminate ]. apply token_parts_iff in T. destruct T as [T TI].
  intros H. apply obind_inv in H. destruct H as (hj & Eh & H). destruct (jl_parse L hj) as [header | ] eqn:J; [ | discriminate ].
  destruct (select_string W header $"alg") as [name | ] eqn:A; [ | discriminate ]. destruct (parse_algorithm name) as [b | ] eqn:Pn; [ | discriminate ].
  apply obind_inv in H. destruct H as (sig & Es & H). apply obind_inv in H. destruct H as (v & V & H). destruct v; try discriminate.
  destruct (alg_eqb b a) eqn:Q; [ | discriminate ]. apply alg_eqb_iff in Q. subst b. apply parse_algorithm_iff in Pn. subst name. apply select_string_iff in A. rewrite TI in V.
  exists (p_header pt), (p_payload pt), (p_sig pt), hj, header, sig. auto 10.
Qed.
Lemma verify_from a t k h p s hj header sig : sections (unescape L t) h p s -> base64_decode h = Ok hj -> jl_parse L hj = Some header -> string_member W header $"alg" (alg_name a) ->
    base64_decode s = Ok sig -> verify_signature W L a (signing_input h p) sig (unescape L k) = Ok Valid -> jwt_verify W L a (VString t) (VString k) = Ok (RVal VTrue).
Proof.
  intros T Eh J A Es V. assert (T' : token_parts (unescape L t) = Some (Parts h p s (signing_input h p))) by (apply token_parts_iff; cbn [p_header p_payload p_sig p_input]; auto).
  eapply verify_of; eauto.
Qed.
End P.

Lemma decode_octets t s : base64_decode t = Ok s -> octets s.
Proof.
  assert (M : forall x, 0 <= x mod 256 < 256) by (intros x; apply Z.mod_pos_bound; lia).
  assert (C : forall c, match char_pos c with Ok _ | Throw => True | _ => False end) by (intros c; unfold char_pos; now destruct (pos_of_char c)).
  unfold octets. revert s. induction t as [ | a | a b | a b c | a b c d t IH ] using list4_ind; cbn [base64_decode]; intros s H.
  - injection H as <-. constructor.
  - discriminate.
  - destruct (char_pos b); try discriminate. cbn [obind] in H. destruct (char_pos a); try discriminate. cbn [obind] in H. injection H as <-. repeat constructor; apply M.
  - destruct (char_pos b); try discriminate. cbn [obind] in H. destruct (char_pos a); try discriminate. cbn [obind] in H. destruct (pad_char c); [ injection H as <-; repeat constructor; apply M | ].
    destruct (char_pos c); try discriminate. cbn [obind] in H. injection H as <-. repeat constructor; apply M.
  - destruct (char_pos b); try discriminate. cbn [obind] in H. destruct (char_pos a); try discriminate. cbn [obind] in H.
    apply obind_inv in H. destruct H as (l & El & H). apply obind_inv in H. destruct H as (r & Er & H). injection H as <-.
    constructor; [ apply M | ]. apply Forall_app. split; [ | now apply IH ].
    destruct (pad_char c); [ injection El as <-; constructor | ]. destruct (char_pos c); try discriminate. cbn [obind] in El.
    destruct (pad_char d); [ injection El as <-; repeat constructor; apply M | ]. destruct (char_pos d); try discriminate. cbn [obind] in El. injection El as <-. repeat constructor; apply M.
Qed.
Lemma bytes_to_hex_lower s : octets s -> Forall (fun c => In c $"0123456789abcdef") (bytes_to_hex s).
Proof.
  intros O. unfold bytes_to_hex. induction O as [ | c s R O IH ]; cbn [flat_map]; [ constructor | ]. change byte with Z in *. cbv beta in R.
  assert (E : Z.shiftr c 4 = c / 16) by now rewrite Z.shiftr_div_pow2. assert (E2 : Z.land c 15 = c mod 16) by (change 15 with (Z.ones 4); now rewrite Z.land_ones by lia).
  pose proof (Z.mod_pos_bound c 16 ltac:(lia)). assert (0 <= c / 16 < 16) by (split; [ apply Z.div_pos; lia | apply Z.div_lt_upper_bound; lia ]).
  cbn [app]. constructor; [ | constructor; [ | exact IH ] ]; apply nth_In; (apply Nat.lt_le_trans with 16%nat; [ rewrite ?E, ?E2; lia | apply Nat.le_refl ]).
Qed.
Lemma hex_lower_fun s a b : hex_text s a -> hex_text s b -> Forall (fun c => In c $"0123456789abcdef") a -> Forall (fun c => In c $"0123456789abcdef") b -> a = b.
Proof.
  assert (Q : forall c d, digit16 c d -> In c $"0123456789abcdef" -> 0 <= d < 16 /\ nth_error $"0123456789abcdef" (Z.to_nat d) = Some c).
  { intros c d [P H] I. assert (Ld : (Z.to_nat d < 16)%nat). { destruct H as [H | H]; (assert (X : nth_error _ (Z.to_nat d) <> None) by (rewrite H; discriminate)); apply nth_error_Some in X; exact X. }
    split; [ lia | ]. destruct H as [H | H]; [ exact H | ]. revert H I. 
    assert (Y : forall n, (n < 16)%nat -> nth_error $"0123456789ABCDEF" n = Some c -> In c $"0123456789abcdef" -> nth_error $"0123456789abcdef" n = Some c).
    { intros n Hn. do 16 (destruct n as [ | n ]; [ intros E I; try exact E; injection E as <-; apply existsb_eqb in I; vm_compute in I; discriminate | ]). lia. }
    now apply Y. }
  intros H. revert b. induction H as [ | c1 c2 x y s t D1 D2 H IH ]; intros b Hb Fa Fb.
  - inversion Hb; subst. reflexivity.
  - inversion Hb as [ | d1 d2 x' y' s' t' D1' D2' H' E1 E2 ]; subst. inversion Fa as [ | ? ? I1 Fa1 ]; subst. inversion Fa1 as [ | ? ? I2 Fa2 ]; subst.
    inversion Fb as [ | ? ? J1 Fb1 ]; subst. inversion Fb1 as [ | ? ? J2 Fb2 ]; subst.
    destruct (Q _ _ D1 I1) as [R1 N1], (Q _ _ D2 I2) as [R2 N2], (Q _ _ D1' J1) as [R1' N1'], (Q _ _ D2' J2) as [R2' N2'].
    assert (Ex : x' = x) by lia. assert (Ey : y' = y) by lia. subst x' y'. rewrite N1 in N1'. rewrite N2 in N2'. injection N1' as <-. injection N2' as <-. f_equal. f_equal. now apply IH.
Qed.
Lemma decoded_octets {K P D} (W : jwt_lib K P D) L n t h p s : decoded W L n t h p s -> octets s.
Proof. induction 1; eauto using decode_octets. Qed.

Section C.
Context {K P D : Type}.
Variable W : jwt_lib K P D.
Variable L : json_lib.

(** The code looks at the constraints with the two accessors only. *)
Definition consulted : list str := [$"cert"; $"secret"; $"alg"; $"iss"; $"sub"; $"aud"].
Lemma claims_same c c' header pj : (forall n, In n consulted -> object_string c n = object_string c' n) -> object_number W c $"time" = object_number W c' $"time" ->
  check_claims W L c header pj = check_claims W L c' header pj.
Proof.
  intros S0 T. unfold check_claims, now_seconds. rewrite T. rewrite (S0 $"iss"), (S0 $"sub"), (S0 $"aud") by (unfold consulted; cbn [In]; tauto). reflexivity.
Qed.
Lemma constraints_same c c' : (forall n, In n consulted -> object_string c n = object_string c' n) -> object_number W c $"time" = object_number W c' $"time" ->
  forall n t, decode_verify_impl W L n t (VObject c) = decode_verify_impl W L n t (VObject c').
Proof.
  intros S0 T n. induction n as [ | n IH ]; intros t; cbn [decode_verify_impl]; [ reflexivity | ].
  assert (E1 : object_string c $"cert" = object_string c' $"cert") by (apply S0; unfold consulted; cbn [In]; tauto).
  assert (E2 : object_string c $"secret" = object_string c' $"secret") by (apply S0; unfold consulted; cbn [In]; tauto).
  assert (E3 : object_string c $"alg" = object_string c' $"alg") by (apply S0; unfold consulted; cbn [In]; tauto).
  rewrite E1, E2, E3.
  assert (B : forall A B (o : outcome A) (f g : A -> outcome B), (forall x, f x = g x) -> obind o f = obind o g) by (intros A B [ | | | ] f g H; cbn [obind]; auto).
  destruct t; try reflexivity. destruct (token_parts _) as [p | ]; [ | reflexivity ]. apply B. intros hj. destruct (jl_parse L hj) as [header | ]; [ | reflexivity ].
  destruct (w_member W header $"enc"); [ reflexivity | ]. destruct (w_member W header $"crit"); [ reflexivity | ]. destruct (select_string W header $"alg"); [ | reflexivity ].
  destruct (parse_algorithm s); [ | reflexivity ]. destruct (negb _); [ reflexivity | ]. apply B. intros sig. apply B. intros [ | | ]; try reflexivity. apply B. intros pj.
  destruct (says_nested W header); [ apply IH | now apply claims_same ].
Qed.
Lemma object_string_cons x v c n : ~ (x = VString n /\ exists s, v = VString s) -> object_string ((x, v) :: c) n = object_string c n.
Proof.
  intros H. cbn [object_string]. destruct x; try reflexivity. destruct v; try reflexivity. destruct (str_eqb t n) eqn:E; [ | reflexivity ]. apply str_eqb_eq in E. subst. elim H. eauto.
Qed.
Lemma object_number_cons x v c n : ~ (x = VString n /\ exists s, v = VInt s \/ v = VFloat s) -> object_number W ((x, v) :: c) n = object_number W c n.
Proof.
  intros H. cbn [object_number]. destruct x; try reflexivity. destruct v; try reflexivity; (destruct (str_eqb t n) eqn:E; [ | reflexivity ]; apply str_eqb_eq in E; subst; elim H; eauto).
Qed.

(** Two spellings of one token. *)
Lemma same_token n t t' h p s s' : sections (unescape L t) h p s -> sections (unescape L t') h p s' -> base64_decode s = base64_decode s' ->
  forall c, decode_verify_impl W L n (VString t) c = decode_verify_impl W L n (VString t') c.
Proof.
  intros T T' E c. destruct n as [ | n ]; [ reflexivity | ]. cbn [decode_verify_impl]. destruct c; try reflexivity.
  assert (Q : forall t h p s, sections t h p s -> token_parts t = Some (Parts h p s (signing_input h p))) by (intros; apply token_parts_iff; cbn [p_header p_payload p_sig p_input]; auto).
  rewrite (Q _ _ _ _ T), (Q _ _ _ _ T'). cbn [p_header p_payload p_sig p_input]. now rewrite E.
Qed.
Lemma same_verify a t t' k h p s s' : sections (unescape L t) h p s -> sections (unescape L t') h p s' -> base64_decode s = base64_decode s' ->
  jwt_verify W L a (VString t) k = jwt_verify W L a (VString t') k.
Proof.
  intros T T' E. unfold jwt_verify. destruct k; try reflexivity.
  assert (Q : forall t h p s, sections t h p s -> token_parts t = Some (Parts h p s (signing_input h p))) by (intros; apply token_parts_iff; cbn [p_header p_payload p_sig p_input]; auto).
  rewrite (Q _ _ _ _ T), (Q _ _ _ _ T'). cbn [p_header p_payload p_sig p_input]. now rewrite E.
Qed.
End C.

Section S.
Context {K P D : Type}.
Variable W : jwt_lib K P D.
Variable L : json_lib.

Lemma sign_signed a input key sig : sign W L a input key = Some sig -> signed_by W L key a input sig.
Proof.
  unfold sign. destruct (key_json L key) as [t | ] eqn:J; [ | discriminate ]. apply key_json_parse in J. destruct (is_hmac a) eqn:H.
  - destruct (emptyb (select_view W t $"k")) eqn:E; [ discriminate | ]. apply select_view_ne in E. destruct (base64_decode _) as [secret | | | ] eqn:B; try discriminate.
    intros M. apply is_hmac_iff in H. eapply sb_hmac; eauto.
  - destruct (w_private W t) as [[p | ] | | | ] eqn:Pk; try discriminate. intros M. apply (sb_key W L key a input sig t p); auto. rewrite <- is_hmac_iff. now rewrite H.
Qed.
Lemma encode_nopad_pad s : octets s -> ~ In 61 (encode_nopad s).
Proof. intros O. destruct (rfc_unpadded true s _ O (encode_rfc true s O)) as (u & U & _). unfold encode_nopad. rewrite (drop_unpadded _ _ U). now destruct U as (k & _ & H). Qed.
Lemma signed_octets key a i s : byte_signatures W -> signed_by W L key a i s -> octets s.
Proof. intros [B1 B2] [ | ]; eauto. Qed.
Lemma encode_sign_carries h p k tok : byte_signatures W -> octets (unescape L h) -> octets (unescape L p) ->
  encode_sign_raw W L (VString h) (VString p) (VString k) = Ok (RVal tok) ->
  exists t ht a sig, tok = VString t /\ ~ In 92 t /\ ~ In 34 t /\ jl_parse L (unescape L h) = Some ht /\ string_member W ht $"alg" (alg_name a) /\
    carries W L (unescape L k) a t (unescape L h) (unescape L p) sig.
Proof.
  intros B Oh Op H. apply encode_sign_token in H. destruct H as (ht & a & sig & J & A & S0 & ->). apply sign_signed in S0. pose proof (signed_octets _ _ _ _ B S0) as Os.
  destruct (signed_plain (unescape L h) (unescape L p) sig Oh Op Os) as [Nq Nb]. rewrite <- !app_assoc in *. cbv zeta in *.
  exists (encode_nopad (unescape L h) ++ [46] ++ encode_nopad (unescape L p) ++ [46] ++ encode_nopad sig), ht, a, sig.
  split; [ unfold mkstr; f_equal; apply strip_plain; exact Nq | ]. split; [ exact Nb | ]. split; [ exact Nq | ]. split; [ exact J | ]. split; [ exact A | ].
  exists (encode_nopad (unescape L h)), (encode_nopad (unescape L p)), (encode_nopad sig).
  destruct (encode_nopad_spec _ Oh) as [D1 T1]. destruct (encode_nopad_spec _ Op) as [D2 T2]. destruct (encode_nopad_spec _ Os) as [D3 T3].
  split; [ now apply signed_sections | ]. split; [ exact T1 | ]. split; [ exact T2 | ]. split; [ exact T3 | ]. split; [ | auto ].
  pose proof (encode_nopad_pad _ Oh). pose proof (encode_nopad_pad _ Op). pose proof (encode_nopad_pad _ Os). rewrite !in_app_iff. cbn [In]. intuition discriminate.
Qed.
End S.
