(** The JSON Web Token builtins. *)
From Coq Require Import String ZArith List Bool Lia.
From Verif Require Import Base SMap BigIntSpec BigIntModel ValueModel ValueSpec ResolverModel VmModel StrModel StrSpec StrProofs
  EncModel EncSpec EncProofs EncTheorems JsonModel JsonSpec JsonProofs JsonTheorems JwtModel JwtSpec JwtProofs JwtSignProofs.
Import ListNotations.
Local Open Scope Z_scope.
Local Open Scope list_scope.

(** ** Libraries, to show that the hypotheses can be met *)

(** Documents with their text as JSON is written. *)
Fixpoint show (t : jtree) : str :=
  match t with
  | JNull => $"null" | JTrue => $"true" | JFalse => $"false"
  | JNumber t => t
  | JString s => s
  | JArray l => [91] ++ join [44] (map show l) ++ [93]
  | JObject l => [123] ++ join [44] (map (fun kt => [34] ++ fst kt ++ [34; 58] ++ show (snd kt)) l) ++ [125]
  end.
Definition show_lib (docs : list jtree) : json_lib :=
  {| jl_print := show; jl_pretty := fun indent t => show t; jl_parse := fun s => find (fun t => str_eqb (show t) s) docs; jl_text := json_ops0 |}.
Definition quoted (s : str) : jtree := JString (34 :: s ++ [34]).
Definition member (t : jtree) (name : str) : option jtree :=
  match t with JObject l => option_map snd (find (fun kt => str_eqb (fst kt) name) l) | _ => None end.
(** A library in which the keys are bytes: a text is the certificate with its last byte as key, a signature is [key; length]. *)
Definition digits (s : str) : Z := fold_left (fun n c => n * 10 + (c - 48)) s 0.
Definition toy_jwt (check : alg -> Z -> str -> str -> bool) : jwt_lib Z Z Z := {|
  w_member := member;
  w_hmac := fun a secret input => Some [zlen secret mod 256; zlen input mod 256; 7; 9];
  w_cert := fun s => Some (last s 0); w_pem := fun s => Some (last s 0);
  w_rsa := fun n e => Some (last n 0); w_ec := fun c x y => Some (last x 0); w_okp := fun x => Some (last x 0);
  w_check := check;
  w_private := fun t => Ok (Some 45);
  w_sign := fun a p input => Some [p mod 256; zlen input mod 256];
  w_double := digits; w_seconds := fun d => d / 1000000000; w_now := 1700000000; w_le := Z.leb; w_lt := Z.ltb |}.
Definition toy_check (a : alg) (k : Z) (input sig : str) : bool := str_eqb sig [k; zlen input mod 256].
Definition cert_text : str := $"-----BEGIN CERTIFICATE-----" ++ [10] ++ $"MIIB" ++ [10] ++ $"-----END CERTIFICATE-----".
Definition token (header payload : jtree) (sig : str) : str :=
  encode_nopad (show header) ++ [46] ++ encode_nopad (show payload) ++ [46] ++ encode_nopad sig.

(** ** C61: accepted tokens *)

Theorem C61_accepts {K P D} (W : jwt_lib K P D) L c t h p : NoDup (map fst c) ->
  jwt_decode_verify W L (VString t) (VObject c) = Ok (RVal (VArray [VTrue; h; p])) ->
  accepted W L (good_signature W L) c 10 (unescape L t) h p.
Proof. intros N H. apply accepted_mono with (ok := exact_signature W L c); [ apply exact_good | ]. now apply decode_verify_to. Qed.
Print Assumptions C61_accepts.

(** Missing: keys written as JSON Web Keys, which the code reads only within some limits on their sizes. *)
Theorem C61_complete_partial {K P D} (W : jwt_lib K P D) L c t h p : NoDup (map fst c) ->
  accepted W L (fun text a input sig => ~ looks_like_json text /\ plain_signature W text a input sig) c 10 (unescape L t) h p ->
  jwt_decode_verify W L (VString t) (VObject c) = Ok (RVal (VArray [VTrue; h; p])).
Proof.
  intros N H. eapply decode_verify_from; [ exact N | reflexivity | ]. revert H. apply accepted_mono. intros key a i s [Nj H]. unfold exact_signature.
  destruct (object_string c $"cert"); [ now apply verify_any_plain | now apply verify_plain ].
Qed.
Print Assumptions C61_complete_partial.

Theorem C61_results {K P D} (W : jwt_lib K P D) L t c (r := jwt_decode_verify W L t c) :
  r = Throw \/ (exists code, r = Ok (RErr code)) \/ r = Ok (RVal (VArray [VFalse; VObject []; VObject []])) \/ exists h p, r = Ok (RVal (VArray [VTrue; h; p])).
Proof. apply decode_verify_shaped. Qed.
Print Assumptions C61_results.

Definition header_hs : jtree := JObject [($"alg", quoted $"HS256"); ($"typ", quoted $"JWT")].
Definition header_rs : jtree := JObject [($"alg", quoted $"RS256")].
Definition claims_ex : jtree := JObject [($"iss", quoted $"me"); ($"aud", JArray [quoted $"x"; quoted $"you"]); ($"exp", JNumber $"1600000001"); ($"nbf", JNumber $"1600000000")].
Definition lib_ex : json_lib := show_lib [header_hs; header_rs; claims_ex].
Definition input_ex (h : jtree) : str := encode_nopad (show h) ++ [46] ++ encode_nopad (show claims_ex).
Definition claims_value : value :=
  VObject [(VString $"iss", VString $"me"); (VString $"aud", VArray [VString $"x"; VString $"you"]); (VString $"exp", VInt $"1600000001"); (VString $"nbf", VInt $"1600000000")].
Definition constraints_ex (key : str * str) (time : str) : list (value * value) :=
  [(VString (fst key), VString (snd key)); (VString $"iss", VString $"me"); (VString $"aud", VString $"you"); (VString $"time", VInt time)].
Definition hs_token : str := token header_hs claims_ex [6; zlen (input_ex header_hs) mod 256; 7; 9].
Definition rs_token : str := token header_rs claims_ex [45; zlen (input_ex header_rs) mod 256].
Example C61_accepts_ex : NoDup (map fst (constraints_ex ($"secret", $"abcdef") $"1600000000500000000")) /\
  jwt_decode_verify (toy_jwt toy_check) lib_ex (VString hs_token) (VObject (constraints_ex ($"secret", $"abcdef") $"1600000000500000000")) =
    Ok (RVal (VArray [VTrue; VObject [(VString $"alg", VString $"HS256"); (VString $"typ", VString $"JWT")]; claims_value])) /\
  (* too late, too early, the wrong secret, the wrong issuer *)
  jwt_decode_verify (toy_jwt toy_check) lib_ex (VString hs_token) (VObject (constraints_ex ($"secret", $"abcdef") $"1600000001000000000")) = failure /\
  jwt_decode_verify (toy_jwt toy_check) lib_ex (VString hs_token) (VObject (constraints_ex ($"secret", $"abcdef") $"1599999999000000000")) = failure /\
  jwt_decode_verify (toy_jwt toy_check) lib_ex (VString hs_token) (VObject (constraints_ex ($"secret", $"abc") $"1600000000500000000")) = failure /\
  jwt_decode_verify (toy_jwt toy_check) lib_ex (VString hs_token)
    (VObject ((VString $"sub", VString $"you") :: constraints_ex ($"secret", $"abcdef") $"1600000000500000000")) = failure /\
  (* a signature made with the key of the certificate *)
  jwt_decode_verify (toy_jwt toy_check) lib_ex (VString rs_token) (VObject (constraints_ex ($"cert", cert_text) $"1600000000500000000")) =
    Ok (RVal (VArray [VTrue; VObject [(VString $"alg", VString $"RS256")]; claims_value])).
Proof.
  split.
  - repeat constructor; cbn [In]; intuition discriminate.
  - vm_compute. repeat split.
Qed.
Ltac members := repeat first [ now left | right ].
Example C61_complete_ex : let c := constraints_ex ($"cert", cert_text) $"1600000000500000000" in NoDup (map fst c) /\
  accepted (toy_jwt toy_check) lib_ex (fun text a input sig => ~ looks_like_json text /\ plain_signature (toy_jwt toy_check) text a input sig) c 10 rs_token
    (VObject [(VString $"alg", VString $"RS256")]) claims_value.
Proof.
  intros c. split; [ repeat constructor; cbn [In]; intuition discriminate | ].
  assert (NW : forall n x, wants c n x -> (n, x) = ($"cert", cert_text) \/ (n, x) = ($"iss", $"me") \/ (n, x) = ($"aud", $"you")).
  { unfold wants, c, constraints_ex. cbn [In fst snd]. intros n x H. repeat destruct H as [H | H]; try (injection H as <- <-); try discriminate H; try destruct H; tauto. }
  eapply ac_claims with (header := header_rs) (pj := show claims_ex) (payload := claims_ex) (now := 1600000000).
  - constructor. exists (encode_nopad (show header_rs)), (encode_nopad (show claims_ex)), (encode_nopad [45; zlen (input_ex header_rs) mod 256]),
      (show header_rs), [45; zlen (input_ex header_rs) mod 256], cert_text, $"RS256", RS256.
    split; [ split; [ reflexivity | ]; repeat split; intros I; apply existsb_eqb in I; vm_compute in I; discriminate I | ].
    split; [ reflexivity | ]. split; [ reflexivity | ]. split; [ reflexivity | ]. split; [ reflexivity | ]. split; [ eexists; split; reflexivity | ]. split; [ reflexivity | ].
    split; [ intros x H; apply NW in H; destruct H as [H | [H | H]]; discriminate H | ]. split; [ reflexivity | ].
    split; [ apply (kt_cert lib_ex c cert_text); now left | ]. split; [ | reflexivity ]. split.
    + intros (b & x & r & E & B & I). destruct b as [ | y b ]; [ injection E as <- _; cbn [In] in I; intuition discriminate | ].
      injection E as <- _. inversion B as [ | ? ? I' _ ]; subst. cbn [In] in I'. intuition discriminate.
    + right. split; [ cbn [symmetric In]; intuition discriminate | ]. split; [ exact I | ]. exists 45. split; [ | reflexivity ].
      apply (pt_cert _ _ [] ([10] ++ $"MIIB" ++ [10]) []); [ reflexivity | constructor | | reflexivity ].
      intros i (a & b & E & <-).
      assert (G : forall s, s = cert_text -> (length a <= length s)%nat -> firstn 25 (skipn (length a) s) = $"-----END CERTIFICATE-----" ->
        length a = 33%nat).
      { intros s -> Ll Q. assert (Ln : (length a <= 58)%nat) by exact Ll. revert Q. clear - Ln. generalize dependent (length a). intros n Hn.
        do 33 (destruct n as [ | n ]; [ intros Q; vm_compute in Q; discriminate Q | ]).
        destruct n as [ | n ]; [ reflexivity | ].
        do 25 (destruct n as [ | n ]; [ intros Q; vm_compute in Q; discriminate Q | ]). lia. }
      rewrite (G cert_text); [ reflexivity | reflexivity | rewrite E, !app_length; lia | ]. rewrite E. rewrite skipn_app_length.
      assert (Fl : forall x y : list Z, firstn (length x) (x ++ y) = x) by (intros x y; induction x as [ | z x IH ]; [ reflexivity | cbn; now rewrite IH ]). apply (Fl $"-----END CERTIFICATE-----").
  - intros (q & H & _). discriminate H.
  - reflexivity.
  - apply (ti_int (toy_jwt toy_check) c $"1600000000500000000"). unfold c, constraints_ex. cbn [In]. tauto.
  - constructor.
    + intros x H. apply NW in H. destruct H as [H | [H | H]]; try discriminate H. injection H as ->. eexists. split; reflexivity.
    + intros x H. apply NW in H. destruct H as [H | [H | H]]; discriminate H.
    + intros x H. apply NW in H. destruct H as [H | [H | H]]; try discriminate H. injection H as ->. right. eexists. exists (34 :: $"you" ++ [34]). split; [ reflexivity | ]. split; [ right; now left | reflexivity ].
    + intros H. exfalso. apply (H $"you"). unfold wants, c, constraints_ex. cbn [In]. tauto.
    + intros m H. injection H as <-. eexists. split; reflexivity.
    + intros m H. injection H as <-. eexists. split; reflexivity.
  - reflexivity.
  - reflexivity.
Qed.

(** With an asymmetric algorithm among the constraints, the signature was checked with a public key in the key's text. *)
Theorem C61_pinned {K P D} (W : jwt_lib K P D) L c t h p a : NoDup (map fst c) -> wants c $"alg" (alg_name a) -> ~ symmetric a ->
  jwt_decode_verify W L (VString t) (VObject c) = Ok (RVal (VArray [VTrue; h; p])) ->
  exists hs ps ss sig text k, sections (unescape L t) hs ps ss /\ base64_decode ss = Ok sig /\ key_text L c text /\ holds W L text k /\
    right_length a sig /\ w_check W a k (signing_input hs ps) sig = true.
Proof.
  intros N Wa Sa H. apply C61_accepts in H; [ | exact N ].
  assert (G : forall header pj, signed_token W L (good_signature W L) c (unescape L t) header pj ->
    exists hs ps ss sig text k, sections (unescape L t) hs ps ss /\ base64_decode ss = Ok sig /\ key_text L c text /\ holds W L text k /\
      right_length a sig /\ w_check W a k (signing_input hs ps) sig = true).
  { intros header pj [(hs & ps & ss & hj & sig & text & name & b & T & _ & _ & _ & _ & _ & En & Ea & Es & Kt & G & _)]. pose proof (Ea _ Wa) as Q. rewrite En in Q.
    assert (b = a). { apply parse_algorithm_iff in Q. rewrite (proj2 (parse_algorithm_iff _ a) eq_refl) in Q. congruence. } subst b.
    destruct G as [[S0 _] | (_ & R & k & Hk & Ck)]; [ contradiction | ]. exists hs, ps, ss, sig, text, k. auto 10. }
  inversion H; subst; eauto.
Qed.
Print Assumptions C61_pinned.
Example C61_pinned_ex : jwt_decode_verify (toy_jwt toy_check) lib_ex (VString rs_token)
    (VObject ((VString $"alg", VString $"RS256") :: constraints_ex ($"cert", cert_text) $"1600000000500000000")) =
  Ok (RVal (VArray [VTrue; VObject [(VString $"alg", VString $"RS256")]; claims_value])) /\ ~ symmetric RS256.
Proof. split; [ vm_compute; reflexivity | cbn [symmetric In]; intuition discriminate ]. Qed.

(** Without one, whoever knows the certificate can make the token: the header names an HMAC and the certificate is its secret. *)
Theorem C61_forged {K P D} (W : jwt_lib K P D) L c t k a hs ps ss hj header pj payload now h p sig :
  NoDup (map fst c) -> wants c $"cert" k -> (forall x, ~ wants c $"alg" x) -> ~ looks_like_json (unescape L k) ->
  symmetric a -> sections (unescape L t) hs ps ss -> w_hmac W a (unescape L k) (signing_input hs ps) = Some sig -> base64_decode ss = Ok sig ->
  base64_decode hs = Ok hj -> jl_parse L hj = Some header -> string_member W header $"alg" (alg_name a) -> no_member W header $"enc" -> no_member W header $"crit" ->
  ~ string_member W header $"cty" $"JWT" -> base64_decode ps = Ok pj -> jl_parse L pj = Some payload -> time_is W c now -> claims_hold W c now payload ->
  json_to_rego header = Some h -> json_to_rego payload = Some p ->
  jwt_decode_verify W L (VString t) (VObject c) = Ok (RVal (VArray [VTrue; h; p])).
Proof.
  intros N Wk Na Nj Sa T M Es Eh Jh Al Ne Nc Ny Ep Jp Ti Cl Rh Rp. apply C61_complete_partial; [ exact N | ].
  eapply ac_claims; eauto. constructor. exists hs, ps, ss, hj, sig, (unescape L k), (alg_name a), a. repeat (split; [ first [ assumption | reflexivity | now constructor | intros x H; now apply Na in H ] | ]).
  split; [ | assumption ]. split; [ exact Nj | ]. left. now split.
Qed.
Print Assumptions C61_forged.
Theorem C61_public_key_refuted : let W := toy_jwt (fun _ _ _ _ => false) in exists c t h p,
  NoDup (map fst c) /\ wants c $"cert" cert_text /\ (forall x, ~ wants c $"secret" x) /\
  jwt_decode_verify W lib_ex (VString t) (VObject c) = Ok (RVal (VArray [VTrue; h; p])) /\
  forall a k input sig, w_check W a k input sig = false.
Proof.
  intros W. exists (constraints_ex ($"cert", cert_text) $"1600000000500000000"), (token header_hs claims_ex [zlen cert_text mod 256; zlen (input_ex header_hs) mod 256; 7; 9]),
    (VObject [(VString $"alg", VString $"HS256"); (VString $"typ", VString $"JWT")]), claims_value.
  split; [ repeat constructor; cbn [In]; intuition discriminate | ]. split; [ now left | ].
  split; [ intros x; unfold wants, constraints_ex; cbn [In fst snd]; intros H; repeat destruct H as [H | H]; try discriminate H; exact H | ]. split; [ vm_compute; reflexivity | reflexivity ].
Qed.
Print Assumptions C61_public_key_refuted.

(** Constraints that the code does not know, or whose value has another type, are ignored. *)
Theorem C61_ignored {K P D} (W : jwt_lib K P D) L t c x v :
  (forall n, In n [$"cert"; $"secret"; $"alg"; $"iss"; $"sub"; $"aud"] -> ~ (x = VString n /\ exists s, v = VString s)) ->
  ~ (x = VString $"time" /\ exists s, v = VInt s \/ v = VFloat s) ->
  jwt_decode_verify W L t (VObject ((x, v) :: c)) = jwt_decode_verify W L t (VObject c).
Proof. intros H T. apply constraints_same; [ intros n I; now apply object_string_cons, H | now apply object_number_cons ]. Qed.
Print Assumptions C61_ignored.
Theorem C61_constraints_refuted : let c := (VString $"iss", VSet [VString $"you"]) :: (VString $"sub", VInt $"5") :: (VString $"issuer", VString $"you") ::
    [(VString $"secret", VString $"abcdef"); (VString $"aud", VString $"you"); (VString $"time", VInt $"1600000000500000000")] in
  exists h, jwt_decode_verify (toy_jwt toy_check) lib_ex (VString hs_token) (VObject c) = Ok (RVal (VArray [VTrue; h; claims_value])) /\
    (* the issuer of the token is somebody else, and it has no subject *)
    member claims_ex $"iss" = Some (quoted $"me") /\ member claims_ex $"sub" = None.
Proof. exists (VObject [(VString $"alg", VString $"HS256"); (VString $"typ", VString $"JWT")]). split; [ vm_compute; reflexivity | split; reflexivity ]. Qed.
Print Assumptions C61_constraints_refuted.

(** ** verify_hs256 and the others *)

Theorem C61_verify {K P D} (W : jwt_lib K P D) L a t k : jwt_verify W L a (VString t) (VString k) = Ok (RVal VTrue) ->
  exists h p s hj header sig, sections (unescape L t) h p s /\ base64_decode h = Ok hj /\ jl_parse L hj = Some header /\
    string_member W header $"alg" (alg_name a) /\ base64_decode s = Ok sig /\ good_signature W L (unescape L k) a (signing_input h p) sig.
Proof. intros H. apply verify_to in H. destruct H as (h & p & s & hj & header & sig & T & Eh & J & A & Es & V). apply verify_sound in V. exists h, p, s, hj, header, sig. auto 10. Qed.
Print Assumptions C61_verify.
(** Missing: keys written as JSON Web Keys. *)
Theorem C61_verify_complete_partial {K P D} (W : jwt_lib K P D) L a t k h p s hj header sig : sections (unescape L t) h p s -> base64_decode h = Ok hj -> jl_parse L hj = Some header ->
    string_member W header $"alg" (alg_name a) -> base64_decode s = Ok sig -> plain_signature W (unescape L k) a (signing_input h p) sig ->
  jwt_verify W L a (VString t) (VString k) = Ok (RVal VTrue).
Proof. intros T Eh J A Es V. eapply verify_from; eauto. now apply verify_plain. Qed.
Print Assumptions C61_verify_complete_partial.
Theorem C61_verify_results {K P D} (W : jwt_lib K P D) L a t k (r := jwt_verify W L a t k) :
  r = Throw \/ (exists code, r = Ok (RErr code)) \/ r = Ok (RVal VTrue) \/ r = Ok (RVal VFalse).
Proof. unfold r. destruct (jwt_verify_results W L a t k) as [H | [H | ([ | ] & H)]]; auto. Qed.
Print Assumptions C61_verify_results.
Example C61_verify_ex :
  jwt_verify (toy_jwt toy_check) lib_ex HS256 (VString hs_token) (VString $"abcdef") = Ok (RVal VTrue) /\
  jwt_verify (toy_jwt toy_check) lib_ex HS256 (VString hs_token) (VString $"abcde") = Ok (RVal VFalse) /\
  jwt_verify (toy_jwt toy_check) lib_ex HS384 (VString hs_token) (VString $"abcdef") = Ok (RVal VFalse) /\
  jwt_verify (toy_jwt toy_check) lib_ex RS256 (VString rs_token) (VString cert_text) = Ok (RVal VTrue) /\
  jwt_verify (toy_jwt toy_check) lib_ex RS256 (VString rs_token) (VString (cert_text ++ $"x")) = Ok (RErr EvalBuiltInError).
Proof. vm_compute. repeat split. Qed.

(** ** decode *)

Theorem C61_decode {K P D} (W : jwt_lib K P D) L t vh vp x :
  jwt_decode W L (VString t) = Ok (RVal (VArray [vh; vp; VString x])) <->
  exists sig, decoded W L 10 (unescape L t) vh vp sig /\ hex_text sig x /\ Forall (fun c => In c $"0123456789abcdef") x.
Proof.
  unfold jwt_decode. change max_nesting with 10%nat. rewrite decode_iff. split.
  - intros (sig & H & ->). exists sig. pose proof (decoded_octets _ _ _ _ _ _ _ H) as O. repeat split; [ exact H | now apply bytes_to_hex_spec | now apply bytes_to_hex_lower ].
  - intros (sig & H & X & F). exists sig. split; [ exact H | ]. pose proof (decoded_octets _ _ _ _ _ _ _ H) as O. apply hex_lower_fun with sig; auto using bytes_to_hex_spec, bytes_to_hex_lower.
Qed.
Print Assumptions C61_decode.
Example C61_decode_ex : jwt_decode (toy_jwt toy_check) lib_ex (VString (token header_hs claims_ex [1; 255])) =
  Ok (RVal (VArray [VObject [(VString $"alg", VString $"HS256"); (VString $"typ", VString $"JWT")]; claims_value; VString $"01ff"])).
Proof. vm_compute. reflexivity. Qed.

(** Nothing but these three sections, an error or an exception comes out of decode. *)
Theorem C61_decode_results {K P D} (W : jwt_lib K P D) L t (r := jwt_decode W L t) :
  r = Throw \/ (exists code, r = Ok (RErr code)) \/ exists vh vp x, r = Ok (RVal (VArray [vh; vp; VString x])).
Proof.
  subst r. set (Q := fun o : outcome res => o = Throw \/ (exists code, o = Ok (RErr code)) \/ exists vh vp x, o = Ok (RVal (VArray [vh; vp; VString x]))).
  assert (B : forall A (o : outcome A) f, settled o -> (forall x, Q (f x)) -> Q (obind o f)) by (intros A o f [-> | (x & ->)] H; [ now left | apply H ]).
  assert (E : forall c, Q (Ok (RErr c))) by (intros c; right; left; eauto).
  change (Q (jwt_decode W L t)). unfold jwt_decode. generalize max_nesting. intro n. revert t. induction n as [ | n IH ]; intro t; cbn [decode_impl].
  - destruct t; apply E.
  - destruct t; try apply E. destruct (token_parts _) as [p | ]; [ | apply E ]. do 3 (match goal with |- Q (if ?b then _ else _) => destruct b end; [ apply E | ]).
    apply B; [ apply settled_decode | ]. intros hj. destruct (jl_parse L hj) as [header | ]; [ | apply E ]. destruct (w_member W header $"enc"); [ apply E | ].
    apply B; [ apply settled_decode | ]. intros pj. destruct (says_nested W header); [ apply IH | ]. destruct (json_to_rego header); [ | apply E ].
    destruct (jl_parse L pj) as [payload | ]; [ | apply E ]. destruct (json_to_rego payload); [ | apply E ]. apply B; [ apply settled_decode | ].
    intros sig. right. right. do 3 eexists. reflexivity.
Qed.
Print Assumptions C61_decode_results.
Example C61_decode_results_ex : jwt_decode (toy_jwt toy_check) lib_ex (VString $"a.b") = Ok (RErr EvalBuiltInError).
Proof. vm_compute. reflexivity. Qed.

(** A text with two dots is enough for an exception. *)
Theorem C61_malformed_refuted {K P D} (W : jwt_lib K P D) L t k c : unescape L t = $"a.b.c" ->
  jwt_decode W L (VString t) = Throw /\ (forall a, jwt_verify W L a (VString t) (VString k) = Throw) /\ jwt_decode_verify W L (VString t) (VObject c) = Throw.
Proof. intros E. unfold jwt_decode, jwt_verify, jwt_decode_verify, max_nesting. cbn [decode_impl decode_verify_impl]. rewrite E. repeat split; reflexivity. Qed.
Print Assumptions C61_malformed_refuted.
Example C61_malformed_ex : unescape lib_ex $"a.b.c" = $"a.b.c".
Proof. reflexivity. Qed.

(** One token has several spellings that are all accepted. *)
Theorem C61_malleable_refuted {K P D} (W : jwt_lib K P D) L t t' h p s : sections (unescape L t) h p s -> (length s mod 4 = 2)%nat ->
  unescape L t' = unescape L t ++ $"==" ->
  (forall c, jwt_decode_verify W L (VString t') c = jwt_decode_verify W L (VString t) c) /\ (forall a k, jwt_verify W L a (VString t') k = jwt_verify W L a (VString t) k).
Proof.
  intros T M E. assert (T' : sections (unescape L t') h p (s ++ $"==")).
  { rewrite E. destruct T as (-> & Nh & Np & Ns). split; [ now rewrite <- !app_assoc | ]. repeat split; auto. rewrite in_app_iff. intros [I | I]; [ auto | ]. apply existsb_eqb in I. discriminate I. }
  pose proof (decode_two s M) as Q. split; intros; [ eapply same_token | eapply same_verify ]; eauto.
Qed.
Print Assumptions C61_malleable_refuted.
Example C61_malleable_ex : exists h p s, sections hs_token h p s /\ (length s mod 4 = 2)%nat /\ unescape lib_ex (hs_token ++ $"==") = unescape lib_ex hs_token ++ $"==".
Proof.
  exists (encode_nopad (show header_hs)), (encode_nopad (show claims_ex)), (encode_nopad [6; zlen (input_ex header_hs) mod 256; 7; 9]).
  split; [ split; [ reflexivity | ]; repeat split; intros I; apply existsb_eqb in I; vm_compute in I; discriminate I | ]. split; vm_compute; reflexivity.
Qed.

(** ** encode_sign_raw and encode_sign *)

Theorem C61_sign {K P D} (W : jwt_lib K P D) L h p k tok : byte_signatures W -> octets (unescape L h) -> octets (unescape L p) ->
  encode_sign_raw W L (VString h) (VString p) (VString k) = Ok (RVal tok) ->
  exists t header a sig, tok = VString t /\ jl_parse L (unescape L h) = Some header /\ string_member W header $"alg" (alg_name a) /\
    carries W L (unescape L k) a t (unescape L h) (unescape L p) sig.
Proof. intros B Oh Op H. apply encode_sign_carries in H; auto. destruct H as (t & header & a & sig & E & _ & _ & J & A & C). exists t, header, a, sig. auto. Qed.
Print Assumptions C61_sign.

(** What was signed is accepted with a key that fits. *)
Theorem C61_sign_verify {K P D} (W : jwt_lib K P D) L h p k tok header a pub : byte_signatures W -> plain_unescaped L -> octets (unescape L h) -> octets (unescape L p) ->
  encode_sign_raw W L (VString h) (VString p) (VString k) = Ok (RVal tok) ->
  jl_parse L (unescape L h) = Some header -> string_member W header $"alg" (alg_name a) ->
  (forall input sig, signed_by W L (unescape L k) a input sig -> plain_signature W (unescape L pub) a input sig) ->
  jwt_verify W L a tok (VString pub) = Ok (RVal VTrue).
Proof.
  intros B U Oh Op H J A F. apply encode_sign_carries in H; auto. destruct H as (t & header' & a' & sig & -> & Nb & _ & J' & A' & C).
  rewrite J in J'. injection J' as <-.
  assert (a' = a). { pose proof (string_member_fun _ _ _ _ _ A A') as Q. symmetry in Q. apply parse_algorithm_iff in Q. rewrite (proj2 (parse_algorithm_iff _ a') eq_refl) in Q. congruence. } subst a'.
  destruct C as (hs & ps & ss & T & _ & _ & _ & _ & Eh & _ & Es & S0). apply (C61_verify_complete_partial W L a t pub hs ps ss (unescape L h) header sig); auto. rewrite (U t Nb). exact T.
Qed.
Print Assumptions C61_sign_verify.
(** For an HMAC the key that fits is the decoded secret. *)
Theorem C61_sign_verify_hmac {K P D} (W : jwt_lib K P D) L h p k tok header a jwk secret pub : byte_signatures W -> plain_unescaped L -> octets (unescape L h) -> octets (unescape L p) ->
  encode_sign_raw W L (VString h) (VString p) (VString k) = Ok (RVal tok) ->
  jl_parse L (unescape L h) = Some header -> string_member W header $"alg" (alg_name a) -> symmetric a ->
  jl_parse L (unescape L k) = Some jwk -> string_member W jwk $"k" secret -> base64_decode secret = Ok (unescape L pub) ->
  jwt_verify W L a tok (VString pub) = Ok (RVal VTrue).
Proof.
  intros B U Oh Op H J A S0 Jk M E. apply (C61_sign_verify W L h p k tok header a pub B U Oh Op H J A). intros input sig [t k' s' _ Jt Mk Ek Hm | t p' Ns _ _ _]; [ | contradiction ].
  rewrite Jk in Jt. injection Jt as <-. rewrite (string_member_fun _ _ _ _ _ M Mk) in E. rewrite Ek in E. injection E as <-. left. now split.
Qed.
Print Assumptions C61_sign_verify_hmac.

Theorem C61_sign_decode {K P D} (W : jwt_lib K P D) L h p k tok header payload vh vp : byte_signatures W -> plain_unescaped L -> octets (unescape L h) -> octets (unescape L p) ->
  encode_sign_raw W L (VString h) (VString p) (VString k) = Ok (RVal tok) ->
  jl_parse L (unescape L h) = Some header -> jl_parse L (unescape L p) = Some payload -> no_member W header $"enc" -> ~ string_member W header $"cty" $"JWT" ->
  json_to_rego header = Some vh -> json_to_rego payload = Some vp ->
  exists a input sig x, signed_by W L (unescape L k) a input sig /\ hex_text sig x /\ jwt_decode W L tok = Ok (RVal (VArray [vh; vp; VString x])).
Proof.
  intros B U Oh Op H J Jp Ne Ny Rh Rp. apply encode_sign_carries in H; auto. destruct H as (t & header' & a & sig & -> & Nb & _ & J' & A & C).
  rewrite J in J'. injection J' as <-. destruct C as (hs & ps & ss & T & T1 & T2 & T3 & _ & Eh & Ep & Es & S0). pose proof (decode_octets _ _ Es) as Os.
  exists a, (signing_input hs ps), sig, (bytes_to_hex sig). split; [ exact S0 | ]. split; [ now apply bytes_to_hex_spec | ].
  apply C61_decode. exists sig. split; [ | split; [ now apply bytes_to_hex_spec | now apply bytes_to_hex_lower ] ]. rewrite (U t Nb). eapply de_leaf; eauto.
Qed.
Print Assumptions C61_sign_decode.

Lemma toy_bytes check : byte_signatures (toy_jwt check).
Proof.
  assert (M : forall x, 0 <= x mod 256 < 256) by (intros x; apply Z.mod_pos_bound; lia).
  split; intros a k i s E; injection E as <-; unfold octets; repeat apply Forall_cons; try apply Forall_nil; try apply M; lia.
Qed.
Lemma show_plain docs : plain_unescaped (show_lib docs).
Proof.
  intros s. unfold unescape. cbn [jl_text show_lib j_unescape json_ops0]. induction s as [ | c s IH ]; intros H; [ reflexivity | ]. cbn [unescaped].
  destruct (c =? 92) eqn:E; [ elim H; left; lia | ]. rewrite IH; [ reflexivity | ]. intros I. apply H. now right.
Qed.
Definition key_hs : jtree := JObject [($"k", quoted $"YWJjZGVm"); ($"kty", quoted $"oct")].
Definition key_rs : jtree := JObject [($"kty", quoted $"RSA"); ($"d", quoted $"AQAB")].
Definition lib_sign : json_lib := show_lib [header_hs; header_rs; claims_ex; key_hs; key_rs].
(** The text of a document as a string value. *)
Definition as_text (t : jtree) : value := VString (jescape (show t)).
Example C61_sign_ex :
  octets (unescape lib_sign (jescape (show header_hs))) /\ octets (unescape lib_sign (jescape (show claims_ex))) /\
  encode_sign_raw (toy_jwt toy_check) lib_sign (as_text header_hs) (as_text claims_ex) (as_text key_hs) = Ok (RVal (VString hs_token)) /\
  jwt_verify (toy_jwt toy_check) lib_sign HS256 (VString hs_token) (VString $"abcdef") = Ok (RVal VTrue) /\
  encode_sign_raw (toy_jwt toy_check) lib_sign (as_text header_rs) (as_text claims_ex) (as_text key_rs) = Ok (RVal (VString rs_token)) /\
  jwt_verify (toy_jwt toy_check) lib_sign RS256 (VString rs_token) (VString cert_text) = Ok (RVal VTrue).
Proof.
  split; [ | split; [ | vm_compute; repeat split ] ];
  (apply Forall_forall; intros c I; assert (B : forallb (fun c => (0 <=? c) && (c <? 256)) (show header_hs) = true /\ forallb (fun c => (0 <=? c) && (c <? 256)) (show claims_ex) = true) by (vm_compute; now split);
   destruct B as [B1 B2]; rewrite forallb_forall in B1, B2; apply (proj1 json_ops0_ok) || idtac;
   match type of I with In _ ?x => first [ change x with (show header_hs) in I; apply B1 in I | change x with (show claims_ex) in I; apply B2 in I ] end; lia).
Qed.

(** Missing: values with a quote, a backslash or a control character in a string, whose text has a backslash. *)
Theorem C61_encode_sign_partial {K P D} (W : jwt_lib K P D) L header payload key ht pt kt tok : byte_signatures W -> plain_unescaped L ->
  rego_to_json L header = Some ht -> rego_to_json L payload = Some pt -> rego_to_json L key = Some kt ->
  Forall (fun s => octets s /\ ~ In 92 s /\ hd 0 s <> 34) [jl_print L ht; jl_print L pt; jl_print L kt] ->
  encode_sign W L header payload key = Ok (RVal tok) ->
  exists t header' a sig, tok = VString t /\ jl_parse L (jl_print L ht) = Some header' /\ string_member W header' $"alg" (alg_name a) /\
    carries W L (jl_print L kt) a t (jl_print L ht) (jl_print L pt) sig.
Proof.
  intros B U Eh Ep Ek F H. inversion F as [ | ? ? (O1 & N1 & H1) F1 ]; subst. inversion F1 as [ | ? ? (O2 & N2 & H2) F2 ]; subst. inversion F2 as [ | ? ? (O3 & N3 & H3) _ ]; subst.
  assert (St : forall s, hd 0 s <> 34 -> strip_quotes s = s).
  { intros [ | c s ] Hs; [ reflexivity | ]. cbn [hd] in Hs. unfold strip_quotes. replace (is_quoted (c :: s)) with false; [ reflexivity | ]. symmetry. unfold is_quoted. destruct (c =? 34) eqn:E; [ lia | ]. now destruct s. }
  unfold encode_sign in H. destruct header; try discriminate. destruct key; try discriminate.
  assert (G : encode_sign_raw W L (VString (jl_print L ht)) (VString (jl_print L pt)) (VString (jl_print L kt)) = Ok (RVal tok)).
  { unfold node_json in H. rewrite Eh, Ek in H. unfold mkstr in H. rewrite !(St (jl_print L _)) in H by assumption.
    destruct payload; try discriminate; rewrite Ep in H; rewrite (St (jl_print L pt)) in H by assumption; (destruct (_ || _); [ discriminate | exact H ]). }
  apply C61_sign in G; [ | exact B | now rewrite U | now rewrite U ]. now rewrite !U in G by assumption.
Qed.
Print Assumptions C61_encode_sign_partial.

(** A string with quotes in it turns into more members of the signed payload. *)
Definition innocent : value := VObject [(VString $"name", VString ($"x\" ++ [34] ++ $",\" ++ [34] ++ $"admin\" ++ [34] ++ $":\" ++ [34] ++ $"1"))].
Definition innocent_doc : jtree := JObject [($"name", quoted ($"x\" ++ [34] ++ $",\" ++ [34] ++ $"admin\" ++ [34] ++ $":\" ++ [34] ++ $"1"))].
Definition signed_doc : jtree := JObject [($"name", quoted $"x"); ($"admin", quoted $"1")].
Theorem C61_encode_sign_refuted : let L := show_lib [header_hs; key_hs; innocent_doc; signed_doc] in let W := toy_jwt toy_check in
  let header := VObject [(VString $"alg", VString $"HS256"); (VString $"typ", VString $"JWT")] in
  exists t x, rego_to_json L innocent = Some innocent_doc /\ json_to_rego innocent_doc = Some innocent /\
    encode_sign W L header innocent (VObject [(VString $"kty", VString $"oct"); (VString $"k", VString $"YWJjZGVm")]) = Ok (RVal (VString t)) /\
    jwt_decode W L (VString t) = Ok (RVal (VArray [header; VObject [(VString $"name", VString $"x"); (VString $"admin", VString $"1")]; VString x])).
Proof.
  intros L W header. exists (token header_hs signed_doc [6; zlen (encode_nopad (show header_hs) ++ [46] ++ encode_nopad (show signed_doc)) mod 256; 7; 9]),
    (bytes_to_hex [6; zlen (encode_nopad (show header_hs) ++ [46] ++ encode_nopad (show signed_doc)) mod 256; 7; 9]). vm_compute. repeat split.
Qed.
Print Assumptions C61_encode_sign_refuted.

(** ** The claims of the result *)

Theorem C61_result_claims {K P D} (W : jwt_lib K P D) L c t h p name x : NoDup (map fst c) -> selects_members W -> (forall s t, jl_parse L s = Some t -> readable t) ->
  jwt_decode_verify W L (VString t) (VObject c) = Ok (RVal (VArray [VTrue; h; p])) -> In name [$"iss"; $"sub"] -> wants c name x ->
  exists l, denotes (JObject l) p /\ In (name, JString (34 :: x ++ [34])) l /\
    (NoDup (map fst l) -> exists m, p = VObject m /\ In (VString name, VString x) m).
Proof.
  intros N Se Re H In0 Wn. apply C61_accepts in H; [ | exact N ]. remember 10%nat as n eqn:En. clear En. induction H as [n t0 header pj payload now h p _ _ J _ C _ Rp | n t0 header pj h p _ _ _ IH]; [ | exact IH ].
  assert (M : string_member W payload name x). { destruct In0 as [<- | [<- | []]]; [ now apply (ch_iss _ _ _ _ C) | now apply (ch_sub _ _ _ _ C) ]. }
  destruct M as (q & M & Q). apply Se in M. destruct M as (l & -> & I). pose proof (Re _ _ J) as R. destruct (C46_read _ R) as (v & Ev & Dv & _). rewrite Rp in Ev. injection Ev as <-.
  assert (Eq : q = 34 :: x ++ [34]).
  { inversion R as [ | | | | | | l' Fl E ]; subst. rewrite Forall_forall in Fl. apply Fl in I. cbn [snd] in I. inversion I as [ | | | | s E | | ]; subst. f_equal. f_equal.
    symmetry. apply strip_quoted. }
  subst q. exists l. split; [ exact Dv | ]. split; [ exact I | ]. intros Nd.
  inversion Dv as [ | | | | | | | l1 l0 l' La F E1 E2 ]; subst. eexists. split; [ reflexivity | ].
  assert (Lo : last_of name l (JString (34 :: x ++ [34]))).
  { apply in_split in I. destruct I as (l1 & l2 & ->). exists l1, l2. split; [ reflexivity | ]. rewrite map_app in Nd. cbn [map fst] in Nd. apply NoDup_remove_2 in Nd. rewrite in_app_iff in Nd. tauto. }
  destruct La as (_ & _ & La). apply La in Lo. clear - F Lo. induction F as [ | [k0 t0] v0 l0 l' Hv F IH ]; [ destruct Lo | ]. cbn [map combine fst snd] in *.
  destruct Lo as [E | Lo]; [ | right; now apply IH ]. injection E as -> ->. left. inversion Hv as [ | | | | | s E1 E2 | | ]. f_equal. f_equal. apply app_inj_tail in E1. destruct E1 as [-> _]. reflexivity.
Qed.
Print Assumptions C61_result_claims.
Lemma member_selects check : selects_members (toy_jwt check).
Proof.
  intros t name m H. cbn [w_member toy_jwt] in H. destruct t; try discriminate H. exists l. split; [ reflexivity | ]. cbn [member] in H.
  destruct (find _ l) as [[n x] | ] eqn:E; [ | discriminate H ]. injection H as <-. apply find_some in E. destruct E as [I E]. cbn [fst] in E. apply str_eqb_eq in E. now subst.
Qed.
Example C61_result_claims_ex : (forall s t, jl_parse lib_ex s = Some t -> readable t) /\ wants (constraints_ex ($"secret", $"abcdef") $"1600000000500000000") $"iss" $"me".
Proof.
  split; [ | unfold wants, constraints_ex; cbn [In]; tauto ]. intros s t H. cbn [jl_parse lib_ex show_lib] in H. apply find_some in H. destruct H as [H _].
  assert (I1 : int_number $"1600000001") by (now apply int_re_spec). assert (I2 : int_number $"1600000000") by (now apply int_re_spec).
  destruct H as [<- | [<- | [<- | []]]]; unfold header_hs, header_rs, claims_ex, quoted;
    repeat first [ apply rd_object | apply rd_array | apply Forall_cons | apply Forall_nil | cbn [snd]; apply rd_string | cbn [snd]; apply rd_number; tauto | cbn [snd]; apply rd_array ].
Qed.
