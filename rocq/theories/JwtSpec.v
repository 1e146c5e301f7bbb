(** Vocabulary for the JSON Web Token builtins (C61). *)
From Coq Require Import String ZArith List Bool.
From Verif Require Import Base ValueModel VmModel StrModel StrSpec EncModel EncSpec JsonModel JwtModel.
Import ListNotations.
Local Open Scope Z_scope.
Local Open Scope list_scope.

(** The token with these three sections. *)
Definition sections (t h p s : str) : Prop := t = h ++ [46] ++ p ++ [46] ++ s /\ ~ In 46 h /\ ~ In 46 p /\ ~ In 46 s.
(** What is signed. *)
Definition signing_input (h p : str) : str := h ++ [46] ++ p.
(** The names of the algorithms in RFC 7518 and RFC 8037. *)
Definition alg_name (a : alg) : str :=
  match a with
  | HS256 => $"HS256" | HS384 => $"HS384" | HS512 => $"HS512" | RS256 => $"RS256" | RS384 => $"RS384" | RS512 => $"RS512"
  | PS256 => $"PS256" | PS384 => $"PS384" | PS512 => $"PS512" | ES256 => $"ES256" | ES384 => $"ES384" | ES512 => $"ES512"
  | EdDSA => $"EdDSA"
  end.
Definition symmetric (a : alg) : Prop := In a [HS256; HS384; HS512].
(** The length of the signatures of RFC 7518, 3.4. *)
Definition right_length (a : alg) (sig : str) : Prop :=
  match a with ES256 => zlen sig = 64 | ES384 => zlen sig = 96 | ES512 => zlen sig = 132 | _ => True end.

Section Spec.
Context {K P D : Type}.
Variable W : jwt_lib K P D.
Variable L : json_lib.

(** A member of a JSON object that is a string with the (escaped) text [s]. *)
Definition string_member (t : jtree) (name s : str) : Prop := exists q, w_member W t name = Some (JString q) /\ strip_quotes q = s.
Definition no_member (t : jtree) (name : str) : Prop := w_member W t name = None.

(** *** Keys *)

(** The public key described by a JSON Web Key. *)
Inductive jwk_key (t : jtree) : K -> Prop :=
| jk_rsa n e n' e' k : string_member t $"kty" $"RSA" -> string_member t $"n" n -> string_member t $"e" e ->
    base64_decode n = Ok n' -> base64_decode e = Ok e' -> w_rsa W n' e' = Some k -> jwk_key t k
| jk_ec c x y x' y' k : string_member t $"kty" $"EC" -> string_member t $"crv" c -> In c [$"P-256"; $"P-384"; $"P-521"] ->
    string_member t $"x" x -> string_member t $"y" y ->
    base64_decode x = Ok x' -> base64_decode y = Ok y' -> w_ec W c x' y' = Some k -> jwk_key t k
| jk_okp x x' k : string_member t $"kty" $"OKP" -> string_member t $"x" x -> base64_decode x = Ok x' -> w_okp W x' = Some k -> jwk_key t k.
(** A public key that the text holds: a PEM certificate, a PEM key, a JSON Web Key or a set of them. *)
Inductive holds (text : str) : K -> Prop :=
| ho_cert k : occurs $"-----BEGIN CERTIFICATE-----" text -> w_cert W text = Some k -> holds text k
| ho_pem k : occurs $"-----BEGIN PUBLIC KEY-----" text -> w_pem W text = Some k -> holds text k
| ho_jwk t k : jl_parse L text = Some t -> jwk_key t k -> holds text k
| ho_jwks t l j k : jl_parse L text = Some t -> w_member W t $"keys" = Some (JArray l) -> In j l -> jwk_key j k -> holds text k.
(** The signature is good: an HMAC with the text itself as the secret, or a signature for a public key in the text. *)
Definition good_signature (text : str) (a : alg) (input sig : str) : Prop :=
  (symmetric a /\ w_hmac W a text input = Some sig) \/
  (~ symmetric a /\ right_length a sig /\ exists k, holds text k /\ w_check W a k input sig = true).

(** *** Constraints and claims *)

Definition wants (c : list (value * value)) (name x : str) : Prop := In (VString name, VString x) c.
(** The key to check with: the certificate, or else the secret. *)
Inductive key_text (c : list (value * value)) : str -> Prop :=
| kt_cert k : wants c $"cert" k -> key_text c (unescape L k)
| kt_secret k : (forall k', ~ wants c $"cert" k') -> wants c $"secret" k -> key_text c (unescape L k).
(** The time of the constraints in nanoseconds, or the clock. *)
Inductive time_is (c : list (value * value)) : D -> Prop :=
| ti_int t : In (VString $"time", VInt t) c -> time_is c (w_seconds W (w_double W t))
| ti_float t : In (VString $"time", VFloat t) c -> time_is c (w_seconds W (w_double W t))
| ti_clock : (forall t, ~ In (VString $"time", VInt t) c) -> (forall t, ~ In (VString $"time", VFloat t) c) -> time_is c (w_now W).
Definition audience (t : jtree) (x : str) : Prop :=
  string_member t $"aud" x \/ exists l q, w_member W t $"aud" = Some (JArray l) /\ In (JString q) l /\ strip_quotes q = x.
Record claims_hold (c : list (value * value)) (now : D) (t : jtree) : Prop := {
  ch_iss : forall x, wants c $"iss" x -> string_member t $"iss" x;
  ch_sub : forall x, wants c $"sub" x -> string_member t $"sub" x;
  ch_aud : forall x, wants c $"aud" x -> audience t x;
  ch_no_aud : (forall x, ~ wants c $"aud" x) -> no_member t $"aud";
  ch_exp : forall m, w_member W t $"exp" = Some m -> exists n, m = JNumber n /\ w_le W (w_double W n) now = false;
  ch_nbf : forall m, w_member W t $"nbf" = Some m -> exists n, m = JNumber n /\ w_lt W now (w_double W n) = false
}.

(** *** Accepted tokens *)

(** A token whose header names the algorithm [a], allowed by the constraints, and whose signature is good in the sense of [ok]. *)
Record signed_token (ok : str -> alg -> str -> str -> Prop) (c : list (value * value)) (t : str) (header : jtree) (payload : str) : Prop := {
  st_ok : exists h p s hj sig key name a,
    sections t h p s /\ base64_decode h = Ok hj /\ jl_parse L hj = Some header /\
    no_member header $"enc" /\ no_member header $"crit" /\
    string_member header $"alg" name /\ name = alg_name a /\ (forall x, wants c $"alg" x -> x = name) /\
    base64_decode s = Ok sig /\ key_text c key /\ ok key a (signing_input h p) sig /\ base64_decode p = Ok payload
}.
(** The token that is the payload of another one. *)
Definition enclosed (payload : str) : str := unescape L (strip_quotes (strip_quotes payload)).
(** Accepted with at most [n] tokens inside each other. *)
Inductive accepted (ok : str -> alg -> str -> str -> Prop) (c : list (value * value)) : nat -> str -> value -> value -> Prop :=
| ac_claims n t header pj payload now h p : signed_token ok c t header pj -> ~ string_member header $"cty" $"JWT" ->
    jl_parse L pj = Some payload -> time_is c now -> claims_hold c now payload ->
    json_to_rego header = Some h -> json_to_rego payload = Some p -> accepted ok c (S n) t h p
| ac_nested n t header pj h p : signed_token ok c t header pj -> string_member header $"cty" $"JWT" ->
    accepted ok c n (enclosed pj) h p -> accepted ok c (S n) t h p.

(** *** Decoded tokens *)

Definition base64url_text (s : str) : Prop := Forall (fun c => In c ($"ABCDEFGHIJKLMNOPQRSTUVWXYZabcdefghijklmnopqrstuvwxyz0123456789-_=")) s.
Inductive decoded : nat -> str -> value -> value -> str -> Prop :=
| de_leaf n t h p s hj pj sig header payload vh vp :
    sections t h p s -> base64url_text h -> base64url_text p -> base64url_text s ->
    base64_decode h = Ok hj -> base64_decode p = Ok pj -> base64_decode s = Ok sig ->
    jl_parse L hj = Some header -> no_member header $"enc" -> ~ string_member header $"cty" $"JWT" -> jl_parse L pj = Some payload ->
    json_to_rego header = Some vh -> json_to_rego payload = Some vp -> decoded (S n) t vh vp sig
| de_nested n t h p s hj pj header vh vp sig :
    sections t h p s -> base64url_text h -> base64url_text p -> base64url_text s ->
    base64_decode h = Ok hj -> base64_decode p = Ok pj ->
    jl_parse L hj = Some header -> no_member header $"enc" -> string_member header $"cty" $"JWT" ->
    decoded n (enclosed pj) vh vp sig -> decoded (S n) t vh vp sig.

(** *** Keys whose reading cannot go wrong *)

Definition blank (s : str) : Prop := Forall (fun c => In c [32; 9; 10; 13]) s.
Definition looks_like_json (text : str) : Prop := exists b c r, text = b ++ c :: r /\ blank b /\ In c [123; 91].
(** A PEM text with one certificate or with a public key. *)
Inductive pem_text (text : str) : K -> Prop :=
| pt_cert a b r k : text = a ++ $"-----BEGIN CERTIFICATE-----" ++ b ++ $"-----END CERTIFICATE-----" ++ r -> blank r ->
    (forall i, occurs_at $"-----END CERTIFICATE-----" text i -> i = length (a ++ $"-----BEGIN CERTIFICATE-----" ++ b)) ->
    w_cert W text = Some k -> pem_text text k
| pt_key a b r k : text = a ++ $"-----BEGIN PUBLIC KEY-----" ++ b ++ $"-----END PUBLIC KEY-----" ++ r ->
    ~ occurs $"-----BEGIN CERT" text -> w_pem W text = Some k -> pem_text text k.
(** The secret of an HMAC, or a PEM text for the other algorithms. *)
Definition plain_signature (text : str) (a : alg) (input sig : str) : Prop :=
  (symmetric a /\ w_hmac W a text input = Some sig) \/
  (~ symmetric a /\ right_length a sig /\ exists k, pem_text text k /\ w_check W a k input sig = true).

(** *** Signing *)

(** A signature made with the secret or the private key of a JSON Web Key. *)
Inductive signed_by (text : str) (a : alg) (input sig : str) : Prop :=
| sb_hmac t k secret : symmetric a -> jl_parse L text = Some t -> string_member t $"k" k -> base64_decode k = Ok secret ->
    w_hmac W a secret input = Some sig -> signed_by text a input sig
| sb_key t p : ~ symmetric a -> jl_parse L text = Some t -> w_private W t = Ok (Some p) -> w_sign W a p input = Some sig ->
    signed_by text a input sig.
(** The token [t] carries these texts, without padding, and a signature made with the key in [key]. *)
Definition carries (key : str) (a : alg) (t header payload sig : str) : Prop :=
  exists h p s, sections t h p s /\ base64url_text h /\ base64url_text p /\ base64url_text s /\ ~ In 61 t /\
    base64_decode h = Ok header /\ base64_decode p = Ok payload /\ base64_decode s = Ok sig /\ signed_by key a (signing_input h p) sig.

(** *** The library *)

(** A text without a backslash is its own unescaping. *)
Definition plain_unescaped : Prop := forall s, ~ In 92 s -> unescape L s = s.
(** HMACs and signatures are made of bytes. *)
Definition byte_signatures : Prop :=
  (forall a k i s, w_hmac W a k i = Some s -> octets s) /\ (forall a p i s, w_sign W a p i = Some s -> octets s).

(** [json::select] finds the member of an object in which the name is there once, and nothing elsewhere. *)
Definition selects_members : Prop :=
  forall t name m, w_member W t name = Some m ->
    exists l, t = JObject l /\ In (name, m) l.
Definition finds_members : Prop :=
  forall l name m, NoDup (map fst l) -> In (name, m) l -> w_member W (JObject l) name = Some m.
End Spec.
