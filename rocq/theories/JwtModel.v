(** Model of the JSON Web Token builtins, src/builtins/jwt.cc 22-892: io.jwt.decode, verify_*, decode_verify, encode_sign_raw and
    encode_sign; with the choice of keys and algorithms behind them, src/builtins/crypto_utils.hh and the OpenSSL back end
    src/builtins/crypto_openssl3.cc 328-819 and 962-1218.

    The library functions of OpenSSL, the JSON reader and the clock are the records [jwt_lib] and [json_lib].  base64 is EncModel.v.
    Texts of 2 GiB and more, whose length does not fit [int] in the calls of HMAC, are left out; so are the error messages. *)
From Coq Require Import String ZArith List Bool.
From Verif Require Import Base BigIntSpec BigIntModel SMap ValueModel ValueSpec ResolverModel VmModel StrModel EncModel JsonModel.
Import ListNotations.
Local Open Scope Z_scope.
Local Open Scope list_scope.

(** crypto_core.hh 32-47 [Algorithm]. *)
Inductive alg := HS256 | HS384 | HS512 | RS256 | RS384 | RS512 | PS256 | PS384 | PS512 | ES256 | ES384 | ES512 | EdDSA.
Definition alg_eq_dec (a b : alg) : {a = b} + {a <> b}.
Proof. decide equality. Defined.
Definition alg_eqb (a b : alg) : bool := if alg_eq_dec a b then true else false.
(** crypto_utils.hh 188-218 [parse_algorithm_impl]; [None]: it throws [std::invalid_argument]. *)
Definition alg_names : list (str * alg) := [
  ($"HS256", HS256); ($"HS384", HS384); ($"HS512", HS512); ($"RS256", RS256); ($"RS384", RS384); ($"RS512", RS512);
  ($"PS256", PS256); ($"PS384", PS384); ($"PS512", PS512); ($"ES256", ES256); ($"ES384", ES384); ($"ES512", ES512);
  ($"EdDSA", EdDSA)].
Fixpoint lookup_alg (l : list (str * alg)) (s : str) : option alg :=
  match l with [] => None | (n, a) :: l' => if str_eqb n s then Some a else lookup_alg l' s end.
Definition parse_algorithm (s : str) : option alg := lookup_alg alg_names s.
Definition is_hmac (a : alg) : bool := match a with HS256 | HS384 | HS512 => true | _ => false end.

(** What is not in this repository.  [w_member t n] is [json::select(t, {"/n"})] ([None] for an error node); [w_hmac a secret text] is
    OpenSSL's HMAC with the digest of the algorithm; [w_cert], [w_pem] read the public key of a PEM certificate or key; [w_rsa n e],
    [w_ec curve x y] and [w_okp x] build a public key from the bytes of its components; [w_check] is EVP_DigestVerify (with the RSA
    padding of the algorithm, or the signature converted to DER); [w_private jwk] is [load_private_key_ast], and [w_sign] is
    [sign_asymmetric] (for ECDSA with [ecdsa_der_to_raw]), [None] when it throws.  [D] are the doubles: [w_double] reads one from text,
    [w_seconds] divides by 1e9, [w_now] is the clock. *)
Record jwt_lib (K P D : Type) := {
  w_member : jtree -> str -> option jtree;
  w_hmac : alg -> str -> str -> option str;
  w_cert : str -> option K;
  w_pem : str -> option K;
  w_rsa : str -> str -> option K;
  w_ec : str -> str -> str -> option K;
  w_okp : str -> option K;
  w_check : alg -> K -> str -> str -> bool;
  w_private : jtree -> outcome (option P);
  w_sign : alg -> P -> str -> option str;
  w_double : str -> D;
  w_seconds : D -> D;
  w_now : D;
  w_le : D -> D -> bool;
  w_lt : D -> D -> bool
}.
Arguments w_member {K P D}. Arguments w_hmac {K P D}. Arguments w_cert {K P D}. Arguments w_pem {K P D}. Arguments w_rsa {K P D}.
Arguments w_ec {K P D}. Arguments w_okp {K P D}. Arguments w_check {K P D}. Arguments w_private {K P D}. Arguments w_sign {K P D}.
Arguments w_double {K P D}. Arguments w_seconds {K P D}. Arguments w_now {K P D}. Arguments w_le {K P D}. Arguments w_lt {K P D}.

Definition builtin_error : outcome res := Ok (RErr EvalBuiltInError).

(** ** Tokens *)

(** jwt.cc 24-30 [JWTParts]. *)
Record parts := Parts { p_header : str; p_payload : str; p_sig : str; p_input : str }.
Definition DOT : str := [46].
(** jwt.cc 34-56 [split_jwt]. *)
Definition split_jwt (t : str) : option parts :=
  match find0 DOT t with
  | None => None
  | Some d1 =>
      match find_from DOT t (S d1) with
      | None => None
      | Some d2 =>
          match find_from DOT t (S d2) with
          | Some _ => None
          | None => Some (Parts (firstn d1 t) (substr t (S d1) (d2 - d1 - 1)) (skipn (S d2) t) (firstn d2 t))
          end
      end
  end.
(** jwt.cc 58-67 [count_dots]. *)
Definition count_dots (t : str) : nat := length (filter (Z.eqb 46) t).
(** jwt.cc 71-84 [validate_base64url]; the position of the bad character is left out. *)
Definition valid_base64url (s : str) : bool :=
  forallb (fun c => is_alnum c || (c =? 45) || (c =? 95) || (c =? 61)) s.
(** The common beginning of the three functions, jwt.cc 172-189, 332-349, 505-522: the parts of the token. *)
Definition token_parts (t : str) : option parts :=
  match find0 DOT t with
  | None => None
  | Some _ => if (count_dots t =? 2)%nat then split_jwt t else None
  end.
(** jwt.cc 123-134 [bytes_to_hex]. *)
Definition hex_chars : str := $"0123456789abcdef".
Definition bytes_to_hex (s : str) : str :=
  flat_map (fun c => [nth (Z.to_nat (Z.shiftr c 4)) hex_chars 0; nth (Z.to_nat (Z.land c 15)) hex_chars 0]) s.

(** jwt.cc 152 [MaxJWTNesting]. *)
Definition max_nesting : nat := 10.

Section Jwt.
Context {K P D : Type}.
Variable W : jwt_lib K P D.
Variable L : json_lib.

(** [json::unescape]. *)
Definition unescape (s : str) : str := j_unescape (jl_text L) s.
(** [json::select_string]; [json::get_string] of trieste is the text between the quotes, still escaped. *)
Definition get_string (t : jtree) : option str := match t with JString q => Some (strip_quotes q) | _ => None end.
Definition select_string (t : jtree) (name : str) : option str :=
  match w_member W t name with Some m => get_string m | None => None end.

(** The payload of a token whose header says that it holds another token: jwt.cc 243-255 and 609-624; [JSONString ^ inner]. *)
Definition inner_token (payload : str) : value := mkstr (strip_quotes payload).
Definition says_nested (header : jtree) : bool :=
  match select_string header $"cty" with Some c => str_eqb c $"JWT" | None => false end.

(** jwt.cc 156-279 [decode_impl]; the first argument is [MaxJWTNesting - depth]. *)
Fixpoint decode_impl (n : nat) (jwt : value) : outcome res :=
  match jwt with
  | VString t =>
      match n with
      | O => builtin_error
      | S n' =>
          match token_parts (unescape t) with
          | None => builtin_error
          | Some p =>
              if negb (valid_base64url (p_header p)) then builtin_error
              else if negb (valid_base64url (p_payload p)) then builtin_error
              else if negb (valid_base64url (p_sig p)) then builtin_error
              else
                let! hj := base64_decode (p_header p) in
                match jl_parse L hj with
                | None => builtin_error
                | Some header =>
                    match w_member W header $"enc" with
                    | Some _ => builtin_error
                    | None =>
                        let! pj := base64_decode (p_payload p) in
                        if says_nested header then decode_impl n' (inner_token pj)
                        else
                          match json_to_rego header with
                          | None => builtin_error
                          | Some h =>
                              match jl_parse L pj with
                              | None => builtin_error
                              | Some payload =>
                                  match json_to_rego payload with
                                  | None => builtin_error
                                  | Some b =>
                                      let! sig := base64_decode (p_sig p) in
                                      ok (VArray [h; b; VString (bytes_to_hex sig)])
                                  end
                              end
                          end
                    end
                end
          end
      end
  | _ => type_error
  end.
Definition jwt_decode (jwt : value) : outcome res := decode_impl max_nesting jwt.

(** ** Keys *)

(** crypto_utils.hh 355-376 [parse_json]. *)
Definition is_blank (c : Z) : bool := (c =? 32) || (c =? 9) || (c =? 10) || (c =? 13).
Fixpoint skip_blank (s : str) : str := match s with c :: s' => if is_blank c then skip_blank s' else s | [] => [] end.
Definition key_json (s : str) : option jtree :=
  match skip_blank s with
  | c :: _ => if (c =? 123) || (c =? 91) then jl_parse L s else None
  | [] => None
  end.
(** crypto_utils.hh 378-391 [json_select_string]: empty when there is none. *)
Definition select_view (t : jtree) (name : str) : str := match select_string t name with Some s => s | None => [] end.
Definition emptyb (s : str) : bool := match s with [] => true | _ => false end.
(** crypto_utils.hh 393-416 [extract_jwks_keys]. *)
Definition jwks_keys (t : jtree) : list jtree :=
  match w_member W t $"keys" with
  | Some (JArray l) => filter (fun e => match e with JObject _ => true | _ => false end) l
  | _ => []
  end.

Definition CERT_BEGIN : str := $"-----BEGIN CERTIFICATE-----".
Definition CERT_END : str := $"-----END CERTIFICATE-----".
Definition KEY_BEGIN : str := $"-----BEGIN PUBLIC KEY-----".
Definition KEY_END : str := $"-----END PUBLIC KEY-----".
Definition mentions (pat s : str) : bool := match find0 pat s with Some _ => true | None => false end.
(** crypto_utils.hh 81-130 [validate_pem]: whether there is no error. *)
Definition valid_pem (pem : str) : bool :=
  match find0 CERT_BEGIN pem with
  | Some b =>
      match find_from CERT_END pem b with
      | None => false
      | Some e => emptyb (skip_blank (skipn (e + length CERT_END) pem))
      end
  | None =>
      if mentions $"-----BEGIN CERT" pem then false
      else
        match find0 KEY_BEGIN pem with
        | Some b => match find_from KEY_END pem b with None => false | Some _ => true end
        | None => true
        end
  end.

(** crypto_openssl3.cc 243-252 [ec_group_name]. *)
Definition known_curve (crv : str) : bool := str_eqb crv $"P-256" || str_eqb crv $"P-384" || str_eqb crv $"P-521".
(** crypto_utils.hh 30-32. *)
Definition max_rsa : Z := 2048.
Definition max_ec : Z := 128.
(** crypto_openssl3.cc 334-375 [pkey_from_jwk_ast], with 188-327: the components are decoded, which throws for bad base64. *)
Definition key_of_jwk (t : jtree) : outcome (option K) :=
  let kty := select_view t $"kty" in
  if str_eqb kty $"RSA" then
    let n := select_view t $"n" in
    let e := select_view t $"e" in
    if emptyb n || emptyb e || (max_rsa <? zlen n) || (max_rsa <? zlen e) then Ok None
    else let! n := base64_decode n in let! e := base64_decode e in Ok (w_rsa W n e)
  else if str_eqb kty $"EC" then
    let crv := select_view t $"crv" in
    let x := select_view t $"x" in
    let y := select_view t $"y" in
    if emptyb crv || emptyb x || emptyb y || (max_ec <? zlen x) || (max_ec <? zlen y) then Ok None
    else if known_curve crv then let! x := base64_decode x in let! y := base64_decode y in Ok (w_ec W crv x y)
    else Ok None
  else if str_eqb kty $"OKP" then
    let x := select_view t $"x" in
    if emptyb x || (max_ec <? zlen x) then Ok None
    else let! x := base64_decode x in Ok (w_okp W x)
  else Ok None.

(** crypto_openssl3.cc 386-438 [load_public_key]; no caller names a [kid], so the first key of a set is taken. *)
Definition load_public_key (s : str) : outcome (option K) :=
  if mentions CERT_BEGIN s then Ok (w_cert W s)
  else if mentions KEY_BEGIN s then Ok (w_pem W s)
  else
    match key_json s with
    | None => Ok None
    | Some t =>
        match jwks_keys t with
        | k :: _ => key_of_jwk k
        | [] => if emptyb (select_view t $"kty") then Ok None else key_of_jwk t
        end
    end.

(** ** Signatures *)

(** crypto_core.hh 54-59 [VerifyResult]. *)
Inductive verdict := Valid | Invalid | KeyError.
Definition verdict_of (b : bool) : verdict := if b then Valid else Invalid.
(** crypto_openssl3.cc 466-495 [verify_hmac]. *)
Definition verify_hmac (a : alg) (input sig secret : str) : bool :=
  match w_hmac W a secret input with Some mac => str_eqb mac sig | None => false end.
(** crypto_openssl3.cc 561-590: the length of an ECDSA signature. *)
Definition sig_length (a : alg) : option Z := match a with ES256 => Some 64 | ES384 => Some 96 | ES512 => Some 132 | _ => None end.
(** crypto_openssl3.cc 497-664 and the switches in 719-748, 786-810. *)
Definition verify_key (a : alg) (k : K) (input sig : str) : bool :=
  if is_hmac a then false
  else match sig_length a with
       | Some n => if zlen sig =? n then w_check W a k input sig else false
       | None => w_check W a k input sig
       end.
(** crypto_openssl3.cc 670-751 [verify_signature]. *)
Definition verify_signature (a : alg) (input sig key : str) : outcome verdict :=
  if is_hmac a then Ok (verdict_of (verify_hmac a input sig key))
  else if negb (valid_pem key) then Ok KeyError
  else
    let! k := load_public_key key in
    match k with
    | None =>
        if mentions CERT_BEGIN key || mentions KEY_BEGIN key || mentions ([34] ++ $"kty" ++ [34]) key || mentions ([34] ++ $"keys" ++ [34]) key
        then Ok KeyError else Ok Invalid
    | Some k => Ok (verdict_of (verify_key a k input sig))
    end.
(** crypto_openssl3.cc 778-818: the keys of a set, one after the other. *)
Fixpoint verify_keys (a : alg) (input sig : str) (l : list jtree) : outcome verdict :=
  match l with
  | [] => Ok Invalid
  | t :: l' =>
      let! k := key_of_jwk t in
      match k with
      | None => verify_keys a input sig l'
      | Some k => if verify_key a k input sig then Ok Valid else verify_keys a input sig l'
      end
  end.
(** crypto_openssl3.cc 753-819 [verify_signature_any_key]. *)
Definition verify_signature_any_key (a : alg) (input sig key : str) : outcome verdict :=
  match key_json key with
  | None => verify_signature a input sig key
  | Some t => if (length (jwks_keys t) <=? 1)%nat then verify_signature a input sig key else verify_keys a input sig (jwks_keys t)
  end.

(** jwt.cc 314-388 [verify_impl]; [a] is the algorithm of the builtin's name (283-312). *)
Definition jwt_verify (a : alg) (jwt key : value) : outcome res :=
  match jwt, key with
  | VString t, VString k =>
      match token_parts (unescape t) with
      | None => builtin_error
      | Some p =>
          let! hj := base64_decode (p_header p) in
          match jl_parse L hj with
          | None => ok (vbool false)
          | Some header =>
              match select_string header $"alg" with
              | None => ok (vbool false)
              | Some name =>
                  match parse_algorithm name with
                  | None => ok (vbool false)
                  | Some token_alg =>
                      let! sig := base64_decode (p_sig p) in
                      let! v := verify_signature a (p_input p) sig (unescape k) in
                      match v with
                      | KeyError => builtin_error
                      | Valid => ok (vbool (alg_eqb token_alg a))
                      | Invalid => ok (vbool false)
                      end
                  end
              end
          end
      end
  | _, _ => type_error
  end.

(** ** decode_verify *)

(** jwt.cc 434-454 [get_object_string]. *)
Fixpoint object_string (c : list (value * value)) (key : str) : option str :=
  match c with
  | [] => None
  | (VString k, VString v) :: c' => if str_eqb k key then Some v else object_string c' key
  | _ :: c' => object_string c' key
  end.
(** jwt.cc 457-477 [get_object_number]. *)
Fixpoint object_number (c : list (value * value)) (key : str) : option D :=
  match c with
  | [] => None
  | (VString k, VInt v) :: c' | (VString k, VFloat v) :: c' => if str_eqb k key then Some (w_double W v) else object_number c' key
  | _ :: c' => object_number c' key
  end.
(** jwt.cc 393-404 [check_string_claim]. *)
Definition check_string_claim (payload : jtree) (name : str) (constraint : option str) : bool :=
  match constraint with
  | None => true
  | Some c => match select_string payload name with Some v => str_eqb v c | None => false end
  end.
(** jwt.cc 137-148 [aud_array_contains]. *)
Definition aud_array_contains (l : list jtree) (target : str) : bool :=
  existsb (fun t => match get_string t with Some s => str_eqb s target | None => false end) l.
(** jwt.cc 407-429 [check_aud_claim]. *)
Definition check_aud_claim (payload : jtree) (constraint : option str) : bool :=
  match constraint, w_member W payload $"aud" with
  | Some _, None => false
  | Some c, Some (JArray l) => aud_array_contains l c
  | Some c, Some t => match get_string t with Some s => str_eqb s c | None => false end
  | None, Some _ => false
  | None, None => true
  end.
Definition failure : outcome res := ok (VArray [VFalse; VObject []; VObject []]).
(** jwt.cc 667-696: the value of a claim that must be a number ([json::get_number]). *)
Inductive numeric := Absent | NotNumber | IsNumber (d : D).
Definition numeric_claim (payload : jtree) (name : str) : numeric :=
  match w_member W payload name with
  | None => Absent
  | Some (JNumber t) => IsNumber (w_double W t)
  | Some _ => NotNumber
  end.
(** jwt.cc 636-649. *)
Definition now_seconds (c : list (value * value)) : D :=
  match object_number c $"time" with Some d => w_seconds W d | None => w_now W end.
(** jwt.cc 626-710: the checks behind the signature, and the result. *)
Definition check_claims (c : list (value * value)) (header : jtree) (pj : str) : outcome res :=
  match jl_parse L pj with
  | None => builtin_error
  | Some payload =>
      let now := now_seconds c in
      if negb (check_string_claim payload $"iss" (object_string c $"iss")) || negb (check_string_claim payload $"sub" (object_string c $"sub"))
      then failure
      else if negb (check_aud_claim payload (object_string c $"aud")) then failure
      else
        let finish :=
          match json_to_rego header with
          | None => builtin_error
          | Some h => match json_to_rego payload with None => builtin_error | Some b => ok (VArray [VTrue; h; b]) end
          end in
        let nbf :=
          match numeric_claim payload $"nbf" with
          | Absent => finish
          | NotNumber => builtin_error
          | IsNumber d => if w_lt W now d then failure else finish
          end in
        match numeric_claim payload $"exp" with
        | Absent => nbf
        | NotNumber => builtin_error
        | IsNumber d => if w_le W d now then failure else nbf
        end
  end.
(** jwt.cc 479-711 [decode_verify_impl]; the first argument is [MaxJWTNesting - depth]. *)
Fixpoint decode_verify_impl (n : nat) (jwt constraints : value) : outcome res :=
  match jwt with
  | VString t =>
      match n with
      | O => builtin_error
      | S n' =>
          match constraints with
          | VObject c =>
              match token_parts (unescape t) with
              | None => builtin_error
              | Some p =>
                  let! hj := base64_decode (p_header p) in
                  match jl_parse L hj with
                  | None => builtin_error
                  | Some header =>
                      match w_member W header $"enc", w_member W header $"crit" with
                      | Some _, _ => builtin_error
                      | None, Some _ => failure
                      | None, None =>
                          match select_string header $"alg" with
                          | None => failure
                          | Some name =>
                              match parse_algorithm name with
                              | None => failure
                              | Some a =>
                                  let named := match object_string c $"alg" with Some x => str_eqb x name | None => true end in
                                  if negb named then failure
                                  else
                                    let! sig := base64_decode (p_sig p) in
                                    let! v :=
                                      match object_string c $"cert", object_string c $"secret" with
                                      | Some k, _ => verify_signature_any_key a (p_input p) sig (unescape k)
                                      | None, Some k => verify_signature a (p_input p) sig (unescape k)
                                      | None, None => Ok Invalid
                                      end in
                                    match v with
                                    | KeyError => builtin_error
                                    | Invalid => failure
                                    | Valid =>
                                        let! pj := base64_decode (p_payload p) in
                                        if says_nested header then decode_verify_impl n' (inner_token pj) constraints
                                        else check_claims c header pj
                                    end
                              end
                          end
                      end
                  end
              end
          | _ => type_error
          end
      end
  | _ => type_error
  end.
Definition jwt_decode_verify (jwt constraints : value) : outcome res := decode_verify_impl max_nesting jwt constraints.

(** ** Signing *)

(** crypto_utils.hh 171-179 [base64url_encode_nopad_impl]. *)
Fixpoint drop_pad (r : str) : str := match r with c :: r' => if c =? 61 then drop_pad r' else r | [] => [] end.
Definition encode_nopad (s : str) : str := rev (drop_pad (rev (base64_encode s true))).
(** crypto_openssl3.cc 1158-1218 [sign]; [None]: it throws, and the caller (jwt.cc 837-849) catches. *)
Definition sign (a : alg) (input key : str) : option str :=
  match key_json key with
  | None => None
  | Some t =>
      if is_hmac a then
        let k := select_view t $"k" in
        if emptyb k then None
        else match base64_decode k with Ok secret => w_hmac W a secret input | _ => None end
      else
        match w_private W t with
        | Ok (Some p) => w_sign W a p input
        | _ => None
        end
  end.
(** jwt.cc 733-736 [is_jwt_typ]. *)
Definition is_jwt_typ (typ : str) : bool := emptyb typ || str_eqb typ $"JWT".
(** jwt.cc 740-854 [encode_sign_raw_impl]. *)
Definition encode_sign_raw (header payload key : value) : outcome res :=
  match header, payload, key with
  | VString h, VString p, VString k =>
      let h := unescape h in
      let p := unescape p in
      let k := unescape k in
      match jl_parse L h with
      | None => builtin_error
      | Some ht =>
          match select_string ht $"alg" with
          | None => builtin_error
          | Some name =>
              match parse_algorithm name with
              | None => builtin_error
              | Some a =>
                  let json := emptyb p || match jl_parse L p with None => true | Some _ => false end in
                  if is_jwt_typ (select_view ht $"typ") && json then builtin_error
                  else
                    let input := encode_nopad h ++ DOT ++ encode_nopad p in
                    match sign a input k with
                    | None => builtin_error
                    | Some sig => ok (mkstr (input ++ DOT ++ encode_nopad sig))
                    end
              end
          end
      end
  | _, _, _ => type_error
  end.
(** jwt.cc 716-729 [rego_node_to_json]: empty on failure. *)
Definition node_json (v : value) : str := match rego_to_json L v with Some t => jl_print L t | None => [] end.
(** jwt.cc 858-892 [encode_sign_impl]: the texts of the objects are passed on as if they were string values. *)
Definition encode_sign (header payload key : value) : outcome res :=
  match header, key with
  | VObject _, VObject _ =>
      match payload with
      | VObject _ | VSet _ =>
          if emptyb (node_json header) || emptyb (node_json key) then builtin_error
          else encode_sign_raw (mkstr (node_json header)) (mkstr (node_json payload)) (mkstr (node_json key))
      | _ => type_error
      end
  | _, _ => type_error
  end.
End Jwt.
