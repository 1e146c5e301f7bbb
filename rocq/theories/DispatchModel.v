(** Finding the builtin of a name: src/builtins.cc [BuiltInsDef::lookup] and the functions in src/builtins/ it hands names to.
    Assertions are taken to be off, as in a release build.  A builtin is described by the name it is created with and its number of
    arguments; what it does is modelled elsewhere. *)
From Coq Require Import String ZArith List Bool.
From Verif Require Import Base ValueModel ResolverModel StrModel.
Import ListNotations.
Local Open Scope Z_scope.
Local Open Scope list_scope.

(** include/rego/rego.hh 793-813: the name and the arity of a builtin. *)
Record std_builtin := bi { b_name : str; b_arity : Z }.

(** The generated decision trees: a block is a sequence of [if] statements; one whose test fails, or whose block does not return, is
    followed by the next one. *)
Inductive test := TLength (n : Z) | TFirst (c : Z) | TLast (c : Z).
Inductive block (A : Type) := BEnd | BIf (t : test) (body next : block A) | BEq (s : str) (a : A) (next : block A).
Arguments BEnd {A}. Arguments BIf {A}. Arguments BEq {A}.
(** [length > n], [first_char > c], [last_char > c]; the bytes of a [char] are signed. *)
Definition schar (c : Z) : Z := if c <? 128 then c else c - 256.
Definition holds (t : test) (view : str) : bool :=
  match t with
  | TLength n => n <? Z.of_nat (length view)
  | TFirst c => c <? schar (hd 0 view)
  | TLast c => c <? schar (last view 0)
  end.
Fixpoint exec {A} (b : block A) (view : str) : option A :=
  match b with
  | BEnd => None
  | BIf t body next => if holds t view then match exec body view with Some a => Some a | None => exec next view end else exec next view
  | BEq s a next => if str_eqb view s then Some a else exec next view
  end.

(** A chain of [if (view == s) return f;]. *)
Fixpoint chain {A} (l : list (str * A)) (view : str) : option A :=
  match l with [] => None | (s, a) :: l => if str_eqb view s then Some a else chain l view end.
(** [view.substr(n)] throws when the name is shorter. *)
Definition skip (n : nat) (view : str) : outcome str := if Nat.ltb (length view) n then Throw else Ok (skipn n view).
Definition in_module (n : nat) (l : list (str * std_builtin)) (name : str) : outcome (option std_builtin) := let! view := skip n name in Ok (chain l view).

(** src/builtins/core.cc 2686-3065 [core]. *)
Definition core_tree : block std_builtin :=
  BIf (TLength 5) (
    BIf (TLast 110) (
      BIf (TFirst 105) (
        BIf (TLength 9) (
          BIf (TLength 10) (
            BEq $"trim_prefix" (bi $"trim_prefix" 2) (
            BEq $"trim_suffix" (bi $"trim_suffix" 2) (
            BEnd))) (
          BEq $"trim_right" (bi $"trim_right" 2) (
          BEnd))) (
        BIf (TLength 7) (
          BIf (TLast 114) (
            BEq $"trim_left" (bi $"trim_left" 2) (
            BEnd)) (
          BEq $"to_number" (bi $"to_number" 1) (
          BEnd))) (
        BEq $"product" (bi $"product" 1) (
        BEnd)))) (
      BIf (TLength 8) (
        BIf (TLength 9) (
          BEq $"format_int" (bi $"format_int" 2) (
          BEnd)) (
        BIf (TLast 114) (
          BEq $"is_object" (bi $"is_object" 1) (
          BEnd)) (
        BEq $"is_number" (bi $"is_number" 1) (
        BEnd)))) (
      BIf (TLength 6) (
        BIf (TFirst 99) (
          BEq $"is_array" (bi $"is_array" 1) (
          BEnd)) (
        BEq $"contains" (bi $"contains" 2) (
        BEnd))) (
      BIf (TFirst 99) (
        BEq $"is_set" (bi $"is_set" 1) (
        BEnd)) (
      BEq $"concat" (bi $"concat" 2) (
      BEnd)))))) (
    BIf (TFirst 105) (
      BIf (TLast 101) (
        BIf (TLength 7) (
          BIf (TLength 9) (
            BEq $"startswith" (bi $"startswith" 2) (
            BEnd)) (
          BEq $"substring" (bi $"substring" 3) (
          BEnd))) (
        BEq $"sprintf" (bi $"sprintf" 2) (
        BEnd))) (
      BIf (TLength 7) (
        BIf (TLength 9) (
          BEq $"trim_space" (bi $"trim_space" 1) (
          BEnd)) (
        BEq $"type_name" (bi $"type_name" 1) (
        BEnd))) (
      BEq $"replace" (bi $"replace" 3) (
      BEnd)))) (
    BIf (TLast 104) (
      BIf (TLength 7) (
        BIf (TLength 9) (
          BIf (TLength 10) (
            BEq $"intersection" (bi $"intersection" 1) (
            BEnd)) (
          BEq $"is_boolean" (bi $"is_boolean" 1) (
          BEnd))) (
        BEq $"indexof_n" (bi $"indexof_n" 2) (
        BEnd))) (
      BEq $"is_null" (bi $"is_null" 1) (
      BEnd))) (
    BIf (TLength 7) (
      BIf (TLength 8) (
        BEq $"is_string" (bi $"is_string" 1) (
        BEnd)) (
      BEq $"endswith" (bi $"endswith" 2) (
      BEnd))) (
    BEq $"indexof" (bi $"indexof" 2) (
    BEnd)))))) (
  BIf (TLength 3) (
    BIf (TFirst 109) (
      BIf (TLength 4) (
        BIf (TFirst 114) (
          BIf (TFirst 115) (
            BIf (TLast 110) (
              BEq $"upper" (bi $"upper" 1) (
              BEnd)) (
            BEq $"union" (bi $"union" 1) (
            BEnd))) (
          BEq $"split" (bi $"split" 2) (
          BEnd))) (
        BEq $"round" (bi $"round" 1) (
        BEnd))) (
      BIf (TFirst 112) (
        BIf (TFirst 115) (
          BIf (TFirst 116) (
            BEq $"walk" (bi $"walk" 1) (
            BEnd)) (
          BEq $"trim" (bi $"trim" 2) (
          BEnd))) (
        BEq $"sort" (bi $"sort" 1) (
        BEnd))) (
      BEq $"plus" (bi $"plus" 2) (
      BEnd)))) (
    BIf (TFirst 99) (
      BIf (TFirst 101) (
        BIf (TFirst 102) (
          BIf (TFirst 108) (
            BEq $"minus" (bi $"minus" 2) (
            BEnd)) (
          BEq $"lower" (bi $"lower" 1) (
          BEnd))) (
        BEq $"floor" (bi $"floor" 1) (
        BEnd))) (
      BEq $"equal" (bi $"equal" 2) (
      BEnd))) (
    BIf (TLength 4) (
      BEq $"count" (bi $"count" 1) (
      BEnd)) (
    BEq $"ceil" (bi $"ceil" 1) (
    BEnd))))) (
  BIf (TFirst 108) (
    BIf (TFirst 109) (
      BIf (TLast 109) (
        BIf (TLength 2) (
          BEq $"neq" (bi $"neq" 2) (
          BEnd)) (
        BEq $"or" (bi $"or" 2) (
        BEnd))) (
      BIf (TFirst 114) (
        BEq $"sum" (bi $"sum" 1) (
        BEnd)) (
      BEq $"rem" (bi $"rem" 2) (
      BEnd)))) (
    BIf (TLast 108) (
      BIf (TLast 110) (
        BEq $"max" (bi $"max" 1) (
        BEnd)) (
      BEq $"min" (bi $"min" 1) (
      BEnd))) (
    BEq $"mul" (bi $"mul" 2) (
    BEnd)))) (
  BIf (TLast 101) (
    BIf (TLength 2) (
      BIf (TFirst 97) (
        BEq $"div" (bi $"div" 2) (
        BEnd)) (
      BEq $"abs" (bi $"abs" 1) (
      BEnd))) (
    BIf (TFirst 103) (
      BEq $"lt" (bi $"lt" 2) (
      BEnd)) (
    BEq $"gt" (bi $"gt" 2) (
    BEnd)))) (
  BIf (TFirst 97) (
    BIf (TFirst 103) (
      BEq $"lte" (bi $"lte" 2) (
      BEnd)) (
    BEq $"gte" (bi $"gte" 2) (
    BEnd))) (
  BEq $"and" (bi $"and" 2) (
  BEnd)))))).
(** [front] and [back] of an empty name are undefined. *)
Definition core (name : str) : outcome (option std_builtin) := match name with [] => Ub | _ => Ok (exec core_tree name) end.

(** src/builtins/array.cc 230-251 [array]. *)
Definition m_array : str -> outcome (option std_builtin) := in_module 6 [
  ($"concat", (bi $"array.concat" 2));
  ($"flatten", (bi $"array.flatten" 1));
  ($"reverse", (bi $"array.reverse" 1));
  ($"slice", (bi $"array.slice" 3))].
(** src/builtins/aws.cc 40-50 [aws]. *)
Definition m_aws : str -> outcome (option std_builtin) := in_module 14 [
  ($"sign_req", (bi $"providers.aws.sign_req" 3))].
(** src/builtins/bits.cc 315-345 [bits]. *)
Definition m_bits : str -> outcome (option std_builtin) := in_module 5 [
  ($"and", (bi $"bits.and" 2));
  ($"lsh", (bi $"bits.lsh" 2));
  ($"negate", (bi $"bits.negate" 1));
  ($"or", (bi $"bits.or" 2));
  ($"rsh", (bi $"bits.rsh" 2));
  ($"xor", (bi $"bits.xor" 2))].
(** src/builtins/core.cc 3069-3103 [strings]. *)
Definition m_strings : str -> outcome (option std_builtin) := in_module 8 [
  ($"count", (bi $"strings.count" 2));
  ($"any_prefix_match", (bi $"strings.any_prefix_match" 2));
  ($"any_suffix_match", (bi $"strings.any_suffix_match" 2));
  ($"render_template", (bi $"render_template" 2));
  ($"replace_n", (bi $"strings.replace_n" 2));
  ($"reverse", (bi $"reverse" 1))].
(** src/builtins/encoding.cc 706-724 [base64]. *)
Definition m_base64 : str -> outcome (option std_builtin) := in_module 7 [
  ($"encode", (bi $"base64.encode" 1));
  ($"decode", (bi $"base64.decode" 1));
  ($"is_valid", (bi $"base64.is_valid" 1))].
(** src/builtins/encoding.cc 726-744 [base64url]. *)
Definition m_base64url : str -> outcome (option std_builtin) := in_module 10 [
  ($"encode", (bi $"base64url.encode" 1));
  ($"encode_no_pad", (bi $"base64url.encode_no_pad" 1));
  ($"decode", (bi $"base64url.decode" 1))].
(** src/builtins/encoding.cc 746-760 [hex]. *)
Definition m_hex : str -> outcome (option std_builtin) := in_module 4 [
  ($"encode", (bi $"hex.encode" 1));
  ($"decode", (bi $"hex.decode" 1))].
(** src/builtins/encoding.cc 762-780 [yaml]. *)
Definition m_yaml : str -> outcome (option std_builtin) := in_module 5 [
  ($"marshal", (bi $"yaml.marshal" 1));
  ($"unmarshal", (bi $"yaml.unmarshal" 1));
  ($"is_valid", (bi $"yaml.is_valid" 1))].
(** src/builtins/encoding.cc 782-804 [urlquery]. *)
Definition m_urlquery : str -> outcome (option std_builtin) := in_module 9 [
  ($"encode", (bi $"urlquery.encode" 1));
  ($"encode_object", (bi $"urlquery.encode_object" 1));
  ($"decode", (bi $"urlquery.decode" 1));
  ($"decode_object", (bi $"urlquery.decode_object" 1))].
(** src/builtins/glob.cc 674-688 [glob]. *)
Definition m_glob : str -> outcome (option std_builtin) := in_module 5 [
  ($"match", (bi $"glob.match" 3));
  ($"quote_meta", (bi $"glob.quote_meta" 1))].
(** src/builtins/graph.cc 364-378 [graph]. *)
Definition m_graph : str -> outcome (option std_builtin) := in_module 6 [
  ($"reachable", (bi $"graph.reachable" 2));
  ($"reachable_paths", (bi $"graph.reachable_paths" 2))].
(** src/builtins/graphql.cc 181-211 [graphql]. *)
Definition m_graphql : str -> outcome (option std_builtin) := in_module 8 [
  ($"is_valid", (bi $"graphql.is_valid" 2));
  ($"parse", (bi $"graphql.parse" 2));
  ($"parse_and_verify", (bi $"graphql.parse_and_verify" 2));
  ($"parse_query", (bi $"graphql.parse_query" 1));
  ($"parse_schema", (bi $"graphql.parse_schema" 1));
  ($"schema_is_valid", (bi $"graphql.schema_is_valid" 1))].
(** src/builtins/http.cc 33-43 [http]. *)
Definition m_http : str -> outcome (option std_builtin) := in_module 5 [
  ($"send", (bi $"http.send" 1))].
(** src/builtins/internal.cc 302-324 [internal]. *)
Definition m_internal : str -> outcome (option std_builtin) := in_module 9 [
  ($"member_2", (bi $"internal.member_2" 2));
  ($"member_3", (bi $"internal.member_3" 3));
  ($"print", (bi $"internal.print" 1));
  ($"template_string", (bi $"internal.template_string" 1))].
(** src/builtins/json.cc 1777-1827 [json]. *)
Definition m_json : str -> outcome (option std_builtin) := in_module 5 [
  ($"marshal", (bi $"json.marshal" 1));
  ($"marshal_with_options", (bi $"json.marshal_with_options" 2));
  ($"unmarshal", (bi $"json.unmarshal" 1));
  ($"is_valid", (bi $"json.is_valid" 1));
  ($"filter", (bi $"json.filter" 2));
  ($"remove", (bi $"json.remove" 2));
  ($"match_schema", (bi $"json.match_schema" 2));
  ($"verify_schema", (bi $"json.verify_schema" 1));
  ($"patch", (bi $"json.patch" 2))].
(** src/builtins/net.cc 199-233 [net]. *)
Definition m_net : str -> outcome (option std_builtin) := in_module 4 [
  ($"cidr_contains", (bi $"net.cidr_contains" 2));
  ($"cidr_contains_matches", (bi $"net.cidr_contains_matches" 2));
  ($"cidr_expand", (bi $"net.cidr_expand" 1));
  ($"cidr_intersects", (bi $"net.cidr_intersects" 2));
  ($"cidr_is_valid", (bi $"net.cidr_is_valid" 1));
  ($"cidr_merge", (bi $"net.cidr_merge" 1));
  ($"lookup_ip_addr", (bi $"net.lookup_ip_addr" 1))].
(** src/builtins/numbers.cc 222-235 [numbers]. *)
Definition m_numbers : str -> outcome (option std_builtin) := in_module 8 [
  ($"range", (bi $"numbers.range" 2));
  ($"range_step", (bi $"numbers.range_step" 3))].
(** src/builtins/numbers.cc 237-246 [rand]. *)
Definition m_rand : str -> outcome (option std_builtin) := in_module 5 [
  ($"intn", (bi $"rand.intn" 2))].
(** src/builtins/objects.cc 620-654 [object]. *)
Definition m_object : str -> outcome (option std_builtin) := in_module 7 [
  ($"filter", (bi $"object.filter" 2));
  ($"get", (bi $"object.get" 3));
  ($"keys", (bi $"object.keys" 1));
  ($"remove", (bi $"object.remove" 2));
  ($"subset", (bi $"object.subset" 2));
  ($"union", (bi $"object.union" 2));
  ($"union_n", (bi $"object.union_n" 1))].
(** src/builtins/opa.cc 37-47 [opa]. *)
Definition m_opa : str -> outcome (option std_builtin) := in_module 4 [
  ($"runtime", (bi $"opa.runtime" 0))].
(** src/builtins/regex.cc 1408-1446 [regex]. *)
Definition m_regex : str -> outcome (option std_builtin) := in_module 6 [
  ($"find_all_string_submatch_n", (bi $"regex.find_all_string_submatch_n" 3));
  ($"find_n", (bi $"regex.find_n" 3));
  ($"is_valid", (bi $"regex.is_valid" 1));
  ($"match", (bi $"regex.match" 2));
  ($"replace", (bi $"regex.replace" 3));
  ($"split", (bi $"regex.split" 2));
  ($"template_match", (bi $"regex.template_match" 4));
  ($"globs_match", (bi $"regex.globs_match" 2))].
(** src/builtins/rego.cc 66-84 [rego]. *)
Definition m_rego : str -> outcome (option std_builtin) := in_module 5 [
  ($"metadata.chain", (bi $"rego.metadata.chain" 0));
  ($"metadata.rule", (bi $"rego.metadata.rule" 0));
  ($"parse_module", (bi $"rego.parse_module" 2))].
(** src/builtins/semver.cc 228-242 [semver]. *)
Definition m_semver : str -> outcome (option std_builtin) := in_module 7 [
  ($"compare", (bi $"semver.compare" 2));
  ($"is_valid", (bi $"semver.is_valid" 1))].
(** src/builtins/time.cc 1197-1243 [time]. *)
Definition m_time : str -> outcome (option std_builtin) := in_module 5 [
  ($"now_ns", (bi $"time.now_ns" 0));
  ($"parse_duration_ns", (bi $"time.parse_duration_ns" 1));
  ($"add_date", (bi $"time.add_date" 4));
  ($"clock", (bi $"time.clock" 1));
  ($"date", (bi $"time.date" 1));
  ($"diff", (bi $"time.diff" 2));
  ($"format", (bi $"time.format" 1));
  ($"parse_ns", (bi $"time.parse_ns" 2));
  ($"parse_rfc3339_ns", (bi $"time.parse_rfc3339_ns" 1));
  ($"weekday", (bi $"time.weekday" 1))].
(** src/builtins/units.cc 309-322 [units]. *)
Definition m_units : str -> outcome (option std_builtin) := in_module 6 [
  ($"parse", (bi $"units.parse" 1));
  ($"parse_bytes", (bi $"units.parse_bytes" 1))].
(** src/builtins/uri.cc 358-372 [uri]. *)
Definition m_uri : str -> outcome (option std_builtin) := in_module 4 [
  ($"parse", (bi $"uri.parse" 1));
  ($"is_valid", (bi $"uri.is_valid" 1))].
(** src/builtins/crypto.cc 778-856 [crypto]: [view[0]] of an empty view is undefined; a name not found under hmac. or x509. is looked for with
    what is left of it in the tests that follow. *)
Definition hmac_chain : list (str * std_builtin) := [
  ($"equal", (bi $"crypto.hmac.equal" 2));
  ($"md5", (bi $"crypto.hmac.md5" 2));
  ($"sha1", (bi $"crypto.hmac.sha1" 2));
  ($"sha256", (bi $"crypto.hmac.sha256" 2));
  ($"sha512", (bi $"crypto.hmac.sha512" 2))].
Definition x509_chain : list (str * std_builtin) := [
  ($"parse_and_verify_certificates", (bi $"crypto.x509.parse_and_verify_certificates" 1));
  ($"parse_and_verify_certificates_with_options", (bi $"crypto.x509.parse_and_verify_certificates_with_options" 2));
  ($"parse_certificate_request", (bi $"crypto.x509.parse_certificate_request" 1));
  ($"parse_certificates", (bi $"crypto.x509.parse_certificates" 1));
  ($"parse_keypair", (bi $"crypto.x509.parse_keypair" 2));
  ($"parse_rsa_private_key", (bi $"crypto.x509.parse_rsa_private_key" 1))].
Definition crypto_chain : list (str * std_builtin) := [
  ($"md5", (bi $"crypto.md5" 1));
  ($"sha1", (bi $"crypto.sha1" 1));
  ($"sha256", (bi $"crypto.sha256" 1));
  ($"parse_private_keys", (bi $"crypto.parse_private_keys" 1))].
Definition crypto_rest (view : str) : outcome (option std_builtin) := Ok (chain crypto_chain view).
Definition crypto_x (view : str) : outcome (option std_builtin) :=
  match view with
  | [] => Ub
  | c :: _ =>
      if c =? 120 then let! view := skip 5 view in match chain x509_chain view with Some b => Ok (Some b) | None => crypto_rest view end
      else crypto_rest view
  end.
Definition m_crypto (name : str) : outcome (option std_builtin) :=
  let! view := skip 7 name in
  match view with
  | [] => Ub
  | c :: _ =>
      if c =? 104 then let! view := skip 5 view in match chain hmac_chain view with Some b => Ok (Some b) | None => crypto_x view end
      else crypto_x view
  end.
(** src/builtins/jwt.cc 1050-1090 [jwt]: the verifying builtins get the name that was asked for. *)
Definition jwt_verify : list str := [$"verify_eddsa"; $"verify_es256"; $"verify_es384"; $"verify_es512"; $"verify_hs256"; $"verify_hs384"; $"verify_hs512"; $"verify_ps256"; $"verify_ps384"; $"verify_ps512"; $"verify_rs256"; $"verify_rs384"; $"verify_rs512"].
Definition m_jwt (name : str) : outcome (option std_builtin) :=
  let! view := skip 7 name in
  Ok (if str_eqb view $"decode" then Some (bi $"io.jwt.decode" 1)
      else if str_eqb view $"decode_verify" then Some (bi $"io.jwt.decode_verify" 2)
      else if existsb (str_eqb view) jwt_verify then Some (bi name 2)
      else if str_eqb view $"encode_sign" then Some (bi $"io.jwt.encode_sign" 3)
      else if str_eqb view $"encode_sign_raw" then Some (bi $"io.jwt.encode_sign_raw" 3)
      else None).
(** src/builtins/uuid.cc 448-461 [uuid]: another name throws. *)
Definition m_uuid (name : str) : outcome (option std_builtin) :=
  let! view := skip 5 name in
  if str_eqb view $"parse" then Ok (Some (bi $"uuid.parse" 1)) else if str_eqb view $"rfc4122" then Ok (Some (bi $"uuid.rfc4122" 1)) else Throw.
(** src/builtins.cc 276-474: the module of a prefix. *)
Definition module_tree : block (str -> outcome (option std_builtin)) :=
  BIf (TLength 4) (
    BIf (TLength 6) (
      BIf (TLength 7) (
        BIf (TLength 8) (
          BIf (TFirst 98) (
            BEq $"providers" m_aws (
            BEnd)) (
          BEq $"base64url" m_base64url (
          BEnd))) (
        BIf (TFirst 105) (
          BEq $"urlquery" m_urlquery (
          BEnd)) (
        BEq $"internal" m_internal (
        BEnd)))) (
      BIf (TFirst 103) (
        BIf (TFirst 110) (
          BEq $"strings" m_strings (
          BEnd)) (
        BEq $"numbers" m_numbers (
        BEnd))) (
      BEq $"graphql" m_graphql (
      BEnd)))) (
    BIf (TLength 5) (
      BIf (TFirst 98) (
        BIf (TFirst 99) (
          BIf (TFirst 111) (
            BEq $"semver" m_semver (
            BEnd)) (
          BEq $"object" m_object (
          BEnd))) (
        BEq $"crypto" m_crypto (
        BEnd))) (
      BEq $"base64" m_base64 (
      BEnd))) (
    BIf (TFirst 97) (
      BIf (TFirst 103) (
        BIf (TFirst 114) (
          BEq $"units" m_units (
          BEnd)) (
        BEq $"regex" m_regex (
        BEnd))) (
      BEq $"graph" m_graph (
      BEnd))) (
    BEq $"array" m_array (
    BEnd))))) (
  BIf (TFirst 106) (
    BIf (TFirst 114) (
      BIf (TLength 3) (
        BIf (TFirst 116) (
          BIf (TFirst 117) (
            BEq $"yaml" m_yaml (
            BEnd)) (
          BEq $"uuid" m_uuid (
          BEnd))) (
        BEq $"time" m_time (
        BEnd))) (
      BEq $"uri" m_uri (
      BEnd))) (
    BIf (TLength 3) (
      BIf (TLast 100) (
        BEq $"rego" m_rego (
        BEnd)) (
      BEq $"rand" m_rand (
      BEnd))) (
    BIf (TFirst 110) (
      BEq $"opa" m_opa (
      BEnd)) (
    BEq $"net" m_net (
    BEnd))))) (
  BIf (TLast 111) (
    BIf (TLength 3) (
      BIf (TFirst 98) (
        BEq $"http" m_http (
        BEnd)) (
      BEq $"bits" m_bits (
      BEnd))) (
    BEq $"hex" m_hex (
    BEnd))) (
  BIf (TLength 2) (
    BIf (TFirst 103) (
      BEq $"json" m_json (
      BEnd)) (
    BEq $"glob" m_glob (
    BEnd))) (
  BEq $"io" m_jwt (
  BEnd))))).
(** src/builtins.cc 262-477 [lookup]. *)
Definition lookup (name : str) : outcome (option std_builtin) :=
  match find0 $"." name with
  | None => core name
  | Some it =>
      let view := firstn it name in
      match view with
      | [] => Ub
      | _ => match exec module_tree view with Some f => f name | None => Ok None end
      end
  end.
