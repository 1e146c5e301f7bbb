(** The standard library: its names and numbers of arguments. *)
From Coq Require Import String ZArith List Bool.
From Verif Require Import Base StrSpec.
Import ListNotations.
Local Open Scope Z_scope.
Local Open Scope list_scope.

(** The names of a module, by number of arguments. *)
Definition names (prefix : str) (arity : Z) (l : list str) : list (str * Z) := map (fun s => (prefix ++ s, arity)) l.
Definition standard : list (str * Z) :=
  (* comparison, arithmetic, sets *)
  names [] 2 [$"equal"; $"neq"; $"lt"; $"lte"; $"gt"; $"gte"; $"plus"; $"minus"; $"mul"; $"div"; $"rem"; $"and"; $"or"] ++
  names [] 1 [$"abs"; $"ceil"; $"floor"; $"round"; $"intersection"; $"union"] ++
  (* aggregates *)
  names [] 1 [$"count"; $"max"; $"min"; $"sort"; $"sum"; $"product"] ++
  (* types and conversions *)
  names [] 1 [$"is_array"; $"is_boolean"; $"is_null"; $"is_number"; $"is_object"; $"is_set"; $"is_string"; $"type_name"; $"to_number"; $"walk"] ++
  (* strings *)
  names [] 1 [$"lower"; $"upper"; $"trim_space"] ++
  names [] 2 [$"concat"; $"contains"; $"endswith"; $"startswith"; $"format_int"; $"indexof"; $"indexof_n"; $"split"; $"sprintf"; $"trim"; $"trim_left";
              $"trim_right"; $"trim_prefix"; $"trim_suffix"] ++
  names [] 3 [$"replace"; $"substring"] ++
  names $"strings." 1 [$"reverse"] ++
  names $"strings." 2 [$"any_prefix_match"; $"any_suffix_match"; $"count"; $"render_template"; $"replace_n"] ++
  names $"regex." 1 [$"is_valid"] ++
  names $"regex." 2 [$"match"; $"split"; $"globs_match"] ++
  names $"regex." 3 [$"find_n"; $"find_all_string_submatch_n"; $"replace"] ++
  names $"regex." 4 [$"template_match"] ++
  names $"glob." 3 [$"match"] ++ names $"glob." 1 [$"quote_meta"] ++
  (* collections *)
  names $"array." 2 [$"concat"] ++ names $"array." 1 [$"flatten"; $"reverse"] ++ names $"array." 3 [$"slice"] ++
  names $"object." 2 [$"filter"; $"remove"; $"subset"; $"union"] ++ names $"object." 3 [$"get"] ++ names $"object." 1 [$"keys"; $"union_n"] ++
  names $"graph." 2 [$"reachable"; $"reachable_paths"] ++
  names $"internal." 2 [$"member_2"] ++ names $"internal." 3 [$"member_3"] ++ names $"internal." 1 [$"print"; $"template_string"] ++
  (* numbers *)
  names $"bits." 2 [$"and"; $"lsh"; $"or"; $"rsh"; $"xor"] ++ names $"bits." 1 [$"negate"] ++
  names $"numbers." 2 [$"range"] ++ names $"numbers." 3 [$"range_step"] ++ names $"rand." 2 [$"intn"] ++
  names $"units." 1 [$"parse"; $"parse_bytes"] ++ names $"semver." 2 [$"compare"] ++ names $"semver." 1 [$"is_valid"] ++
  (* encodings *)
  names $"base64." 1 [$"encode"; $"decode"; $"is_valid"] ++ names $"base64url." 1 [$"encode"; $"encode_no_pad"; $"decode"] ++
  names $"hex." 1 [$"encode"; $"decode"] ++ names $"urlquery." 1 [$"encode"; $"encode_object"; $"decode"; $"decode_object"] ++
  names $"json." 1 [$"marshal"; $"unmarshal"; $"is_valid"; $"verify_schema"] ++
  names $"json." 2 [$"marshal_with_options"; $"filter"; $"remove"; $"patch"; $"match_schema"] ++
  names $"yaml." 1 [$"marshal"; $"unmarshal"; $"is_valid"] ++
  names $"uri." 1 [$"parse"; $"is_valid"] ++ names $"uuid." 1 [$"parse"; $"rfc4122"] ++
  (* time *)
  names $"time." 0 [$"now_ns"] ++ names $"time." 1 [$"clock"; $"date"; $"weekday"; $"format"; $"parse_duration_ns"; $"parse_rfc3339_ns"] ++
  names $"time." 2 [$"diff"; $"parse_ns"] ++ names $"time." 4 [$"add_date"] ++
  (* cryptography and tokens *)
  names $"crypto." 1 [$"md5"; $"sha1"; $"sha256"; $"parse_private_keys"] ++ names $"crypto.hmac." 2 [$"equal"; $"md5"; $"sha1"; $"sha256"; $"sha512"] ++
  names $"crypto.x509." 1 [$"parse_and_verify_certificates"; $"parse_certificate_request"; $"parse_certificates"; $"parse_rsa_private_key"] ++
  names $"crypto.x509." 2 [$"parse_and_verify_certificates_with_options"; $"parse_keypair"] ++
  names $"io.jwt." 1 [$"decode"] ++ names $"io.jwt." 2 [$"decode_verify"] ++ names $"io.jwt." 3 [$"encode_sign"; $"encode_sign_raw"] ++
  names $"io.jwt.verify_" 2 [$"eddsa"; $"es256"; $"es384"; $"es512"; $"hs256"; $"hs384"; $"hs512"; $"ps256"; $"ps384"; $"ps512"; $"rs256"; $"rs384"; $"rs512"] ++
  (* the outside world *)
  names $"http." 1 [$"send"] ++ names $"net." 1 [$"cidr_expand"; $"cidr_is_valid"; $"cidr_merge"; $"lookup_ip_addr"] ++
  names $"net." 2 [$"cidr_contains"; $"cidr_contains_matches"; $"cidr_intersects"] ++
  names $"graphql." 2 [$"is_valid"; $"parse"; $"parse_and_verify"] ++ names $"graphql." 1 [$"parse_query"; $"parse_schema"; $"schema_is_valid"] ++
  names $"opa." 0 [$"runtime"] ++ names $"rego." 0 [$"metadata.chain"; $"metadata.rule"] ++ names $"rego." 2 [$"parse_module"] ++
  names $"providers.aws." 3 [$"sign_req"].

(** Two builtins are created with the last part of their name only. *)
Definition created_as (name created : str) : Prop :=
  created = name \/ (name = $"strings.reverse" /\ created = $"reverse") \/ (name = $"strings.render_template" /\ created = $"render_template").
(** Names whose lookup goes wrong. *)
Definition odd_name (name : str) : Prop :=
  name = [] \/ name = $"crypto." \/ exists p rest, In p [$"."; $"io."; $"providers."; $"crypto.h"; $"crypto.x"; $"uuid."] /\ name = p ++ rest.
