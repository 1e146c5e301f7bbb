(** Model of the text encodings: src/builtins/base64/base64.cpp, src/builtins/encoding.cc (base64, base64url, hex, urlquery)
    and src/builtins/uri.cc.  The YAML builtins are not modelled. *)
From Coq Require Import String ZArith List Bool.
From Verif Require Import Base BigIntSpec BigIntModel SMap ValueModel ValueSpec ResolverModel VmModel StrModel.
Import ListNotations.
Local Open Scope Z_scope.
Local Open Scope list_scope.

(** ** base64.cpp *)

(** base64.cpp 42-53 [base64_chars]. *)
Definition chars (url : bool) : str :=
  $"ABCDEFGHIJKLMNOPQRSTUVWXYZabcdefghijklmnopqrstuvwxyz0123456789" ++ (if url then $"-_" else $"+/").
Definition char_at (url : bool) (n : Z) : Z := nth (Z.to_nat n) (chars url) 0.
(** base64.cpp 55-71 [pos_of_char]; [None]: the function throws. *)
Definition pos_of_char (c : Z) : option Z :=
  if (65 <=? c) && (c <=? 90) then Some (c - 65)
  else if (97 <=? c) && (c <=? 122) then Some (c - 97 + (90 - 65) + 1)
  else if (48 <=? c) && (c <=? 57) then Some (c - 48 + (90 - 65) + (122 - 97) + 2)
  else if (c =? 43) || (c =? 45) then Some 62
  else if (c =? 47) || (c =? 95) then Some 63
  else None.
(** base64.cpp 111-160 [base64_encode].  The position is 32 bits wide; inputs of 4 GiB and more, where it wraps round, are left out. *)
Fixpoint base64_encode (s : str) (url : bool) : str :=
  match s with
  | [] => []
  | [a] => [char_at url (Z.shiftr (Z.land a 252) 2); char_at url (Z.shiftl (Z.land a 3) 4); 61; 61]
  | [a; b] =>
      [char_at url (Z.shiftr (Z.land a 252) 2); char_at url (Z.shiftl (Z.land a 3) 4 + Z.shiftr (Z.land b 240) 4);
       char_at url (Z.shiftl (Z.land b 15) 2); 61]
  | a :: b :: c :: s' =>
      char_at url (Z.shiftr (Z.land a 252) 2) :: char_at url (Z.shiftl (Z.land a 3) 4 + Z.shiftr (Z.land b 240) 4) ::
      char_at url (Z.shiftl (Z.land b 15) 2 + Z.shiftr (Z.land c 192) 6) :: char_at url (Z.land c 63) :: base64_encode s' url
  end.
(** base64.cpp 202-205, 218, 229: the bytes of a chunk; [static_cast<char>] keeps the low eight bits. *)
Definition byte1 (p0 p1 : Z) : Z := (Z.shiftl p0 2 + Z.shiftr (Z.land p1 48) 4) mod 256.
Definition byte2 (p1 p2 : Z) : Z := (Z.shiftl (Z.land p1 15) 4 + Z.shiftr (Z.land p2 60) 2) mod 256.
Definition byte3 (p2 p3 : Z) : Z := (Z.shiftl (Z.land p2 3) 6 + p3) mod 256.
Definition pad_char (c : Z) : bool := (c =? 61) || (c =? 46).
Definition char_pos (c : Z) : outcome Z := match pos_of_char c with Some p => Ok p | None => Throw end.
(** base64.cpp 162-241 [decode] with [remove_linebreaks] false.  [at] throws past the end. *)
Fixpoint base64_decode (s : str) : outcome str :=
  match s with
  | [] => Ok []
  | [_] => Throw
  | [a; b] => let! p1 := char_pos b in let! p0 := char_pos a in Ok [byte1 p0 p1]
  | [a; b; c] =>
      let! p1 := char_pos b in
      let! p0 := char_pos a in
      if pad_char c then Ok [byte1 p0 p1]
      else let! p2 := char_pos c in Ok [byte1 p0 p1; byte2 p1 p2]
  | a :: b :: c :: d :: s' =>
      let! p1 := char_pos b in
      let! p0 := char_pos a in
      let! l := (if pad_char c then Ok []
                 else let! p2 := char_pos c in
                      if pad_char d then Ok [byte2 p1 p2]
                      else let! p3 := char_pos d in Ok [byte2 p1 p2; byte3 p2 p3]) in
      let! r := base64_decode s' in
      Ok (byte1 p0 p1 :: l ++ r)
  end.

(** ** encoding.cc *)

(** [std::isalnum] in the C locale. *)
Definition is_alnum (c : Z) : bool := ((48 <=? c) && (c <=? 57)) || ((65 <=? c) && (c <=? 90)) || ((97 <=? c) && (c <=? 122)).
(** [char] is signed: the byte is a negative argument of [std::isalnum], which is undefined (255 is EOF). *)
Definition negative_char (c : Z) : bool := (128 <=? c) && (c <? 255).

(** encoding.cc 15-26, 42-53, 106-117, 165-176: the string builtins around the codec. *)
Definition b64_encode (url : bool) (x : value) : outcome res :=
  match x with VString t => ok (mkstr (base64_encode t url)) | _ => type_error end.
Definition b64_decode (x : value) : outcome res :=
  match x with VString t => let! r := base64_decode t in ok (mkstr r) | _ => type_error end.
(** encoding.cc 69-85 [is_valid]. *)
Fixpoint b64_valid_loop (t : str) : outcome bool :=
  match t with
  | [] => Ok true
  | c :: t' =>
      if negative_char c then Ub
      else if is_alnum c || (c =? 43) || (c =? 47) || (c =? 61) then b64_valid_loop t' else Ok false
  end.
Definition b64_is_valid (x : value) : outcome res :=
  match x with VString t => let! b := b64_valid_loop t in ok (vbool b) | _ => ok VFalse end.
(** encoding.cc 133-148 [encode_no_pad]; [back] of an empty string is undefined. *)
Fixpoint drop_padding (r : str) : outcome str :=
  match r with
  | [] => Ub
  | c :: r' => if c =? 61 then drop_padding r' else Ok r
  end.
Definition b64url_encode_no_pad (x : value) : outcome res :=
  match x with
  | VString t => let! r := drop_padding (rev (base64_encode t true)) in ok (mkstr (rev r))
  | _ => type_error
  end.

(** encoding.cc 193-211 [hexdigit]. *)
Definition hexdigit (c : Z) : option Z :=
  if (48 <=? c) && (c <=? 57) then Some (c - 48)
  else if (65 <=? c) && (c <=? 70) then Some (c - 65 + 10)
  else if (97 <=? c) && (c <=? 102) then Some (c - 97 + 10)
  else None.
(** encoding.cc 215-230 [hex.encode].  [(int)c] is negative for a byte from 128 on and is printed as a 32-bit number. *)
Definition hex_byte (c : Z) : str :=
  if c <? 128 then let t := radix 8 16 c in if (length t <? 2)%nat then 48 :: t else t
  else radix 8 16 (c - 256 + 2 ^ 32).
Definition hex_encode (x : value) : outcome res :=
  match x with VString t => ok (mkstr (flat_map hex_byte t)) | _ => type_error end.
(** encoding.cc 246-278 [hex.decode]; the character after the last one is a zero byte. *)
Fixpoint hex_pairs (t : str) : option str :=
  match t with
  | [] => Some []
  | [a] => None
  | a :: b :: t' =>
      match hexdigit a, hexdigit b with
      | Some x, Some y => match hex_pairs t' with Some r => Some (Z.lor (Z.shiftl x 4) y :: r) | None => None end
      | _, _ => None
      end
  end.
Definition hex_decode (x : value) : outcome res :=
  match x with
  | VString t => match hex_pairs t with Some r => ok (mkstr r) | None => Ok (RErr EvalBuiltInError) end
  | _ => type_error
  end.

(** What [std::uppercase << std::hex << std::setw(2) << std::setfill('0')] prints for a byte. *)
Definition upper_digit (d : Z) : Z := if d <? 10 then 48 + d else 55 + d.
Definition pct (c : Z) : str := [37; upper_digit (c / 16); upper_digit (c mod 16)].
(** encoding.cc 409-425 [do_urlquery_encode] after unescaping. *)
Fixpoint query_encode (t : str) : outcome str :=
  match t with
  | [] => Ok []
  | c :: t' =>
      if negative_char c then Ub
      else
        let! r := query_encode t' in
        Ok ((if is_alnum c || (c =? 45) || (c =? 46) || (c =? 95) || (c =? 126) then [c] else pct c) ++ r)
  end.
(** encoding.cc 550-580 [maybe_urlquery_decode].  A malformed escape returns [nullptr] as an optional string, that is a string
    constructed from a null pointer, which is undefined. *)
Fixpoint query_decode (t : str) : outcome str :=
  match t with
  | [] => Ok []
  | c :: t' =>
      if c =? 37 then
        match t' with
        | a :: b :: t'' =>
            match hexdigit a, hexdigit b with
            | Some x, Some y => let! r := query_decode t'' in Ok (Z.lor (Z.shiftl x 4) y :: r)
            | _, _ => Ub
            end
        | _ => Ub
        end
      else let! r := query_decode t' in Ok (c :: r)
  end.

(** What Trieste provides: [json::escape] and [json::unescape]. *)
Record json_ops := { j_escape : str -> str; j_unescape : str -> str }.
Section Query.
Variable J : json_ops.
Definition raw (t : str) : str := j_unescape J (strip_quotes t).
(** [JSONString ^ add_quotes(json::escape(s))]: quotes are added unless the text is quoted already. *)
Definition quoted_string (s : str) : value := mkstr (let e := j_escape J s in if is_quoted e then e else [34] ++ e ++ [34]).
(** encoding.cc 427-439 [urlquery.encode], 582-599 [urlquery.decode]. *)
Definition urlquery_encode (x : value) : outcome res :=
  match x with VString t => let! r := query_encode (raw t) in ok (quoted_string r) | _ => type_error end.
Definition urlquery_decode (x : value) : outcome res :=
  match x with VString t => let! r := query_decode (raw t) in ok (quoted_string r) | _ => type_error end.
(** encoding.cc 455-518 [urlquery.encode_object]. *)
Fixpoint encode_values (key : str) (l : list value) (first : bool) : outcome (option str) :=
  match l with
  | [] => Ok (Some [])
  | VString t :: l' =>
      let! v := query_encode (raw t) in
      let! r := encode_values key l' false in
      Ok (match r with Some r => Some ((if first then [] else [38]) ++ key ++ [61] ++ v ++ r) | None => None end)
  | _ :: _ => Ok None
  end.
Fixpoint encode_items (l : list (value * value)) (first : bool) : outcome (option str) :=
  match l with
  | [] => Ok (Some [])
  | (VString k, v) :: l' =>
      let! key := query_encode (raw k) in
      let sep := if first then [] else [38] in
      let! this := match v with
                   | VString t => let! u := query_encode (raw t) in Ok (Some (key ++ [61] ++ u))
                   | VArray vs | VSet vs => encode_values key vs true
                   | _ => Ok None
                   end in
      match this with
      | None => Ok None
      | Some this => let! r := encode_items l' false in Ok (match r with Some r => Some (sep ++ this ++ r) | None => None end)
      end
  | _ :: _ => Ok None
  end.
Definition urlquery_encode_object (x : value) : outcome res :=
  match x with
  | VObject l => let! r := encode_items l true in match r with Some r => ok (quoted_string r) | None => Ok (RErr EvalBuiltInError) end
  | _ => type_error
  end.
(** encoding.cc 630-660: one parameter. *)
Definition query_item (item : str) (items : list (str * list value)) : outcome (list (str * list value)) :=
  let equal := find0 [61] item in
  let! key := query_decode (match equal with Some e => substr item 0 e | None => item end) in
  let before := match sm_find key items with Some vs => vs | None => [] end in
  match equal with
  | Some e => let! v := query_decode (skipn (e + 1) item) in Ok (sm_set key (before ++ [quoted_string v]) items)
  | None => Ok (sm_set key (before ++ [VString []]) items)
  end.
(** encoding.cc 626-668: the loop.  [end_] is [None] for [npos]; then [end - start] takes the rest of the text and [end + 1] is 0. *)
Fixpoint query_loop (fuel : nat) (x : str) (start : nat) (end_ : option nat) (items : list (str * list value)) :
  outcome (list (str * list value)) :=
  if (start <? length x)%nat then
    match fuel with
    | O => OutOfFuel
    | S k =>
        let item := match end_ with Some e => substr x start (e - start) | None => skipn start x end in
        let! items := query_item item items in
        let start := match end_ with Some e => (e + 1)%nat | None => O end in
        let end_ := match find_from [38] x start with Some e => Some e | None => Some (length x) end in
        query_loop k x start end_ items
    end
  else Ok items.
(** encoding.cc 615-678 [urlquery.decode_object].  The map is keyed by the decoded text. *)
Definition urlquery_decode_object (F : fops) (x : value) : outcome res :=
  match x with
  | VString t =>
      let r := raw t in
      let! items := query_loop (S (S (length r))) r O (find0 [38] r) [] in
      Ok (object_of F (map (fun kv => (quoted_string (fst kv), VArray (snd kv))) items))
  | _ => type_error
  end.
End Query.

(** ** uri.cc *)

(** uri.cc 27-31 [is_hex], 33-44 [hex_value]. *)
Definition is_hex (c : Z) : bool :=
  ((48 <=? c) && (c <=? 57)) || ((97 <=? c) && (c <=? 102)) || ((65 <=? c) && (c <=? 70)).
Definition hex_value (c : Z) : Z :=
  if (48 <=? c) && (c <=? 57) then c - 48
  else if (97 <=? c) && (c <=? 102) then c - 97 + 10
  else c - 65 + 10.
(** uri.cc 48-71 [unescape]. *)
Fixpoint uri_unescape (s : str) : option str :=
  match s with
  | [] => Some []
  | c :: s' =>
      if c =? 37 then
        match s' with
        | a :: b :: s'' =>
            if is_hex a && is_hex b then
              match uri_unescape s'' with Some r => Some (Z.lor (Z.shiftl (hex_value a) 4) (hex_value b) :: r) | None => None end
            else None
        | _ => None
        end
      else match uri_unescape s' with Some r => Some (c :: r) | None => None end
  end.
(** uri.cc 74-101 [should_escape_path]. *)
Definition should_escape_path (c : Z) : bool :=
  if ((97 <=? c) && (c <=? 122)) || ((65 <=? c) && (c <=? 90)) || ((48 <=? c) && (c <=? 57)) then false
  else negb (existsb (Z.eqb c) [45; 95; 46; 126; 36; 38; 43; 44; 47; 58; 59; 61; 64]).
(** uri.cc 104-125 [escape_path]. *)
Definition hex_upper : str := $"0123456789ABCDEF".
Definition escape_path (p : str) : str :=
  flat_map (fun c => if should_escape_path c
                     then [37; nth (Z.to_nat (Z.shiftr c 4)) hex_upper 0; nth (Z.to_nat (Z.land c 15)) hex_upper 0]
                     else [c]) p.

(** The longest prefix of bytes with [f], and the rest. *)
Fixpoint span (f : Z -> bool) (s : str) : str * str :=
  match s with
  | [] => ([], [])
  | c :: s' => if f c then let '(a, b) := span f s' in (c :: a, b) else ([], s)
  end.
Definition none_of (l : list Z) (c : Z) : bool := negb (existsb (Z.eqb c) l).
Definition is_digit (c : Z) : bool := (48 <=? c) && (c <=? 57).
Definition is_letter (c : Z) : bool := ((65 <=? c) && (c <=? 90)) || ((97 <=? c) && (c <=? 122)).

(** uri.cc 132-134: the regular expression for "host[:port]" as a scanner: every character class is followed by a character
    outside it, so there is only one way to match.  Simplification: RE2 also refuses text that is not UTF-8. *)
Definition match_port (s : str) : option str :=
  match s with
  | [] => Some []
  | c :: s' => if (c =? 58) && forallb is_digit s' then Some s' else None
  end.
Definition match_host (s : str) : option (str * str * str) :=
  match s with
  | 91 :: s' =>
      let '(ipv6, rest) := span (none_of [91; 93]) s' in
      match rest with
      | 93 :: rest' => match match_port rest' with Some p => Some (ipv6, [], p) | None => None end
      | _ => None
      end
  | _ =>
      let '(name, rest) := span (none_of [91; 93; 58]) s in
      match match_port rest with Some p => Some ([], name, p) | None => None end
  end.
(** uri.cc 127-165 [parse_authority]. *)
Definition parse_authority (authority : str) : option (str * str) :=
  match match_host authority with
  | None => None
  | Some (ipv6, reg_name, port) =>
      match ipv6 with
      | [] => match uri_unescape reg_name with Some h => Some (h, port) | None => None end
      | _ =>
          match find0 [37; 50; 53] ipv6 with
          | None => Some (ipv6, port)
          | Some zone =>
              match uri_unescape (skipn (zone + 3) ipv6) with
              | Some z => Some (substr ipv6 0 zone ++ [37] ++ z, port)
              | None => None
              end
          end
      end
  end.

(** uri.cc 15-25 [ParsedURI]. *)
Record parsed_uri := {
  u_scheme : str; u_hostname : str; u_port : str; u_path : str; u_raw_path : str; u_raw_query : str; u_fragment : str
}.
(** uri.cc 179-188: the regular expression for the parts of a URI, likewise. *)
Definition scheme_char (c : Z) : bool := is_letter c || is_digit c || (c =? 43) || (c =? 46) || (c =? 45).
Definition match_scheme (s : str) : str * str :=
  match s with
  | c :: s' =>
      if is_letter c then
        let '(a, b) := span scheme_char s' in
        match b with 58 :: b' => (c :: a, b') | _ => ([], s) end
      else ([], s)
  | [] => ([], s)
  end.
Definition match_uri (s : str) : str * str * str * str * str :=
  let '(scheme, s1) := match_scheme s in
  let '(authority, s2) :=
    match s1 with
    | 47 :: 47 :: s' => let '(a, b) := span (none_of [47; 63; 35]) s' in (47 :: 47 :: a, b)
    | _ => ([], s1)
    end in
  let '(rest, s3) := span (none_of [63; 35]) s2 in
  let '(query, s4) := match s3 with 63 :: s' => span (none_of [35]) s' | _ => ([], s3) end in
  let frag := match s4 with _ :: s' => s' | [] => [] end in
  (scheme, authority, rest, query, frag).
(** [rfind('@')], then the text after it. *)
Definition after_at (s : str) : str := rev (fst (span (none_of [64]) (rev s))).
(** uri.cc 168-251 [url_parse]. *)
Definition url_parse (s : str) : option parsed_uri :=
  if existsb (fun c => (c <? 32) || (c =? 127)) s then None
  else
    let '(scheme, authority, rest, query, frag) := match_uri s in
    let has_authority := negb (match authority with [] => true | _ => false end) in
    let rooted := match rest with c :: _ => c =? 47 | [] => false end in
    let rest' :=
      if negb has_authority && negb rooted then
        match scheme with
        | _ :: _ => Some []
        | [] =>
            let segment := match find0 [47] rest with Some i => substr rest 0 i | None => rest end in
            match find0 [58] segment with Some _ => None | None => Some rest end
        end
      else Some rest in
    match rest' with
    | None => None
    | Some rest =>
        match (if has_authority then parse_authority (after_at (skipn 2 authority)) else Some ([], [])) with
        | None => None
        | Some (host, port) =>
            match uri_unescape rest with
            | None => None
            | Some path =>
                match uri_unescape frag with
                | None => None
                | Some fragment =>
                    Some {| u_scheme := map to_lower scheme; u_hostname := host; u_port := port; u_path := path;
                            u_raw_path := if str_eqb (escape_path path) rest then [] else rest;
                            u_raw_query := query; u_fragment := fragment |}
                end
            end
        end
    end.
(** resolver.cc 281-284 [scalar]: quotes around the text, without escaping; [object_item] internal.cc 730-734. *)
Definition item (name : str) (text : str) : list (value * value) :=
  match text with [] => [] | _ => [(VString name, VString text)] end.
(** uri.cc 253-301 [uri.parse]: the items are not sorted by key. *)
Definition uri_items (u : parsed_uri) : list (value * value) :=
  item $"scheme" (u_scheme u) ++ item $"hostname" (u_hostname u) ++ item $"port" (u_port u) ++
  match u_path u with
  | [] => []
  | p => [(VString $"path", VString p); (VString $"raw_path", VString (match u_raw_path u with [] => p | q => q end))]
  end ++
  item $"raw_query" (u_raw_query u) ++ item $"fragment" (u_fragment u).
Section Uri.
Variable J : json_ops.
Definition uri_parse (x : value) : outcome res :=
  match x with
  | VString t => match url_parse (j_unescape J t) with Some u => ok (VObject (uri_items u)) | None => Ok (RErr EvalBuiltInError) end
  | _ => type_error
  end.
(** uri.cc 319-335 [uri.is_valid]. *)
Definition uri_is_valid (x : value) : outcome res :=
  match x with
  | VString t =>
      match j_unescape J t with
      | [] => ok VFalse
      | s => ok (vbool (match url_parse s with Some _ => true | None => false end))
      end
  | _ => ok VFalse
  end.
End Uri.
