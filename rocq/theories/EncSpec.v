(** Vocabulary for the properties of the encodings. *)
From Coq Require Import String ZArith List Bool.
From Verif Require Import Base SMap ValueModel ValueSpec StrModel StrSpec EncModel.
Import ListNotations.
Local Open Scope Z_scope.
Local Open Scope list_scope.

Definition octets (s : str) : Prop := Forall (fun c => 0 <= c < 256) s.
Definition ascii (s : str) : Prop := Forall (fun c => 0 <= c < 128) s.

(** ** Base 64 (RFC 4648) *)

Definition alphabet (url : bool) : str :=
  $"ABCDEFGHIJKLMNOPQRSTUVWXYZabcdefghijklmnopqrstuvwxyz0123456789" ++ if url then $"-_" else $"+/".
(** [c] is the digit with value [d]. *)
Definition digit64 (url : bool) (c d : Z) : Prop := 0 <= d /\ nth_error (alphabet url) (Z.to_nat d) = Some c.
(** [t] is the padded encoding of [s]: three bytes are one number of four digits; a last group of one or two bytes is filled
    up with zero bits. *)
Inductive rfc4648 (url : bool) : str -> str -> Prop :=
| b64_nil : rfc4648 url [] []
| b64_one a c0 c1 d0 d1 :
    digit64 url c0 d0 -> digit64 url c1 d1 -> d0 * 64 + d1 = a * 16 -> rfc4648 url [a] [c0; c1; 61; 61]
| b64_two a b c0 c1 c2 d0 d1 d2 :
    digit64 url c0 d0 -> digit64 url c1 d1 -> digit64 url c2 d2 -> (d0 * 64 + d1) * 64 + d2 = (a * 256 + b) * 4 ->
    rfc4648 url [a; b] [c0; c1; c2; 61]
| b64_three a b c c0 c1 c2 c3 d0 d1 d2 d3 s t :
    digit64 url c0 d0 -> digit64 url c1 d1 -> digit64 url c2 d2 -> digit64 url c3 d3 ->
    ((d0 * 64 + d1) * 64 + d2) * 64 + d3 = (a * 256 + b) * 256 + c -> rfc4648 url s t ->
    rfc4648 url (a :: b :: c :: s) (c0 :: c1 :: c2 :: c3 :: t).
(** [u] is [t] without the padding at its end. *)
Definition unpadded (t u : str) : Prop := exists k, t = u ++ repeat 61 k /\ ~ In 61 u.

(** ** Base 16, and the percent encoding of RFC 3986 *)

Definition digit16 (c d : Z) : Prop :=
  0 <= d /\ (nth_error $"0123456789abcdef" (Z.to_nat d) = Some c \/ nth_error $"0123456789ABCDEF" (Z.to_nat d) = Some c).
Inductive hex_text : str -> str -> Prop :=
| hex_nil : hex_text [] []
| hex_cons a b x y s t : digit16 a x -> digit16 b y -> hex_text s t -> hex_text (x * 16 + y :: s) (a :: b :: t).
Inductive pct_text : str -> str -> Prop :=
| pct_nil : pct_text [] []
| pct_char c s t : c <> 37 -> pct_text s t -> pct_text (c :: s) (c :: t)
| pct_byte a b x y s t : digit16 a x -> digit16 b y -> pct_text s t -> pct_text (x * 16 + y :: s) (37 :: a :: b :: t).
Definition unreserved (c : Z) : Prop := In c ($"ABCDEFGHIJKLMNOPQRSTUVWXYZabcdefghijklmnopqrstuvwxyz0123456789-._~").
(** Built from unreserved characters and upper-case escapes only. *)
Inductive only_unreserved : str -> Prop :=
| ou_nil : only_unreserved []
| ou_char c t : unreserved c -> only_unreserved t -> only_unreserved (c :: t)
| ou_byte a b t : In a $"0123456789ABCDEF" -> In b $"0123456789ABCDEF" -> only_unreserved t -> only_unreserved (37 :: a :: b :: t).

(** The library's JSON escaping: unescaping undoes it, its output has no bare quote, and it leaves harmless text alone. *)
Definition json_ok (J : json_ops) : Prop :=
  (forall s, j_unescape J (j_escape J s) = s) /\
  (forall s, json_text (j_escape J s) = true) /\
  (forall s, Forall (fun c => 32 <= c < 127 /\ c <> 34 /\ c <> 92) s -> j_escape J s = s).
Definition json_ops0 : json_ops := {| j_escape := jescape; j_unescape := unescaped |}.

(** A query parameter: a name and perhaps a value, both percent encoded. *)
Inductive parameter : str -> str * str -> Prop :=
| param_bare k t : ~ In 61 t -> pct_text k t -> parameter t (k, [])
| param_value k v t u : ~ In 61 t -> pct_text k t -> pct_text v u -> parameter (t ++ [61] ++ u) (k, v).
(** The values given to the parameter called [k], in order. *)
Definition values_of (k : str) (l : list (str * str)) : list str := map snd (filter (fun p => str_eqb k (fst p)) l).

(** The parameters an object stands for: a string or a collection of strings for every name. *)
Inductive parameters (J : json_ops) : list (value * value) -> list (str * str) -> Prop :=
| ps_nil : parameters J [] []
| ps_one k v l ps : parameters J l ps -> parameters J ((VString (j_escape J k), VString (j_escape J v)) :: l) ((k, v) :: ps)
| ps_array k vs l ps : vs <> [] -> parameters J l ps ->
    parameters J ((VString (j_escape J k), VArray (map (fun v => VString (j_escape J v)) vs)) :: l) (map (pair k) vs ++ ps)
| ps_set k vs l ps : vs <> [] -> parameters J l ps ->
    parameters J ((VString (j_escape J k), VSet (map (fun v => VString (j_escape J v)) vs)) :: l) (map (pair k) vs ++ ps).

(** ** URIs (RFC 3986) *)

Definition opt {A B} (f : A -> list B) (o : option A) : list B := match o with Some a => f a | None => [] end.
Definition scheme_text (s : str) : Prop :=
  exists c t, s = c :: t /\ (65 <= c <= 90 \/ 97 <= c <= 122) /\
    Forall (fun c => 65 <= c <= 90 \/ 97 <= c <= 122 \/ 48 <= c <= 57 \/ c = 43 \/ c = 45 \/ c = 46) t.
(** The five parts of a URI reference; a part that can be read as a scheme is one, and likewise for the authority. *)
Definition uri_parts (t : str) (scheme authority : option str) (path : str) (query fragment : option str) : Prop :=
  t = opt (fun s => s ++ [58]) scheme ++ opt (app [47; 47]) authority ++ path ++ opt (app [63]) query ++ opt (app [35]) fragment /\
  (forall s, scheme = Some s -> scheme_text s) /\
  (scheme = None -> forall s u, t = s ++ [58] ++ u -> ~ scheme_text s) /\
  (forall a, authority = Some a -> ~ In 47 a /\ ~ In 63 a /\ ~ In 35 a) /\
  (authority = None -> forall u, path <> [47; 47] ++ u) /\
  (forall a c, authority = Some a -> head path = Some c -> c = 47) /\
  ~ In 63 path /\ ~ In 35 path /\ (forall q, query = Some q -> ~ In 35 q).
(** [user@]host[:port]; the user part is ignored.  The host of an IPv6 address is the text in the brackets, with its zone decoded. *)
Inductive host_port : str -> str -> str -> Prop :=
| host_name user name host port :
    (user = [] \/ exists u, user = u ++ [64]) -> ~ In 64 (name ++ opt (app [58]) port) ->
    ~ In 91 name -> ~ In 93 name -> ~ In 58 name -> pct_text host name ->
    (forall p, port = Some p -> Forall (fun c => 48 <= c <= 57) p) ->
    host_port (user ++ name ++ opt (app [58]) port) host (match port with Some p => p | None => [] end)
| host_ipv6 user addr port :
    (user = [] \/ exists u, user = u ++ [64]) -> ~ In 64 ([91] ++ addr ++ [93] ++ opt (app [58]) port) ->
    ~ In 91 addr -> ~ In 93 addr -> ~ occurs [37; 50; 53] addr ->
    (forall p, port = Some p -> Forall (fun c => 48 <= c <= 57) p) ->
    host_port (user ++ [91] ++ addr ++ [93] ++ opt (app [58]) port) addr (match port with Some p => p | None => [] end)
| host_zone user addr zone zone' port :
    (user = [] \/ exists u, user = u ++ [64]) -> ~ In 64 ([91] ++ (addr ++ [37; 50; 53] ++ zone) ++ [93] ++ opt (app [58]) port) ->
    ~ In 91 (addr ++ zone) -> ~ In 93 (addr ++ zone) -> ~ occurs [37; 50; 53] addr -> pct_text zone' zone ->
    (forall p, port = Some p -> Forall (fun c => 48 <= c <= 57) p) ->
    host_port (user ++ [91] ++ (addr ++ [37; 50; 53] ++ zone) ++ [93] ++ opt (app [58]) port) (addr ++ [37] ++ zone')
      (match port with Some p => p | None => [] end).
(** The usual encoding of a path: letters, digits and some marks stand for themselves, other bytes are written in hexadecimal. *)
Definition path_mark (c : Z) : bool :=
  ((97 <=? c) && (c <=? 122)) || ((65 <=? c) && (c <=? 90)) || ((48 <=? c) && (c <=? 57)) || existsb (Z.eqb c) $"-_.~$&+,/:;=@".
Definition usual_path (p : str) : str :=
  flat_map (fun c => if path_mark c then [c] else [37; nth (Z.to_nat (c / 16)) $"0123456789ABCDEF" 0; nth (Z.to_nat (c mod 16)) $"0123456789ABCDEF" 0]) p.
(** The parts by which a valid URI is described. *)
Definition uri_means (t : str) (u : parsed_uri) : Prop :=
  Forall (fun c => 32 <= c /\ c <> 127) t /\
  exists scheme authority path query fragment,
    uri_parts t scheme authority path query fragment /\
    u_scheme u = map to_lower (match scheme with Some s => s | None => [] end) /\
    match authority with
    | Some a => host_port a (u_hostname u) (u_port u)
    | None => u_hostname u = [] /\ u_port u = []
    end /\
    u_raw_query u = match query with Some q => q | None => [] end /\
    pct_text (u_fragment u) (match fragment with Some f => f | None => [] end) /\
    (* the path of a URI such as mailto:x is left out; a relative path has no colon in its first segment *)
    ((authority = None /\ scheme <> None /\ head path <> Some 47 /\ u_path u = [] /\ u_raw_path u = []) \/
     ((authority <> None \/ scheme = None \/ head path = Some 47) /\
      pct_text (u_path u) path /\ u_raw_path u = (if str_eqb (usual_path (u_path u)) path then [] else path) /\
      (authority = None -> scheme = None -> forall s r, path = s ++ [58] ++ r -> In 47 s))).
