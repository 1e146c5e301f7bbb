(** Model of the string builtins: src/builtins/core.cc 13-30, 981-1502, 1771-2101, 2118-2266, 2285-2664.
    A string value carries the JSON-escaped text between its quotes (see ValueModel.v), and the builtins work on this text as it
    is, except the trim functions, which unescape it.  Declarations and error messages are left out. *)
From Coq Require Import String ZArith List Bool.
From Verif Require Import Base BigIntSpec BigIntModel SMap ValueModel ValueSpec ResolverModel VmModel.
Import ListNotations.
Local Open Scope Z_scope.
Local Open Scope list_scope.

(** What Trieste provides (not in this repository): [utf8_to_runestring], [operator<<] of a runestring, the number of bytes that
    [utf8_to_rune] consumes, [json::unescape]; and [static_cast<int64_t>(std::floor(stod t))] for a Float ([None]: the double is not
    representable, which is undefined).  Every theorem holds for every such record under the stated conditions. *)
Record text_ops := {
  t_runes : str -> list Z;
  t_text : list Z -> str;
  t_first : str -> nat;
  t_unescape : str -> str;
  t_floor : str -> option Z
}.

(** [JSONString ^ s]: surrounding quotes in the text are not part of the string. *)
Definition mkstr (s : str) : value := VString (strip_quotes s).

(** ** std::string *)

(** [starts_with], [ends_with]. *)
Fixpoint prefixb (p x : list Z) : bool :=
  match p, x with
  | [], _ => true
  | a :: p', b :: x' => (a =? b) && prefixb p' x'
  | _ :: _, [] => false
  end.
Definition suffixb (p x : list Z) : bool :=
  if (length x <? length p)%nat then false else str_eqb (skipn (length x - length p) x) p.
(** [find(pat)], [find(pat, pos)]. *)
Fixpoint find0 (pat x : list Z) : option nat :=
  if prefixb pat x then Some O
  else match x with [] => None | _ :: x' => option_map S (find0 pat x') end.
Definition find_from (pat x : list Z) (pos : nat) : option nat :=
  if (pos <=? length x)%nat then option_map (fun i => (pos + i)%nat) (find0 pat (skipn pos x)) else None.
(** [substr(pos, n)] for [pos <= size()]. *)
Definition substr (x : list Z) (pos n : nat) : list Z := firstn n (skipn pos x).

(** ** Builtins *)

Definition vint (z : Z) : value := VInt (dec z).
Definition type_error : outcome res := Ok (RErr EvalTypeError).
Definition ok (v : value) : outcome res := Ok (RVal v).

(** core.cc 981-995 [unwrap_strings]; [None] when a member is not a string. *)
Fixpoint unwrap_strings (l : list value) : option (list str) :=
  match l with
  | [] => Some []
  | VString t :: l' => match unwrap_strings l' with Some ts => Some (t :: ts) | None => None end
  | _ :: _ => None
  end.
(** core.cc 997-1036 [concat]. *)
Definition str_concat (d c : value) : outcome res :=
  match d, c with
  | VString d, VArray l | VString d, VSet l =>
      match unwrap_strings l with Some ts => ok (VString (join d ts)) | None => type_error end
  | _, _ => type_error
  end.

(** core.cc 1061-1080 [startswith], 1098-1118 [endswith], 1135-1154 [contains]. *)
Definition str_startswith (x y : value) : outcome res :=
  match x, y with VString a, VString b => ok (vbool (prefixb b a)) | _, _ => type_error end.
Definition str_endswith (x y : value) : outcome res :=
  match x, y with VString a, VString b => ok (vbool (suffixb b a)) | _, _ => type_error end.
Definition str_contains (x y : value) : outcome res :=
  match x, y with
  | VString a, VString b => ok (vbool (match find0 b a with Some _ => true | None => false end))
  | _, _ => type_error
  end.

(** The text [std::ostream] writes for an unsigned 64-bit integer in base 8 or 16. *)
Fixpoint radix (fuel : nat) (base n : Z) : str :=
  match fuel with
  | O => []
  | S k =>
      let d := n mod base in
      let c := if d <? 10 then 48 + d else 87 + d in
      if n <? base then [c] else radix k base (n / base) ++ [c]
  end.
Section Text.
Variable T : text_ops.

(** core.cc 1171-1228 [format_int].  [std::oct] and [std::hex] print a negative number as the unsigned one. *)
Definition format_int (number base : value) : outcome res :=
  match number with
  | VInt _ | VFloat _ =>
      match base with
      | VInt b =>
          let! n := match number with
                    | VFloat t => match t_floor T t with Some z => Ok (Some z) | None => Ub end
                    | VInt t => Ok (bi_to_int t)
                    | _ => Ok None
                    end in
          match n with
          | None => type_error
          | Some z =>
              match bi_to_size b with
              | None => type_error
              | Some k =>
                  if k =? 2 then ok (VString [48 + (z / 2) mod 2; 48 + z mod 2])
                  else if k =? 8 then ok (VString (radix 22 8 (z mod 2 ^ 64)))
                  else if k =? 10 then ok (VString (dec z))
                  else if k =? 16 then ok (VString (radix 16 16 (z mod 2 ^ 64)))
                  else type_error
              end
          end
      | _ => type_error
      end
  | _ => type_error
  end.

(** core.cc 13-30 [count]. *)
Definition count (c : value) : outcome res :=
  match c with
  | VString t => ok (vint (Z.of_nat (length (t_runes T t))))
  | VArray l | VSet l => ok (vint (Z.of_nat (length l)))
  | VObject l => ok (vint (Z.of_nat (length l)))
  | _ => type_error
  end.

(** core.cc 1247-1272 [indexof]. *)
Definition indexof (h n : value) : outcome res :=
  match h, n with
  | VString a, VString b =>
      match find0 (t_runes T b) (t_runes T a) with
      | None => ok (VInt $"-1")
      | Some p => ok (vint (Z.of_nat p))
      end
  | _, _ => type_error
  end.
(** core.cc 1291-1318 [indexof_n]; [fuel] bounds the rounds of the loop. *)
Fixpoint indexof_loop (fuel : nat) (pat x : list Z) (pos : option nat) : outcome (list nat) :=
  match fuel with
  | O => OutOfFuel
  | S k =>
      match pos with
      | None => Ok []
      | Some p => let! l := indexof_loop k pat x (find_from pat x (p + 1)) in Ok (p :: l)
      end
  end.
Definition indexof_n (h n : value) : outcome res :=
  match h, n with
  | VString a, VString b =>
      let x := t_runes T a in
      let pat := t_runes T b in
      let! l := indexof_loop (S (S (length x))) pat x (find0 pat x) in
      ok (VArray (map (fun p => vint (Z.of_nat p)) l))
  | _, _ => type_error
  end.

(** core.cc 1339-1353 [lower], 1370-1384 [upper]; [std::tolower] in the C locale.  [char] is signed, so a byte from 128 on is a
    negative argument, for which the function is undefined (255 is EOF). *)
Definition to_lower (c : Z) : Z := if (65 <=? c) && (c <=? 90) then c + 32 else c.
Definition to_upper (c : Z) : Z := if (97 <=? c) && (c <=? 122) then c - 32 else c.
Definition map_chars (f : Z -> Z) (t : str) : outcome str :=
  if existsb (fun c => (128 <=? c) && (c <? 255)) t then Ub else Ok (map f t).
Definition str_lower (x : value) : outcome res :=
  match x with VString t => let! y := map_chars to_lower t in ok (VString y) | _ => type_error end.
Definition str_upper (x : value) : outcome res :=
  match x with VString t => let! y := map_chars to_upper t in ok (VString y) | _ => type_error end.

(** core.cc 1400-1409 [do_replace]; [fuel] bounds the rounds of the loop. *)
Fixpoint replace_loop (fuel : nat) (x old new_ : str) (pos : option nat) : outcome str :=
  match fuel with
  | O => OutOfFuel
  | S k =>
      match pos with
      | None => Ok x
      | Some p =>
          let x' := firstn p x ++ new_ ++ skipn (p + length old) x in
          replace_loop k x' old new_ (find_from old x' (p + length new_))
      end
  end.
Definition do_replace (fuel : nat) (x old new_ : str) : outcome str := replace_loop fuel x old new_ (find0 old x).
(** core.cc 1411-1438 [replace]. *)
Definition str_replace (fuel : nat) (x old new_ : value) : outcome res :=
  match x, old, new_ with
  | VString a, VString o, VString n => let! y := do_replace fuel a o n in ok (VString y)
  | _, _, _ => type_error
  end.

(** core.cc 1475-1486: the characters of a string. *)
Fixpoint split_chars (fuel : nat) (x : str) (pos : nat) : outcome (list str) :=
  match fuel with
  | O => OutOfFuel
  | S k =>
      if (pos <? length x)%nat then
        let n := t_first T (skipn pos x) in
        let! l := split_chars k x (pos + n) in Ok (substr x pos n :: l)
      else Ok []
  end.
(** core.cc 1488-1501: the parts between the delimiters. *)
Fixpoint split_loop (fuel : nat) (x d : str) (start : nat) (pos : option nat) : outcome (list str) :=
  match fuel with
  | O => OutOfFuel
  | S k =>
      match pos with
      | None => Ok [skipn start x]
      | Some p =>
          let start' := (p + length d)%nat in
          let! l := split_loop k x d start' (find_from d x start') in Ok (substr x start (p - start) :: l)
      end
  end.
(** core.cc 1460-1502 [split]. *)
Definition str_split (x d : value) : outcome res :=
  match x, d with
  | VString a, VString b =>
      let! l := match b with
                | [] => split_chars (S (length a)) a O
                | _ => split_loop (S (S (length a))) a b O (find0 b a)
                end in
      ok (VArray (map mkstr l))
  | _, _ => type_error
  end.

(** core.cc 1771-1835 [substring]. *)
Definition substring (value_ offset len : value) : outcome res :=
  match value_, offset, len with
  | VString t, VInt o, VInt n =>
      let r := t_runes T t in
      match bi_to_int o with
      | None => Ok (RErr EvalBuiltInError)
      | Some o' =>
          if o' <? 0 then Ok (RErr EvalBuiltInError)
          else if Z.of_nat (length r) <=? o' then ok (VString [])
          else
            match bi_to_int n with
            | None => Ok (RErr EvalBuiltInError)
            | Some n' =>
                let rest := Z.of_nat (length r) - o' in
                let l := if n' <? 0 then rest else n' in
                let l := if rest <? l then rest else l in
                ok (mkstr (t_text T (substr r (Z.to_nat o') (Z.to_nat l))))
            end
      end
  | _, _, _ => type_error
  end.

(** [find_first_not_of], [find_last_not_of]. *)
Definition in_set (c : Z) (cut : list Z) : bool := existsb (Z.eqb c) cut.
Fixpoint first_not_of (cut x : list Z) : option nat :=
  match x with
  | [] => None
  | c :: x' => if in_set c cut then option_map S (first_not_of cut x') else Some O
  end.
Definition last_not_of (cut x : list Z) : option nat :=
  option_map (fun i => (length x - 1 - i)%nat) (first_not_of cut (rev x)).
(** core.cc 1861-1894 [do_trim].  [end - start + 1] is computed modulo 2^64, so that [npos] gives no characters. *)
Definition do_trim (v cut : str) (left right : bool) : str :=
  let x := t_runes T (t_unescape T v) in
  let c := t_runes T (t_unescape T cut) in
  let start := if left then first_not_of c x else Some O in
  let end_ := if right then last_not_of c x else Some (length x) in
  match start with
  | None => []
  | Some s =>
      let n := match end_ with
               | Some e => (Z.of_nat e - Z.of_nat s + 1) mod 2 ^ 64
               | None => (- Z.of_nat s) mod 2 ^ 64
               end in
      t_text T (substr x s (Z.to_nat (Z.min n (Z.of_nat (length x)))))
  end.
(** core.cc 1896-1911 [trim], 1931-1948 [trim_left], 1970-1987 [trim_right], 2009-2019 [trim_space]. *)
Definition str_trim (left right : bool) (v cut : value) : outcome res :=
  match v, cut with VString t, VString c => ok (mkstr (do_trim t c left right)) | _, _ => type_error end.
Definition trim_space (v : value) : outcome res :=
  match v with VString t => ok (mkstr (do_trim t [32; 9; 10; 13; 11; 12] true true)) | _ => type_error end.
(** core.cc 2037-2060 [trim_prefix], 2077-2101 [trim_suffix]. *)
Definition trim_prefix (v p : value) : outcome res :=
  match v, p with
  | VString t, VString u => ok (if prefixb u t then mkstr (skipn (length u) t) else v)
  | _, _ => type_error
  end.
Definition trim_suffix (v p : value) : outcome res :=
  match v, p with
  | VString t, VString u => ok (if suffixb u t then mkstr (firstn (length t - length u) t) else v)
  | _, _ => type_error
  end.

(** core.cc 2285-2325 [strings.count]; [fuel] bounds the rounds. *)
Fixpoint count_loop (fuel : nat) (x s : str) (pos n : nat) : outcome nat :=
  match fuel with
  | O => OutOfFuel
  | S k =>
      if (pos <? length x)%nat then
        match find_from s x pos with
        | None => Ok n
        | Some p => count_loop k x s (p + length s) (S n)
        end
      else Ok n
  end.
Definition strings_count (search sub : value) : outcome res :=
  match search, sub with
  | VString x, VString s =>
      match s with
      | [] => ok (vint (Z.of_nat (length x) + 1))
      | _ => let! n := count_loop (S (length x)) x s O O in ok (vint (Z.of_nat n))
      end
  | _, _ => type_error
  end.

(** core.cc 2344-2412 [any_prefix_match], 2445-2513 [any_suffix_match]. *)
Definition string_list (v : value) : option (list str) :=
  match v with
  | VString t => Some [t]
  | VArray l | VSet l => unwrap_strings l
  | _ => None
  end.
Definition any_match (test : str -> str -> bool) (search base : value) : outcome res :=
  match string_list search, string_list base with
  | Some xs, Some ys => ok (vbool (existsb (fun x => existsb (fun y => test y x) ys) xs))
  | _, _ => type_error
  end.

(** core.cc 2572-2626 [strings.replace_n]: the patterns in a std::map, applied one after the other. *)
Fixpoint pattern_map (l : list (value * value)) (m : list (str * str)) : option (list (str * str)) :=
  match l with
  | [] => Some m
  | (VString k, VString v) :: l' => pattern_map l' (sm_set k v m)
  | _ :: _ => None
  end.
Fixpoint replace_all (fuel : nat) (x : str) (l : list (str * str)) : outcome str :=
  match l with
  | [] => Ok x
  | (o, n) :: l' => let! y := do_replace fuel x o n in replace_all fuel y l'
  end.
Definition replace_n (fuel : nat) (patterns v : value) : outcome res :=
  match patterns, v with
  | VObject l, VString t =>
      match pattern_map l [] with
      | None => type_error
      | Some m => let! y := replace_all fuel t m in ok (mkstr y)
      end
  | _, _ => type_error
  end.

(** core.cc 2650-2664 [strings.reverse]. *)
Definition str_reverse (x : value) : outcome res :=
  match x with VString t => ok (mkstr (t_text T (rev (t_runes T t)))) | _ => type_error end.
End Text.

(** core.cc 2118-2245 [is_array] ... [is_string], 2263-2266 [type_name] (src/internal.cc 370-444). *)
Definition is_array (v : value) : bool := match v with VArray _ => true | _ => false end.
Definition is_boolean (v : value) : bool := match v with VTrue | VFalse => true | _ => false end.
Definition is_null (v : value) : bool := match v with VNull => true | _ => false end.
Definition is_number (v : value) : bool := match v with VInt _ | VFloat _ => true | _ => false end.
Definition is_object (v : value) : bool := match v with VObject _ => true | _ => false end.
Definition is_set (v : value) : bool := match v with VSet _ => true | _ => false end.
Definition is_string (v : value) : bool := match v with VString _ => true | _ => false end.
Definition type_name (v : value) : str :=
  match v with
  | VNull => $"null" | VTrue | VFalse => $"boolean" | VInt _ | VFloat _ => $"number" | VString _ => $"string"
  | VArray _ => $"array" | VObject _ => $"object" | VSet _ => $"set" | VErr _ => $"error"
  end.
