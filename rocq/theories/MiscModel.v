(** Model of src/builtins/semver.cc, src/builtins/units.cc, src/builtins/uuid.cc and of rand.intn in src/builtins/numbers.cc.
    Declarations and the texts of error messages are left out. *)
From Coq Require Import String ZArith List Bool.
From Verif Require Import Base BigIntSpec BigIntModel SMap ValueModel ValueSpec ResolverModel VmModel StrModel EncModel.
Import ListNotations.
Local Open Scope Z_scope.
Local Open Scope list_scope.

(** ** Standard library *)

(** [std::isspace] in the "C" locale. *)
Definition is_space (c : Z) : bool := (c =? 32) || ((9 <=? c) && (c <=? 13)).
(** [std::stoi]: leading white space, a sign, digits; the rest is ignored.  [Ok None]: [std::invalid_argument]; [Throw]:
    [std::out_of_range]. *)
Definition stoi (s : str) : outcome (option Z) :=
  let s := snd (span is_space s) in
  let '(neg, s) := match s with c :: s' => if c =? 45 then (true, s') else if c =? 43 then (false, s') else (false, s) | [] => (false, s) end in
  let d := fst (span is_digit s) in
  match d with
  | [] => Ok None
  | _ =>
      let v := if neg : bool then - zval_digits d else zval_digits d in
      if (-2147483648 <=? v) && (v <=? 2147483647) then Ok (Some v) else Throw
  end.

(** ** semver.cc *)

(** semver.cc 9-16. *)
Record semver := { sv_major : Z; sv_minor : Z; sv_patch : Z; sv_pre : str; sv_meta : str }.
(** semver.cc 18-46 [operator<]. *)
Definition semver_lt (l r : semver) : bool :=
  (sv_major l <? sv_major r) || (sv_minor l <? sv_minor r) || (sv_patch l <? sv_patch r) ||
  str_ltb (sv_pre l) (sv_pre r) || str_ltb (sv_meta l) (sv_meta r).

(** [s.substr(start, end)] where [end] is the result of a search ([None] is [npos], the largest count).  The second argument of
    [substr] is a count. *)
Definition substr_to (s : str) (start : nat) (e : option nat) : str :=
  match e with Some n => substr s start n | None => skipn start s end.
(** [end + 1], which is 0 when [end] is [npos]. *)
Definition after (e : option nat) : nat := match e with Some n => S n | None => O end.
(** semver.cc 63-70, 81-88, 99-106: one numeric part. *)
Definition semver_part (s : str) : outcome (option Z) := match s with [] => Ok None | _ => stoi s end.
(** semver.cc 48-124 [parse_semver]. *)
Definition parse_semver (s : str) : outcome (option semver) :=
  match find0 [46] s with
  | None => Ok None
  | Some e1 =>
      let! major := semver_part (substr_to s 0 (Some e1)) in
      match major with
      | None => Ok None
      | Some major =>
          let start := S e1 in
          match find_from [46] s start with
          | None => Ok None
          | Some e2 =>
              let! minor := semver_part (substr_to s start (Some e2)) in
              match minor with
              | None => Ok None
              | Some minor =>
                  let start := S e2 in
                  let e3 := find_from [45] s start in
                  let! patch := semver_part (substr_to s start e3) in
                  match patch with
                  | None => Ok None
                  | Some patch =>
                      let start := after e3 in
                      let e4 := find_from [43] s start in
                      let pre := substr_to s start e4 in
                      Ok (Some {| sv_major := major; sv_minor := minor; sv_patch := patch; sv_pre := pre;
                                  sv_meta := match e4 with None => [] | Some e => skipn (S e) s end |})
                  end
              end
          end
      end
  end.
(** semver.cc 126-172 [compare]. *)
Definition semver_compare (a b : value) : outcome res :=
  match a, b with
  | VString a, VString b =>
      let! x := parse_semver a in
      match x with
      | None => Ok (RErr EvalBuiltInError)
      | Some x =>
          let! y := parse_semver b in
          match y with
          | None => Ok (RErr EvalBuiltInError)
          | Some y => if semver_lt x y then ok (VInt $"-1") else if semver_lt y x then ok (VInt $"1") else ok (VInt $"0")
          end
      end
  | _, _ => type_error
  end.
(** semver.cc 190-206 [is_valid]. *)
Definition semver_is_valid (v : value) : outcome res :=
  match v with VString t => let! x := parse_semver t in ok (vbool (match x with Some _ => true | None => false end)) | _ => type_error end.

(** ** units.cc *)

(** units.cc 9-27: the factors, in the order in which a [std::map] is iterated. *)
Definition kb : str := $"1024".
Definition kd : str := $"1000".
Fixpoint times (n : nat) (b : str) : str := match n with O => $"1" | S O => b | S n' => bi_mul (times n' b) b end.
Definition byte_units : list (str * str) :=
  [($"ei", times 6 kb); ($"gi", times 3 kb); ($"ki", times 1 kb); ($"mi", times 2 kb); ($"pi", times 5 kb); ($"ti", times 4 kb)].
Definition big_units : list (str * str) :=
  [($"e", times 6 kd); ($"g", times 3 kd); ($"k", times 1 kd); ($"m", times 2 kd); ($"p", times 5 kd); ($"t", times 4 kd)].
(** units.cc 29-35: [double]s, given by their source text. *)
Definition small_units : list (str * str) :=
  [($"c", $"0.01"); ($"d", $"0.1"); ($"m", $"0.001"); ($"n", $"0.000000001"); ($"u", $"0.000001")].

(** units.cc 37-45 [strip_escaped_quotes].  [s.size() - 4] wraps round for a text of two characters, and then everything after
    the second one is taken: the empty text. *)
Definition strip_escaped_quotes (s : str) : str :=
  if prefixb [92; 34] s && suffixb [92; 34] s then substr s 2 (length s - 4) else s.

(** units.cc 94-95: the regular expression for an amount, as a scanner. *)
Definition take_sign (s : str) : str := match s with c :: s' => if (c =? 43) || (c =? 45) then s' else s | [] => s end.
Definition match_exponent (s : str) : bool :=
  match s with
  | [] => true
  | c :: s' =>
      ((c =? 101) || (c =? 69)) &&
      (let '(d, rest) := span is_digit (take_sign s') in
       match d, rest with _ :: _, [] => true | _, _ => false end)
  end.
Definition match_number (s : str) : bool :=
  let '(i, s1) := span is_digit (take_sign s) in
  match s1 with
  | c :: s2 =>
      if c =? 46 then
        let '(f, s3) := span is_digit s2 in
        match i, f with [], [] => false | _, _ => match_exponent s3 end
      else match i with [] => false | _ => match_exponent s1 end
  | [] => match i with [] => false | _ => true end
  end.
Definition is_exp (c : Z) : bool := (c =? 101) || (c =? 69).
(** [find_first_of("eE")] and what follows it. *)
Definition after_exp (s : str) : option str :=
  match snd (span (fun c => negb (is_exp c)) s) with [] => None | _ :: r => Some r end.
(** units.cc 70-125 [parse_number]; [None]: an error with code EvalBuiltInError. *)
Definition parse_number (num : str) : option value :=
  match num with
  | [] => None
  | c :: num' =>
      let begins := if is_exp c then match num' with d :: _ => is_digit d || (d =? 43) || (d =? 45) | [] => false end
                    else is_digit c || (c =? 46) || (c =? 43) || (c =? 45) in
      if negb begins then None
      else if negb (match_number num) then None
      else match after_exp num with
           | Some r => if (6 <? length (take_sign r))%nat then None else Some (VFloat num)
           | None => if existsb (Z.eqb 46) num then Some (VFloat num) else Some (VInt num)
           end
  end.

Section Units.
Variable F : fops.
(** The text that [Resolver::scalar] writes for [std::round] of a double given by its text (src/resolver.cc 227-239). *)
Variable round_text : str -> str.
Notation key := (to_key F).

(** src/resolver.cc 227-239 [Resolver::scalar] of a double, given by its text. *)
Definition number_of_text (t : str) : value := if existsb (Z.eqb 46) t then VFloat t else VInt t.
(** The product of two doubles.  [f_arith] fails for a division only. *)
Definition mul_double (a b : str) : outcome str := match f_arith F OpMul a b with Some t => Ok t | None => Ub end.
(** units.cc 127-154 [scale] by an integer.  Every factor fits in 64 bits, so line 138 is not reached. *)
Definition scale_int (num : value) (by_ : str) (round : bool) : outcome res :=
  match num with
  | VInt t => ok (VInt (bi_mul t by_))
  | VFloat t =>
      match bi_to_int by_ with
      | None => Ok (RErr EvalBuiltInError)
      | Some s =>
          let! d := get_double F num in
          let! r := mul_double d (dec s) in
          if round then ok (VInt (round_text r)) else ok (number_of_text r)
      end
  | _ => Ok (RErr EvalBuiltInError)
  end.
(** units.cc 156-164 [scale] by a double. *)
Definition scale_double (num : value) (by_ : str) : outcome res :=
  match num with
  | VInt _ | VFloat _ => let! d := get_double F num in let! r := mul_double d by_ in ok (number_of_text r)
  | _ => Ok (RErr EvalBuiltInError)
  end.
(** units.cc 190-203, 225-238: the first unit that the text ends with, and the text before it. *)
Fixpoint find_unit (units : list (str * str)) (lower : str) : option (str * str * str) :=
  match units with
  | [] => None
  | (u, f) :: units' =>
      if suffixb u lower then Some (u, f, substr lower 0 (length lower - length u)) else find_unit units' lower
  end.
Definition with_number (num : str) (k : value -> outcome res) : outcome res :=
  match parse_number num with None => Ok (RErr EvalBuiltInError) | Some v => k v end.
(** units.cc 166-245 [do_parse]. *)
Definition units_do_parse (x : str) (include_small round : bool) : outcome res :=
  if (length x =? 0)%nat then Ok (RErr EvalBuiltInError)
  else if existsb is_space x then Ok (RErr EvalBuiltInError)
  else
    let lower := map to_lower x in
    match find_unit byte_units lower with
    | Some (_, f, num) => with_number num (fun v => scale_int v f round)
    | None =>
        let small := if include_small then find_unit small_units lower else None in
        let small := match small with
                     | Some (u, f, num) => if str_eqb u $"m" && suffixb $"M" x then None else small
                     | None => None
                     end in
        match small with
        | Some (_, f, num) => with_number num (fun v => scale_double v f)
        | None =>
            match find_unit big_units lower with
            | Some (_, f, num) => with_number num (fun v => scale_int v f round)
            | None => with_number x ok
            end
        end
    end.
(** units.cc 247-258 [parse]. *)
Definition units_parse (x : value) : outcome res :=
  match x with VString t => units_do_parse (strip_escaped_quotes t) true false | _ => type_error end.
(** units.cc 273-288 [parse_bytes]. *)
Definition units_parse_bytes (x : value) : outcome res :=
  match x with
  | VString t =>
      let x := strip_escaped_quotes t in
      let x := if suffixb $"b" x || suffixb $"B" x then substr x 0 (length x - 1) else x in
      units_do_parse x false true
  | _ => type_error
  end.
End Units.

(** ** numbers.cc: rand.intn *)

Section Rand.
(** The first output of [std::mt19937] seeded with the low 32 bits of [std::hash] of a text. *)
Variable rng : str -> Z.
(** numbers.cc 163-195 [intn].  [% 0] is undefined. *)
Definition rand_intn (s n : value) : outcome res :=
  match s, n with
  | VString s, VInt n =>
      match bi_to_size n with
      | None => Ok (RErr EvalBuiltInError)
      | Some n => if n =? 0 then Ub else ok (vint (rng s mod n))
      end
  | _, _ => type_error
  end.
End Rand.

(** ** uuid.cc *)

(** uuid.cc 9-14; a [uuid] is a list of 16 bytes. *)
Definition g1582ns100 : Z := (2440587 - 2299160) * 86400 * 10000000.
Definition at_ (id : list Z) (i : nat) : Z := nth i id 0.
Inductive variant := Ncs | Rfc | Microsoft | Reserved.
(** uuid.cc 24-36 [uuid_variant]. *)
Definition uuid_variant (id : list Z) : variant :=
  if Z.land (at_ id 8) 128 =? 0 then Ncs
  else if Z.land (at_ id 8) 192 =? 128 then Rfc
  else if Z.land (at_ id 8) 224 =? 192 then Microsoft
  else Reserved.
(** uuid.cc 38-69 [is_hex] and 71-131 [hex_to_byte]: the same cases. *)
Definition hex_to_byte (c : Z) : option Z :=
  if (48 <=? c) && (c <=? 57) then Some (c - 48)
  else if (97 <=? c) && (c <=? 102) then Some (c - 87)
  else if (65 <=? c) && (c <=? 70) then Some (c - 55)
  else None.
Fixpoint set_at (i : nat) (x : Z) (l : list Z) : list Z :=
  match i, l with
  | O, _ :: l' => x :: l'
  | S i', y :: l' => y :: set_at i' x l'
  | _, [] => []
  end.
(** uuid.cc 151-171, the loop of [uuid_from_string]. *)
Fixpoint uuid_loop (s : str) (first : bool) (index : nat) (id : list Z) : option (nat * list Z) :=
  match s with
  | [] => Some (index, id)
  | c :: s' =>
      if c =? 45 then uuid_loop s' first index id
      else if (16 <=? index)%nat then None
      else match hex_to_byte c with
           | None => None
           | Some h =>
               if first then uuid_loop s' false index (set_at index (Z.shiftl h 4 mod 256) id)
               else uuid_loop s' true (S index) (set_at index (Z.lor (at_ id index) h) id)
           end
  end.
(** uuid.cc 133-179 [uuid_from_string]. *)
Definition uuid_from_string (s : str) : option (list Z) :=
  match s with
  | [] => None
  | c :: _ =>
      let braces := c =? 123 in
      if braces && negb (last s 0 =? 125) then None
      else
        let n := if braces then 1%nat else O in
        match uuid_loop (substr s n (length s - n - n)) true 0 (repeat 0 16) with
        | None => None
        | Some (index, id) => if (index <? 16)%nat then None else Some id
        end
  end.
(** Two hexadecimal digits ([std::hex], [setw(2)], fill '0'). *)
Definition hex2 (b : Z) : str :=
  let d := fun n => if n <? 10 then 48 + n else 87 + n in [d (b / 16); d (b mod 16)].
(** uuid.cc 181-194 [uuid_to_string]. *)
Definition uuid_to_string (id : list Z) : str :=
  flat_map (fun i => hex2 (at_ id i) ++ (if existsb (Nat.eqb i) [3; 5; 7; 9]%nat then [45] else [])) (seq 0 16).
(** uuid.cc 199-202: four 32-bit numbers from the generator, stored in the byte order of the machine (little-endian here). *)
Definition word_bytes (w : Z) : list Z := [w mod 256; w / 256 mod 256; w / 65536 mod 256; w / 16777216 mod 256].
(** uuid.cc 196-212 [uuid_random]. *)
Definition uuid_random (w0 w1 w2 w3 : Z) : list Z :=
  let id := word_bytes w0 ++ word_bytes w1 ++ word_bytes w2 ++ word_bytes w3 in
  let id := set_at 8 (Z.lor (Z.land (at_ id 8) 191) 128) id in
  set_at 6 (Z.lor (Z.land (at_ id 6) 79) 64) id.
(** Signed 64-bit arithmetic overflows into undefined behaviour. *)
Definition int64 (z : Z) : outcome Z := if (int64_min <=? z) && (z <=? int64_max) then Ok z else Ub.
(** uuid.cc 216-217, 266-267. *)
Definition low32 (id : list Z) : Z :=
  Z.lor (Z.lor (Z.lor (Z.shiftl (at_ id 0) 24) (Z.shiftl (at_ id 1) 16)) (Z.shiftl (at_ id 2) 8)) (at_ id 3).
(** uuid.cc 214-223 [get_time]. *)
Definition get_time (id : list Z) : outcome Z :=
  let time_mid := Z.lor (Z.shiftl (at_ id 4) 8) (at_ id 5) in
  let time_hi := Z.land (Z.lor (Z.shiftl (at_ id 6) 8) (at_ id 7)) 4095 in
  let time := Z.lor (Z.lor (Z.shiftl time_hi 48) (Z.shiftl time_mid 32)) (low32 id) in
  let! t := int64 (time - g1582ns100) in
  int64 (t * 100).
(** uuid.cc 225-229 [get_clock_sequence]. *)
Definition get_clock_sequence (id : list Z) : Z := Z.land (Z.lor (Z.shiftl (at_ id 8) 8) (at_ id 9)) 16383.
(** uuid.cc 231-244 [get_node_id]. *)
Definition get_node_id (id : list Z) : str :=
  flat_map (fun i => hex2 (at_ id i) ++ (if (i <? 15)%nat then [45] else [])) (seq 10 6).
(** uuid.cc 246-262 [get_mac_vars]: the first case label is 0xb11. *)
Definition get_mac_vars (id : list Z) : str :=
  let v := Z.land (at_ id 10) 3 in
  if v =? 2833 then $"local:multicast"
  else if v =? 2 then $"local:unicast"
  else if v =? 1 then $"global:multicast"
  else $"global:unicast".
(** uuid.cc 270-287 [get_domain]. *)
Definition get_domain (id : list Z) : str :=
  let d := at_ id 9 in
  if d =? 0 then $"Person" else if d =? 1 then $"Group" else if d =? 2 then $"Org" else $"Domain" ++ dec d.
Definition variant_name (v : variant) : str :=
  match v with Ncs => $"ncs" | Rfc => $"RFC4122" | Microsoft => $"microsoft" | Reserved => $"reserved" end.
(** uuid.cc 305-367: the items of the result. *)
Definition uuid_items (id : list Z) : outcome (list (value * value)) :=
  let version := Z.shiftr (at_ id 6) 4 in
  let item k v := (VString k, v) in
  let base := [item $"variant" (mkstr (variant_name (uuid_variant id))); item $"version" (vint version)] in
  if (version =? 1) || (version =? 2) then
    let! t := get_time id in
    Ok (base ++
        [item $"time" (vint t); item $"clocksequence" (vint (get_clock_sequence id)); item $"nodeid" (mkstr (get_node_id id));
         item $"macvariables" (mkstr (get_mac_vars id))] ++
        (if version =? 2 then [item $"id" (vint (low32 id)); item $"domain" (mkstr (get_domain id))] else []))
  else Ok base.
(** uuid.cc 289-373 [parse].  The error has no code of its own (src/internal.cc 185-199). *)
Definition uuid_parse (x : value) : outcome res :=
  match x with
  | VString t =>
      let t := if prefixb $"urn:uuid:" t then skipn 9 t else t in
      match uuid_from_string t with
      | Some id => let! l := uuid_items id in ok (VObject l)
      | None => Ok (RErr WellFormedError)
      end
  | _ => type_error
  end.

(** uuid.cc 395-396: the cache of a query and the numbers that the generator will produce next. *)
Record uuid_state := { u_cache : list (str * str); u_next : nat }.
Section Rfc4122.
Variable gen : nat -> Z.
(** uuid.cc 418-435 [call].  The first [u_next] outputs of the generator have been used. *)
Definition rfc4122 (st : uuid_state) (k : value) : uuid_state * outcome res :=
  match k with
  | VString k =>
      match sm_find k (u_cache st) with
      | Some t => (st, ok (VString t))
      | None =>
          let n := u_next st in
          let t := uuid_to_string (uuid_random (gen n) (gen (n + 1)) (gen (n + 2)) (gen (n + 3)))%nat in
          ({| u_cache := sm_set k t (u_cache st); u_next := (n + 4)%nat |}, ok (mkstr t))
      end
  | _ => (st, type_error)
  end.
(** uuid.cc 437-440 [clear], called between queries. *)
Definition uuid_clear (st : uuid_state) : uuid_state := {| u_cache := []; u_next := u_next st |}.
End Rfc4122.
