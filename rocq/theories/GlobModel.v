(** Model of src/builtins/glob.cc: glob.match and glob.quote_meta.
    A view of a pattern together with an index into it is the rest of the pattern from that index: no index ever goes back.  The
    patterns are bytes, as in the code. *)
From Coq Require Import String ZArith List Bool.
From Verif Require Import Base ValueModel ResolverModel VmModel StrModel EncModel.
Import ListNotations.
Local Open Scope Z_scope.
Local Open Scope list_scope.

(** glob.cc 16-20 [is_glob_meta]. *)
Definition is_glob_meta (c : Z) : bool := existsb (Z.eqb c) [42; 63; 92; 91; 93; 123; 125].
(** glob.cc 31-41. *)
Definition quote_meta (s : str) : str := flat_map (fun c => if is_glob_meta c then [92; c] else [c]) s.

(** ** Character classes *)

(** [char] is signed. *)
Definition signed (c : Z) : Z := if c <? 128 then c else c - 256.
(** glob.cc 149-155, 161-167: a byte of a class, which may be escaped. *)
Definition read_char (p : str) : option (Z * str) :=
  match p with
  | [] => None
  | c :: r => if c =? 92 then match r with x :: r' => Some (x, r') | [] => Some (c, r) end else Some (c, r)
  end.
(** glob.cc 156-157: what follows the '-' of a range. *)
Definition range_end (r : str) : option str :=
  match r with d :: y :: r' => if (d =? 45) && negb (y =? 93) then Some (y :: r') else None | _ => None end.
(** glob.cc 144-189: the items of a class; whether [c] is in one of them, and the pattern after the class.  [None] is npos.  [fuel]
    bounds the rounds. *)
Fixpoint class_loop (fuel : nat) (p : str) (first found : bool) (c : Z) : outcome (option (bool * str)) :=
  match fuel with
  | O => OutOfFuel
  | S n =>
      match p with
      | [] => Ok None
      | x :: r0 =>
          if negb first && (x =? 93) then Ok (Some (found, r0))
          else match read_char p with
               | None => Ok None
               | Some (lo, r) =>
                   match range_end r with
                   | Some r' =>
                       match read_char r' with
                       | None => Ok None
                       | Some (hi, r'') =>
                           if signed hi <? signed lo then Ok None
                           else class_loop n r'' false (found || ((signed lo <=? signed c) && (signed c <=? signed hi))) c
                       end
                   | None => class_loop n r false (found || (c =? lo)) c
                   end
               end
      end
  end.
(** glob.cc 127-194 [match_char_class]; [p] is what follows the '['. *)
Definition match_char_class (p : str) (c : Z) : outcome (option (bool * str)) :=
  match p with
  | x :: p' =>
      if x =? 33 then
        let! r := class_loop (S (length p')) p' true false c in
        Ok (match r with Some (found, rest) => Some (negb found, rest) | None => None end)
      else class_loop (S (length p)) p true false c
  | [] => Ok None
  end.

(** ** Alternatives *)

(** glob.cc 106-107. *)
Definition glob_max_frames : Z := 4096.
Definition glob_max_brace_depth : nat := 64.
(** glob.cc 86. *)
Definition max_bytes : Z := 10000000.
(** glob.cc 198-260 [parse_alternatives]; [p] is what follows the '{'.  The alternatives and what follows the '}'; [None] is npos. *)
Fixpoint parse_alternatives (p : str) (depth : nat) (current : str) (alts : list str) : option (list str * str) :=
  match p with
  | [] => None
  | c :: r =>
      match c =? 92, r with
      | true, x :: r' => parse_alternatives r' depth (current ++ [c; x]) alts
      | _, _ =>
          if c =? 123 then
            if (glob_max_brace_depth <? S depth)%nat then None else parse_alternatives r (S depth) (current ++ [c]) alts
          else if c =? 125 then
            match depth with
            | O | 1%nat => Some (alts ++ [current], r)
            | S d => parse_alternatives r d (current ++ [c]) alts
            end
          else if (c =? 44) && (depth =? 1)%nat then
            if glob_max_frames <? Z.of_nat (length (alts ++ [current])) then None else parse_alternatives r depth [] (alts ++ [current])
          else parse_alternatives r depth (current ++ [c]) alts
      end
  end.

(** ** The matcher *)

(** glob.cc 70-79 [GlobFrame]. *)
Record frame := { g_pattern : str; g_ti : nat; g_limit : nat }.
(** The messages of 376, 419 and 451. *)
Inductive glob_error := SyntaxError | TooComplex.
Section Match.
Variable text : str.
(** glob.cc 48-66 [DelimiterTable], and whether there are delimiters. *)
Variable delimiters : Z -> bool.
Variable has_delimiters : bool.
(** The stack with its top first, and the bytes used by the arena. *)
Definition stack := (list frame * Z)%type.
Definition full (l : list frame) : bool := glob_max_frames <=? Z.of_nat (length l).
(** glob.cc 303-311: how far a '*' reaches. *)
Fixpoint reach (t : str) : nat := match t with c :: t' => if delimiters c then O else S (reach t') | [] => O end.
(** glob.cc 289-322 [push_wildcard], from [pattern] after the '*'. *)
Definition push_wildcard (p : str) (ti : nat) (s : stack) : option stack :=
  let super := match p with c :: _ => c =? 42 | [] => false end in
  let p := if super then tl p else p in
  let wc_limit := if negb super && has_delimiters then (ti + reach (skipn ti text))%nat else length text in
  if (ti <=? wc_limit)%nat then
    if full (fst s) then None else Some ({| g_pattern := p; g_ti := ti; g_limit := wc_limit |} :: fst s, snd s)
  else Some s.
(** glob.cc 340-354: the frames of the alternatives, given last first; 90-99 [push]. *)
Fixpoint push_all (l : list str) (rest : str) (ti : nat) (s : stack) : option stack :=
  match l with
  | [] => Some s
  | a :: l' =>
      if full (fst s) then None
      else
        let bytes := snd s + Z.of_nat (length (a ++ rest)) in
        if max_bytes <? bytes then None
        else push_all l' rest ti ({| g_pattern := a ++ rest; g_ti := ti; g_limit := 0 |} :: fst s, bytes)
  end.
(** glob.cc 326-356 [push_alternatives]. *)
Definition push_alternatives (p : str) (ti : nat) (s : stack) : option stack :=
  match parse_alternatives p 1 [] [] with
  | None => Some s
  | Some (alts, rest) => push_all (rev alts) rest ti s
  end.
(** glob.cc 393-466 [match_pattern_step] with 264-284 [match_escape] and 361-386 [match_bracket_token]: the result, the index in
    the text and the stack; [inl] is nullopt.  [fuel] bounds the rounds. *)
Fixpoint match_pattern_step (fuel : nat) (p : str) (ti : nat) (s : stack) : outcome (glob_error + bool * nat * stack) :=
  match p with
  | [] => Ok (inr (true, ti, s))
  | pc :: p' =>
      match fuel with
      | O => OutOfFuel
      | S n =>
          if pc =? 92 then
            match p', nth_error text ti with
            | x :: _, Some c => if c =? x then Ok (inr (true, S ti, s)) else Ok (inr (false, ti, s))
            | _, _ => Ok (inr (false, ti, s))
            end
          else if pc =? 42 then
            match push_wildcard p' ti s with Some s => Ok (inr (false, ti, s)) | None => Ok (inl TooComplex) end
          else if pc =? 63 then
            match nth_error text ti with
            | Some c => if has_delimiters && delimiters c then Ok (inr (false, ti, s)) else match_pattern_step n p' (S ti) s
            | None => Ok (inr (false, ti, s))
            end
          else if pc =? 91 then
            match nth_error text ti with
            | None => Ok (inr (false, ti, s))
            | Some c =>
                let! r := match_char_class p' c in
                match r with
                | None => Ok (inl SyntaxError)
                | Some (char_match, next) => if char_match then match_pattern_step n next (S ti) s else Ok (inr (false, ti, s))
                end
            end
          else if pc =? 123 then
            match push_alternatives p' ti s with Some s => Ok (inr (false, ti, s)) | None => Ok (inl TooComplex) end
          else
            match nth_error text ti with
            | Some c => if c =? pc then match_pattern_step n p' (S ti) s else Ok (inr (false, ti, s))
            | None => Ok (inr (false, ti, s))
            end
      end
  end.
(** glob.cc 485-523: the loop of [glob_match_iterative]; [fuel] bounds the frames that are taken from the stack. *)
Fixpoint glob_loop (fuel : nat) (s : stack) : outcome (glob_error + bool) :=
  match fst s with
  | [] => Ok (inr false)
  | top :: l =>
      match fuel with
      | O => OutOfFuel
      | S n =>
          let l := if (0 <? g_limit top)%nat && (g_ti top <? g_limit top)%nat
                   then {| g_pattern := g_pattern top; g_ti := S (g_ti top); g_limit := g_limit top |} :: l else l in
          let! r := match_pattern_step (length (g_pattern top)) (g_pattern top) (g_ti top) (l, snd s) in
          match r with
          | inl e => Ok (inl e)
          | inr (b, ti, s) => if b && (ti =? length text)%nat then Ok (inr true) else glob_loop n s
          end
      end
  end.
(** glob.cc 472-484. *)
Definition glob_match_iterative (fuel : nat) (pattern : str) : outcome (glob_error + bool) :=
  glob_loop fuel ([{| g_pattern := pattern; g_ti := 0; g_limit := 0 |}], 0).
End Match.

(** ** Builtins *)
Section Builtins.
Variable J : json_ops.
(** glob.cc 22-43. *)
Definition glob_quote_meta (x : value) : outcome res :=
  match x with VString t => ok (mkstr (j_escape J (quote_meta (j_unescape J t)))) | _ => type_error end.
(** glob.cc 549-578: the delimiters of an array that is not empty. *)
Fixpoint delimiter_chars (l : list value) : option str :=
  match l with
  | [] => Some []
  | VString t :: l' =>
      match j_unescape J t, delimiter_chars l' with
      | [], r => r
      | [c], Some r => Some (c :: r)
      | _, _ => None
      end
  | _ :: _ => None
  end.
(** glob.cc 536-580 [parse_delimiters]: the characters, and whether they are used. *)
Definition parse_delimiters (x : value) : option (str * bool) :=
  match x with
  | VNull => Some ([], false)
  | VArray [] => Some ($".", true)
  | VArray l => match delimiter_chars l with Some chars => Some (chars, true) | None => None end
  | _ => None
  end.
(** glob.cc 582-623 [match_impl]. *)
Definition glob_match (fuel : nat) (pattern delimiters text : value) : outcome res :=
  match pattern, delimiters, text with
  | VString p, VNull, VString t | VString p, VArray _, VString t =>
      match parse_delimiters delimiters with
      | None => Ok (RErr EvalBuiltInError)
      | Some (chars, enabled) =>
          let! r := glob_match_iterative (j_unescape J t) (fun c => existsb (Z.eqb c) chars) enabled fuel (j_unescape J p) in
          match r with inl _ => Ok (RErr EvalBuiltInError) | inr b => ok (vbool b) end
      end
  | _, _, _ => type_error
  end.
End Builtins.
