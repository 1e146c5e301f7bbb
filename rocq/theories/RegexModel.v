(** Model of src/builtins/regex.cc 1-676: regex.match, is_valid, replace, find_n, find_all_string_submatch_n, split and
    template_match.  The regular expressions themselves are those of the C++ library ([std::regex]), which is a record of functions
    here.  Strings are bytes, still JSON-escaped, as in the code. *)
From Coq Require Import String ZArith List Bool.
From Verif Require Import Base BigIntModel ValueModel ResolverModel VmModel StrModel.
Import ListNotations.
Local Open Scope Z_scope.
Local Open Scope list_scope.

(** [std::smatch]: where the match is, and the texts of its groups. *)
Record rmatch := RMatch { rm_pos : nat; rm_len : nat; rm_groups : list str }.
(** What a search ends with; [Fails] is a [std::regex_error] thrown while searching. *)
Inductive found := Found (m : rmatch) | NotFound | Fails.
(** The C++ library: whether [std::regex re(pattern)] succeeds; [regex_search] in the part of a text from an index on, with
    [match_not_null | match_continuous] or without, and with [match_prev_avail] or without; [regex_match], [None] when it throws;
    [regex_replace], [None] when it throws. *)
Record regex_lib := {
  rx_valid : str -> bool;
  rx_search : str -> bool -> bool -> str -> nat -> found;
  rx_match : str -> str -> option bool;
  rx_replace : str -> str -> str -> option str
}.

Section Regex.
Variable L : regex_lib.
Variable T : text_ops.

Definition regex_error : outcome res := Ok (RErr EvalBuiltInError).
(** [match.prefix()], [match[0]], [match.suffix()] of a search in [s]. *)
Definition before (s : str) (m : rmatch) : str := firstn (rm_pos m) s.
Definition hit (s : str) (m : rmatch) : str := firstn (rm_len m) (skipn (rm_pos m) s).
Definition after (s : str) (m : rmatch) : str := skipn (rm_pos m + rm_len m) s.
(** [std::regex_search(value, match, re)]. *)
Definition search (p s : str) : found := rx_search L p false false s 0.

(** regex.cc 118-151 [match]. *)
Definition regex_match (pattern v : value) : outcome res :=
  match pattern, v with
  | VString p, VString s =>
      let p := t_unescape T p in
      if rx_valid L p then
        match search p s with Found _ => ok (vbool true) | NotFound => ok (vbool false) | Fails => regex_error end
      else regex_error
  | _, _ => type_error
  end.

(** regex.cc 170-191 [is_valid]. *)
Definition regex_is_valid (pattern : value) : outcome res :=
  match pattern with VString p => ok (vbool (rx_valid L (t_unescape T p))) | _ => ok (vbool false) end.

(** regex.cc 208-247 [replace]. *)
Definition regex_replace (s pattern v : value) : outcome res :=
  match s, pattern, v with
  | VString s, VString p, VString r =>
      let p := t_unescape T p in
      if rx_valid L p then
        match rx_replace L p s (t_unescape T r) with Some t => ok (VString t) | None => regex_error end
      else regex_error
  | _, _, _ => type_error
  end.

(** [++it] of a [std::sregex_iterator] at the match [m]; [prev] is whether [match_prev_avail] is set already.  This is the standard's
    description of the operator (28.12.1.4, [re.regiter.incr]). *)
Definition it_next (p s : str) (prev : bool) (m : rmatch) : found :=
  let start := (rm_pos m + rm_len m)%nat in
  if Nat.eqb (rm_len m) 0 then
    if Nat.eqb start (length s) then NotFound
    else match rx_search L p true prev s start with
         | Found m' => Found m'
         | NotFound => rx_search L p false true s (S start)
         | Fails => Fails
         end
  else rx_search L p false true s start.
(** Whether [match_prev_avail] is set after that [++it]: it is, unless the match found is behind a match of length 0 at once. *)
Definition it_prev (p s : str) (prev : bool) (m : rmatch) : bool :=
  let start := (rm_pos m + rm_len m)%nat in
  if Nat.eqb (rm_len m) 0 then match rx_search L p true prev s start with Found _ => prev | _ => true end else true.

(** regex.cc 317-320: the loop of [find_n]; an exception of the search leaves the function. *)
Fixpoint find_loop (fuel : nat) (p s : str) (i number : Z) (prev : bool) (it : found) : outcome (list rmatch) :=
  match fuel with
  | O => OutOfFuel
  | S n =>
      match it with
      | Fails => Throw
      | NotFound => Ok []
      | Found m =>
          if i <? number then
            let! ms := find_loop n p s (i + 1) number (it_prev p s prev m) (it_next p s prev m) in
            Ok (m :: ms)
          else Ok []
      end
  end.
(** regex.cc 315-320. *)
Definition find_matches (p s : str) (number : Z) : outcome (list rmatch) :=
  find_loop (2 * length s + 3) p s 0 number false (search p s).
(** regex.cc 269-323 [find_n]. *)
Definition regex_find_n (pattern v number : value) : outcome res :=
  match pattern, v, number with
  | VString p, VString s, VInt k =>
      let p := t_unescape T p in
      match bi_to_size k with
      | None => regex_error
      | Some n =>
          if rx_valid L p then
            let! ms := find_matches p s n in
            ok (VArray (map (fun m => VString (hit s m)) ms))
          else regex_error
      end
  | _, _, _ => type_error
  end.

(** regex.cc 394-426: the loop of [find_all_string_submatch_n]; the rows of the result.  [fuel] bounds the rounds. *)
Fixpoint all_loop (fuel : nat) (p s : str) (i number : Z) : outcome (list (list str)) :=
  match fuel with
  | O => OutOfFuel
  | S n =>
      if (i <? number) && negb (Nat.eqb (length s) 0) then
        match search p s with
        | Fails => Throw
        | NotFound => Ok []
        | Found m =>
            let row := hit s m :: rm_groups m in
            if Nat.eqb (rm_len m) 0 then
              let consumed := t_first T s in
              if (length s <=? consumed)%nat then Ok [row]
              else let! rows := all_loop n p (skipn consumed s) (i + 1) number in Ok (row :: rows)
            else let! rows := all_loop n p (after s m) (i + 1) number in Ok (row :: rows)
        end
      else Ok []
  end.
(** regex.cc 346-429 [find_all_string_submatch_n]. *)
Definition regex_find_all (pattern v number : value) : outcome res :=
  match pattern, v, number with
  | VString p, VString s, VInt k =>
      let p := t_unescape T p in
      match bi_to_size k with
      | None => regex_error
      | Some n =>
          if rx_valid L p then
            let! rows := all_loop (S (length s)) p s 0 n in
            ok (VArray (map (fun row => VArray (map VString row)) rows))
          else regex_error
      end
  | _, _, _ => type_error
  end.

(** regex.cc 489-502: the loop of [split].  [fuel] bounds the rounds. *)
Fixpoint split_loop (fuel : nat) (p s : str) : outcome (list str) :=
  match fuel with
  | O => OutOfFuel
  | S n =>
      match search p s with
      | Fails => Throw
      | NotFound => Ok [s]
      | Found m =>
          match s with
          | [] => Ok [s]
          | _ :: _ => let! r := split_loop n p (after s m) in Ok (before s m :: r)
          end
      end
  end.
(** regex.cc 458-505 [split]. *)
Definition regex_split (fuel : nat) (pattern v : value) : outcome res :=
  match pattern, v with
  | VString p, VString s =>
      let p := t_unescape T p in
      if rx_valid L p then
        let! r := split_loop fuel p s in ok (VArray (map VString r))
      else regex_error
  | _, _ => type_error
  end.

End Regex.

(** ** Templates *)

(** regex.cc 524-534 [Section]. *)
Inductive section := Literal (t : str) | Regex (t : str).

(** regex.cc 541-570: the loop and what follows it; [regex_start] is [None] for npos.  [fuel] bounds the rounds. *)
Fixpoint template_loop (fuel : nat) (t ds de : str) (start : nat) (regex_start : option nat) : outcome (list section) :=
  match fuel with
  | O => OutOfFuel
  | S n =>
      let rest := if (start <? length t)%nat then [Literal (skipn start t)] else [] in
      match regex_start with
      | None => Ok rest
      | Some k =>
          let k := (k + length ds)%nat in
          match find_from de t k with
          | None => Ok rest
          | Some e =>
              let start' := (e + length de)%nat in
              let! r := template_loop n t ds de start' (find_from ds t start') in
              Ok ((if (start <? k)%nat then [Literal (substr t start (k - start - length ds))] else []) ++ Regex (substr t k (e - k)) :: r)
          end
      end
  end.
(** regex.cc 536-574 [parse_template]. *)
Definition parse_template (fuel : nat) (t ds de : str) : outcome (list section) := template_loop fuel t ds de 0 (find_from ds t 0).
(** regex.cc 584-594. *)
Definition section_pattern (x : section) : str := match x with Literal t => t | Regex t => $"(?:" ++ t ++ $")" end.
(** regex.cc 576-596 [compile_template]. *)
Definition compile_template (fuel : nat) (t ds de : str) : outcome str :=
  let! l := parse_template fuel t ds de in Ok (flat_map section_pattern l).
(** regex.cc 598-646 [template_match]. *)
Definition regex_template_match (L : regex_lib) (T : text_ops) (fuel : nat) (template v delim_start delim_end : value) : outcome res :=
  match template, v, delim_start, delim_end with
  | VString t, VString s, VString ds, VString de =>
      let! p := compile_template fuel (t_unescape T t) ds de in
      if rx_valid L p then
        match rx_match L p s with Some b => ok (vbool b) | None => regex_error end
      else regex_error
  | _, _, _, _ => type_error
  end.
