(** src/builtins/regex.cc 677-1381: [regex.globs_match], whether two globs have a common text.

    A pattern is the list of its code points ([json::unescape] and [utf8::utf8_to_runestring] come from Trieste, outside this
    repository).  Positions are natural numbers: none of them is decremented below zero. *)
From Coq Require Import String ZArith List Bool Arith.
From Verif Require Import Base SMap.
Import ListNotations.
Local Open Scope Z_scope.

(** Lines 691-696 [GTokenType], 705-735 [GToken]: the character or the set is kept with the type that uses it. *)
Inductive gkind := KChar (c : Z) | KDot | KSet (runes : list Z).
(** Lines 698-703 [GFlag]. *)
Inductive gflag := FNone | FPlus | FStar.
(** Lines 705-735 [GToken]. *)
Record gtoken := Tok { t_kind : gkind; t_flag : gflag }.
(** Line 756 [GGlob]. *)
Definition glob := list gtoken.

Definition is_none (f : gflag) : bool := match f with FNone => true | _ => false end.
Definition is_plus (f : gflag) : bool := match f with FPlus => true | _ => false end.

(** Lines 737-753 [GToken::equal]. *)
Definition kind_equal (a b : gkind) : bool :=
  match a, b with
  | KChar x, KChar y => x =? y
  | KDot, KDot => true
  | KSet x, KSet y => str_eqb x y
  | _, _ => false
  end.

(** [std::binary_search] on a sorted vector: the first element that is not less than the key. *)
Fixpoint binary_search (l : list Z) (x : Z) : bool :=
  match l with
  | [] => false
  | y :: l' => if y <? x then binary_search l' x else negb (x <? y)
  end.

(** Lines 786-800, the loop over two sorted vectors. *)
Fixpoint share (a : list Z) : list Z -> bool :=
  fix go (b : list Z) : bool :=
    match a, b with
    | x :: a', y :: b' => if x =? y then true else if x <? y then share a' b else go b'
    | _, _ => false
    end.

(** The order of [GTokenType], lines 691-696. *)
Definition rank (k : gkind) : Z := match k with KChar _ => 0 | KDot => 1 | KSet _ => 2 end.

(** Lines 759-804 [gmatch]. *)
Definition gmatch (t1 t2 : gtoken) : bool :=
  let a := if rank (t_kind t1) <=? rank (t_kind t2) then t_kind t1 else t_kind t2 in
  let b := if rank (t_kind t1) <=? rank (t_kind t2) then t_kind t2 else t_kind t1 in
  match a with
  | KChar x =>
      match b with
      | KChar y => x =? y
      | KDot => true
      | KSet rs => binary_search rs x
      end
  | KDot => true
  | KSet xs => match b with KSet ys => share xs ys | _ => false end
  end.

(** *** Reading a pattern *)

(** The details of the messages of [globs_error_msg], lines 806-811. *)
Inductive gerror := RangeUnfinished | RangeSpecial | RangeOrder | RangeTooLarge | EndsInEscape | RangeNoStart | SetOpen | SetClose | FlagFirst.
(** A result, or a message about a position. *)
Inductive parsed (A : Type) := Fine (a : A) | Bad (pos : nat) (e : gerror).
Arguments Fine {A} a. Arguments Bad {A} pos e.

(** [runes[i]]; beyond the end this is undefined. *)
Definition rune_at (runes : list Z) (i : nat) : outcome Z := match nth_error runes i with Some r => Ok r | None => Ub end.

Definition BSL := 92. Definition DOT := 46. Definition LSQ := 91. Definition RSQ := 93.
Definition MINUS := 45. Definition PLUS := 43. Definition STAR := 42.

(** Lines 814-821 [gapply_flag]: the flag and the next position. *)
Definition apply_flag (runes : list Z) (i : nat) : outcome (gflag * nat) :=
  if (i <? length runes)%nat then
    let! r := rune_at runes i in
    if (r =? PLUS) || (r =? STAR) then Ok (if r =? PLUS then FPlus else FStar, S i) else Ok (FNone, i)
  else Ok (FNone, i).

(** Line 827. *)
Definition max_total_set_runes : Z := 1048576.

(** The loop of lines 889-892. *)
Definition upto (a b : Z) : list Z := map (fun k => a + Z.of_nat k) (seq 0 (Z.to_nat (b - a + 1))).

(** Lines 832-896 [gtokenize_set_range]: the position behind the range, the characters so far and their number. *)
Definition set_range (runes : list Z) (i : nat) (prev : Z) (acc : list Z) (total : Z) : outcome (parsed (nat * list Z * Z)) :=
  if (length runes - 1 <=? i)%nat then Ok (Bad (i + 1) RangeUnfinished) else
  let i := S i in
  let! r0 := rune_at runes i in
  let! '(i, r, escaped) :=
    if (r0 =? BSL) && (i <? length runes - 1)%nat then let! r1 := rune_at runes (S i) in Ok (S i, r1, true) else Ok (i, r0, false) in
  if negb escaped && ((r =? RSQ) || (r =? MINUS)) then Ok (Bad (i + 1) RangeSpecial) else
  if r <? prev then Ok (Bad (i + 1) RangeOrder) else
  if 65536 <? r - prev then Ok (Bad (i + 1) RangeTooLarge) else
  let size := r - prev + 1 in
  if max_total_set_runes <? total + size then Ok (Bad (i + 1) RangeTooLarge) else
  Ok (Fine (S i, acc ++ upto prev r, total + size)).

(** Lines 900-969 [gtokenize_set]; [prev] is [None] while [prev_exists] is false. *)
Fixpoint tokenize_set (fuel : nat) (runes : list Z) (i : nat) (prev : option Z) (acc : list Z) (total : Z)
  : outcome (parsed (nat * list Z * Z)) :=
  match fuel with
  | O => OutOfFuel
  | S fuel =>
      if (i <? length runes)%nat then
        let! r0 := rune_at runes i in
        if (r0 =? BSL) && negb (i <? length runes - 1)%nat then Ok (Bad i EndsInEscape) else
        let! '(i, r, escaped) := if r0 =? BSL then let! r1 := rune_at runes (S i) in Ok (S i, r1, true) else Ok (i, r0, false) in
        if negb escaped && (r =? MINUS) then
          match prev with
          | None => Ok (Bad (i + 1) RangeNoStart)
          | Some p =>
              let! x := set_range runes i p acc total in
              match x with
              | Bad pos e => Ok (Bad pos e)
              | Fine (i, acc, total) => tokenize_set fuel runes i None acc total
              end
          end
        else if negb escaped && (r =? RSQ) then Ok (Fine (S i, acc, total))
        else tokenize_set fuel runes (S i) (Some r) (acc ++ [r]) (total + 1)
      else Ok (Bad i SetOpen)
  end.

(** [std::unique] and [erase]. *)
Fixpoint unique (l : list Z) : list Z :=
  match l with
  | x :: (y :: _) as l' => if x =? y then unique l' else x :: unique l'
  | _ => l
  end.

(** Lines 973-1054 [gtokenize]. *)
Fixpoint tokenize_from (fuel : nat) (runes : list Z) (i : nat) (total : Z) (tokens : glob) : outcome (parsed (glob * Z)) :=
  match fuel with
  | O => OutOfFuel
  | S fuel =>
      if (i <? length runes)%nat then
        let! r := rune_at runes i in
        if r =? BSL then
          if (i =? length runes - 1)%nat then Ok (Bad i EndsInEscape) else
          let! c := rune_at runes (S i) in
          let! '(f, i) := apply_flag runes (S (S i)) in
          tokenize_from fuel runes i total (tokens ++ [Tok (KChar c) f])
        else if r =? DOT then
          let! '(f, i) := apply_flag runes (S i) in
          tokenize_from fuel runes i total (tokens ++ [Tok KDot f])
        else if r =? RSQ then Ok (Bad (i + 1) SetClose)
        else if r =? LSQ then
          let! x := tokenize_set (S (length runes)) runes (S i) None [] total in
          match x with
          | Bad pos e => Ok (Bad pos e)
          | Fine (i, acc, total) =>
              let! '(f, i) := apply_flag runes i in
              tokenize_from fuel runes i total (tokens ++ [Tok (KSet (unique (sort_by Z.ltb acc))) f])
          end
        else if (r =? PLUS) || (r =? STAR) then Ok (Bad (i + 1) FlagFirst)
        else
          let! '(f, i) := apply_flag runes (S i) in
          tokenize_from fuel runes i total (tokens ++ [Tok (KChar r) f])
      else Ok (Fine (tokens, total))
  end.
(** The tokens and how many characters the sets were given. *)
Definition tokenize_total (runes : list Z) : outcome (parsed (glob * Z)) := tokenize_from (S (length runes)) runes 0 0 [].
Definition tokenize (runes : list Z) : outcome (parsed glob) :=
  let! x := tokenize_total runes in
  match x with Fine (g, _) => Ok (Fine g) | Bad pos e => Ok (Bad pos e) end.

(** Lines 1065-1079 [needs_merge]. *)
Fixpoint needs_merge (g : glob) : bool :=
  match g with
  | a :: (b :: _) as g' => (negb (is_none (t_flag b)) && negb (is_none (t_flag a)) && kind_equal (t_kind b) (t_kind a)) || needs_merge g'
  | _ => false
  end.

(** Lines 1085-1105, the loop: [back] is [result.back()], what is before it is emitted. *)
Fixpoint merge (back : gtoken) (g : glob) : glob :=
  match g with
  | [] => [back]
  | t :: g' =>
      if negb (is_none (t_flag t)) && negb (is_none (t_flag back)) && kind_equal (t_kind t) (t_kind back) then
        merge (Tok (t_kind back) (if is_plus (t_flag t) || is_plus (t_flag back) then FPlus else FStar)) g'
      else back :: merge t g'
  end.

(** Lines 1057-1107 [gsimplify]. *)
Definition simplify (g : glob) : glob :=
  match g with
  | [] => []
  | t :: g' => if needs_merge g then merge t g' else g
  end.

(** *** The intersection test *)

(** Lines 1115-1129 [GSpan]: the tokens of the span. *)
Definition span := glob.
(** [GSpan::operator[]]; beyond the end this is undefined (or another token of the glob, which no caller intends). *)
Definition tok_at (g : span) (i : nat) : outcome gtoken := match nth_error g i with Some t => Ok t | None => Ub end.

(** Lines 1131-1137 [GIFrame]. *)
Record frame := Frame { fr_1 : span; fr_i : nat; fr_2 : span; fr_j : nat }.

(** Line 1139. *)
Definition gi_max_frames : nat := 4096.

(** Lines 1144-1161 [gintersect_advance]: [None] is a mismatch. *)
Fixpoint advance (fuel : nat) (g1 : span) (i : nat) (g2 : span) (j : nat) : outcome (option (nat * nat)) :=
  match fuel with
  | O => OutOfFuel
  | S fuel =>
      if (i <? length g1)%nat && (j <? length g2)%nat then
        let! a := tok_at g1 i in
        let! b := tok_at g2 j in
        if negb (is_none (t_flag a)) || negb (is_none (t_flag b)) then Ok (Some (i, j))
        else if negb (gmatch a b) then Ok None
        else advance fuel g1 (S i) g2 (S j)
      else Ok (Some (i, j))
  end.

(** Lines 1180-1191, the loop of [gintersect_expand_star]: the candidates and [loop_completed]. *)
Fixpoint candidates (fuel : nat) (token : gtoken) (next : option gtoken) (other : span) (k : nat) (acc : list nat)
  : outcome (list nat * bool) :=
  match fuel with
  | O => OutOfFuel
  | S fuel =>
      if (k <? length other)%nat then
        let! o := tok_at other k in
        let acc := match next with Some n => if gmatch o n then acc ++ [k] else acc | None => acc end in
        if negb (gmatch o token) then Ok (acc, false) else candidates fuel token next other (S k) acc
      else Ok (acc, true)
  end.

(** Lines 1198-1205: the vector's back is the head of the list; [None] is too complex. *)
Fixpoint push_all (flagged : span) (fi : nat) (other : span) (ks : list nat) (stack : list frame) : option (list frame) :=
  match ks with
  | [] => Some stack
  | k :: ks =>
      if (gi_max_frames <=? length stack)%nat then None else push_all flagged fi other ks (Frame flagged (fi + 1) other k :: stack)
  end.

(** Lines 1167-1207 [gintersect_expand_star]: [None] is too complex, otherwise the result and the stack. *)
Definition expand_star (flagged : span) (fi : nat) (other : span) (oi : nat) (stack : list frame) : outcome (option (bool * list frame)) :=
  let! token := tok_at flagged fi in
  let has_next := (fi + 1 <? length flagged)%nat in
  let! next := if has_next then let! n := tok_at flagged (fi + 1) in Ok (Some n) else Ok None in
  let! '(ks, completed) := candidates (S (length other)) token next other oi [] in
  if completed && negb has_next then Ok (Some (true, stack)) else
  Ok (match push_all flagged fi other (rev ks) stack with Some st => Some (false, st) | None => None end).

(** Lines 1216-1271, the body of the loop of [gintersect] for the popped frame: [None] is too complex, [Some (true, _)] a
    common text, [Some (false, st)] goes on with [st]. *)
Definition visit (f : frame) (stack : list frame) : outcome (option (bool * list frame)) :=
  let g1 := fr_1 f in let g2 := fr_2 f in
  let! adv := advance (S (length g1)) g1 (fr_i f) g2 (fr_j f) in
  match adv with
  | None => Ok (Some (false, stack))
  | Some (i, j) =>
      if (i =? length g1)%nat && (j =? length g2)%nat then Ok (Some (true, stack)) else
      if (length g1 <=? i)%nat || (length g2 <=? j)%nat then Ok (Some (false, stack)) else
      let! a := tok_at g1 i in
      let flagged1 := negb (is_none (t_flag a)) in
      let flagged := if flagged1 then g1 else g2 in
      let fi := if flagged1 then i else j in
      let other := if flagged1 then g2 else g1 in
      let oi := if flagged1 then j else i in
      let! token := tok_at flagged fi in
      if is_plus (t_flag token) then
        if (length other <=? oi)%nat then Ok (Some (false, stack)) else
        let! o := tok_at other oi in
        if negb (gmatch token o) then Ok (Some (false, stack)) else
        if negb (is_none (t_flag o)) then
          if (gi_max_frames <=? length stack)%nat then Ok None else
          expand_star flagged fi other (S oi) (Frame flagged (fi + 1) other oi :: stack)
        else expand_star flagged fi other (S oi) stack
      else expand_star flagged fi other oi stack
  end.

(** Lines 1210-1274 [gintersect], its loop: [None] is too complex. *)
Fixpoint intersect_loop (fuel : nat) (stack : list frame) : outcome (option bool) :=
  match fuel with
  | O => OutOfFuel
  | S fuel =>
      match stack with
      | [] => Ok (Some false)
      | f :: stack =>
          let! x := visit f stack in
          match x with
          | None => Ok None
          | Some (true, _) => Ok (Some true)
          | Some (false, st) => intersect_loop fuel st
          end
      end
  end.
Definition gintersect (fuel : nat) (s1 s2 : span) : outcome (option bool) := intersect_loop fuel [Frame s1 0 s2 0].

(** Lines 1294-1306: the loop over the common prefix. *)
Fixpoint trim_left (fuel : nat) (g1 g2 : glob) (l : nat) : outcome (option nat) :=
  match fuel with
  | O => OutOfFuel
  | S fuel =>
      if (l <? length g1)%nat && (l <? length g2)%nat then
        let! a := tok_at g1 l in
        let! b := tok_at g2 l in
        if is_none (t_flag a) && is_none (t_flag b) then
          if negb (gmatch a b) then Ok None else trim_left fuel g1 g2 (S l)
        else Ok (Some l)
      else Ok (Some l)
  end.
(** Lines 1310-1320: the loop over the common suffix. *)
Fixpoint trim_right (fuel : nat) (g1 g2 : glob) (l r1 r2 : nat) : outcome (option (nat * nat)) :=
  match fuel with
  | O => OutOfFuel
  | S fuel =>
      if (l + 1 <? r1)%nat && (l + 1 <? r2)%nat then
        let! a := tok_at g1 (r1 - 1) in
        let! b := tok_at g2 (r2 - 1) in
        if is_none (t_flag a) && is_none (t_flag b) then
          if negb (gmatch a b) then Ok None else trim_right fuel g1 g2 l (r1 - 1) (r2 - 1)
        else Ok (Some (r1, r2))
      else Ok (Some (r1, r2))
  end.
(** Lines 1286-1328 [trim_matching_affixes]; the failing assertion is [Ub]. *)
Definition trim (g1 g2 : glob) : outcome (option (nat * nat * nat)) :=
  let! x := trim_left (S (length g1)) g1 g2 0 in
  match x with
  | None => Ok None
  | Some l =>
      let l := if (0 <? l)%nat then (l - 1)%nat else l in
      let! y := trim_right (S (length g1)) g1 g2 l (length g1) (length g2) in
      match y with
      | None => Ok None
      | Some (r1, r2) =>
          let '(r1, r2) := if (r1 <? length g1)%nat then (S r1, S r2) else (r1, r2) in
          if (l <=? r1)%nat && (l <=? r2)%nat then Ok (Some (l, r1, r2)) else Ub
      end
  end.

(** [GSpan{&g, l, r}] (lines 1371-1372); a span that ends behind its glob is undefined to read, so it is undefined here. *)
Definition span_of (g : glob) (l r : nat) : outcome span :=
  if (r <=? length g)%nat then Ok (firstn (r - l) (skipn l g)) else Ub.

(** What [regex.globs_match] answers: a boolean, an error about one of the patterns, or "glob pattern too complex". *)
Inductive answer := Answer (b : bool) | Invalid (second : bool) (pos : nat) (e : gerror) | TooComplex.

(** Lines 1346-1380 [globs_match] on the code points of its two arguments; [fuel] bounds the visits of frames. *)
Definition globs_match (fuel : nat) (runes1 runes2 : list Z) : outcome answer :=
  let! x1 := tokenize runes1 in
  match x1 with
  | Bad pos e => Ok (Invalid false pos e)
  | Fine tokens1 =>
      let! x2 := tokenize runes2 in
      match x2 with
      | Bad pos e => Ok (Invalid true pos e)
      | Fine tokens2 =>
          let g1 := simplify tokens1 in
          let g2 := simplify tokens2 in
          let! t := trim g1 g2 in
          match t with
          | None => Ok (Answer false)
          | Some (l, r1, r2) =>
              let! s1 := span_of g1 l r1 in
              let! s2 := span_of g2 l r2 in
              let! x := gintersect fuel s1 s2 in
              Ok (match x with Some b => Answer b | None => TooComplex end)
          end
      end
  end.
