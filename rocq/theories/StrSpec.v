(** Vocabulary for the properties of the string builtins. *)
From Coq Require Import String ZArith List Bool Lia.
From Verif Require Import Base BigIntSpec BigIntModel SMap ValueModel ValueSpec StrModel.
Import ListNotations.
Local Open Scope Z_scope.
Local Open Scope list_scope.

(** ** UTF-8 (RFC 3629) *)

Definition valid_rune (c : Z) : Prop := 0 <= c < 0xD800 \/ 0xE000 <= c < 0x110000.
Definition enc (c : Z) : str :=
  if c <? 0x80 then [c]
  else if c <? 0x800 then [0xC0 + c / 64; 0x80 + c mod 64]
  else if c <? 0x10000 then [0xE0 + c / 4096; 0x80 + (c / 64) mod 64; 0x80 + c mod 64]
  else [0xF0 + c / 262144; 0x80 + (c / 4096) mod 64; 0x80 + (c / 64) mod 64; 0x80 + c mod 64].
Definition utf8 (rs : list Z) : str := flat_map enc rs.

(** The library used for UTF-8 is right on well-formed text, and unescaping changes nothing where there is no backslash. *)
Definition codec_ok (T : text_ops) : Prop :=
  (forall rs, Forall valid_rune rs -> t_runes T (utf8 rs) = rs /\ t_text T rs = utf8 rs) /\
  (forall c t, valid_rune c -> t_first T (enc c ++ t) = length (enc c)) /\
  (forall t, ~ In 92 t -> t_unescape T t = t).

(** Characters that stand for themselves between JSON quotes.  [S rs] is the string value with these characters. *)
Definition plain (rs : list Z) : Prop := Forall (fun c => valid_rune c /\ 32 <= c /\ c <> 34 /\ c <> 92) rs.
Definition S_ (rs : list Z) : value := VString (utf8 rs).

(** ** Sequences *)

(** [pat] occurs in [x] at index [i]. *)
Definition occurs_at {A} (pat x : list A) (i : nat) : Prop := exists a b, x = a ++ pat ++ b /\ length a = i.
Definition occurs {A} (pat x : list A) : Prop := exists i, occurs_at pat x i.

(** [x] cut at the delimiters, taken from left to right without overlap. *)
Inductive pieces {A} (d : list A) : list A -> list (list A) -> Prop :=
| pieces_last x : ~ occurs d x -> pieces d x [x]
| pieces_cons p x ps :
    (forall i, occurs_at d (p ++ d ++ x) i -> (length p <= i)%nat) -> pieces d x ps -> pieces d (p ++ d ++ x) (p :: ps).
Fixpoint intercalate {A} (d : list A) (l : list (list A)) : list A :=
  match l with
  | [] => []
  | [x] => x
  | x :: l' => x ++ d ++ intercalate d l'
  end.

(** [y] is [x] without the longest prefix (if [left]) and suffix (if [right]) of characters in [cut]. *)
Definition trimmed (cut : list Z) (left right : bool) (x y : list Z) : Prop :=
  exists a b, x = a ++ y ++ b /\
    Forall (fun c => In c cut) a /\ Forall (fun c => In c cut) b /\
    (left = false -> a = []) /\ (right = false -> b = []) /\
    (left = true -> forall c t, y = c :: t -> ~ In c cut) /\
    (right = true -> forall c t, y = t ++ [c] -> ~ In c cut).

(** The number a numeral of digits 0-9a-z in some base stands for. *)
Definition digit_value (c : Z) : Z := if c <? 58 then c - 48 else c - 87.
Definition numeral_value (base : Z) (t : str) : Z := fold_left (fun a c => a * base + digit_value c) t 0.
Definition is_numeral (base : Z) (t : str) : Prop :=
  t <> [] /\ Forall (fun c => (48 <= c <= 57 \/ 97 <= c <= 122) /\ digit_value c < base) t /\
  (forall c t', t = c :: t' -> t' <> [] -> c <> 48).

(** Text between JSON quotes: no bare quote, and every backslash starts one of the escapes. *)
Fixpoint json_text (t : str) : bool :=
  match t with
  | [] => true
  | c :: t' =>
      if c =? 34 then false
      else if c =? 92 then
        match t' with
        | [] => false
        | e :: t'' => existsb (Z.eqb e) [34; 92; 47; 98; 102; 110; 114; 116; 117] && json_text t''
        end
      else json_text t'
  end.
(** The text a JSON-escaped text stands for; \u escapes are left as they are. *)
Fixpoint unescaped (t : str) : str :=
  match t with
  | [] => []
  | c :: t' =>
      if c =? 92 then
        match t' with
        | [] => [c]
        | e :: t'' =>
            if (e =? 34) || (e =? 92) || (e =? 47) then e :: unescaped t''
            else if e =? 98 then 8 :: unescaped t''
            else if e =? 102 then 12 :: unescaped t''
            else if e =? 110 then 10 :: unescaped t''
            else if e =? 114 then 13 :: unescaped t''
            else if e =? 116 then 9 :: unescaped t''
            else c :: e :: unescaped t''
        end
      else c :: unescaped t'
  end.

(** ** A library that meets [codec_ok] *)

Definition rune_len (b : Z) : nat :=
  if b <? 0x80 then 1%nat else if b <? 0xE0 then 2%nat else if b <? 0xF0 then 3%nat else 4%nat.
Definition rune_of (l : str) : Z :=
  match l with
  | [a] => a
  | [a; b] => (a - 0xC0) * 64 + (b - 0x80)
  | [a; b; c] => (a - 0xE0) * 4096 + (b - 0x80) * 64 + (c - 0x80)
  | [a; b; c; d] => (a - 0xF0) * 262144 + (b - 0x80) * 4096 + (c - 0x80) * 64 + (d - 0x80)
  | _ => 0xFFFD
  end.
Fixpoint decode (fuel : nat) (t : str) : list Z :=
  match fuel, t with
  | S k, b :: _ => rune_of (firstn (rune_len b) t) :: decode k (skipn (rune_len b) t)
  | _, _ => []
  end.
Definition text_ops0 : text_ops := {|
  t_runes := fun t => decode (length t) t;
  t_text := utf8;
  t_first := fun t => match t with [] => O | b :: _ => rune_len b end;
  t_unescape := unescaped;
  t_floor := fun _ => None
|}.
