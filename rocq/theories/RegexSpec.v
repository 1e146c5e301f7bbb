(** Vocabulary for the regex builtins (C60): what is assumed of the C++ library, and what a list of matches should be. *)
From Coq Require Import String ZArith List Bool.
From Verif Require Import Base ValueModel StrModel StrSpec RegexModel.
Import ListNotations.

(** The library finds matches inside the part of the text it searches; told to match at the start and not nothing, it does. *)
Definition lib_ok (L : regex_lib) : Prop :=
  forall p c prev s i m, rx_search L p c prev s i = Found m ->
    i <= rm_pos m /\ rm_pos m + rm_len m <= length s /\ (c = true -> rm_pos m = i /\ 0 < rm_len m).
(** It throws no exception while searching. *)
Definition lib_calm (L : regex_lib) : Prop := forall p c prev s i, rx_search L p c prev s i <> Fails.
(** [R p s i j]: pattern [p] matches the part of [s] from [i] to [j].  The library finds a leftmost match. *)
Definition finds (R : str -> str -> nat -> nat -> Prop) (L : regex_lib) : Prop :=
  forall p prev s i, prev = true \/ i = 0 ->
    match rx_search L p false prev s i with
    | Found m => R p s (rm_pos m) (rm_pos m + rm_len m) /\ forall a b, R p s a b -> i <= a -> rm_pos m <= a
    | NotFound => forall a b, R p s a b -> ~ i <= a
    | Fails => True
    end.
(** UTF-8 decoding consumes at least a byte. *)
Definition first_ok (T : text_ops) : Prop := forall s, s <> [] -> 0 < t_first T s.

(** The matches are in the text, from left to right, without overlap or repetition. *)
Definition in_text (s : str) (m : rmatch) : Prop := rm_pos m + rm_len m <= length s.
Definition in_order (ms : list rmatch) : Prop :=
  forall a m m' b, ms = a ++ m :: m' :: b -> rm_pos m + rm_len m <= rm_pos m' /\ rm_pos m < rm_pos m' + rm_len m'.
(** Nothing is left out: a match starts within, or where, one of the matches starts. *)
Definition none_missed (R : str -> str -> nat -> nat -> Prop) (p s : str) (ms : list rmatch) : Prop :=
  forall i j, R p s i j -> exists m, In m ms /\ (i = rm_pos m \/ rm_pos m <= i < rm_pos m + rm_len m).

(** Texts with separators between them. *)
Fixpoint weave (l seps : list str) : str :=
  match l, seps with
  | x :: l', y :: seps' => x ++ y ++ weave l' seps'
  | x :: _, [] => x
  | [], _ => []
  end.

(** How a template is written. *)
Definition section_text (ds de : str) (x : section) : str := match x with Literal t => t | Regex t => ds ++ t ++ de end.
(** A literal part before a regular expression contains no opening delimiter, the last one no delimited part, and a regular
    expression no closing delimiter. *)
Definition tidy (ds de : str) (l : list section) : Prop :=
  (forall a x b, l = a ++ Literal x :: b -> b <> [] -> ~ occurs ds x) /\
  (forall a x, l = a ++ [Literal x] -> ~ exists i j, occurs_at ds x i /\ i + length ds <= j /\ occurs_at de x j) /\
  (forall x, In (Regex x) l -> x = [] \/ ~ occurs de x).
