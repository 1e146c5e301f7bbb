(** Vocabulary for regex.globs_match (C59): how globs are written, which texts they match. *)
From Coq Require Import String ZArith List Bool Sorting.Sorted.
From Verif Require Import Base GlobsModel.
Import ListNotations.
Local Open Scope Z_scope.

(** *** Which texts a glob matches *)

(** One character. *)
Definition has (k : gkind) (c : Z) : Prop :=
  match k with
  | KChar x => c = x
  | KDot => True
  | KSet rs => In c rs
  end.

(** A token without flag matches one character, with [+] one or more, with [*] any number. *)
Definition times (f : gflag) (n : nat) : Prop :=
  match f with FNone => n = 1%nat | FPlus => (1 <= n)%nat | FStar => True end.
Inductive matches : glob -> list Z -> Prop :=
| m_nil : matches [] []
| m_cons t g u s : Forall (has (t_kind t)) u -> times (t_flag t) (length u) -> matches g s -> matches (t :: g) (u ++ s).

(** A match in which no [*] stands for the empty text. *)
Inductive matches_used : glob -> list Z -> Prop :=
| u_nil : matches_used [] []
| u_cons t g u s : Forall (has (t_kind t)) u -> times (t_flag t) (length u) -> u <> [] -> matches_used g s ->
    matches_used (t :: g) (u ++ s).

Definition meet (g1 g2 : glob) : Prop := exists s, matches g1 s /\ matches g2 s.
Definition meet_used (g1 g2 : glob) : Prop := exists s, matches_used g1 s /\ matches_used g2 s.

(** *** How a glob is written *)

(** A character of a set: anything but a backslash, a closing bracket or a minus, or anything behind a backslash. *)
Inductive set_char : list Z -> Z -> Prop :=
| sc_plain c : c <> BSL -> c <> RSQ -> c <> MINUS -> set_char [c] c
| sc_escaped c : set_char [BSL; c] c.
(** What is between the brackets: characters and ranges, the latter not backwards and at most 65537 characters long; [n] is how
    many characters are listed, where a range lists its start and all its characters. *)
Inductive set_items : list Z -> list (Z * Z) -> Z -> Prop :=
| si_nil : set_items [] [] 0
| si_one t c r l n : set_char t c -> set_items r l n -> set_items (t ++ r) ((c, c) :: l) (1 + n)
| si_range t a u b r l n : set_char t a -> set_char u b -> a <= b <= a + 65536 -> set_items r l n ->
    set_items (t ++ MINUS :: u ++ r) ((a, b) :: l) (1 + (b - a + 1) + n).
Definition in_items (l : list (Z * Z)) (c : Z) : Prop := exists a b, In (a, b) l /\ a <= c <= b.

Inductive token_text : list Z -> gkind -> Z -> Prop :=
| tt_plain c : ~ In c [BSL; DOT; LSQ; RSQ; PLUS; STAR] -> token_text [c] (KChar c) 0
| tt_escaped c : token_text [BSL; c] (KChar c) 0
| tt_dot : token_text [DOT] KDot 0
| tt_set t l rs n : set_items t l n -> StronglySorted Z.lt rs -> (forall c, In c rs <-> in_items l c) ->
    token_text (LSQ :: t ++ [RSQ]) (KSet rs) n.
Definition flag_text (f : gflag) : list Z := match f with FNone => [] | FPlus => [PLUS] | FStar => [STAR] end.
(** The glob written as the text, and how many characters its sets list. *)
Inductive glob_text : list Z -> glob -> Z -> Prop :=
| gt_nil : glob_text [] [] 0
| gt_cons t k f r g n m : token_text t k n -> glob_text r g m -> glob_text (t ++ flag_text f ++ r) (Tok k f :: g) (n + m).

(** *** Conditions on globs *)

(** No set is empty. *)
Definition no_empty_set (g : glob) : Prop := forall t, In t g -> t_kind t <> KSet [].
(** Two tokens with [+] and the same characters have a different token, or one without flag, between them. *)
Definition lone_plus (g : glob) : Prop :=
  forall a k m b, g = a ++ Tok k FPlus :: m ++ Tok k FPlus :: b -> exists t, In t m /\ (t_kind t <> k \/ t_flag t = FNone).
Definition no_star (g : glob) : Prop := forall t, In t g -> t_flag t <> FStar.
Definition no_flags (g : glob) : Prop := forall t, In t g -> t_flag t = FNone.
(** No [*] is last or behind another flag. *)
Definition star_inside (g : glob) : Prop :=
  forall a t b, g = a ++ t :: b -> t_flag t <> FNone ->
    (t_flag t = FStar -> b <> []) /\ (forall t' b', b = t' :: b' -> t_flag t' <> FStar).

(** The answer, once there is enough fuel. *)
Definition answers (r1 r2 : list Z) (a : answer) : Prop := exists n, forall m, (n <= m)%nat -> globs_match m r1 r2 = Ok a.
