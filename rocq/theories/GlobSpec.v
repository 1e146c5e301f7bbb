(** The pattern language of glob.match, over bytes. *)
From Coq Require Import String ZArith List Bool.
From Verif Require Import Base SMap ValueModel.
Import ListNotations.
Local Open Scope Z_scope.
Local Open Scope list_scope.

(** ** Character classes *)
(** A byte in a class is written as it is, or after a backslash. *)
Inductive class_char : str -> Z -> Prop :=
| cc_plain c : c <> 92 -> class_char [c] c
| cc_escaped c : class_char [92; c] c.
(** Bytes from 128 count as negative, so ranges over them are ordered among themselves and come before the others. *)
Definition order (c : Z) : Z := if c <? 128 then c else c - 256.
(** The text of a class between the brackets: bytes and ranges.  The first item may start with ']', which otherwise ends the class; a '-'
    before the end stands for itself. *)
Inductive class_items : bool -> str -> list (Z * Z) -> Prop :=
| ci_end : class_items false [] []
| ci_byte first t c rest items :
    class_char t c -> (first = false -> head t <> Some 93) -> (forall y r, rest = 45 :: y :: r -> y = 93) ->
    class_items false rest items -> class_items first (t ++ rest) ((c, c) :: items)
| ci_range first t lo u hi rest items :
    class_char t lo -> (first = false -> head t <> Some 93) -> class_char u hi -> head u <> Some 93 -> order lo <= order hi ->
    class_items false rest items -> class_items first (t ++ [45] ++ u ++ rest) ((lo, hi) :: items).
Definition covered (items : list (Z * Z)) (c : Z) : Prop := exists lo hi, In (lo, hi) items /\ order lo <= order c <= order hi.
(** A class that starts with '!' has the bytes that are not covered. *)
Definition in_class (body : str) (c : Z) : Prop :=
  match body with
  | 33 :: b => exists items, class_items true b items /\ ~ covered items c
  | b => exists items, class_items true b items /\ covered items c
  end.

(** ** Alternatives *)
(** Text with balanced braces, where a backslash takes away the meaning of the next byte; an alternative has no comma outside inner braces. *)
Inductive balanced : str -> Prop :=
| b_nil : balanced []
| b_escape x s : balanced s -> balanced (92 :: x :: s)
| b_byte c s : c <> 92 -> c <> 123 -> c <> 125 -> balanced s -> balanced (c :: s)
| b_group a s : balanced a -> balanced s -> balanced ([123] ++ a ++ [125] ++ s).
Inductive alternative : str -> Prop :=
| a_nil : alternative []
| a_escape x s : alternative s -> alternative (92 :: x :: s)
| a_byte c s : c <> 92 -> c <> 123 -> c <> 125 -> c <> 44 -> alternative s -> alternative (c :: s)
| a_group a s : balanced a -> alternative s -> alternative ([123] ++ a ++ [125] ++ s).

(** ** Patterns *)
(** [denotes d false p t]: the pattern [p] denotes the text [t], with the delimiters [d].  With [true] in place of [false], the pattern
    ends after its first escaped byte, whatever follows. *)
Section Denotes.
Variable delimiter : Z -> Prop.
Variable stop : bool.
Inductive denotes : str -> str -> Prop :=
| d_end : denotes [] []
| d_byte c p t : ~ In c [92; 42; 63; 91; 123] -> denotes p t -> denotes (c :: p) (c :: t)
| d_escape c p t : stop = false -> denotes p t -> denotes (92 :: c :: p) (c :: t)
| d_escape_stop c p : stop = true -> denotes (92 :: c :: p) [c]
| d_any c p t : ~ delimiter c -> denotes p t -> denotes (63 :: p) (c :: t)
| d_star p u t : head p <> Some 42 -> Forall (fun c => ~ delimiter c) u -> denotes p t -> denotes (42 :: p) (u ++ t)
| d_super p u t : denotes p t -> denotes (42 :: 42 :: p) (u ++ t)
| d_class body c p t : in_class body c -> denotes p t -> denotes ([91] ++ body ++ [93] ++ p) (c :: t)
| d_alternatives alts a p t :
    Forall alternative alts -> In a alts -> denotes (a ++ p) t -> denotes ([123] ++ join [44] alts ++ [125] ++ p) t.
End Denotes.
(** Patterns whose classes and braces are closed. *)
Inductive well_formed : str -> Prop :=
| w_end : well_formed []
| w_byte c p : ~ In c [92; 42; 63; 91; 123] -> well_formed p -> well_formed (c :: p)
| w_escape c p : well_formed p -> well_formed (92 :: c :: p)
| w_wild c p : c = 42 \/ c = 63 -> well_formed p -> well_formed (c :: p)
| w_class body items p : head body <> Some 33 -> class_items true body items -> well_formed p -> well_formed ([91] ++ body ++ [93] ++ p)
| w_class_not body items p : class_items true body items -> well_formed p -> well_formed ([91; 33] ++ body ++ [93] ++ p)
| w_alternatives alts p :
    alts <> [] -> Forall alternative alts -> (forall a, In a alts -> well_formed (a ++ p)) -> well_formed ([123] ++ join [44] alts ++ [125] ++ p).
(** What a computation returns when it is given enough steps. *)
Definition returns {A} (f : nat -> outcome A) (r : A) : Prop := exists n, forall m, (n <= m)%nat -> f m = Ok r.
Definition count_byte (c : Z) (p : str) : nat := count_occ Z.eq_dec p c.
(** The limits of the implementation: 64 open braces, 4096 commas. *)
Definition small (p : str) : Prop := Z.of_nat (count_byte 123 p) <= 64 /\ Z.of_nat (count_byte 44 p) <= 4096.

(** ** Delimiters *)
(** The delimiters that the second argument of glob.match stands for: none, the dot, or the bytes of the strings of an array. *)
Section Delimiters.
Variable unescape : str -> str.
Inductive separators : value -> (Z -> Prop) -> Prop :=
| s_none : separators VNull (fun _ => False)
| s_default : separators (VArray []) (fun c => c = 46)
| s_list l : l <> [] -> Forall (fun x => exists t, x = VString t /\ (length (unescape t) <= 1)%nat) l ->
    separators (VArray l) (fun c => exists t, In (VString t) l /\ unescape t = [c]).
End Delimiters.
