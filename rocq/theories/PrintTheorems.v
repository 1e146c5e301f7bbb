(** C68: [print] writes every combination of the values of its arguments once, and a template string is made of the contents of its parts. *)
From Coq Require Import String ZArith List Bool Lia Permutation.
From Verif Require Import Base SMap BigIntModel ValueModel ValueSpec ResolverModel PrintModel PrintSpec PrintProofs.
Import ListNotations.
Local Open Scope Z_scope.
Local Open Scope list_scope.

(** A line for each combination, in the order in which the last argument changes fastest; nothing else is written.  In particular one line if every
    argument has one value, and an empty line without arguments. *)
Theorem C68_print : forall F l, exists cols lines, Forall2 (column F) l cols /\
  print F (VArray l) = (RVal VTrue, concat (map (fun x => x ++ [10]) lines)) /\ length lines = product (map (@length str) cols) /\
  forall is ts, picks cols is ts -> nth_error lines (place cols is) = Some (join $" " ts).
Proof. exact print_ok. Qed.
Example C68_print_case : print fops0 (VArray [VSet [VString $"x:"]; VSet [VInt $"1"; VInt $"2"]; VSet []; VSet [VArray [VString $"a"; VSet []]; VNull]]) =
  (RVal VTrue, $"x: 1 <undefined> [""a"", set()]" ++ [10] ++ $"x: 1 <undefined> null" ++ [10] ++
               $"x: 2 <undefined> [""a"", set()]" ++ [10] ++ $"x: 2 <undefined> null" ++ [10]).
Proof. vm_compute. reflexivity. Qed.
Example C68_print_none : print fops0 (VArray []) = (RVal VTrue, [10]).
Proof. reflexivity. Qed.
(** Anything but an array of arguments is an error, and nothing is written. *)
Theorem C68_print_type : forall F v, (forall l, v <> VArray l) -> print F v = (RErr EvalTypeError, []).
Proof. intros F v H. destruct v as [| | |t|t|t|l|l|l|c]; try reflexivity. now elim (H l). Qed.

(** Every value has a text that displays it. *)
Theorem C68_display : forall F v, displays F v (display F v).
Proof. exact display_ok. Qed.

(** A template string whose expressions have at most one value each: its content is that of its parts, in their order, provided that displayed parts
    have no backslashes. *)
Theorem C68_template_partial : forall F l, Forall single l -> Forall sound l -> exists t ss, template_string F (VArray l) = RVal (VString t) /\
  Forall2 (part F) l ss /\ (Forall2 clear l ss -> denotes t (concat ss)).
Proof. exact template_ok. Qed.
Example C68_template_meets : let l := [VString $"a\nb "; VSet [VInt $"7"]; VString $" "; VSet []; VSet [VArray [VString $"q"; VTrue]]] in
  Forall single l /\ Forall sound l /\
  template_string fops0 (VArray l) = RVal (VString $"a\nb 7 <undefined>[\""q\"", true]").
Proof.
  cbv zeta. split; [|split; [|vm_compute; reflexivity]].
  - repeat (apply Forall_cons; [exact I|]). apply Forall_nil.
  - apply Forall_cons; [|apply Forall_cons; [exact I|apply Forall_cons; [|repeat (apply Forall_cons; [exact I|]); apply Forall_nil]]].
    + exists ([97; 10; 98; 32]). apply (dn_plain 97); [lia|lia|lia|]. apply (dn_letter 110 10); [cbn; auto|]. repeat (apply dn_plain; [discriminate|discriminate|discriminate|]). apply dn_nil.
    + exists [32]. apply (dn_plain 32); [lia|lia|lia|]. apply dn_nil.
Qed.
(** An expression with several values is a conflict, wherever it stands. *)
Theorem C68_conflict : forall F l a b r l', template_string F (VArray (l ++ VSet (a :: b :: r) :: l')) = RErr EvalConflictError.
Proof. exact template_conflict. Qed.
Theorem C68_template_type : forall F v, (forall l, v <> VArray l) -> template_string F v = RErr EvalTypeError.
Proof. intros F v H. destruct v as [| | |t|t|t|l|l|l|c]; try reflexivity. now elim (H l). Qed.

(** ** What fails *)

(** print does not resolve the escapes of strings: for a newline it writes a backslash and an n. *)
Theorem C68_escapes_refuted : ~ forall F t s, denotes t s -> snd (print F (VArray [VSet [VString t]])) = s ++ [10].
Proof.
  intro H. specialize (H fops0 $"\n" [10] (dn_letter 110 10 [] [] ltac:(cbn; auto) dn_nil)). vm_compute in H. discriminate H.
Qed.
(** An array with a string that contains a quote, inserted into a template string, gives a text in which a quote is not escaped: it is the text of no string. *)
Theorem C68_quotes_refuted : ~ forall F l, Forall single l -> Forall sound l -> exists t s, template_string F (VArray l) = RVal (VString t) /\ denotes t s.
Proof.
  intro H. destruct (H fops0 [VSet [VArray [VString $"a\""b"]]]) as (t & s & E & D).
  - apply Forall_cons; [exact I|apply Forall_nil].
  - apply Forall_cons; [exact I|apply Forall_nil].
  - assert (E' : template_string fops0 (VArray [VSet [VArray [VString $"a\""b"]]]) = RVal (VString [91; 92; 34; 97; 92; 92; 34; 98; 92; 34; 93])) by (vm_compute; reflexivity).
    rewrite E' in E. injection E as <-. clear - D.
    repeat match goal with H : denotes (_ :: _) _ |- _ => inversion H; clear H; subst; try congruence end.
    all: try (repeat match goal with H : In _ _ |- _ => cbn in H; destruct H as [H|H]; try discriminate H; try contradiction end; fail).
    all: cbn in *; intuition (try discriminate; try lia).
Qed.

Print Assumptions C68_print.
Print Assumptions C68_print_type.
Print Assumptions C68_display.
Print Assumptions C68_template_partial.
Print Assumptions C68_conflict.
Print Assumptions C68_template_type.
Print Assumptions C68_escapes_refuted.
Print Assumptions C68_quotes_refuted.
