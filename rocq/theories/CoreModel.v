(** Model of [walk] and [sprintf]: src/builtins/core.cc 464-525, 1521-1748. *)
From Coq Require Import String ZArith List Bool.
From Verif Require Import Base BigIntSpec BigIntModel SMap ValueModel ValueSpec ResolverModel VmModel StrModel.
Import ListNotations.
Local Open Scope Z_scope.
Local Open Scope list_scope.

(** ** walk *)

(** core.cc 496-520: the members of a collection, each with the step that leads to it. *)
Definition children (x : value) : list (value * value) :=
  match x with
  | VArray l => combine (map (fun i => vint (Z.of_nat i)) (seq 0 (length l))) l
  | VSet l => map (fun y => (y, y)) l
  | VObject l => l
  | _ => []
  end.
(** core.cc 468-521: the work list; [fuel] bounds the rounds. *)
Fixpoint walk_loop (fuel : nat) (queue : list (list value * value)) : outcome (list value) :=
  match queue with
  | [] => Ok []
  | (path, current) :: queue' =>
      match fuel with
      | O => OutOfFuel
      | S k =>
          let! l := walk_loop k (queue' ++ map (fun c => (path ++ [fst c], snd c)) (children current)) in
          Ok (VArray [VArray path; current] :: l)
      end
  end.
Definition walk (fuel : nat) (x : value) : outcome res :=
  let! l := walk_loop fuel [([], x)] in ok (VArray l).

(** ** sprintf *)

(** core.cc 1521-1536 [PrintVerbType], [PrintVerb]. *)
Inductive verb :=
| PLiteral (t : str) | PValue (t : str) | PBoolean (t : str) | PBinary (t : str) | PInteger (t : str) | PDouble (t : str)
| PString (t : str).
(** core.cc 1603-1620: the format flags. *)
Definition flag_char (c : Z) : bool := existsb (Z.eqb c) $"0123456789.-+# ".
(** core.cc 1546-1551: the inner loop; where it ends.  Past the end [format] yields a zero byte, which is no flag. *)
Fixpoint scan (fuel : nat) (format : str) (pos : nat) : nat :=
  match fuel with
  | O => pos
  | S k =>
      match nth_error format (S pos) with
      | Some c => if flag_char c then scan k format (S pos) else S pos
      | None => S pos
      end
  end.
(** core.cc 1551-1627: the verb that ends with the character [c]. *)
Definition verb_of (c : Z) (t : str) : verb :=
  if c =? 116 then PBoolean t
  else if c =? 98 then PBinary t
  else if existsb (Z.eqb c) $"dxXoO" then PInteger t
  else if existsb (Z.eqb c) $"eEfFgG" then PDouble t
  else if c =? 115 then PString t
  else if c =? 37 then PLiteral [37]
  else if c =? 118 then PValue t
  else PLiteral t.
(** core.cc 1538-1641 [parse_format]; [fuel] bounds the rounds of the outer loop. *)
Fixpoint parse_loop (fuel : nat) (format : str) (start : nat) (pos : option nat) : outcome (list verb) :=
  match pos with
  | None => Ok (if (start <? length format)%nat then [PLiteral (skipn start format)] else [])
  | Some p =>
      match fuel with
      | O => OutOfFuel
      | S k =>
          let e := scan (length format) format p in
          let t := substr format p (e - p + 1) in
          let v := match nth_error format e with Some c => verb_of c t | None => PLiteral t end in
          let! l := parse_loop k format (e + 1) (find_from [37] format (e + 1)) in
          Ok (PLiteral (substr format start (p - start)) :: v :: l)
      end
  end.
Definition parse_format (format : str) : outcome (list verb) :=
  parse_loop (S (length format)) format 0 (find0 [37] format).

(** How single values are printed: [get_raw_string], [json::escape(to_key(...))], and [snprintf] of an integer or a double
    (by its text) with a format.  These are not modelled; every theorem holds for every such record. *)
Record print_ops := {
  p_raw : value -> str;
  p_value : value -> str;
  p_int : str -> Z -> str;
  p_double : str -> value -> str
}.
Section Print.
Variable P : print_ops.
(** core.cc 1676-1745: one verb with its argument.  [%b] takes the number from the list of arguments instead of the argument: the
    constructor of the big integer throws. *)
Definition print_arg (v : verb) (a : value) : outcome (str + res) :=
  match v with
  | PLiteral t => Ok (inl t)
  | PValue _ => Ok (inl (match a with VString _ => p_raw P a | _ => p_value P a end))
  | PBoolean _ => Ok (inl (match a with VFalse => $"false" | _ => $"true" end))
  | PBinary _ => Throw
  | PInteger t =>
      match a with
      | VInt i => match bi_to_int i with Some z => Ok (inl (p_int P t z)) | None => Ok (inr (RErr EvalTypeError)) end
      | _ => Ok (inr (RErr EvalTypeError))
      end
  | PDouble t =>
      match a with VInt _ | VFloat _ => Ok (inl (p_double P t a)) | _ => Ok (inr (RErr EvalTypeError)) end
  | PString _ => Ok (inl (p_raw P a))
  end.
(** core.cc 1660-1747. *)
Fixpoint print_verbs (verbs : list verb) (args : list value) (result : str) : outcome res :=
  match verbs with
  | [] => ok (mkstr result)
  | PLiteral t :: verbs' => print_verbs verbs' args (result ++ t)
  | v :: verbs' =>
      match args with
      | [] => type_error
      | a :: args' =>
          let! r := print_arg v a in
          match r with
          | inl t => print_verbs verbs' args' (result ++ t)
          | inr e => Ok e
          end
      end
  end.
(** core.cc 1643-1748 [sprintf_]. *)
Definition sprintf (format values : value) : outcome res :=
  match format, values with
  | VString f, VArray l | VString f, VSet l => let! verbs := parse_format f in print_verbs verbs l []
  | _, _ => type_error
  end.
End Print.
