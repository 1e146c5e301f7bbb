(** Model of [print] and of template strings: src/builtins/internal.cc 54-303, and the text of values they use (src/encoding.cc 105-280). *)
From Coq Require Import String ZArith List Bool.
From Verif Require Import Base SMap BigIntModel ValueModel ResolverModel.
Import ListNotations.
Local Open Scope Z_scope.
Local Open Scope list_scope.

Section Print.
Variable F : fops.

(** src/encoding.cc 105-280 [to_key] with SetFormat::Rego, arrays not sorted and ", " as list delimiter.  Sets are ordered by the keys with default
    arguments ([NodeKey], lines 11-100).  Of an Error node only the code is printed, as in [ValueModel.to_key]. *)
Fixpoint display (v : value) : str :=
  match v with
  | VNull => $"null"
  | VTrue => $"true"
  | VFalse => $"false"
  | VErr c => $"(error " ++ c ++ $")"
  | VInt t => t
  | VFloat t => f_key F t
  | VString t => quote t
  | VArray l => $"[" ++ join $", " (map display l) ++ $"]"
  | VSet [] => $"set()"
  | VSet l =>
      $"{" ++ join $", " (map snd (sort_by (fun a b => nk_lt F (fst a) (fst b)) (map (fun x => ((x, to_key F x), display x)) l))) ++ $"}"
  | VObject l =>
      let items := fold_left (fun m (kv : str * str) => sm_insert (fst kv) (snd kv) m)
                     (map (fun kv : value * value => let '(k, x) := kv in (object_key_text (display k), display x)) l) [] in
      $"{" ++ join $", " (map (fun kv : str * str => fst kv ++ $": " ++ snd kv) items) ++ $"}"
  end.

(** ** internal.print *)

(** internal.cc 54-69. *)
Definition print_value (v : value) : str := match v with VString t => t | _ => display v end.
(** 107-135: the texts an argument stands for. *)
Definition position (v : value) : list str :=
  match v with
  | VSet [] => [$"<undefined>"]
  | VSet l => map print_value l
  | _ => [print_value v]
  end.
(** 78-88: a line. *)
Definition print_line (current : list str) : str := join $" " current ++ [10].
(** 71-96. *)
Fixpoint print_cross_product (positions : list (list str)) (current : list str) : str :=
  match positions with
  | [] => print_line current
  | p :: ps => concat (map (fun x => print_cross_product ps (current ++ [x])) p)
  end.
(** 99-151: the result, and what is written to the standard output. *)
Definition print (arg : value) : res * str :=
  match arg with
  | VArray l =>
      (RVal VTrue, match map position l with [] => [10] | ps => print_cross_product ps [] end)
  | _ => (RErr EvalTypeError, [])
  end.

(** ** internal.template_string *)

(** 167-193. *)
Definition stringify_value (v : value) : str :=
  match v with
  | VString t => t
  | _ => flat_map (fun c => if c =? 34 then [92; c] else [c]) (display v)
  end.
(** 196-236. *)
Definition hex_char (d : Z) : byte := if d <? 10 then 48 + d else 87 + d.
Definition escape_char (c : byte) : str :=
  if c =? 10 then $"\n" else if c =? 13 then $"\r" else if c =? 9 then $"\t" else if c =? 8 then $"\b" else if c =? 12 then $"\f"
  else if c <? 32 then $"\u00" ++ [hex_char (c / 16 mod 16); hex_char (c mod 16)]
  else [c].
Definition escape_append (s : str) : str := flat_map escape_char s.
(** 238-279; the text is put in quotes (src/resolver.cc 281-284), which [VString] leaves out. *)
Fixpoint template_parts (l : list value) (buf : str) : res :=
  match l with
  | [] => RVal (VString buf)
  | VSet [] :: l' => template_parts l' (buf ++ $"<undefined>")
  | VSet [x] :: l' => template_parts l' (buf ++ escape_append (stringify_value x))
  | VSet _ :: _ => RErr EvalConflictError
  | v :: l' => template_parts l' (buf ++ escape_append (stringify_value v))
  end.
Definition template_string (arg : value) : res :=
  match arg with VArray l => template_parts l [] | _ => RErr EvalTypeError end.
End Print.
