(** Rego values and their text key ([to_key]). *)
From Coq Require Import String ZArith List Bool.
From Verif Require Import Base SMap BigIntModel.
Import ListNotations.
Local Open Scope Z_scope.

(** The AST nodes that represent evaluated terms (include/rego/rego.hh wf_result; Term and Scalar wrappers, which
    [unwrap] in src/internal.cc 515-575 strips, are left out).  Numbers carry their source text.
    Strings carry the text between the quotes, still JSON-escaped: src/internal.cc 164-184 ([strip_quotes],
    [add_quotes]) make the presence of the quotes in the node's text irrelevant.
    [VObject] children are the (key, value) pairs of its ObjectItem nodes in node order.
    [VErr] is an Error node stored inside a document, which the virtual machine can produce
    (src/virtual_machine.cc 1486-1509); its message and source are left out. *)
Inductive value : Type :=
| VNull
| VTrue
| VFalse
| VInt (t : str)
| VFloat (t : str)
| VString (t : str)
| VArray (l : list value)
| VObject (l : list (value * value))
| VSet (l : list value)
| VErr (code : str).

(** Operators of infix expressions. *)
Inductive arith_op := OpAdd | OpSub | OpMul | OpDiv | OpMod.
Inductive bool_op := OpEq | OpNe | OpLt | OpLe | OpGt | OpGe.

(** Everything the code asks of C++ [double]s, as functions of number texts.  Not modelled: every theorem holds for every
    such record, under the stated conditions.
    [f_key t]: the text that src/encoding.cc 116-128 writes for a Float node with text [t];
    [f_cmp a b]: the order of [stod a] and [stod b] ([None] when unordered), src/internal.cc get_double 101-104;
    [f_ok t]: [std::stod t] does not throw;
    [f_int t]: the full "%.0f" text of [stod t] when it is integral (src/internal.cc 261-270);
    [f_arith]: the text of the double result (src/resolver.cc 54-91), [None] for division by zero. *)
Record fops := {
  f_key : str -> str;
  f_cmp : str -> str -> option comparison;
  f_ok : str -> bool;
  f_int : str -> option str;
  f_arith : arith_op -> str -> str -> option str
}.

Definition quote (t : str) : str := ([34] ++ t ++ [34])%list.

(** src/internal.hh 276-279 [is_quoted]. *)
Definition is_quoted (t : str) : bool :=
  match t with
  | c :: (_ :: _) as t' => (c =? 34) && (last t' 0 =? 34)
  | _ => false
  end.

(** Trieste's [json::escape] (external), used at src/encoding.cc 252 for object keys that are not strings.  Only the escapes
    that can occur in a key are modelled: quotes and backslashes. *)
Fixpoint jescape (t : str) : str :=
  match t with
  | [] => []
  | c :: t' => if (c =? 34) || (c =? 92) then 92 :: c :: jescape t' else c :: jescape t'
  end.

Section Keys.
Variable F : fops.

(** src/encoding.cc 11-100, [NodeKey]: a node and its key. *)
Definition node_key : Type := (value * str).

(** Lines 49-95: rank of the node types that are ordered before the rest: Null < False < True < number < others. *)
Definition type_rank (v : value) : Z :=
  match v with
  | VNull => 0 | VFalse => 1 | VTrue => 2 | VInt _ | VFloat _ => 3
  | _ => 4
  end.

Definition dlt (a b : str) : bool := match f_cmp F a b with Some Lt => true | _ => false end.

(** src/encoding.cc 31-99 [NodeKey::operator<].  The cascade of type tests at 56-97 is written as a comparison of ranks:
    nodes of the same type but Null/False/True have equal keys, and [key < key] is then false.
    Simplification: an exception of [std::stod] inside [get_double] is not modelled here. *)
Definition nk_lt (a b : node_key) : bool :=
  match fst a, fst b with
  | VInt t, VInt u => bi_lt t u
  | VFloat _, VFloat _ | VFloat _, VInt _ | VInt _, VFloat _ => dlt (snd a) (snd b)
  | _, _ =>
      if type_rank (fst a) <? type_rank (fst b) then true
      else if type_rank (fst b) <? type_rank (fst a) then false
      else str_ltb (snd a) (snd b)
  end.

(** src/encoding.cc 247-253: the text of an object key. *)
Definition object_key_text (k : str) : str := if is_quoted k then k else quote (jescape k).

(** src/encoding.cc 105-280 [to_key] with its default arguments: SetFormat::Angle, arrays not sorted, "," as list
    delimiter.  For an Error node the code prints the whole tree (330-333); here only its error code is printed. *)
Fixpoint to_key (v : value) : str :=
  match v with
  | VNull => $"null"
  | VTrue => $"true"
  | VFalse => $"false"
  | VErr c => $"(error " ++ c ++ $")"
  | VInt t => t
  | VFloat t => f_key F t
  | VString t => quote t
  | VArray l => $"[" ++ join $"," (map to_key l) ++ $"]"
  | VSet l => $"<" ++ join $"," (map snd (sort_by nk_lt (map (fun x => (x, to_key x)) l))) ++ $">"
  | VObject l =>
      let items := fold_left (fun m (kv : str * str) => sm_insert (fst kv) (snd kv) m)
                     (map (fun kv : value * value => let '(k, x) := kv in (object_key_text (to_key k), to_key x)) l) [] in
      $"{" ++ join $", " (map (fun kv : str * str => fst kv ++ $":" ++ snd kv) items) ++ $"}"
  end%list.
End Keys.
