(** The C interface (src/rego_c.cc): texts returned through buffers, and the input builder.

    [regoSize] and [regoEnum] are 32-bit and [regoInt] is 64-bit (include/rego/rego_c.h 29-41). *)
From Coq Require Import String ZArith List Bool.
From Verif Require Import Base SMap BigIntSpec BigIntModel ValueModel ResolverModel VmModel MiscModel.
Import ListNotations.
Local Open Scope Z_scope.
Local Open Scope list_scope.

(** include/rego/rego_c.h 45-52. *)
Definition REGO_OK := 0.
Definition REGO_ERROR := 1.
Definition REGO_ERROR_BUFFER_TOO_SMALL := 2.
Definition REGO_ERROR_INPUT_NULL := 5.
Definition REGO_ERROR_INPUT_MISSING_ARGUMENTS := 6.
Definition REGO_ERROR_INPUT_OBJECT_ITEM := 7.
Definition to_size (n : Z) : Z := n mod 2 ^ 32.

(** ** Texts *)

(** src/rego_c.cc 115-190 (error, build information, version), 957-978 (output), 1115-1160 (node type and value), 1193-1219 (node
    as JSON): the text itself is an argument here, [None] for a null handle. *)
Inductive text_fn := FError | FBuildInfo | FVersion | FOutputJSON | FNodeTypeName | FNodeValue | FNodeJSON.
Definition text_size (f : text_fn) (text : option str) : outcome Z :=
  match text with
  | Some t =>
      match f with
      | FNodeTypeName => Ok (to_size (Z.of_nat (length t)))
      | _ => Ok (to_size (Z.of_nat (length t) + 1))
      end
  | None => match f with FError => Ok 0 | _ => Ub end
  end.
(** [copy] and the terminator, into memory that has room for [length buffer] bytes. *)
Definition write_text (t buffer : str) : outcome str :=
  if (length buffer <? length t + 1)%nat then Ub else Ok (t ++ [0] ++ skipn (length t + 1) buffer).
Definition get_text (f : text_fn) (text : option str) (buffer : str) (size : Z) : outcome (Z * str) :=
  match text with
  | Some t =>
      if size <? Z.of_nat (length t) + 1 then Ok (REGO_ERROR_BUFFER_TOO_SMALL, buffer)
      else let! b := write_text t buffer in Ok (REGO_OK, b)
  | None => match f with FError => Ok (REGO_ERROR, buffer) | _ => Ub end
  end.

(** ** Input builder *)

(** A finite double is [mag * 2 ^ exp] with a sign. *)
Inductive double := DFin (neg : bool) (mag exp : Z) | DInf (neg : bool) | DNan (neg : bool).
(** [n / d] to the nearest integer, ties to even. *)
Definition round_even (n d : Z) : Z :=
  let q := n / d in
  let r := 2 * (n mod d) in
  if r <? d then q else if d <? r then q + 1 else if Z.even q then q else q + 1.
Fixpoint pad_digits (n : nat) (z : Z) : str := match n with O => [] | S n => pad_digits n (z / 10) ++ [48 + z mod 10] end.
(** [std::to_string(double)], which is [printf("%f")]: six decimals. *)
Definition double_text (d : double) : str :=
  match d with
  | DFin neg mag exp =>
      let q := if 0 <=? exp then mag * 2 ^ exp * 10 ^ 6 else round_even (mag * 10 ^ 6) (2 ^ (- exp)) in
      (if neg then $"-" else []) ++ dec (q / 10 ^ 6) ++ $"." ++ pad_digits 6 (q mod 10 ^ 6)
  | DInf neg => (if neg then $"-" else []) ++ $"inf"
  | DNan neg => (if neg then $"-" else []) ++ $"nan"
  end.

(** src/rego_c.cc 47-53: what is on the stack, the top last.  The Term and Scalar nodes around a value are left out. *)
Inductive entry := EVal (v : value) | EItem (k v : value).
Record input := { i_stack : list entry; i_status : Z }.
Definition new_input : input := {| i_stack := []; i_status := REGO_OK |}.
Inductive call :=
| CInt (z : Z) | CFloat (d : double) | CString (s : str) | CBool (b : Z) | CNull
| CItem | CObject (n : Z) | CArray (n : Z) | CSet (n : Z).
(** src/resolver.cc 423-441 [to_term] of an entry: an object item is no term. *)
Definition entry_term (e : entry) : value := match e with EVal v => v | EItem _ _ => VErr WellFormedError end.
(** An object item as a member of an array: no value stands for it, so an error does. *)
Definition entry_member (e : entry) : value := match e with EVal v => v | EItem _ _ => VErr $"object item" end.
Definition is_item (e : entry) : bool := match e with EItem _ _ => true | EVal _ => false end.
Definition entry_item (e : entry) : value * value := match e with EItem k v => (k, v) | EVal v => (v, v) end.
(** src/rego_c.cc 1227-1333. *)
Definition push (v : value) (i : input) : Z * input :=
  if i_status i =? REGO_OK then (REGO_OK, {| i_stack := i_stack i ++ [EVal v]; i_status := REGO_OK |}) else (i_status i, i).
(** src/rego_c.cc 1345-1353, 1377-1385, 1418-1426, 1449-1457: too few entries for the call. *)
Definition missing (n : Z) (i : input) : input :=
  if Z.of_nat (length (i_stack i)) <? n then {| i_stack := i_stack i; i_status := REGO_ERROR_INPUT_MISSING_ARGUMENTS |} else i.
(** [stack.end() - count] *)
Definition below (n : Z) (st : list entry) : list entry := firstn (length st - Z.to_nat n) st.
Definition top (n : Z) (st : list entry) : list entry := skipn (length st - Z.to_nat n) st.
Definition replace_top (n : Z) (v : entry) (i : input) : Z * input :=
  (REGO_OK, {| i_stack := below n (i_stack i) ++ [v]; i_status := REGO_OK |}).
Section Ops.
Variable F : fops.
Definition do_call (c : call) (i : input) : Z * input :=
  match c with
  (* 1227-1245 *)
  | CInt z => push (VInt (dec z)) i
  (* 1247-1265 *)
  | CFloat d => push (VFloat (double_text d)) i
  (* 1267-1285: the text is not escaped *)
  | CString s => push (VString s) i
  (* 1287-1313 *)
  | CBool b => push (if b =? 0 then VFalse else VTrue) i
  (* 1315-1333 *)
  | CNull => push VNull i
  (* 1335-1363 *)
  | CItem =>
      let i := missing 2 i in
      if i_status i =? REGO_OK then
        match top 2 (i_stack i) with
        | [k; v] => replace_top 2 (EItem (entry_term k) (entry_term v)) i
        | _ => (REGO_OK, i)
        end
      else (i_status i, i)
  (* 1365-1404 *)
  | CObject n =>
      let i := missing n i in
      if i_status i =? REGO_OK then
        if forallb is_item (top n (i_stack i)) then replace_top n (EVal (VObject (map entry_item (top n (i_stack i))))) i
        else (REGO_ERROR_INPUT_OBJECT_ITEM, {| i_stack := i_stack i; i_status := REGO_ERROR_INPUT_OBJECT_ITEM |})
      else (i_status i, i)
  (* 1406-1435 *)
  | CArray n =>
      let i := missing n i in
      if i_status i =? REGO_OK then replace_top n (EVal (VArray (map entry_member (top n (i_stack i))))) i else (i_status i, i)
  (* 1437-1467; members that are object items become errors, with a key that depends on their address *)
  | CSet n =>
      let i := missing n i in
      if i_status i =? REGO_OK then replace_top n (EVal (VSet (set_of F (map entry_term (top n (i_stack i)))))) i else (i_status i, i)
  end.
(** The calls with a handle, which may be null. *)
Definition api_call (c : call) (h : option input) : Z * option input :=
  match h with None => (REGO_ERROR_INPUT_NULL, None) | Some i => let '(code, i) := do_call c i in (code, Some i) end.
(** A sequence of calls, with the codes they return. *)
Fixpoint run (cs : list call) (i : input) : list Z * input :=
  match cs with
  | [] => ([], i)
  | c :: cs => let '(code, i) := do_call c i in let '(codes, i) := run cs i in (code :: codes, i)
  end.
End Ops.
(** src/rego_c.cc 1469-1479 [regoInputNode]. *)
Definition input_node (h : option input) : outcome (option entry) :=
  match h with
  | None => Ub
  | Some i => match rev (i_stack i) with e :: _ => Ok (if i_status i =? REGO_OK then Some e else None) | [] => Ok None end
  end.
(** src/rego_c.cc 1481-1491 [regoInputValidate]. *)
Definition input_validate (h : option input) : outcome Z :=
  match h with
  | None => Ub
  | Some i => match i_stack i with [] => Ok REGO_ERROR_INPUT_NULL | _ => Ok (i_status i) end
  end.
(** src/rego_c.cc 456-491 [regoSetInput], src/interpreter.cc 316-357 [set_input]: the code and the interpreter's input after it. *)
Definition set_input (h : option input) (old : option value) : Z * option value :=
  match h with
  | None => (REGO_ERROR, old)
  | Some i =>
      match rev (i_stack i) with
      | [] => (REGO_ERROR, old)
      | e :: _ =>
          if i_status i =? REGO_OK then
            match e with EVal v => (REGO_OK, Some v) | EItem _ _ => (REGO_ERROR, old) end
          else (i_status i, old)
      end
  end.
