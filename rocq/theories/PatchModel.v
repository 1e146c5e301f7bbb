(** Model of json.patch, json.filter and json.remove: src/builtins/json.cc 244-1368, 1407-1563, 1652-1705.  json.marshal, json.unmarshal and
    json.is_valid, which hand over to Trieste, are not modelled.
    A [Location] is the text of a node: keys are compared by their JSON-escaped text.  The model assumes that the nodes of strings
    carry no quotes in this text, as they do after parsing.
    Documents are values: the nodes that [set << m_value] shares between the patch (or another place of the document) and the
    result are copies here. *)
From Coq Require Import String ZArith List Bool.
From Verif Require Import Base BigIntSpec BigIntModel SMap ValueModel ValueSpec ResolverModel VmModel StrModel EncModel MiscModel.
Import ListNotations.
Local Open Scope Z_scope.
Local Open Scope list_scope.

(** ** Pointers *)

(** json.cc 334-372 [unescape_key]. *)
Fixpoint unescape_key (s : str) : option str :=
  match s with
  | [] => Some []
  | c :: s' =>
      if c =? 126 then
        match s' with
        | i :: s'' =>
            if i =? 48 then option_map (cons 126) (unescape_key s'')
            else if i =? 49 then option_map (cons 47) (unescape_key s'')
            else None
        | [] => None
        end
      else option_map (cons c) (unescape_key s')
  end.
(** json.cc 249-266, 284-332: the constructor of [Pointer] with [next_key]; [fuel] bounds the rounds. *)
Fixpoint pointer_loop (fuel : nat) (path : str) (pos : nat) : outcome (option (list str)) :=
  match nth_error path pos with
  | None => Ok (Some [])
  | Some c =>
      match fuel with
      | O => OutOfFuel
      | S k =>
          if negb (c =? 47) && (0 <? pos)%nat then Ok None
          else
            let pos := if c =? 47 then S pos else pos in
            let key := fst (span (none_of [47]) (skipn pos path)) in
            let key' := if existsb (Z.eqb 126) key then unescape_key key else Some key in
            match key' with
            | None => Ok None
            | Some key' => let! r := pointer_loop k path (pos + length key) in Ok (option_map (cons key') r)
            end
      end
  end.
Definition pointer (path : str) : outcome (option (list str)) := pointer_loop (S (length path)) path 0.

(** ** Operations on a document *)

(** json.cc 381-388. *)
Inductive action := AInsert | ARead | AReplace | ARemove | ACompare.

(** json.cc 814-827: the digits of an index; the result is whether all are digits, and the number so far.  [std::isdigit] of a
    negative [char] is undefined. *)
Fixpoint index_digits (s : str) (index : Z) : outcome (bool * Z) :=
  match s with
  | [] => Ok (true, index)
  | c :: s' =>
      if negative_char c then Ub
      else if is_digit c then index_digits s' ((index * 10 + c - 48) mod 2 ^ 64)
      else Ok (false, index)
  end.
(** json.cc 795-837 [array_index] in an array of [n] elements: whether there is such an element, and the index.  [front] of an
    empty key is undefined. *)
Definition array_index (n : nat) (key : str) : outcome (bool * Z) :=
  if str_eqb key [45] then Ok (false, Z.of_nat n)
  else match key with
  | [] => Ub
  | c :: key' =>
      if c =? 45 then Ok (false, 0)
      else if (c =? 48) && negb (match key' with [] => true | _ => false end) then Ok (false, 0)
      else let! r := index_digits key 0 in
           let '(valid, index) := r in
           Ok (valid && (index <? Z.of_nat n), index)
  end.
(** json.cc 749-769 [object_index]: the first item with this key, and what is before and after it. *)
Fixpoint split_item (k : str) (l : list (value * value)) : option (list (value * value) * value * list (value * value)) :=
  match l with
  | [] => None
  | (VString k', w) :: l' =>
      if str_eqb k' k then Some ([], w, l')
      else match split_item k l' with Some (l1, x, l2) => Some ((VString k', w) :: l1, x, l2) | None => None end
  | kw :: l' => match split_item k l' with Some (l1, x, l2) => Some (kw :: l1, x, l2) | None => None end
  end.
Definition is_error (v : value) : bool := match v with VErr _ => true | _ => false end.

Section Ops.
Variable F : fops.
Notation key := (to_key F).

(** json.cc 771-793 [set_index]: the last member with this key. *)
Fixpoint split_member (k : str) (l : list value) : option (list value * value * list value) :=
  match l with
  | [] => None
  | x :: l' =>
      match split_member k l' with
      | Some (l1, y, l2) => Some (x :: l1, y, l2)
      | None => if str_eqb (strip_quotes (key x)) k then Some ([], x, l') else None
      end
  end.
(** The result of an operation: [None] is an Error node; otherwise the node that is returned and the changed document. *)
Definition opres := outcome (option (value * value)).
Definition done (ret doc : value) : opres := Ok (Some (ret, doc)).
Definition failed : opres := Ok None.
(** json.cc 528-545 [compare]. *)
Definition compare (actual expected doc : value) : opres :=
  if is_error actual then failed else if str_eqb (key actual) (key expected) then done actual doc else failed.
(** json.cc 547-619 [object_action].  [existing == Error] counts as no member. *)
Definition object_action (act : action) (v : value) (l : list (value * value)) (k : str) : opres :=
  let existing := match split_item k l with Some (l1, w, l2) => if is_error w then None else Some (l1, w, l2) | None => None end in
  match existing with
  | None => match act with AInsert => done v (VObject (l ++ [(VString k, v)])) | _ => failed end
  | Some (l1, w, l2) =>
      match act with
      | ACompare => compare w v (VObject l)
      | AInsert | AReplace => done w (VObject (l1 ++ (VString k, v) :: l2))
      | ARead => done w (VObject l)
      | ARemove => done w (VObject (l1 ++ l2))
      end
  end.
(** json.cc 621-664 [array_action]. *)
Definition array_action (act : action) (v : value) (l : list value) (k : str) : opres :=
  let! r := array_index (length l) k in
  let '(found, index) := r in
  match act, index =? Z.of_nat (length l) with
  | AInsert, true => done v (VArray (l ++ [v]))
  | _, _ =>
      let i := Z.to_nat index in
      match (if found then nth_error l i else None) with
      | None => failed
      | Some e =>
          if is_error e then failed
          else match act with
               | ACompare => compare e v (VArray l)
               | AInsert => done v (VArray (firstn i l ++ v :: skipn i l))
               | ARead => done e (VArray l)
               | ARemove => done e (VArray (firstn i l ++ skipn (S i) l))
               | AReplace => done e (VArray (firstn i l ++ v :: skipn (S i) l))
               end
      end
  end.
(** json.cc 666-747 [set_action]. *)
Definition set_action (act : action) (v : value) (l : list value) (k : str) : opres :=
  let matches := str_eqb k (strip_quotes (key v)) in
  match split_member k l with
  | None => match act with AInsert => if matches then done v (VSet (l ++ [v])) else failed | _ => failed end
  | Some (l1, e, l2) =>
      match act with
      | ACompare => compare e v (VSet l)
      | AInsert | ARead => done e (VSet l)
      | ARemove => done e (VSet (l1 ++ l2))
      | AReplace => if matches then done e (VSet l) else failed
      end
  end.
(** json.cc 461-525: from the document down to the last key. *)
Fixpoint run (keys : list str) (act : action) (v doc : value) : opres :=
  match keys with
  | [] => failed
  | k :: keys' =>
      match keys' with
      | [] =>
          match doc with
          | VObject l => object_action act v l k
          | VSet l => set_action act v l k
          | VArray l => array_action act v l k
          | _ => failed
          end
      | _ =>
          match doc with
          | VObject l =>
              match split_item k l with
              | Some (l1, w, l2) =>
                  if is_error w then failed
                  else let! r := run keys' act v w in
                       Ok (match r with Some (ret, w') => Some (ret, VObject (l1 ++ (VString k, w') :: l2)) | None => None end)
              | None => failed
              end
          | VSet l =>
              match split_member k l with
              | Some (l1, w, l2) =>
                  if is_error w then failed
                  else let! r := run keys' act v w in
                       Ok (match r with Some (ret, w') => Some (ret, VSet (l1 ++ w' :: l2)) | None => None end)
              | None => failed
              end
          | VArray l =>
              let! r := array_index (length l) k in
              let '(found, index) := r in
              let i := Z.to_nat index in
              match (if found then nth_error l i else None) with
              | Some w =>
                  if is_error w then failed
                  else let! r := run keys' act v w in
                       Ok (match r with Some (ret, w') => Some (ret, VArray (firstn i l ++ w' :: skipn (S i) l)) | None => None end)
              | None => failed
              end
          | _ => failed
          end
      end
  end.
(** json.cc 428-459 [run]: for the empty pointer the document is not changed.  [v] is not used by [ARead] and [ARemove]. *)
Definition operation (path : str) (act : action) (v doc : value) : opres :=
  let! p := pointer path in
  match p with
  | None => failed
  | Some [] =>
      match act with
      | ARead => done doc doc
      | AReplace | AInsert => done v doc
      | ARemove => failed
      | ACompare => compare doc v doc
      end
  | Some keys => run keys act v doc
  end.

(** ** json.patch *)

(** json.cc 846-849 [select], 851-867 [select_string]. *)
Definition select (doc : value) (path : str) : outcome (option value) :=
  let! r := operation path ARead VNull doc in Ok (option_map fst r).
Definition select_string (doc : value) (path : str) : outcome (option str) :=
  let! r := select doc path in Ok (match r with Some (VString t) => Some t | _ => None end).

(** json.cc 882-900 [Type], [TypeLookup]: the operations. *)
Inductive patch_op :=
| OTest (path : str) (v : value) | OAdd (path : str) (v : value) | ORemove (path : str) | OReplace (path : str) (v : value)
| OCopy (path from : str) | OMove (path from : str).
(** json.cc 926-950: the path, also given as an array of segments. *)
Definition op_path (v : value) : option str :=
  match v with
  | VString t => Some t
  | VArray l => Some (flat_map (fun x => 47 :: strip_quotes (key x)) l)
  | _ => None
  end.
(** json.cc 904-983 [from_node]; [None]: an error. *)
Definition op_of (node : value) : outcome (option patch_op) :=
  let! type := select_string node $"/op" in
  match type with
  | None => Ok None
  | Some type =>
      if negb (existsb (str_eqb type) [$"test"; $"add"; $"remove"; $"replace"; $"copy"; $"move"]) then Ok None
      else
        let! p := select node $"/path" in
        match match p with Some v => op_path v | None => None end with
        | None => Ok None
        | Some path =>
            if str_eqb type $"remove" then Ok (Some (ORemove path))
            else if str_eqb type $"copy" || str_eqb type $"move" then
              let! from := select_string node $"/from" in
              Ok (match from with
                  | None => None
                  | Some from => Some (if str_eqb type $"copy" then OCopy path from else OMove path from)
                  end)
            else
              let! v := select node $"/value" in
              Ok (match v with
                  | None => None
                  | Some v => Some (if str_eqb type $"add" then OAdd path v
                                    else if str_eqb type $"replace" then OReplace path v else OTest path v)
                  end)
        end
  end.
Definition changed_doc (r : opres) : outcome (option value) := let! r := r in Ok (option_map snd r).
(** json.cc 990-1014 [apply], 1046-1126: the operations; [None]: an Error node. *)
Definition apply (op : patch_op) (doc : value) : outcome (option value) :=
  match op with
  | OTest path v => changed_doc (operation path ACompare v doc)
  | OAdd path v => match path with [] => Ok (Some v) | _ => changed_doc (operation path AInsert v doc) end
  | ORemove path => changed_doc (operation path ARemove VNull doc)
  | OReplace path v => match path with [] => Ok (Some v) | _ => changed_doc (operation path AReplace v doc) end
  | OMove path from =>
      if str_eqb path from then Ok (Some doc)
      else let! r := operation from ARemove VNull doc in
           match r with
           | None => Ok None
           | Some (existing, doc) => changed_doc (operation path AInsert existing doc)
           end
  | OCopy path from =>
      if str_eqb path from then Ok (Some doc)
      else let! r := operation from ARead VNull doc in
           match r with
           | None => Ok None
           | Some (existing, doc) => changed_doc (operation path AInsert existing doc)
           end
  end.
(** json.cc 1669-1689: the operations other than tests; the tests are applied to the document as given. *)
Fixpoint read_ops (doc : value) (nodes : list value) : outcome (option (list patch_op)) :=
  match nodes with
  | [] => Ok (Some [])
  | node :: nodes' =>
      let! op := op_of node in
      match op with
      | None => Ok None
      | Some (OTest path v) =>
          let! r := apply (OTest path v) doc in
          match r with None => Ok None | Some _ => read_ops doc nodes' end
      | Some op => let! r := read_ops doc nodes' in Ok (option_map (cons op) r)
      end
  end.
(** json.cc 1691-1702. *)
Fixpoint apply_all (doc : value) (ops : list patch_op) : outcome (option value) :=
  match ops with
  | [] => Ok (Some doc)
  | op :: ops' => let! r := apply op doc in match r with None => Ok None | Some doc' => apply_all doc' ops' end
  end.
(** json.cc 1652-1705 [patch_].  The errors have no code of their own. *)
Definition json_patch (doc patch : value) : outcome res :=
  match patch with
  | VArray nodes =>
      let! ops := read_ops doc nodes in
      match ops with
      | None => Ok (RErr WellFormedError)
      | Some ops => let! r := apply_all doc ops in
                    Ok (match r with Some doc' => RVal doc' | None => RErr WellFormedError end)
      end
  | _ => type_error
  end.

(** ** json.filter, json.remove *)

(** json.cc 1137-1144 [PNodeDef]. *)
Inductive ptree := PNode (terminal : bool) (children : list (str * ptree)).
Definition p_terminal (t : ptree) : bool := let '(PNode b _) := t in b.
Definition p_children (t : ptree) : list (str * ptree) := let '(PNode _ c) := t in c.
Definition p_empty : ptree := PNode false [].
(** json.cc 1146-1161 [insert]. *)
Fixpoint p_insert (path : list str) (t : ptree) : ptree :=
  match path with
  | [] => PNode true (p_children t)
  | k :: path' =>
      let child := match sm_find k (p_children t) with Some c => c | None => p_empty end in
      PNode (p_terminal t) (sm_set k (p_insert path' child) (p_children t))
  end.
(** json.cc 1163-1181: the path given by an array. *)
Definition path_segment (v : value) : str := match v with VInt t | VString t => t | _ => key v end.
(** json.cc 1183-1204: the path given by a string; [fuel] bounds the rounds. *)
Fixpoint path_parts (fuel : nat) (path : str) (pos : nat) : list str :=
  match fuel with
  | O => []
  | S k =>
      match find_from [47] path pos with
      | Some e => substr path pos (e - pos) :: path_parts k path (e + 1)
      | None => [skipn pos path]
      end
  end.
Definition path_of (v : value) : option (list str) :=
  match v with
  | VString t => Some (path_parts (S (length t)) t 0)
  | VArray l => Some (map path_segment l)
  | _ => None
  end.
(** json.cc 1225-1250, 1423-1448. *)
Fixpoint insert_paths (paths : list value) (t : ptree) : option ptree :=
  match paths with
  | [] => Some t
  | p :: paths' => match path_of p with Some p => insert_paths paths' (p_insert p t) | None => None end
  end.
(** json.cc 1252-1365 and 1450-1560: the work list.  Every node of the result is filled once, from one node of the source, so the
    list is written as a recursion.  [keep] tells filter from remove: what is done with members that no path selects, and with
    selected ones. *)
Definition indexable (v : value) : bool := match v with VObject _ | VArray _ | VSet _ => true | _ => false end.
Section Select.
Variable keep : bool.
Definition if_selected {A} (x : A) : list A := if keep then [x] else [].
Definition if_not_selected {A} (x : A) : list A := if keep then [] else [x].
Fixpoint prune (t : ptree) (src : value) {struct src} : value :=
  match src with
  | VObject l =>
      VObject (flat_map (fun kv =>
        let '(k, w) := kv in
        match k with
        | VString s =>
            match sm_find s (p_children t) with
            | None => if_not_selected (k, w)
            | Some c =>
                if p_terminal c then if_selected (k, w)
                else if indexable w then [(k, prune c w)] else if_selected (k, w)
            end
        | _ => []
        end) l)
  | VArray l =>
      VArray ((fix go (i : nat) (l : list value) : list value :=
        match l with
        | [] => []
        | w :: l' =>
            match sm_find (dec (Z.of_nat i)) (p_children t) with
            | None => if_not_selected w
            | Some c =>
                if p_terminal c then if_selected w
                else if indexable w then [prune c w] else if_selected w
            end ++ go (S i) l'
        end) O l)
  | VSet l =>
      VSet (flat_map (fun w =>
        match sm_find (key w) (p_children t) with
        | None => if_not_selected w
        | Some c =>
            if p_terminal c then if_selected w
            else if indexable w then [prune c w] else if_selected w
        end) l)
  | _ => src
  end.
End Select.
(** json.cc 1209-1368 [filter], 1407-1563 [remove_]. *)
Definition json_select (keep : bool) (object paths : value) : outcome res :=
  match object, paths with
  | VObject l, VSet ps | VObject l, VArray ps =>
      match insert_paths ps p_empty with
      | Some t => ok (prune keep t (VObject l))
      | None => type_error
      end
  | _, _ => type_error
  end.
Definition json_filter := json_select true.
Definition json_remove := json_select false.
End Ops.
