(** Model of the Rego Bundle Binary format: src/bundle_binary.cc ([BundleDef::save], [BundleDef::load]).
    General simplifications:
    - The host is little-endian (lines 54-97 make the written bytes the same on both kinds of host).
    - [assert] is taken as in a release build: it does nothing.  Logging is left out.
    - An input stream starts at its first byte.  [std::istream] state: a read that finds fewer bytes than it wants takes them
      all and sets eofbit and failbit; every later read then behaves as on an exhausted stream.  So the state is the list of
      bytes not read yet, and "failed" is the same as "exhausted".  The one exception, [seekg] past the end (skip_uint64,
      1278-1281), fails without moving; every read that can follow it throws, as it does on an exhausted stream.
    - Reading a scalar variable that the exhausted stream left without a value is undefined behaviour ([Ub]).
    - Allocation always succeeds. *)
From Coq Require Import String ZArith List Bool.
From Verif Require Import Base BigIntSpec BigIntModel SMap ValueModel ValueSpec ResolverModel VmModel.
Import ListNotations.
Local Open Scope Z_scope.
Local Open Scope list_scope.

(** ** Checksum *)

(** src/bundle_binary.cc 20-36. *)
Definition crc_table : list Z :=
  [0; 0x1db71064; 0x3b6e20c8; 0x26d930ac; 0x76dc4190; 0x6b6b51f4; 0x4db26158; 0x5005713c;
   0xedb88320; 0xf00f9344; 0xd6d6a3e8; 0xcb61b38c; 0x9b64c2b0; 0x86d3d2d4; 0xa00ae278; 0xbdbdf21c].
(** Line 47 (48): one half byte. *)
Definition crc_nibble (c n : Z) : Z :=
  Z.lxor (Z.shiftr c 4) (nth (Z.to_nat (Z.lxor (Z.land c 15) n)) crc_table 0).
(** Lines 44-49: one byte. *)
Definition crc_byte (c b : Z) : Z := crc_nibble (crc_nibble c (Z.land b 15)) (Z.shiftr b 4).
(** Lines 18-52 [crc32_add] from [CRC32Init] = 0; [~] on 32 bits. *)
Definition crc_not (c : Z) : Z := Z.lxor c (2 ^ 32 - 1).
Definition crc32 (bytes : str) : Z := crc_not (fold_left crc_byte bytes (crc_not 0)).

(** ** Bundles as the format sees them *)

(** A data node with its wrappers ([Term << Scalar << Int] etc.): the writer looks at them (303-364), the reader leaves some
    of them out (409-477). *)
Inductive dnode :=
| NTerm (d : dnode)
| NScalar (d : dnode)
| NInt (t : str)
| NFloat (t : str)
| NString (t : str)
| NTrue | NFalse | NNull
| NArray (l : list dnode)
| NSet (l : list dnode)
| NObject (l : list (dnode * dnode)).

(** The value a node stands for. *)
Fixpoint node_value (d : dnode) : value :=
  match d with
  | NTerm d | NScalar d => node_value d
  | NInt t => VInt t
  | NFloat t => VFloat t
  | NString t => VString t
  | NTrue => VTrue
  | NFalse => VFalse
  | NNull => VNull
  | NArray l => VArray (map node_value l)
  | NSet l => VSet (map node_value l)
  | NObject l => VObject (map (fun kv : dnode * dnode => let '(k, x) := kv in (node_value k, node_value x)) l)
  end.

(** The node the rest of the library makes for a value: src/resolver.cc 423-441 [to_term] (an Error has no such node and is
    given as Null; it cannot occur in a data document). *)
Fixpoint value_node (v : value) : dnode :=
  match v with
  | VInt t => NTerm (NScalar (NInt t))
  | VFloat t => NTerm (NScalar (NFloat t))
  | VString t => NTerm (NScalar (NString t))
  | VTrue => NTerm (NScalar NTrue)
  | VFalse => NTerm (NScalar NFalse)
  | VNull | VErr _ => NTerm (NScalar NNull)
  | VArray l => NTerm (NArray (map value_node l))
  | VSet l => NTerm (NSet (map value_node l))
  | VObject l =>
      NTerm (NObject (map (fun kv : value * value => let '(k, x) := kv in (value_node k, value_node x)) l))
  end.

(** A Trieste Source (origin and contents) and a Location in one; [None] is the null source. *)
Record source := Src { src_origin : str; src_text : str }.
Record location := Loc { loc_file : source; loc_pos : Z; loc_len : Z }.

(** include/rego/rego.hh 1229-1332 [Statement], [StatementExt], with the location. *)
Inductive bstmt := BStmt (ty : stmt_type) (loc : option location) (op0 op1 : operand) (target : Z) (e : option bext)
with bext :=
| BCall (func : str) (ops : list operand)
| BDyn (path ops : list operand)
| BWith (path : list Z) (body : list bstmt)
| BBlocks (bs : list (list bstmt))
| BBlock (b : list bstmt).
Definition bblock := list bstmt.

(** include/rego/rego.hh 1334-1362 [Plan], [Function]. *)
Record bplan := BPlan { bp_name : str; bp_blocks : list bblock }.
Record bfunc := BFunc {
  bf_name : str; bf_path : list str; bf_params : list Z; bf_arity : Z; bf_cacheable : bool; bf_result : Z;
  bf_blocks : list bblock
}.

(** Builtin declarations (include/rego/rego.hh [builtins::wf_decl]); the optional [Type] wrapper is dropped. *)
Inductive btype :=
| BAny | BNumber | BString | BBoolean | BNull
| BDynArray (t : btype)
| BStaticArray (l : list btype)
| BDynObject (k v : btype)
| BStaticObject (l : list (str * btype))
| BHybrid (k v : btype) (l : list (str * btype))
| BSet (t : btype)
| BTypeSeq (l : list btype).
Record barg := BArg { ba_name : str; ba_desc : str; ba_type : btype }.
(** [None] arguments are VarArgs, [None] result is Void. *)
Record bdecl := BDecl { bd_args : option (list barg); bd_ret : option barg }.

(** include/rego/rego.hh 1370-1394 [BundleDef]. *)
Record bbundle := BBundle {
  bb_data : dnode;
  bb_name_to_func : list (str * Z);
  bb_name_to_plan : list (str * Z);
  bb_builtins : list (str * bdecl);
  bb_plans : list bplan;
  bb_functions : list bfunc;
  bb_strings : list str;
  bb_files : list source;
  bb_query : option str;
  bb_locals : Z;
  bb_query_plan : option Z
}.

(** ** Writer *)

(** Lines 69-82 [write_endian]: the [k] low bytes of an integer, in two's complement, lowest first. *)
Fixpoint le (k : nat) (n : Z) : str :=
  match k with O => [] | S k' => n mod 256 :: le k' (n / 256) end.
(** Lines 630-651: [put], [write_byte], [write_sbyte]. *)
Definition w_byte (n : Z) : str := [n mod 256].
(** Lines 666-669 [write_size]: a [size_t] cut to 32 bits. *)
Definition w_size (n : Z) : str := le 4 n.
(** Lines 671-676 [write_string]. *)
Definition w_string (t : str) : str := w_size (zlen t) ++ t.
(** A one-byte count, then the elements. *)
Definition w_list8 {A} (w : A -> str) (l : list A) : str := w_byte (zlen l) ++ concat (map w l).
(** A four-byte count, then the elements. *)
Definition w_list32 {A} (w : A -> str) (l : list A) : str := w_size (zlen l) ++ concat (map w l).
(** The same when writing an element can fail. *)
Definition w_all {A} (w : A -> outcome str) : list A -> outcome str :=
  fix go l :=
    match l with
    | [] => Ok []
    | x :: l' => let! a := w x in let! b := go l' in Ok (a ++ b)
    end.

(** Lines 678-690 [write_location].  [m_files] (1185) is never filled, so [m_files[origin]] is a fresh 0 for every origin. *)
Definition w_location (l : option location) : str :=
  match l with
  | None => w_byte 1
  | Some l => w_byte 2 ++ w_size 0 ++ w_size (loc_pos l) ++ w_size (loc_len l)
  end.

(** Lines 701-804 [write_bkv_list], [write_builtin_type]. *)
Fixpoint w_btype (t : btype) : str :=
  match t with
  | BAny => w_byte 1
  | BNumber => w_byte 2
  | BString => w_byte 3
  | BBoolean => w_byte 4
  | BNull => w_byte 5
  | BDynArray t => w_byte 6 ++ w_btype t
  | BStaticArray l => w_byte 7 ++ w_byte (zlen l) ++ concat (map w_btype l)
  | BDynObject k v => w_byte 8 ++ w_btype k ++ w_btype v
  | BStaticObject l =>
      w_byte 9 ++ w_byte (zlen l) ++
      concat (map (fun nt : str * btype => let '(n, t) := nt in w_string n ++ w_btype t) l)
  | BHybrid k v l =>
      w_byte 10 ++ w_btype k ++ w_btype v ++ w_byte (zlen l) ++
      concat (map (fun nt : str * btype => let '(n, t) := nt in w_string n ++ w_btype t) l)
  | BSet t => w_byte 11 ++ w_btype t
  | BTypeSeq l => w_byte 12 ++ w_byte (zlen l) ++ concat (map w_btype l)
  end.
(** Lines 806-811 [write_builtin_arg]; 847-850 has the same layout for a result. *)
Definition w_barg (a : barg) : str := w_string (ba_name a) ++ w_string (ba_desc a) ++ w_btype (ba_type a).
(** Lines 813-857 [write_builtin_decl]. *)
Definition w_bdecl (d : bdecl) : str :=
  (match bd_args d with None => w_byte 1 | Some l => w_byte 2 ++ w_list8 w_barg l end) ++
  (match bd_ret d with None => w_byte 1 | Some r => w_byte 2 ++ w_barg r end).

(** Lines 890-911 [write_operand]. *)
Definition w_operand (o : operand) : outcome str :=
  match o_type o with
  | TLocal => Ok (w_byte 1 ++ w_size (o_index o))
  | TString => Ok (w_byte 2 ++ w_size (o_index o))
  | TTrue => Ok (w_byte 3)
  | TFalse => Ok (w_byte 4)
  | TNone | TIndex | TValue => Throw
  end.
(** Lines 913-920 [write_operand_array]. *)
Definition w_operands (l : list operand) : outcome str :=
  let! x := w_all w_operand l in Ok (w_byte (zlen l) ++ x).

(** include/rego/rego.hh 1191-1227: the values of the enumeration. *)
Definition stmt_id (ty : stmt_type) : Z :=
  match ty with
  | SNop => 0 | SArrayAppend => 1 | SAssignInt => 2 | SAssignVarOnce => 3 | SAssignVar => 4 | SBlock => 5 | SBreak => 6
  | SCallDynamic => 7 | SCall => 8 | SDot => 9 | SEqual => 10 | SIsArray => 11 | SIsDefined => 12 | SIsObject => 13
  | SIsSet => 14 | SIsUndefined => 15 | SLen => 16 | SMakeArray => 17 | SMakeNull => 18 | SMakeNumberInt => 19
  | SMakeNumberRef => 20 | SMakeObject => 21 | SMakeSet => 22 | SNotEqual => 23 | SNot => 24 | SObjectInsert => 25
  | SObjectInsertOnce => 26 | SObjectMerge => 27 | SResetLocal => 28 | SResultSetAdd => 29 | SReturnLocal => 30 | SScan => 31
  | SSetAdd => 32 | SWith => 33
  end.

(** A null [ext] is dereferenced; [std::get] of another alternative throws. *)
Definition no_ext {A B} (e : option A) : outcome B := match e with None => Ub | Some _ => Throw end.

(** Lines 978-1129 [write_statement], 1131-1147 [write_block], [write_blocks]. *)
Fixpoint w_stmt (s : bstmt) : outcome str :=
  let w_block := (fun b => let! x := w_all w_stmt b in Ok (w_size (zlen b) ++ x)) in
  let w_blocks := (fun bs => let! x := w_all w_block bs in Ok (w_size (zlen bs) ++ x)) in
  match s with
  | BStmt ty loc op0 op1 target e =>
      let! body :=
        match ty with
        | SArrayAppend => let! o := w_operand op0 in Ok (w_size target ++ o)
        | SAssignInt | SMakeNumberInt => Ok (le 8 (o_value op0) ++ w_size target)
        | SAssignVarOnce | SAssignVar | SLen | SSetAdd => let! o := w_operand op0 in Ok (o ++ w_size target)
        | SBlock => match e with Some (BBlocks bs) => w_blocks bs | _ => no_ext e end
        | SBreak => Ok (w_size (o_index op0))
        | SCall =>
            match e with
            | Some (BCall fn ops) => let! x := w_operands ops in Ok (w_string fn ++ x ++ w_size target)
            | _ => no_ext e
            end
        | SCallDynamic =>
            match e with
            | Some (BDyn path ops) =>
                let! x := w_operands path in let! y := w_operands ops in Ok (x ++ y ++ w_size target)
            | _ => no_ext e
            end
        | SDot | SObjectInsertOnce | SObjectInsert =>
            let! a := w_operand op0 in let! b := w_operand op1 in Ok (a ++ b ++ w_size target)
        | SEqual | SNotEqual => let! a := w_operand op0 in let! b := w_operand op1 in Ok (a ++ b)
        | SIsArray | SIsObject | SIsSet => w_operand op0
        | SIsDefined | SIsUndefined | SMakeNull | SMakeObject | SMakeSet | SResetLocal | SResultSetAdd | SReturnLocal =>
            Ok (w_size target)
        | SMakeArray => Ok (le 4 (o_value op0) ++ w_size target)
        | SMakeNumberRef => Ok (w_size (o_index op0) ++ w_size target)
        | SNot => match e with Some (BBlock b) => w_block b | _ => no_ext e end
        | SObjectMerge => Ok (w_size (o_index op0) ++ w_size (o_index op1) ++ w_size target)
        | SScan =>
            match e with
            | Some (BBlock b) =>
                let! x := w_block b in Ok (w_size target ++ w_size (o_index op0) ++ w_size (o_index op1) ++ x)
            | _ => no_ext e
            end
        | SWith =>
            let! o := w_operand op0 in
            match e with
            | Some (BWith path b) =>
                let! x := w_block b in Ok (w_size target ++ o ++ w_list8 (le 4) path ++ x)
            | _ => no_ext e
            end
        | SNop => Ok []
        end in
      Ok (w_byte (stmt_id ty) ++ w_location loc ++ body)
  end.
Definition w_block (b : bblock) : outcome str := let! x := w_all w_stmt b in Ok (w_size (zlen b) ++ x).
Definition w_blocks (bs : list bblock) : outcome str := let! x := w_all w_block bs in Ok (w_size (zlen bs) ++ x).

(** Lines 1149-1153 [write_plan]. *)
Definition w_plan (p : bplan) : outcome str := let! b := w_blocks (bp_blocks p) in Ok (w_string (bp_name p) ++ b).
(** Lines 1155-1180 [write_path], [write_params], [write_func]. *)
Definition w_func (f : bfunc) : outcome str :=
  let! b := w_blocks (bf_blocks f) in
  Ok (w_string (bf_name f) ++ w_list8 w_string (bf_path f) ++ w_list8 w_size (bf_params f) ++ w_size (bf_result f) ++ b).

(** Lines 573-609 [write_plans], [write_funcs]: every element is written at its position, the positions are collected in a map
    by name, which is written last (880-888 [write_table]).  [pos] is the position in the file; the second result is the
    position of the table, which the forward pointer gets. *)
Fixpoint w_named {A} (name : A -> str) (w : A -> outcome str) (pos : Z) (l : list A) (locs : list (str * Z))
  : outcome (str * list (str * Z)) :=
  match l with
  | [] => Ok ([], locs)
  | x :: l' =>
      let! a := w x in
      let! '(b, locs') := w_named name w (pos + zlen a) l' (sm_set (name x) pos locs) in
      Ok (a ++ b, locs')
  end.
Definition w_table (pos : Z) (locs : list (str * Z)) : str :=
  le 8 pos ++ w_list32 (fun e : str * Z => w_string (fst e) ++ le 8 (snd e)) locs.
Definition w_section {A} (id : Z) (name : A -> str) (w : A -> outcome str) (pos : Z) (l : list A) : outcome (str * Z) :=
  let! '(body, locs) := w_named name w (pos + 5) l [] in
  Ok (w_byte id ++ w_size (zlen l) ++ body ++ w_table pos locs, pos + 5 + zlen body).

(** Lines 549-571 [write_static]; 692-699, 859-878 the tables in it. *)
Definition w_static (b : bbundle) : str :=
  w_byte 1 ++
  w_list32 (fun f => w_string (src_origin f) ++ w_string (src_text f)) (bb_files b) ++
  w_list32 w_string (bb_strings b) ++
  w_list32 (fun e : str * bdecl => w_string (fst e) ++ w_bdecl (snd e)) (bb_builtins b) ++
  match bb_query b with None => w_byte 1 | Some q => w_byte 2 ++ w_string q end.

Section Data.
Variable F : fops.

(** Lines 153-182 [write_cstring], [write_string], [write_document] of namespace bson. *)
Definition w_cstring (t : str) : str := t ++ [0].
Definition w_doc (content : str) : str := le 4 (zlen content) ++ content ++ [0].
Definition w_bson_string (t : str) : str := le 4 (zlen t + 1) ++ t ++ [0].

(** Lines 265-364 [write_objectitem], [write_object], [write_array], [write_term].  A node that is none of the expected ones
    writes nothing (the last [if] has no [else]); [front] of a node without children is undefined. *)
Fixpoint w_term (key : str) (term : dnode) : outcome str :=
  let w_array := (fun l =>
    let! x := (fix go (i : Z) (l : list dnode) : outcome str :=
                 match l with
                 | [] => Ok []
                 | d :: l' => let! a := w_term (dec i) d in let! b := go (i + 1) l' in Ok (a ++ b)
                 end) 0 l in
    Ok (w_doc x)) in
  let w_object := (fun l =>
    let! x := (fix go (l : list (dnode * dnode)) : outcome str :=
                 match l with
                 | [] => Ok []
                 | (k, d) :: l' =>
                     let! a := w_term (to_key F (node_value k)) d in let! b := go l' in Ok (a ++ b)
                 end) l in
    Ok (w_doc x)) in
  (* what is written for [term->front()] *)
  let w_value := (fun v =>
    match v with
    | NScalar (NInt t) => Ok (w_byte 5 ++ w_cstring (strip_quotes key) ++ le 4 (zlen t) ++ w_byte 128 ++ t)
    | NScalar (NFloat t) => Ok (w_byte 5 ++ w_cstring (strip_quotes key) ++ le 4 (zlen t) ++ w_byte 129 ++ t)
    | NScalar NTrue => Ok (w_byte 8 ++ w_cstring (strip_quotes key) ++ w_byte 1)
    | NScalar NFalse => Ok (w_byte 8 ++ w_cstring (strip_quotes key) ++ w_byte 0)
    | NScalar NNull => Ok (w_byte 10 ++ w_cstring (strip_quotes key))
    | NScalar (NString t) => Ok (w_byte 2 ++ w_cstring (strip_quotes key) ++ w_bson_string t)
    | NScalar _ => Throw
    | NArray l | NSet l => let! x := w_array l in Ok (w_byte 4 ++ w_cstring (strip_quotes key) ++ x)
    | NObject l => let! x := w_object l in Ok (w_byte 3 ++ w_cstring (strip_quotes key) ++ x)
    | _ => Ok []
    end) in
  match term with
  | NTerm v => w_value v
  | NScalar v => w_value v
  | NArray (v :: _) | NSet (v :: _) => w_value v
  | NObject (_ :: _) => Ok []          (* the first child is an ObjectItem *)
  | _ => Ub                            (* no children *)
  end.
Fixpoint w_items (l : list (dnode * dnode)) : outcome str :=
  match l with
  | [] => Ok []
  | (k, d) :: l' =>
      let! a := w_term (to_key F (node_value k)) d in let! b := w_items l' in Ok (a ++ b)
  end.

(** Lines 611-618 [write_data].  The data of a bundle is an Object node; what happens to another node is not modelled. *)
Definition w_data (d : dnode) : outcome str :=
  match d with
  | NObject l => let! x := w_items l in Ok (w_byte 4 ++ w_doc x)
  | _ => Ub
  end.

(** Lines 478-495. *)
Definition Magic : str := $"REGOBUND".
Definition header_size : Z := 64.

(** Lines 520-548, 600-618: the header; [locs] are the forward pointers. *)
Definition w_header (locals : Z) (query_plan : option Z) (crc size : Z) (locs : list Z) : str :=
  Magic ++ w_byte 1 ++ w_byte 1 ++ w_byte (match query_plan with Some q => q | None => -1 end) ++ [0; 0; 0; 0; 0] ++
  w_size locals ++ le 4 crc ++ le 8 size ++ concat (map (le 8) locs).

(** Lines 501-515 [write_bundle], 1909-1915 [BundleDef::save]. *)
Definition save (b : bbundle) : outcome str :=
  let st := w_static b in
  let p1 := header_size + zlen st in
  let! '(plans, t1) := w_section 2 bp_name w_plan p1 (bb_plans b) in
  let p2 := p1 + zlen plans in
  let! '(funcs, t2) := w_section 3 bf_name w_func p2 (bb_functions b) in
  let p3 := p2 + zlen funcs in
  let! data := w_data (bb_data b) in
  let payload := st ++ plans ++ funcs ++ data in
  Ok (w_header (bb_locals b) (bb_query_plan b) (crc32 payload) (zlen payload) [header_size; t1; t2; p3] ++ payload).
End Data.

(** ** Reader *)

(** What the reader carries: the bytes not read yet, and the largest number of bytes it made room for beyond those. *)
Record rstate := RS { rs_rest : str; rs_over : Z }.
Definition rdr (A : Type) := rstate -> outcome (A * rstate).
Definition rret {A} (a : A) : rdr A := fun s => Ok (a, s).
Definition rbind {A B} (m : rdr A) (f : A -> rdr B) : rdr B :=
  fun s => match m s with
           | Ok (a, s') => f a s'
           | Throw => Throw
           | Ub => Ub
           | OutOfFuel => OutOfFuel
           end.
Definition rfail {A} (o : outcome (A * rstate)) : rdr A := fun _ => o.
Definition rthrow {A} : rdr A := fun _ => Throw.
Notation "'read!' x := m 'in' f" := (rbind m (fun x => f)) (at level 200, x name, m at level 100, f at level 200).
Notation "'read!' ' p := m 'in' f" := (rbind m (fun p => f)) (at level 200, p pattern, m at level 100, f at level 200).

(** The integer of little-endian bytes. *)
Fixpoint unle (l : str) : Z := match l with [] => 0 | b :: l' => b + 256 * unle l' end.
(** An unsigned [w]-bit integer taken as a signed one. *)
Definition signed (w n : Z) : Z := if n <? 2 ^ (w - 1) then n else n - 2 ^ w.

(** [stream.get()]: [None] is end of file. *)
Definition get : rdr (option Z) :=
  fun s => match rs_rest s with
           | [] => Ok (None, s)
           | b :: l => Ok (Some b, RS l (rs_over s))
           end.
(** Lines 1252-1260 [read_byte], [read_sbyte] (bson: 184-194): end of file reads as -1. *)
Definition r_byte : rdr Z := read! b := get in rret (match b with Some x => x | None => 255 end).
Definition r_sbyte : rdr Z := read! b := r_byte in rret (signed 8 b).
(** [stream.read(ptr, k)]: the bytes there are, up to [k]. *)
Definition take (k : nat) : rdr str := fun s => Ok (firstn k (rs_rest s), RS (skipn k (rs_rest s)) (rs_over s)).
(** Lines 196-239 [read_uint32] ... [read_size]: with fewer bytes the variable is left without a value. *)
Definition r_le (k : nat) : rdr Z :=
  read! l := take k in if (length l <? k)%nat then rfail Ub else rret (unle l).
Definition r_size : rdr Z := r_le 4.
Definition r_int32 : rdr Z := read! n := r_le 4 in rret (signed 32 n).
Definition r_int64 : rdr Z := read! n := r_le 8 in rret (signed 64 n).
(** Lines 1278-1281 [skip_uint64]. *)
Definition skip_uint64 : rdr unit := read! l := take 8 in rret tt.

(** Making room for [n] bytes ([resize]). *)
Definition room (n : Z) : rdr unit :=
  fun s => if n <=? zlen (rs_rest s) then Ok (tt, s) else Ok (tt, RS (rs_rest s) (Z.max (rs_over s) (n - zlen (rs_rest s)))).

(** Lines 1288-1346 [residual], [read_size_checked], [read_size_capped]. *)
Definition MaxStringBytes : Z := 16 * 1024 * 1024.
Definition MaxCollectionElements : Z := 2 ^ 20.
Definition r_size_checked : rdr Z :=
  read! l := take 4 in
  if (length l <? 4)%nat then rthrow
  else fun s => if zlen (rs_rest s) <? unle l then Throw else Ok (unle l, s).
Definition r_size_capped (cap : Z) : rdr Z :=
  read! n := r_size_checked in if cap <? n then rthrow else rret n.

(** [n] elements. *)
Fixpoint r_times {A} (n : nat) (r : rdr A) : rdr (list A) :=
  match n with
  | O => rret []
  | S n' => read! x := r in read! l := r_times n' r in rret (x :: l)
  end.
Definition r_list8 {A} (r : rdr A) : rdr (list A) := read! n := r_byte in r_times (Z.to_nat n) r.
Definition r_list32 {A} (r : rdr A) : rdr (list A) :=
  read! n := r_size_capped MaxCollectionElements in r_times (Z.to_nat n) r.

(** Lines 1385-1392 [read_string]. *)
Definition r_string : rdr str :=
  read! n := r_size_capped MaxStringBytes in
  read! u := room n in
  take (Z.to_nat n).
(** Lines 1394-1398 [skip_string]. *)
Definition skip_string : rdr unit :=
  read! n := r_size_capped MaxStringBytes in read! l := take (Z.to_nat n) in rret tt.
(** Lines 1405-1412 [assert_id]. *)
Definition assert_id (id : Z) : rdr unit := read! n := r_sbyte in if n =? id then rret tt else rthrow.

(** Lines 1348-1383 [read_location]; the three sizes are used (compared, stored) only after all of them were read. *)
Definition r_location (files : list source) : rdr (option location) :=
  read! id := r_sbyte in
  if id =? 1 then rret None
  else if negb (id =? 2) then rthrow
  else
    read! idx := r_size in
    read! pos := r_size in
    read! len := r_size in
    match znth files idx with
    | None => rthrow
    | Some f => rret (Some (Loc f pos len))
    end.

(** Lines 1414-1423 [read_files]. *)
Definition r_file : rdr source := read! o := r_string in read! t := r_string in rret (Src o t).

(** Lines 1425-1475 [read_strings].  [utf8] says whether trieste::utf8::utf8_to_rune (not in this repository), called as in
    lines 1445-1469, accepts a text as well-formed without surrogates and code points above U+10FFFF. *)
Definition r_utf8 (utf8 : str -> bool) : rdr str :=
  read! t := r_string in if utf8 t then rret t else rthrow.

(** Lines 1477-1560 [read_bkv_list], [read_bt_list], [read_builtin_type].  There is no limit on the nesting; [fuel] bounds it
    in the model and is shown to suffice. *)
Fixpoint r_btype (fuel : nat) : rdr btype :=
  match fuel with
  | O => rfail OutOfFuel
  | S n =>
      let r_kv := (read! name := r_string in read! t := r_btype n in rret (name, t)) in
      read! id := r_sbyte in
      if id =? 1 then rret BAny
      else if id =? 2 then rret BNumber
      else if id =? 3 then rret BString
      else if id =? 4 then rret BBoolean
      else if id =? 5 then rret BNull
      else if id =? 6 then read! t := r_btype n in rret (BDynArray t)
      else if id =? 7 then read! l := r_list8 (r_btype n) in rret (BStaticArray l)
      else if id =? 8 then read! k := r_btype n in read! v := r_btype n in rret (BDynObject k v)
      else if id =? 9 then read! l := r_list8 r_kv in rret (BStaticObject l)
      else if id =? 10 then
        read! k := r_btype n in read! v := r_btype n in read! l := r_list8 r_kv in rret (BHybrid k v l)
      else if id =? 11 then read! t := r_btype n in rret (BSet t)
      else if id =? 12 then read! l := r_list8 (r_btype n) in rret (BTypeSeq l)
      else rthrow
  end.
(** A type with enough fuel for the bytes there are. *)
Definition r_type : rdr btype := fun s => r_btype (S (length (rs_rest s))) s.
(** Lines 1562-1567 [read_builtin_arg]; 1586-1588 for a result. *)
Definition r_barg : rdr barg :=
  read! n := r_string in read! d := r_string in read! t := r_type in rret (BArg n d t).
(** Lines 1569-1592 [read_builtin_decl]. *)
Definition r_bdecl : rdr bdecl :=
  read! a := r_sbyte in
  read! args := (if a =? 2 then read! l := r_list8 r_barg in rret (Some l) else rret None) in
  read! r := r_sbyte in
  read! res := (if r =? 2 then read! x := r_barg in rret (Some x) else rret None) in
  rret (BDecl args res).
(** Lines 1594-1602 [read_builtin_funcs]: the entries go into a map. *)
Definition r_builtin : rdr (str * bdecl) := read! n := r_string in read! d := r_bdecl in rret (n, d).
Definition map_of {A} (l : list (str * A)) : list (str * A) := fold_left (fun m e => sm_set (fst e) (snd e) m) l [].

(** Lines 1634-1651 [read_operand]. *)
Definition r_operand : rdr operand :=
  read! id := r_sbyte in
  if id =? 1 then read! i := r_size in rret (Op TLocal i)
  else if id =? 2 then read! i := r_size in rret (Op TString i)
  else if id =? 3 then rret (Op TTrue 0)
  else if id =? 4 then rret (Op TFalse 0)
  else rthrow.
(** [statement.target = read_size()], an [int32_t]. *)
Definition r_target : rdr Z := read! n := r_size in rret (signed 32 n).

(** include/rego/rego.hh 1191-1227, the other way; [None] is a value outside the enumeration. *)
Definition stmt_types : list stmt_type :=
  [SNop; SArrayAppend; SAssignInt; SAssignVarOnce; SAssignVar; SBlock; SBreak; SCallDynamic; SCall; SDot; SEqual;
   SIsArray; SIsDefined; SIsObject; SIsSet; SIsUndefined; SLen; SMakeArray; SMakeNull; SMakeNumberInt; SMakeNumberRef;
   SMakeObject; SMakeSet; SNotEqual; SNot; SObjectInsert; SObjectInsertOnce; SObjectMerge; SResetLocal; SResultSetAdd;
   SReturnLocal; SScan; SSetAdd; SWith].
Definition op_none : operand := Op TNone 0.

Section Statements.
Variable files : list source.

(** Lines 1674-1849 [read_statement]; [rb] is [read_block]. *)
Definition r_stmt_body (rb : rdr bblock) (ty : stmt_type) (loc : option location) : rdr bstmt :=
  let mk := BStmt ty loc in
  match ty with
  | SArrayAppend => read! t := r_target in read! o := r_operand in rret (mk o op_none t None)
  | SAssignInt | SMakeNumberInt => read! v := r_int64 in read! t := r_target in rret (mk (Op TNone v) op_none t None)
  | SAssignVarOnce | SAssignVar | SLen | SSetAdd =>
      read! o := r_operand in read! t := r_target in rret (mk o op_none t None)
  | SBlock => read! bs := r_list32 rb in rret (mk op_none op_none 0 (Some (BBlocks bs)))
  | SBreak => read! i := r_size in rret (mk (Op TIndex i) op_none 0 None)
  | SCall =>
      read! fn := r_string in read! ops := r_list8 r_operand in read! t := r_target in
      rret (mk op_none op_none t (Some (BCall fn ops)))
  | SCallDynamic =>
      read! path := r_list8 r_operand in read! ops := r_list8 r_operand in read! t := r_target in
      rret (mk op_none op_none t (Some (BDyn path ops)))
  | SDot | SObjectInsertOnce | SObjectInsert =>
      read! a := r_operand in read! b := r_operand in read! t := r_target in rret (mk a b t None)
  | SEqual | SNotEqual => read! a := r_operand in read! b := r_operand in rret (mk a b 0 None)
  | SIsArray | SIsObject | SIsSet => read! a := r_operand in rret (mk a op_none 0 None)
  | SIsDefined | SIsUndefined | SMakeNull | SMakeObject | SMakeSet | SResetLocal | SResultSetAdd | SReturnLocal =>
      read! t := r_target in rret (mk op_none op_none t None)
  | SMakeArray => read! v := r_int32 in read! t := r_target in rret (mk (Op TNone v) op_none t None)
  | SMakeNumberRef => read! i := r_size in read! t := r_target in rret (mk (Op TString i) op_none t None)
  | SNot => read! b := rb in rret (mk op_none op_none 0 (Some (BBlock b)))
  | SObjectMerge =>
      read! i := r_size in read! j := r_size in read! t := r_target in rret (mk (Op TLocal i) (Op TLocal j) t None)
  | SScan =>
      read! t := r_target in read! i := r_size in read! j := r_size in read! b := rb in
      rret (mk (Op TLocal i) (Op TLocal j) t (Some (BBlock b)))
  | SWith =>
      read! t := r_target in read! o := r_operand in read! path := r_list8 r_size in read! b := rb in
      rret (mk o op_none t (Some (BWith path b)))
  | SNop => rret (mk op_none op_none 0 None)
  end.
Definition r_stmt (rb : rdr bblock) : rdr bstmt :=
  read! id := r_sbyte in
  read! loc := r_location files in
  match znth stmt_types id with
  | None => rthrow
  | Some ty => r_stmt_body rb ty loc
  end.
(** Lines 1851-1864 [read_block]; [levels] is [MaxBsonDepth - m_block_depth]. *)
Fixpoint r_block (levels : nat) : rdr bblock :=
  match levels with
  | O => rthrow
  | S l => r_list32 (r_stmt (r_block l))
  end.
Definition MaxBsonDepth : nat := 256.
(** Lines 1866-1874 [read_blocks]. *)
Definition r_blocks : rdr (list bblock) := r_list32 (r_block MaxBsonDepth).

(** Lines 1876-1882 [read_plan]. *)
Definition r_plan : rdr bplan := read! n := r_string in read! b := r_blocks in rret (BPlan n b).
(** Lines 1897-1927 [read_path], [read_params], [read_func]. *)
Definition r_func : rdr bfunc :=
  read! n := r_string in
  read! path := r_list8 r_string in
  read! params := r_list8 r_size in
  read! res := r_size in
  read! b := r_blocks in
  rret (BFunc n path params (zlen params) (zlen params =? 2) res b).
End Statements.

(** Lines 1622-1632 [skip_table]. *)
Definition skip_table : rdr unit :=
  read! u := skip_uint64 in
  read! l := r_list32 (read! u := skip_string in skip_uint64) in rret tt.
(** Lines 1884-1895, 1929-1940 [read_plans], [read_funcs]: [name_to_plan[plan.name] = i]. *)
Fixpoint index_names (i : Z) (l : list str) (m : list (str * Z)) : list (str * Z) :=
  match l with [] => m | n :: l' => index_names (i + 1) l' (sm_set n i m) end.
Definition r_section {A} (id : Z) (r : rdr A) : rdr (list A) :=
  read! u := assert_id id in read! l := r_list32 r in read! v := skip_table in rret l.

(** ** Data *)

(** Lines 241-254 [read_cstring]. *)
Fixpoint cstring (l : str) : str * str :=
  match l with
  | [] => ([], [])
  | b :: l' => if b =? 0 then ([], l') else let '(t, r) := cstring l' in (b :: t, r)
  end.
Definition r_cstring : rdr str := fun s => let '(t, r) := cstring (rs_rest s) in Ok (t, RS r (rs_over s)).
(** [value.resize(n); stream.read(value.data(), n)]: what is missing stays zero. *)
Definition r_padded (n : Z) : rdr str :=
  read! u := room n in
  read! l := take (Z.to_nat n) in
  rret (l ++ repeat 0 (Z.to_nat n - length l)).
(** Lines 256-270 [read_string] of namespace bson. *)
Definition r_bson_string : rdr str :=
  read! n := r_size in
  if n =? 0 then rthrow
  else read! t := r_padded (n - 1) in read! b := get in rret t.

(** Lines 428-480 [read_element]; [rdoc] is the reader of a nested object or array. *)
Definition r_element (rdoc : rdr (list (str * dnode))) (id : Z) : rdr dnode :=
  if id =? 8 then
    read! b := r_byte in if b =? 1 then rret NTrue else if b =? 0 then rret NFalse else rthrow
  else if id =? 10 then rret NNull
  else if id =? 2 then read! t := r_bson_string in rret (NString t)
  else if id =? 5 then
    read! n := r_size in
    read! sub := r_byte in
    if (sub =? 128) || (sub =? 129) then
      read! t := r_padded n in rret (NScalar (if sub =? 128 then NInt t else NFloat t))
    else rthrow
  else if id =? 4 then read! l := rdoc in rret (NArray (map snd l))
  else if id =? 3 then
    (* 730-734 of src/internal.cc: [object_item] wraps key and value with [to_term] *)
    read! l := rdoc in
    rret (NObject (map (fun kv : str * dnode =>
                          (NTerm (NScalar (NString (fst kv))),
                           match snd kv with
                           | NScalar d => NTerm (NScalar d)
                           | NArray _ | NSet _ | NObject _ => NTerm (snd kv)
                           | d => NTerm (NScalar d)
                           end)) l))
  else rthrow.
(** Lines 370-426 [read_object], [read_array]: the loop.  [len] is the number of unread bytes after the size field, so the
    test [tellg() < start + size + 1] is the one below. *)
Fixpoint doc_loop (rdoc : rdr (list (str * dnode))) (fuel : nat) (len size : Z) : rdr (list (str * dnode)) :=
  match fuel with
  | O => rfail OutOfFuel
  | S n =>
      read! id := get in
      match id with
      | None => rret []
      | Some b =>
          fun s =>
            if negb (b =? 0) && (len - zlen (rs_rest s) <? size + 1) then
              (read! key := r_cstring in
               read! x := r_element rdoc (signed 8 b) in
               read! l := doc_loop rdoc n len size in
               rret ((key, x) :: l)) s
            else Ok ([], s)
      end
  end.
Fixpoint r_doc (levels : nat) : rdr (list (str * dnode)) :=
  match levels with
  | O => rthrow
  | S l =>
      read! size := r_size in
      fun s => doc_loop (r_doc l) (S (length (rs_rest s))) (zlen (rs_rest s)) size s
  end.
(** Lines 1942-1946 [read_data]. *)
Definition r_data : rdr dnode := read! u := assert_id 4 in r_element (r_doc MaxBsonDepth) 3.

(** ** Loading *)

(** Lines 1233-1249 [read_bundle], 1604-1620 [read_static]. *)
Definition r_bundle (utf8 : str -> bool) (locals query_plan : Z) : rdr bbundle :=
  read! u := assert_id 1 in
  read! files := r_list32 r_file in
  read! strings := r_list32 (r_utf8 utf8) in
  read! builtins := r_list32 r_builtin in
  read! q := r_sbyte in
  read! query := (if q =? 2 then read! t := r_string in rret (Some t) else rret None) in
  read! plans := r_section 2 (r_plan files) in
  read! funcs := r_section 3 (r_func files) in
  read! data := r_data in
  rret {| bb_data := data;
          bb_name_to_func := index_names 0 (map bf_name funcs) [];
          bb_name_to_plan := index_names 0 (map bp_name plans) [];
          bb_builtins := map_of builtins;
          bb_plans := plans;
          bb_functions := funcs;
          bb_strings := strings;
          bb_files := files;
          bb_query := query;
          bb_locals := locals;
          bb_query_plan := if 0 <=? query_plan then Some query_plan else None |}.

Definition MaxBundleSize : Z := 256 * 1024 * 1024.
Fixpoint proper_prefix (a b : str) : bool :=
  match a, b with
  | [], _ :: _ => true
  | x :: a', y :: b' => (x =? y) && proper_prefix a' b'
  | _, [] => false
  end.
(** Lines 1917-1985 [BundleDef::load], with the over-allocation of the reader as a second result.  The header fields are read
    at their offsets (10 query plan, 16 local count, 20 checksum, 24 size); with fewer than 32 bytes [size] has no value when
    it is compared.  A header that is cut later makes [seekg] or the reading of the payload fail. *)
Definition field (bytes : str) (off k : nat) : Z := unle (firstn k (skipn off bytes)).
Definition load_state (utf8 : str -> bool) (bytes : str) : outcome (bbundle * rstate) :=
  let magic := firstn 8 bytes in
  if proper_prefix magic Magic then Ub
  else if negb (str_eqb magic Magic) then Throw
  else
    let get_at i := match znth bytes i with Some b => b | None => 255 end in
    if negb (get_at 8 =? 1) then Throw
    else if negb (get_at 9 =? 1) then Throw
    else if zlen bytes <? 32 then Ub
    else
      let size := field bytes 24 8 in
      if MaxBundleSize <? size then Throw
      else if zlen bytes <? header_size then Throw
      else
        let payload := firstn (Z.to_nat size) (skipn 64 bytes) in
        if zlen payload <? size then Throw
        else if negb (crc32 payload =? field bytes 20 4) then Throw
        else r_bundle utf8 (field bytes 16 4) (signed 8 (get_at 10)) (RS payload 0).
Definition load (utf8 : str -> bool) (bytes : str) : outcome bbundle :=
  let! '(b, s) := load_state utf8 bytes in Ok b.
