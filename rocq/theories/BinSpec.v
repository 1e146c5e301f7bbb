(** What a user of the binary bundle format is promised: which bundles it can hold, and when two bundles are the same. *)
From Coq Require Import String ZArith List Bool.
From Verif Require Import Base BigIntSpec BigIntModel SMap SMapFacts ValueModel ValueSpec ResolverModel VmModel BinModel.
Import ListNotations.
Local Open Scope Z_scope.
Local Open Scope list_scope.

(** ** The same bundle *)

(** An operand without what its kind does not use: [true] and [false] carry no number. *)
Definition same_op (o : operand) : operand :=
  match o_type o with TTrue | TFalse => Op (o_type o) 0 | _ => o end.

(** Which fields each kind of statement has.  Operand 0 and 1 can be full operands, a plain index, a plain number, or unused;
    the kind of a plain index or number says nothing (it is always a string, a local or a number, by the kind of statement). *)
Inductive field_use := FOperand | FIndex (ty : operand_type) | FNumber | FUnused.
Definition fields (ty : stmt_type) : field_use * field_use * bool :=
  match ty with
  | SArrayAppend | SAssignVarOnce | SAssignVar | SLen | SSetAdd | SWith => (FOperand, FUnused, true)
  | SDot | SObjectInsert | SObjectInsertOnce => (FOperand, FOperand, true)
  | SEqual | SNotEqual => (FOperand, FOperand, false)
  | SIsArray | SIsObject | SIsSet => (FOperand, FUnused, false)
  | SIsDefined | SIsUndefined | SMakeNull | SMakeObject | SMakeSet | SResetLocal | SResultSetAdd | SReturnLocal
  | SCall | SCallDynamic => (FUnused, FUnused, true)
  | SAssignInt | SMakeNumberInt | SMakeArray => (FNumber, FUnused, true)
  | SMakeNumberRef => (FIndex TString, FUnused, true)
  | SObjectMerge | SScan => (FIndex TLocal, FIndex TLocal, true)
  | SBreak => (FIndex TIndex, FUnused, false)
  | SBlock | SNot | SNop => (FUnused, FUnused, false)
  end.
Definition same_field (u : field_use) (o : operand) : operand :=
  match u with
  | FOperand => same_op o
  | FIndex ty => Op ty (o_index o)
  | FNumber => Op TNone (o_value o)
  | FUnused => Op TNone 0
  end.
(** A statement reduced to the fields its kind has; two statements are the same when these are. *)
Fixpoint same_stmt (s : bstmt) : bstmt :=
  match s with
  | BStmt ty loc op0 op1 t e =>
      let '(u0, u1, ut) := fields ty in
      BStmt ty loc (same_field u0 op0) (same_field u1 op1) (if ut then t else 0)
        (match ty, e with
         | SCall, Some (BCall fn ops) => Some (BCall fn (map same_op ops))
         | SCallDynamic, Some (BDyn path ops) => Some (BDyn (map same_op path) (map same_op ops))
         | SWith, Some (BWith path b) => Some (BWith path (map same_stmt b))
         | SBlock, Some (BBlocks bs) => Some (BBlocks (map (map same_stmt) bs))
         | (SNot | SScan), Some (BBlock b) => Some (BBlock (map same_stmt b))
         | _, _ => None
         end)
  end.
Definition same_plan (p : bplan) : bplan := BPlan (bp_name p) (map (map same_stmt) (bp_blocks p)).
Definition same_func (f : bfunc) : bfunc :=
  BFunc (bf_name f) (bf_path f) (bf_params f) (bf_arity f) (bf_cacheable f) (bf_result f) (map (map same_stmt) (bf_blocks f)).

Record same_bundle (b b' : bbundle) : Prop := {
  same_data : node_value (bb_data b) = node_value (bb_data b');
  same_name_to_func : bb_name_to_func b = bb_name_to_func b';
  same_name_to_plan : bb_name_to_plan b = bb_name_to_plan b';
  same_builtins : bb_builtins b = bb_builtins b';
  same_plans : map same_plan (bb_plans b) = map same_plan (bb_plans b');
  same_funcs : map same_func (bb_functions b) = map same_func (bb_functions b');
  same_strings : bb_strings b = bb_strings b';
  same_files : bb_files b = bb_files b';
  same_query : bb_query b = bb_query b';
  same_locals : bb_locals b = bb_locals b';
  same_query_plan : bb_query_plan b = bb_query_plan b'
}.

(** ** Within the limits of the format *)

Definition fits32 (n : Z) : Prop := 0 <= n < 2 ^ 32.
Definition short (t : str) : Prop := zlen t <= 16 * 1024 * 1024.
Definition few {A} (l : list A) : Prop := zlen l < 256.
Definition many {A} (l : list A) : Prop := zlen l <= 2 ^ 20.

Definition op_ok (o : operand) : Prop :=
  match o_type o with
  | TLocal | TString => fits32 (o_word o)
  | TTrue | TFalse => True
  | _ => False
  end.
Definition field_ok (u : field_use) (o : operand) : Prop :=
  match u with
  | FOperand => op_ok o
  | FIndex _ => fits32 (o_index o)
  | FNumber | FUnused => True
  end.
(** A location is kept only if it is absent or in the first file. *)
Definition loc_ok (files : list source) (l : option location) : Prop :=
  match l with
  | None => True
  | Some l => (exists more, files = loc_file l :: more) /\ fits32 (loc_pos l) /\ fits32 (loc_len l)
  end.

Section Ok.
Variable files : list source.
Variable block_ok : bblock -> Prop.
Definition stmt_ok (s : bstmt) : Prop :=
  match s with
  | BStmt ty loc op0 op1 t e =>
      loc_ok files loc /\ - 2 ^ 31 <= t < 2 ^ 31 /\
      field_ok (fst (fst (fields ty))) op0 /\ field_ok (snd (fst (fields ty))) op1 /\
      match ty, e with
      | SMakeArray, _ => - 2 ^ 31 <= o_value op0 < 2 ^ 31
      | SCall, Some (BCall fn ops) => short fn /\ few ops /\ Forall op_ok ops
      | SCallDynamic, Some (BDyn path ops) => few path /\ Forall op_ok path /\ few ops /\ Forall op_ok ops
      | SWith, Some (BWith path b) => few path /\ Forall fits32 path /\ block_ok b
      | SBlock, Some (BBlocks bs) => many bs /\ Forall block_ok bs
      | (SNot | SScan), Some (BBlock b) => block_ok b
      | (SCall | SCallDynamic | SWith | SBlock | SNot | SScan), _ => False
      | _, _ => True
      end
  end.
End Ok.
(** Blocks nested at most [depth] deep. *)
Fixpoint block_ok (files : list source) (depth : nat) (b : bblock) : Prop :=
  match depth with
  | O => False
  | S d => many b /\ Forall (stmt_ok files (block_ok files d)) b
  end.
Definition blocks_ok (files : list source) (bs : list bblock) : Prop := many bs /\ Forall (block_ok files 256) bs.
Definition plan_ok (files : list source) (p : bplan) : Prop := short (bp_name p) /\ blocks_ok files (bp_blocks p).
Definition func_ok (files : list source) (f : bfunc) : Prop :=
  short (bf_name f) /\ few (bf_path f) /\ Forall short (bf_path f) /\ few (bf_params f) /\ Forall fits32 (bf_params f) /\
  bf_arity f = zlen (bf_params f) /\ bf_cacheable f = (zlen (bf_params f) =? 2) /\ fits32 (bf_result f) /\
  blocks_ok files (bf_blocks f).

Fixpoint btype_ok (t : btype) : Prop :=
  match t with
  | BAny | BNumber | BString | BBoolean | BNull => True
  | BDynArray t | BSet t => btype_ok t
  | BStaticArray l | BTypeSeq l =>
      few l /\ (fix all l := match l with [] => True | x :: l' => btype_ok x /\ all l' end) l
  | BDynObject k v => btype_ok k /\ btype_ok v
  | BStaticObject l =>
      few l /\ (fix all (l : list (str * btype)) :=
                  match l with [] => True | (n, x) :: l' => (short n /\ btype_ok x) /\ all l' end) l
  | BHybrid k v l =>
      btype_ok k /\ btype_ok v /\
      few l /\ (fix all (l : list (str * btype)) :=
                  match l with [] => True | (n, x) :: l' => (short n /\ btype_ok x) /\ all l' end) l
  end.
Definition barg_ok (a : barg) : Prop := short (ba_name a) /\ short (ba_desc a) /\ btype_ok (ba_type a).
Definition bdecl_ok (d : bdecl) : Prop :=
  match bd_args d with None => True | Some l => few l /\ Forall barg_ok l end /\
  match bd_ret d with None => True | Some r => barg_ok r end.

(** A JSON value nested at most [depth] deep: no sets, object keys are strings without a zero byte. *)
Fixpoint json_ok (depth : nat) (v : value) : Prop :=
  match depth, v with
  | _, (VInt _ | VFloat _ | VString _ | VTrue | VFalse | VNull) => True
  | S d, VArray l => Forall (json_ok d) l
  | S d, VObject l =>
      Forall (fun kv : value * value =>
                (exists t, fst kv = VString t /\ ~ In 0 t) /\ json_ok d (snd kv)) l
  | _, _ => False
  end.

(** The numbering of a list of names: every name has the position of its last occurrence; names are in order. *)
Definition numbering (names : list str) (m : list (str * Z)) : Prop :=
  keyed m /\
  forall n i, In (n, i) m <->
              (exists k, nth_error names k = Some n /\ i = Z.of_nat k /\
                         forall j, (k < j)%nat -> nth_error names j <> Some n).

Record saveable (utf8 : str -> bool) (b : bbundle) : Prop := {
  sv_data : exists l, NTerm (bb_data b) = value_node (VObject l) /\ json_ok 256 (VObject l);
  sv_name_to_func : numbering (map bf_name (bb_functions b)) (bb_name_to_func b);
  sv_name_to_plan : numbering (map bp_name (bb_plans b)) (bb_name_to_plan b);
  sv_builtins : many (bb_builtins b) /\ keyed (bb_builtins b) /\
                Forall (fun e : str * bdecl => short (fst e) /\ bdecl_ok (snd e)) (bb_builtins b);
  sv_plans : many (bb_plans b) /\ Forall (plan_ok (bb_files b)) (bb_plans b);
  sv_funcs : many (bb_functions b) /\ Forall (func_ok (bb_files b)) (bb_functions b);
  sv_strings : many (bb_strings b) /\ Forall (fun t => short t /\ utf8 t = true) (bb_strings b);
  sv_files : many (bb_files b) /\ Forall (fun f => short (src_origin f) /\ short (src_text f)) (bb_files b);
  sv_query : match bb_query b with None => True | Some q => short q end;
  sv_locals : fits32 (bb_locals b);
  sv_query_plan : match bb_query_plan b with None => True | Some q => 0 <= q < 128 end
}.

(** ** Limits on what a loader builds *)

(** The blocks inside a statement. *)
Definition stmt_blocks (s : bstmt) : list bblock :=
  match s with
  | BStmt _ _ _ _ _ (Some (BWith _ b)) | BStmt _ _ _ _ _ (Some (BBlock b)) => [b]
  | BStmt _ _ _ _ _ (Some (BBlocks bs)) => bs
  | _ => []
  end.
(** A block with blocks nested at most [n] deep, itself included. *)
Fixpoint block_within (n : nat) (b : bblock) : Prop :=
  match n with
  | O => False
  | S d => Forall (fun s => Forall (block_within d) (stmt_blocks s)) b
  end.
(** A value with arrays, sets and objects nested at most [n] deep. *)
Fixpoint data_within (n : nat) (v : value) : Prop :=
  match n, v with
  | S d, (VArray l | VSet l) => Forall (data_within d) l
  | S d, VObject l => Forall (fun kv : value * value => data_within d (fst kv) /\ data_within d (snd kv)) l
  | O, (VArray _ | VSet _ | VObject _) => False
  | _, _ => True
  end.
