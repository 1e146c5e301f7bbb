(** The properties of the binary bundle format (C22-C24). *)
From Coq Require Import String ZArith List Bool Lia Arith.
From Verif Require Import Base BigIntSpec BigIntModel SMap SMapFacts ValueModel ValueSpec ResolverModel VmModel
  BinModel CrcProofs BinSpec BinProofs BinLoadProofs BinSafeProofs.
Import ListNotations.
Local Open Scope Z_scope.
Local Open Scope list_scope.

(** ** C22: loading gives back what was saved *)

(** Any bundle within the limits of the format ([saveable]: counts and lengths the format has room for, blocks and data at most
    256 deep, JSON data, positions in the first file, fewer than 128 plans before the query plan) is saved, and the file, if
    the loader accepts its size, loads as the same bundle.  Missing from the full property: locations in other files, data
    that holds sets or keys that are not strings, query plans from 128 on (all refuted below). *)
Theorem C22_round_trip_partial : forall F utf8 b, saveable utf8 b ->
  exists bytes, save F b = Ok bytes /\
    (wf_str bytes -> zlen bytes <= 64 + 256 * 1024 * 1024 ->
     exists b', load utf8 bytes = Ok b' /\ same_bundle b b').
Proof.
  intros F utf8 b S. destruct (save_load F utf8 b S) as (bytes & E & H). exists bytes. split; auto.
  intros W L. destruct (H W L) as (node & E' & N). eexists. split; [exact E' | now apply same_loaded].
Qed.
Print Assumptions C22_round_trip_partial.

Definition yes (t : str) : bool := true.
Definition file_a : source := Src $"a.rego" $"package a".
Definition file_b : source := Src $"b.rego" $"package b".
Definition loc_in (f : source) : option location := Some (Loc f 3 5).
(** A bundle with a scan in a plan, a function, a builtin and some data. *)
Definition ex_bundle : bbundle := {|
  bb_data := NObject [(value_node (VString $"x"), value_node (VArray [VInt $"12"; VString $"s"; VNull]));
                      (value_node (VString $"y"), value_node (VObject [(VString $"z", VTrue)]))];
  bb_name_to_func := [($"g0.f", 0)];
  bb_name_to_plan := [($"main", 0)];
  bb_builtins := [($"plus", BDecl (Some [BArg $"x" $"" BNumber; BArg $"y" $"" BNumber])
                                  (Some (BArg $"z" $"sum" (BTypeSeq [BNumber; BSet (BDynArray BAny)]))))];
  bb_plans := [BPlan $"main"
     [[BStmt SMakeObject (loc_in file_a) op_none op_none 3 None;
       BStmt SScan (loc_in file_a) (Op TLocal 1) (Op TLocal 4) 5
         (Some (BBlock [BStmt SMakeNumberInt None (Op TNone (-7)) op_none 6 None;
                        BStmt SCall None op_none op_none 7 (Some (BCall $"g0.f" [Op TLocal 0; Op TString 1; Op TTrue 0]));
                        BStmt SEqual None (Op TLocal 6) (Op TLocal 7) 0 None]));
       BStmt SResultSetAdd None op_none op_none 3 None]]];
  bb_functions := [BFunc $"g0.f" [$"g0"; $"f"] [0; 1] 2 true 2 [[BStmt SReturnLocal None op_none op_none 2 None]]];
  bb_strings := [$"result"; $"k"];
  bb_files := [file_a; file_b];
  bb_query := Some $"x = data.a.y";
  bb_locals := 9;
  bb_query_plan := Some 0 |}.

Local Ltac single_numbering := split;
  [ repeat constructor
  | intros n i; split;
    [ intros [E|[]]; injection E as <- <-; exists 0%nat; split; [reflexivity|]; split; [reflexivity|];
      intros [|[|j]] Hj; try lia; discriminate
    | intros ([|[|k]] & E & -> & _); try discriminate; injection E as <-; now left ] ].
Lemma json_obj d l : Forall (fun kv : value * value => (exists t, fst kv = VString t /\ ~ In 0 t) /\ json_ok d (snd kv)) l ->
  json_ok (S d) (VObject l).
Proof. exact (fun H => H). Qed.
Lemma json_arr d l : Forall (json_ok d) l -> json_ok (S d) (VArray l).
Proof. exact (fun H => H). Qed.
Lemma json_leaf d v : match v with VArray _ | VObject _ | VSet _ | VErr _ => False | _ => True end -> json_ok d v.
Proof. destruct d, v; intro H; try destruct H; exact I. Qed.
Local Ltac ok := repeat match goal with
  | |- _ /\ _ => split
  | |- True => exact I
  | |- Forall _ [] => apply Forall_nil
  | |- Forall _ (_ :: _) => apply Forall_cons
  | |- _ = _ => reflexivity
  | |- short _ => unfold short
  | |- few _ => unfold few
  | |- many _ => unfold many
  | |- fits32 _ => unfold fits32
  | |- _ <= _ < _ => split
  | |- _ <= _ => vm_compute; congruence
  | |- _ < _ => vm_compute; reflexivity
  end.
Lemma ex_bundle_saveable : saveable yes ex_bundle.
Proof.
  constructor; cbn [ex_bundle bb_data bb_name_to_func bb_name_to_plan bb_builtins bb_plans bb_functions bb_strings bb_files
                    bb_query bb_locals bb_query_plan].
  - exists [(VString $"x", VArray [VInt $"12"; VString $"s"; VNull]); (VString $"y", VObject [(VString $"z", VTrue)])].
    split; [reflexivity|].
    assert (K : forall d v t, ~ In 0 t -> json_ok d v ->
              (exists t', fst (VString t, v) = VString t' /\ ~ In 0 t') /\ json_ok d (snd (VString t, v))).
    { intros d v t Nt J. split; [now exists t | exact J]. }
    apply (json_obj 255). constructor; [|constructor; [|constructor]]; apply K.
    + intros [E|[]]; discriminate E.
    + apply (json_arr 254). repeat (constructor; [now apply json_leaf|]). constructor.
    + intros [E|[]]; discriminate E.
    + apply (json_obj 254). constructor; [|constructor]. apply K; [intros [E|[]]; discriminate E | now apply json_leaf].
  - single_numbering.
  - single_numbering.
  - split; [vm_compute; congruence|]. split; [repeat constructor|].
    constructor; [|constructor]. unfold bdecl_ok, barg_ok.
    cbn [fst snd bd_args bd_ret ba_name ba_desc ba_type btype_ok]. ok; cbn [ba_name ba_desc ba_type btype_ok]; ok.
  - split; [vm_compute; congruence|]. constructor; [|constructor]. split; [vm_compute; congruence|].
    split; [vm_compute; congruence|]. constructor; [|constructor].
    split; [vm_compute; congruence|].
    assert (L : loc_ok [file_a; file_b] (loc_in file_a)).
    { split; [now exists [file_b] | split; vm_compute; split; congruence]. }
    assert (N : loc_ok [file_a; file_b] None) by exact I.
    assert (Z8 : forall x, 0 <= x < 10 -> - 2 ^ 31 <= x < 2 ^ 31) by (intros; lia).
    assert (F8 : forall ty x, (ty = TLocal \/ ty = TString) -> 0 <= x < 10 -> op_ok (Op ty x)).
    { intros ty x [-> | ->] Hx; unfold op_ok, fits32; cbn; lia. }
    constructor; [|constructor; [|constructor; [|constructor]]]; (split; [assumption|]; split; [apply Z8; lia|]).
    + cbn [fields fst snd field_ok]. ok.
    + cbn [fields fst snd field_ok]. split; [ok|]. split; [ok|]. split; [ok|]. constructor; [|constructor; [|constructor; [|constructor]]];
        (split; [assumption|]; split; [apply Z8; lia|]); cbn [fields fst snd field_ok].
      * ok.
      * ok; try (apply F8; auto; lia). exact I.
      * split; [apply F8; auto; lia|]. split; [apply F8; auto; lia | exact I].
    + cbn [fields fst snd field_ok]. ok.
  - split; [vm_compute; congruence|]. constructor; [|constructor].
    unfold func_ok. cbn [bf_name bf_path bf_params bf_arity bf_cacheable bf_result bf_blocks]. ok.
    split; [ok|]. constructor; [|constructor]. split; [ok|]. constructor; [|constructor].
    cbn [stmt_ok fields fst snd field_ok loc_ok]. ok.
  - ok.
  - ok.
  - ok.
  - ok.
  - ok.
Qed.
Definition ex_bytes : str := Eval vm_compute in match save fops0 ex_bundle with Ok bytes => bytes | _ => [] end.
(** The example is saved as 487 bytes and loads again. *)
Example C22_example :
  save fops0 ex_bundle = Ok ex_bytes /\ wf_str ex_bytes /\ length ex_bytes = 487%nat /\
  (exists b', load yes ex_bytes = Ok b' /\ same_bundle ex_bundle b').
Proof.
  assert (E : save fops0 ex_bundle = Ok ex_bytes) by (vm_compute; reflexivity).
  assert (W : wf_str ex_bytes).
  { apply Forall_forall. assert (B : forallb (fun b => (0 <=? b) && (b <? 256)) ex_bytes = true) by (vm_compute; reflexivity).
    rewrite forallb_forall in B. intros b Hb. specialize (B b Hb). red. lia. }
  split; [exact E|]. split; [exact W|]. split; [vm_compute; reflexivity|].
  destruct (C22_round_trip_partial fops0 yes ex_bundle ex_bundle_saveable) as (bytes & E' & H).
  rewrite E in E'. injection E' as <-. apply H; auto. vm_compute. congruence.
Qed.
Print Assumptions C22_example.

Definition small (data : dnode) (plans : list bplan) (files : list source) (qp : option Z) : bbundle := {|
  bb_data := data; bb_name_to_func := []; bb_name_to_plan := index_names 0 (map bp_name plans) []; bb_builtins := [];
  bb_plans := plans; bb_functions := []; bb_strings := []; bb_files := files; bb_query := None; bb_locals := 5;
  bb_query_plan := qp |}.
Definition reload (b : bbundle) : outcome bbundle := let! bytes := save fops0 b in load yes bytes.

(** A statement of the second source file comes back as one of the first: writer lines 690-714 look the file up in a table
    that is never filled. *)
Theorem C22_location_refuted :
  let b f := small (NObject []) [BPlan $"p" [[BStmt SMakeNull (loc_in f) op_none op_none 3 None]]] [file_a; file_b] None in
  exists b', reload (b file_b) = Ok b' /\ ~ same_bundle (b file_b) b' /\ same_bundle (b file_a) b'.
Proof.
  eexists. split; [vm_compute; reflexivity|]. split.
  - intro H. apply same_plans in H. vm_compute in H. discriminate H.
  - constructor; vm_compute; reflexivity.
Qed.
Print Assumptions C22_location_refuted.

(** Query plan 128 is written as a signed byte and read as no query plan. *)
Theorem C22_query_plan_refuted : exists b', reload (small (NObject []) [] [] (Some 128)) = Ok b' /\ bb_query_plan b' = None.
Proof. eexists. split; [vm_compute; reflexivity | vm_compute; reflexivity]. Qed.
Print Assumptions C22_query_plan_refuted.

(** A set in the data comes back as an array, the key 1 as the key "1". *)
Theorem C22_set_refuted :
  exists b', reload (small (NObject [(value_node (VInt $"1"), value_node (VSet [VNull]))]) [] [] None) = Ok b' /\
             node_value (bb_data b') = VObject [(VString $"1", VArray [VNull])].
Proof. eexists. split; [vm_compute; reflexivity | vm_compute; reflexivity]. Qed.
Print Assumptions C22_set_refuted.

(** Saving a bundle that was itself loaded: a number inside an array is dropped, a string inside one is undefined
    behaviour (the reader builds array elements without the wrappers the writer relies on). *)
Theorem C22_save_again_refuted :
  (exists b' b'', reload (small (NObject [(value_node (VString $"a"), value_node (VArray [VInt $"1"]))]) [] [] None) = Ok b' /\
     node_value (bb_data b') = VObject [(VString $"a", VArray [VInt $"1"])] /\
     reload b' = Ok b'' /\ node_value (bb_data b'') = VObject [(VString $"a", VArray [])]) /\
  (exists b', reload (small (NObject [(value_node (VString $"a"), value_node (VArray [VString $"s"]))]) [] [] None) = Ok b' /\
     save fops0 b' = Ub).
Proof.
  split.
  - eexists. eexists. split; [vm_compute; reflexivity|]. split; [vm_compute; reflexivity|].
    split; [vm_compute; reflexivity | vm_compute; reflexivity].
  - eexists. split; [vm_compute; reflexivity | vm_compute; reflexivity].
Qed.
Print Assumptions C22_save_again_refuted.

(** ** C23: loading arbitrary bytes *)

(** For every byte string: the loader ends ([OutOfFuel] stands for a recursion that goes on longer than there are bytes); a
    bundle it returns has blocks and data nested at most 256 deep, and while reading it made room for at most 2^32 bytes
    beyond those present.  Missing: the outcome can be undefined behaviour ([Ub]), the nesting of builtin types is not
    bounded, and the 2^32 is not 0 (all three refuted below). *)
Theorem C23_load_safe_partial : forall utf8 bytes, wf_str bytes ->
  load utf8 bytes <> OutOfFuel /\
  forall b s, load_state utf8 bytes = Ok (b, s) ->
    Forall (fun p => Forall (block_within 256) (bp_blocks p)) (bb_plans b) /\
    Forall (fun f => Forall (block_within 256) (bf_blocks f)) (bb_functions b) /\
    data_within 256 (node_value (bb_data b)) /\
    rs_over s <= 2 ^ 32.
Proof.
  intros utf8 bytes W. pose proof (load_safe utf8 bytes W) as H. unfold load. split.
  - destruct (load_state utf8 bytes) as [[b s]| | |]; [discriminate | discriminate | discriminate | destruct H].
  - intros b s E. rewrite E in H. destruct H as [(P & G & D) O]. repeat split; auto. lia.
Qed.
Print Assumptions C23_load_safe_partial.
Example C23_example : wf_str ex_bytes /\ exists b s, load_state yes ex_bytes = Ok (b, s) /\ rs_over s = 0 /\ bb_locals b = 9.
Proof. split; [apply C22_example|]. eexists. eexists. split; [vm_compute; reflexivity|]. split; vm_compute; reflexivity. Qed.

(** A file that ends early is rejected, wherever it was cut from byte 32 on. *)
Theorem C23_cut_short : forall F utf8 b bytes k, save F b = Ok bytes -> wf_str bytes -> zlen bytes < 2 ^ 64 ->
  (32 <= k < length bytes)%nat -> load utf8 (firstn k bytes) = Throw.
Proof. intros F utf8 b bytes k E W L K. eapply cut_load; eauto. Qed.
Print Assumptions C23_cut_short.
Example C23_cut_example : load yes (firstn 300 ex_bytes) = Throw.
Proof.
  apply (C23_cut_short fops0 yes ex_bundle ex_bytes).
  - apply C22_example.
  - apply C22_example.
  - vm_compute. reflexivity.
  - split; apply Nat.leb_le; vm_compute; reflexivity.
Qed.

(** The payload given, under a header that fits it. *)
Definition framed (p : str) : str := w_header 5 None (crc32 p) (zlen p) [64; 0; 0; 0] ++ p.

(** A file whose payload ends inside a statement but has the right size and checksum, and one of 10 bytes: the loader goes on
    with variables that were never given a value. *)
Theorem C23_truncated_refuted :
  load yes (framed ([1; 0;0;0;0; 0;0;0;0; 0;0;0;0; 1;  2; 1;0;0;0;  0;0;0;0; 1;0;0;0; 1;0;0;0;  6; 1])) = Ub /\
  load yes (Magic ++ [1; 1]) = Ub.
Proof. split; vm_compute; reflexivity. Qed.
Print Assumptions C23_truncated_refuted.

(** A file of about 130 bytes can make the loader allocate room for far more: the length of a string in the data is not
    compared with what is left. *)
Definition greedy : str := framed
  [1; 0;0;0;0; 0;0;0;0; 0;0;0;0; 1;  2; 0;0;0;0; 0;0;0;0;0;0;0;0; 0;0;0;0;
   3; 0;0;0;0; 0;0;0;0;0;0;0;0; 0;0;0;0;  4; 9;0;0;0; 2; 97; 0; 0;240;0;0].
Definition over (bytes : str) : Z := match load_state yes bytes with Ok (b, s) => rs_over s | _ => -1 end.
Theorem C23_allocation_refuted : zlen greedy < 130 /\ over greedy > 60000.
Proof. split; vm_compute; reflexivity. Qed.
Print Assumptions C23_allocation_refuted.

(** Arrays of arrays of ... in the type of a builtin: there is no limit, so reading one recurses as deep as the file is long. *)
Fixpoint arrays (n : nat) : btype := match n with O => BAny | S m => BDynArray (arrays m) end.
Fixpoint array_depth (t : btype) : nat := match t with BDynArray t => S (array_depth t) | _ => O end.
Definition deep (n : nat) : bbundle := {|
  bb_data := NObject []; bb_name_to_func := []; bb_name_to_plan := [];
  bb_builtins := [($"f", BDecl None (Some (BArg $"" $"" (arrays n))))];
  bb_plans := []; bb_functions := []; bb_strings := []; bb_files := []; bb_query := None; bb_locals := 0;
  bb_query_plan := None |}.
Lemma deep_saveable n : saveable yes (deep n).
Proof.
  constructor; cbn [deep bb_data bb_name_to_func bb_name_to_plan bb_builtins bb_plans bb_functions bb_strings bb_files
                    bb_query bb_locals bb_query_plan]; try solve [ok].
  - exists []. split; [reflexivity|]. apply (json_obj 255). constructor.
  - split; [constructor|]. intros m i. split; [intros []|]. intros ([|k] & E & _); discriminate E.
  - split; [constructor|]. intros m i. split; [intros []|]. intros ([|k] & E & _); discriminate E.
  - split; [ok|]. split; [repeat constructor|]. apply Forall_cons; [|constructor].
    unfold bdecl_ok, barg_ok. cbn [fst snd bd_args bd_ret ba_name ba_desc ba_type]. ok.
    induction n; [exact I | exact IHn].
Qed.
Lemma w_arrays n : w_btype (arrays n) = repeat 6 n ++ [1].
Proof. induction n as [|n IH]; [reflexivity|]. cbn [arrays w_btype repeat app]. rewrite IH. reflexivity. Qed.
Lemma wf_le k n : wf_str (le k n).
Proof. revert n. induction k as [|k IH]; intro n; constructor; [apply Z.mod_pos_bound; lia | apply IH]. Qed.
Local Ltac wfs := repeat first
  [ apply wf_le | apply Forall_nil | apply Forall_app; split
  | apply Forall_cons; [first [apply Z.mod_pos_bound; lia | red; lia]|] ].
Lemma wf_header l c z a b d e : wf_str (w_header l None c z [a; b; d; e]).
Proof.
  unfold w_header, w_size, w_byte. cbn [map concat]. wfs. all: apply Forall_forall; intros x Hx; vm_compute in Hx; red; lia.
Qed.
Theorem C23_type_depth_refuted : forall n, Z.of_nat n <= 10 ^ 8 ->
  exists bytes, wf_str bytes /\ zlen bytes <= Z.of_nat n + 150 /\
    exists b d r, load yes bytes = Ok b /\ bb_builtins b = [($"f", d)] /\ bd_ret d = Some r /\ array_depth (ba_type r) = n.
Proof.
  intros n Hn. destruct (save_load fops0 yes (deep n) (deep_saveable n)) as (bytes & E & H).
  assert (B : exists pre post t1 t2 t3, zlen pre + zlen post <= 86 /\ wf_str pre /\ wf_str post /\
            bytes = w_header 0 None (crc32 (pre ++ repeat 6 n ++ post)) (zlen (pre ++ repeat 6 n ++ post)) [64; t1; t2; t3] ++
                    pre ++ repeat 6 n ++ post).
  { assert (S1 : w_static (deep n) = [1; 0;0;0;0; 0;0;0;0; 1;0;0;0; 1;0;0;0; 102; 1; 2; 0;0;0;0; 0;0;0;0] ++
                                     repeat 6 n ++ [1; 1]).
    { unfold w_static, deep, w_list32, w_all, w_bdecl, w_barg.
      cbn [bb_files bb_strings bb_builtins bb_query map concat fst snd bd_args bd_ret ba_name ba_desc ba_type].
      rewrite w_arrays. rewrite !app_nil_r, <- !app_assoc. reflexivity. }
    unfold save in E. rewrite S1 in E. set (pre := [1; _; _; _; _; _; _; _; _; _; _; _; _; _; _; _; _; _; _; _; _; _; _; _; _; _; _; _]) in E.
    set (pos := header_size + zlen (pre ++ repeat 6 n ++ [1; 1])) in E.
    cbn [deep bb_plans bb_functions bb_locals bb_query_plan bb_data] in E.
    unfold w_section, w_named in E. cbn [obind] in E.
    match type of E with context [w_data ?F ?d] => let v := eval vm_compute in (w_data F d) in change (w_data F d) with v in E end.
    cbn [obind] in E. apply Ok_inj in E.
    match type of E with context [_ ++ ?x1 ++ ?x2 ++ [4; 0; 0; 0; 0; 0]] => set (a1 := x1) in E; set (a2 := x2) in E end.
    exists pre, ([1; 1] ++ a1 ++ a2 ++ [4; 0; 0; 0; 0; 0]). rewrite <- !app_assoc in E.
    match type of E with w_header _ _ _ _ [_; ?x; ?y; ?z] ++ _ = _ => exists x, y, z end.
    split; [vm_compute; congruence|]. split; [unfold pre; wfs|].
    split; [unfold a1, a2, w_table, w_size, w_byte; cbn [length map]; wfs | now symmetry]. }
  destruct B as (pre & post & t1 & t2 & t3 & L & W1 & W2 & Eb).
  assert (R : zlen (repeat 6 n) = Z.of_nat n) by (unfold zlen; now rewrite repeat_length).
  assert (Lb : zlen bytes <= Z.of_nat n + 150).
  { rewrite Eb, !zlen_app. unfold str, byte in *. rewrite R.
    match goal with |- zlen ?h + _ <= _ => change (zlen h) with 64 end. lia. }
  assert (Wb : wf_str bytes).
  { rewrite Eb. apply Forall_app. split; [apply wf_header|]. apply Forall_app. split; [exact W1|].
    apply Forall_app. split; [|exact W2]. apply Forall_forall. intros x Hx. apply repeat_spec in Hx. subst. red. lia. }
  exists bytes. split; [exact Wb|]. split; [exact Lb|].
  destruct (H Wb) as (node & El & _). { unfold MaxBundleSize. lia. }
  eexists. eexists. eexists. split; [exact El|]. split; [reflexivity|]. split; [reflexivity|].
  cbn [ba_type]. clear. induction n; cbn; congruence.
Qed.
Print Assumptions C23_type_depth_refuted.

(** ** C24: the checksum *)

(** The bits of a text in the order the checksum takes them. *)
Definition text_bits (p : str) : list bool :=
  flat_map (fun b => map (Z.testbit b) [0; 1; 2; 3; 4; 5; 6; 7]) p.

Lemma text_bits_len p : length (text_bits p) = (8 * length p)%nat.
Proof. induction p as [|x p IH]; [reflexivity|]. unfold text_bits in *. cbn [flat_map]. rewrite app_length, IH, map_length. cbn [length]. lia. Qed.

(** A saved file is a header of 64 bytes and a payload.  Changing up to 32 consecutive bits of the payload makes it a file the
    loader rejects. *)
Theorem C24_burst_rejected : forall F utf8 b hdr p p' before w w' after,
  save F b = Ok (hdr ++ p) -> length hdr = 64%nat -> wf_str p -> wf_str p' -> zlen p < 2 ^ 64 ->
  text_bits p = before ++ w ++ after -> text_bits p' = before ++ w' ++ after ->
  length w = length w' -> (length w <= 32)%nat -> w <> w' ->
  load utf8 (hdr ++ p') = Throw.
Proof.
  intros F utf8 b hdr p p' a w w' t E H W W' L B B' Lw L32 N.
  assert (C : forall p, text_bits p = concat (map bits8 p)) by (intro; unfold text_bits; now rewrite flat_map_concat_map).
  rewrite C in B, B'.
  assert (LL : length p' = length p).
  { pose proof (text_bits_len p) as K1. pose proof (text_bits_len p') as K2. rewrite C, B in K1. rewrite C, B' in K2.
    rewrite !app_length in *. lia. }
  eapply corrupt_load; eauto. intro X. symmetry in X. revert X. eapply crc_burst; eauto.
Qed.
Print Assumptions C24_burst_rejected.

(** In bytes: replacing up to four consecutive bytes of the payload by others. *)
Theorem C24_bytes_rejected : forall F utf8 b hdr before w w' after,
  save F b = Ok (hdr ++ before ++ w ++ after) -> length hdr = 64%nat ->
  wf_str (before ++ w ++ after) -> wf_str w' -> zlen (before ++ w ++ after) < 2 ^ 64 ->
  length w = length w' -> (length w <= 4)%nat -> w <> w' ->
  load utf8 (hdr ++ before ++ w' ++ after) = Throw.
Proof.
  intros F utf8 b hdr a w w' t E H W W' L Lw L4 N.
  assert (Ww : wf_str w). { apply Forall_app in W. destruct W as [_ W]. apply Forall_app in W. tauto. }
  assert (C : forall p, text_bits p = concat (map bits8 p)) by (intro; unfold text_bits; now rewrite flat_map_concat_map).
  eapply (C24_burst_rejected F utf8 b hdr (a ++ w ++ t) (a ++ w' ++ t) (text_bits a) (text_bits w) (text_bits w') (text_bits t));
    auto; unfold text_bits; rewrite ?flat_map_app; auto; fold (text_bits w) (text_bits w').
  - apply Forall_app in W. destruct W as [Wa W]. apply Forall_app in W. apply Forall_app. split; [auto|].
    apply Forall_app. tauto.
  - rewrite !text_bits_len. lia.
  - rewrite text_bits_len. lia.
  - intro X. apply N. rewrite !C in X. apply bits_inj in X; auto.
Qed.
Print Assumptions C24_bytes_rejected.

(** The example file with one byte of its first string changed. *)
Example C24_example :
  let hdr := firstn 64 ex_bytes in let p := skipn 64 ex_bytes in
  exists before w after, p = before ++ w ++ after /\ w = $"rego" /\ load yes (hdr ++ before ++ $"Rego" ++ after) = Throw.
Proof.
  assert (E : exists before after, skipn 64 ex_bytes = before ++ $"rego" ++ after /\ length before = 11%nat).
  { exists (firstn 11 (skipn 64 ex_bytes)), (skipn 15 (skipn 64 ex_bytes)). split; vm_compute; reflexivity. }
  destruct E as (a & t & E & _). cbv zeta. exists a, ($"rego"), t. split; [exact E|]. split; [reflexivity|].
  pose proof C22_example as (S & W & _). rewrite <- (firstn_skipn 64 ex_bytes), E in S, W.
  apply Forall_app in W. destruct W as [_ W].
  eapply (C24_bytes_rejected fops0 yes ex_bundle _ a ($"rego") ($"Rego") t S); auto.
  - apply Forall_forall. intros x Hx. vm_compute in Hx. red. lia.
  - rewrite <- E. vm_compute. reflexivity.
  - discriminate.
Qed.
