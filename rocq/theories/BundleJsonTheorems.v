(** A bundle that is saved as JSON and loaded again. *)
From Coq Require Import String ZArith List Bool Lia.
From Verif Require Import Base SMap ValueModel ValueSpec StrModel StrSpec EncModel EncSpec EncProofs EncTheorems
  JsonModel JsonSpec JsonProofs JsonTheorems PlanModel BundleJsonModel BundleJsonSpec BundleJsonProofs.
Import ListNotations.
Local Open Scope Z_scope.
Local Open Scope list_scope.

Lemma weaken_type (A B : str -> Prop) : (forall s, A s -> B s) -> forall t, type_texts A t -> type_texts B t.
Proof.
  intros I. apply (btype_induction (fun t => type_texts A t -> type_texts B t)); intros;
    [ cbn [In] in *; repeat match goal with H : _ \/ _ |- _ => destruct H as [ <- | H ] end; try contradiction; constructor | .. ];
    match goal with H : type_texts A _ |- _ => inversion H; subst; clear H end; constructor; auto;
    rewrite Forall_forall in *; intros; auto;
    match goal with H : forall x, In x _ -> _ /\ _, K : In ?x _ |- _ => destruct (H x K); split; auto end.
Qed.
Lemma weaken_arg (A B : str -> Prop) x : (forall s, A s -> B s) -> arg_texts A x -> arg_texts B x.
Proof. intros I (a & b & c). repeat split; auto. now apply (weaken_type A). Qed.
Lemma weaken_fun (A B : str -> Prop) f : (forall s, A s -> B s) -> fun_texts A f -> fun_texts B f.
Proof.
  intros I (a & b). split; [ intros l E; specialize (a l E); rewrite Forall_forall in *; intros x Hx | intros r E ]; apply (weaken_arg A); auto.
Qed.
Lemma object_json L l t : rego_to_json L (VObject l) = Some t -> exists r, t = JObject r.
Proof. cbn [rego_to_json]. intros H. match type of H with option_map _ ?x = _ => destruct x; [ | discriminate H ] end. injection H as <-. eauto. Qed.
Lemma conv_tame_object J P l : tame false (JObject l) -> conv J P InMember (JObject l) = BObject (map (fun kv => BMember (fst kv) (embed (snd kv))) l).
Proof. intros T. now rewrite (conv_tame J P _ _ T : conv J P InMember _ = _). Qed.
Lemma load_saved L P loc b d p files' : json_ok (jl_text L) -> prints_strings L -> complete b -> expressible (j_data b) ->
  Forall (fun_texts harmless_text) (s_funcs (j_static b)) -> Forall (fun f => harmless_text (p_filename P f)) (s_files (j_static b)) -> moved P (s_files (j_static b)) files' ->
  save L P loc b = Some (d, p) ->
  tame false d -> exists data', through_json (j_data b) data' /\
    load (jl_text L) P d p = Ok (Some (JBundle data' (Static (s_strings (j_static b)) files' (s_funcs (j_static b))) (j_plans b) (j_query b) (j_functions b))).
Proof.
  intros OK S ((l & Ed) & Np & Nf) E F H M Sv T.
  assert (F' : Forall (fun_texts (kept (jl_text L))) (s_funcs (j_static b))).
  { eapply Forall_impl; [ | exact F ]. intros f. apply weaken_fun. intros s. now apply harmless_kept. }
  destruct (expressible_through L S (j_data b) E) as ([t w] & R & W & _ & Th). cbn [fst snd] in *. unfold save in Sv. rewrite R in Sv. injection Sv as <- <-.
  exists (dedup w). split; [ exact Th | ]. unfold load. rewrite (tame_calm _ P _ _ T), (calm_policy _ P loc OK _ _ F' H M), (conv_policy _ P loc OK _ _ F' H M Nf). cbn [orb].
  rewrite Ed in R. destruct (object_json _ _ _ R) as (r & ->). rewrite (conv_tame_object _ P _ T).
  rewrite (policy_bundle _ OK) by assumption. change (BObject (map (fun kv => BMember (fst kv) (embed (snd kv))) r)) with (embed (JObject r)). rewrite plain_embed. unfold json_to_rego. now rewrite W.
Qed.

Lemma names_tame : forall t, other_names t -> forall a, tame a t.
Proof.
  apply (jtree_induction (fun t => other_names t -> forall a, tame a t)); try (intros; now constructor).
  - intros l F O a. inversion O as [ t A B | l' O' | ]; subst; [ now elim (A l) | ]. constructor. rewrite Forall_forall in *. intros x I. apply F; auto.
  - intros l F O a. inversion O as [ t A B | | l' O' ]; subst; [ now elim (B l) | ]. rewrite Forall_forall in *.
    assert (N : forall k v r, l = (k, v) :: r -> ~ In k plan_names). { intros k v r ->. now destruct (O' (k, v) (or_introl eq_refl)). }
    constructor.
    + apply Forall_forall. intros [k v] I. destruct (O' _ I) as (Nk & Ov). split; [ apply (F _ I), Ov | ]. cbn [fst snd] in *. unfold plan_names in Nk. cbn [In] in Nk.
      intros [(K & _) | (K & _)]; cbn [In] in K; tauto.
    + intros (q & v & r & E & _). apply (N _ _ _ E). cbn [In plan_names]. tauto.
    + intros _ (n & r & _ & E). apply (N _ _ _ E). cbn [In plan_names]. tauto.
    + intros (x & r & E). apply (N _ _ _ E). cbn [In plan_names]. tauto.
Qed.
Lemma last_kind_in {A} (f : bm -> option A) l a : last_kind f l = Some a -> exists m, In m l /\ f m = Some a.
Proof.
  unfold last_kind. assert (G : forall acc, fold_left (fun acc m => match f m with Some a => Some a | None => acc end) l acc = Some a -> (exists m, In m l /\ f m = Some a) \/ acc = Some a).
  { induction l as [ | m l IH ]; intros acc H; cbn [fold_left] in H; [ auto | ]. destruct (IH _ H) as [ (m' & I & E) | E ]; [ left; exists m'; cbn; auto | ].
    destruct (f m) eqn:Q; [ left; exists m; cbn; split; [ auto | congruence ] | auto ]. }
  intros H. destruct (G None H) as [ ? | D ]; [ assumption | discriminate D ].
Qed.
Definition in_place (P : paths) (files : list str) : Prop := forall f, In f files -> exists name, p_resolve P name = Some f.
Definition files_in_place (P : paths) (m : bm) : Prop := match m with BPaths l => in_place P l | BStatic (Some s) => in_place P (s_files s) | _ => True end.
Lemma paths_in_place J P l ps : to_paths J P l = Some ps -> in_place P ps.
Proof. intros H f I. unfold to_paths in H. apply mapm_some in H. induction H as [ | x y l ps E _ IH ]; [ contradiction | ]. destruct I as [ <- | I ]; eauto. Qed.
Lemma member_files J P k v : (forall ms, v = BObject ms -> Forall (files_in_place P) ms) -> files_in_place P (member_rules J P k v).
Proof.
  intros H. destruct v as [ | | | | | l | l | | | | | ]; cbn [member_rules]; try exact I.
  - repeat match goal with |- context [if ?c then _ else _] => destruct c; try exact I end. destruct (to_paths J P l) eqn:E; [ | exact I ]. now apply paths_in_place in E.
  - repeat match goal with |- context [if ?c then _ else _] => destruct c; try exact I end.
    + unfold to_plans. destruct (get_array _ _); exact I.
    + unfold to_functions. destruct (get_array _ _); exact I.
    + unfold to_static. destruct (last_kind is_strings l) as [ [ ss | ] | ]; try exact I. destruct (match last_kind is_funcs l with Some f => f | None => Some [] end); [ | exact I ].
      cbn [files_in_place s_files]. destruct (last_kind is_paths l) as [ ps | ] eqn:E; [ | intros f [] ]. apply last_kind_in in E as (m & Im & E). specialize (H l eq_refl). rewrite Forall_forall in H. specialize (H m Im).
      destruct m; try discriminate E. injection E as <-. exact H.
Qed.
Lemma rules_keep J p l ms : object_rules J p l = BObject ms -> ms = l.
Proof.
  unfold object_rules. destruct (operand_rule l); [ discriminate | ].
  assert (A : forall n, block_rule l = Some n -> n <> BObject ms).
  { intros n E. unfold block_rule in E. destruct l as [ | [ k [ | | | | | ss | | | | | | ] | | | | | | | ] l ]; try discriminate E. destruct (str_eqb k _); [ | discriminate E ]. injection E as <-. destruct (mapm as_stmt ss); discriminate. }
  assert (B : forall n, stmt_rule J l = Some n -> n <> BObject ms).
  { intros n E. unfold stmt_rule in E. destruct (first_type l); [ | discriminate E ]. destruct (sm_find _ _) as [ r | ]; [ | discriminate E ]. injection E as <-. destruct (get_object _ _) as [ x | ]; [ destruct (r x) | ]; discriminate. }
  intros E. destruct p; [ | destruct (stmt_rule J l) as [ n | ]; [ now elim (B n eq_refl) | ] ]; (destruct (block_rule l) as [ n | ]; [ now elim (A n eq_refl) | congruence ]).
Qed.
Lemma conv_files J P t : forall p ms, conv J P p t = BObject ms -> Forall (files_in_place P) ms.
Proof.
  revert t. apply (jtree_induction (fun t => forall p ms, conv J P p t = BObject ms -> Forall (files_in_place P) ms)); try (intros; discriminate).
  intros l IH p ms E. rewrite conv_object in E. apply rules_keep in E. subst ms. apply Forall_map. eapply Forall_impl; [ | exact IH ]. intros [k v] H. cbn [fst snd] in *. apply member_files. intros ms. apply H.
Qed.

(** ** C62 *)

(** A bundle that is saved and loaded is the same bundle: whatever its plans, functions and strings, wherever its statements stand
    in their files. *)
Theorem C62_round_trip_partial : forall L P loc b d p files',
  json_ok (jl_text L) -> prints_strings L ->
  complete b -> expressible (j_data b) ->
  Forall (fun_texts harmless_text) (s_funcs (j_static b)) ->
  Forall (fun f => harmless_text (p_filename P f)) (s_files (j_static b)) -> moved P (s_files (j_static b)) files' ->
  save L P loc b = Some (d, p) -> tame false d ->
  exists b', load (jl_text L) P d p = Ok (Some b') /\ same_bundle P b b'.
Proof.
  intros. destruct (load_saved L P loc b d p files') as (data' & Th & E); try assumption. eexists. split; [ exact E | ]. repeat split; auto.
Qed.
Print Assumptions C62_round_trip_partial.

(** Saving succeeds. *)
Theorem C62_saved : forall L P loc b, prints_strings L -> expressible (j_data b) -> exists d p, save L P loc b = Some (d, p).
Proof. intros L P loc b S E. destruct (expressible_through L S _ E) as ([t w] & R & _). unfold save. rewrite R. eauto. Qed.
Print Assumptions C62_saved.

(** Data that looks like a part of a plan anywhere is not loaded again, and no other data is refused. *)
Theorem C62_data : forall L P loc b d p files',
  json_ok (jl_text L) -> prints_strings L ->
  complete b -> expressible (j_data b) ->
  Forall (fun_texts harmless_text) (s_funcs (j_static b)) ->
  Forall (fun f => harmless_text (p_filename P f)) (s_files (j_static b)) -> moved P (s_files (j_static b)) files' ->
  save L P loc b = Some (d, p) ->
  ((exists b', load (jl_text L) P d p = Ok (Some b')) <-> tame false d).
Proof.
  intros L P loc b d p files' OK S C E F H M Sv. split.
  - intros (b' & Q). unfold load in Q. destruct (crashes _ P d || crashes _ P p)%bool; [ discriminate Q | ]. injection Q as Q.
    assert (G : exists t', plain (conv (jl_text L) P InMember d) = Some t').
    { destruct (conv _ P InMember d); try discriminate Q. destruct (conv _ P InMember p) as [ | | | | | | ms | | | | | ]; try discriminate Q. unfold to_bundle in Q.
      destruct (plain _); [ eauto | ]. repeat match type of Q with match ?x with _ => _ end = _ => destruct x; try discriminate Q end. }
    destruct G as (t' & G). exact (plain_conv _ P d false t' G).
  - intros T. destruct (load_saved L P loc b d p files') as (data' & _ & Q); try assumption. eauto.
Qed.
Print Assumptions C62_data.

(** In particular, data in which no member has one of nine names is loaded again. *)
Theorem C62_names : forall L P loc b d p files',
  json_ok (jl_text L) -> prints_strings L ->
  complete b -> expressible (j_data b) ->
  Forall (fun_texts harmless_text) (s_funcs (j_static b)) ->
  Forall (fun f => harmless_text (p_filename P f)) (s_files (j_static b)) -> moved P (s_files (j_static b)) files' ->
  save L P loc b = Some (d, p) -> other_names d ->
  exists b', load (jl_text L) P d p = Ok (Some b') /\ same_bundle P b b'.
Proof. intros. eapply C62_round_trip_partial; eauto. now apply names_tame. Qed.
Print Assumptions C62_names.
Example C62_names_ex : other_names (JObject [($"users", JArray [JObject [($"name", JString (in_quotes $"type"))]; JNumber $"1"])]).
Proof.
  assert (N : forall k, existsb (str_eqb k) plan_names = false -> ~ In k plan_names).
  { intros k E I. assert (X : existsb (str_eqb k) plan_names = true) by (apply existsb_exists; exists k; split; [ exact I | apply str_eqb_refl ]). congruence. }
  apply on_object, Forall_cons; [ split; [ now apply N | ] | apply Forall_nil ]. apply on_array, Forall_cons; [ | apply Forall_cons; [ now apply on_scalar | apply Forall_nil ] ].
  apply on_object, Forall_cons; [ split; [ now apply N | now apply on_scalar ] | apply Forall_nil ].
Qed.

(** Whatever the document, the files of a loaded bundle are files of its directory. *)
Theorem C62_files : forall J P data policy b f,
  load J P data policy = Ok (Some b) -> In f (s_files (j_static b)) -> exists name, p_resolve P name = Some f.
Proof.
  intros J P data policy b f L I. unfold load in L. destruct (_ || _)%bool; [ discriminate L | ]. injection L as L.
  destruct (conv J P InMember data); try discriminate L. destruct (conv J P InMember policy) as [ | | | | | | ms | | | | | ] eqn:E; try discriminate L.
  pose proof (conv_files J P _ _ _ E) as F. unfold to_bundle in L. destruct (last_kind is_static ms) as [ [ s | ] | ] eqn:K; [ | | discriminate L ].
  - apply last_kind_in in K as (m & Im & K). rewrite Forall_forall in F. specialize (F m Im). destruct m; try discriminate K. cbn [is_static] in K. injection K as ->.
    repeat match type of L with match ?x with _ => _ end = _ => destruct x; try discriminate L end; injection L as <-; cbn [j_static] in I; now apply F.
  - repeat match type of L with match ?x with _ => _ end = _ => destruct x; try discriminate L end.
Qed.
Print Assumptions C62_files.

(** ** A bundle *)

Fixpoint components (s : str) : list str :=
  match s with
  | [] => [[]]
  | c :: s' => if c =? 47 then [] :: components s' else match components s' with x :: r => (c :: x) :: r | [] => [[c]] end
  end.
Definition base_name (s : str) : str := last (components s) [].
Definition toy_paths : paths := {|
  p_filename := base_name;
  p_resolve := fun s => if existsb (str_eqb $"..") (components s) then None else Some ($"bundle/" ++ s) |}.
Definition no_loc (pos : list nat) : location := None.
Definition some_loc (pos : list nat) : location := Some ($"3", $"4", $"x = input.y").
Definition body_ex : list (list (ir str str)) := [[
  IScan $"2" $"3" $"4" [INot [IEqual (OLocal $"4") (OString $"1")]; IWith $"0" [$"0"; $"1"] (OLocal $"4") [ICall $"g0.data.p" [OLocal $"0"; OBool true] $"5"]];
  ICallDynamic [OString $"0"; OLocal $"5"] [OLocal $"0"] $"6"; IBlock [[IBreak $"0"]; []]; IMakeArray $"2" $"7"; IMakeNumberRef $"1" $"8"; IResultSetAdd $"6"]].
Definition decl_ex : bdecl :=
  Decl (Some [Arg $"x" $"a list" (TyDynArray TyAny); Arg $"y" [] (TyHybrid TyString TyNumber [($"k", TyStaticArray [TyBoolean; TyNull])])]) (Some (Arg $"r" $"the result" (TySeq [TyNumber; TySet TyString]))).
Definition bundle_of (data : value) : jbundle :=
  JBundle data (Static [$"a ""quoted"" text"; $"result"] [$"src/policy.rego"] [BFun $"count" decl_ex])
    [Pl _ _ $"p/allow" body_ex] (Some $"x = data.p; y = ""z""") [Func $"g0.data.p" [$"g0"; $"p"; $"a""b"] [$"0"; $"1"] $"2" body_ex].
Definition data_ex : value := VObject [(VString $"users", VArray [VObject [(VString $"type", VString $"admin"); (VString $"name", VString $"a")]; VInt $"1"]); (VString $"files", VTrue)].
Definition data_json_ex : jtree := JObject [($"files", JTrue); ($"users", JArray [JObject [($"name", JString (in_quotes $"a")); ($"type", JString (in_quotes $"admin"))]; JNumber $"1"])].
Ltac harmless := repeat (apply Forall_cons; [ cbn; lia | ]); apply Forall_nil.
Lemma decl_ex_harmless : fun_texts harmless_text (BFun $"count" decl_ex).
Proof.
  split; intros l E; injection E as <-; repeat (apply Forall_cons || apply Forall_nil || split || constructor); cbn; try discriminate; try lia.
Qed.
Lemma bundle_complete l : complete (bundle_of (VObject l)).
Proof. repeat split; [ eexists; reflexivity | discriminate | intros f [<- | []]; discriminate ]. Qed.
Lemma data_ex_expressible : expressible data_ex.
Proof.
  refine (ex_object [($"users", VArray [VObject [(VString $"type", VString $"admin"); (VString $"name", VString $"a")]; VInt $"1"]); ($"files", VTrue)] _ _ _); cbn [map fst snd].
  - repeat constructor; cbn [In]; intuition discriminate.
  - repeat constructor.
  - apply Forall_cons; [ | apply Forall_cons; [ apply ex_true | apply Forall_nil ] ]. cbn [snd]. apply ex_array. apply Forall_cons; [ | apply Forall_cons; [ | apply Forall_nil ] ].
    + refine (ex_object [($"type", VString $"admin"); ($"name", VString $"a")] _ _ _); cbn [map fst snd].
      * repeat constructor; cbn [In]; intuition discriminate.
      * repeat constructor.
      * apply Forall_cons; [ now apply ex_string | apply Forall_cons; [ now apply ex_string | apply Forall_nil ] ].
    + apply ex_int. now apply int_re_spec.
Qed.
Lemma data_ex_tame : tame false data_json_ex.
Proof. apply (plain_conv json_ops0 toy_paths data_json_ex false data_json_ex). reflexivity. Qed.
Example C62_round_trip_ex : exists p,
  save (toy_lib []) toy_paths some_loc (bundle_of data_ex) = Some (data_json_ex, p) /\
  load json_ops0 toy_paths data_json_ex p = Ok (Some (JBundle (VObject [(VString $"files", VTrue); (VString $"users", VArray [VObject [(VString $"name", VString $"a"); (VString $"type", VString $"admin")]; VInt $"1"])])
    (Static [$"a ""quoted"" text"; $"result"] [$"bundle/policy.rego"] [BFun $"count" decl_ex]) (j_plans (bundle_of data_ex)) (j_query (bundle_of data_ex)) (j_functions (bundle_of data_ex)))).
Proof. eexists. split; [ reflexivity | vm_compute; reflexivity ]. Qed.
Lemma toy_moved : moved toy_paths [$"src/policy.rego"] [$"bundle/policy.rego"].
Proof. constructor; [ reflexivity | constructor ]. Qed.
Lemma toy_harmless : Forall (fun f => harmless_text (p_filename toy_paths f)) [$"src/policy.rego"].
Proof. apply Forall_cons; [ cbn; harmless | apply Forall_nil ]. Qed.
Example C62_hypotheses_ex :
  json_ok (jl_text (toy_lib [])) /\ prints_strings (toy_lib []) /\ complete (bundle_of data_ex) /\ expressible (j_data (bundle_of data_ex)) /\
  Forall (fun_texts harmless_text) (s_funcs (j_static (bundle_of data_ex))) /\
  Forall (fun f => harmless_text (p_filename toy_paths f)) (s_files (j_static (bundle_of data_ex))) /\
  moved toy_paths (s_files (j_static (bundle_of data_ex))) [$"bundle/policy.rego"] /\ tame false data_json_ex.
Proof.
  split; [ apply json_ops0_ok | ]. split; [ apply toy_strings | ]. split; [ apply bundle_complete | ]. split; [ apply data_ex_expressible | ].
  split; [ apply Forall_cons; [ apply decl_ex_harmless | apply Forall_nil ] | ]. split; [ apply toy_harmless | ]. split; [ apply toy_moved | apply data_ex_tame ].
Qed.

(** ** What does not hold *)

Definition save_and_load (loc : list nat -> location) (b : jbundle) : outcome (option jbundle) :=
  match save (toy_lib []) toy_paths loc b with Some (d, p) => load json_ops0 toy_paths d p | None => Throw end.
Lemma one_member k v : escaped k = true -> expressible v -> expressible (VObject [(VString k, v)]).
Proof.
  intros K E. refine (ex_object [(k, v)] _ _ _); [ repeat constructor; intros [] | apply Forall_cons; [ exact K | apply Forall_nil ] | apply Forall_cons; [ exact E | apply Forall_nil ] ].
Qed.
(** Data whose members have the names that plans use is saved, but the saved bundle is not loaded. *)
Theorem C62_data_refuted : exists v1 v2 v3,
  (expressible v1 /\ complete (bundle_of v1) /\ save_and_load no_loc (bundle_of v1) = Ok None) /\
  (expressible v2 /\ complete (bundle_of v2) /\ save_and_load no_loc (bundle_of v2) = Ok None) /\
  (expressible v3 /\ complete (bundle_of v3) /\ save_and_load no_loc (bundle_of v3) = Ok None).
Proof.
  exists (VObject [(VString $"files", VArray [])]), (VObject [(VString $"x", VObject [(VString $"type", VString $"local"); (VString $"value", VInt $"1")])]),
    (VObject [(VString $"x", VArray [VObject [(VString $"type", VString $"NotStmt")]])]).
  repeat match goal with |- _ /\ _ => split end; try apply bundle_complete; try (vm_compute; reflexivity).
  - apply one_member; [ reflexivity | ]. apply ex_array, Forall_nil.
  - apply one_member; [ reflexivity | ]. refine (ex_object [($"type", VString $"local"); ($"value", VInt $"1")] _ _ _); cbn [map fst snd].
    + repeat constructor; cbn [In]; intuition discriminate.
    + repeat constructor.
    + apply Forall_cons; [ now apply ex_string | apply Forall_cons; [ now apply ex_int, int_re_spec | apply Forall_nil ] ].
  - apply one_member; [ reflexivity | ]. apply ex_array, Forall_cons; [ | apply Forall_nil ]. apply one_member; [ reflexivity | ]. now apply ex_string.
Qed.
Print Assumptions C62_data_refuted.
(** Data with an object named "static" crashes the program that loads it. *)
Theorem C62_crash_refuted : exists v, expressible v /\ complete (bundle_of v) /\ save_and_load no_loc (bundle_of v) = Ub.
Proof.
  exists (VObject [(VString $"static", VObject [])]). split; [ | split; [ apply bundle_complete | vm_compute; reflexivity ] ].
  apply one_member; [ reflexivity | ]. exact (ex_object [] (NoDup_nil _) (Forall_nil _) (Forall_nil _)).
Qed.
Print Assumptions C62_crash_refuted.
(** The description of an argument of a builtin with a quotation mark in it comes back with a backslash. *)
Theorem C62_description_refuted : exists f g b b', f <> g /\ save_and_load no_loc b = Ok (Some b') /\ s_funcs (j_static b) = [f] /\ s_funcs (j_static b') = [g].
Proof.
  exists (BFun $"count" (Decl (Some [Arg $"x" $"a ""list""" TyAny]) None)), (BFun $"count" (Decl (Some [Arg $"x" $"a \""list\""" TyAny]) None)),
    (JBundle (VObject []) (Static [] [] [BFun $"count" (Decl (Some [Arg $"x" $"a ""list""" TyAny]) None)]) [Pl _ _ $"p" []] None []).
  eexists. split; [ discriminate | ]. split; [ vm_compute; reflexivity | split; reflexivity ].
Qed.
Print Assumptions C62_description_refuted.
(** Two files of the same name become one. *)
Theorem C62_names_refuted : exists b b' f g x, f <> g /\ s_files (j_static b) = [f; g] /\ save_and_load no_loc b = Ok (Some b') /\ s_files (j_static b') = [x; x].
Proof.
  exists (JBundle (VObject []) (Static [] [$"a/policy.rego"; $"b/policy.rego"] []) [Pl _ _ $"p" []] None []). eexists. exists $"a/policy.rego", $"b/policy.rego", $"bundle/policy.rego".
  split; [ discriminate | ]. split; [ reflexivity | ]. split; [ vm_compute; reflexivity | reflexivity ].
Qed.
Print Assumptions C62_names_refuted.
Definition policy_with (files : jtree) (stmt : list (str * jtree)) : jtree :=
  JObject [($"static", JObject [($"strings", JArray []); ($"files", files)]);
           ($"plans", JObject [($"plans", JArray [JObject [($"name", JString (in_quotes $"p")); ($"blocks", JArray [JObject [($"stmts", JArray [JObject stmt])]])]])]);
           ($"funcs", JObject [($"funcs", JArray [])])].
Definition break_json : jtree := JObject [($"index", JNumber $"0")].
(** A document that names a file outside the directory is loaded, without error and without any of its files. *)
Theorem C62_outside_refuted : exists b stmt,
  load json_ops0 toy_paths (JObject []) (policy_with (JArray [JObject [($"value", JString (in_quotes $"a.rego"))]; JObject [($"value", JString (in_quotes $"../a.rego"))]]) stmt) = Ok (Some b) /\
  s_files (j_static b) = [].
Proof. eexists. exists [($"type", JString (in_quotes $"BreakStmt")); ($"stmt", break_json)]. split; vm_compute; reflexivity. Qed.
Print Assumptions C62_outside_refuted.
(** The order of the members of a statement matters, although JSON objects have none. *)
Theorem C62_order_refuted : exists b,
  load json_ops0 toy_paths (JObject []) (policy_with (JArray []) [($"type", JString (in_quotes $"BreakStmt")); ($"stmt", break_json)]) = Ok (Some b) /\
  load json_ops0 toy_paths (JObject []) (policy_with (JArray []) [($"stmt", break_json); ($"type", JString (in_quotes $"BreakStmt"))]) = Ok None.
Proof. eexists. split; vm_compute; reflexivity. Qed.
Print Assumptions C62_order_refuted.
