(** C64: the answer to a query lists exactly its solutions, in order. *)
From Coq Require Import String ZArith NArith List Bool Permutation Sorted Lia.
From Verif Require Import Base SMap BigIntSpec ValueModel ResolverModel VmModel VmSpec VmTheorems PlanModel PlanSpec PlanProofs PlanBuildProofs PlanTheorems
  RuleModel RuleSpec RuleProofs RuleBuiltProofs RuleQueryProofs RuleTheorems QueryModel QuerySpec QueryFnProofs QueryBuiltProofs StrModel StrProofs.
Import ListNotations.
Local Open Scope Z_scope.

(** ** C64 for the code the compiler makes *)

(** The function of a query returns the rows of its solutions, one for each time the place where all conditions hold is reached
    with every variable of the query defined, in this order; without any, it has no value. *)
Theorem C64_function : forall E fn n rho sigma N ret m q more locals bs s c s',
  compiled_query E fn n rho sigma N ret q more locals bs -> ran E fn m bs s c s' ->
  let es := expressions more q in let xs := shown locals in
  exists s0 ts s1, quiet (map rho [ret; q_result N]) s s0 /\ local s0 (rho (q_result N)) = Some (Some (VArray [])) /\
    reached E rho sigma (conditions q) (record_code N ret es xs) s0 ts s1 /\
    local s' (rho ret) = Some (match rows E rho sigma es xs ts with [] => None | l => Some (VArray l) end) /\
    c = match rows E rho sigma es xs ts with [] => CUndefined | _ => CReturn end.
Proof. intros. eapply query_run; eauto. Qed.

(** The expressions are reported in the order of the text, each once. *)
Theorem C64_expressions : forall more q,
  StronglySorted (fun a b => pc_pos (fst a) <= pc_pos (fst b)) (expressions more q) /\
  Permutation (expressions more q) (given more ++ flat_map literal_result q).
Proof.
  intros more q. unfold expressions, sort_exprs. generalize (given more ++ flat_map literal_result q) as l. intro l.
  assert (P : forall e l, Permutation (insert_expr e l) (e :: l)).
  { intros e l0. induction l0 as [|a l0 IH]; [reflexivity|]. cbn [insert_expr]. destruct (_ <? _); [reflexivity|].
    rewrite IH. apply perm_swap. }
  assert (S : forall e l, StronglySorted (fun a b : expression => pc_pos (fst a) <= pc_pos (fst b)) l ->
    StronglySorted (fun a b : expression => pc_pos (fst a) <= pc_pos (fst b)) (insert_expr e l)).
  { intros e l0 H. induction H as [|a l0 H IH F]; [repeat constructor|]. cbn [insert_expr]. destruct (Z.ltb_spec (pc_pos (fst e)) (pc_pos (fst a))) as [L|L].
    - constructor; [now constructor|]. constructor; [lia|]. eapply Forall_impl; [|exact F]. cbn. intros. lia.
    - constructor; [exact IH|]. rewrite Forall_forall in F |- *. intros z I. apply (Permutation_in _ (P e l0)) in I. destruct I as [<-|I]; [exact L|auto]. }
  enough (G : forall acc, StronglySorted (fun a b : expression => pc_pos (fst a) <= pc_pos (fst b)) acc ->
    StronglySorted (fun a b : expression => pc_pos (fst a) <= pc_pos (fst b)) (fold_left (fun acc e => insert_expr e acc) l acc) /\
    Permutation (fold_left (fun acc e => insert_expr e acc) l acc) (acc ++ l)).
  { destruct (G [] ltac:(constructor)) as [G1 G2]. auto. }
  induction l as [|e l IH]; intros acc HS; cbn [fold_left]; [rewrite app_nil_r; auto|].
  destruct (IH _ (S e acc HS)) as [I1 I2]. split; [exact I1|]. rewrite I2, P. cbn [app]. apply Permutation_middle.
Qed.
(** What is reported: the operands of expressions, and [true] for an assignment. *)
Theorem C64_reported : forall more q p o, In (p, o) (expressions more q) <->
  In (Some p, o) more \/ (exists e, In (LExpr e, Some p) q /\ o = ob_op e) \/ (exists c, In (LAssign c, Some p) q /\ o = OBool true).
Proof.
  intros more q p o. destruct (C64_expressions more q) as [_ P]. split.
  - intro I. apply (Permutation_in _ P) in I. apply in_app_iff in I as [I|I]; apply in_flat_map in I as (x & I & J).
    + left. destruct x as [[p'|] o']; [|destruct J]. destruct J as [J|[]]. injection J as -> ->. exact I.
    + right. destruct x as [[e|c|st] [p'|]]; cbn [literal_result] in J; try contradiction; apply in_inv in J as [J|J]; try contradiction; injection J as -> <-; eauto.
  - intro H. apply (Permutation_in _ (Permutation_sym P)). apply in_app_iff. destruct H as [I|[(e & I & ->)|(c & I & ->)]].
    + left. apply in_flat_map. exists (Some p, o). split; [exact I|]. now left.
    + right. apply in_flat_map. eexists. split; [exact I|]. now left.
    + right. apply in_flat_map. eexists. split; [exact I|]. now left.
Qed.

(** The function is the one the compiler lowers the body of the query to, except for the statement that hands over the list. *)
Theorem C64_lowered : forall fresh prefix N ret q more locals,
  ~ (exists r, q_result N = $"number$" ++ r) -> ~ (exists r, q_result N = $"null$" ++ r) ->
  lower_function fresh prefix ret [lift_query N q more locals] =
    Some (query_blocks N (IAssignVarOnce (OLocal (q_result N)) ret) ret q more locals).
Proof.
  intros fresh prefix N ret q more locals H1 H2.
  assert (HC : check_operand_is_defined (OLocal (q_result N)) = [IIsDefined (q_result N)]).
  { unfold check_operand_is_defined. destruct (prefixb $"number$" (q_result N)) eqn:P1; [now apply prefixb_iff in P1|].
    destruct (prefixb $"null$" (q_result N)) eqn:P2; [now apply prefixb_iff in P2|]. reflexivity. }
  assert (BB : forall k blk, body_block fresh k [Inst (Ob (OLocal (q_result N)) []) [blk]] ret =
    Some [IBlock [append_inner blk [IIsDefined (q_result N); IAssignVarOnce (OLocal (q_result N)) ret]]]).
  { intros k blk. cbv beta iota zeta delta [body_block length Nat.ltb Nat.leb instance_blocks instance_block in_blocks in_value all_some app body_block_add ob_op ob_code].
    rewrite HC. reflexivity. }
  unfold lift_query, lower_function, query_blocks, start_block. cbn [existsb RuleModel.is_object RuleModel.is_set orb lower_bodies]. cbv zeta. rewrite BB. reflexivity.
Qed.

(** ** C64 for the bundles the compiler makes *)
Theorem C64_built : forall p b, compiled p -> moderate p -> build p = Ok b -> exists rho sigma n,
  says_prog rho sigma p b /\ numbering rho p /\
  forall E i f N q more locals, e_bundle E = b -> query_of p i f N q more locals -> exists g,
    sm_find (n_name f) (b_name_to_func b) = Some (N.of_nat i) /\ znth (b_functions b) (Z.of_nat i) = Some g /\
    compiled_query E (n_name f) n (rho (Some i)) sigma N (n_result f) q more locals (f_blocks g) /\
    zn (f_result g) = rho (Some i) (n_result f).
Proof.
  intros p b C M B. exists (nl (final_table p)), (ns (final_table p)), (frame_size p).
  destruct (says_built p C M b B) as [SP NU]. split; [exact SP|]. split; [exact NU|]. intros. eapply built_queries; eauto.
Qed.

(** The whole way: the answer to a query, for any program and input. *)
Theorem C64_query_partial : forall p b, compiled p -> moderate p -> build p = Ok b -> exists rho sigma,
  says_prog rho sigma p b /\ numbering rho p /\
  forall E pl obj index val x e args i f N q more locals input r, e_bundle E = b -> sound_env E ->
    existsb breaks (flat_map fn_body (g_fns p)) = false -> e_builtin E (n_name f) = None ->
    entry_of p pl obj index val x e -> ob_code e = [ICall (n_name f) args x] -> l_name pl = g_query p -> for_query (g_query p) ->
    query_of p i f N q more locals -> length (n_params f) = 2%nat -> run_query E input = Ok r ->
    let es := expressions more q in let xs := shown locals in
    r = QError \/ (exists codes, codes <> [] /\ r = QErrors codes) \/
    exists s0 s1 ts s2, asked_for E (n_name f) input s0 /\ quiet (map (rho (Some i)) [n_result f; q_result N]) s0 s1 /\
      local s1 (rho (Some i) (q_result N)) = Some (Some (VArray [])) /\
      reached E (rho (Some i)) sigma (conditions q) (record_code N (n_result f) es xs) s1 ts s2 /\
      r = query_answer es (results E (rho (Some i)) sigma es xs ts).
Proof.
  intros p b C M B. destruct (says_built p C M b B) as [SP NU]. exists (nl (final_table p)), (ns (final_table p)). split; [exact SP|]. split; [exact NU|].
  intros. eapply query_answered; eauto.
Qed.

(** ** Concrete cases *)

(** *** The query `some x in input; x` *)
Definition nth_name (base : str) (k : nat) : str := base ++ dec (Z.of_nat k).
Definition q_names : qnames :=
  {| q_result := $"result$2"; q_bindings := $"bindings$3"; q_exprs := $"expressions$4"; q_body := $"body$5";
     q_expr := nth_name $"expr$"; q_loc := nth_name $"loc$"; q_row := nth_name $"row$"; q_col := nth_name $"col$" |}.
Definition place_x : place := {| pc_pos := 17; pc_text := $"x"; pc_row := $"1"; pc_col := $"18" |}.
Definition members : list placed := [(LStmt (IScan $"input" $"k$1" $"x" []), None); (LExpr (Ob (OLocal $"x") []), Some place_x)].
Definition query_fn (q : list placed) (locals : list str) : fn str str :=
  Fn str str $"g0.querymodule$0.query" [$"input"; $"data"] $"return$1" (query_function q_names $"return$1" q [] locals).
Definition query_pl : pl str str := entry $"querymodule$0/query" $"obj$6" (call0 $"g0.querymodule$0.query" $"call$7").
Definition querying (q : list placed) (locals : list str) : prog := Prog (VObject []) [] [query_pl] $"querymodule$0/query" [query_fn q locals].

Definition disjointb (l1 l2 : list str) : bool := forallb (fun x => negb (memb x l2)) l1.
Definition query_ofb (p : prog) (i : nat) (f : fn str str) (N : qnames) (q : list placed) (more : list (option place * nop)) (locals : list str) : bool :=
  let es := expressions more q in let own := n_result f :: q_result N :: made N (length es) in
  negb (existsb leaves (conditions q)) && own_nameb p i (conditions q) (q_result N) && own_nameb p i (conditions q) (n_result f) &&
  nodupb own && forallb (fun x => negb (reservedb x)) (made N (length es)) && disjointb (used es (shown locals)) own &&
  nodupb locals && forallb (fun x => str_eqb (strip_quotes x) x) (shown locals).
Lemma query_ofb_ok p i f N q more locals : nth_error (g_fns p) i = Some f -> n_blocks f = query_function N (n_result f) q more locals ->
  query_ofb p i f N q more locals = true -> query_of p i f N q more locals.
Proof.
  intros H1 H2 H. unfold query_ofb in H. cbv zeta in H. rewrite !andb_true_iff, negb_true_iff in H. destruct H as [[[[[[[A B] C] D] F] G] I] J].
  constructor; auto using own_nameb_ok, nodupb_ok.
  - intros x Ix R. rewrite forallb_forall in F. specialize (F x Ix). apply negb_true_iff in F. apply reservedb_spec in R. congruence.
  - intros x Ix R. unfold disjointb in G. rewrite forallb_forall in G. specialize (G x Ix). apply negb_true_iff in G. apply memb_in in R. congruence.
  - split; [now apply nodupb_ok|]. intros x Ix. rewrite forallb_forall in J. now apply str_eqb_eq, J.
Qed.
Example members_query : let p := querying members [$"x"; $"k$1"] in compiled p /\ moderate p /\
  entry_of p query_pl $"obj$6" $"i$" $"v$" $"call$7" (call0 $"g0.querymodule$0.query" $"call$7") /\
  query_of p 0 (query_fn members [$"x"; $"k$1"]) q_names members [] [$"x"; $"k$1"] /\
  existsb breaks (flat_map fn_body (g_fns p)) = false /\ for_query (g_query p) /\ l_name query_pl = g_query p.
Proof.
  cbv zeta. split; [|split; [vm_compute; split; discriminate|split; [|split; [|split; [reflexivity|split; [|reflexivity]]]]]].
  - apply compiledb_ok; [vm_compute; reflexivity|].
    apply Forall_forall. intros st I. vm_compute in I. repeat destruct I as [<-|I]; try destruct I; cbn; repeat split; auto;
      exists false; eexists; (split; [reflexivity|]); (split; [discriminate|]); (split; [repeat constructor; lia|split; vm_compute; congruence]).
  - apply entry_ofb_ok; [now left|vm_compute; reflexivity|reflexivity|vm_compute; reflexivity].
  - apply query_ofb_ok; [reflexivity|reflexivity|vm_compute; reflexivity].
  - exists $"0/query". reflexivity.
Qed.
(** Every member that is not false is a solution; the variable made by the compiler is not reported. *)
Example members_answers : exists b, build (querying members [$"x"; $"k$1"]) = Ok b /\ verify b = Ok tt /\ sound_env (env0 b 1000) /\
  let ask input := run_query (env0 b 1000) (Some input) in
  let row v := {| r_terms := [v]; r_bindings := [($"x", v)] |} in
  ask (VArray [VTrue; VFalse; VNull; VTrue]) = Ok (QResults [row VTrue; row VNull; row VTrue]) /\
  ask (VArray [VFalse]) = Ok QUndefined /\ ask (VArray []) = Ok QUndefined.
Proof.
  eexists. split; [vm_compute; reflexivity|]. split; [vm_compute; reflexivity|]. split; [repeat split; vm_compute; discriminate|]. vm_compute. auto.
Qed.

(** *** What fails *)

(** The query `not input.a` holds when the input has no member `a`, but it has no expression to report (its literal is a statement), and
    rows without an expression are skipped: the answer is an empty list of results. *)
Definition only_not : list placed :=
  [(LStmt (INot [IResetLocal $"found$8"; IDot (OLocal $"input") (OString $"a") $"dot$9"; INotEqual (OLocal $"dot$9") (OBool false);
                 IAssignVar (OBool true) $"found$8"; IIsDefined $"found$8"]), Some place_x)].
Theorem C64_statements_refuted : expressions [] only_not = [] /\ exists b, build (querying only_not [$"dot$9"; $"found$8"]) = Ok b /\ verify b = Ok tt /\
  run_query (env0 b 1000) (Some (VObject [])) = Ok (QResults []) /\
  run_query (env0 b 1000) (Some (VObject [(VString $"a", VTrue)])) = Ok QUndefined.
Proof. split; [reflexivity|]. eexists. split; [vm_compute; reflexivity|]. vm_compute. auto. Qed.

Print Assumptions C64_function. Print Assumptions C64_expressions. Print Assumptions C64_reported. Print Assumptions C64_lowered. Print Assumptions C64_built.
Print Assumptions C64_query_partial. Print Assumptions C64_statements_refuted.
