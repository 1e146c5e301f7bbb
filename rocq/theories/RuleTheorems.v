(** C63: the function compiled from the definitions of a rule computes the rule. *)
From Coq Require Import String ZArith NArith List Bool Lia.
From Verif Require Import Base BigIntSpec SMap ValueModel ResolverModel VmModel VmSpec VmStmtProofs VmTheorems PlanModel PlanSpec PlanProofs PlanBuildProofs PlanTheorems
  RuleModel RuleSpec RuleProofs RuleFnProofs RuleSetProofs RuleObjProofs RuleBuiltProofs
  RuleEntryProofs RuleQueryProofs.
Import ListNotations.
Local Open Scope Z_scope.

(** ** C63 for any bundle that has the code *)

(** A complete rule or function: its value is the one all its definitions agree on, or the default's, or there is none. *)
Theorem C63_complete : forall E fn n rho sigma fresh prefix ret l bs m s c s',
  complete l -> compiled_rule E fn n rho sigma fresh prefix ret l bs -> ran E fn m bs s c s' ->
  exists s0 vs s1 v, quiet [rho ret] s s0 /\ local s0 (rho ret) = Some None /\
    all_defined E rho sigma (fun k => fresh k 0%nat 0%nat) ret (definitions 0 l) s0 vs s1 /\ all_same E vs /\
    rule_value E rho sigma vs (default_of l) s1 v /\
    local s' (rho ret) = Some v /\ c = match v with Some _ => CReturn | None => CUndefined end.
Proof. intros * H HC. eapply complete_run; eauto. apply HC. Qed.

(** A set rule: the set of all values of all its definitions. *)
Theorem C63_set : forall E fn n rho sigma fresh prefix ret l bs m s c s',
  sets l -> compiled_rule E fn n rho sigma fresh prefix ret l bs -> ran E fn m bs s c s' ->
  c = CReturn /\ exists s0 vs s1 v, quiet [rho ret] s s0 /\ local s0 (rho ret) = Some (Some (VSet [])) /\
    each_asked E rho sigma (collect ret) (set_queries l) s0 vs s1 /\ set_of E vs v /\ local s' (rho ret) = Some (Some (VSet v)).
Proof. intros * H HC. eapply sets_run; eauto. apply HC. Qed.

(** An object rule whose definitions have one variable key: the object of all its pairs. *)
Theorem C63_object_partial : forall E fn n rho sigma fresh prefix ret l bs m s c s',
  objects l -> compiled_rule E fn n rho sigma fresh prefix ret l bs -> ran E fn m bs s c s' ->
  c = CReturn /\ exists s0 kvs s1 v, quiet [rho ret] s s0 /\ local s0 (rho ret) = Some (Some (VObject [])) /\
    all_found E rho sigma ret (object_queries l) s0 kvs s1 /\ local s' (rho ret) = Some (Some (VObject v)) /\
    forall ps, kvs = map (fun p => (Some (fst p), Some (snd p))) ps -> object_of E ps v.
Proof. intros * H HC. eapply objects_run; eauto. apply HC. Qed.

(** The bodies the theorems start from are those that were written: one branch for the head and one for each `else`, in order,
    each with its own value and all its bodies; a set has no `else`. *)
Theorem C63_lifted : forall value qs rest,
  lift_body value (written qs rest) =
    BBody (Inst value (map query_block qs) :: map (fun b : branch => Inst (fst (fst b)) (map query_block (snd (fst b) :: snd b))) rest) /\
  (rest = [] -> lift_set value (written qs rest) = Some (BSet (Inst value (map query_block qs)))) /\
  (rest <> [] -> lift_set value (written qs rest) = None) /\
  forall l, exists qs rest, l = written qs rest.
Proof.
  assert (G : forall qs cur l, instances cur (map (Part None) qs ++ l) = instances (Inst (in_value cur) (in_blocks cur ++ map query_block qs)) l).
  { induction qs as [|q qs IH]; intros [v bs] l; cbn [map app]; [now rewrite app_nil_r|]. cbn [instances pt_else pt_query]. rewrite IH.
    cbn [in_value in_blocks]. now rewrite <- app_assoc. }
  assert (H : forall rest cur, instances cur (written [] rest) =
    cur :: map (fun b : branch => Inst (fst (fst b)) (map query_block (snd (fst b) :: snd b))) rest).
  { induction rest as [|[[v q] qs] rest IH]; intro cur; [reflexivity|]. unfold written. cbn [map app flat_map fst snd instances pt_else pt_query].
    rewrite G. cbn [in_value in_blocks app]. f_equal. apply IH. }
  assert (N : forall l q qs, existsb (fun p => match pt_else p with Some _ => true | None => false end) (map (Part None) l ++ written q qs) =
    existsb (fun p => match pt_else p with Some _ => true | None => false end) (written q qs)).
  { induction l as [|x l IH]; intros q qs; [reflexivity|]. apply IH. }
  intros value qs rest. split; [|split; [|split]].
  - unfold lift_body, written. rewrite G. cbn [in_value in_blocks app]. f_equal. apply (H rest).
  - intros ->. unfold lift_set. change (written qs []) with (map (Part None) qs ++ written [] []). rewrite N.
    cbn [existsb written flat_map map app]. rewrite app_nil_r, map_map. reflexivity.
  - intro NE. destruct rest as [|[[v q] r] rest]; [congruence|]. unfold lift_set.
    change (written qs ((v, q, r) :: rest)) with (map (Part None) qs ++ written [] ((v, q, r) :: rest)). rewrite N. reflexivity.
  - induction l as [|[[v|] q] l (qs1 & rest1 & ->)]; [exists [], []; reflexivity| |].
    + exists [], ((v, q, qs1) :: rest1). unfold written. cbn [map app flat_map fst snd]. reflexivity.
    + exists (q :: qs1), rest1. reflexivity.
Qed.

(** ** C63 for the bundles the compiler makes *)

(** With the slots and string numbers the bundle is built with, every function compiled from a rule is such code. *)
Lemma built_rules p b E i f fresh prefix l : compiled p -> moderate p -> build p = Ok b -> e_bundle E = b -> rule_of p i f fresh prefix l -> exists g,
  sm_find (n_name f) (b_name_to_func b) = Some (N.of_nat i) /\ znth (b_functions b) (Z.of_nat i) = Some g /\
  compiled_rule E (n_name f) (frame_size p) (nl (final_table p) (Some i)) (ns (final_table p)) fresh prefix (n_result f) l (f_blocks g) /\
  zn (f_result g) = nl (final_table p) (Some i) (n_result f).
Proof.
  intros C M B HE HR. destruct (says_built p C M b B) as [SP NU].
  assert (HL : exists g, nth_error (b_functions b) i = Some g).
  { destruct SP as [_ _ SF]. pose proof (numbered_nth p _ _ (ro_fn _ _ _ _ _ _ HR)) as HN. clear - SF HN.
    remember (i, f) as q eqn:X. clear X. revert i HN.
    induction SF as [|x y l l2 _ _ IH]; intros i HN; [destruct i; discriminate|]. destruct i; cbn in *; eauto. }
  destruct HL as (g & Hg). exists g. split; [|split].
  - apply (proj1 (C58_names p b C M B)). exists f. rewrite Nnat.Nat2N.id. split; [apply HR|reflexivity].
  - replace (Z.of_nat i) with (zn (N.of_nat i)) by lia. apply (znth_nth p (b_functions b) (N.of_nat i)). now rewrite Nnat.Nat2N.id.
  - eapply built_rule; eauto.
Qed.
Theorem C63_built : forall p b, compiled p -> moderate p -> build p = Ok b -> exists rho sigma n,
  says_prog rho sigma p b /\ numbering rho p /\
  forall E i f fresh prefix l, e_bundle E = b -> rule_of p i f fresh prefix l -> exists g,
    sm_find (n_name f) (b_name_to_func b) = Some (N.of_nat i) /\ znth (b_functions b) (Z.of_nat i) = Some g /\
    compiled_rule E (n_name f) n (rho (Some i)) sigma fresh prefix (n_result f) l (f_blocks g) /\
    zn (f_result g) = rho (Some i) (n_result f).
Proof.
  intros p b C M B. exists (nl (final_table p)), (ns (final_table p)), (frame_size p).
  destruct (says_built p C M b B) as [SP NU]. split; [exact SP|]. split; [exact NU|]. intros. eapply built_rules; eauto.
Qed.

(** Calling such a function. *)
Lemma calls_rules p b E i f g fresh prefix l m args target s c s' : compiled p -> moderate p -> build p = Ok b ->
  e_bundle E = b -> rule_of p i f fresh prefix l ->
  znth (b_functions b) (Z.of_nat i) = Some g -> calls E m (n_name f) g args target s c s' -> ~ failed E m (n_name f) g args s c ->
  let rho := nl (final_table p) in let sigma := ns (final_table p) in
  exists s0, entered E (n_name f) g args s s0 /\
  (complete l -> exists s1 vs s2 v, quiet [rho (Some i) (n_result f)] s0 s1 /\ local s1 (rho (Some i) (n_result f)) = Some None /\
     all_defined E (rho (Some i)) sigma (fun k => fresh k 0%nat 0%nat) (n_result f) (definitions 0 l) s1 vs s2 /\ all_same E vs /\
     rule_value E (rho (Some i)) sigma vs (default_of l) s2 v /\
     match v with Some _ => c = CContinue /\ local s' target = Some v | None => c = CUndefined end) /\
  (sets l -> c = CContinue /\ exists s1 vs s2 v,
     quiet [rho (Some i) (n_result f)] s0 s1 /\ local s1 (rho (Some i) (n_result f)) = Some (Some (VSet [])) /\
     each_asked E (rho (Some i)) sigma (collect (n_result f)) (set_queries l) s1 vs s2 /\
     set_of E vs v /\ local s' target = Some (Some (VSet v))) /\
  (objects l -> c = CContinue /\ exists s1 kvs s2 v,
     quiet [rho (Some i) (n_result f)] s0 s1 /\ local s1 (rho (Some i) (n_result f)) = Some (Some (VObject [])) /\
     all_found E (rho (Some i)) sigma (n_result f) (object_queries l) s1 kvs s2 /\
     local s' target = Some (Some (VObject v)) /\
     forall ps, kvs = map (fun p => (Some (fst p), Some (snd p))) ps -> object_of E ps v).
Proof.
  intros C M B HE HR Hg [HC1 HC2 HC3 HC4 HC5] HF rho sigma.
  destruct (built_rules p b E i f fresh prefix l C M B HE HR) as (g' & HN & Hg' & CR & HRes). rewrite Hg in Hg'. injection Hg' as <-. rewrite <- HE in HN, Hg.
  replace (Z.of_nat i) with (zn (N.of_nat i)) in Hg by lia.
  destruct (call_run E m _ _ _ _ _ _ _ _ HC1 HC2 HN Hg HC3 HC4 HC5) as (s0 & s1 & c1 & EN & RB & CO & NB & RES).
  exists s0. split; [exact EN|].
  assert (R : ran E (n_name f) m (f_blocks g) s0 c1 s1).
  { split; [|split; [exact RB|split; [|split; [exact NB|exact CO]]]].
    - destruct EN as (t & _ & ->). now left.
    - intros ->. apply HF. split; [exact RES|eauto]. }
  split; [|split].
  - intro HL. destruct (C63_complete _ _ _ _ _ _ _ _ _ _ _ _ _ _ HL CR R) as (t0 & vs & t1 & v & Q & L0 & AD & AS & RV & LV & ->).
    exists t0, vs, t1, v. repeat (split; [assumption|]). destruct v as [v|]; [|exact RES].
    destruct RES as (-> & w & L1 & L2). rewrite HRes, LV in L1. injection L1 as <-. auto.
  - intro HL. destruct (C63_set _ _ _ _ _ _ _ _ _ _ _ _ _ _ HL CR R) as (-> & t0 & vs & t1 & v & Q & L0 & AD & AS & LV).
    destruct RES as (-> & w & L1 & L2). rewrite HRes, LV in L1. injection L1 as <-. split; [reflexivity|]. exists t0, vs, t1, v. auto.
  - intro HL. destruct (C63_object_partial _ _ _ _ _ _ _ _ _ _ _ _ _ _ HL CR R) as (-> & t0 & vs & t1 & v & Q & L0 & AD & LV & AS).
    destruct RES as (-> & w & L1 & L2). rewrite HRes, LV in L1. injection L1 as <-. split; [reflexivity|]. exists t0, vs, t1, v. auto.
Qed.
Theorem C63_calls_partial : forall p b, compiled p -> moderate p -> build p = Ok b -> exists rho sigma,
  says_prog rho sigma p b /\ numbering rho p /\
  forall E i f g fresh prefix l m args target s c s', e_bundle E = b -> rule_of p i f fresh prefix l ->
    znth (b_functions b) (Z.of_nat i) = Some g -> calls E m (n_name f) g args target s c s' -> ~ failed E m (n_name f) g args s c ->
    exists s0, entered E (n_name f) g args s s0 /\
    (complete l -> exists s1 vs s2 v, quiet [rho (Some i) (n_result f)] s0 s1 /\ local s1 (rho (Some i) (n_result f)) = Some None /\
       all_defined E (rho (Some i)) sigma (fun k => fresh k 0%nat 0%nat) (n_result f) (definitions 0 l) s1 vs s2 /\ all_same E vs /\
       rule_value E (rho (Some i)) sigma vs (default_of l) s2 v /\
       match v with Some _ => c = CContinue /\ local s' target = Some v | None => c = CUndefined end) /\
    (sets l -> c = CContinue /\ exists s1 vs s2 v,
       quiet [rho (Some i) (n_result f)] s0 s1 /\ local s1 (rho (Some i) (n_result f)) = Some (Some (VSet [])) /\
       each_asked E (rho (Some i)) sigma (collect (n_result f)) (set_queries l) s1 vs s2 /\
       set_of E vs v /\ local s' target = Some (Some (VSet v))) /\
    (objects l -> c = CContinue /\ exists s1 kvs s2 v,
       quiet [rho (Some i) (n_result f)] s0 s1 /\ local s1 (rho (Some i) (n_result f)) = Some (Some (VObject [])) /\
       all_found E (rho (Some i)) sigma (n_result f) (object_queries l) s1 kvs s2 /\
       local s' target = Some (Some (VObject v)) /\
       forall ps, kvs = map (fun p => (Some (fst p), Some (snd p))) ps -> object_of E ps v).
Proof.
  intros p b C M B. destruct (says_built p C M b B) as [SP NU]. exists (nl (final_table p)), (ns (final_table p)). split; [exact SP|]. split; [exact NU|].
  intros. eapply calls_rules; eauto.
Qed.

(** What asking for an entry point answers: the value its code leaves, or for the plan of a query each element of that. *)
Theorem C63_entry : forall p b, compiled p -> moderate p -> build p = Ok b -> exists rho sigma,
  says_prog rho sigma p b /\ numbering rho p /\
  forall E pl obj index val x e input r, e_bundle E = b -> entry_of p pl obj index val x e ->
    run_entrypoint E (l_name pl) input = Ok r ->
    r = QError \/ (exists es, es <> [] /\ r = QErrors es) \/
    exists bl c s1 v vs, opt_list says bl = Some (img (rho None) sigma (ob_code e)) /\
      run_block E (block_fuel E) bl (initial E input) = Done c s1 /\ s_errors s1 = [] /\
      match c with CContinue => local s1 (rho None x) = Some v | _ => v = None end /\
      gives (l_name pl) v vs /\ r = answer vs.
Proof.
  intros p b C M B. destruct (says_built p C M b B) as [SP NU]. exists (nl (final_table p)), (ns (final_table p)). split; [exact SP|]. split; [exact NU|].
  intros E pl obj index val x e input r HE HO HR. destruct (built_entry p C M b B E _ _ _ _ _ _ HE HO) as (i & y & H1 & H2 & CE).
  rewrite <- HE in H1, H2. eapply entry_answer; eauto.
Qed.

Lemma query_rules p b : compiled p -> moderate p -> build p = Ok b -> let rho := nl (final_table p) in let sigma := ns (final_table p) in
  forall E pl obj index val x e args i f fresh prefix l input r, e_bundle E = b -> sound_env E ->
    existsb breaks (flat_map fn_body (g_fns p)) = false -> e_builtin E (n_name f) = None ->
    entry_of p pl obj index val x e -> ob_code e = [ICall (n_name f) args x] ->
    rule_of p i f fresh prefix l -> length (n_params f) = 2%nat ->
    run_entrypoint E (l_name pl) input = Ok r ->
    r = QError \/ (exists es, es <> [] /\ r = QErrors es) \/
    exists s0, asked_for E (n_name f) input s0 /\
    (complete l -> exists s1 vs s2 v ws, quiet [rho (Some i) (n_result f)] s0 s1 /\ local s1 (rho (Some i) (n_result f)) = Some None /\
       all_defined E (rho (Some i)) sigma (fun k => fresh k 0%nat 0%nat) (n_result f) (definitions 0 l) s1 vs s2 /\ all_same E vs /\
       rule_value E (rho (Some i)) sigma vs (default_of l) s2 v /\ gives (l_name pl) v ws /\ r = answer ws) /\
    (sets l -> exists s1 vs s2 v ws,
       quiet [rho (Some i) (n_result f)] s0 s1 /\ local s1 (rho (Some i) (n_result f)) = Some (Some (VSet [])) /\
       each_asked E (rho (Some i)) sigma (collect (n_result f)) (set_queries l) s1 vs s2 /\
       set_of E vs v /\ gives (l_name pl) (Some (VSet v)) ws /\ r = answer ws) /\
    (objects l -> exists s1 kvs s2 v ws,
       quiet [rho (Some i) (n_result f)] s0 s1 /\ local s1 (rho (Some i) (n_result f)) = Some (Some (VObject [])) /\
       all_found E (rho (Some i)) sigma (n_result f) (object_queries l) s1 kvs s2 /\
       gives (l_name pl) (Some (VObject v)) ws /\ r = answer ws /\
       forall ps, kvs = map (fun p => (Some (fst p), Some (snd p))) ps -> object_of E ps v).
Proof.
  intros C M B rho sigma. destruct (says_built p C M b B) as [SP NU]. subst rho sigma.
  intros E pl obj index val x e args i f fresh prefix l input r HE SE NB HBi HO HEC HR H2 H.
  destruct (built_entry p C M b B E _ _ _ _ _ _ HE HO) as (ip & y & P1 & P2 & CE). rewrite <- HE in P1, P2.
  destruct (entry_answer E _ _ _ _ _ _ _ _ _ _ _ _ _ P1 P2 CE H) as [->|[Q|(bl & c & t & v & vs & A1 & A2 & A3 & A4 & A5 & ->)]]; [now left|now right; left|].
  right. right. rewrite HEC in A1. cbn [img map map_ir] in A1.
  destruct (built_rules p b E i f fresh prefix l C M B HE HR) as (g & HN & Hg & _).
  assert (UB : unbroken E).
  { intros j g' Hg'. eapply (built_flag p C M b B (@breaks)); eauto. intros. apply breaks_img. }
  assert (HN' := HN). assert (Hg' := Hg). rewrite <- HE in HN', Hg'. replace (Z.of_nat i) with (zn (N.of_nat i)) in Hg' by lia.
  destruct (call_block E (block_fuel E) 0 _ _ _ _ _ _ _ _ _ SE UB (initial_inv E input) ltac:(destruct SE; unfold block_fuel; lia) A1 A2 A3 HBi HN' Hg' eq_refl)
    as (st & ops & k & t1 & _ & _ & _ & -> & CA & NF).
  destruct (calls_rules p b E i f g fresh prefix l k ops _ _ _ _ C M B HE HR Hg CA NF) as (s0 & EN & HC & HS & HOb).
  exists s0. split.
  { destruct EN as (u & EW & ->).
    assert (HP : length (f_params g) = 2%nat).
    { destruct SP as [_ _ SF]. unfold znth in Hg. destruct (_ && _); [|discriminate]. rewrite Nat2Z.id in Hg.
      destruct (forall2_nth _ _ _ SF _ _ _ (numbered_nth p _ _ (ro_fn _ _ _ _ _ _ HR)) Hg) as (_ & HM & _). cbn [fst snd] in HM.
      apply (f_equal (@length Z)) in HM. rewrite !map_length in HM. congruence. }
    destruct (f_params g) as [|q1 [|q2 [|q3 qs]]]; try discriminate HP. cbn [skipn write_params] in EW. injection EW as <-.
    repeat split. }
  split; [|split].
  - intro HL. destruct (HC HL) as (s1 & ws & s2 & w & B1 & B2 & B3 & B4 & B5 & B6). exists s1, ws, s2, w, vs. repeat (split; [assumption|]).
    split; [|reflexivity]. replace w with v; [exact A5|]. destruct w as [w|].
    + destruct B6 as [-> B6]. change (local t1 (nl (final_table p) None x) = Some v) in A4. rewrite B6 in A4. now injection A4.
    + subst c. exact A4.
  - intro HL. destruct (HS HL) as (-> & s1 & ws & s2 & w & B1 & B2 & B3 & B4 & B5). exists s1, ws, s2, w, vs. repeat (split; [assumption|]).
    split; [|reflexivity]. change (local t1 (nl (final_table p) None x) = Some v) in A4. rewrite B5 in A4. injection A4 as <-. exact A5.
  - intro HL. destruct (HOb HL) as (-> & s1 & ws & s2 & w & B1 & B2 & B3 & B4 & B5). exists s1, ws, s2, w, vs. repeat (split; [assumption|]).
    change (local t1 (nl (final_table p) None x) = Some v) in A4. rewrite B4 in A4. injection A4 as <-. auto.
Qed.
Theorem C63_query_partial : forall p b, compiled p -> moderate p -> build p = Ok b -> exists rho sigma,
  says_prog rho sigma p b /\ numbering rho p /\
  forall E pl obj index val x e args i f fresh prefix l input r, e_bundle E = b -> sound_env E ->
    existsb breaks (flat_map fn_body (g_fns p)) = false -> e_builtin E (n_name f) = None ->
    entry_of p pl obj index val x e -> ob_code e = [ICall (n_name f) args x] ->
    rule_of p i f fresh prefix l -> length (n_params f) = 2%nat ->
    run_entrypoint E (l_name pl) input = Ok r ->
    r = QError \/ (exists es, es <> [] /\ r = QErrors es) \/
    exists s0, asked_for E (n_name f) input s0 /\
    (complete l -> exists s1 vs s2 v ws, quiet [rho (Some i) (n_result f)] s0 s1 /\ local s1 (rho (Some i) (n_result f)) = Some None /\
       all_defined E (rho (Some i)) sigma (fun k => fresh k 0%nat 0%nat) (n_result f) (definitions 0 l) s1 vs s2 /\ all_same E vs /\
       rule_value E (rho (Some i)) sigma vs (default_of l) s2 v /\ gives (l_name pl) v ws /\ r = answer ws) /\
    (sets l -> exists s1 vs s2 v ws,
       quiet [rho (Some i) (n_result f)] s0 s1 /\ local s1 (rho (Some i) (n_result f)) = Some (Some (VSet [])) /\
       each_asked E (rho (Some i)) sigma (collect (n_result f)) (set_queries l) s1 vs s2 /\
       set_of E vs v /\ gives (l_name pl) (Some (VSet v)) ws /\ r = answer ws) /\
    (objects l -> exists s1 kvs s2 v ws,
       quiet [rho (Some i) (n_result f)] s0 s1 /\ local s1 (rho (Some i) (n_result f)) = Some (Some (VObject [])) /\
       all_found E (rho (Some i)) sigma (n_result f) (object_queries l) s1 kvs s2 /\
       gives (l_name pl) (Some (VObject v)) ws /\ r = answer ws /\
       forall ps, kvs = map (fun p => (Some (fst p), Some (snd p))) ps -> object_of E ps v).
Proof.
  intros p b C M B. destruct (says_built p C M b B) as [SP NU]. exists (nl (final_table p)), (ns (final_table p)). split; [exact SP|]. split; [exact NU|].
  exact (query_rules p b C M B).
Qed.

(** *** A program with a rule of each kind:
      p := 1 if input.a else := 2 if input.b;  default p := 0;  s contains x if some x in input;  o[k] := x if some k, x in input *)
Definition fresh0 (k j d : nat) : str := $"fresh$" ++ dec (Z.of_nat k).
Definition num (t x : str) : opblock := Ob (OLocal x) [IMakeNumberRef t x].
Definition is_true (k x : str) : list literal := [LAssign [IDot (OLocal $"input") (OString k) x]; LExpr (Ob (OLocal x) [])].
Definition rule_p : list rbody :=
  [lift_body (num $"1" $"number$1") [Part None (is_true $"a" $"dot$2"); Part (Some (num $"2" $"number$3")) (is_true $"b" $"dot$4")];
   lift_default (num $"0" $"number$5") []].
Definition rule_s : list rbody := [BSet (Inst (Ob (OLocal $"x$6") []) [query_block [LStmt (IScan $"input" $"k$7" $"x$6" [])]])].
Definition rule_o : list rbody :=
  [BObjDynamic [Ob (OLocal $"k$8") []] (Inst (Ob (OLocal $"x$9") []) [query_block [LStmt (IScan $"input" $"k$8" $"x$9" [])]])].
Definition lowered (ret : str) (l : list rbody) : list (list nir) :=
  match lower_function fresh0 $"bodyobj$" ret l with Some ls => ls | None => [] end.
Definition rule_fn (name ret : str) (l : list rbody) : fn str str := Fn str str name [$"input"; $"data"] ret (lowered ret l).
Definition call0 (name x : str) : opblock := Ob (OLocal x) [ICall name [OLocal $"input"; OLocal $"data"] x].
Definition entry (name obj : str) (e : opblock) : pl str str :=
  match entry_plan name obj $"i$" $"v$" e with Some x => x | None => Pl str str name [] end.
Definition policy (fs : list (fn str str)) : prog :=
  Prog (VObject []) [] (map (fun f => entry (n_name f) ($"obj$" ++ n_name f) (call0 (n_name f) ($"call$" ++ n_name f))) fs) $"p" fs.
Definition rules : prog :=
  policy [rule_fn $"p" $"return$10" rule_p; rule_fn $"s" $"return$11" rule_s; rule_fn $"o" $"return$12" rule_o].

Example rules_built : exists b, build rules = Ok b /\ verify b = Ok tt /\
  let obj l := VObject (map (fun kv => (VString (fst kv), snd kv)) l) in
  let run q input := run_entrypoint (env0 b 1000) q (Some input) in
  let one v := Ok (QResults [{| r_terms := [v]; r_bindings := [] |}]) in
  run $"p" (obj [($"a", VTrue); ($"b", VTrue)]) = one (VInt $"1") /\
  run $"p" (obj [($"a", VFalse); ($"b", VTrue)]) = one (VInt $"2") /\
  run $"p" (obj [($"b", VFalse)]) = one (VInt $"0") /\
  run $"s" (VArray [VTrue; VNull; VTrue]) = one (VSet [VTrue; VNull]) /\
  run $"o" (VArray [VTrue; VNull]) = one (VObject [(VInt $"0", VTrue); (VInt $"1", VNull)]).
Proof. eexists. split; [vm_compute; reflexivity|]. vm_compute. auto 10. Qed.

(** [compiled], decided up to the well-formedness of statements. *)
Definition memb (x : str) (l : list str) : bool := existsb (str_eqb x) l.
Lemma memb_in x l : memb x l = true <-> In x l.
Proof.
  unfold memb. rewrite existsb_exists. split; [intros (y & I & E); apply str_eqb_eq in E; now subst|].
  intro I. exists x. split; [exact I|apply str_eqb_refl].
Qed.
Definition amongb (x : option nat * str) (l : list (option nat * str)) : bool := existsb (same_localb x) l.
Lemma amongb_iff x l : amongb x l = true <-> among x l.
Proof.
  unfold amongb, among. rewrite existsb_exists. split; intros (y & I & H); exists y; (split; [exact I|]).
  - apply key_same. now apply same_localb_key.
  - apply same_localb_key. now apply key_same.
Qed.
Fixpoint nodupb (l : list str) : bool := match l with [] => true | x :: l' => negb (memb x l') && nodupb l' end.
Lemma nodupb_ok l : nodupb l = true -> NoDup l.
Proof.
  induction l as [|x l IH]; [constructor|]. cbn [nodupb]. rewrite andb_true_iff, negb_true_iff. intros [H1 H2]. constructor; auto.
  intro I. apply memb_in in I. congruence.
Qed.
Definition compiledb (p : prog) : bool :=
  negb (length (g_plans p) =? 0)%nat && nodupb (map n_name (g_fns p)) && nodupb (map l_name (g_plans p)) &&
  forallb (fun f => (2 <=? length (n_params f))%nat) (g_fns p) &&
  forallb (fun jf => let i := fst jf in let f := snd jf in
     memb (n_result f) (flat_map subjects (fn_body f)) && negb (reservedb (n_result f)) && negb (memb (n_result f) (n_params f)) &&
     negb (amongb (Some i, n_result f) (plan_names p ++ flat_map fn_names (firstn i (numbered_fns (g_fns p)))))) (numbered_fns (g_fns p)) &&
  forallb (fun x => reservedb (snd x) ||
     match fst x with
     | Some i => match nth_error (g_fns p) i with Some f => memb (snd x) (n_params f) | None => false end
     | None => false
     end || amongb x (all_subjects p)) (names p).
Lemma compiledb_ok p : compiledb p = true -> Forall (well_formed (arity_in (g_fns p))) (body p) -> compiled p.
Proof.
  unfold compiledb. rewrite !andb_true_iff, !negb_true_iff, !forallb_forall. intros [[[[[H1 H2] H3] H4] H5] H6] HS. constructor; auto using nodupb_ok.
  - intro Q. rewrite Q in H1. discriminate.
  - intros f I. apply Nat.leb_le, H4, I.
  - intros i f Hf. specialize (H5 _ (nth_error_In _ _ (numbered_nth p _ _ Hf))). cbn [fst snd] in H5. cbv zeta in H5.
    rewrite !andb_true_iff, !negb_true_iff in H5. destruct H5 as [[[A B] C] D]. split; [now apply memb_in|]. split; [|split].
    + intro R. apply reservedb_spec in R. congruence.
    + intro I. apply memb_in in I. congruence.
    + intro I. apply amongb_iff in I. congruence.
  - intros x I R. specialize (H6 x I). apply orb_true_iff in H6 as [H6|H6]; [|right; now apply amongb_iff].
    apply orb_true_iff in H6 as [H6|H6]; [apply reservedb_spec in H6; contradiction|]. left.
    destruct (fst x) as [i|]; [|discriminate]. destruct (nth_error (g_fns p) i) as [f|] eqn:Q; [|discriminate]. exists i, f.
    split; [reflexivity|]. split; [exact Q|now apply memb_in].
Qed.
Example rules_compiled : compiled rules /\ moderate rules.
Proof.
  split; [|vm_compute; split; discriminate]. apply compiledb_ok; [vm_compute; reflexivity|].
  apply Forall_forall. intros st I. vm_compute in I. repeat destruct I as [<-|I]; try destruct I; cbn; repeat split; auto.
Qed.
(** [rule_of], decided. *)
Definition own_nameb (p : prog) (i : nat) (code : list nir) (x : str) : bool :=
  negb (reservedb x) && negb (memb x (flat_map subjects code)) &&
  forallb (fun jg => Nat.eqb (fst jg) i || negb (memb x (n_params (snd jg) ++ flat_map subjects (fn_body (snd jg))))) (numbered_fns (g_fns p)).
Definition rule_ofb (p : prog) (i : nat) (f : fn str str) (fresh : nat -> nat -> nat -> str) (l : list rbody) : bool :=
  let code := flat_map body_code l in let here := flat_map locals_in (fn_body f) in
  negb (existsb leaves code) && forallb (fun x => memb x here) (flat_map subjects code) && own_nameb p i code (n_result f) &&
  forallb (fun kd => (length (snd kd) <=? 1)%nat ||
    let x := fresh (fst kd) 0%nat 0%nat in own_nameb p i code x && memb x here && negb (str_eqb x (n_result f))) (definitions 0 l).
Lemma own_nameb_ok p i code x : own_nameb p i code x = true -> own_name p i code x.
Proof.
  unfold own_nameb. rewrite !andb_true_iff, !negb_true_iff, forallb_forall. intros [[H1 H2] H3]. split; [|split].
  - intro R. apply reservedb_spec in R. congruence.
  - intro I. apply memb_in in I. congruence.
  - intros j g N Hg _ I. specialize (H3 (j, g) (nth_error_In _ _ (numbered_nth p _ _ Hg))). apply orb_true_iff in H3 as [H3|H3].
    + apply Nat.eqb_eq in H3. now elim N.
    + apply negb_true_iff in H3. apply memb_in in I. cbn [snd] in H3. congruence.
Qed.
Lemma rule_ofb_ok p i f fresh prefix l : nth_error (g_fns p) i = Some f -> lower_function fresh prefix (n_result f) l = Some (n_blocks f) ->
  rule_ofb p i f fresh l = true -> rule_of p i f fresh prefix l.
Proof.
  intros H1 H2 H. unfold rule_ofb in H. cbv zeta in H. rewrite !andb_true_iff, negb_true_iff, !forallb_forall in H. destruct H as [[[H3 H4] H5] H6].
  constructor; auto.
  - intros x I. apply memb_in, H4, I.
  - now apply own_nameb_ok.
  - intros k d I HD. specialize (H6 _ I). cbn [fst snd] in H6. apply orb_true_iff in H6 as [H6|H6]; [apply Nat.leb_le in H6; lia|].
    rewrite !andb_true_iff, negb_true_iff in H6. destruct H6 as [[H6 H7] H8]. split; [now apply own_nameb_ok|]. split; [now apply memb_in|].
    intro Q. rewrite Q, str_eqb_refl in H8. discriminate.
Qed.
Example rules_are_rules : rule_of rules 0 (rule_fn $"p" $"return$10" rule_p) fresh0 $"bodyobj$" rule_p /\
  rule_of rules 1 (rule_fn $"s" $"return$11" rule_s) fresh0 $"bodyobj$" rule_s /\
  rule_of rules 2 (rule_fn $"o" $"return$12" rule_o) fresh0 $"bodyobj$" rule_o /\
  complete rule_p /\ sets rule_s /\ objects rule_o.
Proof.
  split; [|split; [|split; [|repeat split; try discriminate; repeat constructor]]]; (apply rule_ofb_ok; [reflexivity|vm_compute; reflexivity|vm_compute; reflexivity]).
Qed.
(** The functions are called in these runs: the first call of each is of the kind the theorem speaks about. *)
Definition started_with (b : bundle) (input : value) : state :=
  let s := init_state (b_locals b) in set_frame (upd (upd (s_frame s) 0 (Some input)) 1 (Some (b_data b))) s.
Example rules_called : exists b, build rules = Ok b /\ forall i f name, In (i, name, f) [(0, $"p", $"p"); (1, $"s", $"s"); (2, $"o", $"o")] ->
  exists g c s', znth (b_functions b) i = Some g /\ f_name g = f /\
  calls (env0 b 1000) 10 name g [loc 0; loc 1] 2 (started_with b (VArray [VTrue; VNull])) c s' /\ c = CContinue.
Proof.
  eexists. split; [vm_compute; reflexivity|]. intros i f name I.
  repeat destruct I as [I|I]; try contradiction; injection I as <- <- <-; eexists; exists CContinue; eexists;
    (split; [vm_compute; reflexivity|]; split; [reflexivity|]; split; [|reflexivity]); constructor; try (vm_compute; reflexivity);
    try (right; reflexivity); left; reflexivity.
Qed.

(** Asking for these rules, as entry points of their own and in the plan of a query, is of the kind the theorems speak about. *)
Definition entry_ofb (p : prog) (pl : pl str str) (obj val x : str) (e : opblock) : bool :=
  memb (l_name pl) (map l_name (g_plans p)) && negb (reservedb obj) && negb (str_eqb x obj) && negb (str_eqb val obj) &&
  negb (existsb adds (ob_code e)) && negb (existsb adds (flat_map fn_body (g_fns p))).
Lemma entry_ofb_ok p pl obj index val x e : In pl (g_plans p) -> entry_plan (l_name pl) obj index val e = Some pl -> ob_op e = OLocal x ->
  entry_ofb p pl obj val x e = true -> entry_of p pl obj index val x e.
Proof.
  intros H1 H2 H3 H. unfold entry_ofb in H. rewrite !andb_true_iff, !negb_true_iff in H. destruct H as [[[[[_ A] B] C] D] F].
  constructor; auto. split; [|split].
  - intro R. apply reservedb_spec in R. congruence.
  - intros ->. now rewrite str_eqb_refl in B.
  - intros ->. now rewrite str_eqb_refl in C.
Qed.
Definition asking : prog :=
  let fs := [rule_fn $"p" $"return$10" rule_p; rule_fn $"s" $"return$11" rule_s] in
  Prog (VObject []) [] [entry $"p" $"obj$1" (call0 $"p" $"call$1"); entry $"querymodule$2" $"obj$2" (call0 $"s" $"call$2")] $"querymodule$2" fs.
Example asking_entries : compiled asking /\ moderate asking /\
  entry_of asking (entry $"p" $"obj$1" (call0 $"p" $"call$1")) $"obj$1" $"i$" $"v$" $"call$1" (call0 $"p" $"call$1") /\
  entry_of asking (entry $"querymodule$2" $"obj$2" (call0 $"s" $"call$2")) $"obj$2" $"i$" $"v$" $"call$2" (call0 $"s" $"call$2") /\
  rule_of asking 0 (rule_fn $"p" $"return$10" rule_p) fresh0 $"bodyobj$" rule_p /\
  rule_of asking 1 (rule_fn $"s" $"return$11" rule_s) fresh0 $"bodyobj$" rule_s /\
  existsb breaks (flat_map fn_body (g_fns asking)) = false /\ for_query $"querymodule$2" /\ ~ for_query $"p".
Proof.
  split; [|split; [vm_compute; split; discriminate|split; [|split; [|split; [|split; [|split; [reflexivity|split]]]]]]].
  - apply compiledb_ok; [vm_compute; reflexivity|].
    apply Forall_forall. intros st I. vm_compute in I. repeat destruct I as [<-|I]; try destruct I; cbn; repeat split; auto.
  - apply entry_ofb_ok; [now left|vm_compute; reflexivity|reflexivity|vm_compute; reflexivity].
  - apply entry_ofb_ok; [right; now left|vm_compute; reflexivity|reflexivity|vm_compute; reflexivity].
  - apply rule_ofb_ok; [reflexivity|vm_compute; reflexivity|vm_compute; reflexivity].
  - apply rule_ofb_ok; [reflexivity|vm_compute; reflexivity|vm_compute; reflexivity].
  - exists $"2". reflexivity.
  - intros [r Q]. discriminate.
Qed.
Example asking_answers : exists b, build asking = Ok b /\ sound_env (env0 b 1000) /\ e_builtin (env0 b 1000) $"s" = None /\
  let ask q input := run_entrypoint (env0 b 1000) q (Some input) in
  ask $"p" (VObject [(VString $"b", VTrue)]) = Ok (answer [VInt $"2"]) /\
  ask $"querymodule$2" (VArray [VTrue; VNull; VTrue]) = Ok (answer [VTrue; VNull]) /\
  ask $"querymodule$2" (VArray []) = Ok (answer []) /\ answer [] = QUndefined.
Proof.
  eexists. split; [vm_compute; reflexivity|]. split; [repeat split; vm_compute; discriminate|]. split; [reflexivity|]. vm_compute. auto.
Qed.

(** *** What fails *)

(** Two bodies after one head, `p := x { x := true } { x := false }`, mean the same as two definitions, whose values conflict; but
    the second body is skipped once the first one has given a value, so the conflict goes unnoticed. *)
Definition picks (v : bool) : list literal := [LAssign [IAssignVarOnce (OBool v) $"x$1"]].
Definition one_head : prog := policy [rule_fn $"p" $"return$2" [lift_body (Ob (OLocal $"x$1") []) [Part None (picks true); Part None (picks false)]]].
Definition two_heads : prog :=
  policy [rule_fn $"p" $"return$2" [lift_body (Ob (OLocal $"x$1") []) [Part None (picks true)];
                                    lift_body (Ob (OLocal $"x$3") []) [Part None [LAssign [IAssignVarOnce (OBool false) $"x$3"]]]]].
Theorem C63_conflict_refuted : exists b b2, build one_head = Ok b /\ verify b = Ok tt /\ build two_heads = Ok b2 /\ verify b2 = Ok tt /\
  run_entrypoint (env0 b 1000) $"p" None = Ok (QResults [{| r_terms := [VTrue]; r_bindings := [] |}]) /\
  run_entrypoint (env0 b2 1000) $"p" None = Ok (QErrors [EvalConflictError]).
Proof. eexists. eexists. split; [vm_compute; reflexivity|]. split; [vm_compute; reflexivity|]. split; [vm_compute; reflexivity|]. vm_compute. auto. Qed.

(** A definition of a member of an object, `p.a := 1 { true } { false }`, that has several bodies never compiles. *)
Theorem C63_object_bodies_refuted : forall fresh prefix ret l ident key is_ i,
  In (BObjStatic ident key is_) l -> In i is_ -> (1 < length (in_blocks i))%nat -> lower_function fresh prefix ret l = None.
Proof.
  intros fresh prefix ret l ident key is_ i HL HI HB.
  assert (G : forall first x, all_some (objstatic_instances first is_ x) = None).
  { clear HL. induction is_ as [|j is_ IH]; intros first x; [destruct HI|]. cbn [objstatic_instances all_some]. destruct HI as [->|HI].
    - unfold objstatic_instance. destruct (in_blocks i) as [|b0 [|b1 bs]]; cbn [length] in HB; try lia. reflexivity.
    - rewrite (IH HI). now destruct (objstatic_instance first j x). }
  assert (K : forall l n seen def, In (BObjStatic ident key is_) l -> lower_bodies fresh n prefix seen def ret l = None).
  { clear l HL. induction l as [|b l IH]; intros n seen def H; [destruct H|]. cbn [lower_bodies]. cbv zeta. destruct H as [->|H].
    - unfold bodyobjstatic_block. rewrite G. reflexivity.
    - destruct b; rewrite ?(IH _ _ _ H); try reflexivity.
      + now destruct def.
      + now destruct (body_block fresh n l0 ret).
      + now destruct (bodyset_block i0 ret).
      + now destruct (bodyobjstatic_block key0 l0 (objval_name prefix ident0) ret).
      + now destruct (dynamic_block _ path i0).
      + now destruct (dynamic_block _ path i0). }
  unfold lower_function, start_block. destruct (existsb is_object l) eqn:O.
  - destruct l as [|b l']; [destruct HL|]. assert (HL' : match b with BData _ _ => In (BObjStatic ident key is_) l' | _ => True end).
    { destruct b; auto. destruct HL; [discriminate|auto]. }
    destruct b; destruct (forallb is_object _); try reflexivity; rewrite K; auto.
  - exfalso. assert (X : existsb is_object l = true); [|congruence]. apply existsb_exists. eexists. split; [exact HL|reflexivity].
Qed.
Example C63_object_bodies_example : let i bs := Inst (Ob (OBool true) []) bs in
  lower_function fresh0 $"bodyobj$" $"return$1" [BObjStatic $"a" (Ob (OString $"a") []) [i [[]; []]]] = None /\
  lower_function fresh0 $"bodyobj$" $"return$1" [BObjStatic $"a" (Ob (OString $"a") []) [i [[]]]] <> None.
Proof. cbn zeta. split; [reflexivity|vm_compute; discriminate]. Qed.

Print Assumptions C63_complete. Print Assumptions C63_set. Print Assumptions C63_object_partial. Print Assumptions C63_built.
Print Assumptions C63_calls_partial. Print Assumptions C63_conflict_refuted. Print Assumptions C63_object_bodies_refuted. Print Assumptions C63_entry.
Print Assumptions C63_query_partial. Print Assumptions C63_lifted.
