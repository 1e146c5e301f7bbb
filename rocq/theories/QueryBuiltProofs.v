(** Functions of queries in built bundles. *)
From Coq Require Import String ZArith NArith List Bool Lia.
From Verif Require Import Base SMap BigIntSpec ValueModel ValueSpec ResolverModel VmModel VmSpec VmProofs VmSimProofs VmStmtProofs
  PlanModel PlanSpec PlanProofs PlanBuildProofs PlanTheorems RuleModel RuleSpec RuleVmProofs RuleVisitProofs RuleProofs RuleBuiltProofs
  RuleEntryProofs RuleQueryProofs RuleTheorems QueryModel QuerySpec QueryProofs QueryFnProofs.
From Verif Require KeyProofs BinLoadProofs.
Import ListNotations.
Local Open Scope Z_scope.

(** ** What code contains after code is appended *)
Section Contain.
Context {L S' A : Type}.
Variable g : ir L S' -> list A.
Hypothesis GS : forall x k v b, exists l, forall z, In z (g (IScan x k v b)) <-> In z l \/ In z (flat_map g b).
Hypothesis GSl : forall x k v b b' z, In z (g (IScan x k v b)) -> In z (flat_map g b) \/ In z (g (IScan x k v b')).
Hypothesis GW : forall x k v b, exists l, forall z, In z (g (IWith x k v b)) <-> In z l \/ In z (flat_map g b).
Hypothesis GWl : forall x k v b b' z, In z (g (IWith x k v b)) -> In z (flat_map g b) \/ In z (g (IWith x k v b')).
Lemma contain_list (b k : list (ir L S')) z :
  Forall (fun st => In z (flat_map g (inner st)) \/ In z (flat_map g k) -> In z (flat_map g (append_inner (inner st) k))) b ->
  In z (flat_map g b) \/ In z (flat_map g k) -> In z (flat_map g (append_inner b k)).
Proof.
  induction 1 as [|st b H HF IH]; intro G; [destruct G as [[]|G]; exact G|]. destruct b as [|st' b].
  - clear IH HF. assert (D : match st with IScan _ _ _ _ | IWith _ _ _ _ => True | _ => False end \/ append_inner [st] k = st :: k)
      by (destruct st; auto).
    destruct D as [D|D].
    + destruct st; try contradiction; cbn [inner] in H.
      * match goal with |- context [append_inner [IScan ?x ?u ?v ?b] k] => change (append_inner [IScan x u v b] k) with [IScan x u v (append_inner b k)];
          destruct (GS x u v (append_inner b k)) as (l & HL); pose proof (GSl x u v b (append_inner b k) z) as HM end.
        cbn [flat_map] in *. rewrite app_nil_r in *. rewrite HL in *. tauto.
      * match goal with |- context [append_inner [IWith ?x ?u ?v ?b] k] => change (append_inner [IWith x u v b] k) with [IWith x u v (append_inner b k)];
          destruct (GW x u v (append_inner b k)) as (l & HL); pose proof (GWl x u v b (append_inner b k) z) as HM end.
        cbn [flat_map] in *. rewrite app_nil_r in *. rewrite HL in *. tauto.
    + rewrite D. cbn [flat_map] in *. rewrite app_nil_r in G. rewrite in_app_iff. tauto.
  - rewrite append_cons_any by discriminate. remember (st' :: b) as b0. cbn [flat_map] in G |- *. rewrite in_app_iff in *. tauto.
Qed.
Lemma contain (b k : list (ir L S')) z : In z (flat_map g b) \/ In z (flat_map g k) -> In z (flat_map g (append_inner b k)).
Proof. apply contain_list, Forall_forall. intros st _. induction st as [st IH] using ir_ind'. apply contain_list. exact IH. Qed.
End Contain.
Lemma locals_contain (b k : list nir) z : In z (flat_map locals_in b) \/ In z (flat_map locals_in k) -> In z (flat_map locals_in (append_inner b k)).
Proof.
  apply contain.
  - intros x u v c. exists [x; u; v]. intro y. cbn [locals_in]. rewrite in_app_iff. cbn. tauto.
  - intros x u v c c' y. cbn [locals_in]. rewrite !in_app_iff. cbn. tauto.
  - intros x u v c. exists (x :: op_local v). intro y. cbn [locals_in]. cbn. rewrite ?in_app_iff. cbn. tauto.
  - intros x u v c c' y. cbn [locals_in]. cbn. rewrite ?in_app_iff. cbn. tauto.
Qed.
Lemma strings_contain (b k : list nir) z : In z (flat_map strings_in b) \/ In z (flat_map strings_in k) -> In z (flat_map strings_in (append_inner b k)).
Proof.
  apply contain.
  - intros x u v c. exists []. intro y. cbn [strings_in In]. tauto.
  - intros x u v c c' y. cbn [strings_in]. tauto.
  - intros x u v c. exists (u ++ op_string v). intro y. cbn [strings_in]. rewrite !in_app_iff. tauto.
  - intros x u v c c' y. cbn [strings_in]. rewrite !in_app_iff. tauto.
Qed.

(** ** The names in the code of a query *)
Section Names.
Variable N : qnames.
Lemma exprs_names es : forall k i, (i < length es)%nat -> forall x, In x [q_expr N (k + i); q_loc N (k + i); q_row N (k + i); q_col N (k + i)] ->
  In x (flat_map locals_in (exprs_code N k es)).
Proof.
  induction es as [|[p o] es IH]; intros k i Hi x I; [cbn in Hi; lia|]. cbn [exprs_code]. rewrite flat_map_app, in_app_iff. destruct i as [|i].
  - left. rewrite Nat.add_0_r in I. cbn in I |- *. rewrite ?in_app_iff. cbn. rewrite ?in_app_iff. cbn. intuition auto.
  - right. apply (IH (S k) i); [cbn in Hi; lia|]. now rewrite Nat.add_succ_r in I.
Qed.
Lemma exprs_used es : forall k x, In x (flat_map (fun e : expression => op_local (snd e)) es) -> In x (flat_map locals_in (exprs_code N k es)).
Proof.
  induction es as [|[p o] es IH]; intros k x I; [destruct I|]. cbn [exprs_code]. rewrite flat_map_app, in_app_iff. cbn [flat_map] in I.
  apply in_app_iff in I as [I|I]; [left|right; now apply IH]. cbn [snd] in I. cbn. rewrite !in_app_iff. auto.
Qed.
Lemma binds_used xs x : In x xs -> In x (flat_map locals_in (flat_map (binding_code N) xs)).
Proof. intro I. apply in_flat_map. exists (IIsDefined x). split; [|now left]. apply in_flat_map. exists x. split; [exact I|now left]. Qed.
Lemma row_names es xs x : In x (q_result N :: made N (length es) ++ used es xs) -> In x (flat_map locals_in (row_code N es xs)).
Proof.
  intro I. unfold row_code. cbn [flat_map]. rewrite !in_app_iff, flat_map_app, in_app_iff. cbn [flat_map]. rewrite in_app_iff, flat_map_app, in_app_iff.
  destruct I as [<-|I]; [right; right; right; right; cbn; auto 10|]. apply in_app_iff in I as [I|I].
  - unfold made in I. destruct I as [<-|[<-|[<-|I]]]; [left; now left|right; right; left; now left|right; right; right; right; cbn; auto 10|].
    apply in_flat_map in I as (i & I1 & I2). apply in_seq in I1. right. left. apply (exprs_names es 0 i); [lia|exact I2].
  - unfold used in I. apply in_app_iff in I as [I|I]; [right; left; now apply exprs_used|right; right; right; left; now apply binds_used].
Qed.
End Names.

Section Built.
Variable p : prog.
Hypothesis C : compiled p.
Hypothesis M : moderate p.
Variable b : bundle.
Hypothesis B : build p = Ok b.
Notation rho := (nl (final_table p)).
Notation sigma := (ns (final_table p)).

Lemma nodup_map {A A2} (h : A -> A2) l : (forall x y, In x l -> In y l -> h x = h y -> x = y) -> NoDup l -> NoDup (map h l).
Proof.
  intros HI HD. induction HD as [|x l NI _ IH]; cbn [map]; constructor.
  - intro I. apply in_map_iff in I as (y & E & I). apply NI. rewrite (HI x y); auto; [now left|now right].
  - apply IH. intros y z Iy Iz. apply HI; now right.
Qed.

Lemma built_query E i f g N q more locals : e_bundle E = b -> query_of p i f N q more locals -> nth_error (b_functions b) i = Some g ->
  compiled_query E (n_name f) (frame_size p) (rho (Some i)) sigma N (n_result f) q more locals (f_blocks g) /\
  zn (f_result g) = rho (Some i) (n_result f).
Proof.
  intros HE [QF QC QS QR QT QN QM QA QL] Hg. destruct (says_built p C M b B) as [[_ _ SF] [NI ND NO NS]].
  set (es := expressions more q) in *. set (xs := shown locals) in *.
  destruct (forall2_nth _ _ _ SF _ _ _ (numbered_nth p _ _ QF) Hg) as (_ & _ & _ & _ & HR & HB). cbn [fst snd] in HR, HB.
  assert (FB : fn_body f = concat (query_function N (n_result f) q more locals)) by (unfold fn_body; now rewrite QC).
  assert (SUB : forall h : nir -> list str, (forall bs, h (IBlock bs) = flat_map (flat_map h) bs) ->
    (forall b k z, In z (flat_map h b) \/ In z (flat_map h k) -> In z (flat_map h (append_inner b k))) ->
    forall z, In z (flat_map h (conditions q)) \/ In z (flat_map h (record_code N (n_result f) es xs)) -> In z (flat_map h (fn_body f))).
  { intros h HBl HA z I. rewrite FB. unfold query_function, query_blocks. fold es xs. rewrite query_block_eq. cbn [concat app flat_map].
    rewrite in_app_iff. right. rewrite in_app_iff. left. rewrite HBl. cbn [flat_map]. rewrite app_nil_r, in_app_iff. right. now apply HA. }
  assert (HLoc : forall x, In x (n_result f :: q_result N :: made N (length es) ++ used es xs) -> In x (flat_map locals_in (fn_body f) ++ [n_result f])).
  { intros x [<-|I]; apply in_or_app; [right; now left|left]. apply SUB; [reflexivity|apply locals_contain|]. right. unfold record_code.
    rewrite flat_map_app, in_app_iff. left. now apply row_names. }
  assert (HNm : forall x, In x (n_result f :: q_result N :: made N (length es) ++ used es xs) -> In (Some i, x) (names p)).
  { intros x I. eapply named; [exact QF|]. apply in_or_app. right. now apply HLoc. }
  assert (HRs : forall x, In x (n_result f :: q_result N :: made N (length es)) -> ~ reserved x).
  { intros x [<-|[<-|I]]; [apply QT|apply QR|now apply QM]. }
  assert (HInc : forall x, In x (n_result f :: q_result N :: made N (length es)) -> In x (n_result f :: q_result N :: made N (length es) ++ used es xs)).
  { intros x [<-|[<-|I]]; [now left|right; now left|right; right; apply in_or_app; now left]. }
  assert (HSub : incl (flat_map subjects (conditions q)) (flat_map locals_in (fn_body f))).
  { intros x I. apply SUB; [reflexivity|apply locals_contain|]. left. apply in_flat_map in I as (st & I1 & I2). apply in_flat_map. exists st.
    split; [exact I1|now apply subjects_locals]. }
  assert (HSame : forall x y, In x (n_result f :: q_result N :: made N (length es) ++ used es xs) ->
    In y (n_result f :: q_result N :: made N (length es)) -> rho (Some i) x = rho (Some i) y -> x = y).
  { intros x y Ix Iy Q. destruct (reserved_dec x) as [R|R].
    - pose proof (nl_reserved p (Some i) x R). pose proof (NO _ (HNm _ (HInc _ Iy)) (HRs _ Iy)). cbn [fst snd] in *. lia.
    - apply (NS _ _ (HNm _ Ix) (HNm _ (HInc _ Iy)) R (HRs _ Iy)) in Q as [Q _]. exact Q. }
  split; [|exact HR]. constructor; fold es xs.
  - rewrite <- QC. exact HB.
  - rewrite <- FB. unfold in_frame, img. rewrite locals_maps.
    apply Forall_forall. intros z I. apply in_map_iff in I as (y & <- & Iy). unfold frame_size. apply (nl_range p (Some i, y)).
    eapply named; [exact QF|]. apply in_or_app. right. apply in_or_app. now left.
  - destruct M as [M1 _]. unfold frame_size. assert (2 ^ 32 <= 2 ^ 64) by (apply Z.pow_le_mono_r; lia). lia.
  - intros s I. rewrite HE. destruct (interned_ok p) as (_ & _ & HI).
    assert (HS : In s (strings p)).
    { assert (I2 : In s (flat_map strings_in (fn_body f))).
      { apply SUB; [reflexivity|apply strings_contain|]. right. unfold record_code. rewrite flat_map_app, in_app_iff. now left. }
      unfold strings, body. rewrite flat_map_app. apply in_or_app. right. apply in_flat_map in I2 as (st & I3 & I4). apply in_flat_map.
      exists st. split; [|exact I4]. apply in_flat_map. exists f. split; [eapply nth_error_In; eauto|exact I3]. }
    assert (Q : b = bundle_of p).
    { destruct M as [M1 M2]. assert (H : build p = Ok (bundle_of p)) by (apply build_ok; auto; apply C). rewrite B in H. now injection H. }
    specialize (HI _ HS). rewrite Q. change (b_strings (bundle_of p)) with (t_strings (final_table p)).
    rewrite Z.mod_small; [exact HI|]. destruct (ns_index p _ HS) as [[R1 R2] _]. split; [exact R1|].
    destruct M as [_ M2]. assert (2 ^ 32 <= 2 ^ 64) by (apply Z.pow_le_mono_r; lia). lia.
  - exact QS.
  - eapply own_owns; eauto. apply HLoc. right. now left.
  - eapply own_owns; eauto. apply HLoc. now left.
  - apply nodup_map; [|exact QN]. intros x y Ix Iy. apply HSame; auto.
  - intros x Ix I. apply in_map_iff in I as (y & Q & Iy). apply (QA x Ix). rewrite (HSame x y); auto.
    right. right. apply in_or_app. now right.
  - exact QL.
Qed.

Lemma built_queries E i f N q more locals : e_bundle E = b -> query_of p i f N q more locals -> exists g,
  sm_find (n_name f) (b_name_to_func b) = Some (N.of_nat i) /\ znth (b_functions b) (Z.of_nat i) = Some g /\
  compiled_query E (n_name f) (frame_size p) (rho (Some i)) sigma N (n_result f) q more locals (f_blocks g) /\
  zn (f_result g) = rho (Some i) (n_result f).
Proof.
  intros HE HR. destruct (says_built p C M b B) as [SP NU].
  assert (HL : exists g, nth_error (b_functions b) i = Some g).
  { destruct SP as [_ _ SF]. pose proof (numbered_nth p _ _ (qo_fn _ _ _ _ _ _ _ HR)) as HN. clear - SF HN.
    remember (i, f) as z eqn:X. clear X. revert i HN.
    induction SF as [|x y l l2 _ _ IH]; intros i HN; [destruct i; discriminate|]. destruct i; cbn in *; eauto. }
  destruct HL as (g & Hg). exists g. split; [|split].
  - apply (proj1 (C58_names p b C M B)). exists f. rewrite Nnat.Nat2N.id. split; [apply HR|reflexivity].
  - replace (Z.of_nat i) with (zn (N.of_nat i)) by lia. apply (znth_nth p (b_functions b) (N.of_nat i)). now rewrite Nnat.Nat2N.id.
  - eapply built_query; eauto.
Qed.
End Built.

(** ** The rows a user sees *)
Lemma lookdown_key F k v l q : lookdown F ((VString k, v) :: l) (quote q) = (if str_eqb k q then [v] else []) ++ lookdown F l (quote q).
Proof.
  unfold lookdown. cbn [filter fst to_key]. destruct (str_eqb (quote k) (quote q)) eqn:E.
  - apply str_eqb_eq, KeyProofs.quote_inj in E. subst. rewrite str_eqb_refl. reflexivity.
  - destruct (str_eqb k q) eqn:E2; [|reflexivity]. apply str_eqb_eq in E2. subst. now rewrite str_eqb_refl in E.
Qed.
Lemma expr_values_all E rho sigma t es : expr_values E (map (expr_object E rho sigma t) es) =
  Some (map (fun e => to_term (value_at E t (iop rho sigma (snd e)))) es).
Proof.
  induction es as [|e es IH]; [reflexivity|]. cbn [map expr_values expr_object]. rewrite IH.
  change ($"""value""") with (quote $"value"). rewrite !lookdown_key.
  replace (str_eqb $"value" $"value") with true by reflexivity. replace (str_eqb $"text" $"value") with false by reflexivity.
  replace (str_eqb $"location" $"value") with false by reflexivity. reflexivity.
Qed.
Lemma row_seen E rho sigma t es bs : query_row E (Some (result_object (row_object E rho sigma t es bs))) =
  match es with
  | [] => RSkip
  | _ => RRow {| r_terms := map (fun e => to_term (value_at E t (iop rho sigma (snd e)))) es; r_bindings := bs |}
  end.
Proof.
  unfold query_row, result_object, row_object. change ($"""bindings""") with (quote $"bindings"). change ($"""expressions""") with (quote $"expressions").
  rewrite !lookdown_key. replace (str_eqb $"bindings" $"bindings") with true by reflexivity. replace (str_eqb $"expressions" $"bindings") with false by reflexivity.
  replace (str_eqb $"bindings" $"expressions") with false by reflexivity. replace (str_eqb $"expressions" $"expressions") with true by reflexivity.
  cbn [app]. pose proof (expr_values_all E rho sigma t es) as HV. destruct es as [|e es]; [reflexivity|]. cbn [map] in *. rewrite HV.
  rewrite map_map. cbn [fst snd to_key]. do 2 f_equal. induction bs as [|[x v] bs IH]; [reflexivity|]. cbn [map fst snd]. now rewrite BinLoadProofs.strip_quote, IH.
Qed.
Lemma collect_rows E rho sigma es xs ts : forall acc,
  VmModel.collect (query_row E) (map (fun u => Some (result_object u)) (rows E rho sigma es xs ts)) acc =
  Ok (QResults (acc ++ match es with [] => [] | _ => results E rho sigma es xs ts end)).
Proof.
  unfold rows, results. induction ts as [|t ts IH]; intro acc.
  - cbn [flat_map map VmModel.collect]. destruct es; now rewrite app_nil_r.
  - cbn [flat_map]. destruct (bindings_at E rho t xs) as [bs|]; [|exact (IH acc)]. cbn [app map VmModel.collect]. rewrite row_seen. destruct es as [|e es].
    + apply IH.
    + rewrite IH, <- app_assoc. reflexivity.
Qed.
Lemma rows_results E rho sigma es xs ts : rows E rho sigma es xs ts = [] <-> results E rho sigma es xs ts = [].
Proof.
  unfold rows, results. induction ts as [|t ts IH]; [tauto|]. cbn [flat_map]. destruct (bindings_at E rho t xs); [split; discriminate|exact IH].
Qed.

(** The answer of the plan of a query, from the value of its code. *)
Lemma plan_answer E n rho sigma name obj index val x e input r i y :
  b_query_plan (e_bundle E) = Some i -> znth (b_plans (e_bundle E)) (zn i) = Some y ->
  compiled_entry E n rho sigma name obj index val x e (p_blocks y) -> run_query E input = Ok r ->
  r = QError \/ (exists es, es <> [] /\ r = QErrors es) \/
  exists bl c s1 v vs, opt_list says bl = Some (img rho sigma (ob_code e)) /\
    run_block E (block_fuel E) bl (initial E input) = Done c s1 /\ s_errors s1 = [] /\
    match c with CContinue => local s1 (rho x) = Some v | _ => v = None end /\ gives name v vs /\
    match vs with [] => r = QUndefined | _ => VmModel.collect (query_row E) (map (fun u => Some (result_object u)) vs) [] = Ok r end.
Proof.
  intros Hi Hy CE H. unfold run_query in H. rewrite Hi, Hy in H. unfold output_of in H.
  destruct (run E (block_fuel E) y input) as [u s'|s'|f s'|s'] eqn:Er; try discriminate; [|injection H as <-; now left].
  right. destruct (s_errors s') as [|e1 es] eqn:Ee; [|injection H as <-; left; exists (e1 :: es); split; [discriminate|reflexivity]]. right.
  apply run_initial in Er. destruct u.
  destruct (plan_run _ _ _ _ _ _ _ _ _ _ _ _ _ _ CE Er Ee) as (bl & c & s1 & v & vs & A1 & A2 & A3 & A4 & A5 & A6).
  exists bl, c, s1, v, vs. repeat (split; [assumption|]). cbn [s_results initial set_frame init_state app] in A6. rewrite A6 in H.
  destruct vs as [|v1 vs]; [cbn [map] in H; injection H as <-; reflexivity|exact H].
Qed.

Section Ask.
Variable p : prog.
Hypothesis C : compiled p.
Hypothesis M : moderate p.
Variable b : bundle.
Hypothesis B : build p = Ok b.
Notation rho := (nl (final_table p)).
Notation sigma := (ns (final_table p)).

Lemma calls_query E i f g N q more locals m args target s c s' : e_bundle E = b -> query_of p i f N q more locals ->
  znth (b_functions b) (Z.of_nat i) = Some g -> calls E m (n_name f) g args target s c s' -> ~ failed E m (n_name f) g args s c ->
  let es := expressions more q in let xs := shown locals in
  exists s0 s1 ts s2, entered E (n_name f) g args s s0 /\ quiet (map (rho (Some i)) [n_result f; q_result N]) s0 s1 /\
    local s1 (rho (Some i) (q_result N)) = Some (Some (VArray [])) /\
    reached E (rho (Some i)) sigma (conditions q) (record_code N (n_result f) es xs) s1 ts s2 /\
    match rows E (rho (Some i)) sigma es xs ts with
    | [] => c = CUndefined
    | l => c = CContinue /\ local s' target = Some (Some (VArray l))
    end.
Proof.
  intros HE HQ Hg [HC1 HC2 HC3 HC4 HC5] HF es xs.
  destruct (built_queries p C M b B E i f N q more locals HE HQ) as (g' & HN & Hg' & CQ & HRes). rewrite Hg in Hg'. injection Hg' as <-. rewrite <- HE in HN, Hg.
  replace (Z.of_nat i) with (zn (N.of_nat i)) in Hg by lia.
  destruct (call_run E m _ _ _ _ _ _ _ _ HC1 HC2 HN Hg HC3 HC4 HC5) as (s0 & s1 & c1 & EN & RB & CO & NB & RES).
  assert (R : ran E (n_name f) m (f_blocks g) s0 c1 s1).
  { split; [|split; [exact RB|split; [|split; [exact NB|exact CO]]]].
    - destruct EN as (t & _ & ->). now left.
    - intros ->. apply HF. split; [exact RES|eauto]. }
  destruct (query_run _ _ _ _ _ _ _ _ _ _ _ _ _ _ _ CQ R) as (t0 & ts & t1 & Q & L0 & RE & LV & ->).
  exists s0, t0, ts, t1. split; [exact EN|]. split; [exact Q|]. split; [exact L0|]. split; [exact RE|]. fold es xs in LV, RES |- *.
  destruct (rows E (rho (Some i)) sigma es xs ts) as [|r l]; [exact RES|].
  destruct RES as (-> & w & L1 & L2). rewrite HRes, LV in L1. injection L1 as <-. auto.
Qed.

Lemma query_plan_found E pl i y : e_bundle E = b -> In pl (g_plans p) -> l_name pl = g_query p ->
  sm_find (l_name pl) (b_name_to_plan b) = Some i -> znth (b_plans b) (zn i) = Some y -> b_query_plan b = Some i.
Proof.
  intros HE HI HQ HF _. destruct (C58_names p b C M B) as (_ & N2 & N3 & N4).
  destruct (b_query_plan b) as [j|] eqn:EQ.
  - destruct (N3 j eq_refl) as (z & Z1 & Z2). assert (HJ : sm_find (l_name pl) (b_name_to_plan b) = Some j).
    { apply N2. exists z. split; [exact Z1|congruence]. }
    congruence.
  - exfalso. apply (proj1 N4 eq_refl). rewrite <- HQ. now apply in_map.
Qed.

Lemma query_answered E pl obj index val x e args i f N q more locals input r : e_bundle E = b -> sound_env E ->
  existsb breaks (flat_map fn_body (g_fns p)) = false -> e_builtin E (n_name f) = None ->
  entry_of p pl obj index val x e -> ob_code e = [ICall (n_name f) args x] -> l_name pl = g_query p -> for_query (g_query p) ->
  query_of p i f N q more locals -> length (n_params f) = 2%nat -> run_query E input = Ok r ->
  r = QError \/ (exists es, es <> [] /\ r = QErrors es) \/
  exists s0 s1 ts s2, asked_for E (n_name f) input s0 /\ quiet (map (rho (Some i)) [n_result f; q_result N]) s0 s1 /\
    local s1 (rho (Some i) (q_result N)) = Some (Some (VArray [])) /\
    reached E (rho (Some i)) sigma (conditions q) (record_code N (n_result f) (expressions more q) (shown locals)) s1 ts s2 /\
    r = query_answer (expressions more q) (results E (rho (Some i)) sigma (expressions more q) (shown locals) ts).
Proof.
  intros HE SE NB HBi HO HEC HPN FQ HQ H2 H. set (es := expressions more q). set (xs := shown locals).
  destruct (built_entry p C M b B E _ _ _ _ _ _ HE HO) as (ip & y & P1 & P2 & CE).
  pose proof (query_plan_found E pl ip y HE (eo_plan _ _ _ _ _ _ _ HO) HPN P1 P2) as P3. rewrite <- HE in P2, P3.
  destruct (plan_answer E _ _ _ _ _ _ _ _ _ _ _ _ _ P3 P2 CE H) as [->|[Q|(bl & c & t & v & vs & A1 & A2 & A3 & A4 & A5 & A6)]]; [now left|now right; left|].
  right. right. rewrite HEC in A1. cbn [img map map_ir] in A1.
  destruct (built_queries p C M b B E i f N q more locals HE HQ) as (g & HN & Hg & _).
  assert (UB : unbroken E).
  { intros j g' Hg'. eapply (built_flag p C M b B (@breaks)); eauto. intros. apply breaks_img. }
  assert (HN' := HN). assert (Hg' := Hg). rewrite <- HE in HN', Hg'. replace (Z.of_nat i) with (zn (N.of_nat i)) in Hg' by lia.
  destruct (call_block E (block_fuel E) 0 _ _ _ _ _ _ _ _ _ SE UB (initial_inv E input) ltac:(destruct SE; unfold block_fuel; lia) A1 A2 A3 HBi HN' Hg' eq_refl)
    as (st & ops & k & t1 & _ & _ & _ & -> & CA & NF).
  destruct (calls_query E i f g N q more locals k ops _ _ _ _ HE HQ Hg CA NF) as (s0 & s1 & ts & s2 & EN & Q1 & L1 & RE & RES).
  fold es xs in RE, RES. exists s0, s1, ts, s2. split.
  { destruct EN as (u & EW & ->).
    assert (HP : length (f_params g) = 2%nat).
    { destruct (says_built p C M b B) as [[_ _ SF] _]. unfold znth in Hg. destruct (_ && _); [|discriminate]. rewrite Nat2Z.id in Hg.
      destruct (forall2_nth _ _ _ SF _ _ _ (numbered_nth p _ _ (qo_fn _ _ _ _ _ _ _ HQ)) Hg) as (_ & HM & _). cbn [fst snd] in HM.
      apply (f_equal (@length Z)) in HM. rewrite !map_length in HM. congruence. }
    destruct (f_params g) as [|q1 [|q2 [|q3 qs]]]; try discriminate HP. cbn [skipn write_params] in EW. injection EW as <-.
    repeat split. }
  split; [exact Q1|]. split; [exact L1|]. split; [exact RE|].
  destruct A5 as [_ A5]. rewrite HPN in A5. specialize (A5 FQ).
  pose proof (rows_results E (rho (Some i)) sigma es xs ts) as RR. pose proof (collect_rows E (rho (Some i)) sigma es xs ts []) as CR.
  destruct (rows E (rho (Some i)) sigma es xs ts) as [|row l] eqn:ER.
  - subst c. subst v. subst vs. rewrite (proj1 RR eq_refl). exact A6.
  - destruct RES as [-> L2]. change (local (add_depth (-1) t1) (rho None x)) with (local t1 (rho None x)) in A4.
    rewrite L2 in A4. injection A4 as <-. cbn [elements] in A5.
    assert (VE : vs = row :: l).
    { rewrite A5. clear. generalize (row :: l) as l0. intro l0. generalize 0%nat as k. induction l0 as [|z l0 IH]; intro k; [reflexivity|]. cbn [length seq map combine snd]. now rewrite IH. }
    rewrite VE in A6. rewrite CR in A6. injection A6 as <-. unfold query_answer.
    destruct (results E (rho (Some i)) sigma es xs ts) as [|r0 l0] eqn:EQ; [destruct RR as [_ RR]; discriminate (RR eq_refl)|]. destruct es; reflexivity.
Qed.
End Ask.
