(** Entry points of built bundles. *)
From Coq Require Import String ZArith NArith List Bool Lia.
From Verif Require Import Base SMap ValueModel ResolverModel VmModel VmSpec VmProofs VmSimProofs VmStmtProofs PlanModel PlanSpec PlanProofs PlanBuildProofs
  PlanTheorems RuleModel RuleSpec RuleVmProofs RuleVisitProofs RuleProofs RuleBuiltProofs RuleEntryProofs.
Import ListNotations.
Local Open Scope Z_scope.

(** ** Code without Break *)
Section Unbroken.
Variable E : env.
Hypothesis UB : unbroken E.
Definition whole (b : block) : Prop := exists l, opt_list says b = Some l /\ existsb breaks l = false.
Definition U (m : vm code) : Prop := forall s s', m s <> Done CBreak s'.
Lemma U_bind {A} (m : vm A) (k : A -> vm code) : (forall a, U (k a)) -> U (bind m k).
Proof. intros H s s' G. unfold bind in G. destruct (m s); try discriminate. eapply H; eauto. Qed.
Lemma U_ret c : c <> CBreak -> U (ret c).
Proof. intros H s s' G. injection G. auto. Qed.
Lemma U_exn : U exn. Proof. intros s s' G. discriminate. Qed.
Lemma U_fault f : U (fault_ f). Proof. intros s s' G. discriminate. Qed.
Lemma U_bind2 (m : vm code) (k : code -> vm code) : U m -> (forall a, a <> CBreak -> U (k a)) -> U (bind m k).
Proof.
  intros H1 H2 s s' G. unfold bind in G. destruct (m s) eqn:Em; try discriminate. eapply (H2 a); eauto.
  intros ->. eapply H1; eauto.
Qed.
Lemma U_bind_nth {A} (l : list A) i (k : A -> vm code) : (forall a, znth l i = Some a -> U (k a)) -> U (bind (vnth l i) k).
Proof.
  intros H s s' Q. unfold bind, vnth in Q. destruct (znth l i) as [y|] eqn:Ey; [|discriminate]. exact (H y eq_refl _ _ Q).
Qed.

Variable m : nat.
Notation rb := (run_block E m).
Hypothesis Hrb : forall b, whole b -> U (rb b).
Lemma U_block_stmt l : Forall whole l -> U (block_stmt rb l).
Proof.
  induction 1; simpl; [apply U_ret; discriminate|]. apply U_bind2; [auto|intros c Hc].
  destruct c; auto using U_exn; apply U_ret; congruence.
Qed.
Lemma U_run_blocks l : Forall whole l -> forall c, c <> CBreak -> U (run_blocks rb l c).
Proof.
  induction 1; simpl; intros c0 Hc0; [now apply U_ret|]. apply U_bind2; [auto|intros c Hc].
  destruct c; auto using U_exn; try (apply U_ret; congruence).
Qed.
Lemma U_scan_loop l k v body : whole body -> U (scan_loop rb l k v body).
Proof.
  intros Hb. induction l as [|[a b] l]; simpl; [apply U_ret; discriminate|]. apply U_bind; intro. apply U_bind; intro.
  apply U_bind2; [auto|intros c Hc]. destruct c; auto; apply U_ret; congruence.
Qed.
Lemma whole_blocks ls bs : opt_list (opt_list says) bs = Some ls -> existsb (existsb breaks) ls = false -> Forall whole bs.
Proof.
  revert ls. induction bs as [|b bs IH]; intros ls H HN; [constructor|].
  apply opt_cons in H as (l & ls' & H1 & H2 & ->). cbn [existsb] in HN. apply orb_false_iff in HN as [N1 N2].
  constructor; [exists l; auto|eauto].
Qed.
Lemma U_call g args target : U (run_call E rb g args target).
Proof.
  unfold run_call. apply U_bind; intro st. destruct (existsb _ _); [apply U_exn|]. destruct (e_builtin E g).
  { repeat (apply U_bind; intro). destruct a1 as [[]|]; try (apply U_ret; discriminate). apply U_bind; intro. apply U_ret; discriminate. }
  destruct (sm_find _ _); [|apply U_exn]. apply U_bind_nth. intros fu Ef. destruct (UB _ _ Ef) as (ls & HL & HA).
  assert (HM : Forall whole (f_blocks fu)) by (eapply whole_blocks; eauto).
  apply U_bind; intro. apply U_bind; intro.
  destruct (if 0 <? _ then _ else _) as [cc|]; [apply U_bind; intro; apply U_ret; destruct cc as [[]|]; discriminate|].
  destruct (_ <? _); [apply U_bind; intro; apply U_ret; discriminate|]. apply U_bind; intro.
  destruct (_ <=? _); [apply U_bind; intro; apply U_ret; discriminate|]. apply U_bind; intro.
  destruct (f_blocks fu) as [|b0 bs0]; [apply U_fault|]. apply U_bind2; [apply U_run_blocks; [exact HM|discriminate]|intros c Hc]. apply U_bind; intro.
  destruct c; try congruence; try (apply U_ret; discriminate). apply U_bind; intro v. apply U_bind; intro. apply U_bind; intro.
  destruct v as [[]|]; try (apply U_ret; discriminate). apply U_bind; intro. apply U_ret; discriminate.
Qed.
Lemma U_dispatch st : whole [st] -> U (dispatch E rb st).
Proof.
  intros (l & Hl & HS). apply opt_cons in Hl as (i & l' & Hs & Hn & ->). injection Hn as <-.
  cbn [existsb] in HS. rewrite orb_false_r in HS.
  destruct st as [ty op0 op1 target e]. unfold dispatch.
  destruct ty; cbn [says] in Hs; destruct e as [ex|]; try discriminate Hs.
  all: try (destruct ex; try discriminate Hs).
  all: unfold with1, with2, option_map in Hs;
    repeat match type of Hs with context [match ?y with _ => _ end] => destruct y eqn:?; try discriminate Hs end;
    injection Hs as <-; cbn [breaks] in HS; try discriminate HS.
  all: repeat match goal with
    | |- U (bind (ext_block (Some (ExtBlock ?b))) ?k) => change (U (k b)); cbv beta
    | |- U (bind (rb _) _) => fail 1
    | |- U (run_call _ _ _ _ _) => apply U_call
    | |- U (bind _ _) => apply U_bind; intro
    | |- U (ret _) => apply U_ret; solve [repeat match goal with |- context [match ?y with _ => _ end] => destruct y end; discriminate]
    | |- U exn => apply U_exn
    | |- U (fault_ _) => apply U_fault
    | |- U (match ?y with _ => _ end) => destruct y
    end.
  - apply U_block_stmt. eapply whole_blocks; eauto.
  - unfold run_dynamic. apply U_bind; intro found. destruct found as [[g rest]|]; [|apply U_ret; discriminate].
    apply U_bind2; [apply U_call|intros c Hc]. destruct rest; [now apply U_ret|].
    destruct c; try (apply U_ret; congruence). apply U_bind; intro v. apply U_bind; intro r.
    destruct r; [apply U_bind; intro|]; apply U_ret; discriminate.
  - apply U_bind2; [apply Hrb; exists l; auto|intros c Hc]. apply U_ret. destruct c; congruence.
  - unfold run_scan. apply U_bind; intro src.
    assert (G : forall l, U (scan_pairs rb l op0 op1 (Some (ExtBlock b)))).
    { intros l0. unfold scan_pairs. destruct l0; [apply U_ret; discriminate|]. cbn [ext_block].
      intros s s' H. unfold bind at 1, ret at 1 in H. eapply (U_scan_loop (p :: l0) (o_index op0) (o_index op1) b); eauto.
      exists l. auto. }
    destruct src as [[]|]; auto using U_exn; apply U_ret; discriminate.
  - unfold run_with. apply U_bind; intro. apply U_bind; intro v. apply U_bind; intro old.
    apply U_bind2; [apply Hrb; exists l; auto|intros c Hc]. apply U_bind; intro. apply U_bind; intro. now apply U_ret.
Qed.
Lemma whole_cons st b : whole (st :: b) -> whole [st] /\ whole b.
Proof.
  intros (l & H & HS). apply opt_cons in H as (i & l' & H1 & H2 & ->). cbn [existsb] in HS.
  apply orb_false_iff in HS as [S1 S2]. split; [exists [i]; cbn [opt_list existsb]; rewrite H1, S1; auto|exists l'; auto].
Qed.
Lemma U_stmt st : whole [st] -> U (run_stmt E rb st).
Proof.
  intro H. unfold run_stmt. apply U_bind; intro. apply U_bind; intro k. destruct (_ <=? _).
  - apply U_bind; intro. apply U_ret. discriminate.
  - apply U_bind; intro. now apply U_dispatch.
Qed.
Lemma U_stmts l : whole l -> forall c, c <> CBreak -> U (run_stmts E rb l c).
Proof.
  induction l as [|st l IH]; intros H c Hc; cbn [run_stmts]; [now apply U_ret|]. apply whole_cons in H as [H1 H2].
  apply U_bind2; [now apply U_stmt|intros c' Hc']. destruct c'; auto using U_exn; try (apply U_ret; congruence). congruence.
Qed.
End Unbroken.
Lemma U_block E : unbroken E -> forall m b, whole b -> U (run_block E m b).
Proof.
  intro UB. induction m as [|m IH]; intros b H; [intros s s' G; discriminate|]. cbn [run_block]. apply U_bind; intro d. destruct (_ <=? _).
  - apply U_bind; intro. apply U_ret. discriminate.
  - apply U_bind; intro. apply U_bind2; [apply U_stmts; auto; discriminate|intros c Hc]. apply U_bind; intro. now apply U_ret.
Qed.

(** ** Built bundles *)
Lemma exists_flat {A B} (f : B -> bool) (g : A -> list B) l : existsb f (flat_map g l) = existsb (fun x => existsb f (g x)) l.
Proof. induction l as [|a l IH]; [reflexivity|]. cbn [flat_map existsb]. now rewrite existsb_app, IH. Qed.
Lemma exists_concat {B} (f : B -> bool) l : existsb f (concat l) = existsb (existsb f) l.
Proof. induction l as [|a l IH]; [reflexivity|]. cbn [concat existsb]. now rewrite existsb_app, IH. Qed.
Lemma breaks_img rho sigma l : existsb breaks (img rho sigma l) = existsb breaks l.
Proof.
  assert (G : forall st : nir, breaks (map_ir rho sigma norm st) = breaks st).
  { induction st as [st IH] using ir_ind'.
    assert (HL : forall l : list nir, Forall (fun s => breaks (map_ir rho sigma norm s) = breaks s) l ->
      existsb breaks (map (map_ir rho sigma norm) l) = existsb breaks l).
    { clear. induction 1 as [|a l Ha _ IH]; [reflexivity|]. cbn [map existsb]. now rewrite Ha, IH. }
    destruct st; cbn [map_ir breaks inner] in *; auto.
    revert IH. induction blocks as [|b bs IHb]; intro IH; [reflexivity|]. cbn [concat] in IH. apply Forall_app in IH as [I1 I2].
    cbn [map existsb]. rewrite (HL b I1), (IHb I2). reflexivity. }
  unfold img. induction l as [|a l IH]; [reflexivity|]. cbn [map existsb]. now rewrite G, IH.
Qed.

Section Built.
Variable p : prog.
Hypothesis C : compiled p.
Hypothesis M : moderate p.
Variable b : bundle.
Hypothesis B : build p = Ok b.
Notation rho := (nl (final_table p)).
Notation sigma := (ns (final_table p)).

Lemma built_fn i g : znth (b_functions b) i = Some g -> exists j f, nth_error (g_fns p) j = Some f /\
  says_blocks (f_blocks g) = Some (map (img (rho (Some j)) sigma) (n_blocks f)).
Proof.
  intro Hg. unfold znth in Hg. destruct (_ && _); [|discriminate]. destruct (says_built p C M b B) as [[_ _ SF] _].
  assert (HF : exists f, nth_error (g_fns p) (Z.to_nat i) = Some f).
  { destruct (nth_error (g_fns p) (Z.to_nat i)) eqn:Q; [eauto|]. exfalso. apply nth_error_None in Q.
    assert (L : length (numbered_fns (g_fns p)) = length (b_functions b)) by (clear -SF; induction SF; cbn [length]; congruence).
    unfold numbered_fns in L. rewrite combine_length, seq_length, Nat.min_id in L.
    assert (X : nth_error (b_functions b) (Z.to_nat i) <> None) by congruence. apply nth_error_Some in X. lia. }
  destruct HF as (f & Hf). exists (Z.to_nat i), f. split; [exact Hf|].
  destruct (forall2_nth _ _ _ SF _ _ _ (numbered_nth p _ _ Hf) Hg) as (_ & _ & _ & _ & _ & HB). exact HB.
Qed.
Lemma built_flag (flag : forall L S', ir L S' -> bool) :
  (forall r q l, existsb (flag Z Z) (img r q l) = existsb (flag str str) l) ->
  existsb (flag str str) (flat_map fn_body (g_fns p)) = false -> forall E i g, e_bundle E = b -> znth (b_functions (e_bundle E)) i = Some g ->
  exists ls, says_blocks (f_blocks g) = Some ls /\ existsb (existsb (flag Z Z)) ls = false.
Proof.
  intros HI H E i g -> Hg. destruct (built_fn _ _ Hg) as (j & f & Hf & HB). eexists. split; [exact HB|].
  assert (Q : existsb (flag str str) (fn_body f) = false).
  { rewrite exists_flat in H. destruct (existsb (flag str str) (fn_body f)) eqn:X; [|reflexivity].
    rewrite <- H. symmetry. apply existsb_exists. exists f. split; [eapply nth_error_In; eauto|exact X]. }
  unfold fn_body in Q. rewrite exists_concat in Q. rewrite <- Q. clear - HI.
  induction (n_blocks f) as [|a l IH]; [reflexivity|]. cbn [map existsb]. now rewrite HI, IH.
Qed.

Lemma plan_named x y : In x (g_plans p) -> In y (flat_map locals_in (pl_body x)) -> In (None, y) (names p).
Proof.
  intros H I. unfold names. apply in_or_app. left. unfold plan_names. apply in_map. apply in_flat_map. eauto.
Qed.
Lemma built_entry E pl obj index val x e : e_bundle E = b -> entry_of p pl obj index val x e -> exists i y,
  sm_find (l_name pl) (b_name_to_plan b) = Some i /\ znth (b_plans b) (zn i) = Some y /\
  compiled_entry E (frame_size p) (rho None) sigma (l_name pl) obj index val x e (p_blocks y).
Proof.
  intros HE [EP EC EV [N1 [N2 N3]] [S1 S2]]. destruct (says_built p C M b B) as [[_ SP SF] [NI ND NO NS]].
  apply In_nth_error in EP as (j & Hj).
  assert (HY : exists y, nth_error (b_plans b) j = Some y).
  { destruct (nth_error (b_plans b) j) eqn:Q; [eauto|]. exfalso. apply nth_error_None in Q.
    assert (L : length (g_plans p) = length (b_plans b)) by (clear -SP; induction SP; cbn [length]; congruence).
    assert (X : nth_error (g_plans p) j <> None) by congruence. apply nth_error_Some in X. lia. }
  destruct HY as (y & Hy). exists (N.of_nat j), y.
  split; [|split].
  - apply (proj1 (proj2 (C58_names p b C M B))). exists pl. rewrite Nnat.Nat2N.id. auto.
  - apply (znth_nth p (b_plans b) (N.of_nat j)). now rewrite Nnat.Nat2N.id.
  - destruct (forall2_nth _ _ _ SP _ _ _ Hj Hy) as (_ & HB). pose proof (nth_error_In _ _ Hj) as EP.
    assert (IN : forall z, In z (flat_map locals_in (pl_body pl)) -> In (None, z) (names p)) by (intros; eapply plan_named; eauto).
    assert (HL : incl [x; obj] (flat_map locals_in (pl_body pl)) /\ (for_query (l_name pl) -> In val (flat_map locals_in (pl_body pl)))
                 /\ In $"result" (flat_map strings_in (pl_body pl))).
    { clear - EC EV. unfold entry_plan in EC. rewrite EV in EC. remember (StrModel.prefixb _ _) as q eqn:EQ.
      set (rs := $"result") in *. clearbody rs. injection EC as EC. unfold pl_body. rewrite <- EC. cbn [l_blocks concat]. rewrite !flat_map_app, app_nil_r.
      split; [|split].
      - intros z I. apply in_or_app. right. destruct I as [<-|[<-|[]]]; destruct q; cbn; auto 10.
      - intro FQ. apply in_or_app. right. assert (q = true) as -> by (rewrite EQ; now apply for_query_iff). cbn. auto 10.
      - apply in_or_app. right. destruct q; cbn; auto 10. }
    destruct HL as (HL1 & HL2 & HL3).
    assert (DIFF : forall z, In (None, z) (names p) -> z <> obj -> rho None z <> rho None obj).
    { intros z Iz NZ Q. assert (IO : In (None, obj) (names p)) by (apply IN, HL1; right; now left).
      destruct (reserved_dec z) as [R|R].
      - pose proof (nl_reserved p None z R). pose proof (NO _ IO N1). cbn [fst snd] in *. lia.
      - apply (NS _ _ Iz IO R N1) in Q as [Q _]. contradiction. }
    constructor.
    + exists pl. split; [exact EC|]. split; [exact HB|]. unfold in_frame, img. rewrite locals_maps.
      apply Forall_forall. intros z I. apply in_map_iff in I as (w & <- & Iw). unfold frame_size. apply (nl_range p (None, w)). apply IN. exact Iw.
    + destruct M as [M1 _]. unfold frame_size. assert (2 ^ 32 <= 2 ^ 64) by (apply Z.pow_le_mono_r; lia). lia.
    + rewrite HE. destruct (interned_ok p) as (_ & _ & HI). 
      assert (HS : In $"result" (strings p)).
      { unfold strings, body. rewrite flat_map_app. apply in_or_app. left. apply in_flat_map in HL3 as (st & I1 & I2). apply in_flat_map.
        exists st. split; [apply in_flat_map; eauto|exact I2]. }
      assert (Q : b = bundle_of p).
      { destruct M as [M1 M2]. assert (H : build p = Ok (bundle_of p)) by (apply build_ok; auto; apply C). rewrite B in H. now injection H. }
      specialize (HI _ HS). rewrite Q. change (b_strings (bundle_of p)) with (t_strings (final_table p)).
      rewrite Z.mod_small; [exact HI|]. destruct (ns_index p _ HS) as [[R1 R2] _]. split; [exact R1|].
      destruct M as [_ M2]. assert (2 ^ 32 <= 2 ^ 64) by (apply Z.pow_le_mono_r; lia). lia.
    + split; [|exact S1]. intros i g Hg. eapply (built_flag (@adds)); eauto. intros. apply adds_img.
    + exact EV.
    + split; [apply DIFF; auto; apply IN, HL1; now left|]. intro FQ. apply DIFF; auto.
Qed.
End Built.

(** ** The answer for an entry point *)
Lemma row_result E v : entry_row E (Some (result_object v)) = RRow {| r_terms := [v]; r_bindings := [] |}.
Proof. reflexivity. Qed.
Lemma collect_results E vs : forall acc, VmModel.collect (entry_row E) (map (fun u => Some (result_object u)) vs) acc =
  Ok (QResults (acc ++ map (fun v => {| r_terms := [v]; r_bindings := [] |}) vs)).
Proof.
  induction vs as [|v vs IH]; intro acc; [now rewrite app_nil_r|]. cbn [map VmModel.collect]. rewrite row_result. rewrite IH, <- app_assoc. reflexivity.
Qed.
Lemma run_initial E m q input u s' : run E m q input = Done u s' -> run_plan_blocks E m (p_blocks q) (initial E input) = Done u s'.
Proof.
  unfold run. intro H. unfold bind at 1 in H. destruct (write_local 0 _ _) as [u1 t1|t1|f t1|t1] eqn:E1; try discriminate.
  unfold bind at 1 in H. destruct (write_local 1 _ t1) as [u2 t2|t2|f t2|t2] eqn:E2; try discriminate.
  apply write_inv in E1 as [_ E1]. apply write_inv in E2 as [_ E2]. subst. exact H.
Qed.
Lemma entry_answer E n rho sigma name obj index val x e input r i y :
  sm_find name (b_name_to_plan (e_bundle E)) = Some i -> znth (b_plans (e_bundle E)) (zn i) = Some y ->
  compiled_entry E n rho sigma name obj index val x e (p_blocks y) -> run_entrypoint E name input = Ok r ->
  r = QError \/ (exists es, es <> [] /\ r = QErrors es) \/
  exists bl c s1 v vs, opt_list says bl = Some (img rho sigma (ob_code e)) /\
    run_block E (block_fuel E) bl (initial E input) = Done c s1 /\ s_errors s1 = [] /\
    match c with CContinue => local s1 (rho x) = Some v | _ => v = None end /\ gives name v vs /\ r = answer vs.
Proof.
  intros Hi Hy CE H. unfold run_entrypoint in H. rewrite Hi, Hy in H. unfold output_of in H.
  destruct (run E (block_fuel E) y input) as [u s'|s'|f s'|s'] eqn:Er; try discriminate; [|injection H as <-; now left].
  right. destruct (s_errors s') as [|e1 es] eqn:Ee; [|injection H as <-; left; exists (e1 :: es); split; [discriminate|reflexivity]]. right.
  apply run_initial in Er. destruct u.
  destruct (plan_run _ _ _ _ _ _ _ _ _ _ _ _ _ _ CE Er Ee) as (bl & c & s1 & v & vs & A1 & A2 & A3 & A4 & A5 & A6).
  exists bl, c, s1, v, vs. repeat (split; [assumption|]). cbn [s_results initial set_frame init_state app] in A6. rewrite A6 in H.
  destruct vs as [|v1 vs]; [cbn [map] in H; injection H as <-; reflexivity|].
  pose proof (collect_results E (v1 :: vs) []) as Q. cbn [map app] in Q, H. rewrite Q in H. injection H as <-. reflexivity.
Qed.

(** ** Calls without errors *)
Lemma call_code E m fn args target s s' : run_call E (run_block E m) fn args target s <> Done CReturn s'.
Proof.
  set (N := fun (k : vm code) => forall t t', k t <> Done CReturn t').
  assert (NB : forall {A} (a : vm A) k, (forall v, N (k v)) -> N (bind a k)).
  { intros A a k Hk t t' Q. unfold bind in Q. destruct (a t); try discriminate. exact (Hk _ _ _ Q). }
  assert (NR : forall c, c <> CReturn -> N (ret c)) by (intros c Hc t t' Q; injection Q; auto).
  assert (NX : N exn) by (intros t t' Q; discriminate).
  assert (NF : forall f, N (fault_ f)) by (intros f t t' Q; discriminate).
  revert s s'. change (N (run_call E (run_block E m) fn args target)). unfold run_call.
  repeat match goal with
  | |- N (bind _ _) => apply NB; intro
  | |- N (ret _) => apply NR; solve [repeat match goal with |- context [match ?y with _ => _ end] => destruct y end; discriminate]
  | |- N exn => apply NX
  | |- N (fault_ _) => apply NF
  | |- N (match ?y with _ => _ end) => destruct y
  end.
Qed.
Lemma call_clean E d m fn args target s c s' i f : sound_env E -> unbroken E -> Inv E [] 1 [] [] 0 d s ->
  d <= e_block_depth E < d + Z.of_nat m ->
  run_call E (run_block E m) fn args target s = Done c s' -> s_errors s' = [] ->
  e_builtin E fn = None -> sm_find fn (b_name_to_func (e_bundle E)) = Some i -> znth (b_functions (e_bundle E)) (zn i) = Some f ->
  sm_find (f_name f) (s_cache s) = None ->
  calls E m fn f args target s c s' /\ ~ failed E m fn f args s c.
Proof.
  intros (Hb & Hc & Ht) UB HI Hd H HE HB HF HG HC.
  assert (OK : forall l : list block, Forall (okb E False) l) by (intro l; apply Forall_forall; intros ? _ []).
  assert (TB : forall b st na w, okb E False b -> T E False [] 1 (Inv E [] 1 st na w d) (run_block E m b) (Code E [] 1 d st na w)).
  { intros b st na w _. apply T_block; auto; try (intros []); intros b' []. }
  assert (HCode : Code E [] 1 d [] [] 0 c s').
  { assert (G : T E False [] 1 (Inv E [] 1 [] [] 0 d) (run_call E (run_block E m) fn args target) (Code E [] 1 d [] [] 0)).
    { apply T_call; auto; try (intros []); try (intros ? []). apply Forall_forall. intros ? _ []. }
    specialize (G s HI). rewrite H in G. exact G. }
  destruct HCode as (HI' & N1 & N2).
  assert (Hcc : c = CContinue \/ c = CUndefined).
  { destruct c; auto; exfalso; first [apply N2; auto; fail | now apply N1 | exact (call_code _ _ _ _ _ _ _ H)
      | exact (U_call E UB m (U_block E UB m) _ _ _ _ _ H)]. }
  assert (HL : s_count s' < e_stmt_limit E).
  { destruct HI' as ((_ & _ & C1 & _) & _ & _ & _ & _ & _ & C2 & _). destruct (Z.lt_ge_cases (s_count s') (e_stmt_limit E)) as [|G]; [assumption|].
    exfalso. rewrite HE in C2. apply C2; [lia|exact G]. }
  split; [constructor; auto|]. intros (-> & s0 & s1 & (t & EW & ES) & ER).
  unfold run_call in H. unfold bind at 1, get at 1 in H. destruct (existsb (str_eqb fn) (s_stack s)) eqn:EX; [discriminate|].
  rewrite HB, HF in H. unfold bind at 1, vnth in H. rewrite HG in H. cbn [ret] in H. unfold ret at 1 in H.
  unfold bind at 1, get at 1 in H. unfold bind at 1, get at 1 in H.
  assert (HCC : (if 0 <? s_with s then None else sm_find (f_name f) (s_cache s)) = None) by (rewrite HC; now destruct (0 <? s_with s)).
  rewrite HCC in H. destruct (Z.ltb_spec (zlen args) (zlen (f_params f))) as [|HA].
  { unfold bind, add_error in H. cbn in H. discriminate. }
  unfold bind at 1 in H. rewrite EW in H.
  destruct (Z.leb_spec (e_call_depth E) (zlen (s_stack s))) as [|HD].
  { unfold bind, add_error in H. cbn in H. discriminate. }
  unfold bind at 1, modify at 1 in H.
  destruct (f_blocks f) as [|b0 bs] eqn:EB; [discriminate|].
  unfold bind at 1 in H. rewrite <- ES, ER in H. cbn in H. injection H as <-. cbn [s_errors set_stack] in HE.
  assert (It : Inv E [] 1 [] [] 0 d t).
  { assert (G : T E False [] 1 (Inv E [] 1 [] [] 0 d) (write_params E (skipn 2 (f_params f)) (skipn 2 args)) (fun _ => Inv E [] 1 [] [] 0 d)).
    { apply T_write_params; try (intros []); [apply Forall_forall; intros ? _ []|]. rewrite !skipn_length. unfold zlen in HA. lia. }
    specialize (G s HI). rewrite EW in G. exact G. }
  assert (I0 : Inv E [] 1 [fn] [f_arity f] 0 d s0).
  { rewrite ES. destruct HI as (_ & HS & _). rewrite HS in HD.
    destruct It as ((Hf & He & Hcn & Hx & Hn & Hlog & Hev) & H1 & H2 & H3 & H4 & H5 & H6 & H7).
    assert (GS : good_stack E [fn]) by (split; [repeat constructor; auto|unfold zlen in *; cbn in *; lia]).
    rewrite H1, H2. unfold Inv, W. cbn [add_log set_stack s_frame s_errors s_count s_log s_stack s_nargs s_with s_depth s_cache executed].
    split; [|split; [reflexivity|split; [reflexivity|auto 10]]].
    split; [exact Hf|]. split; [exact He|]. split; [exact Hcn|]. split; [exact Hx|]. split; [exact Hn|].
    split; [constructor; [exact GS|exact Hlog]|]. intros c [HX|HX]; [discriminate|auto]. }
  assert (G := T_run_blocks E False [] 1 d (run_block E m) TB (b0 :: bs) CContinue [fn] [f_arity f] 0 (OK _) (or_introl eq_refl) s0).
  rewrite ER in G. destruct G as (_ & _ & G); [split; [exact I0|discriminate]|]. apply G; auto.
Qed.

(** An entry point whose value is that of a call of one function. *)
Lemma started_inv E st na w d x s : Inv E [] 0 st na w d s -> s_count s + 1 < e_stmt_limit E -> Inv E [] 1 st na w d (started x s).
Proof.
  intros ((Hf & He & Hc & Hxc & Hn & Hlog & Hev) & H1 & H2 & H3 & H4 & H5 & H6 & H7) Hl. unfold Inv, W, started.
  cbn [add_log inc_stmts set_counts s_frame s_errors s_count s_log s_stack s_nargs s_with s_depth s_cache executed].
  split; [|repeat split; auto; try apply H5; lia].
  repeat (split; [first [assumption | lia]|]).
  split; [constructor; [exact Logic.I|exact Hlog]|]. intros c [HX|HX]; [discriminate|auto].
Qed.
Lemma initial_inv E input : Inv E [] 0 [] [] 0 0 (initial E input).
Proof.
  destruct (init_inv E) as ((Hf & He & Hc & Hxc & Hn & Hlog & Hev) & H). unfold initial. split; [|exact H].
  unfold W. cbn [set_frame s_frame s_errors s_count s_log]. split; [|auto 10].
  unfold zlen in *. rewrite <- Hf. clear. rewrite !upd_length. reflexivity.
Qed.
Lemma call_block E m d bl fn args x s c s' i f : sound_env E -> unbroken E -> Inv E [] 0 [] [] 0 d s -> d <= e_block_depth E < d + Z.of_nat m ->
  opt_list says bl = Some [ICall fn args x] -> run_block E m bl s = Done c s' -> s_errors s' = [] ->
  e_builtin E fn = None -> sm_find fn (b_name_to_func (e_bundle E)) = Some i -> znth (b_functions (e_bundle E)) (zn i) = Some f ->
  s_cache s = [] ->
  exists st ops k t, m = S k /\ bl = [st] /\ opt_list says_op ops = Some args /\ s' = add_depth (-1) t /\
    calls E k fn f ops x (started st (add_depth 1 s)) c t /\ ~ failed E k fn f ops (started st (add_depth 1 s)) c.
Proof.
  intros SE UB HI Hd HB H HE HBi HF HG HC. apply opt_out in HB as (st & l & -> & Hst & HB). apply opt_nil in HB as ->.
  assert (HD : d < e_block_depth E).
  { destruct m as [|k]; [discriminate|]. cbn [run_block] in H. unfold bind at 1, get at 1 in H.
    destruct HI as (_ & _ & _ & _ & HI & _). rewrite HI in H. destruct (Z.leb_spec (e_block_depth E) d) as [|G]; [|exact G].
    unfold bind, add_error, modify in H. injection H as <- <-. cbn in HE. now elim (app_one _ _ HE). }
  apply clean_block in H as (k & t & -> & H & ->); [|exact HE]. change (s_errors t = []) in HE.
  destruct st as [ty a0 a1 y e]. cbn [says] in Hst.
  destruct ty, e as [[]|]; try discriminate Hst; unfold with1, with2, option_map in Hst;
    repeat match type of Hst with context [match ?y with _ => _ end] => destruct y eqn:?; try discriminate Hst end;
    try discriminate Hst. injection Hst as -> -> ->.
  match type of H with run_stmts _ _ [?z] _ _ = _ => set (st := z) in * end.
  cbn [run_stmts] in H. unfold bind at 1 in H. destruct (run_stmt E (run_block E k) st (add_depth 1 s)) as [c1 t1|t1|ft t1|t1] eqn:Es; try discriminate.
  assert (HE1 : s_errors t1 = []).
  { destruct c1; cbn in H; try discriminate; injection H as <- <-; exact HE. }
  assert (HR := clean_stmt _ _ _ _ _ _ Es HE1).
  assert (HLim : s_count (add_depth 1 s) + 1 < e_stmt_limit E).
  { destruct (Z.lt_ge_cases (s_count (add_depth 1 s) + 1) (e_stmt_limit E)) as [|G]; [assumption|]. exfalso. unfold run_stmt in Es.
    unfold bind at 1, modify at 1 in Es. unfold bind at 1, get at 1 in Es. cbn [inc_stmts set_counts s_count] in Es.
    apply Z.leb_le in G. rewrite G in Es. unfold bind, add_error, modify in Es. injection Es as <- <-. cbn in HE1. exact (app_one _ _ HE1). }
  cbn [dispatch st] in HR.
  assert (HI1 : Inv E [] 1 [] [] 0 (d + 1) (started st (add_depth 1 s))) by (apply started_inv; [now apply Inv_depth|exact HLim]).
  destruct (call_clean E (d + 1) k fn ops x _ c1 t1 i f SE UB HI1 ltac:(lia) HR HE1 HBi HF HG) as [CA NF]; [cbn; now rewrite HC|].
  assert (c = c1 /\ t = t1) as [-> ->].
  { destruct (ca_end _ _ _ _ _ _ _ _ _ CA) as [-> | ->]; cbn in H; injection H as <- <-; auto. }
  exists st, ops, k, t1. auto 10.
Qed.
