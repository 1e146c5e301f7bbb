(** Locals that code does not write: as in RuleVmProofs, but statements that only look at a local may do so. *)
From Coq Require Import String ZArith List Bool Lia.
From Verif Require Import Base SMap ValueModel ValueSpec ResolverModel VmModel VmSpec VmProofs VmSimProofs VmStmtProofs PlanModel PlanSpec PlanProofs
  RuleModel RuleSpec RuleVmProofs RuleVisitProofs RuleProofs TermModel TermSpec TermStaticProofs.
Import ListNotations.
Local Open Scope Z_scope.

Section Keeps.
Variable E : env.
Variable fn : str.
Variable x : Z.
Variable n : Z.
Hypothesis P : unshared E fn n x.
Hypothesis NR : n <= 2 ^ 64.
Notation J := (J fn x).

Definition wfair (b : block) : Prop := exists l, opt_list says b = Some l /\ in_frame n l /\ ~ In x (flat_map writes l).

Variable m : nat.
Notation rb := (run_block E m).
Hypothesis Hrb : forall b, wfair b -> J (rb b).
Lemma wfair_blocks ls bs : says_blocks bs = Some ls -> in_frame n (concat ls) -> ~ In x (flat_map writes (concat ls)) ->
  Forall wfair bs.
Proof.
  revert ls. induction bs as [|b bs IH]; intros ls H HF HN; [constructor|].
  unfold says_blocks in H. apply opt_cons in H as (l & ls' & H1 & H2 & ->). cbn [concat] in HF, HN.
  unfold in_frame in HF. rewrite flat_map_app in HF. apply Forall_app in HF as [F1 F2].
  rewrite flat_map_app, in_app_iff in HN. constructor; [exists l; unfold in_frame; intuition|]. apply (IH ls'); auto.
Qed.
Lemma wJ_run_blocks l : Forall wfair l -> forall c, J (run_blocks rb l c).
Proof.
  induction 1; simpl; intros c; [apply J_ret|]. apply J_bind; [auto|intro c']. destruct c'; auto using J_ret.
Qed.
Lemma wJ_call g args target : target <> x -> J (run_call E rb g args target).
Proof.
  intro NT. intros s0 c0 s0' I0 H0.
  unfold run_call in H0. unfold bind at 1, get at 1 in H0.
  destruct (existsb (str_eqb g) (s_stack s0)) eqn:Ex; [discriminate|].
  assert (NG : g <> fn). { intros ->. rewrite (existsb_str _ _ I0) in Ex. discriminate. }
  destruct (e_builtin E g).
  { revert s0 c0 s0' I0 H0 Ex.
    enough (J (do! vs := unpack_operands E args in do! n0 := get s_count in do! v := lift (o n0 vs) in
               do! u := write_local target v in
               match v with Some (VErr c) => do! u := add_error c in ret CError | _ => ret CContinue end)) as HJ.
    { intros s0 c0 s0' I0 H0 _. eapply HJ; eauto. }
    apply J_bind; [apply J_unpacks|intro vs]. apply J_bind; [apply J_get|intro n0]. apply J_bind; [apply J_lift|intro v].
    apply J_bind; [now apply J_write|intro u]. destruct v as [[]|]; try apply J_ret. apply J_bind; [apply J_error|intro; apply J_ret]. }
  destruct (sm_find g (b_name_to_func (e_bundle E))) as [i|] eqn:Ef; [|discriminate].
  unfold bind at 1, vnth in H0. destruct (znth (b_functions (e_bundle E)) (zn i)) as [fu|] eqn:Efu; [|discriminate].
  cbn [ret] in H0. unfold bind at 1, get at 1 in H0. unfold bind at 1, get at 1 in H0.
  destruct (P g i fu NG Ef Efu) as [NP (ls & HL & HF & HS)].
  destruct (if 0 <? s_with s0 then None else sm_find (f_name fu) (s_cache s0)) as [cached|].
  { assert (HJ : J (do! u := write_local target cached in ret (match cached with Some (VErr _) => CError | _ => CContinue end))).
    { apply J_bind; [now apply J_write|intro; apply J_ret]. }
    eapply HJ; eauto. }
  destruct (zlen args <? zlen (f_params fu)).
  { assert (HJ : J (do! u := add_error EvalBuiltInError in ret CError)) by (apply J_bind; [apply J_error|intro; apply J_ret]).
    eapply HJ; eauto. }
  unfold bind at 1 in H0. destruct (write_params E _ _ s0) as [u s1|s1|f s1|s1] eqn:Ew; try discriminate.
  destruct (J_params E fn x _ NP _ _ _ _ I0 Ew) as [I1 L1].
  destruct (e_call_depth E <=? zlen (s_stack s0)).
  { assert (HJ : J (do! u := add_error RecursionError in ret CError)) by (apply J_bind; [apply J_error|intro; apply J_ret]).
    destruct (HJ _ _ _ I1 H0). split; [auto|congruence]. }
  unfold bind at 1, modify at 1 in H0.
  destruct (f_blocks fu) as [|b0 bs0] eqn:Eb; [discriminate|]. rewrite <- Eb in *. clear b0 bs0 Eb.
  unfold bind at 1 in H0.
  set (s2 := add_log _ _) in H0. destruct (run_blocks rb (f_blocks fu) CContinue s2) as [c s3|s3|f s3|s3] eqn:Er; try discriminate.
  assert (I2 : In fn (s_stack s2)) by (right; exact I1).
  destruct (wJ_run_blocks (f_blocks fu) (wfair_blocks _ _ HL HF HS) _ _ _ _ I2 Er) as [_ L3].
  assert (Q3 : s_stack s3 = s_stack s2).
  { pose proof (K_run_blocks rb (K_block E m) (f_blocks fu) CContinue _ _ _ Er) as (Q & _). exact Q. }
  unfold bind at 1, modify at 1 in H0. set (s4 := set_stack _ _ s3) in H0.
  assert (I4 : In fn (s_stack s4)). { unfold s4. cbn. rewrite Q3. exact I1. }
  assert (L4 : local s4 x = local s0 x). { change (local s4 x) with (local s3 x). rewrite L3. exact L1. }
  assert (HJ : J (match c with
      | CReturn =>
          do! v := read_local (zn (f_result fu)) in
          do! u := write_local target v in
          do! u := modify (fun s => if f_cacheable fu && negb (0 <? s_with s)
                                    then set_cache (sm_set (f_name fu) v (s_cache s)) s else s) in
          match v with
          | Some (VErr c) => do! u := add_error c in ret CError
          | _ => ret CContinue
          end
      | CBreak => ret CBreak
      | _ => ret CUndefined
      end)).
  { destruct c; try apply J_ret. apply J_bind; [apply J_read|intro v]. apply J_bind; [now apply J_write|intro].
    apply J_bind; [apply J_modify; intro s; destruct (_ && _); split; reflexivity|intro].
    destruct v as [[]|]; try apply J_ret. apply J_bind; [apply J_error|intro; apply J_ret]. }
  destruct (HJ _ _ _ I4 H0). split; [auto|congruence].
Qed.
Lemma wJ_run_dynamic path ops target : target <> x -> J (run_dynamic E rb path ops target).
Proof.
  intro N. unfold run_dynamic. apply J_bind; [apply J_dynamic|intro found]. destruct found as [[g rest]|]; [|apply J_ret].
  apply J_bind; [now apply wJ_call|intro c]. destruct rest; [apply J_ret|]. destruct c; try apply J_ret.
  apply J_bind; [apply J_read|intro v]. apply J_bind; [apply J_dot_path|intro r]. destruct r; [|apply J_ret].
  apply J_bind; [now apply J_write|intro; apply J_ret].
Qed.
Lemma wJ_block_stmt l : Forall wfair l -> J (block_stmt rb l).
Proof.
  induction 1; simpl; [apply J_ret|]. apply J_bind; [auto|intro c']. destruct c'; auto using J_ret, J_exn.
Qed.
Lemma wJ_scan_loop l k v body : wfair body -> k <> x -> v <> x -> J (scan_loop rb l k v body).
Proof.
  intros Hb Nk Nv. induction l as [|[a b] l]; simpl; [apply J_ret|]. apply J_bind; [now apply J_write|intro].
  apply J_bind; [now apply J_write|intro]. apply J_bind; [auto|intro c]. destruct c; auto using J_ret.
Qed.
Lemma wJ_scan op0 op1 target body : wfair body -> o_index op0 <> x -> o_index op1 <> x ->
  J (run_scan rb op0 op1 target (Some (ExtBlock body))).
Proof.
  intros Hb N0 N1. unfold run_scan. apply J_bind; [apply J_read|intro src].
  assert (G : forall l, J (scan_pairs rb l op0 op1 (Some (ExtBlock body)))).
  { intros l. unfold scan_pairs. destruct l; [apply J_ret|]. cbn [ext_block].
    intros s a s' I H. unfold bind at 1, ret at 1 in H. eapply (wJ_scan_loop (p :: l) (o_index op0) (o_index op1) body); eauto. }
  destruct src as [[]|]; auto using J_ret, J_exn.
Qed.
Lemma wJ_with op0 target path body : wfair body -> target <> x -> J (run_with E rb op0 target (Some (ExtWith path body))).
Proof.
  intros Hb N. unfold run_with. apply J_bind; [apply J_modify; split; reflexivity|intro]. apply J_bind; [apply J_unpack|intro v].
  apply J_bind; [now apply J_swap|intro old]. apply J_bind; [auto|intro c]. apply J_bind; [now apply J_write|intro].
  apply J_bind; [apply J_modify; split; reflexivity|intro; apply J_ret].
Qed.

Lemma wJ_dispatch st : wfair [st] -> J (dispatch E rb st).
Proof.
  intros (l & Hl & HF & HS). apply opt_cons in Hl as (i & l' & Hs & Hn & ->). injection Hn as <-.
  unfold in_frame in HF. cbn [flat_map] in HF, HS. rewrite app_nil_r in HF, HS.
  destruct st as [ty op0 op1 target e]. unfold dispatch.
  destruct ty; cbn [says] in Hs; destruct e as [ex|]; try discriminate Hs.
  all: try (destruct ex; try discriminate Hs).
  all: unfold with1, with2, option_map in Hs;
    repeat match type of Hs with context [match ?y with _ => _ end] => destruct y eqn:?; try discriminate Hs end;
    injection Hs as <-; cbn [writes locals_in In] in HF, HS.
  all: repeat match goal with
    | |- J (bind (ext_block (Some (ExtBlock ?b))) ?k) => change (J (k b)); cbv beta
    | |- J (bind _ _) => apply J_bind; [|intro]
    | |- J (ret _) => apply J_ret
    | |- J (get _) => apply J_get
    | |- J (read_local _) => apply J_read
    | |- J (write_local _ _) => apply J_write; intro; apply HS; auto
    | |- J (add_error _) => apply J_error
    | |- J (is_defined _) => apply J_def
    | |- J (unpack_operand _ _) => apply J_unpack
    | |- J (equals _ _ _) => apply J_equals
    | |- J (vnth _ _) => apply J_vnth
    | |- J exn => apply J_exn
    | |- J (fault_ _) => apply J_fault
    | |- J (modify _) => apply J_modify; split; reflexivity
    | |- J (run_call _ _ _ _ _) => apply wJ_call; intro; apply HS; auto
    | |- J (run_dynamic _ _ _ _ _) => apply wJ_run_dynamic; intro; apply HS; auto
    | |- J (if _ then _ else _) => destruct (_ : bool)
    | |- J (match ?y with _ => _ end) => destruct y
    end.
  - apply wJ_block_stmt. apply (wfair_blocks l); auto; unfold in_frame; rewrite <- flat_flat; auto.
  - apply Hrb. exists l. auto.
  - apply wJ_scan.
    + exists l. split; [auto|]. split; [|intro; apply HS; apply in_or_app; auto]. unfold in_frame. now apply Forall_app in HF.
    + destruct op0 as [[] w]; try discriminate. injection Heqo as <-. rewrite (in_frame_op n NR); [intro; apply HS; cbn; auto|].
      apply Forall_app in HF as [_ HF]. rewrite Forall_forall in HF. apply HF. cbn. auto.
    + destruct op1 as [[] w]; try discriminate. injection Heqo0 as <-. rewrite (in_frame_op n NR); [intro; apply HS; cbn; auto|].
      apply Forall_app in HF as [_ HF]. rewrite Forall_forall in HF. apply HF. cbn. auto.
  - apply wJ_with; [|intro; apply HS; auto]. exists l. split; [auto|]. split; [|tauto]. unfold in_frame.
    apply Forall_app in HF as [_ HF]. now apply Forall_app in HF.
Qed.
Lemma wfair_cons st b : wfair (st :: b) -> wfair [st] /\ wfair b.
Proof.
  intros (l & H & HF & HS). apply opt_cons in H as (i & l' & H1 & H2 & ->). unfold in_frame in *. cbn [flat_map] in HF, HS.
  apply Forall_app in HF as [F1 F2]. rewrite in_app_iff in HS. split.
  - exists [i]. cbn [opt_list flat_map]. rewrite H1, !app_nil_r. unfold in_frame. cbn [flat_map]. rewrite app_nil_r. tauto.
  - exists l'. unfold in_frame. tauto.
Qed.
Lemma wJ_stmt st : wfair [st] -> J (run_stmt E rb st).
Proof.
  intro H. unfold run_stmt. apply J_bind; [apply J_modify; split; reflexivity|intro]. apply J_bind; [apply J_get|intro k].
  destruct (_ <=? _).
  - apply J_bind; [apply J_error|intro; apply J_ret].
  - apply J_bind; [apply J_modify; split; reflexivity|intro; now apply wJ_dispatch].
Qed.
Lemma wJ_stmts l : wfair l -> forall c, J (run_stmts E rb l c).
Proof.
  induction l as [|st l IH]; intros H c; cbn [run_stmts]; [apply J_ret|]. apply wfair_cons in H as [H1 H2].
  apply J_bind; [now apply wJ_stmt|intro c']. destruct c'; auto using J_ret, J_exn.
  apply J_bind; [apply J_modify; split; reflexivity|intro; apply J_ret].
Qed.
End Keeps.

Lemma wJ_block E fn x n : unshared E fn n x -> n <= 2 ^ 64 -> forall m b, wfair x n b -> J fn x (run_block E m b).
Proof.
  intros P NR. induction m as [|m IH]; intros b H; [intros s a s' _ G; discriminate|]. cbn [run_block].
  apply J_bind; [apply J_get|intro d]. destruct (_ <=? _).
  - apply J_bind; [apply J_error|intro; apply J_ret].
  - apply J_bind; [apply J_modify; split; reflexivity|intro]. apply J_bind; [eapply wJ_stmts; eauto|intro c].
    apply J_bind; [apply J_modify; split; reflexivity|intro; apply J_ret].
Qed.


(** ** Errors are never taken back *)
Definition errs (s s' : state) : Prop := exists es, s_errors s' = s_errors s ++ es.
Lemma errs_refl s : errs s s. Proof. exists []. now rewrite app_nil_r. Qed.
Lemma errs_same s s' : s_errors s' = s_errors s -> errs s s'. Proof. intro H. exists []. now rewrite H, app_nil_r. Qed.
Lemma errs_trans s s1 s2 : errs s s1 -> errs s1 s2 -> errs s s2.
Proof. intros [a A] [b B]. exists (a ++ b). now rewrite B, A, app_assoc. Qed.
Lemma errs_later s s' : later s s' -> errs s s'.
Proof. intros (_ & _ & H & _). exact H. Qed.
Lemma mono_stmt E n st s : later s (final (run_stmt E (run_block E n) st s)).
Proof.
  destruct (VmSimProofs.R_stmt E (e_stmt_limit E) (Z.le_refl _) (run_block E n) (run_block (with_limit (e_stmt_limit E) E) (n + 0)) (VmSimProofs.R_block E _ (Z.le_refl _) n 0) st) as [H _].
  apply H.
Qed.
Lemma errs_stmt E n st s c s' : run_stmt E (run_block E n) st s = Done c s' -> errs s s'.
Proof. intro H. pose proof (mono_stmt E n st s) as M. rewrite H in M. now apply errs_later. Qed.
Lemma errs_stmts E n : forall l c s c' s', run_stmts E (run_block E n) l c s = Done c' s' -> errs s s'.
Proof.
  induction l as [|st l IH]; intros c s c' s' H; cbn [run_stmts] in H; [injection H as <- <-; apply errs_refl|].
  unfold bind at 1 in H. destruct (run_stmt E (run_block E n) st s) as [c1 s1|s1|f s1|s1] eqn:Es; try discriminate. apply errs_stmt in Es.
  destruct c1; try discriminate; try (injection H as <- <-; exact Es).
  apply IH in H. eapply errs_trans; eauto.
Qed.
Lemma errs_block E n b s c s' : run_block E n b s = Done c s' -> errs s s'.
Proof. intro H. pose proof (mono_block E n b s) as M. rewrite H in M. now apply errs_later. Qed.
Lemma visits_errs E kb :
  (forall m b s ts c s', visits E kb m b s ts c s' -> errs s s') /\
  (forall m i j b l s ts s', loops E kb m i j b l s ts s' -> errs s s') /\
  (forall m b s ts c s', enters E kb m b s ts c s' -> errs s s').
Proof.
  apply visits_comb.
  - intros m s c s' H _. eapply errs_stmts; eauto.
  - intros m st b s s1 ts c s' _ H _ IH. eapply errs_trans; [eapply errs_stmt; eauto|exact IH].
  - intros m st b s s1 _ H. eapply errs_stmt; eauto.
  - intros m a b x body' body s src l ts s' st _ _ _ _ IH. exact IH.
  - intros. now apply errs_same.
  - intros m a b x path body' body s v old s1 ts c s2 s3 s0 _ _ HS _ IH HW. apply (errs_trans s s1).
    + pose proof (mono_swap E x path v s0) as M. rewrite HS in M. exact (errs_later _ _ M).
    + apply (errs_trans s1 s2); [exact IH|]. pose proof (mono_write x old s2) as M. rewrite HW in M. exact (errs_later _ _ M).
  - intros. apply errs_refl.
  - intros m i j body a b l s ts1 c s1 ts2 s' _ IH1 _ IH2. eapply errs_trans; [|exact IH2]. exact IH1.
  - intros m b s ts c s' _ H. exact H.
Qed.

Section Fold.
Variable E : env.
Variable fn : str.
Variable x n : Z.
Hypothesis P : unshared E fn n x.
Hypothesis NR : n <= 2 ^ 64.
Variable k : block.
Variable ok : state -> Prop.
Hypothesis ok_back : forall s s', errs s s' -> ok s' -> ok s.
Variable V : option value -> Prop.
Variable R : option value -> state -> option value -> Prop.
Hypothesis Hk : forall m t c s' cur, run_stmts E (run_block E m) k CContinue t = Done c s' -> good c -> ok s' ->
  In fn (s_stack t) -> local t x = Some cur -> V cur ->
  exists cur', In fn (s_stack s') /\ local s' x = Some cur' /\ V cur' /\ R cur t cur'.

Lemma wJ_run_stmt m st : wfair x n [st] -> J fn x (run_stmt E (run_block E m) st).
Proof. intro H. eapply wJ_stmt; eauto. intros. eapply wJ_block; eauto. Qed.
Lemma wfair_scan a b y body : wfair x n [Stmt SScan a b y (Some (ExtBlock body))] -> wfair x n body /\ o_index a <> x /\ o_index b <> x.
Proof.
  intros (l & Hl & HF & HS). apply opt_cons in Hl as (i & l' & Hs & Hn & ->). injection Hn as <-.
  unfold in_frame in HF. cbn [flat_map] in HF, HS. rewrite app_nil_r in HF, HS. cbn [says] in Hs.
  destruct (says_index a) eqn:Ea; try discriminate. destruct (says_index b) eqn:Eb; try discriminate.
  destruct (opt_list says body) eqn:El; try discriminate. injection Hs as <-. cbn [locals_in writes] in HF, HS.
  apply Forall_app in HF as [F1 F2]. rewrite Forall_forall in F2. split; [|split].
  - exists l. split; [auto|]. split; [exact F1|]. intro; apply HS; apply in_or_app; auto.
  - destruct a as [[] w]; try discriminate. injection Ea as <-. rewrite (in_frame_op n NR); [intro; apply HS; cbn; auto|]. apply F2. cbn; auto.
  - destruct b as [[] w]; try discriminate. injection Eb as <-. rewrite (in_frame_op n NR); [intro; apply HS; cbn; auto|]. apply F2. cbn; auto.
Qed.
Lemma wfair_with a b y path body : wfair x n [Stmt SWith a b y (Some (ExtWith path body))] -> wfair x n body /\ y <> x.
Proof.
  intros (l & Hl & HF & HS). apply opt_cons in Hl as (i & l' & Hs & Hn & ->). injection Hn as <-.
  unfold in_frame in HF. cbn [flat_map] in HF, HS. rewrite app_nil_r in HF, HS. cbn [says] in Hs.
  destruct (says_op a) eqn:Ea; try discriminate.
  destruct (opt_list says body) eqn:El; try discriminate. injection Hs as <-. cbn [locals_in writes In] in HF, HS.
  apply Forall_app in HF as [_ F2]. apply Forall_app in F2 as [F2 _]. split; [|tauto].
  exists l. split; [auto|]. split; [exact F2|tauto].
Qed.

Let Q (b : block) (s : state) (ts : list state) (s' : state) : Prop := wfair x n b -> ok s' ->
  forall cur, In fn (s_stack s) -> local s x = Some cur -> V cur ->
  exists cur', In fn (s_stack s') /\ local s' x = Some cur' /\ V cur' /\ chain R cur ts cur'.

Lemma wvisits_fold_all :
  (forall m b s ts c s', visits E k m b s ts c s' -> Q b s ts s') /\
  (forall m i j b l s ts s', loops E k m i j b l s ts s' -> 0 <= i -> 0 <= j -> i <> x -> j <> x -> Q b s ts s') /\
  (forall m b s ts c s', enters E k m b s ts c s' -> Q b s ts s').
Proof.
  apply visits_comb; unfold Q.
  - intros m s c s' H Hc _ OK cur I L HV. destruct (Hk _ _ _ _ _ H Hc OK I L HV) as (cur' & I' & L' & HV' & HR).
    exists cur'. repeat split; auto. econstructor; [exact HR|constructor].
  - intros m st b s s1 ts c s' _ H _ IH Hf OK cur I L HV. apply wfair_cons in Hf as [F1 F2].
    destruct (wJ_run_stmt m st F1 _ _ _ I H) as [I1 L1]. apply IH; auto. congruence.
  - intros m st b s s1 _ H Hf OK cur I L HV. apply wfair_cons in Hf as [F1 F2].
    destruct (wJ_run_stmt m st F1 _ _ _ I H) as [I1 L1]. exists cur. repeat split; auto; [congruence|constructor].
  - intros m a b y body' body s src l ts s' _ HL HS _ IH Hf OK cur I L HV. apply wfair_scan in Hf as (F1 & F2 & F3).
    apply IH; auto; apply o_index_nonneg.
  - intros m a b y body' body s v _ HL HS _ Hf OK cur I L HV. exists cur. repeat split; auto. constructor.
  - intros m a b y path body' body s v old s1 ts c s2 s3 _ HU HW _ IH HB Hf OK cur I L HV.
    apply wfair_with in Hf as (F1 & F2). destruct (J_swap E fn x y path v F2 (add_with 1 (started (Stmt SWith a b y (Some (ExtWith path body'))) s)) _ _ I HW) as [I1 L1].
    assert (OK2 : ok s2).
    { refine (ok_back _ _ _ OK). pose proof (mono_write y old s2) as MW. rewrite HB in MW. exact (errs_later _ _ MW). }
    destruct (IH F1 OK2 cur I1) as (cur' & I2 & L2 & V2 & C2); [|exact HV|].
    { rewrite L1. exact L. }
    destruct (J_write fn x y old F2 _ _ _ I2 HB) as [I3 L3].
    exists cur'. repeat split; auto. change (local (add_with (-1) s3) x) with (local s3 x). congruence.
  - intros m i j body s _ _ _ _ _ OK cur I L HV. exists cur. repeat split; auto. constructor.
  - intros m i j body a b l s ts1 c s1 ts2 s' _ IH1 V2 IH2 Pi Pj Ni Nj Hf OK cur I L HV.
    assert (HB : local (bound s i j a b) x = local s x).
    { unfold local, bound. cbn [set_frame s_frame]. rewrite !znth_upd_other by auto. reflexivity. }
    assert (OK1 : ok s1) by exact (ok_back _ _ (proj1 (proj2 (visits_errs E k)) _ _ _ _ _ _ _ _ V2) OK).
    destruct (IH1 Hf OK1 cur I) as (c1 & I1 & L1 & V1 & C1); [congruence|exact HV|].
    destruct (IH2 Pi Pj Ni Nj Hf OK c1 I1 L1 V1) as (c2 & I2 & L2 & V2' & C2). exists c2. repeat split; auto. eapply chain_app; eauto.
  - intros m b s ts c s' _ IH Hf OK cur I L HV. destruct (IH Hf (ok_back _ _ (errs_same s' (add_depth (-1) s') eq_refl) OK) cur I L HV) as (c2 & I2 & L2 & V2 & C2). exists c2. auto.
Qed.
End Fold.
