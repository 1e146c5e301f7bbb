(** Policies whose rules refer to rules: by induction over their rank, calls of rules give the values of the rules. *)
From Coq Require Import String ZArith NArith List Bool Lia.
From Verif Require Import Base SMap SMapFacts ValueModel ValueSpec ResolverModel VmModel VmSpec VmProofs VmSimProofs VmStmtProofs VmTheorems PlanModel PlanSpec PlanProofs PlanBuildProofs PlanTheorems
  RuleModel RuleSpec RuleVmProofs RuleVisitProofs RuleProofs RuleFnProofs RuleSetProofs RuleObjProofs RuleBuiltProofs RuleEntryProofs RuleQueryProofs RuleTheorems
  TermModel TermSpec TermStaticProofs TermCalmProofs TermVmProofs TermRunProofs TermScopeProofs TermRuleProofs TermPlainProofs TermSaneProofs TermLinkProofs TermBuiltProofs.
Import ListNotations.
Local Open Scope Z_scope.

(** ** Code of constants *)
Definition dwrites (l : list nir) : Prop := forall d, In d (flat_map deeds l) -> exists x, d = DWrite x.
Lemma dwrites_app a b : dwrites a -> dwrites b -> dwrites (a ++ b).
Proof. intros A B d I. rewrite flat_map_app in I. apply in_app_iff in I as [I|I]; auto. Qed.
Lemma dwrites_nil : dwrites []. Proof. intros d []. Qed.
Lemma dwrites_one st : (forall d, In d (deeds st) -> exists x, d = DWrite x) -> dwrites [st].
Proof. intros H d I. cbn [flat_map] in I. rewrite app_nil_r in I. auto. Qed.
Lemma dwrites_cons st l : (forall d, In d (deeds st) -> exists x, d = DWrite x) -> dwrites l -> dwrites (st :: l).
Proof. intros A B. change (st :: l) with ([st] ++ l). apply dwrites_app; [now apply dwrites_one|exact B]. Qed.
Lemma constant_deeds :
  (forall t, constant t = true -> forall k, dwrites (ob_code (snd (lower k t)))) /\
  (forall l, constants l = true -> forall add k, (forall o d, In d (deeds (add o)) -> exists x, d = DWrite x) -> dwrites (snd (lower_elems add k l))) /\
  (forall l, constant_items l = true -> forall x k, dwrites (snd (lower_items x k l))) /\
  (forall q : TermModel.query, True).
Proof.
  assert (ONE : forall (x : str) d, In d (map DWrite [x]) -> exists y, d = DWrite y) by (intros x d [<-|[]]; eauto).
  apply term_comb; try (intros; discriminate); try (intros; exact I).
  - intros t _ k. apply dwrites_nil.
  - intros t _ k. apply dwrites_one. apply ONE.
  - intros b _ k. apply dwrites_nil.
  - intros _ k. apply dwrites_one. apply ONE.
  - intros l IH H k. cbn [lower]. destruct (lower_elems _ _ l) as [k1 c] eqn:Q. cbn [snd ob_code]. apply dwrites_cons; [intros d Id; eapply ONE; exact Id|].
    change c with (snd (k1, c)). rewrite <- Q. apply IH; [exact H|]. intros o d Id. eapply ONE. exact Id.
  - intros l IH H k. cbn [lower]. destruct (lower_elems _ _ l) as [k1 c] eqn:Q. cbn [snd ob_code]. apply dwrites_cons; [intros d Id; eapply ONE; exact Id|].
    change c with (snd (k1, c)). rewrite <- Q. apply IH; [exact H|]. intros o d Id. eapply ONE. exact Id.
  - intros l IH H k. cbn [lower]. destruct (lower_items _ _ l) as [k1 c] eqn:Q. cbn [snd ob_code]. apply dwrites_cons; [intros d Id; eapply ONE; exact Id|].
    change c with (snd (k1, c)). rewrite <- Q. apply IH; exact H.
  - intros _ add k _. apply dwrites_nil.
  - intros t IHt l IHl H add k HA. cbn [constants] in H. apply andb_true_iff in H as [H1 H2]. cbn [lower_elems].
    pose proof (IHt H1 k) as W. destruct (lower k t) as [k1 o]. pose proof (IHl H2 add k1 HA) as W2. destruct (lower_elems add k1 l) as [k2 c]. cbn [snd] in *.
    apply dwrites_app; [exact W|]. apply dwrites_cons; [apply HA|exact W2].
  - intros _ x k. apply dwrites_nil.
  - intros i IHi v IHv l IHl H x k. cbn [constant_items] in H. apply andb_true_iff in H as [H H3]. apply andb_true_iff in H as [H1 H2]. cbn [lower_items].
    pose proof (IHi H1 k) as W1. destruct (lower k i) as [k1 oi]. pose proof (IHv H2 k1) as W2. destruct (lower k1 v) as [k2 ov].
    pose proof (IHl H3 x k2) as W3. destruct (lower_items x k2 l) as [k3 c]. cbn [snd] in *.
    apply dwrites_app; [exact W1|]. apply dwrites_app; [exact W2|]. apply dwrites_cons; [apply ONE|exact W3].
Qed.

Lemma writes_deeds {L1 S1} (x : L1) : forall st : ir L1 S1, In x (writes st) -> In (DWrite x) (deeds st) \/ In DOther (deeds st).
Proof.
  assert (F : forall l : list (ir L1 S1), Forall (fun st => In x (writes st) -> In (DWrite x) (deeds st) \/ In DOther (deeds st)) l ->
    In x (flat_map writes l) -> In (DWrite x) (flat_map deeds l) \/ In DOther (flat_map deeds l)).
  { intros l H I. apply in_flat_map in I as (st & I1 & I2). rewrite Forall_forall in H. destruct (H st I1 I2); [left|right]; apply in_flat_map; eauto. }
  induction st as [st IH] using ir_ind'.
  assert (W : In x (writes st) -> In (DWrite x) (map DWrite (writes st))) by (apply in_map).
  destruct st; try (intro I; left; exact (W I)); clear W; cbn [writes deeds inner app] in *; intro I.
  all: try (cbn in *; tauto).
  all: try (apply F; auto; fail).
  all: try (cbn in I |- *; intuition (subst; auto); fail).
  - apply in_flat_map in I as (b & I1 & I2). assert (H : Forall (fun st => In x (writes st) -> In (DWrite x) (deeds st) \/ In DOther (deeds st)) b).
    { rewrite Forall_forall in *. intros st Is. apply IH. apply in_concat. eauto. }
    destruct (F b H I2); [left|right]; apply in_flat_map; eauto.
  - destruct I as [<-|[<-|I]]; [cbn; auto|cbn; auto|]. destruct (F _ IH I); cbn; auto.
Qed.
Lemma set_cases {A} k (a : A) x k' : forall m, sm_find k' (sm_set k a m) = Some x -> (k' = k /\ x = a) \/ sm_find k' m = Some x.
Proof.
  induction m as [|[k1 a1] m IH]; cbn [sm_set].
  - cbn [sm_find]. destruct (str_eqb k' k) eqn:Q; [|discriminate]. apply str_eqb_eq in Q. intro H. injection H as <-. auto.
  - destruct (str_ltb k k1); [|destruct (str_eqb k k1) eqn:Q1]; cbn [sm_find].
    + destruct (str_eqb k' k) eqn:Q; [|auto]. apply str_eqb_eq in Q. intro H. injection H as <-. auto.
    + apply str_eqb_eq in Q1. subst k1. destruct (str_eqb k' k) eqn:Q; [|auto]. apply str_eqb_eq in Q. intro H. injection H as <-. auto.
    + destruct (str_eqb k' k1); auto.
Qed.

Section Policy.
Variable p : prog.
Hypothesis C : compiled p.
Hypothesis M : moderate p.
Variable b : bundle.
Hypothesis B : build p = Ok b.
Notation num := (nl (final_table p)).
Notation sg := (ns (final_table p)).
Notation n := (frame_size p).
Variable E : env.
Hypothesis HE : e_bundle E = b.
Variable call : str -> list value -> value.
Hypothesis HA : answers E call.
Variable rank : str -> nat.
Variable src : str -> rule_src.
Hypothesis PO : linked_policy E p rank src.
Variable inp : value.
Variable rules : str -> option value.
Hypothesis PV : policy_values (e_fops E) call p src inp rules.
Notation data := (g_data p).
Notation sane := (sane n inp data rules).
Notation rho := (asked_values (Some inp) data).

Lemma policy_writes i f x : nth_error (g_fns p) i = Some f -> In x (flat_map writes (fn_body f)) -> ~ reserved x.
Proof.
  intros Hf I. destruct (PO i f Hf) as (fresh & prefix & k & l & LR). apply in_flat_map in I as (st & I1 & I2).
  destruct (writes_deeds x st I2) as [J|J]; [exact (lr_body _ _ _ _ _ _ _ _ _ _ LR (DWrite x) ltac:(apply in_flat_map; eauto))|].
  elim (lr_body _ _ _ _ _ _ _ _ _ _ LR DOther ltac:(apply in_flat_map; eauto)).
Qed.
Section Rule.
Variable i : nat.
Variable f : fn str str.
Hypothesis Hf : nth_error (g_fns p) i = Some f.
Definition vars : list str := docs ++ flat_map locals_in (fn_body f).
Lemma vars_named x : In x vars -> In (Some i, x) (names p).
Proof.
  intro I. destruct (PO i f Hf) as (fresh & prefix & k & l & LR). eapply named; [exact Hf|]. rewrite (lr_params _ _ _ _ _ _ _ _ _ _ LR).
  unfold vars in I. apply in_app_iff in I as [I|I]; apply in_or_app; [now left|right; apply in_or_app; now left].
Qed.
Lemma vars_alone x j g : In x vars -> j <> i -> nth_error (g_fns p) j = Some g -> generated x \/ reserved x -> ~ In x (skipn 2 (n_params g) ++ flat_map writes (fn_body g)).
Proof.
  intros I N Hg GR J. destruct (PO j g Hg) as (fresh & prefix & k & l & LR). rewrite (lr_params _ _ _ _ _ _ _ _ _ _ LR) in J. cbn [skipn app] in J.
  pose proof (policy_writes j g x Hg J) as NR. destruct GR as [G|R]; [|auto].
  destruct (PO i f Hf) as (fresh' & prefix' & k' & l' & LR'). unfold vars in I. apply in_app_iff in I as [I|I].
  - apply NR. destruct I as [<-|[<-|[]]]; [left|right]; reflexivity.
  - exact (lr_alone _ _ _ _ _ _ _ _ _ _ LR' x j g I N Hg G J).
Qed.
Definition vars_slots := slots_of p C M b B E HE i f Hf vars vars_named vars_alone.
Definition vars_apart := apart_of p C M b B i vars vars_named.
Lemma vars_high x : In x vars -> ~ In x docs -> 2 <= num (Some i) x.
Proof.
  intros I N. destruct (says_built p C M b B) as [_ [NI ND NO NS]]. apply (NO (Some i, x)); [now apply vars_named|].
  intros [R|R]; apply N; cbn [snd] in R; rewrite R; cbn; auto.
Qed.
Lemma vars_strings fresh prefix k r l s : linked_rule E p rank i f fresh prefix k r l ->
  In s (flat_map strings_in (rules_code (n_result f) (fun j => fresh j 0%nat 0%nat) 0 l)) -> znth (b_strings (e_bundle E)) (sg s mod 2 ^ 64) = Some s.
Proof.
  intros LR I. rewrite HE. destruct (interned_ok p) as (_ & _ & HI).
  assert (HS : In s (strings p)).
  { pose proof (lr_strings _ _ _ _ _ _ _ _ _ _ LR _ I) as I2.
    unfold strings, body. rewrite flat_map_app. apply in_or_app. right. apply in_flat_map in I2 as (st & I3 & I4). apply in_flat_map.
    exists st. split; [|exact I4]. apply in_flat_map. exists f. split; [eapply nth_error_In; eauto|exact I3]. }
  assert (Q : b = bundle_of p).
  { destruct M as [M1 M2]. assert (H : build p = Ok (bundle_of p)) by (apply build_ok; auto; apply C). rewrite B in H. now injection H. }
  specialize (HI _ HS). rewrite Q. change (b_strings (bundle_of p)) with (t_strings (final_table p)).
  rewrite Z.mod_small; [exact HI|]. destruct (ns_index p _ HS) as [[R1 R2] _]. split; [exact R1|].
  destruct M as [_ M2]. assert (2 ^ 32 <= 2 ^ 64) by (apply Z.pow_le_mono_r; lia). lia.
Qed.
Lemma vars_frame : own_frame E (n_name f) n (num (Some i)) vars.
Proof. constructor; [exact (source_words p M)|exact vars_slots|exact vars_apart]. Qed.
End Rule.

Definition is_rule (r : nat) (g : str) : Prop := exists i f, nth_error (g_fns p) i = Some f /\ n_name f = g /\ (rank g < r)%nat.
Definition calls_ok (r : nat) : Prop := forall g m args t s c s', is_rule r g -> 2 <= t -> s_count s < e_stmt_limit E ->
  run_call E (run_block E m) g args t s = Done c s' -> clean s' -> sane s -> sane s' /\ s_count s' < e_stmt_limit E /\
    match rules g with Some v => c = CContinue /\ local s' t = Some (Some v) | None => c = CUndefined end.
Lemma linked_lower r i f q d : nth_error (g_fns p) i = Some f -> (rank (n_name f) <= r)%nat -> linked E p rank (n_name f) q d -> linked_deed E (is_rule r) q d.
Proof.
  intros Hf HR. destruct d as [x|g x| |]; cbn [linked linked_deed]; auto.
  - intros H I. apply H. destruct I as [<-|[<-|[]]]; [left|right]; reflexivity.
  - intros [H|(H1 & H2 & h & H3 & H4)]; [now left|right]. split; [|exact H1]. apply In_nth_error in H3 as (j & H3). exists j, h. repeat split; auto. lia.
Qed.
Lemma write_sane t v s s' : 2 <= t -> write_local t v s = Done tt s' -> sane s -> sane s' /\ s_count s' = s_count s /\ s_cache s' = s_cache s /\ s_with s' = s_with s /\ s_errors s' = s_errors s /\ local s' t = Some v.
Proof.
  intros Ht H SA. pose proof H as H0. apply write_inv in H as [R ->]. split; [|repeat split; now apply local_set_same].
  destruct SA as (A1 & A2 & A3 & A4 & A5). split; [unfold zlen in *; cbn [put set_frame s_frame]; now rewrite upd_length|]. unfold put. rewrite !local_set_other by lia. auto.
Qed.
Section Step.
Variable r : nat.
Hypothesis IH : calls_ok r.
Variable i : nat.
Variable f : fn str str.
Hypothesis Hf : nth_error (g_fns p) i = Some f.
Hypothesis HR : (rank (n_name f) <= r)%nat.
Notation L := (vars f).
Notation NR := (source_words p M).
Lemma body_run g m s c s' : znth (b_functions b) (Z.of_nat i) = Some g -> run_blocks (run_block E m) (f_blocks g) CContinue s = Done c s' -> clean s' ->
  s_count s < e_stmt_limit E -> In (n_name f) (s_stack s) -> sane s ->
  sane s' /\ s_count s' < e_stmt_limit E /\ exists v, v = rules (n_name f) /\ local s' (zn (f_result g)) = Some v /\ c = match v with Some _ => CReturn | None => CUndefined end.
Proof.
  intros Hg HRun CL CO IS SA. destruct (PO i f Hf) as (fresh & prefix & k & l & LR).
  destruct (built_rules p b E i f fresh prefix l C M B HE (lr_rule _ _ _ _ _ _ _ _ _ _ LR)) as (g' & HN & Hg' & CR & HRes). rewrite Hg in Hg'. injection Hg' as <-.
  assert (HF : Forall (hfair E n (is_rule r) true) (f_blocks g)).
  { destruct (cr_blocks _ _ _ _ _ _ _ _ _ _ CR) as (ls & HL & HB & _). rewrite (ro_code _ _ _ _ _ _ (lr_rule _ _ _ _ _ _ _ _ _ _ LR)) in HL. injection HL as <-.
    assert (FB : TermRunProofs.fine E sg L (linked_deed E (is_rule r) true) (fn_body f) \/ True) by (right; exact I). clear FB.
    unfold says_blocks in HB. eapply hfair_blocks; [exact HB|].
    intros d Id. apply in_flat_map in Id as (bl & I1 & I2). apply in_map_iff in I1 as (bl0 & <- & I1).
    unfold img in I2. apply in_flat_map in I2 as (st & I2 & I3). apply in_map_iff in I2 as (st0 & <- & I2). rewrite deeds_map in I3. apply in_map_iff in I3 as (d0 & <- & I3).
    assert (IB : In st0 (fn_body f)) by (unfold fn_body; apply in_concat; eauto).
    assert (W : forall x, In (DWrite x) (deeds st0) -> 2 <= num (Some i) x < n).
    { intros x J. assert (Lx : In x L) by (unfold vars; apply in_or_app; right; apply in_flat_map; exists st0; split; [exact IB|apply deed_locals; auto]).
      split; [|now apply (vars_slots i f Hf)]. apply (vars_high i f Hf); [exact Lx|].
      exact (linked_lower r i f true (DWrite x) Hf HR (lr_body _ _ _ _ _ _ _ _ _ _ LR (DWrite x) ltac:(apply in_flat_map; eauto))). }
    pose proof (linked_lower r i f true d0 Hf HR (lr_body _ _ _ _ _ _ _ _ _ _ LR d0 ltac:(apply in_flat_map; eauto))) as Bd.
    destruct d0 as [x|h x| |]; cbn [deed_map zok linked_deed] in *; auto.
    split; [|destruct Bd as [[? _]|[? _]]; auto]. apply W. apply (call_writes h x st0); exact I3. }
  destruct (H_run_blocks E n inp data rules (is_rule r) m true (H_block E n NR inp data rules (is_rule r) IH true true m) _ HF CContinue (within_cont _) _ _ _ HRun CL) as [CL0 P0].
  destruct P0 as [[SA' CO'] W]; [split; auto|]. specialize (CO' eq_refl).
  split; [exact SA'|]. split; [exact CO'|].
  assert (RN : ran E (n_name f) m (f_blocks g) s c s').
  { repeat (split; [assumption|]). destruct W as [[-> | ->]|[_ ->]]; repeat split; auto; discriminate. }
  pose proof (vars_slots i f Hf) as HL. pose proof (vars_apart i f Hf) as HI. pose proof (vars_high i f Hf) as HH.
  assert (RD : forall x, ~ reserved x -> ~ In x docs).
  { intros x N [<-|[<-|[]]]; apply N; [left|right]; reflexivity. }
  assert (X : TermRunProofs.ctx (n_name f) n (num (Some i)) L sane docs k docs rho s).
  { split; [split; [unfold vars; intros x I; apply in_or_app; now left|intros x I; exact I]|]. split; [|split; [split; [exact IS|split; [apply SA|exact SA]]|]].
    - intros q j I. elim (docs_not_tmp _ q j I eq_refl).
    - destruct (says_built p C M b B) as [_ [NI ND NO NS]]. intros x [<-|[<-|[]]]; rewrite ?NI, ?ND; eexists; (split; [reflexivity|]); apply SA. }
  assert (IR : In (n_result f) L).
  { unfold vars. apply in_or_app. right. destruct (c_result _ C i f Hf) as (I & _). apply in_flat_map in I as (st & I1 & I2). apply in_flat_map. exists st. split; [exact I1|now apply subjects_locals]. }
  assert (ND : ~ In (n_result f) docs) by (apply RD; apply (ro_result _ _ _ _ _ _ (lr_rule _ _ _ _ _ _ _ _ _ _ LR))).
  assert (FI : TermRunProofs.fine E sg L (linked_deed E (is_rule r) false) (rules_code (n_result f) (fun j => fresh j 0%nat 0%nat) 0 l)).
  { split; [|split].
    + intros x I. unfold vars. apply in_or_app. right. now apply (lr_locals _ _ _ _ _ _ _ _ _ _ LR).
    + intros x I. now apply (vars_strings i f Hf _ _ _ _ _ _ LR).
    + intros d I. apply (linked_lower r i f false d Hf HR). now apply (lr_code _ _ _ _ _ _ _ _ _ _ LR). }
  rewrite (PV f (nth_error_In _ _ Hf)).
  pose proof (lr_source _ _ _ _ _ _ _ _ _ _ LR) as HS. pose proof (lr_good _ _ _ _ _ _ _ _ _ _ LR) as HG. rewrite HRes.
  destruct (src (n_name f)) as [defs def|heads|pairs]; cbn [src_bodies good_src src_means] in *.
  - destruct HS as (k' & HS). destruct HG as (GD & GF & GR & GE).
    destruct (complete_run_ends E (n_name f) n NR _ _ fresh prefix (n_result f) m l (f_blocks g) s c s' (complete_kind _ _ _ _ _ HS) CR RN) as (s0 & vs & s1 & v & Q & _ & AD & _ & RV & LV & -> & bs' & c' & RE).
    exists v. split; [|auto].
    assert (C1 : clean s1) by (eapply clean_errs; [eapply errs_blocks; exact RE|exact CL]).
    assert (OFF : off L k docs (concat defs) (n_result f)) by (destruct GR as [RA RB]; repeat split; auto).
    refine (proj2 (complete_meaning E (n_name f) n NR (num (Some i)) sg L HL HI clean sane clean_back (linked_deed E (is_rule r) false) docs
      (linked_quiet n inp data rules (num (Some i)) L HH) (linked_run E (n_name f) n NR inp data rules (is_rule r) IH (num (Some i)) sg L HL HH)
      (linked_meet E (n_name f) n NR inp data rules (is_rule r) IH (num (Some i)) sg L HL HH) (linked_not E (n_name f) n NR inp data rules (is_rule r) IH (num (Some i)) sg L HL HH)
      (linked_call E (is_rule r)) rules (linked_ref E (n_name f) n inp data rules (is_rule r) IH (num (Some i)) sg L HH) call HA
      (fun j => fresh j 0%nat 0%nat) (n_result f) k defs def k' l docs rho s s0 vs s1 v HS GD GF X OFF _ FI Q AD C1 _ RV)).
    + intros j d I LD. destruct (ro_else _ _ _ _ _ _ (lr_rule _ _ _ _ _ _ _ _ _ _ LR) j d I LD) as (O & IL & _).
      destruct (GE j d I LD) as [Y1 Y2]. repeat split; auto; [unfold vars; apply in_or_app; now right|apply RD; apply O].
    + intros k1 t o u Ht Hw (F1 & F2 & _) FO X1 HD. destruct (GF t Ht) as [CT ST].
      apply (plain_default E (n_name f) n (num (Some i)) sg L (vars_frame i f Hf) rules call HA o t k1 k' docs rho s1 u Hw CT ST); auto; [| |intro; exact I].
      * destruct X1 as ((Y1 & Y2) & Y3 & (Y4 & Y5 & Y6) & Y7). apply plain_ctx; auto. split; auto.
      * split; [exact F1|]. split; [exact F2|]. intros d I. pose proof (proj1 constant_deeds t CT k1) as W'. rewrite Hw in W'. destruct (W' d I) as (x & ->). exact Logic.I.
  - destruct HS as (NE & k' & HS). destruct HG as (GD & GR).
    destruct (sets_run_ends E (n_name f) n NR _ _ fresh prefix (n_result f) m l (f_blocks g) s c s' (set_kind _ _ _ _ HS NE) CR RN) as (-> & s0 & vs & s1 & v & Q & _ & AD & [_ MV] & LV & bs' & c' & RE).
    assert (C1 : clean s1) by (eapply clean_errs; [eapply errs_blocks; exact RE|exact CL]).
    assert (OFF : off L k docs heads (n_result f)) by (destruct GR as [RA RB]; repeat split; auto).
    assert (V : vs = flat_map (head_values (e_fops E) call rules rho) heads).
    { exact (set_meaning E (n_name f) n NR (num (Some i)) sg L HL HI clean sane clean_back (linked_deed E (is_rule r) false) docs
      (linked_quiet n inp data rules (num (Some i)) L HH) (linked_run E (n_name f) n NR inp data rules (is_rule r) IH (num (Some i)) sg L HL HH)
      (linked_meet E (n_name f) n NR inp data rules (is_rule r) IH (num (Some i)) sg L HL HH) (linked_not E (n_name f) n NR inp data rules (is_rule r) IH (num (Some i)) sg L HL HH)
      (linked_call E (is_rule r)) rules (linked_ref E (n_name f) n inp data rules (is_rule r) IH (num (Some i)) sg L HH) call HA
      (fun j => fresh j 0%nat 0%nat) (n_result f) k heads k' l docs rho s s0 vs s1 HS GD X OFF FI Q AD C1). }
    exists (Some (VSet v)). rewrite <- V, <- MV. auto.
  - destruct HS as (NE & k' & HS). destruct HG as (GD & RA & RB).
    destruct (objects_run_ends E (n_name f) n NR _ _ fresh prefix (n_result f) m l (f_blocks g) s c s' (object_kind _ _ _ _ HS NE) CR RN) as (-> & s0 & kvs & s1 & v & Q & _ & AD & LV & MV & bs' & c' & RE).
    assert (C1 : clean s1) by (eapply clean_errs; [eapply errs_blocks; exact RE|exact CL]).
    assert (V : kvs = map (fun p => (Some (fst p), Some (snd p))) (flat_map (head_pairs (e_fops E) call rules rho) pairs)).
    { exact (object_meaning E (n_name f) n NR (num (Some i)) sg L HL HI clean sane clean_back (linked_deed E (is_rule r) false) docs
      (linked_quiet n inp data rules (num (Some i)) L HH) (linked_run E (n_name f) n NR inp data rules (is_rule r) IH (num (Some i)) sg L HL HH)
      (linked_meet E (n_name f) n NR inp data rules (is_rule r) IH (num (Some i)) sg L HL HH) (linked_not E (n_name f) n NR inp data rules (is_rule r) IH (num (Some i)) sg L HL HH)
      (linked_call E (is_rule r)) rules (linked_ref E (n_name f) n inp data rules (is_rule r) IH (num (Some i)) sg L HH) call HA
      (fun j => fresh j 0%nat 0%nat) (n_result f) k pairs k' l docs rho s s0 kvs s1 HS GD X IR ND RA RB FI Q AD C1). }
    destruct (MV _ V) as [_ MV']. exists (Some (VObject v)). rewrite <- MV'. auto.
Qed.
Lemma call_step m args t s c s' : 2 <= t -> s_count s < e_stmt_limit E -> run_call E (run_block E m) (n_name f) args t s = Done c s' -> clean s' -> sane s ->
  sane s' /\ s_count s' < e_stmt_limit E /\ match rules (n_name f) with Some v => c = CContinue /\ local s' t = Some (Some v) | None => c = CUndefined end.
Proof.
  intros Ht CO H0 CL SA. destruct (PO i f Hf) as (fresh & prefix & k & l & LR).
  destruct (built_rules p b E i f fresh prefix l C M B HE (lr_rule _ _ _ _ _ _ _ _ _ _ LR)) as (g & HN & Hg & _).
  assert (FN : f_name g = n_name f /\ length (f_params g) = 2%nat).
  { destruct (says_built p C M b B) as [[_ _ SF] _]. unfold znth in Hg. destruct (_ && _); [|discriminate]. rewrite Nat2Z.id in Hg.
    destruct (forall2_nth _ _ _ SF _ _ _ (numbered_nth p _ _ Hf) Hg) as (HM0 & HM & _). cbn [fst snd] in HM0, HM. split; [exact HM0|].
    rewrite (lr_params _ _ _ _ _ _ _ _ _ _ LR) in HM. apply (f_equal (@length Z)) in HM. rewrite !map_length in HM. exact HM. }
  destruct FN as [FN FP].
  unfold run_call in H0. unfold bind at 1, get at 1 in H0. destruct (existsb (str_eqb (n_name f)) (s_stack s)) eqn:Ex; [discriminate|].
  rewrite (lr_name _ _ _ _ _ _ _ _ _ _ LR), HE, HN in H0. unfold bind at 1, vnth in H0. replace (zn (N.of_nat i)) with (Z.of_nat i) in H0 by lia. rewrite Hg in H0.
  cbn [ret] in H0. unfold bind at 1, get at 1 in H0. unfold bind at 1, get at 1 in H0.
  pose proof SA as (A1 & A2 & A3 & A4 & A5). rewrite A4 in H0. cbn [Z.ltb Z.compare] in H0. rewrite FN in H0.
  destruct (sm_find (n_name f) (s_cache s)) as [cached|] eqn:EC.
  { destruct (A5 _ _ EC) as (u & -> & -> & NE). unfold bind in H0. destruct (write_local t (Some u) s) as [[] s1|s1|q s1|s1] eqn:Ew; try discriminate.
    injection H0 as <- <-. destruct (write_sane _ _ _ _ Ht Ew SA) as (S1 & C1 & _ & _ & _ & L1). split; [exact S1|]. split; [lia|]. split; [|exact L1].
    destruct u; try reflexivity. elim (NE _ eq_refl). }
  destruct (zlen args <? zlen (f_params g)).
  { unfold bind, add_error, modify, ret in H0. injection H0 as <- <-. unfold clean in CL. cbn in CL. apply app_eq_nil in CL as [_ CL]. discriminate. }
  destruct (f_params g) as [|q1 [|q2 [|q3 qs]]]; try discriminate FP. cbn [skipn write_params] in H0. unfold bind at 1, ret at 1 in H0.
  destruct (e_call_depth E <=? zlen (s_stack s)).
  { unfold bind, add_error, modify, ret in H0. injection H0 as <- <-. unfold clean in CL. cbn in CL. apply app_eq_nil in CL as [_ CL]. discriminate. }
  unfold bind at 1, modify at 1 in H0.
  destruct (f_blocks g) as [|b0 bs0] eqn:Eb; [discriminate|]. rewrite <- Eb in *. clear b0 bs0 Eb.
  unfold bind at 1 in H0. set (s2 := add_log _ _) in H0.
  destruct (run_blocks (run_block E m) (f_blocks g) CContinue s2) as [c1 s3|s3|q s3|s3] eqn:Er; try discriminate.
  unfold bind at 1, modify at 1 in H0. set (s4 := set_stack _ _ s3) in H0.
  assert (C3 : clean s3).
  { change (clean s4). destruct c1; try (injection H0 as <- <-; exact CL).
    unfold bind at 1 in H0. destruct (read_local _ s4) as [v s5|s5|q s5|s5] eqn:E5; try discriminate. apply read_inv in E5 as [-> _].
    unfold bind at 1 in H0. destruct (write_local t v s4) as [u s6|s6|q s6|s6] eqn:E6; try discriminate. apply write_inv in E6 as [_ ->].
    unfold bind at 1, modify at 1 in H0. unfold clean in *.
    destruct (f_cacheable g && _), v as [[]|]; try (injection H0 as <- <-; exact CL);
      unfold bind, add_error, modify, ret in H0; injection H0 as <- <-; cbn in CL; now apply app_eq_nil in CL. }
  destruct (body_run g m s2 c1 s3 Hg Er C3 CO (or_introl eq_refl) SA) as (S3 & CO3 & v & Qv & LV & ->).
  assert (S4 : sane s4) by exact S3. rewrite <- Qv. destruct v as [v|]; [|injection H0 as <- <-; auto].
  unfold bind at 1 in H0. destruct (read_local _ s4) as [w s5|s5|q s5|s5] eqn:E5; try discriminate. apply read_inv in E5 as [-> E5].
  change (local s4 (zn (f_result g))) with (local s3 (zn (f_result g))) in E5. rewrite LV in E5. injection E5 as <-.
  unfold bind at 1 in H0. destruct (write_local t (Some v) s4) as [[] s6|s6|q s6|s6] eqn:E6; try discriminate.
  destruct (write_sane _ _ _ _ Ht E6 S4) as (S6 & K1 & K2 & K3 & K4 & K5). change (s_count s4) with (s_count s3) in K1.
  unfold bind at 1, modify at 1 in H0.
  set (s7 := if f_cacheable g && negb (0 <? s_with s6) then _ else s6) in H0.
  assert (NE : (forall e, v <> VErr e) /\ c = CContinue /\ s' = s7).
  { destruct v; try (injection H0 as <- <-; repeat split; discriminate).
    unfold bind, add_error, modify, ret in H0. injection H0 as <- <-. unfold clean in CL. cbn in CL. apply app_eq_nil in CL as [_ CL]. discriminate. }
  destruct NE as (NE & -> & ->).
  assert (X7 : s_frame s7 = s_frame s6 /\ s_with s7 = s_with s6 /\ s_count s7 = s_count s6) by (unfold s7; destruct (_ && _); repeat split).
  destruct X7 as (X1 & X2 & X3). destruct S6 as (B1 & B2 & B3 & B4 & B5). split; [|split; [lia|split; [reflexivity|]]].
  - unfold TermSaneProofs.sane, local in *. rewrite X1, X2. repeat (split; [assumption|]). intros h cv. unfold s7. destruct (_ && _); [|apply B5].
    cbn [set_cache s_cache]. intro Q. apply set_cases in Q as [[-> ->]|Q]; [|now apply B5]. exists v. split; [reflexivity|]. split; [now symmetry|exact NE].
  - unfold local in *. now rewrite X1.
Qed.
End Step.
Lemma calls_all : forall r, calls_ok r.
Proof.
  induction r as [|r IH]; intros g m args t s c s' (i & f & Hf & <- & HR); [lia|]. apply (call_step r IH i f Hf). lia.
Qed.

(** ** Queries *)
Lemma policy_query pl obj index val x e args f res : entry_of p pl obj index val x e -> ~ reserved x -> ob_code e = [ICall (n_name f) args x] -> In f (g_fns p) ->
  run_entrypoint E (l_name pl) (Some inp) = Ok res ->
  res = QError \/ (exists es, es <> [] /\ res = QErrors es) \/ exists ws, RuleSpec.gives (l_name pl) (rules (n_name f)) ws /\ res = answer ws.
Proof.
  intros HO NRx HEC If H. apply In_nth_error in If as (i & Hf).
  destruct (built_entry p C M b B E _ _ _ _ _ _ HE HO) as (ip & y & P1 & P2 & CE). rewrite <- HE in P1, P2.
  destruct (entry_answer E _ _ _ _ _ _ _ _ _ _ _ _ _ P1 P2 CE H) as [->|[Q|(bl & c & t & v & vs & A1 & A2 & A3 & A4 & A5 & ->)]]; [now left|now right; left|].
  right. right. exists vs. split; [|reflexivity]. rewrite HEC in A1. cbn [img map map_ir] in A1. apply opt_out in A1 as (st & l' & -> & A1 & Hl). apply opt_nil in Hl as ->.
  apply says_rest in A1 as (a0 & b0 & mops & -> & _).
  destruct (says_built p C M b B) as [[SD SPl _] [NI ND NO NS]].
  assert (T2 : 2 <= num None x).
  { apply (NO (None, x)); [|exact NRx]. apply (plan_named p pl); [apply HO|].
    assert (IC : exists bl0, In bl0 (l_blocks pl) /\ In (ICall (n_name f) args x) bl0).
    { pose proof (eo_code _ _ _ _ _ _ _ HO) as EP. unfold entry_plan in EP. rewrite HEC in EP.
      repeat match type of EP with context [match ?z with _ => _ end] => destruct z; try discriminate EP end; injection EP as <-; cbn [l_blocks]; eexists; (split; [left; reflexivity|left; reflexivity]). }
    destruct IC as (bl0 & J1 & J2). apply in_flat_map. exists (ICall (n_name f) args x). split; [unfold pl_body; apply in_concat; eauto|apply writes_locals; cbn; auto]. }
  assert (S0 : sane (initial E (Some inp))).
  { assert (Q : b = bundle_of p).
    { destruct M as [M1 M2]. assert (HB : build p = Ok (bundle_of p)) by (apply build_ok; auto; apply C). rewrite B in HB. now injection HB. }
    assert (LEN : zn (b_locals b) = Z.max 3 (Z.of_nat (count_locals p) + 2)) by (rewrite Q, locals_B; now apply top_exact).
    assert (EX : exists rest, s_frame (initial E (Some inp)) = Some inp :: Some data :: rest /\ zlen (s_frame (initial E (Some inp))) = zn (b_locals b)).
    { unfold initial. rewrite HE. cbn [set_frame s_frame init_state]. rewrite SD. remember (N.to_nat (b_locals b)) as u eqn:U.
      destruct u as [|[|u]]; [lia|lia|]. exists (repeat None u). split; [reflexivity|]. unfold zlen. cbn [repeat upd length]. rewrite repeat_length. lia. }
    destruct EX as (rest & FR & ZL). split; [rewrite ZL, LEN; unfold frame_size; lia|]. unfold local. rewrite FR. split; [reflexivity|]. split.
    - unfold znth, zlen. cbn [length]. destruct (Z.ltb_spec 1 (Z.of_nat (S (S (length rest))))); [reflexivity|lia].
    - split; [reflexivity|]. intros g cv Q'. discriminate. }
  destruct (block_fuel E) as [|m]; [discriminate|]. cbn [run_block] in A2. unfold bind at 1, get at 1 in A2. destruct (_ <=? _).
  { unfold bind, add_error, modify, ret in A2. injection A2 as <- <-. cbn in A3. discriminate. }
  unfold bind at 1, modify at 1 in A2. unfold bind at 1 in A2. set (s1 := add_depth 1 _) in A2.
  destruct (run_stmts E (run_block E m) _ CContinue s1) as [c2 s2|s2|q s2|s2] eqn:E2; try discriminate. unfold bind, modify, ret in A2. injection A2 as <- <-.
  cbn [run_stmts] in E2. unfold bind at 1 in E2. set (st := Stmt SCall _ _ _ _) in E2.
  destruct (run_stmt E (run_block E m) st s1) as [c3 s3|s3|q s3|s3] eqn:E3; try discriminate.
  assert (Q3 : s_errors s3 = [] /\ (c3 = CContinue \/ c3 = CUndefined -> c2 = c3 /\ s2 = s3)).
  { destruct c3; try discriminate E2; unfold bind, modify, ret in E2; injection E2 as <- <-; split; auto; intros [?|?]; discriminate. }
  destruct Q3 as [C3 Q3]. unfold run_stmt in E3. unfold bind at 1, modify at 1 in E3. unfold bind at 1, get at 1 in E3.
  destruct (Z.leb_spec (e_stmt_limit E) (s_count (inc_stmts s1))) as [|LT].
  { unfold bind, add_error, modify, ret in E3. injection E3 as <- <-. cbn in C3. discriminate. }
  unfold bind at 1, modify at 1 in E3. unfold st at 1 in E3. cbn [dispatch] in E3.
  assert (IR : is_rule (S (rank (n_name f))) (n_name f)) by (exists i, f; repeat split; auto).
  refine (match calls_all _ _ m mops (num None x) _ c3 s3 IR T2 _ E3 C3 _ with conj _ (conj _ RV) => _ end); [exact LT|exact S0|].
  destruct (rules (n_name f)) as [w|].
  - destruct RV as [-> RV]. destruct (Q3 (or_introl eq_refl)) as [-> ->]. change (local s3 (num None x) = Some v) in A4. rewrite RV in A4. injection A4 as <-. exact A5.
  - subst c3. destruct (Q3 (or_intror eq_refl)) as [-> ->]. subst v. exact A5.
Qed.
End Policy.

(** ** Values of policies *)
Section Values.
Variable F : fops.
Variable call : str -> list value -> value.
Section Same.
Variables r1 r2 : str -> option value.
Lemma eval_same :
  (forall t, (forall g, In g (refs t) -> r1 g = r2 g) -> forall rho, eval F call r1 rho t = eval F call r2 rho t) /\
  (forall l, (forall g, In g (refs_list l) -> r1 g = r2 g) -> forall rho, evals F call r1 rho l = evals F call r2 rho l) /\
  (forall l, (forall g, In g (refs_items l) -> r1 g = r2 g) -> forall rho, eval_items F call r1 rho l = eval_items F call r2 rho l) /\
  (forall q, (forall g, In g (refs_query q) -> r1 g = r2 g) -> forall rho, sols F call r1 rho q = sols F call r2 rho q).
Proof.
  assert (FE : forall A B (f g : A -> list B), (forall a, f a = g a) -> forall l, flat_map f l = flat_map g l) by (intros; now apply flat_map_ext).
  assert (FB : forall A (f g : A -> bool), (forall a, f a = g a) -> forall l, forallb f l = forallb g l) by (intros A f g H; induction l as [|a l IH]; [reflexivity|]; cbn [forallb]; now rewrite H, IH).
  apply term_comb; try (intros; reflexivity).
  - intros l IH H rho. change (option_map VArray (evals F call r1 rho l) = option_map VArray (evals F call r2 rho l)). now rewrite IH.
  - intros l IH H rho. change (option_map (fun vs => VSet (fold_left (add_member F) vs [])) (evals F call r1 rho l) = option_map (fun vs => VSet (fold_left (add_member F) vs [])) (evals F call r2 rho l)). now rewrite IH.
  - intros l IH H rho. change (option_map (fun kvs => VObject (fold_left (fun o kv => put_item F o (fst kv) (snd kv)) kvs [])) (eval_items F call r1 rho l) = option_map (fun kvs => VObject (fold_left (fun o kv => put_item F o (fst kv) (snd kv)) kvs [])) (eval_items F call r2 rho l)). now rewrite IH.
  - intros a IHa k IHk H rho. cbn [refs] in H. cbn [eval]. rewrite IHa, IHk; auto; intros; apply H, in_or_app; auto.
  - intros f l IH H rho. change (option_map (call f) (evals F call r1 rho l) = option_map (call f) (evals F call r2 rho l)). now rewrite IH.
  - intros a IH H rho. cbn [eval]. now rewrite IH.
  - intros a IHa k IHk H rho. cbn [refs] in H. cbn [eval]. rewrite IHa, IHk; auto; intros; apply H, in_or_app; auto.
  - intros a IHa k IHk H rho. cbn [refs] in H. cbn [eval]. rewrite IHa, IHk; auto; intros; apply H, in_or_app; auto.
  - intros a IHa k IHk s IHs H rho. cbn [refs] in H. cbn [eval]. rewrite IHa, IHk, IHs; auto; intros; apply H; rewrite !in_app_iff; auto.
  - intros v IHv q IHq H rho. cbn [refs] in H.
    change (Some (VArray (flat_map (fun r => match eval F call r1 r v with Some x => [x] | None => [] end) (sols F call r1 rho q))) = Some (VArray (flat_map (fun r => match eval F call r2 r v with Some x => [x] | None => [] end) (sols F call r2 rho q)))).
    rewrite IHq by (intros; apply H, in_or_app; auto). do 2 f_equal. apply FE. intro r. rewrite IHv; [reflexivity|intros; apply H, in_or_app; auto].
  - intros v IHv q IHq H rho. cbn [refs] in H.
    change (Some (VSet (fold_left (add_member F) (flat_map (fun r => match eval F call r1 r v with Some x => [x] | None => [] end) (sols F call r1 rho q)) [])) = Some (VSet (fold_left (add_member F) (flat_map (fun r => match eval F call r2 r v with Some x => [x] | None => [] end) (sols F call r2 rho q)) []))).
    rewrite IHq by (intros; apply H, in_or_app; auto). do 3 f_equal. apply FE. intro r. rewrite IHv; [reflexivity|intros; apply H, in_or_app; auto].
  - intros k IHk v IHv q IHq H rho. cbn [refs] in H.
    change (Some (VObject (fold_left (fun o kv => put_item F o (fst kv) (snd kv)) (flat_map (fun r => match eval F call r1 r k, eval F call r1 r v with Some x, Some y => [(x, y)] | _, _ => [] end) (sols F call r1 rho q)) [])) =
            Some (VObject (fold_left (fun o kv => put_item F o (fst kv) (snd kv)) (flat_map (fun r => match eval F call r2 r k, eval F call r2 r v with Some x, Some y => [(x, y)] | _, _ => [] end) (sols F call r2 rho q)) []))).
    rewrite IHq by (intros; apply H, in_or_app; auto). do 3 f_equal. apply FE. intro r. rewrite IHk, IHv; [reflexivity| |]; intros; apply H; rewrite !in_app_iff; auto.
  - intros f H rho. apply H. now left.
  - intros t IHt l IHl H rho. cbn [refs_list] in H. cbn [evals].
    change (match eval F call r1 rho t, evals F call r1 rho l with Some v, Some vs => Some (v :: vs) | _, _ => None end = match eval F call r2 rho t, evals F call r2 rho l with Some v, Some vs => Some (v :: vs) | _, _ => None end).
    rewrite IHt, IHl; auto; intros; apply H, in_or_app; auto.
  - intros k IHk v IHv l IHl H rho. cbn [refs_items] in H.
    change (match eval F call r1 rho k, eval F call r1 rho v, eval_items F call r1 rho l with Some x, Some y, Some r => Some ((x, y) :: r) | _, _, _ => None end =
            match eval F call r2 rho k, eval F call r2 rho v, eval_items F call r2 rho l with Some x, Some y, Some r => Some ((x, y) :: r) | _, _, _ => None end).
    rewrite IHk, IHv, IHl; auto; intros; apply H; rewrite !in_app_iff; auto.
  - intros t IHt q IHq H rho. cbn [refs_query] in H.
    change (match eval F call r1 rho t with Some v => if holds F v then sols F call r1 rho q else [] | None => [] end = match eval F call r2 rho t with Some v => if holds F v then sols F call r2 rho q else [] | None => [] end).
    rewrite IHt, IHq; auto; intros; apply H, in_or_app; auto.
  - intros x t IHt q IHq H rho. cbn [refs_query] in H.
    change (match eval F call r1 rho t with Some v => sols F call r1 (bind_var x v rho) q | None => [] end = match eval F call r2 rho t with Some v => sols F call r2 (bind_var x v rho) q | None => [] end).
    rewrite IHt by (intros; apply H, in_or_app; auto). destruct (eval F call r2 rho t); [|reflexivity]. apply IHq. intros; apply H, in_or_app; auto.
  - intros q1 IH1 q IHq H rho. cbn [refs_query] in H.
    change (match sols F call r1 rho q1 with [] => sols F call r1 rho q | _ => [] end = match sols F call r2 rho q1 with [] => sols F call r2 rho q | _ => [] end).
    rewrite IH1, IHq; auto; intros; apply H, in_or_app; auto.
  - intros dom key val body IHb q IHq H rho. cbn [refs_query] in H.
    change (match rho dom with Some d => match elements d with Some l =>
      if forallb (fun kv => match sols F call r1 (bind_var val (snd kv) (match key with Some x => bind_var x (fst kv) rho | None => rho end)) body with [] => false | _ => true end) l then sols F call r1 rho q else [] | None => [] end | None => [] end =
      match rho dom with Some d => match elements d with Some l =>
      if forallb (fun kv => match sols F call r2 (bind_var val (snd kv) (match key with Some x => bind_var x (fst kv) rho | None => rho end)) body with [] => false | _ => true end) l then sols F call r2 rho q else [] | None => [] end | None => [] end).
    destruct (rho dom) as [d|]; [|reflexivity]. destruct (elements d) as [l|]; [|reflexivity]. rewrite (IHq ltac:(intros; apply H, in_or_app; auto)).
    rewrite (FB _ _ (fun kv => match sols F call r2 (bind_var val (snd kv) (match key with Some x => bind_var x (fst kv) rho | None => rho end)) body with [] => false | _ => true end)); [reflexivity|].
    intro kv. rewrite IHb; [reflexivity|]. intros; apply H, in_or_app; auto.
  - intros t IHt k v q IHq H rho. cbn [refs_query] in H.
    change (match eval F call r1 rho t with Some d => match elements d with Some l => flat_map (fun kv => sols F call r1 (bind_var v (snd kv) (bind_var k (fst kv) rho)) q) l | None => [] end | None => [] end =
            match eval F call r2 rho t with Some d => match elements d with Some l => flat_map (fun kv => sols F call r2 (bind_var v (snd kv) (bind_var k (fst kv) rho)) q) l | None => [] end | None => [] end).
    rewrite IHt by (intros; apply H, in_or_app; auto). destruct (eval F call r2 rho t) as [d|]; [|reflexivity]. destruct (elements d) as [l|]; [|reflexivity].
    apply FE. intro kv. apply IHq. intros; apply H, in_or_app; auto.
Qed.
Lemma heads_same rho b : (forall g, In g (refs_query (snd b) ++ refs (fst b)) -> r1 g = r2 g) -> head_values F call r1 rho b = head_values F call r2 rho b.
Proof.
  intro H. unfold head_values. rewrite (proj2 (proj2 (proj2 eval_same)) (snd b)) by (intros; apply H; rewrite !in_app_iff; auto). apply flat_map_ext. intro r.
  rewrite (proj1 eval_same (fst b)); [reflexivity|]. intros; apply H; rewrite !in_app_iff; auto.
Qed.
Lemma pairs_same rho b : (forall g, In g (refs_query (snd b) ++ refs (fst (fst b)) ++ refs (snd (fst b))) -> r1 g = r2 g) -> head_pairs F call r1 rho b = head_pairs F call r2 rho b.
Proof.
  intro H. unfold head_pairs. rewrite (proj2 (proj2 (proj2 eval_same)) (snd b)) by (intros; apply H; rewrite !in_app_iff; auto). apply flat_map_ext. intro r.
  rewrite (proj1 eval_same (fst (fst b))), (proj1 eval_same (snd (fst b))); [reflexivity| |]; intros; apply H; rewrite !in_app_iff; auto.
Qed.
Lemma flat_same {A B} (u w : A -> list B) (w2 : A -> list str) : (forall a, (forall g, In g (w2 a) -> r1 g = r2 g) -> u a = w a) ->
  forall l, (forall g, In g (flat_map w2 l) -> r1 g = r2 g) -> flat_map u l = flat_map w l.
Proof.
  intro H. induction l as [|a l IH]; intro G; [reflexivity|]. cbn [flat_map] in *. rewrite (H a), IH; [reflexivity| |]; intros; apply G, in_or_app; auto.
Qed.
Lemma means_same rho r : (forall g, In g (rule_refs r) -> r1 g = r2 g) -> src_means F call r1 rho r = src_means F call r2 rho r.
Proof.
  intro H. destruct r as [defs def|l|l]; cbn [rule_refs src_means] in *.
  2:{ do 3 f_equal. eapply flat_same; [|exact H]. intros b. apply heads_same. }
  2:{ do 3 f_equal. eapply flat_same; [|exact H]. intros b. apply pairs_same. }
  assert (D : flat_map (first_values F call r1 rho) defs = flat_map (first_values F call r2 rho) defs).
  { assert (H1 : forall g, In g (flat_map (fun b => refs_query (snd b) ++ refs (fst b)) (concat defs)) -> r1 g = r2 g) by (intros; apply H, in_or_app; auto).
    clear H. induction defs as [|d defs IH]; [reflexivity|]. cbn [flat_map concat] in *. rewrite flat_map_app in H1. rewrite IH by (intros; apply H1, in_or_app; auto). f_equal.
    assert (H2 : forall g, In g (flat_map (fun b => refs_query (snd b) ++ refs (fst b)) d) -> r1 g = r2 g) by (intros; apply H1, in_or_app; auto).
    clear - H2. induction d as [|b d IH]; [reflexivity|]. cbn [first_values flat_map] in *. rewrite IH by (intros; apply H2, in_or_app; auto).
    rewrite heads_same; [reflexivity|]. intros; apply H2, in_or_app; auto. }
  unfold rule_means. rewrite D. destruct (flat_map (first_values F call r2 rho) defs); [|reflexivity]. destruct def as [t|]; [|reflexivity]. apply (proj1 eval_same). intros g I. apply H, in_or_app. right. cbn. now rewrite app_nil_r.
Qed.
End Same.
Variable p : prog.
Variable rank : str -> nat.
Variable src : str -> rule_src.
Variable input : value.
Hypothesis RK : ranked p rank src.
Notation rho := (asked_values (Some input) (g_data p)).
Fixpoint values_to (k : nat) (g : str) : option value :=
  match k with O => None | S k' => src_means F call (values_to k') rho (src g) end.
Lemma values_step : forall k f, In f (g_fns p) -> (rank (n_name f) < k)%nat -> values_to (S k) (n_name f) = values_to k (n_name f).
Proof.
  induction k as [|k IH]; intros f I L; [lia|]. cbn [values_to]. apply means_same. intros g Ig. destruct (RK f g I Ig) as (L2 & h & Ih & <-). apply (IH h Ih). lia.
Qed.
Lemma values_more f : In f (g_fns p) -> forall d k, (rank (n_name f) < k)%nat -> values_to (d + k) (n_name f) = values_to k (n_name f).
Proof. intro I. induction d as [|d IH]; intros k L; [reflexivity|]. change (S d + k)%nat with (S (d + k)). rewrite values_step by (auto; lia). now apply IH. Qed.
Lemma values_exist : policy_values F call p src input (fun g => values_to (S (rank g)) g).
Proof.
  intros f I. cbn [values_to]. apply means_same. intros g Ig. destruct (RK f g I Ig) as (L & h & Ih & <-).
  replace (rank (n_name f)) with ((rank (n_name f) - S (rank (n_name h))) + S (rank (n_name h)))%nat by lia. apply (values_more h Ih). lia.
Qed.
Lemma values_unique r1 r2 : policy_values F call p src input r1 -> policy_values F call p src input r2 -> forall f, In f (g_fns p) -> r1 (n_name f) = r2 (n_name f).
Proof.
  intros P1 P2. assert (G : forall k f, In f (g_fns p) -> (rank (n_name f) < k)%nat -> r1 (n_name f) = r2 (n_name f)).
  { induction k as [|k IH]; intros f I L; [lia|]. rewrite (P1 f I), (P2 f I). apply means_same. intros g Ig. destruct (RK f g I Ig) as (L2 & h & Ih & <-). apply IH; [exact Ih|lia]. }
  intros f I. apply (G (S (rank (n_name f)))); auto.
Qed.
End Values.
