(** The compiled definitions of a set rule. *)
From Coq Require Import String ZArith List Bool Lia.
From Verif Require Import Base SMap ValueModel ValueSpec ResolverModel VmModel VmSpec VmProofs VmSimProofs VmStmtProofs PlanModel PlanSpec PlanProofs
  RuleModel RuleSpec RuleVmProofs RuleVisitProofs RuleProofs RuleCompleteProofs RuleFnProofs.
From Verif Require TermSpec.
Import ListNotations.
Local Open Scope Z_scope.

(** ** Adding to a set *)
Section Added.
Variable E : env.
Definition added (l : list value) (v : option value) (l' : list value) : Prop :=
  match v with
  | None => l' = l
  | Some u => (exists y, In y l /\ same_value E u y) /\ l' = l \/ (forall y, In y l -> ~ same_value E u y) /\ l' = l ++ [u]
  end.
Lemma split_last {A} (l : list A) u l1 a l2 b l3 : l ++ [u] = l1 ++ a :: l2 ++ b :: l3 ->
  (l3 = [] /\ b = u /\ l = l1 ++ a :: l2) \/ exists l3', l = l1 ++ a :: l2 ++ b :: l3'.
Proof.
  destruct l3 as [|x l3' ] using rev_ind; intro H.
  - left. replace (l1 ++ a :: l2 ++ [b]) with ((l1 ++ a :: l2) ++ [b]) in H by (rewrite <- app_assoc; reflexivity).
    apply app_inj_tail in H as [-> ->]. auto.
  - right. exists l3'. replace (l1 ++ a :: l2 ++ b :: l3' ++ [x]) with ((l1 ++ a :: l2 ++ b :: l3') ++ [x]) in H.
    + apply app_inj_tail in H as [-> _]. reflexivity.
    + rewrite <- app_assoc. cbn. rewrite <- app_assoc. reflexivity.
Qed.
Lemma added_set vs l v l' : set_of E vs l -> added l v l' -> set_of E (vs ++ match v with Some u => [u] | None => [] end) l'.
Proof.
  intros (A & B & C) H. destruct v as [u|]; [|rewrite app_nil_r; cbn in H; subst; split; auto].
  destruct H as [[(y & I & S) ->]|[N ->]].
  - split; [|split]; auto.
    + intros v Hv. apply in_app_iff in Hv as [Hv|[<-|[]]]; eauto.
    + intros z Hz. apply in_or_app. auto.
  - split; [|split].
    + intros v Hv. apply in_app_iff in Hv as [Hv|[<-|[]]].
      * destruct (A v Hv) as (y & I & S). exists y. split; [apply in_or_app; auto|exact S].
      * exists u. split; [apply in_or_app; right; now left|reflexivity].
    + intros z Hz. apply in_app_iff in Hz as [Hz|[<-|[]]]; apply in_or_app; [left; auto|right; now left].
    + intros l1 a l2 b l3 H. apply split_last in H as [(-> & -> & ->)|(l3' & ->)]; [|eapply C; reflexivity].
      intro S. apply (N a); [apply in_or_app; right; now left|]. unfold same_value in *. congruence.
Qed.
(** The members in the order they came in. *)
Notation gather := (fold_left (TermSpec.add_member (e_fops E))).
Definition members (vs l : list value) : Prop := set_of E vs l /\ l = gather vs [].
Lemma added_gather l u l' : added l (Some u) l' -> l' = TermSpec.add_member (e_fops E) l u.
Proof.
  unfold TermSpec.add_member, TermSpec.same. intros [[(y & I & S) ->]|[N ->]].
  - replace (existsb _ l) with true; [reflexivity|]. symmetry. apply existsb_exists. exists y. split; [exact I|]. unfold same_value in S. rewrite S. apply str_eqb_refl.
  - destruct (existsb _ l) eqn:X; [|reflexivity]. apply existsb_exists in X as (y & I & S). apply str_eqb_eq in S. elim (N y I). exact S.
Qed.
Lemma added_members vs l v l' : members vs l -> added l v l' -> members (vs ++ match v with Some u => [u] | None => [] end) l'.
Proof.
  intros [A B] H. split; [eapply added_set; eauto|]. rewrite fold_left_app, <- B. destruct v as [u|]; [|exact H]. cbn [fold_left]. now apply added_gather.
Qed.
(** The content of the local from visit to visit. *)
Definition grows (o : op Z Z) (cur : option value) (t : state) (cur' : option value) : Prop :=
  forall l, cur = Some (VSet l) -> exists l', cur' = Some (VSet l') /\ added l (value_at E t o) l'.
Lemma chain_grows o cur ts cur' : chain (grows o) cur ts cur' -> forall vs l, cur = Some (VSet l) -> members vs l ->
  exists l', cur' = Some (VSet l') /\ members (vs ++ values_at E o ts) l'.
Proof.
  induction 1 as [a|a t a1 ts a' HR HC IH]; intros vs l HL HS.
  - exists l. rewrite app_nil_r. auto.
  - destruct (HR l HL) as (l1 & H1 & H2). destruct (IH _ l1 H1 (added_members _ _ _ _ HS H2)) as (l' & H3 & H4).
    exists l'. split; [exact H3|]. unfold values_at. cbn [flat_map]. rewrite app_assoc. exact H4.
Qed.
End Added.

Section Sets.
Variable E : env.
Variable fn : str.
Variable n : Z.
Hypothesis NR : n <= 2 ^ 64.
Variables rho sigma : str -> Z.
Notation img := (img rho sigma).
Notation iop := (iop rho sigma).
Notation says_list := (opt_list says).
Notation asks := (asks E rho sigma).
Notation each_asked := (each_asked E rho sigma).

Lemma run_setadd rb st o x s c s' l : says st = Some (ISetAdd o x) -> Forall (fun x => 0 <= x < n) (op_local o) ->
  run_stmt E rb st s = Done c s' -> good c -> local s x = Some (Some (VSet l)) ->
  s_stack s' = s_stack s /\ exists l', local s' x = Some (Some (VSet l')) /\ added E l (value_at E s o) l'.
Proof.
  intros Hs HF H Hc L. apply says_leaf in Hs as (a & b & -> & Ha). apply run_stmt_inv in H as [_ H]; [|now apply good_not_timeout].
  cbn [dispatch] in H. unfold bind at 1 in H. destruct (read_local x _) as [y s1|s1|f s1|s1] eqn:Er; try discriminate.
  apply read_inv in Er as [-> Er]. change (local (started _ s) x) with (local s x) in Er. rewrite L in Er. injection Er as <-.
  unfold bind at 1 in H. destruct (unpack_operand E a _) as [v s1|s1|f s1|s1] eqn:Eu; try discriminate.
  apply (unpack_value E n NR _ _ _ _ _ Ha HF) in Eu as [-> Ev]. change (value_at E (started _ s) o) with (value_at E s o) in Ev. rewrite <- Ev.
  destruct v as [u|].
  - destruct (existsb _ _) eqn:Ek.
    + injection H as <- <-. split; [reflexivity|]. exists l. split; [exact L|]. left. split; [|reflexivity].
      apply existsb_exists in Ek as (k & I & Hk). apply in_map_iff in I as (y & <- & I). exists y. split; [exact I|]. now apply str_eqb_eq.
    + unfold bind at 1 in H. destruct (write_local x _ _) as [w s1|s1|f s1|s1] eqn:Ew; try discriminate. apply write_inv in Ew as [R ->].
      cbn in H. injection H as <- <-. split; [reflexivity|]. exists (l ++ [u]).
      split; [exact (local_set_same (started (Stmt SSetAdd a b x None) s) x (Some (VSet (l ++ [u]))) R)|]. right. split; [|reflexivity].
      intros y I S. apply not_true_iff_false in Ek. apply Ek. apply existsb_exists. exists (to_key (e_fops E) y).
      split; [now apply in_map|]. now apply str_eqb_eq.
  - injection H as <- <-. split; [reflexivity|]. exists l. split; [exact L|reflexivity].
Qed.
Lemma collect_run y o rb kc t c t' l : says_list kc = Some (img (collect y o)) -> in_frame n (img (collect y o)) ->
  run_stmts E rb kc CContinue t = Done c t' -> good c -> local t (rho y) = Some (Some (VSet l)) ->
  s_stack t' = s_stack t /\ exists l', local t' (rho y) = Some (Some (VSet l')) /\ added E l (value_at E t (iop o)) l'.
Proof.
  intros HS HF HR Hc L. unfold collect in HS, HF. rewrite img_app in HS, HF. apply opt_app in HS as (k1 & k2 & -> & S1 & S2).
  apply in_frame_app in HF as [_ HF].
  assert (HO : Forall (fun x => 0 <= x < n) (op_local (iop o))).
  { unfold in_frame in HF. cbn in HF. rewrite app_nil_r in HF. now apply Forall_app in HF as [HF _]. }
  cbn [RuleSpec.img map map_ir] in S2. apply opt_out in S2 as (st & l' & -> & Hst & Hn). apply opt_nil in Hn as ->.
  unfold check_operand_is_defined in S1. destruct o as [x|i|bb]; [destruct (_ || _)| |].
  2:{ cbn [RuleSpec.img map map_ir] in S1. apply opt_out in S1 as (st0 & l0 & -> & Hst0 & Hn). apply opt_nil in Hn as ->.
      cbn [app] in HR. apply stmts_inv in HR as [(s1 & A & B)|[A ->]]; [| |exact Hc].
      - apply (run_defined E _ _ _ _ _ _ Hst0) in A as [-> _]; [|discriminate]. apply one_stmt in B; [|exact Hc].
        exact (run_setadd _ _ _ _ _ _ _ l Hst HO B Hc L).
      - apply (run_defined E _ _ _ _ _ _ Hst0) in A as [-> (v & HL & Hv)]; [|discriminate]. destruct v; [discriminate|].
        split; [reflexivity|]. exists l. split; [exact L|]. cbn. rewrite HL. reflexivity. }
  all: apply opt_nil in S1 as ->; cbn [app] in HR; apply one_stmt in HR; [|exact Hc]; exact (run_setadd _ _ _ _ _ _ _ l Hst HO HR Hc L).
Qed.

Lemma asks_collect y o code s vs s' : asks (collect y) (o, code) s vs s' -> In fn (s_stack s) -> private E fn n (rho y) ->
  in_frame n (img code) -> in_frame n (img (collect y o)) -> ~ In (rho y) (flat_map subjects (img code)) ->
  forall vs0 l, local s (rho y) = Some (Some (VSet l)) -> members E vs0 l ->
  exists l', In fn (s_stack s') /\ local s' (rho y) = Some (Some (VSet l')) /\ members E (vs0 ++ vs) l'.
Proof.
  intros (m & kc & b & ts & c & s0 & s1 & H1 & H2 & Q0 & V & Q1 & ->) I P HF HT HS vs0 l L HL.
  cbn [fst snd] in *.
  assert (I0 : In fn (s_stack s0)) by (rewrite (quiet_stack _ _ _ Q0); auto).
  assert (L0 : local s0 (rho y) = Some (Some (VSet l))) by (rewrite (quiet_all _ _ _ Q0); auto).
  destruct (visits_fold_all E fn (rho y) n P NR kc (fun a => exists l, a = Some (VSet l)) (grows E (iop o))) as [G _].
  - intros m' t c' t' cur0 HR Hc It Lt (l0 & ->). destruct (collect_run _ _ _ _ _ _ _ _ H1 HT HR Hc Lt) as (A & l1 & B & C).
    exists (Some (VSet l1)). rewrite A. split; [auto|]. split; [auto|]. split; [eauto|]. intros l2 [= <-]. eauto.
  - destruct (G _ _ _ _ _ _ V ltac:(exists (img code); auto) _ I0 L0 ltac:(eauto)) as (cur' & I1 & L1 & _ & C).
    destruct (chain_grows _ _ _ _ _ C vs0 l eq_refl HL) as (l' & -> & HS').
    exists l'. rewrite (quiet_stack _ _ _ Q1), (quiet_all _ _ _ Q1). auto.
Qed.

(** ** All definitions *)
Definition placed_in (x : str) (q : query) : Prop :=
  in_frame n (img (snd q)) /\ in_frame n (img (collect x (fst q))) /\ ~ In (rho x) (flat_map subjects (img (snd q))).
Lemma each_quiet tail qs s s1 vs s' : quiet [] s s1 -> each_asked tail qs s1 vs s' -> each_asked tail qs s vs s'.
Proof.
  intros Q H. destruct H.
  - apply ea_end. eapply quiet_trans; eauto.
  - eapply ea_ask; [|eassumption]. eapply asks_quiet; [exact Q|eassumption|apply quiet_refl].
Qed.
Lemma each_app tail q1 q2 s vs s1 vs' s' : each_asked tail q1 s vs s1 -> each_asked tail q2 s1 vs' s' ->
  each_asked tail (q1 ++ q2) s (vs ++ vs') s'.
Proof.
  intros H G. induction H; cbn [app].
  - eapply each_quiet; eauto.
  - rewrite <- app_assoc. eapply ea_ask; eauto.
Qed.
Lemma each_end tail qs s vs s1 s' : each_asked tail qs s vs s1 -> quiet [] s1 s' -> each_asked tail qs s vs s'.
Proof. intros H Q. rewrite <- (app_nil_r qs), <- (app_nil_r vs). eapply each_app; eauto. now apply ea_end. Qed.
Lemma each_collect x qs s vs s' : each_asked (collect x) qs s vs s' -> private E fn n (rho x) -> Forall (placed_in x) qs ->
  forall vs0 l, In fn (s_stack s) -> local s (rho x) = Some (Some (VSet l)) -> members E vs0 l ->
  exists l', In fn (s_stack s') /\ local s' (rho x) = Some (Some (VSet l')) /\ members E (vs0 ++ vs) l'.
Proof.
  intros H P. induction H as [s s' Q|[o code] qs s vs s1 vs' s' A H IH]; intros HO vs0 l I L HL.
  - exists l. rewrite (quiet_stack _ _ _ Q), (quiet_all _ _ _ Q), app_nil_r. auto.
  - inversion HO as [|? ? (F1 & F2 & F3) HO']; subst.
    destruct (asks_collect _ _ _ _ _ _ A I P F1 F2 F3 vs0 l L HL) as (l1 & I1 & L1 & S1).
    destruct (IH HO' _ _ I1 L1 S1) as (l2 & I2 & L2 & S2). exists l2. rewrite app_assoc. auto.
Qed.

Definition set_code (i : instance) (ret : str) (b : list nir) : list nir :=
  append_inner (ob_code (in_value i) ++ b) (collect ret (ob_op (in_value i))).
Lemma set_blocks_run m i ret : forall blocks bs s c s', opt_list says_list bs = Some (map img (map (set_code i ret) blocks)) ->
  block_stmt (run_block E m) bs s = Done c s' -> good c -> exists vs, each_asked (collect ret) (qs_of (in_value i) blocks) s vs s'.
Proof.
  induction blocks as [|b blocks IH]; intros bs s c s' H HR Hc.
  - apply opt_nil in H as ->. injection HR as <- <-. exists []. apply ea_end, quiet_refl.
  - cbn [map] in H. apply opt_out in H as (b0 & bs0 & -> & H1 & H2).
    apply block_stmt_inv in HR as (c1 & s1 & R1 & Hc1 & R2); [|exact Hc]. destruct (IH _ _ _ _ H2 R2 Hc) as (vs & G).
    destruct (ask_block E rho sigma (collect ret) (ob_op (in_value i)) _ _ _ _ _ _ H1 R1 Hc1) as (ws & A).
    exists (ws ++ vs). cbn [qs_of map]. eapply ea_ask; eauto.
Qed.
Lemma set_body_run m i ret L b s c s' : bodyset_block i ret = Some L -> says_list b = Some (img L) ->
  run_block E m b s = Done c s' -> good c -> exists vs, each_asked (collect ret) (queries i) s vs s'.
Proof.
  unfold bodyset_block, queries. destruct (in_blocks i) as [|b0 bs]; [discriminate|]. intros [= <-] H HR Hc.
  apply block_inv in HR as (m' & s1 & -> & HR & ->); [|exact Hc].
  apply opt_out in H as (st & l' & -> & Hst & Hl). apply opt_nil in Hl as ->.
  apply one_stmt in HR; [|exact Hc]. apply (run_blockst E _ _ _ _ _ _ Hst) in HR as (bs' & Hbs & HB); [|now apply good_not_timeout].
  destruct (set_blocks_run m' i ret (b0 :: bs) bs' _ c s1 Hbs HB Hc) as (vs & A). exists vs.
  eapply each_quiet; [|eapply each_end; [exact A|apply quiet_depth]]. repeat split.
Qed.
Lemma set_placed i ret L : bodyset_block i ret = Some L -> in_frame n (img L) -> ~ In (rho ret) (flat_map subjects (img (inst_code i))) ->
  Forall (placed_in ret) (queries i).
Proof.
  unfold bodyset_block. intros H HF HN. apply Forall_forall. intros q I. unfold queries in I. apply in_map_iff in I as (b & <- & I).
  destruct (in_blocks i) as [|b0 bs] eqn:EB; [destruct I|]. injection H as <-. apply in_frame_block in HF. rewrite Forall_forall in HF.
  specialize (HF _ (in_map (set_code i ret) _ _ I)). unfold set_code in HF. rewrite img_append in HF. apply in_frame_append in HF as [F1 F2].
  split; [exact F1|]. split; [exact F2|]. intro G. apply HN. eapply in_subjects; [|exact G]. cbn [snd]. intros st J.
  unfold inst_code. rewrite EB. apply in_app_iff in J as [J|J]; apply in_or_app; [auto|right]. apply in_concat. eauto.
Qed.
Lemma set_leaves i ret L : bodyset_block i ret = Some L -> existsb leaves (inst_code i) = false -> existsb leaves L = false.
Proof.
  intros H HL. apply leaves_inst in HL as [H1 H2]. unfold bodyset_block in H. destruct (in_blocks i) as [|b0 bs] eqn:EB; [discriminate|].
  injection H as <-. cbn [existsb leaves]. rewrite orb_false_r. change (existsb (existsb leaves) (map (set_code i ret) (b0 :: bs)) = false).
  clear EB. induction H2 as [|b l Hb _ IH]; [reflexivity|]. cbn [map existsb]. apply orb_false_iff. split; [|exact IH].
  unfold set_code. rewrite leaves_append, existsb_app. repeat (apply orb_false_iff; split); auto.
  unfold collect, check_operand_is_defined. destruct (ob_op (in_value i)); [destruct (_ || _)| |]; reflexivity.
Qed.

Variable fresh : nat -> nat -> nat -> str.
Variables prefix ret : str.
Variable m : nat.
Notation runs := (run_blocks (run_block E m)).
Lemma sets_bodies : forall l k blocks d seen bs rest c0 s c s', Forall (fun b => match b with BSet _ => True | _ => False end) l ->
  lower_bodies fresh k prefix seen None ret l = Some (blocks, d) ->
  opt_list says_list bs = Some (map img blocks) -> Forall (fun b => in_frame n (img b)) blocks ->
  existsb leaves (flat_map body_code l) = false -> ~ In (rho ret) (flat_map subjects (img (flat_map body_code l))) -> good c0 ->
  runs (bs ++ rest) c0 s = Done c s' -> ends c -> s_count s' < e_stmt_limit E ->
  d = None /\ Forall (placed_in ret) (set_queries l) /\
  exists vs s1 c1, each_asked (collect ret) (set_queries l) s vs s1 /\ good c1 /\ runs rest c1 s1 = Done c s'.
Proof.
  induction l as [|b l IH]; intros k blocks d seen bs rest c0 s c s' HC HL HB HF HN HS Hg HR He Hc.
  - injection HL as <- <-. apply opt_nil in HB as ->. split; [reflexivity|]. split; [constructor|]. exists [], s, c0.
    split; [apply ea_end, quiet_refl|]. auto.
  - inversion HC as [|? ? HC1 HC2]; subst. cbn [flat_map] in HN, HS. rewrite existsb_app in HN. apply orb_false_iff in HN as [HN1 HN2].
    destruct b; try contradiction; cbn [lower_bodies] in HL.
    cbv zeta in HL. destruct (bodyset_block i ret) as [L|] eqn:EB; [|discriminate].
    destruct (lower_bodies fresh (S k) prefix seen None ret l) as [[r d']|] eqn:ER; [|discriminate].
    injection HL as <- <-. cbn [app map] in HB. apply opt_out in HB as (b0 & bs0 & -> & H1 & H2).
    cbn [app] in HF. inversion HF as [|? ? HF1 HF2]; subst. cbn [app] in HR.
    assert (ST : stays b0) by (eapply stays_says; [exact H1|eapply set_leaves; eauto]).
    destruct (next_block _ _ _ _ _ _ _ _ HR He Hc ST) as (c1 & s1 & R1 & G1 & R2).
    destruct (set_body_run _ _ _ _ _ _ _ _ EB H1 R1 G1) as (ws & A1).
    assert (HS2 : ~ In (rho ret) (flat_map subjects (img (flat_map body_code l)))).
    { intro X. apply HS. eapply in_subjects; [|exact X]. intros st J. apply in_or_app. auto. }
    destruct (IH _ _ _ _ _ _ _ _ _ _ HC2 ER H2 HF2 HN2 HS2 G1 R2 He Hc) as (-> & PL & vs & s2 & c2 & A2 & G2 & R3).
    split; [reflexivity|]. split.
    + unfold set_queries. cbn [flat_map]. apply Forall_app. split; [|exact PL]. eapply set_placed; eauto.
      intro X. apply HS. eapply in_subjects; [|exact X]. intros st J. apply in_or_app. auto.
    + exists (ws ++ vs), s2, c2. split; [unfold set_queries; cbn [flat_map]; eapply each_app; eauto|]. auto.
Qed.

Lemma make_block b s c s' : says_list b = Some (img [IResetLocal ret; IMakeSet ret]) -> run_block E m b s = Done c s' -> good c ->
  quiet [rho ret] s s' /\ local s' (rho ret) = Some (Some (VSet [])).
Proof.
  intros H HR Hc. apply block_inv in HR as (m' & s1 & -> & HR & ->); [|exact Hc].
  cbn [RuleSpec.img map map_ir] in H. apply opt_out in H as (st & l' & -> & Hst & Hl).
  apply opt_out in Hl as (st2 & l2 & -> & Hst2 & Hl). apply opt_nil in Hl as ->.
  apply stmts_inv in HR as [(t & A & B)|[A ->]]; [| |exact Hc].
  - apply (run_reset E _ _ _ _ _ _ Hst) in A as (_ & HX & ->); [|discriminate].
    apply one_stmt in B; [|exact Hc]. apply (run_makeset E _ _ _ _ _ _ Hst2) in B as (_ & HY & ->); [|now apply good_not_timeout].
    split.
    + eapply quiet_trans; [|eapply quiet_trans; [apply quiet_put; lia|apply quiet_weaken, quiet_depth]].
      eapply quiet_trans; [|apply quiet_weaken, quiet_started]. eapply quiet_trans; [|apply quiet_put; lia]. repeat split.
    + match goal with |- local (add_depth _ (put ?x ?v ?t)) _ = _ => exact (local_set_same t x v HY) end.
  - apply (run_reset E _ _ _ _ _ _ Hst) in A as (A & _); [|discriminate]. discriminate.
Qed.

Lemma sets_run_ends l bs s c s' : sets l -> compiled_rule E fn n rho sigma fresh prefix ret l bs -> ran E fn m bs s c s' ->
  c = CReturn /\ exists s0 vs s1 v, quiet [rho ret] s s0 /\ local s0 (rho ret) = Some (Some (VSet [])) /\
    each_asked (collect ret) (set_queries l) s0 vs s1 /\ members E vs v /\ local s' (rho ret) = Some (Some (VSet v)) /\
    exists bs' c', runs bs' c' s1 = Done c s'.
Proof.
  intros [HX HC] [(ls & HL & HB & HF) _ HN [HR1 HR2] _] (I & R & He1 & He2 & Hc).
  unfold lower_function in HL.
  assert (HS : start_block ret l = Some ([IResetLocal ret; IMakeSet ret], l)).
  { assert (G : existsb is_object l = false /\ forallb is_set l = true).
    { clear - HC. induction HC as [|b l Hb _ [IH1 IH2]]; [auto|]. destruct b; try contradiction; auto. }
    unfold start_block. destruct G as [-> G]. destruct l as [|b l]; [congruence|]. inversion HC; subst. destruct b; try contradiction.
    cbn [existsb is_set orb]. rewrite G. reflexivity. }
  rewrite HS in HL.
  destruct (lower_bodies fresh 0 prefix [] None ret l) as [[blocks d]|] eqn:EL; [|discriminate].
  injection HL as <-. apply frame_all in HF. inversion HF as [|? ? HF0 HF1]; subst. apply Forall_app in HF1 as [HF1 HF2].
  unfold says_blocks in HB. cbn [map] in HB. apply opt_out in HB as (b0 & bs0 & -> & HB0 & HB).
  rewrite map_app in HB. apply opt_app in HB as (bs1 & bs2 & -> & HB1 & HB2).
  destruct (next_block _ _ _ _ _ _ _ _ R (conj He1 He2) Hc) as (c1 & s0 & R1 & G1 & R2).
  { eapply stays_says; [exact HB0|reflexivity]. }
  destruct (make_block _ _ _ _ HB0 R1 G1) as [Q0 L0].
  destruct (sets_bodies _ _ _ _ _ _ _ _ _ _ _ HC EL HB1 HF1 HN HR2 G1 R2 (conj He1 He2) Hc) as (-> & PL & vs & s1 & c2 & AD & G2 & R3).
  destruct (each_collect _ _ _ _ _ AD HR1 PL [] []) as (v & I1 & L1 & S1); auto.
  { rewrite (quiet_stack _ _ _ Q0). exact I. }
  { split; [|reflexivity]. split; [|split]; [intros v []|intros v []|]. intros l1 a l2 b l3 X. destruct l1; discriminate. }
  cbn [map app] in HB2. apply opt_out in HB2 as (b3 & bs3 & -> & Hb3 & HB2). apply opt_nil in HB2 as ->.
  destruct (return_run E rho sigma ret m _ _ _ _ _ Hb3 R3 (conj He1 He2) Hc) as (Q & w & LV & ->).
  rewrite L1 in LV. injection LV as <-. split; [reflexivity|]. exists s0, vs, s1, v. repeat (split; [assumption|]).
  split; [rewrite (quiet_all _ _ _ Q); exact L1|]. eauto.
Qed.
Lemma sets_run l bs s c s' : sets l -> compiled_rule E fn n rho sigma fresh prefix ret l bs -> ran E fn m bs s c s' ->
  c = CReturn /\ exists s0 vs s1 v, quiet [rho ret] s s0 /\ local s0 (rho ret) = Some (Some (VSet [])) /\
    each_asked (collect ret) (set_queries l) s0 vs s1 /\ set_of E vs v /\ local s' (rho ret) = Some (Some (VSet v)).
Proof.
  intros H1 H2 H3. destruct (sets_run_ends l bs s c s' H1 H2 H3) as (-> & s0 & vs & s1 & v & A & B & D & [G _] & L & _).
  split; [reflexivity|]. exists s0, vs, s1, v. auto.
Qed.
End Sets.
