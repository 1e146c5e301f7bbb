(** The compiled function of a rule. *)
From Coq Require Import String ZArith List Bool Lia.
From Verif Require Import Base SMap ValueModel ValueSpec ResolverModel VmModel VmSpec VmProofs VmSimProofs VmStmtProofs PlanModel PlanSpec PlanProofs
  RuleModel RuleSpec RuleVmProofs RuleVisitProofs RuleProofs RuleCompleteProofs.
Import ListNotations.
Local Open Scope Z_scope.

(** ** Codes *)
Definition ends (c : code) : Prop := c <> CError /\ c <> CBreak.
Lemma no_multiple_stmts E rb l : forall c s s', c <> CMultipleOutputs -> run_stmts E rb l c s <> Done CMultipleOutputs s'.
Proof.
  induction l as [|st l IH]; intros c s s' Hc; cbn [run_stmts]; [intros [= ->]; congruence|]. unfold bind.
  destruct (run_stmt E rb st s) as [c1 s1|s1|f s1|s1]; try discriminate. destruct c1; try discriminate. apply IH. discriminate.
Qed.
Lemma no_multiple E m b s s' : run_block E m b s <> Done CMultipleOutputs s'.
Proof.
  destruct m as [|m]; [discriminate|]. cbn [run_block]. unfold bind at 1, get at 1. destruct (_ <=? _); [discriminate|].
  unfold bind at 1, modify at 1. unfold bind at 1. destruct (run_stmts _ _ _ _ _) as [c1 s1|s1|f s1|s1] eqn:Er; try discriminate.
  cbn. intros [= -> <-]. eapply no_multiple_stmts; [|exact Er]. discriminate.
Qed.
Lemma run_blocks_count E m : forall bs c0 s c s', run_blocks (run_block E m) bs c0 s = Done c s' -> s_count s <= s_count s'.
Proof.
  induction bs as [|b bs IH]; intros c0 s c s'; cbn [run_blocks]; [intros [= <- <-]; lia|]. unfold bind.
  destruct (run_block E m b s) as [c1 s1|s1|f s1|s1] eqn:Er; try discriminate.
  assert (G : s_count s <= s_count s1).
  { pose proof (mono_block E m b s) as G. rewrite Er in G. destruct G. auto. }
  intro H. destruct c1; try (injection H as <- <-; exact G); apply IH in H; lia.
Qed.
Lemma next_block E m b bs c0 s c s' : run_blocks (run_block E m) (b :: bs) c0 s = Done c s' -> ends c -> s_count s' < e_stmt_limit E ->
  stays b -> exists c1 s1, run_block E m b s = Done c1 s1 /\ good c1 /\ run_blocks (run_block E m) bs c1 s1 = Done c s'.
Proof.
  cbn [run_blocks]. unfold bind. destruct (run_block E m b s) as [c1 s1|s1|f s1|s1] eqn:Er; try discriminate.
  intros H [H1 H2] HL HS. exists c1, s1. split; [reflexivity|]. unfold good. destruct c1; auto; try (injection H as <- <-; congruence).
  - exfalso. eapply no_multiple; eauto.
  - exfalso. injection H as <- <-. eapply N_block; eauto.
  - exfalso. apply D_block in Er. apply run_blocks_count in H. lia.
Qed.

(** ** Statements that leave *)
Section Leaves.
Variables rho sigma : str -> Z.
Notation img := (img rho sigma).
Lemma leaves_img st : leaves (map_ir rho sigma norm st) = leaves st.
Proof.
  induction st as [st IH] using ir_ind'. destruct st; try reflexivity; cbn [inner] in IH; cbn [map_ir leaves].
  all: try (induction IH as [|x l Hx _ IHl]; cbn [map existsb]; congruence).
  apply Forall_concat_elim in IH. induction IH as [|b bs Hb _ IHb]; [reflexivity|]. cbn [map existsb]. rewrite IHb. f_equal.
  induction Hb as [|x l Hx _ IHl]; cbn [map existsb]; congruence.
Qed.
Lemma leaves_imgs l : existsb leaves (img l) = existsb leaves l.
Proof. unfold RuleSpec.img. induction l as [|a l IH]; cbn [map existsb]; [reflexivity|]. now rewrite leaves_img, IH. Qed.
Lemma leaves_append_list (b k : list nir) :
  Forall (fun st => existsb leaves (append_inner (inner st) k) = existsb leaves (inner st) || existsb leaves k) b ->
  existsb leaves (append_inner b k) = existsb leaves b || existsb leaves k.
Proof.
  induction 1 as [|st b H HF IH]; [reflexivity|]. destruct b as [|st' b].
  - assert (D : match st with IScan _ _ _ _ | IWith _ _ _ _ => True | _ => False end \/ append_inner [st] k = st :: k)
      by (destruct st; auto).
    destruct D as [D|D].
    + destruct st; try contradiction; cbn [inner] in H.
      * change (append_inner [IScan src key val body] k) with [IScan src key val (append_inner body k)].
        cbn [existsb leaves]. rewrite !orb_false_r. exact H.
      * match goal with |- context [append_inner [IWith ?a ?b ?c ?d] k] => 
          change (append_inner [IWith a b c d] k) with [IWith a b c (append_inner d k)] end.
        cbn [existsb leaves]. rewrite !orb_false_r. exact H.
    + rewrite D. cbn [existsb]. now rewrite orb_false_r.
  - rewrite append_cons_any by discriminate. remember (st' :: b) as b0. cbn [existsb]. rewrite IH. now rewrite orb_assoc.
Qed.
Lemma leaves_append (b k : list nir) : existsb leaves (append_inner b k) = existsb leaves b || existsb leaves k.
Proof.
  apply leaves_append_list, Forall_forall. intros st _. induction st as [st IH] using ir_ind'. apply leaves_append_list. exact IH.
Qed.
Lemma stays_says b (l : list nir) : opt_list says b = Some (img l) -> existsb leaves l = false -> stays b.
Proof. intros H G. exists (img l). split; [exact H|]. now rewrite leaves_imgs. Qed.
Lemma leaves_store x o : existsb leaves (store x o) = false.
Proof. unfold store, check_operand_is_defined. destruct o; [destruct (_ || _)| |]; reflexivity. Qed.
Lemma leaves_add dst src value x u : existsb leaves dst = false -> existsb leaves (ob_code value) = false -> existsb leaves src = false ->
  existsb leaves (body_block_add dst src value x u) = false.
Proof.
  intros. unfold body_block_add. rewrite leaves_append. change (check_operand_is_defined (ob_op value) ++ [IAssignVarOnce (ob_op value) x])
    with (store x (ob_op value)). rewrite leaves_store, !existsb_app.
  apply orb_false_iff; split; [|reflexivity]. repeat (apply orb_false_iff; split); auto. destruct u; reflexivity.
Qed.
Lemma leaves_inst i : existsb leaves (inst_code i) = false ->
  existsb leaves (ob_code (in_value i)) = false /\ Forall (fun b => existsb leaves b = false) (in_blocks i).
Proof.
  unfold inst_code. rewrite existsb_app. intro H. apply orb_false_iff in H as [H1 H2]. split; [exact H1|].
  induction (in_blocks i) as [|b l IH]; [constructor|]. cbn [concat] in H2. rewrite existsb_app in H2. apply orb_false_iff in H2 as [H2 H3].
  constructor; auto.
Qed.
Lemma leaves_chained value x : existsb leaves (ob_code value) = false -> forall blocks first, Forall (fun b => existsb leaves b = false) blocks ->
  existsb (existsb leaves) (chained first blocks value x) = false.
Proof.
  intros HV. induction blocks as [|b blocks IH]; intros first H; [reflexivity|]. inversion H; subst. cbn [chained existsb].
  apply orb_false_iff. split; [apply leaves_add; auto|apply IH; auto].
Qed.
Lemma leaves_instance first i x L : instance_block first i x = Some L -> existsb leaves (inst_code i) = false -> existsb leaves L = false.
Proof.
  intros H HL. apply leaves_inst in HL as [H1 H2]. unfold instance_block in H. destruct (in_blocks i) as [|b0 [|b1 bs]]; [discriminate| |].
  - injection H as <-. inversion H2; subst. apply leaves_add; auto. destruct first; reflexivity.
  - injection H as <-. rewrite existsb_app. cbn [existsb leaves].
    apply orb_false_iff; split; [destruct first; reflexivity|]. rewrite orb_false_r.
    exact (leaves_chained (in_value i) x H1 (b0 :: b1 :: bs) true H2).
Qed.
Lemma leaves_instances x : forall l first Ls, all_some (instance_blocks first l x) = Some Ls ->
  existsb leaves (flat_map inst_code l) = false -> existsb (existsb leaves) Ls = false.
Proof.
  induction l as [|i l IH]; intros first Ls HA HF; [injection HA as <-; reflexivity|]. cbn [instance_blocks] in HA.
  apply all_some_cons in HA as (L & Ls' & A1 & A2 & ->). cbn [flat_map] in HF. rewrite existsb_app in HF.
  apply orb_false_iff in HF as [H1 H2]. cbn [existsb].
  apply orb_false_iff. split; [eapply leaves_instance; eauto|eauto].
Qed.
Lemma leaves_body fresh k l ret L : body_block fresh k l ret = Some L -> existsb leaves (flat_map inst_code l) = false -> existsb leaves L = false.
Proof.
  unfold body_block. destruct (all_some _) as [Ls|] eqn:EA; [|discriminate]. intros H HL.
  pose proof (leaves_instances _ _ _ _ EA HL) as G.
  destruct (1 <? length l)%nat.
  - cbn [app] in H. injection H as <-. cbn [existsb leaves]. rewrite existsb_app. rewrite orb_false_r. cbn.
    apply orb_false_iff. split; [exact G|reflexivity].
  - cbn [app] in H. rewrite app_nil_r in H. destruct Ls; [discriminate|]. injection H as <-. cbn [existsb leaves] in *. rewrite orb_false_r. exact G.
Qed.
End Leaves.

Section Function.
Variable E : env.
Variable fn : str.
Variable n : Z.
Hypothesis NR : n <= 2 ^ 64.
Variables rho sigma : str -> Z.
Notation img := (img rho sigma).
Notation iop := (iop rho sigma).
Notation says_list := (opt_list says).
Variable fresh : nat -> nat -> nat -> str.
Variables prefix ret : str.
Notation var := (fun k => fresh k 0%nat 0%nat).
Variable m : nat.
Notation runs := (run_blocks (run_block E m)).

(** The variables of a rule are its own. *)
Definition alone (z : Z) (l : list nir) : Prop := private E fn n z /\ ~ In z (flat_map subjects (img l)).
Definition variables (defs : list (nat * list instance)) (code : list nir) : Prop :=
  forall k d, In (k, d) defs -> (1 < length d)%nat -> alone (rho (var k)) code /\ rho (var k) <> rho ret.

Lemma alone_sub z a b : (forall st, In st a -> In st b) -> alone z b -> alone z a.
Proof. intros H [P N]. split; [exact P|]. intro I. apply N. eapply in_subjects; eauto. Qed.

Lemma all_defined_quiet defs s s1 vs s' : quiet [] s s1 -> all_defined E rho sigma var ret defs s1 vs s' -> defs = [] ->
  all_defined E rho sigma var ret defs s vs s'.
Proof. intros Q H ->. inversion H; subst. apply ad_end. eapply quiet_trans; eauto. Qed.

Lemma bodies_run : forall l k def blocks d seen bs rest c0 s c s', complete l ->
  lower_bodies fresh k prefix seen def ret l = Some (blocks, d) ->
  opt_list says_list bs = Some (map img blocks) -> Forall (fun b => in_frame n (img b)) blocks ->
  existsb leaves (flat_map body_code l) = false -> good c0 ->
  runs (bs ++ rest) c0 s = Done c s' -> ends c -> s_count s' < e_stmt_limit E ->
  exists vs s1 c1, all_defined E rho sigma var ret (definitions k l) s vs s1 /\ good c1 /\ runs rest c1 s1 = Done c s' /\
    (alone (rho ret) (flat_map body_code l) -> variables (definitions k l) (flat_map body_code l) ->
     In fn (s_stack s) -> forall cur, local s (rho ret) = Some cur ->
     exists cur', In fn (s_stack s1) /\ local s1 (rho ret) = Some cur' /\ assigned E cur vs cur').
Proof.
  induction l as [|b l IH]; intros k def blocks d seen bs rest c0 s c s' HC HL HB HF HN Hg HR He Hc.
  - injection HL as <- <-. apply opt_nil in HB as ->. exists [], s, c0. split; [apply ad_end, quiet_refl|]. split; [exact Hg|].
    split; [exact HR|]. intros _ _ I cur L. exists cur. auto using assigned_nil.
  - inversion HC as [|? ? HC1 HC2]; subst. cbn [flat_map] in HN. rewrite existsb_app in HN. apply orb_false_iff in HN as [HN1 HN2].
    destruct b; try contradiction; cbn [lower_bodies] in HL.
    + destruct def; [discriminate|]. cbn [definitions].
      destruct (IH _ _ _ _ _ _ _ _ _ _ _ HC2 HL HB HF HN2 Hg HR He Hc) as (vs & s1 & c1 & A & B & C & D).
      exists vs, s1, c1. split; [exact A|]. split; [exact B|]. split; [exact C|]. intros AL AV. apply D.
      * eapply alone_sub; [|exact AL]. intros st I. cbn [flat_map]. apply in_or_app. auto.
      * intros k' d' I1 I2. destruct (AV k' d' I1 I2) as [V1 V2]. split; [|exact V2]. eapply alone_sub; [|exact V1]. intros st I.
        cbn [flat_map]. apply in_or_app. auto.
    + cbv zeta in HL. destruct (body_block fresh k l0 ret) as [L|] eqn:EB; [|discriminate].
      destruct (lower_bodies fresh (S k) prefix seen def ret l) as [[r d']|] eqn:ER; [|discriminate].
      injection HL as <- <-. cbn [app map] in HB. apply opt_out in HB as (b0 & bs0 & -> & H1 & H2).
      cbn [app] in HF. inversion HF as [|? ? HF1 HF2]; subst. cbn [app] in HR.
      assert (ST : stays b0) by (eapply stays_says; [exact H1|eapply leaves_body; eauto]).
      destruct (next_block _ _ _ _ _ _ _ _ HR He Hc ST) as (c1 & s1 & R1 & G1 & R2).
      destruct (body_run E fn n NR rho sigma fresh _ _ _ _ _ _ _ _ _ EB H1 HF1 R1 G1) as (ws & DE & AS).
      destruct (IH _ _ _ _ _ _ _ _ _ _ _ HC2 ER H2 HF2 HN2 G1 R2 He Hc) as (vs & s2 & c2 & A & B & C & D).
      exists (ws ++ vs), s2, c2. cbn [definitions]. split; [eapply ad_next; eauto|]. split; [exact B|]. split; [exact C|].
      intros AL AV I cur LC. cbn [flat_map body_code] in AL, AV.
      destruct AS with (cur := cur) as (cur1 & I1 & L1 & A1); auto.
      { apply AL. }
      { eapply alone_sub; [|exact AL]. intros st II. apply in_or_app. auto. }
      { intro HL. destruct (AV k l0 ltac:(now left) HL) as [V1 V2]. split; [apply V1|]. split; [auto|].
        eapply alone_sub; [|exact V1]. intros st II. apply in_or_app. auto. }
      destruct D with (cur := cur1) as (cur2 & I2 & L2 & A2); auto.
      { eapply alone_sub; [|exact AL]. intros st II. apply in_or_app. auto. }
      { intros k' d'' J1 J2. destruct (AV k' d'' ltac:(now right) J2) as [V1 V2]. split; [|exact V2]. eapply alone_sub; [|exact V1].
        intros st II. apply in_or_app. auto. }
      exists cur2. split; [auto|]. split; [auto|]. eapply assigned_app; eauto.
Qed.
Lemma bodies_default : forall l k def blocks d seen, lower_bodies fresh k prefix seen def ret l = Some (blocks, d) ->
  d = match def with Some o => Some o | None => default_of l end /\ (def <> None -> default_of l = None).
Proof.
  induction l as [|b l IH]; intros k def blocks d seen H; cbn [lower_bodies] in H.
  - injection H as <- <-. split; [destruct def; reflexivity|reflexivity].
  - cbv zeta in H. destruct b.
    { destruct def; [discriminate|]. apply IH in H as [-> H]. cbn [default_of]. split; [reflexivity|congruence]. }
    all: cbn [default_of]; try discriminate H;
      repeat match type of H with context [match ?y with _ => _ end] => destruct y eqn:?; try discriminate H end;
      injection H as <- <-;
      match goal with G : lower_bodies _ _ _ _ _ _ _ = Some _ |- _ => apply IH in G as [-> ?]; auto end.
Qed.

(** The block of the default. *)
Lemma default_run o b s c s' : says_list b = Some (img (default_block ret o)) -> in_frame n (img (default_block ret o)) ->
  run_block E m b s = Done c s' -> good c -> private E fn n (rho ret) -> ~ In (rho ret) (flat_map subjects (img (ob_code o))) ->
  In fn (s_stack s) -> forall cur, local s (rho ret) = Some cur ->
  In fn (s_stack s') /\ exists cur', local s' (rho ret) = Some cur' /\
  match cur with Some y => cur' = Some y | None => default_value E rho sigma o s cur' end.
Proof.
  intros H HF HR Hc P HS I cur L. unfold default_block in H, HF.
  apply block_inv in HR as (m' & s1 & -> & HR & ->); [|exact Hc].
  cbn [RuleSpec.img map map_ir] in H, HF. apply opt_out in H as (st & l' & -> & Hst & Hl).
  fold (img (ob_code o ++ [IAssignVarOnce (ob_op o) ret])) in Hl, HF. rewrite img_app in Hl, HF.
  apply opt_app in Hl as (b1 & b2 & -> & Hb1 & Hb2).
  apply in_frame_cons in HF as [_ HF]. apply in_frame_app in HF as [HF1 HF2].
  assert (HO : Forall (fun x => 0 <= x < n) (op_local (iop (ob_op o)))).
  { unfold in_frame in HF2. cbn in HF2. rewrite app_nil_r in HF2. now apply Forall_app in HF2 as [HF2 _]. }
  cbn [RuleSpec.img map map_ir] in Hb2. apply opt_out in Hb2 as (st2 & l2 & -> & Hst2 & Hl). apply opt_nil in Hl as ->.
  apply stmts_inv in HR as [(t & A & B)|[A ->]]; [| |exact Hc].
  - apply (run_undefined E _ _ _ _ _ _ Hst) in A as [-> (v & HL & Hv)]; [|discriminate]. destruct v; [discriminate|].
    change (local (add_depth 1 s) (rho ret)) with (local s (rho ret)) in HL. rewrite L in HL. injection HL as ->.
    set (s0 := started st (add_depth 1 s)) in *.
    assert (Q : quiet [] s s0) by repeat split.
    assert (SPLIT : forall l1 l2 t, run_stmts E (run_block E m') (l1 ++ l2) CContinue t = Done c s1 ->
      exists t1, (run_stmts E (run_block E m') l1 CContinue t = Done CContinue t1 /\ run_stmts E (run_block E m') l2 CContinue t1 = Done c s1) \/
        (run_stmts E (run_block E m') l1 CContinue t = Done CUndefined s1 /\ c = CUndefined)).
    { clear - Hc. induction l1 as [|x l1 IH]; intros l2 t H; cbn [app] in H.
      - exists t. left. auto.
      - apply stmts_inv in H as [(t0 & A & B)|[A ->]]; [| |exact Hc].
        + destruct (IH _ _ B) as (t1 & [[C D]|[C D]]); exists t1; [left|right]; (split; [|exact D]); cbn [run_stmts]; unfold bind; now rewrite A.
        + exists t. right. split; [|reflexivity]. cbn [run_stmts]. unfold bind. now rewrite A. }
    apply SPLIT in B as (t1 & [[B1 B2]|[B1 ->]]).
    + destruct (J_stmts E fn (rho ret) n P NR m' ltac:(intros; eapply J_block; eauto) b1 ltac:(exists (img (ob_code o)); auto) CContinue s0 _ _ I B1) as [I1 L1].
      change (local s0 (rho ret)) with (local s (rho ret)) in L1.
      apply one_stmt in B2; [|exact Hc].
      apply (run_once E n NR _ _ _ _ _ _ _ Hst2 HO) in B2 as [_ [[-> HV]|(u & cur & cur' & HV & HL' & HO' & HL2 & HD)]]; [| |exact Hc].
      * split; [exact I1|]. exists None. split; [change (local t1 (rho ret) = Some None); congruence|].
        exists m', b1, s0, CContinue, t1. repeat split; auto.
      * split; [destruct HD as [[_ ->]| ->]; exact I1|]. exists cur'. split; [exact HL2|].
        rewrite L1, L in HL'. injection HL' as <-. cbn in HO'. subst cur'.
        exists m', b1, s0, CContinue, t1. repeat split; auto.
    + destruct (J_stmts E fn (rho ret) n P NR m' ltac:(intros; eapply J_block; eauto) b1 ltac:(exists (img (ob_code o)); auto) CContinue s0 _ _ I B1) as [I1 L1].
      split; [exact I1|]. exists None. split; [change (local s1 (rho ret) = Some None); rewrite L1; exact L|].
      exists m', b1, s0, CUndefined, s1. repeat split; auto.
  - apply (run_undefined E _ _ _ _ _ _ Hst) in A as [-> (v & HL & Hv)]; [|discriminate]. destruct v; [|discriminate].
    change (local (add_depth 1 s) (rho ret)) with (local s (rho ret)) in HL. rewrite L in HL. injection HL as ->.
    split; [exact I|]. exists (Some v). split; [exact L|reflexivity].
Qed.

(** The last block. *)
Lemma return_run b c0 s c s' : says_list b = Some (img (return_block ret)) -> runs [b] c0 s = Done c s' -> ends c ->
  s_count s' < e_stmt_limit E ->
  quiet [] s s' /\ exists v, local s (rho ret) = Some v /\ c = match v with Some _ => CReturn | None => CUndefined end.
Proof.
  intros H HR He Hc. cbn [run_blocks] in HR. unfold bind in HR.
  destruct (run_block E m b s) as [c1 s1|s1|f s1|s1] eqn:Er; try discriminate.
  assert (G : c1 = c /\ s1 = s') by (destruct c1; injection HR as <- <-; auto). destruct G as [-> ->]. clear HR.
  assert (HT : c <> CTimeout) by (intros ->; apply D_block in Er; lia).
  destruct m as [|m']; [discriminate|]. cbn [run_block] in Er. unfold bind at 1, get at 1 in Er.
  destruct (_ <=? _).
  { cbn in Er. injection Er as <- <-. destruct He. congruence. }
  unfold bind at 1, modify at 1 in Er. unfold bind at 1 in Er.
  destruct (run_stmts E (run_block E m') b CContinue (add_depth 1 s)) as [c1 s1|s1|f s1|s1] eqn:Es; try discriminate.
  cbn in Er. injection Er as -> <-.
  cbn [RuleSpec.img return_block map map_ir] in H. apply opt_out in H as (st & l' & -> & Hst & Hl).
  apply opt_out in Hl as (st2 & l2 & -> & Hst2 & Hl). apply opt_nil in Hl as ->.
  cbn [run_stmts] in Es. unfold bind at 1 in Es.
  destruct (run_stmt E (run_block E m') st (add_depth 1 s)) as [c1 t1|t1|f t1|t1] eqn:E1; try discriminate.
  assert (H1 : c1 <> CTimeout) by (intros ->; injection Es as <- <-; congruence).
  apply (run_defined E _ _ _ _ _ _ Hst) in E1 as [-> (v & HL & ->)]; [|exact H1].
  change (local (add_depth 1 s) (rho ret)) with (local s (rho ret)) in HL.
  destruct v as [v|].
  - unfold bind at 1 in Es.
    destruct (run_stmt E (run_block E m') st2 _) as [c2 t2|t2|f t2|t2] eqn:E2; try discriminate.
    assert (H2 : c2 <> CTimeout) by (intros ->; injection Es as <- <-; congruence).
    apply (run_return E _ _ _ _ _ _ Hst2) in E2 as [-> ->]; [|exact H2]. injection Es as <- <-.
    split; [repeat split|]. exists (Some v). auto.
  - injection Es as <- <-. split; [repeat split|]. exists None. auto.
Qed.

Lemma frame_all ls : in_frame n (img (concat ls)) -> Forall (fun b => in_frame n (img b)) ls.
Proof.
  induction ls as [|b ls IH]; intro H; [constructor|]. cbn [concat] in H. rewrite img_app in H. apply in_frame_app in H as [H1 H2].
  constructor; auto.
Qed.
Lemma complete_start l : complete l -> start_block ret l = Some ([IResetLocal ret], l).
Proof.
  intro H. assert (G : existsb is_object l = false /\ existsb is_set l = false).
  { induction H as [|b l Hb _ [IH1 IH2]]; [auto|]. destruct b; try contradiction; auto. }
  unfold start_block. destruct G as [-> ->]. reflexivity.
Qed.
Lemma reset_block b s c s' : says_list b = Some (img [IResetLocal ret]) -> run_block E m b s = Done c s' -> good c ->
  quiet [rho ret] s s' /\ local s' (rho ret) = Some None.
Proof.
  intros H HR Hc. apply block_inv in HR as (m' & s1 & -> & HR & ->); [|exact Hc].
  cbn [RuleSpec.img map map_ir] in H. apply opt_out in H as (st & l' & -> & Hst & Hl). apply opt_nil in Hl as ->.
  apply one_stmt in HR; [|exact Hc]. apply (run_reset E _ _ _ _ _ _ Hst) in HR as (-> & HX & ->); [|now apply good_not_timeout].
  split.
  - eapply quiet_trans; [|eapply quiet_trans; [apply quiet_put; lia|apply quiet_weaken, quiet_depth]]. repeat split.
  - exact (local_set_same (started st (add_depth 1 s)) (rho ret) None HX).
Qed.
Lemma complete_run_ends l bs s c s' : complete l -> compiled_rule E fn n rho sigma fresh prefix ret l bs -> ran E fn m bs s c s' ->
  exists s0 vs s1 v, quiet [rho ret] s s0 /\ local s0 (rho ret) = Some None /\
    all_defined E rho sigma var ret (definitions 0 l) s0 vs s1 /\ all_same E vs /\
    rule_value E rho sigma vs (default_of l) s1 v /\
    local s' (rho ret) = Some v /\ c = match v with Some _ => CReturn | None => CUndefined end /\
    exists bs' c', runs bs' c' s1 = Done c s'.
Proof.
  intros HC [(ls & HL & HB & HF) _ HN HR HV] (I & R & He1 & He2 & Hc).
  unfold lower_function in HL. rewrite (complete_start l HC) in HL.
  destruct (lower_bodies fresh 0 prefix [] None ret l) as [[blocks d]|] eqn:EL; [|discriminate].
  injection HL as <-. apply frame_all in HF. inversion HF as [|? ? HF0 HF1]; subst. apply Forall_app in HF1 as [HF1 HF2].
  unfold says_blocks in HB. cbn [map] in HB. apply opt_out in HB as (b0 & bs0 & -> & HB0 & HB).
  rewrite map_app in HB. apply opt_app in HB as (bs1 & bs2 & -> & HB1 & HB2).
  destruct (next_block _ _ _ _ _ _ _ _ R (conj He1 He2) Hc) as (c1 & s0 & R1 & G1 & R2).
  { eapply stays_says; [exact HB0|reflexivity]. }
  destruct (reset_block _ _ _ _ HB0 R1 G1) as [Q0 L0].
  destruct (bodies_run _ _ _ _ _ _ _ _ _ _ _ _ HC EL HB1 HF1 HN G1 R2 (conj He1 He2) Hc) as (vs & s1 & c2 & AD & G2 & R3 & AS).
  destruct AS with (cur := @None value) as (cur & I1 & L1 & A1); auto.
  { rewrite (quiet_stack _ _ _ Q0). exact I. }
  apply bodies_default in EL as [Ed _]. cbv iota in Ed.
  exists s0, vs, s1. destruct A1 as [A1 A2].
  assert (SAME : all_same E vs).
  { intros a b Ha Hb. destruct vs as [|v vs]; [destruct Ha|]. cbn in A1. pose proof (A2 a v Ha A1). pose proof (A2 b v Hb A1).
    unfold same_value in *. congruence. }
  subst d. destruct (default_of l) as [o|] eqn:ED.
  - cbn [map app] in HB2. apply opt_out in HB2 as (b2 & bs2' & -> & Hb2 & HB2).
    apply opt_out in HB2 as (b3 & bs3 & -> & Hb3 & HB2). apply opt_nil in HB2 as ->. inversion HF2 as [|? ? HF3 _]; subst.
    assert (HO : forall st, In st (ob_code o) -> In st (flat_map body_code l)).
    { clear - ED. induction l as [|b l IH]; [discriminate|]. cbn [default_of] in ED. intros st Hst. cbn [flat_map]. apply in_or_app.
      destruct b; auto. injection ED as ->. auto. }
    destruct (next_block _ _ _ _ _ _ _ _ R3 (conj He1 He2) Hc) as (c3 & s2 & R4 & G4 & R5).
    { eapply stays_says; [exact Hb2|]. unfold default_block. cbn [existsb leaves orb]. rewrite existsb_app. cbn. rewrite orb_false_r.
      apply not_true_iff_false. intro EX. apply existsb_exists in EX as (st & X1 & X2).
      apply not_true_iff_false in HN. apply HN. apply existsb_exists. exists st. auto. }
    destruct HR as [HR1 HR2].
    destruct (default_run _ _ _ _ _ Hb2 HF3 R4 G4 HR1 ltac:(intro X; apply HR2; eapply in_subjects; eauto) I1 _ L1) as (I2 & cur' & L2 & HD).
    destruct (return_run _ _ _ _ _ Hb3 R5 (conj He1 He2) Hc) as (Q & v & LV & ->).
    rewrite L2 in LV. injection LV as ->. exists v. repeat (split; [assumption|]). split; [|split; [|split; [reflexivity|eauto]]].
    + unfold rule_value. destruct vs; exact HD.
    + rewrite (quiet_all _ _ _ Q). exact L2.
  - cbn [map app] in HB2. apply opt_out in HB2 as (b3 & bs3 & -> & Hb3 & HB2). apply opt_nil in HB2 as ->.
    destruct (return_run _ _ _ _ _ Hb3 R3 (conj He1 He2) Hc) as (Q & v & LV & ->).
    rewrite L1 in LV. injection LV as ->. exists v. repeat (split; [assumption|]). split; [|split; [|split; [reflexivity|eauto]]].
    + unfold rule_value. destruct vs; exact A1.
    + rewrite (quiet_all _ _ _ Q). exact L1.
Qed.
Lemma complete_run l bs s c s' : complete l -> compiled_rule E fn n rho sigma fresh prefix ret l bs -> ran E fn m bs s c s' ->
  exists s0 vs s1 v, quiet [rho ret] s s0 /\ local s0 (rho ret) = Some None /\
    all_defined E rho sigma var ret (definitions 0 l) s0 vs s1 /\ all_same E vs /\
    rule_value E rho sigma vs (default_of l) s1 v /\
    local s' (rho ret) = Some v /\ c = match v with Some _ => CReturn | None => CUndefined end.
Proof.
  intros HC HR R. destruct (complete_run_ends l bs s c s' HC HR R) as (s0 & vs & s1 & v & H1 & H2 & H3 & H4 & H5 & H6 & H7 & _). exists s0, vs, s1, v. auto 10.
Qed.
End Function.
