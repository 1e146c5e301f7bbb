(** The compiled definitions of a complete rule. *)
From Coq Require Import String ZArith List Bool Lia.
From Verif Require Import Base SMap ValueModel ValueSpec ResolverModel VmModel VmSpec VmProofs VmSimProofs VmStmtProofs PlanModel PlanSpec PlanProofs
  RuleModel RuleSpec RuleVmProofs RuleVisitProofs RuleProofs.
Import ListNotations.
Local Open Scope Z_scope.

Lemma good_not_timeout c : good c -> c <> CTimeout. Proof. intros [->| ->]; discriminate. Qed.
Lemma block_stmt_inv rb b bs s c s' : block_stmt rb (b :: bs) s = Done c s' -> good c ->
  exists c1 s1, rb b s = Done c1 s1 /\ good c1 /\ block_stmt rb bs s1 = Done c s'.
Proof.
  cbn [block_stmt]. unfold bind. destruct (rb b s) as [c1 s1|s1|f s1|s1]; try discriminate. intros H Hc.
  exists c1, s1. split; [reflexivity|]. destruct c1; try discriminate H; try (injection H as <- <-; destruct Hc; discriminate);
    (split; [unfold good; auto|exact H]).
Qed.

Section Complete.
Variable E : env.
Variable fn : str.
Variable n : Z.
Hypothesis NR : n <= 2 ^ 64.
Variables rho sigma : str -> Z.
Notation img := (img rho sigma).
Notation iop := (iop rho sigma).
Notation asks := (asks E rho sigma).
Notation search := (search E rho sigma).
Notation says_list := (opt_list says).

Lemma asks_quiet tail q s s1 vs s2 s' : quiet [] s s1 -> asks tail q s1 vs s2 -> quiet [] s2 s' -> asks tail q s vs s'.
Proof.
  intros Q1 (m & kc & b & ts & c & t0 & t1 & H1 & H2 & Q0 & V & Q2 & H3) Q3.
  exists m, kc, b, ts, c, t0, t1. repeat split; auto; [eapply quiet_trans; eauto..].
Qed.
Lemma search_quiet tail x qs s s1 vs s' : quiet [] s s1 -> search tail x qs s1 vs s' -> search tail x qs s vs s'.
Proof.
  intros Q H. destruct H.
  - apply se_end. eapply quiet_trans; eauto.
  - eapply se_skip; [eapply quiet_trans; [exact Q|eassumption]|eassumption|eassumption].
  - eapply se_ask; eauto; [now rewrite <- (quiet_all _ _ x Q)|]. eapply asks_quiet; eauto. apply quiet_refl.
Qed.
Lemma search_app tail x q1 q2 s vs s1 vs' s' : search tail x q1 s vs s1 -> search tail x q2 s1 vs' s' ->
  search tail x (q1 ++ q2) s (vs ++ vs') s'.
Proof.
  intros H G. induction H; cbn [app].
  - eapply search_quiet; eauto.
  - eapply se_skip; eauto.
  - rewrite <- app_assoc. eapply se_ask; eauto.
Qed.
Lemma search_end tail x qs s vs s1 s' : search tail x qs s vs s1 -> quiet [] s1 s' -> search tail x qs s vs s'.
Proof.
  intros H Q. rewrite <- (app_nil_r qs), <- (app_nil_r vs). eapply search_app; eauto. now apply se_end.
Qed.
Lemma search_skip tail x qs s y s' : local s x = Some (Some y) -> quiet [] s s' -> search tail x qs s [] s'.
Proof.
  intros L Q. induction qs; [now apply se_end|]. eapply se_skip; [apply quiet_refl|eassumption|auto].
Qed.

(** Blocks of queries. *)
Lemma ask_block tail o code m b s c s' : says_list b = Some (img (append_inner code (tail o))) ->
  run_block E m b s = Done c s' -> good c -> exists vs, asks tail (o, code) s vs s'.
Proof.
  intros H HR Hc. apply block_inv in HR as (m' & s1 & -> & HR & ->); [|exact Hc].
  destruct (ask_run E rho sigma tail o code m' b _ c s1 H HR Hc) as (vs & A). exists vs.
  eapply asks_quiet; eauto using quiet_depth.
Qed.
Lemma guard_block tail x o code m b s c s' : says_list b = Some (img (IIsUndefined x :: append_inner code (tail o))) ->
  run_block E m b s = Done c s' -> good c ->
  (exists y, local s (rho x) = Some (Some y) /\ quiet [] s s') \/
  (local s (rho x) = Some None /\ exists vs, asks tail (o, code) s vs s').
Proof.
  intros H HR Hc. apply block_inv in HR as (m' & s1 & -> & HR & ->); [|exact Hc].
  cbn [RuleSpec.img map map_ir] in H. apply opt_out in H as (st & l' & -> & Hst & Hl).
  apply stmts_inv in HR as [(t & A & B)|[A ->]]; [| |exact Hc].
  - apply (run_undefined E _ _ _ _ _ _ Hst) in A as [-> (v & HL & Hv)]; [|discriminate]. destruct v; [discriminate|].
    right. split; [exact HL|].
    destruct (ask_run E rho sigma tail o code m' l' _ c s1 Hl B Hc) as (vs & A). exists vs.
    eapply asks_quiet; [|exact A|apply quiet_depth]. eapply quiet_trans; [apply quiet_depth|apply quiet_started].
  - apply (run_undefined E _ _ _ _ _ _ Hst) in A as [-> (v & HL & Hv)]; [|discriminate]. destruct v; [|discriminate].
    left. exists v. split; [exact HL|]. repeat split.
Qed.

Definition qs_of (value : opblock) (bs : list (list nir)) : list query := map (fun b => (ob_op value, ob_code value ++ b)) bs.
Lemma body_add_false dst src value x : body_block_add dst src value x false = append_inner (dst ++ ob_code value ++ src) (store x (ob_op value)).
Proof. reflexivity. Qed.
Lemma append_undef x (b k : list nir) : append_inner (IIsUndefined x :: b) k = IIsUndefined x :: append_inner b k.
Proof. destruct b; reflexivity. Qed.
Lemma body_add_true src value x : body_block_add [] src value x true = IIsUndefined x :: append_inner (ob_code value ++ src) (store x (ob_op value)).
Proof. unfold body_block_add. cbn [app]. apply append_undef. Qed.

Lemma chain_run m value x : forall blocks bs s c s',
  opt_list says_list bs = Some (map img (chained false blocks value x)) -> block_stmt (run_block E m) bs s = Done c s' -> good c ->
  exists vs, search (store x) (rho x) (qs_of value blocks) s vs s'.
Proof.
  induction blocks as [|b blocks IH]; intros bs s c s' H HR Hc.
  - apply opt_nil in H as ->. injection HR as <- <-. exists []. apply se_end, quiet_refl.
  - cbn [chained map negb] in H. rewrite body_add_true in H. apply opt_out in H as (b0 & bs0 & -> & H1 & H2).
    apply block_stmt_inv in HR as (c1 & s1 & R1 & Hc1 & R2); [|exact Hc].
    destruct (IH _ _ _ _ H2 R2 Hc) as (vs & G).
    cbn [qs_of map]. destruct (guard_block (store x) x (ob_op value) _ _ _ _ _ _ H1 R1 Hc1) as [(y & L & Q)|(L & ws & A)].
    + exists vs. eapply se_skip; [exact Q| |exact G]. rewrite (quiet_all _ _ _ Q). exact L.
    + exists (ws ++ vs). eapply se_ask; eauto.
Qed.

(** The chained bodies of one definition: the first is asked, the others while there is no value. *)
Definition asked_then (x : str) (qs : list query) (s : state) (vs : list value) (s' : state) : Prop :=
  exists q qs' ws s1 ws', qs = q :: qs' /\ asks (store x) q s ws s1 /\ search (store x) (rho x) qs' s1 ws' s' /\ vs = ws ++ ws'.
Lemma asked_quiet x qs s s1 vs s2 s' : quiet [] s s1 -> asked_then x qs s1 vs s2 -> quiet [] s2 s' -> asked_then x qs s vs s'.
Proof.
  intros Q1 (q & qs' & ws & t & ws' & -> & A & B & ->) Q2. exists q, qs', ws, t, ws'. split; [reflexivity|].
  split; [eapply asks_quiet; eauto; apply quiet_refl|]. split; [eapply search_end; eauto|reflexivity].
Qed.
Lemma asked_search x qs s vs s' : asked_then x qs s vs s' -> local s (rho x) = Some None -> search (store x) (rho x) qs s vs s'.
Proof. intros (q & qs' & ws & t & ws' & -> & A & B & ->) L. eapply se_ask; eauto. Qed.

Lemma chain_first m value x b blocks bs s c s' :
  opt_list says_list bs = Some (map img (chained true (b :: blocks) value x)) -> block_stmt (run_block E m) bs s = Done c s' -> good c ->
  exists vs, asked_then x (qs_of value (b :: blocks)) s vs s'.
Proof.
  intros H HR Hc. cbn [chained map negb] in H. rewrite body_add_false in H. apply opt_out in H as (b0 & bs0 & -> & H1 & H2).
  apply block_stmt_inv in HR as (c1 & s1 & R1 & Hc1 & R2); [|exact Hc]. cbn [app] in H1.
  destruct (ask_block (store x) (ob_op value) _ _ _ _ _ _ H1 R1 Hc1) as (ws & A). destruct (chain_run _ _ _ _ _ _ _ _ H2 R2 Hc) as (vs & G).
  exists (ws ++ vs). exists (ob_op value, ob_code value ++ b), (qs_of value blocks), ws, s1, vs. auto.
Qed.

Lemma one_stmt rb st s c s' : run_stmts E rb [st] CContinue s = Done c s' -> good c -> run_stmt E rb st s = Done c s'.
Proof. intros H Hc. apply stmts_inv in H as [(s1 & A & B)|[A ->]]; auto. injection B as <- <-. exact A. Qed.

Lemma instance_first i x L m b s c s' : instance_block true i x = Some L -> says_list b = Some (img L) ->
  run_block E m b s = Done c s' -> good c -> exists vs, asked_then x (queries i) s vs s'.
Proof.
  unfold instance_block, queries. destruct (in_blocks i) as [|b0 [|b1 bs]]; [discriminate| |]; intros [= <-] H HR Hc.
  - rewrite body_add_false in H. cbn [app] in H.
    destruct (ask_block (store x) (ob_op (in_value i)) _ _ _ _ _ _ H HR Hc) as (ws & A).
    exists (ws ++ []). exists (ob_op (in_value i), ob_code (in_value i) ++ b0), [], ws, s', []. split; [reflexivity|].
    split; [exact A|]. split; [apply se_end, quiet_refl|reflexivity].
  - apply block_inv in HR as (m' & s1 & -> & HR & ->); [|exact Hc]. cbn [app] in H.
    apply opt_out in H as (st & l' & -> & Hst & Hl). apply opt_nil in Hl as ->.
    apply one_stmt in HR; [|exact Hc]. apply (run_blockst E _ _ _ _ _ _ Hst) in HR as (bs' & Hbs & HB); [|now apply good_not_timeout].
    destruct (chain_first m' (in_value i) x b0 (b1 :: bs) bs' _ c s1 Hbs HB Hc) as (vs & A). exists vs.
    eapply asked_quiet; [|exact A|apply quiet_depth]. eapply quiet_trans; [apply quiet_depth|apply quiet_started].
Qed.
Lemma instance_next i x L m b s c s' : instance_block false i x = Some L -> says_list b = Some (img L) ->
  run_block E m b s = Done c s' -> good c -> exists vs, search (store x) (rho x) (queries i) s vs s'.
Proof.
  unfold instance_block, queries. destruct (in_blocks i) as [|b0 [|b1 bs]]; [discriminate| |]; intros [= <-] H HR Hc.
  - rewrite body_add_false in H. cbn [app] in H. rewrite append_undef in H.
    destruct (guard_block (store x) x (ob_op (in_value i)) _ _ _ _ _ _ H HR Hc) as [(y & L & Q)|(L & vs & A)].
    + exists []. eapply search_skip; eauto.
    + exists (vs ++ []). eapply se_ask; eauto. apply se_end, quiet_refl.
  - apply block_inv in HR as (m' & s1 & -> & HR & ->); [|exact Hc]. cbn [app] in H.
    cbn [RuleSpec.img map map_ir] in H. apply opt_out in H as (st & l' & -> & Hst & Hl).
    apply stmts_inv in HR as [(t & A & B)|[A ->]]; [| |exact Hc].
    + apply (run_undefined E _ _ _ _ _ _ Hst) in A as [-> (v & HL & Hv)]; [|discriminate]. destruct v; [discriminate|].
      apply opt_out in Hl as (st2 & l2 & -> & Hst2 & Hl). apply opt_nil in Hl as ->.
      apply one_stmt in B; [|exact Hc]. apply (run_blockst E _ _ _ _ _ _ Hst2) in B as (bs' & Hbs & HB); [|now apply good_not_timeout].
      destruct (chain_first m' (in_value i) x b0 (b1 :: bs) bs' _ c s1 Hbs HB Hc) as (vs & A). exists vs.
      apply asked_search; [|exact HL]. eapply asked_quiet; [|exact A|apply quiet_depth].
      eapply quiet_trans; [apply quiet_depth|]. eapply quiet_trans; apply quiet_started.
    + apply (run_undefined E _ _ _ _ _ _ Hst) in A as [-> (v & HL & Hv)]; [|discriminate]. destruct v; [|discriminate].
      exists []. eapply search_skip; [exact HL|]. repeat split.
Qed.
Lemma all_some_cons {A} (a : option A) l r : all_some (a :: l) = Some r -> exists x r', a = Some x /\ all_some l = Some r' /\ r = x :: r'.
Proof. cbn. destruct a; [|discriminate]. destruct (all_some l); [|discriminate]. intros [= <-]. eauto. Qed.
Lemma instances_next x m : forall l Ls bs rest c s s', all_some (instance_blocks false l x) = Some Ls ->
  opt_list says_list bs = Some (map img Ls) -> block_stmt (run_block E m) (bs ++ rest) s = Done c s' -> good c ->
  exists vs s1, search (store x) (rho x) (flat_map queries l) s vs s1 /\ block_stmt (run_block E m) rest s1 = Done c s'.
Proof.
  induction l as [|i l IH]; intros Ls bs rest c s s' HA HB HR Hc.
  - injection HA as <-. apply opt_nil in HB as ->. exists [], s. split; [apply se_end, quiet_refl|exact HR].
  - cbn [instance_blocks] in HA. apply all_some_cons in HA as (L & Ls' & A1 & A2 & ->). cbn [map] in HB.
    apply opt_out in HB as (b0 & bs0 & -> & H1 & H2). cbn [app] in HR.
    apply block_stmt_inv in HR as (c1 & s1 & R1 & Hc1 & R2); [|exact Hc].
    destruct (instance_next _ _ _ _ _ _ _ _ A1 H1 R1 Hc1) as (ws & W).
    destruct (IH _ _ _ _ _ _ A2 H2 R2 Hc) as (vs & s2 & G & R3). exists (ws ++ vs), s2. split; [|exact R3].
    cbn [flat_map]. eapply search_app; eauto.
Qed.

(** What a search does to its variable, and to another one. *)
Definition own (x : str) (q : query) : Prop :=
  in_frame n (img (snd q)) /\ in_frame n (img (store x (fst q))) /\ ~ In (rho x) (flat_map subjects (img (snd q))).
Lemma search_store x qs s vs s' : search (store x) (rho x) qs s vs s' -> private E fn n (rho x) -> Forall (own x) qs ->
  forall cur, In fn (s_stack s) -> local s (rho x) = Some cur ->
  exists cur', In fn (s_stack s') /\ local s' (rho x) = Some cur' /\ assigned E cur vs cur'.
Proof.
  intros H P. induction H as [s s' Q|q qs s s1 y vs s' Q L H IH|[o code] qs s vs s1 vs' s' L A H IH]; intros HO cur I LC.
  - exists cur. rewrite (quiet_stack _ _ _ Q), (quiet_all _ _ _ Q). auto using assigned_nil.
  - inversion HO; subst. apply IH; auto; [now rewrite (quiet_stack _ _ _ Q)|now rewrite (quiet_all _ _ _ Q)].
  - inversion HO as [|? ? (F1 & F2 & F3) HO']; subst.
    destruct (asks_store E fn n NR rho sigma _ _ _ _ _ _ A I P F1 F2 F3 cur LC) as (c1 & I1 & L1 & A1).
    destruct (IH HO' c1 I1 L1) as (c2 & I2 & L2 & A2). exists c2. split; [auto|]. split; [auto|]. eapply assigned_app; eauto.
Qed.
Definition apart (z : Z) (q : query) : Prop := ~ In z (flat_map subjects (img (snd q))).
Lemma store_keeps x o z : z <> rho x -> in_frame n (img (store x o)) ->
  forall m kc t c t', opt_list says kc = Some (img (store x o)) -> run_stmts E (run_block E m) kc CContinue t = Done c t' -> good c ->
     s_stack t' = s_stack t /\ local t' z = local t z.
Proof.
  intros Hz HF m kc t c t' H HR Hc. destruct (store_run E n NR rho sigma _ _ _ _ _ _ _ H HF HR Hc) as (A & B & _). auto.
Qed.
Lemma search_keep x z qs s vs s' : search (store x) (rho x) qs s vs s' -> private E fn n z -> z <> rho x ->
  Forall (own x) qs -> Forall (apart z) qs ->
  forall cur, In fn (s_stack s) -> local s z = Some cur -> In fn (s_stack s') /\ local s' z = Some cur.
Proof.
  intros H P Hz. induction H as [s s' Q|q qs s s1 y vs s' Q L H IH|[o code] qs s vs s1 vs' s' L A H IH]; intros HO HX cur I LC.
  - rewrite (quiet_stack _ _ _ Q), (quiet_all _ _ _ Q). auto.
  - inversion HO; inversion HX; subst. apply IH; auto; [now rewrite (quiet_stack _ _ _ Q)|now rewrite (quiet_all _ _ _ Q)].
  - inversion HO as [|? ? (F1 & F2 & F3) HO']; inversion HX; subst.
    destruct (asks_keep E fn n NR rho sigma _ _ _ _ _ _ z A I P F1 ltac:(assumption) (store_keeps x o z Hz F2) cur LC) as (I1 & L1).
    apply IH; auto.
Qed.

(** Slots and names of the parts of a definition. *)
Lemma in_frame_block seq : in_frame n (img [IBlock seq]) <-> Forall (fun b => in_frame n (img b)) seq.
Proof.
  unfold in_frame. cbn [RuleSpec.img map map_ir flat_map locals_in]. rewrite app_nil_r. induction seq as [|b seq IH]; cbn [map flat_map].
  - split; constructor.
  - rewrite Forall_app, IH. split; [intros [? ?]; constructor; auto|intro H; inversion H; auto].
Qed.
Definition placed (x : str) (q : query) : Prop := in_frame n (img (snd q)) /\ in_frame n (img (store x (fst q))).
Lemma placed_add dst src value x u : in_frame n (img (body_block_add dst src value x u)) -> placed x (ob_op value, ob_code value ++ src).
Proof.
  unfold body_block_add. rewrite img_append. intro H. apply in_frame_append in H as [H1 H2]. split; [|exact H2].
  rewrite !img_app in H1. apply in_frame_app in H1 as [_ H1]. apply in_frame_app in H1 as [_ H1]. cbn [snd]. now rewrite img_app.
Qed.
Lemma placed_chained value x : forall blocks first, Forall (fun b => in_frame n (img b)) (chained first blocks value x) ->
  Forall (placed x) (qs_of value blocks).
Proof.
  induction blocks as [|b blocks IH]; intros first H; [constructor|]. cbn [chained] in H. inversion H; subst.
  constructor; [eapply placed_add; eauto|eauto].
Qed.
Lemma placed_instance first i x L : instance_block first i x = Some L -> in_frame n (img L) -> Forall (placed x) (queries i).
Proof.
  unfold instance_block, queries. destruct (in_blocks i) as [|b0 [|b1 bs]]; [discriminate| |]; intros [= <-] H.
  - constructor; [|constructor]. eapply placed_add; eauto.
  - rewrite img_app in H. apply in_frame_app in H as [_ H]. apply in_frame_block in H.
    exact (placed_chained (in_value i) x (b0 :: b1 :: bs) true H).
Qed.
Lemma placed_instances x : forall l first Ls, all_some (instance_blocks first l x) = Some Ls -> Forall (fun b => in_frame n (img b)) Ls ->
  Forall (placed x) (flat_map queries l).
Proof.
  induction l as [|i l IH]; intros first Ls HA HF; [constructor|]. cbn [instance_blocks] in HA.
  apply all_some_cons in HA as (L & Ls' & A1 & A2 & ->). inversion HF; subst. cbn [flat_map]. apply Forall_app. split; [|eauto].
  eapply placed_instance; eauto.
Qed.
Lemma in_subjects z (a : list nir) b : (forall st, In st a -> In st b) -> In z (flat_map subjects (img a)) -> In z (flat_map subjects (img b)).
Proof.
  intros H I. apply in_flat_map in I as (st & I1 & I2). apply in_map_iff in I1 as (st0 & <- & I1). apply in_flat_map.
  exists (map_ir rho sigma norm st0). split; [|exact I2]. apply in_map_iff. eauto.
Qed.
Lemma apart_queries z l : ~ In z (flat_map subjects (img (flat_map inst_code l))) -> Forall (apart z) (flat_map queries l).
Proof.
  intro H. apply Forall_forall. intros q I. apply in_flat_map in I as (i & I1 & I2). unfold queries in I2.
  apply in_map_iff in I2 as (b & <- & I2). intro G. apply H. eapply in_subjects; [|exact G]. cbn [snd]. intros st I.
  apply in_flat_map. exists i. split; [exact I1|]. unfold inst_code. apply in_app_iff in I as [I|I]; apply in_app_iff; [auto|right].
  apply in_concat. eauto.
Qed.

(** One definition. *)
Lemma final_block x ret m b s c s' : says_list b = Some (img [IIsDefined x; IAssignVarOnce (OLocal x) ret]) ->
  in_frame n (img [IIsDefined x; IAssignVarOnce (OLocal x) ret]) ->
  run_block E m b s = Done c s' -> good c ->
  quiet [rho ret] s s' /\ exists v, local s (rho x) = Some v /\
    forall cur, local s (rho ret) = Some cur -> exists cur', local s' (rho ret) = Some cur' /\ once E cur v cur'.
Proof.
  intros H HF HR Hc. apply block_inv in HR as (m' & s1 & -> & HR & ->); [|exact Hc].
  cbn [RuleSpec.img map map_ir] in H. apply opt_out in H as (st & l' & -> & Hst & Hl).
  apply opt_out in Hl as (st2 & l2 & -> & Hst2 & Hl). apply opt_nil in Hl as ->.
  apply stmts_inv in HR as [(t & A & B)|[A ->]]; [| |exact Hc].
  - apply (run_defined E _ _ _ _ _ _ Hst) in A as [-> (v & HL & Hv)]; [|discriminate]. destruct v as [v|]; [|discriminate].
    apply one_stmt in B; [|exact Hc].
    assert (HO : Forall (fun x => 0 <= x < n) (op_local (map_op rho sigma (OLocal x)))).
    { unfold in_frame in HF. cbn in HF |- *. inversion HF; subst. constructor; auto. }
    change (local (add_depth 1 s) (rho x)) with (local s (rho x)) in HL.
    assert (HV : value_at E (started st (add_depth 1 s)) (map_op rho sigma (OLocal x)) = Some v).
    { cbn [map_op value_at]. change (local (started st (add_depth 1 s)) (rho x)) with (local s (rho x)). now rewrite HL. }
    apply (run_once E n NR _ _ _ _ _ _ _ Hst2 HO) in B as [_ [[-> HV']|(u & cur & cur' & HV' & HL' & HO' & HL2 & HD)]]; [| |exact Hc];
      rewrite HV in HV'; [discriminate|]. injection HV' as <-.
    split.
    { destruct HD as [[R ->]| ->]; [|repeat split].
      eapply quiet_trans; [|eapply quiet_trans; [apply (quiet_put (rho ret) cur' (started st2 (started st (add_depth 1 s)))); lia|apply quiet_weaken, quiet_depth]].
      repeat split. }
    exists (Some v). split; [exact HL|]. intros cur0 L0.
    change (local (started st (add_depth 1 s)) (rho ret)) with (local s (rho ret)) in HL'. rewrite L0 in HL'. injection HL' as <-.
    exists cur'. auto.
  - apply (run_defined E _ _ _ _ _ _ Hst) in A as [-> (v & HL & Hv)]; [|discriminate]. destruct v as [v|]; [discriminate|].
    split; [repeat split|]. exists None. split; [exact HL|]. intros cur L. exists cur. split; [exact L|reflexivity].
Qed.

Lemma assigned_through cur vs v cur' : assigned E None vs v -> once E cur v cur' -> assigned E cur vs cur'.
Proof.
  intros [A1 A2] H. subst v. destruct vs as [|v vs]; cbn [hd_error] in *.
  - unfold once in H. subst. apply assigned_nil.
  - destruct cur as [y|]; cbn in H.
    + destruct H as [H ->]. split; [reflexivity|]. intros w u I [= <-]. unfold same_value in *. rewrite <- H. now apply A2.
    + subst. split; [reflexivity|]. intros w u I [= <-]. now apply A2.
Qed.

Variable fresh : nat -> nat -> nat -> str.
Lemma body_run k l ret L m b s c s' : body_block fresh k l ret = Some L -> says_list b = Some (img L) -> in_frame n (img L) ->
  run_block E m b s = Done c s' -> good c ->
  exists vs, defines E rho sigma (fresh k 0%nat 0%nat) ret l s vs s' /\
    (private E fn n (rho ret) -> ~ In (rho ret) (flat_map subjects (img (flat_map inst_code l))) ->
     ((1 < length l)%nat -> private E fn n (rho (fresh k 0%nat 0%nat)) /\ rho ret <> rho (fresh k 0%nat 0%nat) /\
       ~ In (rho (fresh k 0%nat 0%nat)) (flat_map subjects (img (flat_map inst_code l)))) ->
     In fn (s_stack s) -> forall cur, local s (rho ret) = Some cur ->
     exists cur', In fn (s_stack s') /\ local s' (rho ret) = Some cur' /\ assigned E cur vs cur').
Proof.
  unfold body_block. destruct l as [|i [|j l]]; cbn [length].
  - discriminate.
  - replace (1 <? 1)%nat with false by reflexivity. cbn [instance_blocks all_some].
    destruct (instance_block true i ret) as [L0|] eqn:EI; [|discriminate]. cbn [app]. intros [= <-] H HF HR Hc.
    apply in_frame_block in HF. inversion HF as [|? ? HF0 _]; subst.
    apply block_inv in HR as (m' & s1 & -> & HR & ->); [|exact Hc].
    apply opt_out in H as (st & l' & -> & Hst & Hl). apply opt_nil in Hl as ->.
    apply one_stmt in HR; [|exact Hc]. apply (run_blockst E _ _ _ _ _ _ Hst) in HR as (bs' & Hbs & HB); [|now apply good_not_timeout].
    cbn [map] in Hbs. apply opt_out in Hbs as (b0 & bs0 & -> & Hb0 & Hl). apply opt_nil in Hl as ->.
    apply block_stmt_inv in HB as (c1 & s2 & R1 & Hc1 & R2); [|exact Hc]. injection R2 as <- <-.
    destruct (instance_first _ _ _ _ _ _ _ _ EI Hb0 R1 Hc1) as (vs & A).
    pose proof (placed_instance _ _ _ _ EI HF0) as PL.
    assert (A' : asked_then ret (queries i) s vs (add_depth (-1) s2)).
    { eapply asked_quiet; [|exact A|apply quiet_depth]. repeat split. }
    destruct A' as ([o code] & qs & ws & s3 & ws' & EQ & A1 & A2 & ->).
    exists (ws ++ ws'). split; [eapply de_one; eauto|].
    intros P1 N1 _ I cur LC. apply apart_queries in N1. cbn [flat_map] in N1. rewrite app_nil_r in N1. rewrite EQ in *.
    inversion N1; inversion PL as [|? ? [F1 F2] PL']; subst.
    destruct (asks_store E fn n NR rho sigma _ _ _ _ _ _ A1 I P1 F1 F2 ltac:(assumption) cur LC) as (c1' & I1 & L1 & AS1).
    destruct (search_store _ _ _ _ _ A2 P1) with (cur := c1') as (c2 & I2 & L2 & AS2); auto.
    { apply Forall_forall. intros q Iq. rewrite Forall_forall in *. destruct (PL' q Iq). split; [auto|]. split; [auto|].
      apply N1. now right. }
    exists c2. split; [auto|]. split; [auto|]. eapply assigned_app; eauto.
  - replace (1 <? S (S (length l)))%nat with true by reflexivity. set (x := fresh k 0%nat 0%nat).
    destruct (all_some _) as [Ls|] eqn:EA; [|discriminate]. cbn [app]. intros [= <-] H HF HR Hc.
    apply in_frame_block in HF. inversion HF as [|? ? _ HF1]; subst. apply Forall_app in HF1 as [HF1 HF2].
    inversion HF2 as [|? ? HF3 _]; subst.
    pose proof (placed_instances _ _ _ _ EA HF1) as PL.
    apply block_inv in HR as (m' & s1 & -> & HR & ->); [|exact Hc].
    apply opt_out in H as (st & l' & -> & Hst & Hl). apply opt_nil in Hl as ->.
    apply one_stmt in HR; [|exact Hc]. apply (run_blockst E _ _ _ _ _ _ Hst) in HR as (bs' & Hbs & HB); [|now apply good_not_timeout].
    cbn [map] in Hbs. apply opt_out in Hbs as (b0 & bs0 & -> & Hb0 & Hbs).
    apply block_stmt_inv in HB as (c1 & s2 & R1 & Hc1 & R2); [|exact Hc].
    (* the reset *)
    cbn [RuleSpec.img map map_ir] in Hb0. apply opt_out in Hb0 as (st0 & l0 & -> & Hst0 & Hl0). apply opt_nil in Hl0 as ->.
    apply block_inv in R1 as (m1 & s3 & -> & R1 & ->); [|exact Hc1]. apply one_stmt in R1; [|exact Hc1].
    apply (run_reset E _ _ _ _ _ _ Hst0) in R1 as (-> & HX & ->); [|now apply good_not_timeout].
    set (s2 := add_depth (-1) (put (rho x) None (started st0 (add_depth 1 (started st (add_depth 1 s)))))) in *.
    assert (Q2 : quiet [rho x] s s2).
    { unfold s2. eapply quiet_trans; [|eapply quiet_trans; [apply quiet_put; lia|apply quiet_weaken, quiet_depth]]. repeat split. }
    assert (L2 : local s2 (rho x) = Some None).
    { unfold s2. exact (local_set_same (started st0 (add_depth 1 (started st (add_depth 1 s)))) (rho x) None HX). }
    clearbody s2.
    (* the instances *)
    rewrite map_app in Hbs. apply opt_app in Hbs as (bs1 & bs2 & -> & Hbs1 & Hbs2).
    cbn [instance_blocks] in EA. apply all_some_cons in EA as (L0 & Ls' & A1 & A2 & ->). cbn [map] in Hbs1.
    apply opt_out in Hbs1 as (b1 & bs1' & -> & Hb1 & Hbs1). cbn [app] in R2.
    apply block_stmt_inv in R2 as (c2 & s4 & R2 & Hc2 & R3); [|exact Hc].
    destruct (instance_first _ _ _ _ _ _ _ _ A1 Hb1 R2 Hc2) as (vs1 & AT). apply asked_search in AT; [|exact L2].
    change (instance_block false j x :: instance_blocks false l x) with (instance_blocks false (j :: l) x) in A2.
    destruct (instances_next _ _ _ _ _ _ _ _ _ A2 Hbs1 R3 Hc) as (vs2 & s5 & SE & R4).
    pose proof (search_app _ _ _ _ _ _ _ _ _ AT SE) as SA.
    (* the last block *)
    cbn [map] in Hbs2. apply opt_out in Hbs2 as (b2 & bs2' & -> & Hb2 & Hl). apply opt_nil in Hl as ->.
    apply block_stmt_inv in R4 as (c3 & s6 & R4 & Hc3 & R5); [|exact Hc]. injection R5 as <- <-.
    destruct (final_block _ _ _ _ _ _ _ Hb2 HF3 R4 Hc3) as (Q6 & v & HLx & HLr).
    exists (vs1 ++ vs2). split.
    { eapply de_else; [exact Q2|exact L2|exact SA|]. eapply quiet_trans; [exact Q6|apply quiet_weaken, quiet_depth]. }
    intros P1 N1 PP I cur LC. destruct PP as (P2 & N0 & N2); [cbn; lia|]. apply apart_queries in N1. apply apart_queries in N2.
    assert (I2 : In fn (s_stack s2)) by (rewrite (quiet_stack _ _ _ Q2); auto).
    assert (OW : Forall (own x) (flat_map queries (i :: j :: l))).
    { apply Forall_forall. intros q Iq. rewrite Forall_forall in *. destruct (PL q Iq). split; [auto|]. split; [auto|]. now apply N2. }
    destruct (search_store _ _ _ _ _ SA P2 OW None I2 L2) as (cx & I5 & L5 & AS).
    destruct (search_keep _ (rho ret) _ _ _ _ SA P1 N0 OW N1 cur I2) as (_ & LR).
    { rewrite (quiet_local _ _ _ _ Q2); [exact LC|]. intros [G|[]]. congruence. }
    destruct (HLr cur LR) as (cur' & LR' & ON). rewrite L5 in HLx. injection HLx as ->.
    exists cur'. split; [|split].
    + change (In fn (s_stack s6)). rewrite (quiet_stack _ _ _ Q6). exact I5.
    + exact LR'.
    + eapply assigned_through; eauto.
Qed.
End Complete.
