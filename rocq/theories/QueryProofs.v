(** The function of a query lists its solutions. *)
From Coq Require Import String ZArith List Bool Lia.
From Verif Require Import Base SMap BigIntSpec ValueModel ValueSpec ResolverModel VmModel VmSpec VmProofs VmSimProofs VmStmtProofs
  PlanModel PlanSpec PlanProofs RuleModel RuleSpec RuleVmProofs RuleVisitProofs RuleProofs RuleCompleteProofs RuleFnProofs RuleObjProofs
  RuleEntryProofs RuleBuiltProofs QueryModel QuerySpec.
From Verif Require KeyProofs BinLoadProofs DecFacts.
Import ListNotations.
Local Open Scope Z_scope.

(** ** Statements that write one local *)
Section Steps.
Variable E : env.
Variable n : Z.
Hypothesis NR : n <= 2 ^ 64.
Notation "'fits' o" := (Forall (fun x => 0 <= x < n) (op_local o)) (at level 10).

Lemma says_more st i : says st = Some i ->
  match i with
  | IMakeArray t x => exists a b, st = Stmt SMakeArray a b x None
  | IMakeNumberInt t x => exists a b, st = Stmt SMakeNumberInt a b x None /\ says_value a = Some t
  | IArrayAppend x o => exists a b, st = Stmt SArrayAppend a b x None /\ says_op a = Some o
  | IAssignVar o x => exists a b, st = Stmt SAssignVar a b x None /\ says_op a = Some o
  | IObjectInsert k v x => exists a b, st = Stmt SObjectInsert a b x None /\ says_op a = Some k /\ says_op b = Some v
  | _ => True
  end.
Proof.
  destruct st as [ty a0 a1 y e]. cbn [says]. intro H.
  destruct ty, e as [[]|]; try discriminate H; unfold with1, with2, option_map in H;
    repeat match type of H with context [match ?y with _ => _ end] => destruct y eqn:?; try discriminate H end;
    try discriminate H; injection H as <-; eauto 10.
Qed.

(** [wrote x v s s']: the local [x] got the value [v]; apart from counters nothing else changed. *)
Definition wrote (x : Z) (v : option value) (s s' : state) : Prop := quiet [x] s s' /\ local s' x = Some v.
Lemma wrote_put st x v s : 0 <= x < zlen (s_frame s) -> wrote x v s (put x v (started st s)).
Proof.
  intro R. split.
  - eapply quiet_trans; [apply quiet_weaken, (quiet_started st)|apply quiet_put; lia].
  - exact (local_set_same (started st s) x v R).
Qed.
Ltac start Hs H Hc := apply run_stmt_inv in H as [_ H]; [|now apply good_not_timeout]; cbn [dispatch] in H.
Ltac write H := unfold bind at 1 in H;
  match type of H with context [write_local ?x ?v ?s] => destruct (write_local x v s) as [uw s1|s1|fw s1|s1] eqn:Ew; try discriminate;
    apply write_inv in Ew as [RW ->] end; cbn in H; injection H as <- <-.
Lemma step_array rb st t x s c s' : says st = Some (IMakeArray t x) -> run_stmt E rb st s = Done c s' -> good c ->
  c = CContinue /\ wrote x (Some (VArray [])) s s'.
Proof. intros Hs H Hc. apply says_more in Hs as (a & b & ->). start Hs H Hc. write H. split; [reflexivity|]. now apply wrote_put. Qed.
Lemma step_object rb st x s c s' : says st = Some (IMakeObject x) -> run_stmt E rb st s = Done c s' -> good c ->
  c = CContinue /\ wrote x (Some (VObject [])) s s'.
Proof.
  intros Hs H Hc. apply (run_makeobject E _ _ _ _ _ _ Hs) in H as (-> & R & ->); [|now apply good_not_timeout].
  split; [reflexivity|]. now apply wrote_put.
Qed.
Lemma step_number rb st t x s c s' : says st = Some (IMakeNumberInt (norm t) x) -> run_stmt E rb st s = Done c s' -> good c ->
  c = CContinue /\ wrote x (Some (number t)) s s'.
Proof.
  intros Hs H Hc. apply says_more in Hs as (a & b & -> & Ha). start Hs H Hc. write H. split; [reflexivity|].
  replace (number t) with (VInt (dec (o_value a))); [now apply wrote_put|]. unfold number. do 2 f_equal.
  unfold says_value in Ha. destruct (o_type a); try discriminate. injection Ha as Ha. apply DecFacts.dec_inj in Ha.
  unfold o_value. cbn [o_word]. now rewrite Ha.
Qed.
Lemma step_assign rb st o x s c s' : says st = Some (IAssignVar o x) -> fits o -> run_stmt E rb st s = Done c s' -> good c ->
  c = CContinue /\ wrote x (value_at E s o) s s'.
Proof.
  intros Hs F H Hc. apply says_more in Hs as (a & b & -> & Ha). start Hs H Hc. unfold bind at 1 in H.
  destruct (unpack_operand E a _) as [v s1|s1|f s1|s1] eqn:Eu; try discriminate. apply (unpack_value E n NR _ _ _ _ _ Ha F) in Eu as [-> ->].
  write H. split; [reflexivity|]. now apply (wrote_put (Stmt SAssignVar a b x None)).
Qed.
Lemma step_append rb st o x s c s' l u : says st = Some (IArrayAppend x o) -> fits o -> run_stmt E rb st s = Done c s' -> good c ->
  local s x = Some (Some (VArray l)) -> value_at E s o = Some u -> c = CContinue /\ wrote x (Some (VArray (l ++ [u]))) s s'.
Proof.
  intros Hs F H Hc L V. apply says_more in Hs as (a & b & -> & Ha). start Hs H Hc. unfold bind at 1 in H.
  destruct (read_local x _) as [y s1|s1|f s1|s1] eqn:Er; try discriminate. apply read_inv in Er as [-> Er].
  change (local (started _ s) x) with (local s x) in Er. rewrite L in Er. injection Er as <-.
  unfold bind at 1 in H. destruct (unpack_operand E a _) as [v s1|s1|f s1|s1] eqn:Eu; try discriminate.
  apply (unpack_value E n NR _ _ _ _ _ Ha F) in Eu as [-> ->]. change (value_at E (started _ s) o) with (value_at E s o) in H. rewrite V in H.
  write H. split; [reflexivity|]. now apply (wrote_put (Stmt SArrayAppend a b x None)).
Qed.
Lemma step_insert rb st k v x s c s' l kt : says st = Some (IObjectInsert k v x) -> fits k -> fits v -> run_stmt E rb st s = Done c s' -> good c ->
  local s x = Some (Some (VObject l)) -> value_at E s k = Some (VString kt) -> find_item E (quote kt) l = None ->
  c = CContinue /\ wrote x (Some (VObject (l ++ [(VString kt, to_term (value_at E s v))]))) s s'.
Proof.
  intros Hs Fk Fv H Hc L V N. apply says_more in Hs as (a & b & -> & Ha & Hb). start Hs H Hc. unfold bind at 1 in H.
  destruct (unpack_operand E a _) as [kv s1|s1|f s1|s1] eqn:Ek; try discriminate. apply (unpack_value E n NR _ _ _ _ _ Ha Fk) in Ek as [-> ->].
  unfold bind at 1 in H. destruct (unpack_operand E b _) as [vv s1|s1|f s1|s1] eqn:Ev; try discriminate.
  apply (unpack_value E n NR _ _ _ _ _ Hb Fv) in Ev as [-> ->].
  unfold bind at 1 in H. destruct (read_local x _) as [o s1|s1|f s1|s1] eqn:Er; try discriminate. apply read_inv in Er as [-> Er].
  change (local (started _ s) x) with (local s x) in Er. rewrite L in Er. injection Er as <-.
  change (value_at E (started _ s) k) with (value_at E s k) in H. change (value_at E (started _ s) v) with (value_at E s v) in H.
  rewrite V in H. cbn [insert_into_object node_key to_key] in H. rewrite N in H. cbn [to_term] in H.
  write H. split; [reflexivity|]. now apply (wrote_put (Stmt SObjectInsert a b x None)).
Qed.

(** ** Lists of statements *)
Lemma next rb i l kc s c s' : opt_list says kc = Some (i :: l) -> run_stmts E rb kc CContinue s = Done c s' -> good c ->
  exists st kc' c1 s1, says st = Some i /\ opt_list says kc' = Some l /\ run_stmt E rb st s = Done c1 s1 /\ good c1 /\
    ((c1 = CContinue /\ run_stmts E rb kc' CContinue s1 = Done c s') \/ (c1 = CUndefined /\ c = CUndefined /\ s1 = s')).
Proof.
  intros H HR Hc. apply opt_out in H as (st & kc' & -> & H1 & H2). apply stmts_inv in HR as [(s1 & A & B)|[A ->]]; [| |exact Hc].
  - exists st, kc', CContinue, s1. repeat (split; [assumption|]). split; [now left|]. auto.
  - exists st, kc', CUndefined, s'. split; [assumption|]. split; [assumption|]. split; [assumption|]. split; [now right|]. auto.
Qed.
Lemma run_app rb : forall k1 k2 s c s', run_stmts E rb (k1 ++ k2) CContinue s = Done c s' -> good c ->
  exists c1 s1, run_stmts E rb k1 CContinue s = Done c1 s1 /\
    ((c1 = CContinue /\ run_stmts E rb k2 CContinue s1 = Done c s') \/ (c1 = CUndefined /\ c = CUndefined /\ s1 = s')).
Proof.
  induction k1 as [|st k1 IH]; intros k2 s c s' H Hc.
  - exists CContinue, s. split; [reflexivity|]. auto.
  - cbn [app] in H. apply stmts_inv in H as [(s1 & A & B)|[A ->]]; [| |exact Hc].
    + destruct (IH _ _ _ _ B Hc) as (c1 & s2 & C & D). exists c1, s2. split; [|exact D]. cbn [run_stmts]. unfold bind. rewrite A. exact C.
    + exists CUndefined, s'. split; [|auto]. cbn [run_stmts]. unfold bind. rewrite A. reflexivity.
Qed.
Lemma value_quiet xs s s' o : quiet xs s s' -> (forall x, In x (op_local o) -> ~ In x xs) -> value_at E s' o = value_at E s o.
Proof.
  intros Q H. destruct o as [x|i|b]; cbn; [|reflexivity|reflexivity]. rewrite (quiet_local _ _ _ _ Q); [reflexivity|]. apply H. now left.
Qed.
Lemma quiet_incl xs ys s s' : incl xs ys -> quiet xs s s' -> quiet ys s s'.
Proof. intros H (A1 & A2 & A3 & A4 & A5 & A0 & A6). repeat split; auto. Qed.
End Steps.

(** ** Recording one solution *)
Section Rows.
Variable E : env.
Variable n : Z.
Hypothesis NR : n <= 2 ^ 64.
Variables rho sigma : str -> Z.
Notation img := (img rho sigma).
Notation iop := (iop rho sigma).
Notation "'fits' o" := (Forall (fun x => 0 <= x < n) (op_local o)) (at level 10).
Variable N : qnames.
Definition known (s : str) : Prop := znth (b_strings (e_bundle E)) (sigma s mod 2 ^ 64) = Some s.
Lemma known_value t s : known s -> value_at E t (iop (OString s)) = Some (VString (strip_quotes s)).
Proof. unfold known. cbn. intros ->. reflexivity. Qed.

Ltac look := repeat match goal with
  | H : local ?s ?y = Some _ |- context [local ?s ?y] => rewrite H
  | Q : quiet ?xs ?s0 ?s |- context [local ?s ?y] =>
      rewrite (quiet_local xs s0 s y Q) by (cbn [In]; intuition congruence)
  end.
Ltac advance HS HR Hc cc tt :=
  let st := fresh "st" in let kc' := fresh "kc" in let HS' := fresh "HS" in let Es := fresh "Es" in let Hst := fresh "Hst" in let Hg := fresh "Hg" in
  apply (next E _ _ _ _ _ _ _ HS) in HR as (st & kc' & cc & tt & Hst & HS' & Es & Hg & HR); [|exact Hc]; clear HS; rename HS' into HS.
(** Finish a step that cannot end the list. *)
Ltac done_step HR W := destruct W as [-> W]; destruct HR as [[_ HR]|[HR _]]; [|discriminate HR].

Lemma fits_all {A} (P : A -> Prop) a l : Forall P (a ++ l) -> Forall P l. Proof. intro H. now apply Forall_app in H. Qed.

Lemma expr_run rb k p o kc s c s' l :
  opt_list says kc = Some (img (expr_code N k (p, o))) -> in_frame n (img (expr_code N k (p, o))) ->
  (forall s, In s [$"value"; $"text"; pc_text p; $"row"; $"col"; $"location"] -> known s) ->
  NoDup (map rho [q_exprs N; q_expr N k; q_loc N k; q_row N k; q_col N k]) ->
  (forall x, In x (op_local o) -> rho x <> rho (q_expr N k)) ->
  run_stmts E rb kc CContinue s = Done c s' -> good c -> local s (rho (q_exprs N)) = Some (Some (VArray l)) ->
  c = CContinue /\ quiet (map rho [q_exprs N; q_expr N k; q_loc N k; q_row N k; q_col N k]) s s' /\
  local s' (rho (q_exprs N)) = Some (Some (VArray (l ++ [expr_object E rho sigma s (p, o)]))).
Proof.
  intros HS HF HK HD HO HR Hc L. cbn [map] in HD.
  assert (K1 := HK _ (or_introl eq_refl)). assert (K2 := HK _ (or_intror (or_introl eq_refl))).
  assert (K3 := HK _ (or_intror (or_intror (or_introl eq_refl)))). assert (K4 := HK $"row" ltac:(cbn [In]; tauto)).
  assert (K5 := HK $"col" ltac:(cbn [In]; tauto)). assert (K6 := HK $"location" ltac:(cbn [In]; tauto)). clear HK.
  cbn [RuleSpec.img map map_ir expr_code] in HS, HF. pose proof (op_local_map rho sigma o) as OM.
  change (map_op rho sigma o) with (iop o) in *. set (io := iop o) in *. cbn [map_op] in HS, HF.
  unfold in_frame in HF. cbn [flat_map locals_in map_op op_local app] in HF. rewrite OM in HF. cbn [app] in HF.
  inversion HF as [|? ? R1 HF1]; subst. clear HF. apply Forall_app in HF1 as [FO HF]. apply Forall_app in FO as [FO _].
  assert (FR : forall x, In x [q_loc N k; q_row N k; q_col N k; q_expr N k] -> 0 <= rho x < n).
  { intros x I. rewrite Forall_forall in HF. apply HF. cbn [In] in *. intuition (subst; auto 20). }
  assert (NE : (forall a b, In a [rho (q_expr N k)] -> In b [rho (q_exprs N); rho (q_loc N k); rho (q_row N k); rho (q_col N k)] -> a <> b) /\
    (forall a b, In a [rho (q_loc N k)] -> In b [rho (q_exprs N); rho (q_row N k); rho (q_col N k)] -> a <> b) /\ 
    rho (q_row N k) <> rho (q_exprs N) /\ rho (q_col N k) <> rho (q_exprs N) /\ rho (q_row N k) <> rho (q_col N k)).
  { clear - HD. inversion HD as [|? ? A1 D1]; subst. inversion D1 as [|? ? A2 D2]; subst. inversion D2 as [|? ? A3 D3]; subst. inversion D3 as [|? ? A4 D4]; subst.
    cbn [In] in *. repeat split; intros; intuition (subst; auto). }
  destruct NE as (N1 & N2 & N3 & N4 & N5).
  pose proof (N1 _ _ (or_introl eq_refl) (or_introl eq_refl)) as X1. pose proof (N1 _ (rho (q_loc N k)) (or_introl eq_refl) ltac:(cbn; tauto)) as X2.
  pose proof (N1 _ (rho (q_row N k)) (or_introl eq_refl) ltac:(cbn; tauto)) as X3. pose proof (N1 _ (rho (q_col N k)) (or_introl eq_refl) ltac:(cbn; tauto)) as X4.
  pose proof (N2 _ _ (or_introl eq_refl) (or_introl eq_refl)) as X5. pose proof (N2 _ (rho (q_row N k)) (or_introl eq_refl) ltac:(cbn; tauto)) as X6.
  pose proof (N2 _ (rho (q_col N k)) (or_introl eq_refl) ltac:(cbn; tauto)) as X7. clear N1 N2 HD.
  assert (FL : forall x, In x [q_loc N k; q_row N k; q_col N k; q_expr N k] -> fits (OLocal (rho x) : op Z Z)) by (intros x I; apply Forall_cons; [exact (FR x I)|apply Forall_nil]).
  set (ev := rho (q_expr N k)) in *. set (lv := rho (q_loc N k)) in *. set (rv := rho (q_row N k)) in *. set (cv := rho (q_col N k)) in *.
  set (av := rho (q_exprs N)) in *.
  advance HS HR Hc c1 s1. pose proof (step_object E _ _ _ _ _ _ Hst Es Hg) as W1. done_step HR W1. destruct W1 as [Q1 L1].
  advance HS HR Hc c2 s2. assert (V2 : value_at E s1 io = value_at E s (iop o)).
  { apply (value_quiet E _ _ _ _ Q1). fold io. rewrite OM. intros x I [J|[]]. apply in_map_iff in I as (y & <- & I). exact (HO _ I (eq_sym J)). }
  pose proof (step_insert E n NR _ _ _ _ _ _ _ _ _ _ Hst0 ltac:(constructor) ltac:(rewrite OM; exact FO) Es0 Hg0 L1 (known_value _ _ K1) eq_refl) as W2.
  done_step HR W2. destruct W2 as [Q2 L2]. cbn [app] in L2. rewrite V2 in L2.
  advance HS HR Hc c3 s3.
  pose proof (step_insert E n NR _ _ _ _ _ _ _ _ _ _ Hst1 ltac:(constructor) ltac:(constructor) Es1 Hg1 L2 (known_value _ _ K2) eq_refl) as W3.
  done_step HR W3. destruct W3 as [Q3 L3]. rewrite (known_value _ _ K3 : value_at E s2 (OString (sigma (pc_text p))) = _) in L3. cbn [app to_term] in L3.
  advance HS HR Hc c4 s4. pose proof (step_object E _ _ _ _ _ _ Hst2 Es2 Hg2) as W4. done_step HR W4. destruct W4 as [Q4 L4].
  advance HS HR Hc c5 s5. pose proof (step_number E _ _ _ _ _ _ _ Hst3 Es3 Hg3) as W5. done_step HR W5. destruct W5 as [Q5 L5].
  advance HS HR Hc c6 s6. pose proof (step_number E _ _ _ _ _ _ _ Hst4 Es4 Hg4) as W6. done_step HR W6. destruct W6 as [Q6 L6].
  advance HS HR Hc c7 s7.
  assert (P7 : local s6 lv = Some (Some (VObject []))) by (look; reflexivity).
  assert (V7 : value_at E s6 (OLocal rv) = Some (number (pc_row p))) by (cbn; look; reflexivity).
  pose proof (step_insert E n NR _ _ _ _ _ _ _ _ _ _ Hst5 ltac:(constructor) (FL (q_row N k) ltac:(cbn; tauto)) Es5 Hg5 P7 (known_value _ _ K4) eq_refl) as W7.
  done_step HR W7. destruct W7 as [Q7 L7]. fold rv in L7. rewrite V7 in L7. cbn [app to_term] in L7.
  advance HS HR Hc c8 s8.
  assert (V8 : value_at E s7 (OLocal cv) = Some (number (pc_col p))) by (cbn; look; reflexivity).
  pose proof (step_insert E n NR _ _ _ _ _ _ _ _ _ _ Hst6 ltac:(constructor) (FL (q_col N k) ltac:(cbn; tauto)) Es6 Hg6 L7 (known_value _ _ K5) eq_refl) as W8.
  done_step HR W8. destruct W8 as [Q8 L8]. fold cv in L8. rewrite V8 in L8. cbn [app to_term] in L8.
  advance HS HR Hc c9 s9.
  assert (P9 : local s8 ev = local s3 ev) by (look; reflexivity). rewrite L3 in P9.
  match type of L8 with _ = Some (Some ?w) => assert (V9 : value_at E s8 (OLocal lv) = Some w) by (cbn; rewrite L8; reflexivity) end.
  pose proof (step_insert E n NR _ _ _ _ _ _ _ _ _ _ Hst7 ltac:(constructor) (FL (q_loc N k) ltac:(cbn; tauto)) Es7 Hg7 P9 (known_value _ _ K6) eq_refl) as W9.
  done_step HR W9. destruct W9 as [Q9 L9]. fold lv in L9. rewrite V9 in L9. cbn [app to_term] in L9.
  advance HS HR Hc c10 s10.
  assert (P10 : local s9 av = Some (Some (VArray l))) by (look; reflexivity).
  match type of L9 with _ = Some (Some ?w) => assert (V10 : value_at E s9 (OLocal ev) = Some w) by (cbn; rewrite L9; reflexivity) end.
  pose proof (step_append E n NR _ _ _ _ _ _ _ _ _ Hst8 (FL (q_expr N k) ltac:(cbn; tauto)) Es8 Hg8 P10 V10) as W10.
  done_step HR W10. destruct W10 as [Q10 L10].
  apply opt_nil in HS as ->. injection HR as <- <-. split; [reflexivity|]. split; [|exact L10].
  cbn [map]. fold ev lv rv cv av.
  repeat (eapply quiet_trans; [eapply quiet_incl; [|eassumption]; intros z [<-|[]]; cbn [In]; tauto|]). apply quiet_refl.
Qed.

(** The names of expressions [k], [k + 1], ... *)
Definition temps (k j : nat) : list str := flat_map (fun i => [q_expr N i; q_loc N i; q_row N i; q_col N i]) (seq k j).
Lemma temps_cons k j : temps k (S j) = q_expr N k :: q_loc N k :: q_row N k :: q_col N k :: temps (S k) j.
Proof. reflexivity. Qed.
Lemma exprs_run rb : forall es k kc kc2 s c s' l l2 t,
  opt_list says kc = Some (img (exprs_code N k es)) -> opt_list says kc2 = Some l2 -> in_frame n (img (exprs_code N k es)) ->
  (forall x, In x (flat_map strings_in (exprs_code N k es)) -> known x) ->
  NoDup (map rho (q_exprs N :: temps k (length es))) ->
  (forall x, In x (flat_map (fun e => op_local (snd e)) es) -> ~ In (rho x) (map rho (q_exprs N :: temps k (length es)))) ->
  (forall e, In e es -> value_at E s (iop (snd e)) = value_at E t (iop (snd e))) ->
  run_stmts E rb (kc ++ kc2) CContinue s = Done c s' -> good c -> local s (rho (q_exprs N)) = Some (Some (VArray l)) ->
  exists s1, run_stmts E rb kc2 CContinue s1 = Done c s' /\ quiet (map rho (q_exprs N :: temps k (length es))) s s1 /\
  local s1 (rho (q_exprs N)) = Some (Some (VArray (l ++ map (expr_object E rho sigma t) es))).
Proof.
  induction es as [|[p o] es IH]; intros k kc kc2 s c s' l l2 t HS HS2 HF HK HD HO HV HR Hc L.
  - apply opt_nil in HS as ->. exists s. split; [exact HR|]. split; [apply quiet_refl|]. now rewrite app_nil_r.
  - cbn [exprs_code] in HS, HF, HK. rewrite img_app in HS, HF. apply opt_app in HS as (ka & kb & -> & HSa & HSb).
    apply in_frame_app in HF as [HFa HFb]. rewrite flat_map_app in HK. cbn [length] in HD, HO |- *. rewrite temps_cons in HD, HO |- *.
    rewrite <- app_assoc in HR. apply run_app in HR as (c1 & s1 & R1 & R2); [|exact Hc].
    destruct (expr_run rb k p o ka s c1 s1 l HSa HFa) as (-> & Q1 & L1); auto.
    { intros x I. apply HK, in_or_app. left. cbn [expr_code flat_map strings_in op_string app].
      destruct I as [<-|[<-|[<-|[<-|[<-|[<-|[]]]]]]]; cbn [In]; rewrite ?in_app_iff; cbn [In]; auto 20. }
    { clear - HD. cbn [map] in HD |- *. repeat match goal with H : NoDup (_ :: _) |- _ => inversion H; clear H; subst end.
      repeat constructor; cbn [In map] in *; intuition. }
    { intros x I Q. apply (HO x); [cbn [flat_map snd]; apply in_or_app; now left|]. rewrite Q. cbn [map In]. auto. }
    { destruct R2 as [[-> R2]|(-> & -> & ->)]; [now left|now right]. }
    destruct R2 as [[_ R2]|[R2 _]]; [|discriminate].
    destruct (IH (S k) kb kc2 s1 c s' (l ++ [expr_object E rho sigma s (p, o)]) l2 t HSb HS2 HFb) as (s2 & R3 & Q2 & L2); auto.
    { intros x I. apply HK, in_or_app. now right. }
    { clear - HD. cbn [map] in HD |- *. repeat match goal with H : NoDup (_ :: _) |- _ => inversion H; clear H; subst end.
      constructor; auto. cbn [In] in *. intuition. }
    { intros x I J. apply (HO x); [cbn [flat_map]; apply in_or_app; now right|]. cbn [map In] in *. tauto. }
    { intros e I. rewrite <- (HV e) by now right. apply (value_quiet E _ _ _ _ Q1). unfold RuleSpec.iop. rewrite op_local_map.
      intros z Iz J. apply in_map_iff in Iz as (x & <- & Ix). apply (HO x).
      - cbn [flat_map]. apply in_or_app. right. apply in_flat_map. eauto.
      - cbn [map In] in *. tauto. }
    exists s2. split; [exact R3|]. split.
    + eapply quiet_trans; [eapply quiet_incl; [|exact Q1]|eapply quiet_incl; [|exact Q2]]; intros z; cbn [map In]; tauto.
    + rewrite L2, <- app_assoc. cbn [map app]. do 5 f_equal. unfold expr_object. rewrite (HV (p, o)) by now left. reflexivity.
Qed.

(** The bindings: either one has no value, or all are recorded. *)
Lemma find_names (l : list (str * value)) x : ~ In x (map fst l) ->
  find_item E (quote x) (map (fun b => (VString (fst b), snd b)) l) = None.
Proof.
  induction l as [|[y v] l IH]; intro H; [reflexivity|]. cbn [map find_item fst snd to_key]. destruct (str_eqb (quote y) (quote x)) eqn:Q.
  - apply str_eqb_eq in Q. apply KeyProofs.quote_inj in Q. elim H. now left.
  - apply IH. intro I. apply H. now right.
Qed.
Lemma bindings_run rb : forall xs kc kc2 s c s' l t,
  opt_list says kc = Some (img (flat_map (binding_code N) xs)) -> in_frame n (img (flat_map (binding_code N) xs)) ->
  (forall x, In x xs -> known x /\ strip_quotes x = x /\ rho x <> rho (q_bindings N) /\ var_at E rho s x = var_at E rho t x) ->
  NoDup (map fst l ++ xs) ->
  run_stmts E rb (kc ++ kc2) CContinue s = Done c s' -> good c ->
  local s (rho (q_bindings N)) = Some (Some (VObject (map (fun b => (VString (fst b), snd b)) l))) ->
  match bindings_at E rho t xs with
  | None => c = CUndefined /\ quiet [rho (q_bindings N)] s s'
  | Some bs => exists s1, run_stmts E rb kc2 CContinue s1 = Done c s' /\ quiet [rho (q_bindings N)] s s1 /\
      local s1 (rho (q_bindings N)) = Some (Some (VObject (map (fun b => (VString (fst b), snd b)) (l ++ bs))))
  end.
Proof.
  induction xs as [|x xs IH]; intros kc kc2 s c s' l t HS HF HX HD HR Hc L.
  - apply opt_nil in HS as ->. cbn [bindings_at]. exists s. rewrite app_nil_r. split; [exact HR|]. split; [apply quiet_refl|exact L].
  - destruct (HX x (or_introl eq_refl)) as (K & SQ & NB & HV). cbn [flat_map binding_code app] in HS, HF. cbn [RuleSpec.img map map_ir map_op] in HS, HF.
    apply opt_out in HS as (st1 & ka & -> & Hst1 & HS). apply opt_out in HS as (st2 & kb & -> & Hst2 & HS).
    unfold in_frame in HF. cbn [flat_map locals_in op_local app] in HF. inversion HF as [|? ? FX HF1]; subst. inversion HF1 as [|? ? _ HF2]; subst.
    inversion HF2 as [|? ? _ HF3]; subst. clear HF HF1 HF2.
    cbn [app] in HR. cbn [bindings_at]. rewrite <- HV. unfold var_at. cbn [value_at].
    apply stmts_inv in HR as [(s1 & A & HR)|[A ->]]; [| |exact Hc].
    2:{ apply (run_defined E _ _ _ _ _ _ Hst1) in A as [-> (v & HL & Hv)]; [|discriminate]. rewrite HL. destruct v; [discriminate|].
        split; [reflexivity|]. apply quiet_weaken, quiet_started. }
    apply (run_defined E _ _ _ _ _ _ Hst1) in A as [-> (v & HL & Hv)]; [|discriminate]. rewrite HL. destruct v as [v|]; [|discriminate].
    assert (F1 : find_item E (quote x) (map (fun b => (VString (fst b), snd b)) l) = None).
    { apply find_names. intro I. clear - HD I. induction (map fst l) as [|y m IHm]; [destruct I|]. cbn [app] in HD. inversion HD; subst.
      destruct I as [->|I]; [|auto]. apply H1. apply in_or_app. right. now left. }
    pose proof (known_value (started st1 s) x K) as KV. rewrite SQ in KV.
    assert (STEP : forall c1 s1, run_stmt E rb st2 (started st1 s) = Done c1 s1 -> good c1 -> c1 = CContinue /\
      wrote (rho (q_bindings N)) (Some (VObject (map (fun b => (VString (fst b), snd b)) (l ++ [(x, v)])))) (started st1 s) s1).
    { intros c1 s1 A Hg.
      pose proof (step_insert E n NR _ _ _ _ _ _ _ _ _ _ Hst2 ltac:(constructor) ltac:(constructor; [exact FX|constructor]) A Hg L KV F1) as W.
      rewrite map_app. cbn [map fst snd]. cbn [value_at] in W. change (local (started st1 s) (rho x)) with (local s (rho x)) in W. rewrite HL in W. exact W. }
    apply stmts_inv in HR as [(s1 & A & HR)|[A ->]]; [| |exact Hc].
    2:{ apply STEP in A as [A _]; [discriminate|now right]. }
    apply STEP in A as [_ [Q1 L1]]; [|now left].
    assert (G : forall y, In y xs -> var_at E rho s1 y = var_at E rho t y).
    { intros y I. destruct (HX y (or_intror I)) as (_ & _ & NY & <-). unfold var_at.
      apply (value_quiet E [rho (q_bindings N)] (started st1 s) s1); [exact Q1|]. intros z [<-|[]] [J|[]]. congruence. }
    specialize (IH kb kc2 s1 c s' (l ++ [(x, v)]) t HS HF3).
    assert (Q0 : quiet [rho (q_bindings N)] s s1).
    { eapply quiet_trans; [apply quiet_weaken, (quiet_started st1)|exact Q1]. }
    destruct (bindings_at E rho t xs) as [bs|].
    + destruct IH as (s2 & R2 & Q2 & L2); auto.
      { intros y I. destruct (HX y (or_intror I)) as (? & ? & ? & _). auto. }
      { rewrite map_app, <- app_assoc. exact HD. }
      exists s2. split; [exact R2|]. split; [eapply quiet_trans; eauto|]. rewrite L2, <- app_assoc. reflexivity.
    + destruct IH as (R2 & Q2); auto.
      { intros y I. destruct (HX y (or_intror I)) as (? & ? & ? & _). auto. }
      { rewrite map_app, <- app_assoc. exact HD. }
      split; [exact R2|]. eapply quiet_trans; eauto.
Qed.

(** One solution. *)
Lemma in_frame_cons i l : in_frame n (i :: l) -> in_frame n l.
Proof. unfold in_frame. cbn [flat_map]. intro H. now apply Forall_app in H. Qed.
Lemma record_run rb ret es xs kc t c t' l :
  opt_list says kc = Some (img (record_code N ret es xs)) -> in_frame n (img (record_code N ret es xs)) ->
  (forall x, In x (flat_map strings_in (row_code N es xs)) -> known x) ->
  NoDup (map rho (ret :: q_result N :: made N (length es))) ->
  (forall x, In x (used es xs) -> ~ In (rho x) (map rho (ret :: q_result N :: made N (length es)))) ->
  NoDup xs -> (forall x, In x xs -> strip_quotes x = x) ->
  run_stmts E rb kc CContinue t = Done c t' -> good c -> local t (rho (q_result N)) = Some (Some (VArray l)) ->
  s_stack t' = s_stack t /\
  match bindings_at E rho t xs with
  | None => local t' (rho (q_result N)) = local t (rho (q_result N)) /\ local t' (rho ret) = local t (rho ret)
  | Some bs => local t' (rho (q_result N)) = Some (Some (VArray (l ++ [row_object E rho sigma t es bs]))) /\
               local t' (rho ret) = Some (Some (VArray (l ++ [row_object E rho sigma t es bs])))
  end.
Proof.
  intros HS HF HK HD HU HX HQ HR Hc L.
  unfold record_code in HS, HF. rewrite img_app in HS, HF. unfold row_code in HS, HF, HK.
  assert (CM : forall (a : nir) b, img (a :: b) = map_ir rho sigma norm a :: img b) by reflexivity.
  rewrite CM, img_app, CM, img_app in HS, HF. cbn [app] in HS, HF. rewrite <- !app_assoc in HS, HF. cbn [app] in HS, HF. rewrite <- !app_assoc in HS, HF.
  cbn [map_ir] in HS, HF.
  set (ev := rho (q_exprs N)) in *. set (bv := rho (q_bindings N)) in *. set (ov := rho (q_body N)) in *. set (rv := rho (q_result N)) in *.
  set (wv := rho ret) in *.
  assert (D : NoDup (map rho (q_exprs N :: temps 0 (length es))) /\ ~ In bv (map rho (q_exprs N :: temps 0 (length es))) /\
    ~ In rv (map rho (q_exprs N :: temps 0 (length es))) /\ ~ In wv (map rho (q_exprs N :: temps 0 (length es))) /\
    rv <> bv /\ rv <> ov /\ rv <> wv /\ wv <> bv /\ wv <> ov /\ bv <> ov /\ ev <> bv /\ ev <> ov).
  { unfold made in HD. change (flat_map _ (seq 0 (length es))) with (temps 0 (length es)) in HD. cbn [map] in HD |- *. fold ev bv ov rv wv in HD |- *.
    repeat match goal with H : NoDup (_ :: _) |- _ => inversion H; clear H; subst end. cbn [In] in *.
    split; [constructor; tauto|]. repeat split; try tauto; intro; intuition congruence. }
  destruct D as (D0 & D1 & D2 & D3 & D4 & D5 & D6 & D7 & D8 & D9 & D10 & D11).
  assert (U : forall x, In x (used es xs) -> ~ In (rho x) (map rho (q_exprs N :: temps 0 (length es))) /\ rho x <> bv /\ rho x <> ov).
  { intros x I. specialize (HU x I). unfold made in HU. change (flat_map _ (seq 0 (length es))) with (temps 0 (length es)) in HU.
    cbn [map In] in HU |- *. fold ev bv ov rv wv in HU |- *. repeat split; intuition. }
  apply in_frame_cons in HF. apply in_frame_app in HF as [FE HF]. apply in_frame_cons in HF. apply in_frame_app in HF as [FB HF].
  cbn [flat_map strings_in app] in HK. rewrite flat_map_app in HK. cbn [flat_map strings_in app] in HK. rewrite flat_map_app in HK.
  (* the list of expressions *)
  apply (next E _ _ _ _ _ _ _ HS) in HR as (st & kc1 & c1 & s1 & Hst & HS1 & Es & Hg & HR); [|exact Hc]. clear HS.
  pose proof (step_array E _ _ _ _ _ _ _ Hst Es Hg) as W1. done_step HR W1. destruct W1 as [Q1 L1].
  apply opt_app in HS1 as (ka & kb & -> & HSa & HSb).
  destruct (exprs_run rb es 0 ka kb s1 c t' [] _ t HSa HSb FE) as (s2 & R2 & Q2 & L2); auto.
  { intros x I. apply HK, in_or_app. now left. }
  { intros x I. apply U. unfold used. apply in_or_app. now left. }
  { intros e I. apply (value_quiet E _ _ _ _ Q1). unfold RuleSpec.iop. rewrite op_local_map. intros z Iz [J|[]].
    apply in_map_iff in Iz as (x & <- & Ix). destruct (U x) as [U1 _]; [unfold used; apply in_or_app; left; apply in_flat_map; eauto|].
    apply U1. cbn [map In]. auto. }
  cbn [app] in L2. clear HR Es Hst HSa.
  (* the bindings *)
  apply (next E _ _ _ _ _ _ _ HSb) in R2 as (st3 & kc3 & c3 & s3 & Hst & HS3 & Es & Hg3 & HR); [|exact Hc]. clear HSb.
  pose proof (step_object E _ _ _ _ _ _ Hst Es Hg3) as W3. done_step HR W3. destruct W3 as [Q3 L3].
  apply opt_app in HS3 as (kbb & kd & -> & HSb & HSd).
  assert (VU : forall x, In x xs -> var_at E rho s3 x = var_at E rho t x).
  { intros x I. assert (UX : In x (used es xs)) by (unfold used; apply in_or_app; now right). destruct (U x UX) as (U1 & U2 & U3). unfold var_at.
    rewrite (value_quiet E _ _ _ _ Q3), (value_quiet E _ _ _ _ Q2), (value_quiet E _ _ _ _ Q1); [reflexivity|..].
    - intros z [<-|[]] [J|[]]. apply U1. cbn [map In]. auto.
    - intros z [<-|[]]. exact U1.
    - intros z [<-|[]] [J|[]]. now apply U2. }
  pose proof (bindings_run rb xs kbb kd s3 c t' [] t HSb FB) as BR.
  assert (BR1 := BR). clear BR. 
  assert (S3 : s_stack s3 = s_stack t) by (rewrite (quiet_stack _ _ _ Q3), (quiet_stack _ _ _ Q2), (quiet_stack _ _ _ Q1); reflexivity).
  assert (KEEP : forall z, ~ In z (map rho (q_exprs N :: temps 0 (length es))) -> z <> bv -> local s3 z = local t z).
  { intros z Z1 Z2. rewrite (quiet_local _ _ _ _ Q3), (quiet_local _ _ _ _ Q2), (quiet_local _ _ _ _ Q1); auto.
    - intros [J|[]]. apply Z1. cbn [map In]. auto.
    - intros [J|[]]. congruence. }
  assert (LR : local s3 rv = Some (Some (VArray l))) by (rewrite KEEP; auto).
  assert (LW : local s3 wv = local t wv) by (apply KEEP; auto).
  assert (LE : local s3 ev = Some (Some (VArray (map (expr_object E rho sigma t) es)))).
  { rewrite (quiet_local _ _ _ _ Q3); [exact L2|]. intros [J|[]]. congruence. }
  assert (PRE : forall x, In x xs -> known x /\ strip_quotes x = x /\ rho x <> rho (q_bindings N) /\ var_at E rho s3 x = var_at E rho t x).
  { intros x I. split; [|split; [auto|split; [|auto]]].
    - apply HK, in_or_app. right. apply in_or_app. left. apply in_flat_map. exists (IObjectInsert (OString x) (OLocal x) (q_bindings N)).
      split; [|now left]. apply in_flat_map. exists x. split; [exact I|right; now left].
    - apply U. unfold used. apply in_or_app. now right. }
  specialize (BR1 PRE HX HR Hc L3).
  destruct (bindings_at E rho t xs) as [bs|].
  2:{ destruct BR1 as [_ Q4]. split; [rewrite (quiet_stack _ _ _ Q4); exact S3|]. fold bv in Q4.
      rewrite !(quiet_local _ _ _ _ Q4) by (intros [J|[]]; congruence). split; [congruence|exact LW]. }
  destruct BR1 as (s4 & R4 & Q4 & L4). fold bv in Q4, L4. cbn [app] in L4.
  (* the result *)
  assert (K1 : known $"bindings") by (apply HK; rewrite !in_app_iff; right; right; cbn [In flat_map strings_in op_string app]; auto).
  assert (K2 : known $"expressions") by (apply HK; rewrite !in_app_iff; right; right; cbn [In flat_map strings_in op_string app]; auto).
  cbn [RuleSpec.img map map_ir map_op] in HSd, HF. fold bv ov ev rv wv in HSd, HF.
  assert (FF : forall z, In z [bv; ev; ov; rv] -> fits (OLocal z : op Z Z)).
  { intros z I. apply Forall_cons; [|apply Forall_nil]. unfold in_frame in HF. cbn [flat_map locals_in op_local app] in HF. rewrite Forall_forall in HF.
    apply HF. cbn [In] in *. intuition. }
  clear Es Hst HR. assert (HR := R4). clear R4.
  apply (next E _ _ _ _ _ _ _ HSd) in HR as (st5 & kc5 & c5 & s5 & Hst & HS5 & Es & Hg5 & HR); [|exact Hc]. clear HSd.
  pose proof (step_object E _ _ _ _ _ _ Hst Es Hg5) as W5. done_step HR W5. destruct W5 as [Q5 L5].
  apply (next E _ _ _ _ _ _ _ HS5) in HR as (st6 & kc6 & c6 & s6 & Hst6 & HS6 & Es6 & Hg6 & HR); [|exact Hc]. clear HS5.
  assert (V6 : local s5 bv = local s4 bv) by (apply (quiet_local _ _ _ _ Q5); intros [J|[]]; congruence). rewrite L4 in V6.
  pose proof (step_insert E n NR _ _ _ _ _ _ _ _ _ _ Hst6 ltac:(constructor) (FF bv ltac:(cbn; tauto)) Es6 Hg6 L5 (known_value _ _ K1) eq_refl) as W6.
  done_step HR W6. destruct W6 as [Q6 L6]. cbn [value_at app] in L6. rewrite V6 in L6. cbn [to_term] in L6.
  apply (next E _ _ _ _ _ _ _ HS6) in HR as (st7 & kc7 & c7 & s7 & Hst7 & HS7 & Es7 & Hg7 & HR); [|exact Hc]. clear HS6.
  assert (V7 : local s6 ev = Some (Some (VArray (map (expr_object E rho sigma t) es)))).
  { rewrite (quiet_local _ _ _ _ Q6), (quiet_local _ _ _ _ Q5), (quiet_local _ _ _ _ Q4); auto; intros [J|[]]; congruence. }
  pose proof (step_insert E n NR _ _ _ _ _ _ _ _ _ _ Hst7 ltac:(constructor) (FF ev ltac:(cbn; tauto)) Es7 Hg7 L6 (known_value _ _ K2) eq_refl) as W7.
  done_step HR W7. destruct W7 as [Q7 L7]. cbn [value_at app] in L7. rewrite V7 in L7. cbn [to_term] in L7.
  change (local s7 ov = Some (Some (row_object E rho sigma t es bs))) in L7.
  apply (next E _ _ _ _ _ _ _ HS7) in HR as (st8 & kc8 & c8 & s8 & Hst8 & HS8 & Es8 & Hg8 & HR); [|exact Hc]. clear HS7.
  assert (V8 : local s7 rv = Some (Some (VArray l))).
  { rewrite (quiet_local _ _ _ _ Q7), (quiet_local _ _ _ _ Q6), (quiet_local _ _ _ _ Q5), (quiet_local _ _ _ _ Q4); auto; intros [J|[]]; congruence. }
  assert (P8 : value_at E s7 (OLocal ov) = Some (row_object E rho sigma t es bs)) by (cbn [value_at]; rewrite L7; reflexivity).
  pose proof (step_append E n NR _ _ _ _ _ _ _ _ _ Hst8 (FF ov ltac:(cbn; tauto)) Es8 Hg8 V8 P8) as W8.
  done_step HR W8. destruct W8 as [Q8 L8].
  apply opt_out in HS8 as (st9 & kc9 & -> & Hst9 & HS9). apply opt_out in HS9 as (st10 & kc10 & -> & Hst10 & HS10). apply opt_nil in HS10 as ->.
  apply stmts_inv in HR as [(s9 & A & HR)|[A ->]]; [| |exact Hc].
  2:{ apply (run_defined E _ _ _ _ _ _ Hst9) in A as [-> (v & HL & Hv)]; [|discriminate]. rewrite L8 in HL. injection HL as <-. discriminate. }
  apply (run_defined E _ _ _ _ _ _ Hst9) in A as [-> _]; [|discriminate]. apply one_stmt in HR; [|exact Hc].
  destruct (step_assign E n NR _ _ _ _ _ _ _ Hst10 (FF rv ltac:(cbn; tauto)) HR Hc) as [_ [Q10 L10]].
  cbn [value_at] in L10. change (local (started st9 s8) rv) with (local s8 rv) in L10. rewrite L8 in L10. split; [|split; [|exact L10]].
  - rewrite (quiet_stack _ _ _ Q10). change (s_stack (started st9 s8)) with (s_stack s8).
    rewrite (quiet_stack _ _ _ Q8), (quiet_stack _ _ _ Q7), (quiet_stack _ _ _ Q6), (quiet_stack _ _ _ Q5), (quiet_stack _ _ _ Q4). exact S3.
  - rewrite (quiet_local _ _ _ _ Q10); [exact L8|]. intros [J|[]]. congruence.
Qed.
End Rows.
