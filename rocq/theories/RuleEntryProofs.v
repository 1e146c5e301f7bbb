(** Plans: what the code around the value of an entry point adds to the results. *)
From Coq Require Import String ZArith NArith List Bool Lia.
From Verif Require Import Base SMap ValueModel ResolverModel VmModel VmSpec VmProofs VmSimProofs VmStmtProofs PlanModel PlanSpec PlanProofs PlanBuildProofs
  PlanTheorems RuleModel RuleSpec RuleVmProofs RuleVisitProofs RuleProofs RuleObjProofs RuleBuiltProofs StrModel StrProofs.
Import ListNotations.
Local Open Scope Z_scope.

(** ** Code that adds no result *)
Section Mute.
Variable E : env.
Hypothesis SI : silent E.
Definition R {A} (m : vm A) : Prop := forall s a s', m s = Done a s' -> s_results s' = s_results s.
Lemma R_bind {A C} (m : vm A) (k : A -> vm C) : R m -> (forall a, R (k a)) -> R (bind m k).
Proof.
  intros Hm Hk s c s' H. unfold bind in H. destruct (m s) as [a s1|s1|f s1|s1] eqn:Em; try discriminate.
  rewrite (Hk _ _ _ _ H). eapply Hm; eauto.
Qed.
Lemma R_ret {A} (a : A) : R (ret a). Proof. intros s y s' H. injection H as <- <-. auto. Qed.
Lemma R_exn {A} : R (@exn A). Proof. intros s y s' H. discriminate. Qed.
Lemma R_fault {A} f : R (@fault_ A f). Proof. intros s y s' H. discriminate. Qed.
Lemma R_get {A} (f : state -> A) : R (get f). Proof. intros s y s' H. injection H as <- <-. auto. Qed.
Lemma R_modify f : (forall s, s_results (f s) = s_results s) -> R (modify f).
Proof. intros Hf s y s' H. injection H as <- <-. apply Hf. Qed.
Lemma R_vnth {A} (l : list A) i : R (vnth l i).
Proof. unfold vnth. destruct (znth l i); [apply R_ret|apply R_fault]. Qed.
Lemma R_lift {A} (o : outcome A) : R (lift o).
Proof. destruct o; simpl; auto using R_ret, R_exn, R_fault. intros s a s' H. discriminate. Qed.
Lemma R_read i : R (read_local i).
Proof. apply R_bind; [apply R_get|intro; apply R_vnth]. Qed.
Lemma R_write i v : R (write_local i v).
Proof.
  apply R_bind; [apply R_get|intro fr]. destruct (_ && _); [|apply R_fault]. apply R_modify. reflexivity.
Qed.
Lemma R_error c : R (add_error c).
Proof. apply R_modify. reflexivity. Qed.
Lemma R_def i : R (is_defined i).
Proof. apply R_bind; [apply R_read|intro; apply R_ret]. Qed.
Lemma R_unpack o : R (unpack_operand E o).
Proof.
  unfold unpack_operand. destruct (o_type o); auto using R_exn, R_ret, R_read.
  apply R_bind; [apply R_vnth|intro; apply R_ret].
Qed.
Lemma R_unpacks l : R (unpack_operands E l).
Proof.
  induction l; simpl; [apply R_ret|]. apply R_bind; [apply R_unpack|intro].
  apply R_bind; [auto|intro; apply R_ret].
Qed.
Lemma R_equals a b : R (equals E a b).
Proof. apply R_lift. Qed.
Lemma R_ext_block e : R (ext_block e).
Proof. destruct e as [[]|]; simpl; auto using R_exn, R_ret, R_fault. Qed.
Lemma R_params ps : forall args, R (write_params E ps args).
Proof.
  induction ps; simpl; intros; [apply R_ret|]. destruct args; [apply R_fault|].
  apply R_bind; [apply R_unpack|intro]. apply R_bind; [apply R_write|auto].
Qed.
Lemma R_strings l : R (path_strings E l).
Proof.
  induction l; simpl; [apply R_ret|]. apply R_bind; [apply R_vnth|intro].
  apply R_bind; [auto|intro; apply R_ret].
Qed.
Lemma R_swap i path v : R (write_and_swap E i path v).
Proof.
  unfold write_and_swap. apply R_bind; [apply R_read|intro old]. destruct path.
  - apply R_bind; [apply R_write|intro; apply R_ret].
  - apply R_bind; [apply R_strings|intro ks].
    destruct old as [[]|]; auto using R_fault; (apply R_bind; [apply R_write|intro; apply R_ret]).
Qed.
Lemma R_dynamic path : forall name found, R (find_dynamic E path name found).
Proof.
  induction path; simpl; intros; [apply R_ret|]. apply R_bind; [apply R_unpack|auto].
Qed.
Lemma R_dot_path path : forall v, R (dot_path E v path).
Proof.
  induction path; simpl; intros; [apply R_ret|]. apply R_bind; [apply R_unpack|intro k].
  destruct (dot E v k); auto using R_ret.
Qed.

Definition mute (b : block) : Prop := exists l, opt_list says b = Some l /\ existsb adds l = false.
Variable rb : block -> vm code.
Hypothesis Hrb : forall b, mute b -> R (rb b).

Ltac side := first [ apply R_ret | apply R_exn | apply R_fault | apply R_get | apply R_read | apply R_write
  | apply R_error | apply R_def | apply R_unpack | apply R_unpacks | apply R_equals | apply R_ext_block
  | apply R_params | apply R_swap | apply R_dynamic | apply R_dot_path | apply R_vnth | apply R_lift
  | apply R_modify; intro; reflexivity ].
Ltac kstep := first
  [ match goal with |- R (bind _ _) => apply R_bind; [|intro] end
  | side
  | match goal with |- R (match ?x with _ => _ end) => destruct x end ].

Lemma R_run_blocks l : Forall mute l -> forall c, R (run_blocks rb l c).
Proof. induction 1; simpl; intros c; [apply R_ret|]. apply R_bind; [auto|intro c']. destruct c'; auto using R_ret. Qed.
Lemma R_block_stmt l : Forall mute l -> R (block_stmt rb l).
Proof. induction 1; simpl; [apply R_ret|]. apply R_bind; [auto|intro c']. destruct c'; auto using R_ret, R_exn. Qed.
Lemma R_scan_loop l k v body : mute body -> R (scan_loop rb l k v body).
Proof.
  intros Hb. induction l as [|[a b] l]; simpl; [apply R_ret|]. apply R_bind; [apply R_write|intro].
  apply R_bind; [apply R_write|intro]. apply R_bind; [auto|intro c]. destruct c; auto using R_ret.
Qed.
Lemma mute_blocks ls bs : opt_list (opt_list says) bs = Some ls -> existsb (existsb adds) ls = false -> Forall mute bs.
Proof.
  revert ls. induction bs as [|b bs IH]; intros ls H HN; [constructor|].
  apply opt_cons in H as (l & ls' & H1 & H2 & ->). cbn [existsb] in HN. apply orb_false_iff in HN as [N1 N2].
  constructor; [exists l; auto|eauto].
Qed.
Lemma R_bind_nth {A C} (l : list A) i (k : A -> vm C) : (forall a, znth l i = Some a -> R (k a)) -> R (bind (vnth l i) k).
Proof.
  intros H s a s' Q. unfold bind, vnth in Q. destruct (znth l i) as [y|] eqn:Ey; [|discriminate]. exact (H y eq_refl _ _ _ Q).
Qed.
Lemma R_call g args target : R (run_call E rb g args target).
Proof.
  unfold run_call. apply R_bind; [side|intro st].
  destruct (existsb (str_eqb g) st); [kstep|].
  destruct (e_builtin E g); [repeat kstep|].
  destruct (sm_find g (b_name_to_func (e_bundle E))) as [i|]; [|kstep].
  apply R_bind_nth. intros fu Ef. destruct (SI _ _ Ef) as (ls & HL & HA).
  assert (HM : Forall mute (f_blocks fu)) by (eapply mute_blocks; eauto).
  apply R_bind; [kstep|intro w]. apply R_bind; [kstep|intro cache].
  destruct (if 0 <? w then None else sm_find (f_name fu) cache); [repeat kstep|].
  destruct (zlen args <? zlen (f_params fu)); [repeat kstep|].
  apply R_bind; [kstep|intro].
  destruct (e_call_depth E <=? zlen st); [repeat kstep|].
  apply R_bind; [kstep|intro].
  destruct (f_blocks fu) as [|b bs]; [kstep|]. apply R_bind; [now apply R_run_blocks|intro c]. apply R_bind; [kstep|intro].
  destruct c; try (solve [kstep]). apply R_bind; [kstep|intro v]. apply R_bind; [kstep|intro].
  apply R_bind; [|intro; repeat kstep]. apply R_modify. intro s. destruct (_ && _); reflexivity.
Qed.
Lemma R_run_dynamic path ops target : R (run_dynamic E rb path ops target).
Proof. unfold run_dynamic. repeat (apply R_call || kstep). Qed.
Lemma R_scan op0 op1 target body : mute body -> R (run_scan rb op0 op1 target (Some (ExtBlock body))).
Proof.
  intros Hb. unfold run_scan. apply R_bind; [apply R_read|intro src].
  assert (G : forall l, R (scan_pairs rb l op0 op1 (Some (ExtBlock body)))).
  { intros l. unfold scan_pairs. destruct l; [apply R_ret|]. cbn [ext_block].
    intros s a s' H. unfold bind at 1, ret at 1 in H. eapply (R_scan_loop (p :: l) (o_index op0) (o_index op1) body); eauto. }
  destruct src as [[]|]; auto using R_ret, R_exn.
Qed.
Lemma R_with op0 target path body : mute body -> R (run_with E rb op0 target (Some (ExtWith path body))).
Proof. intros Hb. unfold run_with. repeat first [(apply Hrb; assumption) | kstep]. Qed.
Lemma R_dispatch st : mute [st] -> R (dispatch E rb st).
Proof.
  intros (l & Hl & HS). apply opt_cons in Hl as (i & l' & Hs & Hn & ->). injection Hn as <-.
  cbn [existsb] in HS. rewrite orb_false_r in HS.
  destruct st as [ty op0 op1 target e]. unfold dispatch.
  destruct ty; cbn [says] in Hs; destruct e as [ex|]; try discriminate Hs.
  all: try (destruct ex; try discriminate Hs).
  all: unfold with1, with2, option_map in Hs;
    repeat match type of Hs with context [match ?y with _ => _ end] => destruct y eqn:?; try discriminate Hs end;
    injection Hs as <-; cbn [adds] in HS; try discriminate HS.
  all: repeat match goal with
    | |- R (bind (ext_block (Some (ExtBlock ?b))) ?k) => change (R (k b)); cbv beta
    | |- R (rb _) => apply Hrb; eexists; split; [eassumption|assumption]
    | |- R (block_stmt _ _) => apply R_block_stmt; eapply mute_blocks; eauto
    | |- R (run_scan _ _ _ _ _) => apply R_scan; eexists; split; [eassumption|assumption]
    | |- R (run_with _ _ _ _ _) => apply R_with; eexists; split; [eassumption|assumption]
    | |- R (run_call _ _ _ _ _) => apply R_call
    | |- R (run_dynamic _ _ _ _ _) => apply R_run_dynamic
    | _ => kstep
    end.
Qed.
Lemma mute_cons st b : mute (st :: b) -> mute [st] /\ mute b.
Proof.
  intros (l & H & HS). apply opt_cons in H as (i & l' & H1 & H2 & ->). cbn [existsb] in HS.
  apply orb_false_iff in HS as [S1 S2]. split; [exists [i]; cbn [opt_list existsb]; rewrite H1, S1; auto|exists l'; auto].
Qed.
Lemma R_stmts l : mute l -> forall c, R (run_stmts E rb l c).
Proof.
  induction l as [|st l IH]; intros H c; cbn [run_stmts]; [apply R_ret|]. apply mute_cons in H as [H1 H2].
  apply R_bind.
  - unfold run_stmt. repeat first [(apply R_dispatch; assumption) | kstep].
  - intro c'. destruct c'; auto; repeat kstep.
Qed.
End Mute.
Lemma R_block E : silent E -> forall m b, mute b -> R (run_block E m b).
Proof.
  intro SI. induction m as [|m IH]; intros b H; [intros s a s' G; discriminate|]. cbn [run_block].
  apply R_bind; [apply R_get|intro d]. destruct (_ <=? _).
  - apply R_bind; [apply R_error|intro; apply R_ret].
  - apply R_bind; [apply R_modify; reflexivity|intro]. apply R_bind; [apply R_stmts; auto|intro c].
    apply R_bind; [apply R_modify; reflexivity|intro; apply R_ret].
Qed.

(** ** Runs without errors *)
Section Clean.
Variable E : env.
Lemma no_errors s s' : later s s' -> s_errors s' = [] -> s_errors s = [].
Proof. intros (_ & _ & (es & H) & _) Q. rewrite Q in H. symmetry in H. now apply app_eq_nil in H. Qed.
Lemma block_later m b s c s' : run_block E m b s = Done c s' -> later s s'.
Proof. intro H. pose proof (mono_block E m b s) as L. rewrite H in L. exact L. Qed.
Lemma scan_later m body k v l : forall s c s', scan_loop (run_block E m) l k v body s = Done c s' -> later s s'.
Proof.
  intros s c s' H. assert (G : mono (scan_loop (run_block E m) l k v body)).
  { clear. induction l as [|[a b] l IH]; cbn [scan_loop]; [apply mono_ret|]. apply mono_bind; [apply mono_write|intro].
    apply mono_bind; [apply mono_write|intro]. apply mono_bind; [apply mono_block|intro c]. destruct c; auto using mono_ret. }
  pose proof (G s) as L. rewrite H in L. exact L.
Qed.
Lemma app_one {A} (l : list A) x : l ++ [x] <> []. Proof. destruct l; discriminate. Qed.
Lemma clean_block m b s c s' : run_block E m b s = Done c s' -> s_errors s' = [] ->
  exists k s1, m = S k /\ run_stmts E (run_block E k) b CContinue (add_depth 1 s) = Done c s1 /\ s' = add_depth (-1) s1.
Proof.
  destruct m as [|k]; [discriminate|]. cbn [run_block]. unfold bind at 1, get at 1. intros H Q. destruct (_ <=? _).
  - unfold bind, add_error, modify in H. injection H as <- <-. cbn in Q. now elim (app_one _ _ Q).
  - unfold bind at 1, modify at 1 in H. unfold bind at 1 in H.
    destruct (run_stmts E (run_block E k) b CContinue (add_depth 1 s)) as [c1 s1|s1|f s1|s1] eqn:Er; try discriminate.
    cbn in H. injection H as -> <-. eauto.
Qed.
Lemma clean_stmt rb st s c s' : run_stmt E rb st s = Done c s' -> s_errors s' = [] ->
  dispatch E rb st (started st s) = Done c s'.
Proof.
  intros H Q. unfold run_stmt in H. unfold bind at 1, modify at 1 in H. unfold bind at 1, get at 1 in H.
  destruct (_ <=? _); [|exact H]. unfold bind, add_error, modify in H. injection H as <- <-. cbn in Q. now elim (app_one _ _ Q).
Qed.
Lemma clean_step rb st l c s c' s' : run_stmts E rb (st :: l) c s = Done c' s' -> s_errors s' = [] ->
  exists c1 s1, run_stmt E rb st s = Done c1 s1 /\
    ((c1 = CContinue /\ run_stmts E rb l CContinue s1 = Done c' s') \/
     (c1 <> CContinue /\ dispatch E rb st (started st s) = Done c1 s1 /\ s_errors s1 = [] /\ s_results s' = s_results s1 /\ c' = c1)).
Proof.
  cbn [run_stmts]. unfold bind at 1. destruct (run_stmt E rb st s) as [c1 s1|s1|f s1|s1] eqn:Es; try discriminate.
  intros H Q. exists c1, s1. split; [reflexivity|].
  assert (X : (c1 = CContinue /\ run_stmts E rb l CContinue s1 = Done c' s') \/
     (c1 <> CContinue /\ s_errors s1 = [] /\ s_results s' = s_results s1 /\ c' = c1)).
  { destruct c1; try discriminate; auto; right; (split; [discriminate|]); cbn in H; injection H as <- <-; auto. }
  destruct X as [X|(X1 & X2 & X3)]; [now left|]. right. split; [exact X1|]. split; [|auto]. eapply clean_stmt; eauto.
Qed.
Lemma leaf_code rb st i s c s' : says st = Some i -> match i with IMakeObject _ | IIsDefined _ => True | _ => False end ->
  dispatch E rb st s = Done c s' -> c <> CTimeout.
Proof.
  intros Hs Hi H. destruct i; try contradiction; apply says_leaf in Hs as (a & b & ->); cbn [dispatch] in H.
  - unfold bind, is_defined, bind in H. destruct (read_local _ s) as [[]| | |]; cbn in H; try discriminate; injection H as <- <-; discriminate.
  - unfold bind in H. destruct (write_local _ _ s) as [[]| | |]; try discriminate; injection H as <- <-; discriminate.
Qed.
Lemma says_insert st i : says st = Some i ->
  match i with
  | IObjectInsert k v x => exists a b, st = Stmt SObjectInsert a b x None /\ says_op a = Some k /\ says_op b = Some v
  | IResultSetAdd x => exists a b, st = Stmt SResultSetAdd a b x None
  | _ => True
  end.
Proof.
  destruct st as [ty a0 a1 y e]. cbn [says]. intro H.
  destruct ty, e as [[]|]; try discriminate H; unfold with1, with2, option_map in H;
    repeat match type of H with context [match ?y with _ => _ end] => destruct y eqn:?; try discriminate H end;
    try discriminate H; injection H as <-; eauto 10.
Qed.

Variable n : Z.
Hypothesis NR : n <= 2 ^ 64.
Notation "'fits' o" := (Forall (fun x => 0 <= x < n) (op_local o)) (at level 10).
Lemma insert_run rb st k v x s c s' : says st = Some (IObjectInsert k v x) -> fits k -> fits v ->
  local s x = Some (Some (VObject [])) -> dispatch E rb st s = Done c s' ->
  c = CContinue /\ local s' x = Some (Some (VObject [(to_term (value_at E s k), to_term (value_at E s v))])) /\
  s_errors s' = s_errors s /\ s_results s' = s_results s.
Proof.
  intros Hs Fk Fv HL H. apply says_insert in Hs as (a & b & -> & Ha & Hb). cbn [dispatch] in H. unfold bind at 1 in H.
  destruct (unpack_operand E a s) as [kv s1|s1|f s1|s1] eqn:Ek; try discriminate. apply (unpack_value E n NR _ _ _ _ _ Ha Fk) in Ek as [-> ->].
  unfold bind at 1 in H. destruct (unpack_operand E b s) as [vv s1|s1|f s1|s1] eqn:Ev; try discriminate.
  apply (unpack_value E n NR _ _ _ _ _ Hb Fv) in Ev as [-> ->].
  unfold bind at 1 in H. destruct (read_local x s) as [o s1|s1|f s1|s1] eqn:Er; try discriminate. apply read_inv in Er as [-> Er].
  rewrite HL in Er. injection Er as <-. cbn [insert_into_object find_item] in H.
  unfold bind at 1 in H. destruct (write_local x _ s) as [u s1|s1|f s1|s1] eqn:Ew; try discriminate. apply write_inv in Ew as [R ->].
  cbn in H. injection H as <- <-. split; [reflexivity|]. split; [|split; reflexivity]. exact (local_set_same s x _ R).
Qed.
Lemma add_run rb st x s c s' : says st = Some (IResultSetAdd x) -> dispatch E rb st s = Done c s' ->
  c = CContinue /\ exists v, local s x = Some v /\ s_results s' = s_results s ++ [v].
Proof.
  intros Hs H. apply says_insert in Hs as (a & b & ->). cbn [dispatch] in H. unfold bind at 1 in H.
  destruct (read_local x s) as [o s1|s1|f s1|s1] eqn:Er; try discriminate. apply read_inv in Er as [-> Er].
  cbn in H. injection H as <- <-. eauto.
Qed.
End Clean.

(** ** The code around the value *)
Section Entry.
Variable E : env.
Variable n : Z.
Hypothesis NR : n <= 2 ^ 64.
Variable rho sigma : str -> Z.
Hypothesis SR : znth (b_strings (e_bundle E)) (sigma $"result" mod 2 ^ 64) = Some $"result".
Notation img := (img rho sigma).

Lemma give_run rb b v obj s c s' u : opt_list says b = Some (img [IObjectInsert (OString $"result") (OLocal v) obj; IResultSetAdd obj]) ->
  0 <= rho v < n -> local s (rho obj) = Some (Some (VObject [])) -> local s (rho v) = Some (Some u) ->
  run_stmts E rb b CContinue s = Done c s' -> s_errors s' = [] ->
  c = CContinue /\ s_results s' = s_results s ++ [Some (result_object u)].
Proof.
  intros H HR HO HV HS HE. cbn [RuleSpec.img map map_ir] in H. apply opt_out in H as (st & l & -> & Hst & H).
  apply opt_out in H as (st2 & l2 & -> & Hst2 & H). apply opt_nil in H as ->.
  apply clean_step in HS as (c1 & s1 & A & B); [|exact HE].
  assert (G : forall t1, dispatch E rb st (started st s) = Done c1 t1 ->
    c1 = CContinue /\ local t1 (rho obj) = Some (Some (result_object u)) /\ s_errors t1 = s_errors s /\ s_results t1 = s_results s).
  { intros t1 Q. apply (insert_run E n NR _ _ _ _ _ _ _ _ Hst) in Q as (-> & Q & Q1 & Q2); [|constructor|repeat constructor; lia|exact HO].
    split; [reflexivity|]. split; [|auto]. rewrite Q. cbn [value_at map_op option_map]. rewrite SR.
    change (local (started st s) (rho v)) with (local s (rho v)). rewrite HV. reflexivity. }
  destruct B as [[-> B]|(N & B & _)]; [|destruct (G _ B) as [Q _]; contradiction].
  assert (A2 : dispatch E rb st (started st s) = Done CContinue s1).
  { apply run_stmt_inv in A as [_ A]; [exact A|discriminate]. }
  destruct (G _ A2) as (_ & L1 & E1 & R1).
  apply clean_step in B as (c2 & s2 & A3 & B); [|exact HE].
  assert (G2 : forall t1, dispatch E rb st2 (started st2 s1) = Done c2 t1 -> c2 = CContinue /\ s_results t1 = s_results s ++ [Some (result_object u)]).
  { intros t1 Q. apply (add_run E _ _ _ _ _ _ Hst2) in Q as (-> & w & Q & Q1). split; [reflexivity|]. rewrite Q1.
    change (local (started st2 s1) (rho obj)) with (local s1 (rho obj)) in Q. rewrite L1 in Q. injection Q as <-.
    change (s_results (started st2 s1)) with (s_results s1). now rewrite R1. }
  destruct B as [[-> B]|(N & B & _)]; [|destruct (G2 _ B) as [Q _]; contradiction].
  apply run_stmt_inv in A3 as [_ A3]; [|discriminate]. destruct (G2 _ A3) as [_ R2]. cbn in B. injection B as <- <-. auto.
Qed.

(** A single value. *)
Lemma one_run m b x obj s c s' :
  opt_list says b = Some (img (IMakeObject obj :: IIsDefined x :: [IObjectInsert (OString $"result") (OLocal x) obj; IResultSetAdd obj])) ->
  0 <= rho x < n -> rho x <> rho obj -> run_block E m b s = Done c s' -> s_errors s' = [] ->
  exists v, local s (rho x) = Some v /\
    s_results s' = s_results s ++ map (fun u => Some (result_object u)) (match v with Some u => [u] | None => [] end).
Proof.
  intros H HX HN HB HE. apply clean_block in HB as (k & s1 & -> & HS & ->); [|exact HE].
  cbn [RuleSpec.img map map_ir] in H. apply opt_out in H as (st & l & -> & Hst & H). apply opt_out in H as (st2 & l2 & -> & Hst2 & H).
  change (s_errors (add_depth (-1) s1)) with (s_errors s1) in HE. change (s_results (add_depth (-1) s1)) with (s_results s1).
  apply clean_step in HS as (c1 & t & A & B); [|exact HE].
  assert (NT : c1 <> CTimeout). { destruct B as [[-> _]|(_ & B & _)]; [discriminate|]. exact (leaf_code _ _ _ _ _ _ _ Hst I B). }
  apply (run_makeobject E _ _ _ _ _ _ Hst) in A as (-> & RX & ->); [|exact NT].
  destruct B as [[_ B]|(N & _)]; [|congruence].
  apply clean_step in B as (c2 & t2 & A & B); [|exact HE].
  assert (NT2 : c2 <> CTimeout). { destruct B as [[-> _]|(_ & B & _)]; [discriminate|]. exact (leaf_code _ _ _ _ _ _ _ Hst2 I B). }
  apply (run_defined E _ _ _ _ _ _ Hst2) in A as (-> & v & LV & ->); [|exact NT2].
  match type of LV with local (put ?y ?w ?t) _ = _ => set (q := t) in * end.
  assert (LX : local s (rho x) = Some v).
  { rewrite <- LV. unfold put. rewrite local_set_other; [reflexivity|lia|congruence]. }
  exists v. split; [exact LX|]. destruct v as [u|].
  - destruct B as [[_ B]|(N & _)]; [|congruence].
    eapply give_run in B as (_ & B); [exact B|exact H|exact HX| |exact LV|exact HE].
    exact (local_set_same q (rho obj) _ RX).
  - destruct B as [[Q _]|(_ & B & _ & R & _)]; [discriminate|]. rewrite R. cbn [map]. now rewrite app_nil_r.
Qed.

(** The elements of a value. *)
Lemma each_run m body k v obj : opt_list says body = Some (img (IMakeObject obj :: [IObjectInsert (OString $"result") (OLocal v) obj; IResultSetAdd obj])) ->
  0 <= rho v < n -> rho v <> rho obj -> forall l s c s', scan_loop (run_block E m) l k (rho v) body s = Done c s' -> s_errors s' = [] ->
  (c = CContinue \/ c = CUndefined) /\ s_results s' = s_results s ++ map (fun u => Some (result_object u)) (map snd l).
Proof.
  intros H HV HN. induction l as [|[a b] l IH]; intros s c s' HS HE; cbn [scan_loop] in HS.
  - cbn in HS. injection HS as <- <-. cbn [map]. rewrite app_nil_r. auto.
  - unfold bind at 1 in HS. destruct (write_local k _ s) as [u1 s1|s1|f s1|s1] eqn:E1; try discriminate. apply write_inv in E1 as [R1 ->].
    unfold bind at 1 in HS. destruct (write_local (rho v) _ _) as [u2 s2|s2|f s2|s2] eqn:E2; try discriminate. apply write_inv in E2 as [R2 ->].
    match type of HS with bind _ _ ?t = _ => set (q := t) in * end.
    assert (LQ : local q (rho v) = Some (Some b)).
    { match type of R2 with 0 <= _ < zlen (s_frame ?t) => exact (local_set_same t (rho v) _ R2) end. }
    assert (RQ : s_results q = s_results s) by reflexivity. clearbody q.
    unfold bind at 1 in HS. destruct (run_block E m body q) as [c3 s3|s3|f s3|s3] eqn:E3; try discriminate.
    assert (G : s_errors s3 = [] -> c3 = CContinue /\ s_results s3 = s_results s ++ [Some (result_object b)]).
    { clear HS. intro HE3. apply clean_block in E3 as (j & t & -> & E3 & ->); [|exact HE3].
      change (s_errors (add_depth (-1) t)) with (s_errors t) in HE3. change (s_results (add_depth (-1) t)) with (s_results t).
      cbn [RuleSpec.img map map_ir] in H. apply opt_out in H as (st & l2 & -> & Hst & H).
      apply clean_step in E3 as (c1 & t1 & A & B); [|exact HE3].
      assert (NT : c1 <> CTimeout). { destruct B as [[-> _]|(_ & B & _)]; [discriminate|]. exact (leaf_code _ _ _ _ _ _ _ Hst I B). }
      apply (run_makeobject E _ _ _ _ _ _ Hst) in A as (-> & RX & ->); [|exact NT].
      destruct B as [[_ B]|(N & _)]; [|congruence].
      rewrite <- RQ. eapply give_run in B as (-> & B); [split; [reflexivity|exact B]|exact H|exact HV| | |exact HE3].
      - match type of RX with 0 <= _ < zlen (s_frame ?t) => exact (local_set_same t (rho obj) _ RX) end.
      - unfold put. rewrite local_set_other; [exact LQ|lia|congruence]. }
    assert (HE3 : s_errors s3 = []).
    { destruct c3; try (cbn in HS; injection HS as <- <-; exact HE).
      - eapply no_errors; [|exact HE]. eapply scan_later; eauto.
      - eapply no_errors; [|exact HE]. eapply scan_later; eauto. }
    destruct (G HE3) as [-> RB]. destruct (IH _ _ _ HS HE) as [HC RR]. split; [exact HC|].
    rewrite RR, RB, <- app_assoc. reflexivity.
Qed.
End Entry.

(** ** Plans *)
Lemma adds_img rho sigma l : existsb adds (img rho sigma l) = existsb adds l.
Proof.
  assert (G : forall st : nir, adds (map_ir rho sigma norm st) = adds st).
  { induction st as [st IH] using ir_ind'.
    assert (HL : forall l : list nir, Forall (fun s => adds (map_ir rho sigma norm s) = adds s) l ->
      existsb adds (map (map_ir rho sigma norm) l) = existsb adds l).
    { clear. induction 1 as [|a l Ha _ IH]; [reflexivity|]. cbn [map existsb]. now rewrite Ha, IH. }
    destruct st; cbn [map_ir adds inner] in *; auto.
    revert IH. induction blocks as [|b bs IHb]; intro IH; [reflexivity|]. cbn [concat] in IH. apply Forall_app in IH as [I1 I2].
    cbn [map existsb]. rewrite (HL b I1), (IHb I2). reflexivity. }
  unfold img. induction l as [|a l IH]; [reflexivity|]. cbn [map existsb]. now rewrite G, IH.
Qed.
Lemma for_query_iff name : prefixb $"querymodule$" name = true <-> for_query name.
Proof. apply prefixb_iff. Qed.
Lemma index_read a w n : says_index a = Some w -> 0 <= w < n -> n <= 2 ^ 64 -> o_index a = w.
Proof. destruct a as [[] u]; try discriminate. cbn. intros [= ->] H H2. unfold o_index. cbn. apply Z.mod_small. lia. Qed.

Lemma plan_run E m n rho sigma name obj index val x e bs s s' : compiled_entry E n rho sigma name obj index val x e bs ->
  run_plan_blocks E m bs s = Done tt s' -> s_errors s' = [] ->
  exists b c s1 v vs, opt_list says b = Some (img rho sigma (ob_code e)) /\ run_block E m b s = Done c s1 /\ s_errors s1 = [] /\
    match c with CContinue => local s1 (rho x) = Some v | _ => v = None end /\ gives name v vs /\
    s_results s' = s_results s ++ map (fun u => Some (result_object u)) vs.
Proof.
  intros [(pl & HP & HB & HF) NR SR [SI SC] HV [HO HQ]] HR HE. unfold entry_plan in HP. rewrite HV in HP.
  remember (prefixb $"querymodule$" name) as isq eqn:EP. injection HP as <-.
  cbn [l_blocks map concat] in HB, HF. unfold says_blocks in HB. apply opt_out in HB as (b & l & -> & Hb & HB).
  apply opt_out in HB as (b2 & l2 & -> & Hb2 & HB). apply opt_nil in HB as ->. rewrite app_nil_r in HF.
  rewrite img_app in HF. apply in_frame_app in HF as [_ HF].
  cbn [run_plan_blocks] in HR. unfold bind at 1 in HR. destruct (run_block E m b s) as [c s1|s1|f s1|s1] eqn:E1; try discriminate.
  assert (R1 : s_results s1 = s_results s).
  { eapply R_block; [exact SI| |exact E1]. eexists. split; [exact Hb|]. rewrite adds_img. exact SC. }
  assert (X : c = CContinue \/ (c <> CContinue /\ s' = s1)).
  { destruct c; auto; right; (split; [discriminate|]); cbn in HR; now injection HR as <-. }
  exists b, c, s1. destruct X as [->|[NC ->]].
  2: { exists None, []. split; [exact Hb|]. split; [exact E1|]. split; [exact HE|]. split; [destruct c; congruence|]. split; [split; auto|].
       cbn [map]. now rewrite R1, app_nil_r. }
  unfold bind at 1 in HR. destruct (run_block E m b2 s1) as [c2 s2|s2|f s2|s2] eqn:E2; try discriminate.
  assert (Q : s' = s2) by (destruct c2; cbn in HR; now injection HR as <-). subst s2. clear HR.
  assert (HE1 : s_errors s1 = []) by (eapply no_errors; [eapply block_later; exact E2|exact HE]).
  assert (HX : 0 <= rho x < n).
  { unfold in_frame, img in HF. rewrite locals_maps in HF. rewrite Forall_forall in HF. apply HF, in_map.
    destruct isq; cbn; auto. }
  destruct isq; symmetry in EP.
  - assert (FQ : for_query name) by now apply for_query_iff.
    assert (HVal : 0 <= rho val < n /\ 0 <= rho index < n).
    { unfold in_frame, img in HF. rewrite locals_maps in HF. rewrite Forall_forall in HF. split; apply HF, in_map; cbn; auto 10. }
    apply clean_block in E2 as (k & t & -> & HS & ->); [|exact HE].
    change (s_errors (add_depth (-1) t)) with (s_errors t) in HE. change (s_results (add_depth (-1) t)) with (s_results t).
    cbn [img map map_ir] in Hb2. apply opt_out in Hb2 as (st & l & -> & Hst & H). apply opt_out in H as (st2 & l2 & -> & Hst2 & H). apply opt_nil in H as ->.
    apply clean_step in HS as (c1 & t1 & A & B); [|exact HE].
    assert (NT : c1 <> CTimeout). { destruct B as [[-> _]|(_ & B & _)]; [discriminate|]. exact (leaf_code _ _ _ _ _ _ _ Hst I B). }
    apply (run_defined E _ _ _ _ _ _ Hst) in A as (-> & v & LV & ->); [|exact NT].
    change (local (add_depth 1 s1) (rho x)) with (local s1 (rho x)) in LV.
    exists v. destruct v as [u|].
    2: { exists []. split; [exact Hb|]. split; [exact E1|]. split; [exact HE1|]. split; [exact LV|]. split; [split; auto|].
         destruct B as [[Q _]|(_ & B & _ & R & _)]; [discriminate|]. rewrite R. cbn [map]. rewrite app_nil_r. exact R1. }
    destruct B as [[_ B]|(N & _)]; [|congruence].
    apply clean_step in B as (c3 & t3 & A & B); [|exact HE].
    assert (A2 : dispatch E (run_block E k) st2 (started st2 (started st (add_depth 1 s1))) = Done c3 t3).
    { destruct B as [[-> _]|(_ & B & _)]; [apply run_stmt_inv in A as [_ A]; [exact A|discriminate]|exact B]. }
    assert (HE3 : s_errors t3 = [] /\ s_results t = s_results t3).
    { destruct B as [[-> B]|(_ & _ & B & R & _)]; [cbn in B; injection B as <- <-|]; auto. }
    destruct HE3 as [HE3 RT]. rewrite RT. clear A B.
    apply says_scan in Hst2 as (a0 & a1 & body & -> & H0 & H1 & Hbody). cbn [dispatch] in A2. unfold run_scan in A2.
    set (q := started _ _) in A2. unfold bind at 1 in A2.
    destruct (read_local (rho x) q) as [w s4|s4|f s4|s4] eqn:Er; try discriminate. apply read_inv in Er as [-> Er].
    change (local q (rho x)) with (local s1 (rho x)) in Er. rewrite LV in Er. injection Er as <-.
    assert (G : forall l, scan_pairs (run_block E k) l a0 a1 (Some (ExtBlock body)) q = Done c3 t3 ->
      s_results t3 = s_results s ++ map (fun u => Some (result_object u)) (map snd l)).
    { intros l Q. rewrite <- R1. change (s_results s1) with (s_results q). destruct l as [|p l].
      - cbn in Q. injection Q as <- <-. now rewrite app_nil_r.
      - unfold scan_pairs in Q. cbn [ext_block] in Q. unfold bind at 1, ret at 1 in Q.
        rewrite (index_read _ _ n H1) in Q by tauto.
        eapply (each_run E n NR rho sigma SR k body _ val obj Hbody) in Q; [apply Q|tauto|auto|exact HE3]. }
    assert (GC : forall c0, (ret c0 : vm code) q = Done c3 t3 -> s_results t3 = s_results s ++ []).
    { intros c0 Q. cbn in Q. injection Q as _ <-. rewrite app_nil_r. exact R1. }
    destruct u; try discriminate A2.
    all: try (exists []; split; [exact Hb|]; split; [exact E1|]; split; [exact HE1|]; split; [exact LV|]; split; [split; [tauto|reflexivity]|]; exact (GC _ A2)).
    all: eexists; split; [exact Hb|]; split; [exact E1|]; split; [exact HE1|]; split; [exact LV|]; split; [split; [intro NQ; contradiction|intros _; reflexivity]|].
    all: cbn [elements]; rewrite (G _ A2); f_equal; f_equal.
    + apply (f_equal (map snd)). exact (array_pairs_eq l 0).
    + clear. induction l as [|y l IH]; [reflexivity|]. cbn [map combine snd]. now f_equal.
  - assert (NQ : ~ for_query name) by (intro Q; apply for_query_iff in Q; congruence).
    eapply (one_run E n NR rho sigma SR) in E2 as (v & LV & RR); [|exact Hb2|exact HX|exact HO|exact HE].
    exists v, (match v with Some u => [u] | None => [] end). split; [exact Hb|]. split; [exact E1|]. split; [exact HE1|]. split; [exact LV|].
    split; [split; [auto|tauto]|]. now rewrite RR, R1.
Qed.
