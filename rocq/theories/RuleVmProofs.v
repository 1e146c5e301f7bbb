(** Facts about runs of compiled statements: locals that are left alone, blocks that do not return, timeouts, and the states in
    which the innermost place of a block is reached. *)
From Coq Require Import String ZArith List Bool Lia.
From Verif Require Import Base SMap ValueModel ValueSpec ResolverModel VmModel VmSpec VmProofs VmSimProofs VmStmtProofs PlanModel PlanSpec PlanProofs
  RuleModel RuleSpec.
Import ListNotations.
Local Open Scope Z_scope.

(** ** Reading statements *)
Lemma opt_cons {A B} (g : A -> option B) x l r : opt_list g (x :: l) = Some r ->
  exists y ys, g x = Some y /\ opt_list g l = Some ys /\ r = y :: ys.
Proof.
  cbn [opt_list]. destruct (g x); [|discriminate]. fold (opt_list g). destruct (opt_list g l) eqn:El; [|discriminate].
  intros [= <-]. eauto.
Qed.
Lemma opt_out {A B} (g : A -> option B) : forall l y ys, opt_list g l = Some (y :: ys) ->
  exists x l', l = x :: l' /\ g x = Some y /\ opt_list g l' = Some ys.
Proof.
  intros [|x l] y ys H; [discriminate|]. apply opt_cons in H as (y' & ys' & H1 & H2 & [= <- <-]). eauto.
Qed.
Lemma opt_nil {A B} (g : A -> option B) l : opt_list g l = Some [] -> l = [].
Proof. destruct l; auto. intro H. apply opt_cons in H as (? & ? & _ & _ & ?). discriminate. Qed.
Lemma opt_app {A B} (g : A -> option B) : forall r1 r2 l, opt_list g l = Some (r1 ++ r2) ->
  exists l1 l2, l = l1 ++ l2 /\ opt_list g l1 = Some r1 /\ opt_list g l2 = Some r2.
Proof.
  induction r1 as [|y r1 IH]; intros r2 l H; cbn [app] in H.
  - exists [], l. auto.
  - apply opt_out in H as (x & l' & -> & H1 & H2). apply IH in H2 as (l1 & l2 & -> & H3 & H4).
    exists (x :: l1), l2. split; [reflexivity|]. split; [|auto]. cbn [opt_list]. rewrite H1. fold (opt_list g). now rewrite H3.
Qed.
Lemma opt_join {A B} (g : A -> option B) l1 l2 r1 r2 : opt_list g l1 = Some r1 -> opt_list g l2 = Some r2 ->
  opt_list g (l1 ++ l2) = Some (r1 ++ r2).
Proof.
  revert r1. induction l1 as [|x l1 IH]; intros r1 H1 H2; cbn [app].
  - injection H1 as <-. exact H2.
  - apply opt_cons in H1 as (y & ys & A1 & A2 & ->). cbn [opt_list app]. rewrite A1. fold (opt_list g). now rewrite (IH ys).
Qed.
Lemma opt_in {A B} (g : A -> option B) : forall l r x, opt_list g l = Some r -> In x l -> exists y, g x = Some y /\ In y r.
Proof.
  induction l as [|a l IH]; intros r x H I; [destruct I|]. apply opt_cons in H as (y & ys & A1 & A2 & ->).
  destruct I as [->|I]; [exists y; simpl; auto|]. destruct (IH ys x A2 I) as (z & ? & ?). exists z. simpl; auto.
Qed.

Definition unchanged (x : Z) (s s' : state) : Prop := local s' x = local s x.

Lemma flat_flat {A B} (f : A -> list B) l : flat_map (flat_map f) l = flat_map f (concat l).
Proof. induction l; cbn; auto. rewrite flat_map_app. congruence. Qed.

(** ** A local no statement works on *)
Section Keeps.
Variable E : env.
Variable fn : str.
Variable x : Z.
Variable n : Z.
Hypothesis P : private E fn n x.
Hypothesis NR : n <= 2 ^ 64.

Definition J {A} (m : vm A) : Prop := forall s a s', In fn (s_stack s) -> m s = Done a s' ->
  In fn (s_stack s') /\ local s' x = local s x.
Lemma J_bind {A C} (m : vm A) (k : A -> vm C) : J m -> (forall a, J (k a)) -> J (bind m k).
Proof.
  intros Hm Hk s c s' I H. unfold bind in H. destruct (m s) as [a s1|s1|f s1|s1] eqn:Em; try discriminate.
  destruct (Hm _ _ _ I Em) as [I1 L1]. destruct (Hk a _ _ _ I1 H) as [I2 L2]. split; [auto|congruence].
Qed.
Lemma J_ret {A} (a : A) : J (ret a). Proof. intros s y s' I H. injection H as <- <-. auto. Qed.
Lemma J_exn {A} : J (@exn A). Proof. intros s y s' I H. discriminate. Qed.
Lemma J_fault {A} f : J (@fault_ A f). Proof. intros s y s' I H. discriminate. Qed.
Lemma J_get {A} (f : state -> A) : J (get f). Proof. intros s y s' I H. injection H as <- <-. auto. Qed.
Lemma J_modify f : (forall s, s_stack (f s) = s_stack s /\ s_frame (f s) = s_frame s) -> J (modify f).
Proof.
  intros Hf s y s' I H. injection H as <- <-. destruct (Hf s) as [H1 H2]. unfold local. rewrite H1, H2. auto.
Qed.
Lemma J_vnth {A} (l : list A) i : J (vnth l i).
Proof. unfold vnth. destruct (znth l i); [apply J_ret|apply J_fault]. Qed.
Lemma J_lift {A} (o : outcome A) : J (lift o).
Proof. destruct o; simpl; auto using J_ret, J_exn, J_fault. intros s a s' I H. discriminate. Qed.
Lemma J_read i : J (read_local i).
Proof. apply J_bind; [apply J_get|intro; apply J_vnth]. Qed.
Lemma J_write i v : i <> x -> J (write_local i v).
Proof.
  intros N s a s' I H. apply write_inv in H as [R ->]. split; [exact I|]. apply local_set_other; [lia|auto].
Qed.
Lemma J_error c : J (add_error c).
Proof. apply J_modify. intro s. repeat split. Qed.
Lemma J_def i : J (is_defined i).
Proof. apply J_bind; [apply J_read|intro; apply J_ret]. Qed.
Lemma J_unpack o : J (unpack_operand E o).
Proof.
  unfold unpack_operand. destruct (o_type o); auto using J_exn, J_ret, J_read.
  apply J_bind; [apply J_vnth|intro; apply J_ret].
Qed.
Lemma J_unpacks l : J (unpack_operands E l).
Proof.
  induction l; simpl; [apply J_ret|]. apply J_bind; [apply J_unpack|intro].
  apply J_bind; [auto|intro; apply J_ret].
Qed.
Lemma J_equals a b : J (equals E a b).
Proof. apply J_lift. Qed.
Lemma J_params ps : ~ In x (map zn ps) -> forall args, J (write_params E ps args).
Proof.
  induction ps; simpl; intros N args; [apply J_ret|]. destruct args; [apply J_fault|].
  apply J_bind; [apply J_unpack|intro]. apply J_bind; [apply J_write; tauto|intro; apply IHps; tauto].
Qed.
Lemma J_strings l : J (path_strings E l).
Proof.
  induction l; simpl; [apply J_ret|]. apply J_bind; [apply J_vnth|intro].
  apply J_bind; [auto|intro; apply J_ret].
Qed.
Lemma J_swap i path v : i <> x -> J (write_and_swap E i path v).
Proof.
  intro N. unfold write_and_swap. apply J_bind; [apply J_read|intro old]. destruct path.
  - apply J_bind; [now apply J_write|intro; apply J_ret].
  - apply J_bind; [apply J_strings|intro ks].
    destruct old as [[]|]; auto using J_fault; (apply J_bind; [now apply J_write|intro; apply J_ret]).
Qed.
Lemma J_dynamic path : forall name found, J (find_dynamic E path name found).
Proof.
  induction path; simpl; intros; [apply J_ret|]. apply J_bind; [apply J_unpack|auto].
Qed.
Lemma J_dot_path path : forall v, J (dot_path E v path).
Proof.
  induction path; simpl; intros; [apply J_ret|]. apply J_bind; [apply J_unpack|intro k].
  destruct (dot E v k); auto using J_ret.
Qed.

Definition fair (b : block) : Prop := exists l, opt_list says b = Some l /\ in_frame n l /\ ~ In x (flat_map subjects l).

Variable m : nat.
Notation rb := (run_block E m).
Hypothesis Hrb : forall b, fair b -> J (rb b).

Lemma J_run_blocks l : Forall fair l -> forall c, J (run_blocks rb l c).
Proof.
  induction 1; simpl; intros c; [apply J_ret|]. apply J_bind; [auto|intro c']. destruct c'; auto using J_ret.
Qed.
Lemma J_block_stmt l : Forall fair l -> J (block_stmt rb l).
Proof.
  induction 1; simpl; [apply J_ret|]. apply J_bind; [auto|intro c']. destruct c'; auto using J_ret, J_exn.
Qed.
Lemma J_scan_loop l k v body : fair body -> k <> x -> v <> x -> J (scan_loop rb l k v body).
Proof.
  intros Hb Nk Nv. induction l as [|[a b] l]; simpl; [apply J_ret|]. apply J_bind; [now apply J_write|intro].
  apply J_bind; [now apply J_write|intro]. apply J_bind; [auto|intro c]. destruct c; auto using J_ret.
Qed.
Lemma fair_blocks ls bs : says_blocks bs = Some ls -> in_frame n (concat ls) -> ~ In x (flat_map subjects (concat ls)) ->
  Forall fair bs.
Proof.
  revert ls. induction bs as [|b bs IH]; intros ls H HF HN; [constructor|].
  unfold says_blocks in H. apply opt_cons in H as (l & ls' & H1 & H2 & ->). cbn [concat] in HF, HN.
  unfold in_frame in HF. rewrite flat_map_app in HF. apply Forall_app in HF as [F1 F2].
  rewrite flat_map_app, in_app_iff in HN. constructor; [exists l; unfold in_frame; intuition|]. apply (IH ls'); auto.
Qed.
Lemma existsb_str f l : In f l -> existsb (str_eqb f) l = true.
Proof. intro H. apply existsb_exists. exists f. split; [auto|apply str_eqb_refl]. Qed.

Lemma J_call g args target : target <> x -> J (run_call E rb g args target).
Proof.
  intro NT. intros s0 c0 s0' I0 H0.
  unfold run_call in H0. unfold bind at 1, get at 1 in H0.
  destruct (existsb (str_eqb g) (s_stack s0)) eqn:Ex; [discriminate|].
  assert (NG : g <> fn). { intros ->. rewrite (existsb_str _ _ I0) in Ex. discriminate. }
  destruct (e_builtin E g).
  { revert s0 c0 s0' I0 H0 Ex.
    enough (J (do! vs := unpack_operands E args in do! n0 := get s_count in do! v := lift (o n0 vs) in
               do! u := write_local target v in
               match v with Some (VErr c) => do! u := add_error c in ret CError | _ => ret CContinue end)) as HJ.
    { intros s0 c0 s0' I0 H0 _. eapply HJ; eauto. }
    apply J_bind; [apply J_unpacks|intro vs]. apply J_bind; [apply J_get|intro n0]. apply J_bind; [apply J_lift|intro v].
    apply J_bind; [now apply J_write|intro u]. destruct v as [[]|]; try apply J_ret. apply J_bind; [apply J_error|intro; apply J_ret]. }
  destruct (sm_find g (b_name_to_func (e_bundle E))) as [i|] eqn:Ef; [|discriminate].
  unfold bind at 1, vnth in H0. destruct (znth (b_functions (e_bundle E)) (zn i)) as [fu|] eqn:Efu; [|discriminate].
  cbn [ret] in H0. unfold bind at 1, get at 1 in H0. unfold bind at 1, get at 1 in H0.
  destruct (P g i fu NG Ef Efu) as [NP (ls & HL & HF & HS)].
  destruct (if 0 <? s_with s0 then None else sm_find (f_name fu) (s_cache s0)) as [cached|].
  { assert (HJ : J (do! u := write_local target cached in ret (match cached with Some (VErr _) => CError | _ => CContinue end))).
    { apply J_bind; [now apply J_write|intro; apply J_ret]. }
    eapply HJ; eauto. }
  destruct (zlen args <? zlen (f_params fu)).
  { assert (HJ : J (do! u := add_error EvalBuiltInError in ret CError)) by (apply J_bind; [apply J_error|intro; apply J_ret]).
    eapply HJ; eauto. }
  unfold bind at 1 in H0. destruct (write_params E _ _ s0) as [u s1|s1|f s1|s1] eqn:Ew; try discriminate.
  destruct (J_params _ NP _ _ _ _ I0 Ew) as [I1 L1].
  destruct (e_call_depth E <=? zlen (s_stack s0)).
  { assert (HJ : J (do! u := add_error RecursionError in ret CError)) by (apply J_bind; [apply J_error|intro; apply J_ret]).
    destruct (HJ _ _ _ I1 H0). split; [auto|congruence]. }
  unfold bind at 1, modify at 1 in H0.
  destruct (f_blocks fu) as [|b0 bs0] eqn:Eb; [discriminate|]. rewrite <- Eb in *. clear b0 bs0 Eb.
  unfold bind at 1 in H0.
  set (s2 := add_log _ _) in H0. destruct (run_blocks rb (f_blocks fu) CContinue s2) as [c s3|s3|f s3|s3] eqn:Er; try discriminate.
  assert (I2 : In fn (s_stack s2)) by (right; exact I1).
  destruct (J_run_blocks (f_blocks fu) (fair_blocks _ _ HL HF HS) _ _ _ _ I2 Er) as [_ L3].
  assert (Q3 : s_stack s3 = s_stack s2).
  { pose proof (K_run_blocks rb (K_block E m) (f_blocks fu) CContinue _ _ _ Er) as (Q & _). exact Q. }
  unfold bind at 1, modify at 1 in H0. set (s4 := set_stack _ _ s3) in H0.
  assert (I4 : In fn (s_stack s4)). { unfold s4. cbn. rewrite Q3. exact I1. }
  assert (L4 : local s4 x = local s0 x). { change (local s4 x) with (local s3 x). rewrite L3. exact L1. }
  assert (HJ : J (match c with
      | CReturn =>
          do! v := read_local (zn (f_result fu)) in
          do! u := write_local target v in
          do! u := modify (fun s => if f_cacheable fu && negb (0 <? s_with s)
                                    then set_cache (sm_set (f_name fu) v (s_cache s)) s else s) in
          match v with
          | Some (VErr c) => do! u := add_error c in ret CError
          | _ => ret CContinue
          end
      | CBreak => ret CBreak
      | _ => ret CUndefined
      end)).
  { destruct c; try apply J_ret. apply J_bind; [apply J_read|intro v]. apply J_bind; [now apply J_write|intro].
    apply J_bind; [apply J_modify; intro s; destruct (_ && _); split; reflexivity|intro].
    destruct v as [[]|]; try apply J_ret. apply J_bind; [apply J_error|intro; apply J_ret]. }
  destruct (HJ _ _ _ I4 H0). split; [auto|congruence].
Qed.
Lemma J_run_dynamic path ops target : target <> x -> J (run_dynamic E rb path ops target).
Proof.
  intro N. unfold run_dynamic. apply J_bind; [apply J_dynamic|intro found]. destruct found as [[g rest]|]; [|apply J_ret].
  apply J_bind; [now apply J_call|intro c]. destruct rest; [apply J_ret|]. destruct c; try apply J_ret.
  apply J_bind; [apply J_read|intro v]. apply J_bind; [apply J_dot_path|intro r]. destruct r; [|apply J_ret].
  apply J_bind; [now apply J_write|intro; apply J_ret].
Qed.
Lemma J_scan op0 op1 target body : fair body -> o_index op0 <> x -> o_index op1 <> x ->
  J (run_scan rb op0 op1 target (Some (ExtBlock body))).
Proof.
  intros Hb N0 N1. unfold run_scan. apply J_bind; [apply J_read|intro src].
  assert (G : forall l, J (scan_pairs rb l op0 op1 (Some (ExtBlock body)))).
  { intros l. unfold scan_pairs. destruct l; [apply J_ret|]. cbn [ext_block].
    intros s a s' I H. unfold bind at 1, ret at 1 in H. eapply (J_scan_loop (p :: l) (o_index op0) (o_index op1) body); eauto. }
  destruct src as [[]|]; auto using J_ret, J_exn.
Qed.
Lemma J_with op0 target path body : fair body -> target <> x -> J (run_with E rb op0 target (Some (ExtWith path body))).
Proof.
  intros Hb N. unfold run_with. apply J_bind; [apply J_modify; split; reflexivity|intro]. apply J_bind; [apply J_unpack|intro v].
  apply J_bind; [now apply J_swap|intro old]. apply J_bind; [auto|intro c]. apply J_bind; [now apply J_write|intro].
  apply J_bind; [apply J_modify; split; reflexivity|intro; apply J_ret].
Qed.

Lemma in_frame_op ty w : 0 <= w < n -> o_index (Op ty w) = w.
Proof. intro H. apply o_index_small. lia. Qed.

Lemma J_dispatch st : fair [st] -> J (dispatch E rb st).
Proof.
  intros (l & Hl & HF & HS). apply opt_cons in Hl as (i & l' & Hs & Hn & ->). injection Hn as <-.
  unfold in_frame in HF. cbn [flat_map] in HF, HS. rewrite app_nil_r in HF, HS.
  destruct st as [ty op0 op1 target e]. unfold dispatch.
  destruct ty; cbn [says] in Hs; destruct e as [ex|]; try discriminate Hs.
  all: try (destruct ex; try discriminate Hs).
  all: unfold with1, with2, option_map in Hs;
    repeat match type of Hs with context [match ?y with _ => _ end] => destruct y eqn:?; try discriminate Hs end;
    injection Hs as <-; cbn [subjects locals_in In] in HF, HS.
  all: repeat match goal with
    | |- J (bind (ext_block (Some (ExtBlock ?b))) ?k) => change (J (k b)); cbv beta
    | |- J (bind _ _) => apply J_bind; [|intro]
    | |- J (ret _) => apply J_ret
    | |- J (get _) => apply J_get
    | |- J (read_local _) => apply J_read
    | |- J (write_local _ _) => apply J_write; intro; apply HS; auto
    | |- J (add_error _) => apply J_error
    | |- J (is_defined _) => apply J_def
    | |- J (unpack_operand _ _) => apply J_unpack
    | |- J (equals _ _ _) => apply J_equals
    | |- J (vnth _ _) => apply J_vnth
    | |- J exn => apply J_exn
    | |- J (fault_ _) => apply J_fault
    | |- J (modify _) => apply J_modify; split; reflexivity
    | |- J (run_call _ _ _ _ _) => apply J_call; intro; apply HS; auto
    | |- J (run_dynamic _ _ _ _ _) => apply J_run_dynamic; intro; apply HS; auto
    | |- J (if _ then _ else _) => destruct (_ : bool)
    | |- J (match ?y with _ => _ end) => destruct y
    end.
  - apply J_block_stmt. apply (fair_blocks l); auto; unfold in_frame; rewrite <- flat_flat; auto.
  - apply Hrb. exists l. auto.
  - apply J_scan.
    + exists l. split; [auto|]. split; [|intro; apply HS; apply in_or_app; auto]. unfold in_frame. now apply Forall_app in HF.
    + destruct op0 as [[] w]; try discriminate. injection Heqo as <-. rewrite in_frame_op; [intro; apply HS; cbn; auto|].
      apply Forall_app in HF as [_ HF]. rewrite Forall_forall in HF. apply HF. cbn. auto.
    + destruct op1 as [[] w]; try discriminate. injection Heqo0 as <-. rewrite in_frame_op; [intro; apply HS; cbn; auto|].
      apply Forall_app in HF as [_ HF]. rewrite Forall_forall in HF. apply HF. cbn. auto.
  - apply J_with; [|intro; apply HS; auto]. exists l. split; [auto|]. split; [|tauto]. unfold in_frame.
    apply Forall_app in HF as [_ HF]. now apply Forall_app in HF.
Qed.
Lemma fair_cons st b : fair (st :: b) -> fair [st] /\ fair b.
Proof.
  intros (l & H & HF & HS). apply opt_cons in H as (i & l' & H1 & H2 & ->). unfold in_frame in *. cbn [flat_map] in HF, HS.
  apply Forall_app in HF as [F1 F2]. rewrite in_app_iff in HS. split.
  - exists [i]. cbn [opt_list flat_map]. rewrite H1, !app_nil_r. unfold in_frame. cbn [flat_map]. rewrite app_nil_r. tauto.
  - exists l'. unfold in_frame. tauto.
Qed.
Lemma J_stmt st : fair [st] -> J (run_stmt E rb st).
Proof.
  intro H. unfold run_stmt. apply J_bind; [apply J_modify; split; reflexivity|intro]. apply J_bind; [apply J_get|intro k].
  destruct (_ <=? _).
  - apply J_bind; [apply J_error|intro; apply J_ret].
  - apply J_bind; [apply J_modify; split; reflexivity|intro; now apply J_dispatch].
Qed.
Lemma J_stmts l : fair l -> forall c, J (run_stmts E rb l c).
Proof.
  induction l as [|st l IH]; intros H c; cbn [run_stmts]; [apply J_ret|]. apply fair_cons in H as [H1 H2].
  apply J_bind; [now apply J_stmt|intro c']. destruct c'; auto using J_ret, J_exn.
  apply J_bind; [apply J_modify; split; reflexivity|intro; apply J_ret].
Qed.
End Keeps.

Lemma J_block E fn x n : private E fn n x -> n <= 2 ^ 64 -> forall m b, fair x n b -> J fn x (run_block E m b).
Proof.
  intros P NR. induction m as [|m IH]; intros b H; [intros s a s' _ G; discriminate|]. cbn [run_block].
  apply J_bind; [apply J_get|intro d]. destruct (_ <=? _).
  - apply J_bind; [apply J_error|intro; apply J_ret].
  - apply J_bind; [apply J_modify; split; reflexivity|intro]. apply J_bind; [eapply J_stmts; eauto|intro c].
    apply J_bind; [apply J_modify; split; reflexivity|intro; apply J_ret].
Qed.

(** ** Blocks that do not return *)
Section Stays.
Variable E : env.
Definition stays (b : block) : Prop := exists l, opt_list says b = Some l /\ existsb leaves l = false.
Definition N (m : vm code) : Prop := forall s s', m s <> Done CReturn s'.
Lemma N_bind {A} (m : vm A) (k : A -> vm code) : (forall a, N (k a)) -> N (bind m k).
Proof. intros H s s' G. unfold bind in G. destruct (m s); try discriminate. eapply H; eauto. Qed.
Lemma N_ret c : c <> CReturn -> N (ret c).
Proof. intros H s s' G. injection G. auto. Qed.
Lemma N_exn : N exn. Proof. intros s s' G. discriminate. Qed.
Lemma N_fault f : N (fault_ f). Proof. intros s s' G. discriminate. Qed.
Lemma N_bind2 (m : vm code) (k : code -> vm code) : N m -> (forall a, a <> CReturn -> N (k a)) -> N (bind m k).
Proof.
  intros H1 H2 s s' G. unfold bind in G. destruct (m s) eqn:Em; try discriminate. eapply (H2 a); eauto.
  intros ->. eapply H1; eauto.
Qed.

Variable m : nat.
Notation rb := (run_block E m).
Hypothesis Hrb : forall b, stays b -> N (rb b).
Lemma N_block_stmt l : Forall stays l -> N (block_stmt rb l).
Proof.
  induction 1; simpl; [apply N_ret; discriminate|]. apply N_bind2; [auto|intros c Hc].
  destruct c; auto using N_exn; apply N_ret; congruence.
Qed.
Lemma N_scan_loop l k v body : stays body -> N (scan_loop rb l k v body).
Proof.
  intros Hb. induction l as [|[a b] l]; simpl; [apply N_ret; discriminate|]. apply N_bind; intro. apply N_bind; intro.
  apply N_bind2; [auto|intros c Hc]. destruct c; auto; apply N_ret; congruence.
Qed.
Lemma N_call g args target : N (run_call E rb g args target).
Proof.
  unfold run_call. apply N_bind; intro st. destruct (existsb _ _); [apply N_exn|]. destruct (e_builtin E g).
  { repeat (apply N_bind; intro). destruct a1 as [[]|]; try (apply N_ret; discriminate). apply N_bind; intro. apply N_ret; discriminate. }
  destruct (sm_find _ _); [|apply N_exn]. repeat (apply N_bind; intro).
  destruct (if 0 <? _ then _ else _) as [cc|]; [apply N_bind; intro; apply N_ret; destruct cc as [[]|]; discriminate|].
  destruct (_ <? _); [apply N_bind; intro; apply N_ret; discriminate|]. apply N_bind; intro.
  destruct (_ <=? _); [apply N_bind; intro; apply N_ret; discriminate|]. apply N_bind; intro.
  destruct (f_blocks a); [apply N_fault|]. apply N_bind; intro c. apply N_bind; intro.
  destruct c; try (apply N_ret; discriminate). repeat (apply N_bind; intro).
  destruct a5 as [[]|]; try (apply N_ret; discriminate). apply N_bind; intro. apply N_ret; discriminate.
Qed.
Lemma stays_blocks ls bs : opt_list (opt_list says) bs = Some ls -> existsb (existsb leaves) ls = false -> Forall stays bs.
Proof.
  revert ls. induction bs as [|b bs IH]; intros ls H HN; [constructor|].
  apply opt_cons in H as (l & ls' & H1 & H2 & ->). cbn [existsb] in HN. apply orb_false_iff in HN as [N1 N2].
  constructor; [exists l; auto|eauto].
Qed.
Lemma N_dispatch st : stays [st] -> N (dispatch E rb st).
Proof.
  intros (l & Hl & HS). apply opt_cons in Hl as (i & l' & Hs & Hn & ->). injection Hn as <-.
  cbn [existsb] in HS. rewrite orb_false_r in HS.
  destruct st as [ty op0 op1 target e]. unfold dispatch.
  destruct ty; cbn [says] in Hs; destruct e as [ex|]; try discriminate Hs.
  all: try (destruct ex; try discriminate Hs).
  all: unfold with1, with2, option_map in Hs;
    repeat match type of Hs with context [match ?y with _ => _ end] => destruct y eqn:?; try discriminate Hs end;
    injection Hs as <-; cbn [leaves] in HS; try discriminate HS.
  all: repeat match goal with
    | |- N (bind (ext_block (Some (ExtBlock ?b))) ?k) => change (N (k b)); cbv beta
    | |- N (bind (rb _) _) => fail 1
    | |- N (run_call _ _ _ _ _) => apply N_call
    | |- N (bind _ _) => apply N_bind; intro
    | |- N (ret _) => apply N_ret; solve [repeat match goal with |- context [match ?y with _ => _ end] => destruct y end; discriminate]
    | |- N exn => apply N_exn
    | |- N (fault_ _) => apply N_fault
    | |- N (match ?y with _ => _ end) => destruct y
    end.
  - apply N_block_stmt. eapply stays_blocks; eauto.
  - unfold run_dynamic. apply N_bind; intro found. destruct found as [[g rest]|]; [|apply N_ret; discriminate].
    apply N_bind2; [apply N_call|intros c Hc]. destruct rest; [now apply N_ret|].
    destruct c; try (apply N_ret; congruence). apply N_bind; intro v. apply N_bind; intro r.
    destruct r; [apply N_bind; intro|]; apply N_ret; discriminate.
  - apply N_bind; intro c. apply N_ret. destruct c; discriminate.
  - unfold run_scan. apply N_bind; intro src.
    assert (G : forall l, N (scan_pairs rb l op0 op1 (Some (ExtBlock b)))).
    { intros l0. unfold scan_pairs. destruct l0; [apply N_ret; discriminate|]. cbn [ext_block].
      intros s s' H. unfold bind at 1, ret at 1 in H. eapply (N_scan_loop (p :: l0) (o_index op0) (o_index op1) b); eauto.
      exists l. auto. }
    destruct src as [[]|]; auto using N_exn; apply N_ret; discriminate.
  - unfold run_with. apply N_bind; intro. apply N_bind; intro v. apply N_bind; intro old.
    apply N_bind2; [apply Hrb; exists l; auto|intros c Hc]. apply N_bind; intro. apply N_bind; intro. now apply N_ret.
Qed.
Lemma stays_cons st b : stays (st :: b) -> stays [st] /\ stays b.
Proof.
  intros (l & H & HS). apply opt_cons in H as (i & l' & H1 & H2 & ->). cbn [existsb] in HS.
  apply orb_false_iff in HS as [S1 S2]. split; [exists [i]; cbn [opt_list existsb]; rewrite H1, S1; auto|exists l'; auto].
Qed.
Lemma N_stmt st : stays [st] -> N (run_stmt E rb st).
Proof.
  intro H. unfold run_stmt. apply N_bind; intro. apply N_bind; intro k. destruct (_ <=? _).
  - apply N_bind; intro. apply N_ret. discriminate.
  - apply N_bind; intro. now apply N_dispatch.
Qed.
Lemma N_stmts l : stays l -> forall c, c <> CReturn -> N (run_stmts E rb l c).
Proof.
  induction l as [|st l IH]; intros H c Hc; cbn [run_stmts]; [now apply N_ret|]. apply stays_cons in H as [H1 H2].
  apply N_bind2; [now apply N_stmt|intros c' Hc']. destruct c'; auto using N_exn; try (apply N_ret; congruence).
  apply N_bind; intro. apply N_ret. discriminate.
Qed.
End Stays.
Lemma N_block E : forall m b, stays b -> N (run_block E m b).
Proof.
  induction m as [|m IH]; intros b H; [intros s s' G; discriminate|]. cbn [run_block]. apply N_bind; intro d. destruct (_ <=? _).
  - apply N_bind; intro. apply N_ret. discriminate.
  - apply N_bind; intro. apply N_bind2; [apply N_stmts; auto; discriminate|intros c Hc]. apply N_bind; intro. now apply N_ret.
Qed.

(** ** Timeouts *)
Section Late.
Variable E : env.
Definition D (m : vm code) : Prop := forall s s', m s = Done CTimeout s' -> e_stmt_limit E <= s_count s'.
Lemma D_bind {A} (m : vm A) (k : A -> vm code) : (forall a, D (k a)) -> D (bind m k).
Proof. intros H s s' G. unfold bind in G. destruct (m s); try discriminate. eapply H; eauto. Qed.
Lemma D_ret c : c <> CTimeout -> D (ret c).
Proof. intros H s s' G. injection G. intros. congruence. Qed.
Lemma D_exn : D exn. Proof. intros s s' G. discriminate. Qed.
Lemma D_fault f : D (fault_ f). Proof. intros s s' G. discriminate. Qed.
(** What follows a code may pass it on if the count stays. *)
Definition D2 (c : code) (m : vm code) : Prop := forall s s', m s = Done CTimeout s' ->
  e_stmt_limit E <= s_count s' \/ (c = CTimeout /\ s_count s' = s_count s).
Lemma D_bind2 (m : vm code) (k : code -> vm code) : D m -> (forall a, D2 a (k a)) -> D (bind m k).
Proof.
  intros H1 H2 s s' G. unfold bind in G. destruct (m s) eqn:Em; try discriminate.
  destruct (H2 _ _ _ G) as [|[-> Hc]]; auto. rewrite Hc. eapply H1; eauto.
Qed.
Lemma D2_ret c : D2 c (ret c). Proof. intros s s' G. injection G as -> <-. auto. Qed.
Lemma D2_of c m : D m -> D2 c m. Proof. intros H s s' G. left. eapply H; eauto. Qed.
Variable rb : block -> vm code.
Hypothesis Hrb : forall b, D (rb b).
Lemma D_block_stmt l : D (block_stmt rb l).
Proof.
  induction l; simpl; [apply D_ret; discriminate|]. apply D_bind2; [auto|intro c].
  destruct c; try apply D2_ret; apply D2_of; auto using D_exn.
Qed.
Lemma D_scan_loop l k v body : D (scan_loop rb l k v body).
Proof.
  induction l as [|[a b] l]; simpl; [apply D_ret; discriminate|]. apply D_bind; intro. apply D_bind; intro.
  apply D_bind2; [auto|intro c]. destruct c; try apply D2_ret; apply D2_of; auto.
Qed.
Lemma D_call g args target : D (run_call E rb g args target).
Proof.
  unfold run_call. apply D_bind; intro st. destruct (existsb _ _); [apply D_exn|]. destruct (e_builtin E g).
  { repeat (apply D_bind; intro). destruct a1 as [[]|]; try (apply D_ret; discriminate). apply D_bind; intro. apply D_ret; discriminate. }
  destruct (sm_find _ _); [|apply D_exn]. repeat (apply D_bind; intro).
  destruct (if 0 <? _ then _ else _) as [cc|]; [apply D_bind; intro; apply D_ret; destruct cc as [[]|]; discriminate|].
  destruct (_ <? _); [apply D_bind; intro; apply D_ret; discriminate|]. apply D_bind; intro.
  destruct (_ <=? _); [apply D_bind; intro; apply D_ret; discriminate|]. apply D_bind; intro.
  destruct (f_blocks a); [apply D_fault|]. apply D_bind; intro c. apply D_bind; intro.
  destruct c; try (apply D_ret; discriminate). repeat (apply D_bind; intro).
  destruct a5 as [[]|]; try (apply D_ret; discriminate). apply D_bind; intro. apply D_ret; discriminate.
Qed.
Lemma D_dispatch st : D (dispatch E rb st).
Proof.
  destruct st as [ty op0 op1 target e]. unfold dispatch.
  destruct ty.
  all: repeat match goal with
    | |- D (bind (ext_block _) ?k) => apply D_bind; intro
    | |- D (bind (rb _) _) => fail 1
    | |- D (run_call _ _ _ _ _) => apply D_call
    | |- D (block_stmt _ _) => apply D_block_stmt
    | |- D (bind _ _) => apply D_bind; intro
    | |- D (ret _) => apply D_ret; solve [repeat match goal with |- context [match ?y with _ => _ end] => destruct y end; discriminate]
    | |- D exn => apply D_exn
    | |- D (fault_ _) => apply D_fault
    | |- D (match ?y with _ => _ end) => destruct y
    end.
  - unfold run_dynamic. apply D_bind; intro found. destruct found as [[g rest]|]; [|apply D_ret; discriminate].
    apply D_bind2; [apply D_call|intro c]. destruct rest; [apply D2_ret|].
    destruct c; try apply D2_ret. apply D2_of. apply D_bind; intro v. apply D_bind; intro r.
    destruct r; [apply D_bind; intro|]; apply D_ret; discriminate.
  - apply D_bind2; [auto|intro c]. destruct c; try apply D2_ret; apply D2_of, D_ret; discriminate.
  - unfold run_scan. apply D_bind; intro src.
    assert (G : forall l, D (scan_pairs rb l op0 op1 e)).
    { intros l0. unfold scan_pairs. destruct l0; [apply D_ret; discriminate|]. apply D_bind; intro b. apply D_scan_loop. }
    destruct src as [[]|]; auto using D_exn; apply D_ret; discriminate.
  - unfold run_with. apply D_bind; intro. apply D_bind; intro v. destruct e as [[]|]; auto using D_exn, D_fault.
    apply D_bind; intro old. apply D_bind2; [auto|intro c]. intros s s' G.
    unfold bind in G. destruct (write_local target old s) eqn:Ew; try discriminate. apply write_inv in Ew as [_ ->].
    cbn in G. injection G as -> <-. right. auto.
Qed.
Lemma D_stmt st : D (run_stmt E rb st).
Proof.
  intros s s' H. unfold run_stmt in H. unfold bind at 1, modify at 1 in H. unfold bind at 1, get at 1 in H.
  destruct (Z.leb_spec (e_stmt_limit E) (s_count (inc_stmts s))).
  - cbn in H. injection H as <-. cbn in *. lia.
  - unfold bind, modify in H. eapply D_dispatch; eauto.
Qed.
Lemma D_stmts l : forall c, c <> CTimeout -> D (run_stmts E rb l c).
Proof.
  induction l as [|st l IH]; intros c Hc; cbn [run_stmts]; [now apply D_ret|].
  apply D_bind2; [apply D_stmt|intro c']. destruct c'; try apply D2_ret; apply D2_of; auto using D_exn.
  - apply D_bind; intro. apply D_ret. discriminate.
  - apply IH. discriminate.
Qed.
End Late.
Lemma D_block E : forall m b, D E (run_block E m b).
Proof.
  induction m as [|m IH]; intros b; [intros s s' G; discriminate|]. cbn [run_block]. apply D_bind; intro d. destruct (_ <=? _).
  - apply D_bind; intro. apply D_ret. discriminate.
  - apply D_bind; intro. apply D_bind2; [apply D_stmts; auto; discriminate|intro c]. intros s s' G.
    cbn in G. injection G as -> <-. auto.
Qed.
