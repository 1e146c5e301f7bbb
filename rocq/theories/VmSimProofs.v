(** Comparing runs of the machine that differ in the nesting allowance (fuel) or in the statement limit. *)
From Coq Require Import String ZArith List Bool Lia.
From Verif Require Import Base BigIntSpec BigIntModel SMap ValueModel ValueSpec ResolverModel VmModel VmSpec VmProofs.
Import ListNotations.
Local Open Scope Z_scope.

Lemma later_refl s : later s s.
Proof. repeat split; try lia; exists []; simpl; auto using app_nil_r. Qed.
Lemma later_trans s1 s2 s3 : later s1 s2 -> later s2 s3 -> later s1 s3.
Proof.
  intros (A1 & A2 & (A3 & E3) & (A4 & E4) & (A5 & E5)) (B1 & B2 & (B3 & F3) & (B4 & F4) & (B5 & F5)).
  split; [lia|]. split; [congruence|]. split; [exists (A3 ++ B3)%list; rewrite F3, E3, app_assoc; auto|].
  split; [exists (A4 ++ B4)%list; rewrite F4, E4, app_assoc; auto|].
  exists (B5 ++ A5)%list. rewrite F5, E5, app_assoc; auto.
Qed.
Ltac later_tac :=
  unfold later; cbn; split; [lia|]; split; [reflexivity|];
  split; [first [exists []; rewrite app_nil_r; reflexivity | eexists; reflexivity]|];
  split; [first [exists []; rewrite app_nil_r; reflexivity | eexists; reflexivity]|];
  first [exists []; reflexivity | eexists [_]; reflexivity].

Section Sim.
Variable E : env.
Variable L' : Z.
Notation L := (e_stmt_limit E).
Notation E' := (with_limit L' E).
Hypothesis HL : L <= L'.

Definition mono {A} (m : vm A) : Prop := forall s, later s (final (m s)).
Definition R {A} (m m' : vm A) : Prop :=
  mono m /\
  forall s, (L = L' \/ s_count (final (m s)) < L) -> (forall s', m s <> NoFuel s') -> m' s = m s.

Lemma mono_bind {A C} (m : vm A) (k : A -> vm C) : mono m -> (forall a, mono (k a)) -> mono (bind m k).
Proof.
  intros Hm Hk s. unfold bind. specialize (Hm s). destruct (m s) as [a s'|s'|f s'|s']; simpl in *; auto.
  specialize (Hk a s'). eapply later_trans; eauto.
Qed.
Lemma mono_ret {A} (a : A) : mono (ret a). Proof. intro s. apply later_refl. Qed.
Lemma mono_exn {A} : mono (@exn A). Proof. intro s. apply later_refl. Qed.
Lemma mono_fault {A} f : mono (@fault_ A f). Proof. intro s. apply later_refl. Qed.
Lemma mono_get {A} (f : state -> A) : mono (get f). Proof. intro s. apply later_refl. Qed.
Lemma mono_modify f : (forall s, later s (f s)) -> mono (modify f).
Proof. intros H s. apply H. Qed.
Lemma mono_vnth {A} (l : list A) i : mono (vnth l i).
Proof. unfold vnth. destruct (znth l i); [apply mono_ret|apply mono_fault]. Qed.
Lemma mono_lift {A} (o : outcome A) : mono (lift o).
Proof. destruct o; intro s; apply later_refl. Qed.
Lemma mono_read i : mono (read_local i).
Proof. apply mono_bind; [apply mono_get|intro; apply mono_vnth]. Qed.
Lemma mono_write i v : mono (write_local i v).
Proof.
  intro s. unfold write_local, bind, get. destruct (_ && _); [|apply later_refl]. cbn.
  unfold later. cbn. split; [lia|]. split; [apply upd_length|].
  repeat split; try (exists []; rewrite app_nil_r; reflexivity). exists []; reflexivity.
Qed.
Lemma mono_error c : mono (add_error c).
Proof. apply mono_modify. intro s. later_tac. Qed.
Lemma mono_def i : mono (is_defined i).
Proof. apply mono_bind; [apply mono_read|intro; apply mono_ret]. Qed.
Lemma mono_unpack o : mono (unpack_operand E o).
Proof.
  unfold unpack_operand. destruct (o_type o); auto using mono_exn, mono_ret, mono_read.
  apply mono_bind; [apply mono_vnth|intro; apply mono_ret].
Qed.
Lemma mono_unpacks l : mono (unpack_operands E l).
Proof.
  induction l; simpl; [apply mono_ret|]. apply mono_bind; [apply mono_unpack|intro].
  apply mono_bind; [auto|intro; apply mono_ret].
Qed.
Lemma mono_equals a b : mono (equals E a b).
Proof. apply mono_lift. Qed.
Lemma mono_ext_block e : mono (ext_block e).
Proof. destruct e as [[]|]; simpl; auto using mono_exn, mono_ret, mono_fault. Qed.
Lemma mono_params ps : forall args, mono (write_params E ps args).
Proof.
  induction ps; simpl; intros; [apply mono_ret|]. destruct args; [apply mono_fault|].
  apply mono_bind; [apply mono_unpack|intro]. apply mono_bind; [apply mono_write|auto].
Qed.
Lemma mono_strings l : mono (path_strings E l).
Proof.
  induction l; simpl; [apply mono_ret|]. apply mono_bind; [apply mono_vnth|intro].
  apply mono_bind; [auto|intro; apply mono_ret].
Qed.
Lemma mono_swap i path v : mono (write_and_swap E i path v).
Proof.
  unfold write_and_swap. apply mono_bind; [apply mono_read|intro old]. destruct path.
  - apply mono_bind; [apply mono_write|intro; apply mono_ret].
  - apply mono_bind; [apply mono_strings|intro ks].
    destruct old as [[]|]; auto using mono_fault; (apply mono_bind; [apply mono_write|intro; apply mono_ret]).
Qed.
Lemma mono_dynamic path : forall name found, mono (find_dynamic E path name found).
Proof.
  induction path; simpl; intros; [apply mono_ret|]. apply mono_bind; [apply mono_unpack|auto].
Qed.
Lemma mono_dot_path path : forall v, mono (dot_path E v path).
Proof.
  induction path; simpl; intros; [apply mono_ret|]. apply mono_bind; [apply mono_unpack|intro k].
  destruct (dot E v k); auto using mono_ret.
Qed.

Lemma R_same {A} (m m' : vm A) : m' = m -> mono m -> R m m'.
Proof. intros -> H. split; auto. Qed.
Lemma R_bind {A C} (m m' : vm A) (k k' : A -> vm C) :
  R m m' -> (forall a, R (k a) (k' a)) -> R (bind m k) (bind m' k').
Proof.
  intros [M1 Hm] Hk. split.
  - apply mono_bind; auto. intro a. apply Hk.
  - intros s HLc HF. unfold bind in *. specialize (Hm s). specialize (M1 s).
    destruct (m s) as [a s'|s'|f s'|s']; simpl in *.
    + destruct (Hk a) as [M2 H2]. specialize (M2 s'). rewrite Hm; [|destruct HLc; [now left|right; destruct M2; lia]|intros; discriminate].
      apply H2; auto.
    + rewrite Hm; auto. intros; discriminate.
    + rewrite Hm; auto. intros; discriminate.
    + now elim (HF s').
Qed.

Variables rb rb' : block -> vm code.
Hypothesis Hrb : forall b, R (rb b) (rb' b).

Ltac side := first [ apply mono_ret | apply mono_exn | apply mono_fault | apply mono_get | apply mono_read | apply mono_write
  | apply mono_error | apply mono_def | apply mono_unpack | apply mono_unpacks | apply mono_equals | apply mono_ext_block
  | apply mono_params | apply mono_swap | apply mono_dynamic | apply mono_dot_path | apply mono_vnth | apply mono_lift
  | apply mono_modify; intro; later_tac ].
Ltac rstep := first
  [ apply Hrb
  | match goal with |- R (bind _ _) _ => apply R_bind; [|intro] end
  | apply R_same; [reflexivity|side]
  | match goal with |- R (match ?x with _ => _ end) _ => destruct x end ].

Lemma R_run_blocks l : forall c, R (run_blocks rb l c) (run_blocks rb' l c).
Proof. induction l; simpl; intros; repeat (rstep || apply IHl). Qed.
Lemma R_block_stmt l : R (block_stmt rb l) (block_stmt rb' l).
Proof. induction l; simpl; intros; repeat (rstep || apply IHl). Qed.
Lemma R_scan_loop l k v body : R (scan_loop rb l k v body) (scan_loop rb' l k v body).
Proof. induction l as [|[a b] l]; simpl; intros; repeat (rstep || apply IHl). Qed.
Lemma R_scan_pairs l op0 op1 e : R (scan_pairs rb l op0 op1 e) (scan_pairs rb' l op0 op1 e).
Proof. destruct l; unfold scan_pairs; repeat (rstep || apply R_scan_loop). Qed.
Lemma R_scan op0 op1 target e : R (run_scan rb op0 op1 target e) (run_scan rb' op0 op1 target e).
Proof. unfold run_scan; repeat (apply R_scan_pairs || rstep). Qed.
Lemma R_call fn args target : R (run_call E rb fn args target) (run_call E' rb' fn args target).
Proof.
  unfold run_call. apply R_bind; [apply R_same; [reflexivity|side]|intro st].
  destruct (existsb (str_eqb fn) st); [rstep|]. change (e_builtin E' fn) with (e_builtin E fn).
  destruct (e_builtin E fn); [repeat rstep|]. change (e_bundle E') with (e_bundle E).
  destruct (sm_find fn (b_name_to_func (e_bundle E))); [|rstep].
  apply R_bind; [rstep|intro fu]. apply R_bind; [rstep|intro w]. apply R_bind; [rstep|intro cache].
  destruct (if 0 <? w then None else sm_find (f_name fu) cache); [repeat rstep|].
  destruct (zlen args <? zlen (f_params fu)); [repeat rstep|].
  apply R_bind; [rstep|intro]. change (e_call_depth E') with (e_call_depth E).
  destruct (e_call_depth E <=? zlen st); [repeat rstep|].
  apply R_bind; [rstep|intro]. destruct (f_blocks fu); [rstep|].
  apply R_bind; [apply R_run_blocks|intro c]. apply R_bind; [rstep|intro].
  destruct c; try (solve [rstep]). apply R_bind; [rstep|intro v]. apply R_bind; [rstep|intro].
  apply R_bind; [apply R_same; [reflexivity|]|intro; repeat rstep].
  apply mono_modify. intro s. destruct (f_cacheable fu && _); later_tac.
Qed.
Lemma R_dynamic path ops target : R (run_dynamic E rb path ops target) (run_dynamic E' rb' path ops target).
Proof. unfold run_dynamic. repeat (apply R_call || rstep). Qed.
Lemma R_with op0 target e : R (run_with E rb op0 target e) (run_with E' rb' op0 target e).
Proof. unfold run_with. repeat rstep. Qed.
Lemma R_dispatch st : R (dispatch E rb st) (dispatch E' rb' st).
Proof.
  destruct st as [ty op0 op1 target e]. unfold dispatch.
  change (e_fops E') with (e_fops E). change (e_bundle E') with (e_bundle E).
  change (dot E') with (dot E). change (insert_into_object E') with (insert_into_object E).
  destruct ty; repeat (apply R_block_stmt || apply R_dynamic || apply R_call || apply R_scan || apply R_with || rstep).
Qed.
Lemma R_stmt st : R (run_stmt E rb st) (run_stmt E' rb' st).
Proof.
  destruct (R_dispatch st) as [HM HD]. unfold run_stmt. split.
  - apply mono_bind; [side|intro]. apply mono_bind; [side|intro n]. destruct (_ <=? n).
    + apply mono_bind; [side|intro; side].
    + apply mono_bind; [side|intro; apply HM].
  - intros s Hc HF. unfold bind, modify, get in *. cbn [s_count inc_stmts set_counts] in *.
    change (e_stmt_limit E') with L'.
    destruct (Z.leb_spec L (s_count s + 1)) as [Hl|Hl].
    + cbn in Hc. destruct Hc as [Hc|Hc]; [|lia]. rewrite <- Hc. destruct (Z.leb_spec L (s_count s + 1)); [reflexivity|lia].
    + destruct (Z.leb_spec L' (s_count s + 1)); [lia|]. now apply HD.
Qed.
Lemma R_stmts l : forall c, R (run_stmts E rb l c) (run_stmts E' rb' l c).
Proof. induction l; simpl; intros; repeat (apply R_stmt || apply IHl || rstep). Qed.
End Sim.

Lemma R_block E L' (HL : e_stmt_limit E <= L') n : forall k b,
  R E L' (run_block E n b) (run_block (with_limit L' E) (n + k) b).
Proof.
  induction n as [|n IH]; intros k b.
  - split; [intro s; apply later_refl|]. intros s _ HF. now elim (HF s).
  - cbn [run_block Nat.add]. apply R_bind; [apply R_same; [reflexivity|apply mono_get]|intro d].
    change (e_block_depth (with_limit L' E)) with (e_block_depth E).
    destruct (e_block_depth E <=? d).
    + apply R_bind; [apply R_same; [reflexivity|apply mono_error]|intro; apply R_same; [reflexivity|apply mono_ret]].
    + apply R_bind; [apply R_same; [reflexivity|apply mono_modify; intro; later_tac]|intro].
      apply R_bind; [apply R_stmts; auto|intro].
      apply R_bind; [apply R_same; [reflexivity|apply mono_modify; intro; later_tac]|intro; apply R_same; [reflexivity|apply mono_ret]].
Qed.
Lemma R_plan E L' (HL : e_stmt_limit E <= L') n k l :
  R E L' (run_plan_blocks E n l) (run_plan_blocks (with_limit L' E) (n + k) l).
Proof.
  induction l as [|b l IH]; simpl; [apply R_same; [reflexivity|apply mono_ret]|].
  apply R_bind; [now apply R_block|intro c]. destruct c; auto; apply R_same; try reflexivity; apply mono_ret.
Qed.

Lemma run_sim E L' n k p input : e_stmt_limit E <= L' ->
  e_stmt_limit E = L' \/ s_count (final (run E n p input)) < e_stmt_limit E ->
  (forall s, run E n p input <> NoFuel s) ->
  run (with_limit L' E) (n + k) p input = run E n p input.
Proof.
  intros HL Hc HF.
  assert (HR : R E L' (do! u := write_local 0 input in do! u := write_local 1 (Some (b_data (e_bundle E))) in
                       run_plan_blocks E n (p_blocks p))
                      (do! u := write_local 0 input in do! u := write_local 1 (Some (b_data (e_bundle E))) in
                       run_plan_blocks (with_limit L' E) (n + k) (p_blocks p))).
  { repeat (apply R_bind; [apply R_same; [reflexivity|apply mono_write]|intro]). now apply R_plan. }
  apply HR; auto.
Qed.

Lemma mono_block E n b : mono (run_block E n b).
Proof. destruct (R_block E (e_stmt_limit E) ltac:(lia) n 0 b) as [H _]. exact H. Qed.

(** ** What is restored *)
Section Restored.
Variable E : env.
Definition K {A} (m : vm A) : Prop := forall s a s', m s = Done a s' -> restored s s'.

Lemma restored_refl s : restored s s. Proof. repeat split. Qed.
Lemma restored_trans s1 s2 s3 : restored s1 s2 -> restored s2 s3 -> restored s1 s3.
Proof.
  intros (A1 & A2 & A3 & A4 & A5) (B1 & B2 & B3 & B4 & B5).
  split; [congruence|]. split; [congruence|]. split; [congruence|]. split; [congruence|].
  intro H. rewrite B5; [auto|congruence].
Qed.
Lemma K_bind {A C} (m : vm A) (k : A -> vm C) : K m -> (forall a, K (k a)) -> K (bind m k).
Proof.
  intros Hm Hk s c s' H. unfold bind in H. destruct (m s) as [a s1|s1|f s1|s1] eqn:Em; try discriminate.
  eapply restored_trans; [eapply Hm; eauto|eapply Hk; eauto].
Qed.
Lemma K_ret {A} (a : A) : K (ret a). Proof. intros s x s' H. injection H as <- <-. apply restored_refl. Qed.
Lemma K_exn {A} : K (@exn A). Proof. intros s x s' H. discriminate. Qed.
Lemma K_fault {A} f : K (@fault_ A f). Proof. intros s x s' H. discriminate. Qed.
Lemma K_get {A} (f : state -> A) : K (get f). Proof. intros s x s' H. injection H as <- <-. apply restored_refl. Qed.
Lemma K_modify f : (forall s, restored s (f s)) -> K (modify f).
Proof. intros Hf s x s' H. injection H as <- <-. apply Hf. Qed.
Lemma K_vnth {A} (l : list A) i : K (vnth l i).
Proof. unfold vnth. destruct (znth l i); [apply K_ret|apply K_fault]. Qed.
Lemma K_lift {A} (o : outcome A) : K (lift o).
Proof. destruct o; simpl; auto using K_ret, K_exn, K_fault. intros s a s' H. discriminate. Qed.
Lemma K_read i : K (read_local i).
Proof. apply K_bind; [apply K_get|intro; apply K_vnth]. Qed.
Lemma K_write i v : K (write_local i v).
Proof.
  apply K_bind; [apply K_get|intro fr]. destruct (_ && _); [|apply K_fault].
  apply K_modify. intro s. repeat split.
Qed.
Lemma K_error c : K (add_error c).
Proof. apply K_modify. intro s. repeat split. Qed.
Lemma K_def i : K (is_defined i).
Proof. apply K_bind; [apply K_read|intro; apply K_ret]. Qed.
Lemma K_unpack o : K (unpack_operand E o).
Proof.
  unfold unpack_operand. destruct (o_type o); auto using K_exn, K_ret, K_read.
  apply K_bind; [apply K_vnth|intro; apply K_ret].
Qed.
Lemma K_unpacks l : K (unpack_operands E l).
Proof.
  induction l; simpl; [apply K_ret|]. apply K_bind; [apply K_unpack|intro].
  apply K_bind; [auto|intro; apply K_ret].
Qed.
Lemma K_equals a b : K (equals E a b).
Proof. apply K_lift. Qed.
Lemma K_ext_block e : K (ext_block e).
Proof. destruct e as [[]|]; simpl; auto using K_exn, K_ret, K_fault. Qed.
Lemma K_params ps : forall args, K (write_params E ps args).
Proof.
  induction ps; simpl; intros; [apply K_ret|]. destruct args; [apply K_fault|].
  apply K_bind; [apply K_unpack|intro]. apply K_bind; [apply K_write|auto].
Qed.
Lemma K_strings l : K (path_strings E l).
Proof.
  induction l; simpl; [apply K_ret|]. apply K_bind; [apply K_vnth|intro].
  apply K_bind; [auto|intro; apply K_ret].
Qed.
Lemma K_swap i path v : K (write_and_swap E i path v).
Proof.
  unfold write_and_swap. apply K_bind; [apply K_read|intro old]. destruct path.
  - apply K_bind; [apply K_write|intro; apply K_ret].
  - apply K_bind; [apply K_strings|intro ks].
    destruct old as [[]|]; auto using K_fault; (apply K_bind; [apply K_write|intro; apply K_ret]).
Qed.
Lemma K_dynamic path : forall name found, K (find_dynamic E path name found).
Proof.
  induction path; simpl; intros; [apply K_ret|]. apply K_bind; [apply K_unpack|auto].
Qed.
Lemma K_dot_path path : forall v, K (dot_path E v path).
Proof.
  induction path; simpl; intros; [apply K_ret|]. apply K_bind; [apply K_unpack|intro k].
  destruct (dot E v k); auto using K_ret.
Qed.

(** A computation between a push and a pop. *)
Lemma K_bracket {A C} (push pop : state -> state) (m : vm A) (k : A -> vm C) :
  K m -> (forall a, K (k a)) ->
  (forall s s', restored (push s) s' -> restored s (pop s')) ->
  K (do! u := modify push in do! a := m in do! u := modify pop in k a).
Proof.
  intros Hm Hk Hb s c s' H. unfold bind, modify in H. destruct (m (push s)) as [a s1|s1|f s1|s1] eqn:Em; try discriminate.
  eapply restored_trans; [apply Hb; eapply Hm; eauto|eapply Hk; eauto].
Qed.

Variable rb : block -> vm code.
Hypothesis Hrb : forall b, K (rb b).

Ltac side := first [ apply K_ret | apply K_exn | apply K_fault | apply K_get | apply K_read | apply K_write
  | apply K_error | apply K_def | apply K_unpack | apply K_unpacks | apply K_equals | apply K_ext_block
  | apply K_params | apply K_swap | apply K_dynamic | apply K_dot_path | apply K_vnth | apply K_lift
  | apply K_modify; intro; repeat split; fail ].
Ltac kstep := first
  [ apply Hrb
  | match goal with |- K (bind _ _) => apply K_bind; [|intro] end
  | side
  | match goal with |- K (match ?x with _ => _ end) => destruct x end ].

Lemma K_run_blocks l : forall c, K (run_blocks rb l c).
Proof. induction l; simpl; intros; repeat (kstep || apply IHl). Qed.
Lemma K_block_stmt l : K (block_stmt rb l).
Proof. induction l; simpl; intros; repeat (kstep || apply IHl). Qed.
Lemma K_scan_loop l k v body : K (scan_loop rb l k v body).
Proof. induction l as [|[a b] l]; simpl; intros; repeat (kstep || apply IHl). Qed.
Lemma K_scan op0 op1 target e : K (run_scan rb op0 op1 target e).
Proof. unfold run_scan, scan_pairs; repeat (apply K_scan_loop || kstep). Qed.
Lemma K_call fn args target : K (run_call E rb fn args target).
Proof.
  unfold run_call. apply K_bind; [side|intro st].
  destruct (existsb (str_eqb fn) st); [kstep|].
  destruct (e_builtin E fn); [repeat kstep|].
  destruct (sm_find fn (b_name_to_func (e_bundle E))); [|kstep].
  apply K_bind; [kstep|intro fu]. apply K_bind; [kstep|intro w]. apply K_bind; [kstep|intro cache].
  destruct (if 0 <? w then None else sm_find (f_name fu) cache); [repeat kstep|].
  destruct (zlen args <? zlen (f_params fu)); [repeat kstep|].
  apply K_bind; [kstep|intro].
  destruct (e_call_depth E <=? zlen st); [repeat kstep|].
  destruct (f_blocks fu) as [|b bs].
  { intros s x s' H. discriminate. }
  apply (K_bracket (fun s => add_log (EvEnter (fn :: s_stack s)) (set_stack (fn :: s_stack s) (f_arity fu :: s_nargs s) s))
                   (fun s => set_stack (tl (s_stack s)) (tl (s_nargs s)) s)).
  - apply K_run_blocks.
  - intro c. destruct c; try (solve [kstep]). apply K_bind; [kstep|intro v]. apply K_bind; [kstep|intro].
    apply K_bind; [|intro; repeat kstep].
    apply K_modify. intro s. destruct (f_cacheable fu); cbn; [|repeat split].
    destruct (Z.ltb_spec 0 (s_with s)); cbn; repeat split. cbn. lia.
  - intros s s' (H1 & H2 & H3 & H4 & H5). cbn in *. rewrite H1, H2. repeat split; auto.
Qed.
Lemma K_run_dynamic path ops target : K (run_dynamic E rb path ops target).
Proof. unfold run_dynamic. repeat (apply K_call || kstep). Qed.
Lemma K_with op0 target e : K (run_with E rb op0 target e).
Proof.
  intros s c s' H. unfold run_with in H.
  assert (HB : K (do! v := unpack_operand E op0 in
    match e with
    | None => fault_ NullDeref
    | Some (ExtWith path body) =>
        do! old := write_and_swap E target path v in
        do! c := rb body in
        do! u := write_local target old in ret c
    | Some _ => exn
    end)) by (repeat kstep).
  assert (HN : exists s1, (do! v := unpack_operand E op0 in
    match e with
    | None => fault_ NullDeref
    | Some (ExtWith path body) =>
        do! old := write_and_swap E target path v in
        do! c := rb body in
        do! u := write_local target old in ret c
    | Some _ => exn
    end) (add_with 1 s) = Done c s1 /\ s' = add_with (-1) s1).
  { unfold bind, modify in H |- *. destruct (unpack_operand E op0 (add_with 1 s)); try discriminate.
    destruct e as [[]|]; try discriminate. destruct (write_and_swap E target path a s0); try discriminate.
    destruct (rb body s1); try discriminate. destruct (write_local target a0 s2); try discriminate.
    injection H as <- <-. eauto. }
  destruct HN as (s1 & H1 & ->). apply HB in H1. destruct H1 as (A1 & A2 & A3 & A4 & A5). cbn in *.
  split; [exact A1|]. split; [exact A2|]. split; [cbn; lia|]. split; [exact A4|]. intro. apply A5. lia.
Qed.
Lemma K_dispatch st : K (dispatch E rb st).
Proof.
  destruct st as [ty op0 op1 target e]. unfold dispatch.
  destruct ty; repeat (apply K_block_stmt || apply K_run_dynamic || apply K_call || apply K_scan || apply K_with || kstep).
Qed.
Lemma K_stmt st : K (run_stmt E rb st).
Proof. unfold run_stmt. repeat (apply K_dispatch || kstep). Qed.
Lemma K_stmts l : forall c, K (run_stmts E rb l c).
Proof. induction l; simpl; intros; repeat (apply K_stmt || apply IHl || kstep). Qed.
End Restored.

Lemma K_block E n : forall b, K (run_block E n b).
Proof.
  induction n as [|n IH]; intro b; [intros s a s' H; discriminate|]. cbn [run_block].
  apply K_bind; [apply K_get|intro d]. destruct (e_block_depth E <=? d).
  - apply K_bind; [apply K_error|intro; apply K_ret].
  - apply (K_bracket (add_depth 1) (add_depth (-1))); [apply K_stmts; auto|intro; apply K_ret|].
    intros s s' (H1 & H2 & H3 & H4 & H5). cbn in *. split; [auto|]. split; [auto|]. split; [auto|].
    cbn. split; [lia|auto].
Qed.
