(** Inside a `with`, evaluation does not depend on the function cache. *)
From Coq Require Import String ZArith List Bool Lia.
From Verif Require Import Base BigIntSpec BigIntModel SMap SMapFacts ValueModel ValueSpec KeyProofs ResolverModel VmModel VmSpec
  VmProofs VmSimProofs VmStmtProofs.
Import ListNotations.
Local Open Scope Z_scope.

Section Cache.
Variable E : env.
Variable c' : list (str * option value).
Notation sc := (set_cache c').

Definition Q {A} (m : vm A) : Prop := K m /\ forall s, 0 < s_with s -> m (sc s) = map_state sc (m s).

Lemma Q_bind {A C} (m : vm A) (k : A -> vm C) : Q m -> (forall a, Q (k a)) -> Q (bind m k).
Proof.
  intros [Km Hm] Hk. split; [apply K_bind; auto; intro a; apply Hk|].
  intros s Hs. unfold bind. rewrite (Hm s Hs). destruct (m s) as [a s1|s1|f s1|s1] eqn:Em; simpl; auto.
  apply Hk. destruct (Km s a s1 Em) as (_ & _ & Hw & _). lia.
Qed.
Lemma Q_ret {A} (a : A) : Q (ret a). Proof. split; [apply K_ret|reflexivity]. Qed.
Lemma Q_exn {A} : Q (@exn A). Proof. split; [apply K_exn|reflexivity]. Qed.
Lemma Q_fault {A} f : Q (@fault_ A f). Proof. split; [apply K_fault|reflexivity]. Qed.
Lemma Q_get {A} (f : state -> A) : (forall s, f (sc s) = f s) -> Q (get f).
Proof. intro H. split; [apply K_get|]. intros s _. unfold get. now rewrite H. Qed.
Lemma Q_modify f : (forall s, restored s (f s)) -> (forall s, f (sc s) = sc (f s)) -> Q (modify f).
Proof. intros H1 H2. split; [now apply K_modify|]. intros s _. unfold modify. cbn. now rewrite H2. Qed.
Lemma Q_vnth {A} (l : list A) i : Q (vnth l i).
Proof. unfold vnth. destruct (znth l i); [apply Q_ret|apply Q_fault]. Qed.
Lemma Q_lift {A} (o : outcome A) : Q (lift o).
Proof. split; [apply K_lift|]. intros s _. destruct o; reflexivity. Qed.
Lemma Q_read i : Q (read_local i).
Proof. apply Q_bind; [apply Q_get; reflexivity|intro; apply Q_vnth]. Qed.
Lemma Q_write i v : Q (write_local i v).
Proof.
  apply Q_bind; [apply Q_get; reflexivity|intro fr]. destruct (_ && _); [|apply Q_fault].
  apply Q_modify; intro s; [repeat split|reflexivity].
Qed.
Lemma Q_error c : Q (add_error c).
Proof. apply Q_modify; intro s; [repeat split|reflexivity]. Qed.
Lemma Q_def i : Q (is_defined i).
Proof. apply Q_bind; [apply Q_read|intro; apply Q_ret]. Qed.
Lemma Q_unpack o : Q (unpack_operand E o).
Proof.
  unfold unpack_operand. destruct (o_type o); auto using Q_exn, Q_ret, Q_read.
  apply Q_bind; [apply Q_vnth|intro; apply Q_ret].
Qed.
Lemma Q_unpacks l : Q (unpack_operands E l).
Proof.
  induction l; simpl; [apply Q_ret|]. apply Q_bind; [apply Q_unpack|intro].
  apply Q_bind; [auto|intro; apply Q_ret].
Qed.
Lemma Q_equals a b : Q (equals E a b).
Proof. apply Q_lift. Qed.
Lemma Q_ext_block e : Q (ext_block e).
Proof. destruct e as [[]|]; simpl; auto using Q_exn, Q_ret, Q_fault. Qed.
Lemma Q_params ps : forall args, Q (write_params E ps args).
Proof.
  induction ps; simpl; intros; [apply Q_ret|]. destruct args; [apply Q_fault|].
  apply Q_bind; [apply Q_unpack|intro]. apply Q_bind; [apply Q_write|auto].
Qed.
Lemma Q_strings l : Q (path_strings E l).
Proof.
  induction l; simpl; [apply Q_ret|]. apply Q_bind; [apply Q_vnth|intro].
  apply Q_bind; [auto|intro; apply Q_ret].
Qed.
Lemma Q_swap i path v : Q (write_and_swap E i path v).
Proof.
  unfold write_and_swap. apply Q_bind; [apply Q_read|intro old]. destruct path.
  - apply Q_bind; [apply Q_write|intro; apply Q_ret].
  - apply Q_bind; [apply Q_strings|intro ks].
    destruct old as [[]|]; auto using Q_fault; (apply Q_bind; [apply Q_write|intro; apply Q_ret]).
Qed.
Lemma Q_dynamic path : forall name found, Q (find_dynamic E path name found).
Proof.
  induction path; simpl; intros; [apply Q_ret|]. apply Q_bind; [apply Q_unpack|auto].
Qed.
Lemma Q_dot_path path : forall v, Q (dot_path E v path).
Proof.
  induction path; simpl; intros; [apply Q_ret|]. apply Q_bind; [apply Q_unpack|intro k].
  destruct (dot E v k); auto using Q_ret.
Qed.
Lemma Q_bracket {A C} (push pop : state -> state) (m : vm A) (k : A -> vm C) :
  Q m -> (forall a, Q (k a)) ->
  (forall s s', restored (push s) s' -> restored s (pop s')) ->
  (forall s, 0 < s_with s -> 0 < s_with (push s)) ->
  (forall s, push (sc s) = sc (push s)) -> (forall s, pop (sc s) = sc (pop s)) ->
  Q (do! u := modify push in do! a := m in do! u := modify pop in k a).
Proof.
  intros [Km Hm] Hk Hb Hw Hpush Hpop. split; [apply K_bracket; auto; intro; apply Hk|].
  intros s Hs. unfold bind, modify. rewrite Hpush, (Hm (push s) (Hw s Hs)).
  destruct (m (push s)) as [a s1|s1|f s1|s1] eqn:Em; simpl; auto. rewrite Hpop.
  apply Hk. destruct (Hb s s1 (Km _ _ _ Em)) as (_ & _ & Hw' & _). lia.
Qed.

Variable rb : block -> vm code.
Hypothesis Hrb : forall b, Q (rb b).

Ltac side := first [ apply Q_ret | apply Q_exn | apply Q_fault | apply Q_get; reflexivity | apply Q_read | apply Q_write
  | apply Q_error | apply Q_def | apply Q_unpack | apply Q_unpacks | apply Q_equals | apply Q_ext_block
  | apply Q_params | apply Q_swap | apply Q_dynamic | apply Q_dot_path | apply Q_vnth | apply Q_lift
  | apply Q_modify; intro; [repeat split; fail|reflexivity] ].
Ltac kstep := first
  [ apply Hrb
  | match goal with |- Q (bind _ _) => apply Q_bind; [|intro] end
  | side
  | match goal with |- Q (match ?x with _ => _ end) => destruct x end ].

Lemma Q_run_blocks l : forall c, Q (run_blocks rb l c).
Proof. induction l; simpl; intros; repeat (kstep || apply IHl). Qed.
Lemma Q_block_stmt l : Q (block_stmt rb l).
Proof. induction l; simpl; intros; repeat (kstep || apply IHl). Qed.
Lemma Q_scan_loop l k v body : Q (scan_loop rb l k v body).
Proof. induction l as [|[a b] l]; simpl; intros; repeat (kstep || apply IHl). Qed.
Lemma Q_scan op0 op1 target e : Q (run_scan rb op0 op1 target e).
Proof. unfold run_scan, scan_pairs; repeat (apply Q_scan_loop || kstep). Qed.
(** Reading the counter of [with]s and the cache: under a `with` the cache read is not used. *)
Lemma Q_cache_read {C} (k : Z -> list (str * option value) -> vm C) :
  (forall w c c2, 0 < w -> k w c = k w c2) -> (forall w c, Q (k w c)) ->
  Q (do! w := get s_with in do! c := get s_cache in k w c).
Proof.
  intros Hc Hk. split.
  - apply K_bind; [apply K_get|intro w]. apply K_bind; [apply K_get|intro c]. apply Hk.
  - intros s Hs. unfold bind, get. cbn [s_with s_cache set_cache].
    rewrite (Hc (s_with s) c' (s_cache s) Hs). now apply Hk.
Qed.
Lemma Q_call fn args target : Q (run_call E rb fn args target).
Proof.
  unfold run_call. apply Q_bind; [side|intro st].
  destruct (existsb (str_eqb fn) st); [kstep|].
  destruct (e_builtin E fn); [repeat kstep|].
  destruct (sm_find fn (b_name_to_func (e_bundle E))); [|kstep].
  apply Q_bind; [kstep|intro fu]. apply Q_cache_read.
  { intros w c c2 Hw. destruct (Z.ltb_spec 0 w); [reflexivity|lia]. }
  intros w cache.
  destruct (if 0 <? w then None else sm_find (f_name fu) cache); [repeat kstep|].
  destruct (zlen args <? zlen (f_params fu)); [repeat kstep|].
  apply Q_bind; [kstep|intro].
  destruct (e_call_depth E <=? zlen st); [repeat kstep|].
  destruct (f_blocks fu) as [|b bs].
  { split; [intros s x s' H; discriminate|reflexivity]. }
  apply (Q_bracket (fun s => add_log (EvEnter (fn :: s_stack s)) (set_stack (fn :: s_stack s) (f_arity fu :: s_nargs s) s))
                   (fun s => set_stack (tl (s_stack s)) (tl (s_nargs s)) s)); try reflexivity; auto.
  - apply Q_run_blocks.
  - intro c. destruct c; try (solve [kstep]). apply Q_bind; [kstep|intro v]. apply Q_bind; [kstep|intro].
    apply Q_bind; [|intro; repeat kstep]. split.
    + apply K_modify. intro s. destruct (f_cacheable fu); cbn; [|repeat split].
      destruct (Z.ltb_spec 0 (s_with s)); cbn; repeat split. cbn. lia.
    + intros s Hs. unfold modify. cbn [s_with set_cache].
      destruct (Z.ltb_spec 0 (s_with s)); [|lia]. rewrite andb_false_r. reflexivity.
  - intros s s' (H1 & H2 & H3 & H4 & H5). cbn in *. rewrite H1, H2. repeat split; auto.
Qed.
Lemma Q_run_dynamic path ops target : Q (run_dynamic E rb path ops target).
Proof. unfold run_dynamic. repeat (apply Q_call || kstep). Qed.
Lemma Q_with op0 target e : Q (run_with E rb op0 target e).
Proof.
  split; [apply K_with; apply Hrb|]. intros s Hs. unfold run_with.
  match goal with |- bind _ ?k _ = _ => change (k tt (sc (add_with 1 s)) = map_state sc (k tt (add_with 1 s))) end.
  assert (H1 : 0 < s_with (add_with 1 s)) by (cbn; lia). revert H1. generalize (add_with 1 s). clear s Hs. intros s Hs.
  unfold bind. destruct (Q_unpack op0) as [Ku Qu]. rewrite (Qu s Hs).
  destruct (unpack_operand E op0 s) as [v s1| | |] eqn:Eu; cbn [map_state]; auto.
  apply Ku in Eu. assert (Hs1 : 0 < s_with s1) by (destruct Eu as (_ & _ & -> & _); auto).
  destruct e as [[]|]; auto. destruct (Q_swap target path v) as [Kw Qw]. rewrite (Qw s1 Hs1).
  destruct (write_and_swap E target path v s1) as [old s2| | |] eqn:Ew; cbn [map_state]; auto.
  apply Kw in Ew. assert (Hs2 : 0 < s_with s2) by (destruct Ew as (_ & _ & -> & _); auto).
  destruct (Hrb body) as [Kb Qb]. rewrite (Qb s2 Hs2).
  destruct (rb body s2) as [c s3| | |] eqn:Eb; cbn [map_state]; auto.
  apply Kb in Eb. assert (Hs3 : 0 < s_with s3) by (destruct Eb as (_ & _ & -> & _); auto).
  destruct (Q_write target old) as [_ Ql]. rewrite (Ql s3 Hs3).
  destruct (write_local target old s3) as [u s4| | |]; cbn [map_state]; auto.
Qed.
Lemma Q_dispatch st : Q (dispatch E rb st).
Proof.
  destruct st as [ty op0 op1 target e]. unfold dispatch.
  destruct ty; repeat (apply Q_block_stmt || apply Q_run_dynamic || apply Q_call || apply Q_scan || apply Q_with || kstep).
Qed.
Lemma Q_stmt st : Q (run_stmt E rb st).
Proof. unfold run_stmt. repeat (apply Q_dispatch || kstep). Qed.
Lemma Q_stmts l : forall c, Q (run_stmts E rb l c).
Proof. induction l; simpl; intros; repeat (apply Q_stmt || apply IHl || kstep). Qed.
End Cache.

Lemma Q_block E c' n : forall b, Q c' (run_block E n b).
Proof.
  induction n as [|n IH]; intro b; [split; [intros s a s' H; discriminate|reflexivity]|]. cbn [run_block].
  apply Q_bind; [apply Q_get; reflexivity|intro d]. destruct (e_block_depth E <=? d).
  - apply Q_bind; [apply Q_error|intro; apply Q_ret].
  - apply (Q_bracket c' (add_depth 1) (add_depth (-1))); try reflexivity; auto.
    + apply Q_stmts; auto.
    + intro. apply Q_ret.
    + intros s s' (H1 & H2 & H3 & H4 & H5). cbn in *. split; [auto|]. split; [auto|]. split; [auto|].
      cbn. split; [lia|auto].
Qed.

(** ** A call and the cache *)
Lemma existsb_false fn st : ~ In fn st -> existsb (str_eqb fn) st = false.
Proof.
  intro H. destruct (existsb (str_eqb fn) st) eqn:Ex; auto. apply existsb_exists in Ex as (x & Hx & Ex).
  apply str_eqb_eq in Ex. subst. contradiction.
Qed.

Lemma call_hit E rb fn args target s i fu v :
  ~ In fn (s_stack s) -> e_builtin E fn = None -> sm_find fn (b_name_to_func (e_bundle E)) = Some i ->
  znth (b_functions (e_bundle E)) (zn i) = Some fu -> s_with s = 0 -> sm_find (f_name fu) (s_cache s) = Some v ->
  0 <= target < zlen (s_frame s) ->
  run_call E rb fn args target s =
    Done (match v with Some (VErr _) => CError | _ => CContinue end) (set_frame (upd (s_frame s) (Z.to_nat target) v) s).
Proof.
  intros Hst Hbi Hfn Hfu Hw Hc Ht. unfold run_call, bind, get. rewrite existsb_false by auto. rewrite Hbi, Hfn.
  unfold vnth. rewrite Hfu. cbn [ret]. unfold ret at 1. rewrite Hw. cbn [Z.ltb Z.compare]. rewrite Hc.
  rewrite write_eq by auto. reflexivity.
Qed.

Lemma call_filled E rb fn args target s s' i fu :
  e_builtin E fn = None -> sm_find fn (b_name_to_func (e_bundle E)) = Some i ->
  znth (b_functions (e_bundle E)) (zn i) = Some fu -> f_cacheable fu = true -> s_with s = 0 ->
  (forall b, K (rb b)) ->
  run_call E rb fn args target s = Done CContinue s' ->
  sm_find (f_name fu) (s_cache s') = local s' target.
Proof.
  intros Hbi Hfn Hfu Hca Hw HK H. unfold run_call, bind, get in H.
  destruct (existsb (str_eqb fn) (s_stack s)); [discriminate|]. rewrite Hbi, Hfn in H.
  unfold vnth in H. rewrite Hfu in H. cbn [ret] in H. unfold ret at 1 in H. rewrite Hw in H. cbn [Z.ltb Z.compare] in H.
  destruct (sm_find (f_name fu) (s_cache s)) as [cached|] eqn:Ec.
  - destruct (write_local target cached s) as [u s1| | |] eqn:Ew; try discriminate.
    unfold ret in H. injection H as _ <-. apply write_inv in Ew as [Hi ->]. cbn [s_cache set_frame].
    rewrite Ec. symmetry. now apply local_set_same.
  - destruct (zlen args <? zlen (f_params fu)); [discriminate|].
    destruct (write_params E (skipn 2 (f_params fu)) (skipn 2 args) s) as [u s1| | |] eqn:Ep; try discriminate.
    apply K_params in Ep. destruct (e_call_depth E <=? zlen (s_stack s)); [discriminate|]. unfold modify in H.
    destruct (f_blocks fu) as [|b bs]; [discriminate|].
    destruct (run_blocks rb (b :: bs) CContinue _) as [c s2| | |] eqn:Er; try discriminate.
    apply (K_run_blocks rb HK) in Er.
    assert (Hw2 : s_with s2 = 0).
    { destruct Er as (_ & _ & Hr & _). rewrite Hr. cbn. destruct Ep as (_ & _ & Hp & _). lia. }
    destruct c; try discriminate.
    destruct (read_local (zn (f_result fu)) _) as [v s3| | |] eqn:Erd; try discriminate. apply read_inv in Erd as [-> Erd].
    destruct (write_local target v _) as [u2 s4| | |] eqn:Ew; try discriminate. apply write_inv in Ew as [Hi ->].
    cbn [s_with set_frame set_stack] in H. rewrite Hca, Hw2 in H. cbn [andb negb Z.ltb Z.compare] in H.
    set (s5 := set_cache _ _) in H.
    assert (Hs : s' = s5).
    { destruct v as [[]|]; unfold ret, add_error, modify in H; injection H; auto; discriminate. }
    rewrite Hs in *. cbn [s5 s_cache set_cache] in *.
    assert (Hf : forall (m : list (str * option value)) k a, sm_find k (sm_set k a m) = Some a).
    { intros m k a. induction m as [|[k1 a1] m IH]; simpl; [now rewrite str_eqb_refl|].
      destruct (str_ltb k k1); simpl; [now rewrite str_eqb_refl|].
      destruct (str_eqb k k1) eqn:Ek; simpl; [now rewrite str_eqb_refl|]. rewrite Ek. exact IH. }
    rewrite Hf. symmetry. unfold local. cbn. apply znth_upd_same. exact Hi.
Qed.
