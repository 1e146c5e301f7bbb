(** Properties C12-C21: the virtual machine. *)
From Coq Require Import String ZArith List Bool Lia.
From Verif Require Import Base BigIntSpec BigIntModel SMap SMapFacts ValueModel ValueSpec KeyProofs ResolverModel VmModel VmSpec
  VmProofs VmSimProofs VmStmtProofs VmMergeProofs VmCacheProofs.
Import ListNotations.
Local Open Scope Z_scope.

(** ** A small program used in the examples: [double(x) = x] called from a plan that builds {"result": double(5)}. *)
Definition no_op : operand := Op TNone 0.
Definition loc (i : Z) : operand := Op TLocal i.
Definition env0 (b : bundle) (limit : Z) : env :=
  {| e_bundle := b; e_fops := fops0; e_builtin := fun _ => None; e_stmt_limit := limit; e_call_depth := 100; e_block_depth := 100 |}.
Definition fun_f (cacheable : bool) (bs : list block) : func :=
  {| f_name := $"g0.f"; f_arity := 3; f_params := [0%N; 1%N; 3%N]; f_result := 4%N; f_blocks := bs; f_cacheable := cacheable |}.
Definition copy_body : list block :=
  [[Stmt SAssignVar (loc 3) no_op 4 None; Stmt SReturnLocal no_op no_op 4 None]].
Definition mk_bundle (fs : list func) (body : block) : bundle :=
  {| b_data := VObject []; b_name_to_func := [($"g0.f", 0%N)]; b_name_to_plan := [($"p", 0%N)];
     b_plans := [{| p_name := $"p"; p_blocks := [body] |}]; b_functions := fs; b_strings := [$"result"; $"x"];
     b_locals := 8%N; b_query_plan := Some 0%N |}.
Definition put_result (i : Z) : list stmt :=
  [Stmt SMakeObject no_op no_op 6 None; Stmt SObjectInsert (Op TString 0) (loc i) 6 None;
   Stmt SResultSetAdd no_op no_op 6 None].
Definition call_f (i target : Z) : stmt := Stmt SCall no_op no_op target (Some (ExtCall $"g0.f" [loc 0; loc 1; loc i])).
Definition demo : bundle :=
  mk_bundle [fun_f false copy_body] ([Stmt SAssignInt (Op TValue 5) no_op 2 None; call_f 2 5] ++ put_result 5).
Example demo_verified : verify demo = Ok tt.
Proof. reflexivity. Qed.
Example demo_well_made : well_made demo.
Proof.
  repeat split; try (cbn; lia).
  - intros n i [H|[]]. injection H as <- <-. reflexivity.
  - intros n i [H|[]]. injection H as <- <-. reflexivity.
  - destruct H as [<-|[]]. discriminate.
  - destruct H as [<-|[]]. reflexivity.
  - intros p [<-|[]]. reflexivity.
Qed.
Example demo_sound limit : sound_env (env0 demo limit).
Proof. split; [cbn; lia|]. split; [cbn; lia|]. intros; discriminate. Qed.
Example demo_result : run_entrypoint (env0 demo 100) $"p" None = Ok (QResults [{| r_terms := [VInt $"5"]; r_bindings := [] |}]).
Proof. vm_compute. reflexivity. Qed.

(** ** C12: evaluation terminates, for every bundle, verified or not.  [OutOfFuel] would mean that blocks nest deeper than the
    configured depth; more allowance never changes the result. *)
Lemma output_not_fuel row r : (forall s, r <> NoFuel s) -> output_of row r <> OutOfFuel.
Proof.
  intro H. destruct r as [u s|s|f s|s]; simpl; try discriminate; [|now elim (H s)].
  destruct (s_errors s); [|discriminate]. destruct (s_results s); [discriminate|].
  assert (HC : forall l acc, collect row l acc <> OutOfFuel).
  { clear. induction l as [|v l IH]; simpl; intros; [discriminate|]. destruct (row v); auto; discriminate. }
  apply (HC (o :: l) []).
Qed.
Lemma with_limit_same E : with_limit (e_stmt_limit E) E = E.
Proof. destruct E. reflexivity. Qed.
Theorem C12_terminates : forall E input, sound_env E ->
  run_query E input <> OutOfFuel /\
  (forall entry, run_entrypoint E entry input <> OutOfFuel) /\
  (forall p more, run E (block_fuel E + more) p input = run E (block_fuel E) p input).
Proof.
  intros E input HE.
  assert (HN : forall p s, run E (block_fuel E) p input <> NoFuel s).
  { intros p s H. pose proof (run_inv E False p input HE ltac:(tauto) ltac:(tauto) ltac:(tauto)) as HI. now rewrite H in HI. }
  repeat split.
  - unfold run_query. destruct (b_query_plan (e_bundle E)); [|discriminate].
    destruct (znth _ _) as [p|]; [|discriminate]. apply output_not_fuel, HN.
  - intro entry. unfold run_entrypoint. destruct (sm_find entry _); [|discriminate].
    destruct (znth _ _) as [p|]; [|discriminate]. apply output_not_fuel, HN.
  - intros p more. rewrite <- (with_limit_same E) at 1. apply run_sim; auto; lia.
Qed.
(** A program that calls itself through two functions and blocks ends too: see C15_example. *)
Print Assumptions C12_terminates.

(** ** C13 *)
(** Verified bundles that meet the unchecked conditions [well_made] never index outside locals, strings, functions or plans, and
    never use an unset code.  Missing: verification does not establish [well_made] (C13_refuted). *)
Theorem C13_in_bounds_partial : forall E input, sound_env E -> well_made (e_bundle E) -> verify (e_bundle E) = Ok tt ->
  (forall i, b_query_plan (e_bundle E) = Some i -> exists p, znth (b_plans (e_bundle E)) (zn i) = Some p) /\
  (forall n i, In (n, i) (b_name_to_plan (e_bundle E)) -> exists p, znth (b_plans (e_bundle E)) (zn i) = Some p) /\
  (forall p, In p (b_plans (e_bundle E)) ->
   forall f s, run E (block_fuel E) p input = Fault f s -> f <> OutOfRange /\ f <> Uninitialised).
Proof.
  intros E input HE HM HV. repeat split.
  - intros i Hi. apply znth_range. unfold verify in HV. rewrite Hi in HV. apply obind_ok in HV as [HV _].
    apply require_ok, Z.ltb_lt in HV. lia.
  - intros n i Hi. apply znth_range. destruct HM as (_ & _ & HM & _). specialize (HM n i Hi). lia.
  - pose proof (run_inv E True p input HE ltac:(auto) ltac:(auto) ltac:(auto)) as HI. rewrite H0 in HI. apply HI. exact Logic.I.
  - pose proof (run_inv E True p input HE ltac:(auto) ltac:(auto) ltac:(auto)) as HI. rewrite H0 in HI. apply HI. exact Logic.I.
Qed.
(** Verification itself does not index out of range either on well-made bundles. *)
Theorem C13_verify_defined : forall b, well_made b -> verify b <> Ub.
Proof.
  intros b (_ & HF & _).
  assert (Hreq : forall x, require x <> Ub) by (intros []; discriminate).
  assert (Hbind : forall A (o : outcome unit) (f : unit -> outcome A), o <> Ub -> (forall u, f u <> Ub) -> obind o f <> Ub).
  { intros A [] f H1 H2; simpl; auto; discriminate. }
  assert (Heach : forall A (f : A -> outcome unit) l, (forall x, f x <> Ub) -> each f l <> Ub).
  { intros A f l H. induction l; simpl; [discriminate|]. apply Hbind; auto. }
  assert (Hop : forall o, verify_operand b o <> Ub) by (intro o; unfold verify_operand; destruct (o_type o); auto; discriminate).
  assert (Hst : forall s, verify_stmt b s <> Ub).
  { fix IH 1. intros [ty op0 op1 target e]. cbn [verify_stmt].
    apply Hbind; [apply Hreq|intros _]. apply Hbind; [apply Hop|intros _]. apply Hbind; [apply Hop|intros _].
    apply Hbind; [destruct ty; first [apply Hreq|discriminate]|intros _].
    assert (HB : forall l, (fix vb (l : list stmt) : outcome unit :=
       match l with [] => Ok tt | x :: l' => let! u := verify_stmt b x in vb l' end) l <> Ub).
    { induction l as [|x l IHl]; [discriminate|]. apply Hbind; [apply IH|auto]. }
    destruct e as [[fn ops|path ops|path body|bs|bl]|]; destruct ty; try discriminate; try apply HB.
    - apply Hbind; [apply Heach; auto|intros _]. destruct (sm_find fn (b_name_to_func b)) as [i|] eqn:Ef; [|discriminate].
      apply sm_find_in, HF in Ef. destruct (znth_range (b_functions b) (zn i)) as [f Hf]; [lia|]. rewrite Hf. apply Hreq.
    - apply Hbind; [apply Heach; auto|intros _]. apply Heach; auto.
    - apply Hbind; [apply HB|intros _]. apply Heach; auto.
    - induction bs as [|x l IHl]; [discriminate|]. apply Hbind; [apply HB|auto]. }
  assert (Hbl : forall l, verify_block b l <> Ub) by (intro; apply Heach; auto).
  unfold verify. apply Hbind; [destruct (b_query_plan b); [apply Hreq|discriminate]|intros _].
  apply Hbind; [|intros _].
  - apply Heach. intro f. unfold verify_function. repeat (apply Hbind; [apply Hreq || (apply Heach; auto)|intros _]).
    apply Heach; auto.
  - apply Heach. intro p. apply Heach; auto.
Qed.
Example C13_example : verify demo = Ok tt /\ exists u s,
  run (env0 demo 100) (block_fuel (env0 demo 100)) {| p_name := $"p"; p_blocks := p_blocks (hd {| p_name := []; p_blocks := [] |} (b_plans demo)) |} None = Done u s.
Proof. split; [reflexivity|]. eexists _, _. vm_compute. reflexivity. Qed.
(** Accepted bundles that go out of bounds: fewer than two locals; an entrypoint name without plan; a Scan whose key operand has
    the type of a number; a function without blocks. *)
Definition one_local : bundle :=
  {| b_data := VNull; b_name_to_func := []; b_name_to_plan := [($"p", 0%N)]; b_plans := [{| p_name := $"p"; p_blocks := [] |}];
     b_functions := []; b_strings := []; b_locals := 1%N; b_query_plan := None |}.
Definition no_plan : bundle :=
  {| b_data := VNull; b_name_to_func := []; b_name_to_plan := [($"p", 7%N)]; b_plans := [];
     b_functions := []; b_strings := []; b_locals := 2%N; b_query_plan := None |}.
Definition bad_scan : bundle :=
  mk_bundle [fun_f false copy_body] [Stmt SScan (Op TValue 1000) (Op TIndex 2) 0 (Some (ExtBlock []))].
Definition no_blocks : bundle := mk_bundle [fun_f false []] [call_f 2 5].
Theorem C13_refuted :
  (verify one_local = Ok tt /\ run_entrypoint (env0 one_local 100) $"p" None = Ub) /\
  (verify no_plan = Ok tt /\ run_entrypoint (env0 no_plan 100) $"p" None = Ub) /\
  (verify bad_scan = Ok tt /\ run_entrypoint (env0 bad_scan 100) $"p" (Some (VArray [VNull])) = Ub) /\
  (verify no_blocks = Ok tt /\ run_entrypoint (env0 no_blocks 100) $"p" None = Ub).
Proof. vm_compute. auto. Qed.
Print Assumptions C13_in_bounds_partial. Print Assumptions C13_verify_defined. Print Assumptions C13_refuted.

(** ** C14 *)
Theorem C14_never_exceeds_limit : forall E p input, sound_env E ->
  executed (s_log (final (run E (block_fuel E) p input))) <= Z.max 0 (e_stmt_limit E - 1).
Proof.
  intros E p input HE. pose proof (run_inv E False p input HE ltac:(tauto) ltac:(tauto) ltac:(tauto)) as HI.
  assert (HW : W E [] 0 (final (run E (block_fuel E) p input))).
  { destruct (run E (block_fuel E) p input); simpl; try tauto. apply HI. }
  destruct HW as (_ & _ & _ & _ & Hx & _). lia.
Qed.
(** The counter reaching the limit is always reported. *)
Theorem C14_limit_reported : forall E p input u s row, sound_env E ->
  run E (block_fuel E) p input = Done u s -> 0 < s_count s -> e_stmt_limit E <= s_count s ->
  exists cs, output_of row (run E (block_fuel E) p input) = Ok (QErrors cs) /\ In TimeoutError cs.
Proof.
  intros E p input u s row HE Hr Hc Hl. pose proof (run_inv E False p input HE ltac:(tauto) ltac:(tauto) ltac:(tauto)) as HI.
  rewrite Hr in *. destruct HI as (_ & _ & _ & _ & _ & _ & HI & _). specialize (HI Hc Hl). simpl.
  destruct (s_errors s) as [|e es] eqn:Ee; [destruct HI|]. eauto.
Qed.
(** Results are never partial: what is not an error under some limit is the result under every larger limit. *)
Theorem C14_results_do_not_depend_on_limit : forall E limit input, sound_env E -> 0 < e_stmt_limit E <= limit ->
  (forall r, run_query E input = Ok r -> r = QUndefined \/ (exists l, r = QResults l) ->
     run_query (with_limit limit E) input = Ok r) /\
  (forall entry r, run_entrypoint E entry input = Ok r -> r = QUndefined \/ (exists l, r = QResults l) ->
     run_entrypoint (with_limit limit E) entry input = Ok r).
Proof.
  intros E limit input HE [HL0 HL].
  assert (HS : forall row p r, output_of row (run E (block_fuel E) p input) = Ok r ->
    r = QUndefined \/ (exists l, r = QResults l) ->
    run (with_limit limit E) (block_fuel (with_limit limit E)) p input = run E (block_fuel E) p input).
  { intros row p r Ho Hr. change (block_fuel (with_limit limit E)) with (block_fuel E).
    replace (block_fuel E) with (block_fuel E + 0)%nat at 1 by lia.
    pose proof (run_inv E False p input HE ltac:(tauto) ltac:(tauto) ltac:(tauto)) as HI.
    apply run_sim; auto.
    - right. destruct (run E (block_fuel E) p input) as [u s|s|f s|s]; simpl in *.
      + destruct HI as ((_ & _ & Hc & _) & _ & _ & _ & _ & _ & HI & _).
        destruct (Z.ltb_spec (s_count s) (e_stmt_limit E)); auto.
        specialize (HI ltac:(lia) ltac:(lia)). destruct (s_errors s); [destruct HI|].
        injection Ho as <-. destruct Hr as [Hr|[? Hr]]; discriminate.
      + injection Ho as <-. destruct Hr as [Hr|[? Hr]]; discriminate.
      + discriminate.
      + destruct HI.
    - intros s Hs. rewrite Hs in HI. exact HI. }
  split.
  - intros r Hq Hr. unfold run_query in *. change (e_bundle (with_limit limit E)) with (e_bundle E).
    destruct (b_query_plan (e_bundle E)); auto. destruct (znth _ _) as [p|]; auto. rewrite (HS _ _ _ Hq Hr). exact Hq.
  - intros entry r Hq Hr. unfold run_entrypoint in *. change (e_bundle (with_limit limit E)) with (e_bundle E).
    destruct (sm_find entry _); auto. destruct (znth _ _) as [p|]; auto. rewrite (HS _ _ _ Hq Hr). exact Hq.
Qed.
Example C14_example : run_entrypoint (env0 demo 5) $"p" None = Ok (QErrors [TimeoutError]) /\
  run_entrypoint (env0 demo 8) $"p" None = Ok (QResults [{| r_terms := [VInt $"5"]; r_bindings := [] |}]).
Proof. vm_compute. auto. Qed.
Print Assumptions C14_never_exceeds_limit. Print Assumptions C14_limit_reported. Print Assumptions C14_results_do_not_depend_on_limit.

(** ** C15 *)
Theorem C15_call_stack_bounded : forall E p input st, sound_env E ->
  In (EvEnter st) (s_log (final (run E (block_fuel E) p input))) -> NoDup st /\ zlen st <= e_call_depth E.
Proof.
  intros E p input st HE Hin. pose proof (run_inv E False p input HE ltac:(tauto) ltac:(tauto) ltac:(tauto)) as HI.
  assert (HW : W E [] 0 (final (run E (block_fuel E) p input))).
  { destruct (run E (block_fuel E) p input); simpl; try tauto. apply HI. }
  destruct HW as (_ & _ & _ & _ & _ & Hl & _). rewrite Forall_forall in Hl. destruct (Hl _ Hin) as [H1 H2].
  split; auto. destruct HE as (_ & HE & _). lia.
Qed.
(** Re-entering a function is an error of the whole query. *)
Theorem C15_reentry_is_error : forall E rb fn args target s, In fn (s_stack s) ->
  run_call E rb fn args target s = Exn s /\ forall row, output_of row (Exn s) = Ok QError.
Proof.
  intros E rb fn args target s H. split; [|reflexivity]. unfold run_call, bind, get.
  assert (Hx : existsb (str_eqb fn) (s_stack s) = true) by (apply existsb_exists; exists fn; split; auto; apply str_eqb_refl).
  now rewrite Hx.
Qed.
(** With a full call stack no body is entered, and a call that is not answered from the cache is an error. *)
Theorem C15_depth_is_error : forall E rb fn args target s, e_builtin E fn = None -> e_call_depth E <= zlen (s_stack s) ->
  (forall st, In (EvEnter st) (s_log (final (run_call E rb fn args target s))) -> In (EvEnter st) (s_log s)) /\
  (forall c s', run_call E rb fn args target s = Done c s' -> s_cache s = [] ->
     c = CError /\ exists e, s_errors s' = (s_errors s ++ [e])%list).
Proof.
  intros E rb fn args target s Hb Hd.
  assert (Hwp : forall ps a, s_log (final (write_params E ps a s)) = s_log s /\ s_errors (final (write_params E ps a s)) = s_errors s).
  { intros ps a. revert a. generalize s. clear. induction ps as [|p ps IH]; intros s a; simpl; auto. destruct a as [|a args]; simpl; auto.
    unfold bind. assert (Hu : final (unpack_operand E a s) = s).
    { unfold unpack_operand, read_local, bind, get, vnth, ret, exn, fault_. destruct (o_type a); auto; destruct (znth _ _); auto. }
    destruct (unpack_operand E a s) as [v s1| | |]; simpl in *; subst; auto.
    destruct (write_local (zn p) v s) as [u2 s2|s2|f2 s2|s2] eqn:Ew; unfold write_local, bind, get, modify, fault_ in Ew;
      destruct ((0 <=? zn p) && (zn p <? zlen (s_frame s))); try discriminate; injection Ew; intros; subst; simpl; auto.
    destruct (IH (set_frame (upd (s_frame s) (Z.to_nat (zn p)) v) s) args) as [H1 H2]. rewrite H1, H2. auto. }
  unfold run_call, bind, get. destruct (existsb (str_eqb fn) (s_stack s)); [split; [auto|discriminate]|].
  rewrite Hb. destruct (sm_find fn (b_name_to_func (e_bundle E))) as [i|]; [|split; [auto|discriminate]].
  unfold vnth. destruct (znth (b_functions (e_bundle E)) (zn i)) as [fu|]; [|split; [auto|discriminate]]. cbn [ret]. unfold ret at 1 3.
  destruct (if 0 <? s_with s then None else sm_find (f_name fu) (s_cache s)) as [cached|] eqn:Ec.
  { split.
    - unfold write_local, bind, get. destruct (_ && _); auto.
    - intros c s' _ Hca. rewrite Hca in Ec. destruct (0 <? s_with s); discriminate. }
  destruct (zlen args <? zlen (f_params fu)).
  { split; [intros st [H|H]; [discriminate|auto]|]. intros c s' H _. injection H as <- <-. split; auto. eexists. reflexivity. }
  destruct (Hwp (skipn 2 (f_params fu)) (skipn 2 args)) as [H1 H2].
  destruct (write_params E (skipn 2 (f_params fu)) (skipn 2 args) s) as [u s1|s1|f s1|s1]; simpl in H1, H2;
    try (split; [simpl; rewrite H1; auto|discriminate]).
  destruct (Z.leb_spec (e_call_depth E) (zlen (s_stack s))) as [Hl|Hl]; [|lia].
  unfold add_error, modify, ret. split.
  - intros st H. change (In (EvEnter st) (EvError RecursionError :: s_log s1)) in H. rewrite H1 in H. destruct H as [H|H]; [discriminate|exact H].
  - intros c s' H _. injection H as <- <-. split; auto. exists RecursionError. cbn. now rewrite H2.
Qed.
Definition loop_bundle : bundle := mk_bundle [fun_f false [[call_f 3 4; Stmt SReturnLocal no_op no_op 4 None]]] [call_f 2 5].
Example C15_example : run_entrypoint (env0 loop_bundle 1000) $"p" None = Ok QError /\
  exists s, run (env0 demo 100) 101 {| p_name := $"p"; p_blocks := [[call_f 2 5]] |} None = Done tt s /\
    In (EvEnter [$"g0.f"]) (s_log s).
Proof. split; [vm_compute; reflexivity|]. eexists. split; [vm_compute; reflexivity|]. cbn. auto 10. Qed.
Print Assumptions C15_call_stack_bounded. Print Assumptions C15_reentry_is_error. Print Assumptions C15_depth_is_error.

(** ** C16 *)
(** Whatever the body does and however it ends, the local is what it was; the other locals are those the body left; and the body
    ran with only the given path changed (objects with string keys, path names without quotes, a defined value). *)
Theorem C16_with_scoped_partial : forall E n op0 op1 target path body s c s',
  dispatch E (run_block E n) (Stmt SWith op0 op1 target (Some (ExtWith path body))) s = Done c s' ->
  exists v old ks s1 s2,
    unpack_operand E op0 s = Done v s /\
    Forall2 (fun i k => znth (b_strings (e_bundle E)) (zn i) = Some k) path ks /\
    run_block E n body s1 = Done c s2 /\
    local s target = Some old /\ local s' target = Some old /\
    (forall i, i <> target -> local s1 i = local s i /\ local s' i = local s2 i) /\
    s_with s' = s_with s /\
    (path = [] -> local s1 target = Some v) /\
    (forall x, path <> [] -> v = Some x -> Forall (fun k => is_quoted k = false) ks ->
       (forall d, old = Some d -> string_keyed d) ->
       exists new, local s1 target = Some (Some new) /\ changed_at old ks x new).
Proof.
  intros E n op0 op1 target path body s c s' H.
  pose proof (K_dispatch E (run_block E n) (K_block E n) _ _ _ _ H) as (_ & _ & HK & _).
  apply with_inv in H as (v & old & ks & s1 & s2 & H1 & H2 & H3 & H4 & H5 & H6 & H7).
  exists v, old, ks, s1, s2. repeat (split; [assumption|]). split.
  - intro Hp. destruct H7 as [[_ H7]|[H7 _]]; [exact H7|contradiction].
  - intros x Hp Hv Hq Hk. destruct H7 as [[H7 _]|(_ & Hold & H7)]; [contradiction|]. subst v.
    eexists. split; [exact H7|]. cbn [to_term]. destruct old as [d|].
    + apply write_path_spec; auto.
    + destruct (write_path_spec E ks (VObject []) x string_keyed_nil Hq) as [HA HB]. split; [exact HA|].
      intros q Hq1 Hq2. rewrite HB by auto. destruct q as [|k q]; [|reflexivity]. elim Hq2. exists ks. reflexivity.
Qed.
Definition with_bundle (op : operand) : bundle :=
  mk_bundle [fun_f false copy_body]
    ([Stmt SWith op no_op 0 (Some (ExtWith [1%N] (put_result 0)))] ++ put_result 0).
Example C16_example : run_entrypoint (env0 (with_bundle (Op TTrue 0)) 100) $"p" (Some (VObject [(VString $"y", VNull)])) =
  Ok (QResults [{| r_terms := [VObject [(VString $"y", VNull); (VString $"x", VTrue)]]; r_bindings := [] |};
                {| r_terms := [VObject [(VString $"y", VNull)]]; r_bindings := [] |}]).
Proof. vm_compute. reflexivity. Qed.
(** Replacing a member of an input that is not an object dereferences a null pointer; an undefined value puts an Error node into the
    document. *)
Theorem C16_refuted :
  run_entrypoint (env0 (with_bundle (Op TTrue 0)) 100) $"p" (Some (VInt $"1")) = Ub /\
  run_entrypoint (env0 (with_bundle (loc 7)) 100) $"p" (Some (VObject [])) =
    Ok (QResults [{| r_terms := [VObject [(VString $"x", VErr WellFormedError)]]; r_bindings := [] |};
                  {| r_terms := [VObject []]; r_bindings := [] |}]).
Proof. vm_compute. auto. Qed.
Print Assumptions C16_with_scoped_partial. Print Assumptions C16_refuted.

(** ** C17 *)
(** Every error raised during a run shows in its output: the output is a list of errors with it, or the error node that replaces
    an evaluation that threw.  Errors that a statement turns into a value without raising them escape this (C17_refuted). *)
Theorem C17_raised_errors_reported_partial : forall E p input row out c, sound_env E ->
  In (EvError c) (s_log (final (run E (block_fuel E) p input))) ->
  output_of row (run E (block_fuel E) p input) = Ok out ->
  out = QError \/ exists cs, out = QErrors cs /\ In c cs.
Proof.
  intros E p input row out c HE Hin Ho.
  pose proof (run_inv E False p input HE ltac:(tauto) ltac:(tauto) ltac:(tauto)) as HI.
  destruct (run E (block_fuel E) p input) as [u s|s|f s|s]; simpl in *; try discriminate.
  - destruct HI as ((_ & _ & _ & _ & _ & _ & Hev) & _). specialize (Hev c Hin).
    destruct (s_errors s) as [|e es] eqn:Ee; [destruct Hev|]. injection Ho as <-. right. eauto.
  - injection Ho as <-. auto.
Qed.
(** A block that ends with an error or timeout code has raised an error, and no piece of a run drops errors. *)
Theorem C17_error_code_is_raised : forall E b fr c s', sound_env E -> length fr = N.to_nat (b_locals (e_bundle E)) ->
  run_block E (block_fuel E) b (set_frame fr (init_state (b_locals (e_bundle E)))) = Done c s' ->
  c = CError \/ c = CTimeout -> s_errors s' <> [].
Proof.
  intros E b fr c s' (Hb & Hc & Ht) Hf H Hcode.
  assert (HI : Inv E [] 0 [] [] 0 0 (set_frame fr (init_state (b_locals (e_bundle E))))).
  { destruct (init_inv E) as ((_ & H2 & H3 & H4 & H5 & H6) & HR). split; [|exact HR].
    split; [unfold zlen; cbn; lia|]. split; [exact H2|]. split; [exact H3|]. split; [exact H4|]. split; [exact H5|exact H6]. }
  pose proof (T_block E False [] 0 Ht ltac:(tauto) ltac:(tauto) (block_fuel E) 0 b [] [] 0 ltac:(intros []) ltac:(unfold block_fuel; lia) _ HI) as HT.
  rewrite H in HT. destruct HT as (_ & _ & HT). auto.
Qed.
Theorem C17_errors_are_never_dropped : forall E n b s, exists es,
  s_errors (final (run_block E n b s)) = (s_errors s ++ es)%list.
Proof. intros E n b s. pose proof (mono_block E n b s) as (_ & _ & H & _). exact H. Qed.
Example C17_example :
  run_entrypoint (env0 (mk_bundle [fun_f false copy_body]
     ([Stmt SAssignVarOnce (Op TTrue 0) no_op 2 None; Stmt SBlock no_op no_op 0 (Some (ExtBlocks [put_result 2]));
       Stmt SAssignVarOnce (Op TFalse 0) no_op 2 None])) 100) $"p" None = Ok (QErrors [EvalConflictError]).
Proof. vm_compute. reflexivity. Qed.
(** A conflict found by ObjectMerge, and an undefined value inserted in an object, become Error nodes inside a normal result. *)
Theorem C17_refuted :
  run_entrypoint (env0 (mk_bundle [fun_f false copy_body]
     ([Stmt SMakeObject no_op no_op 2 None; Stmt SMakeNull no_op no_op 3 None;
       Stmt SObjectMerge (Op TIndex 2) (Op TIndex 3) 4 None] ++ put_result 4)) 100) $"p" None =
    Ok (QResults [{| r_terms := [VErr EvalConflictError]; r_bindings := [] |}]) /\
  run_entrypoint (env0 (mk_bundle [fun_f false copy_body] (put_result 5)) 100) $"p" None =
    Ok (QResults [{| r_terms := [VErr WellFormedError]; r_bindings := [] |}]).
Proof. vm_compute. auto. Qed.
Print Assumptions C17_raised_errors_reported_partial. Print Assumptions C17_error_code_is_raised.
Print Assumptions C17_errors_are_never_dropped. Print Assumptions C17_refuted.

(** ** C18 *)
(** Outside `with`: after a cacheable function returned, its value is in the cache (so it is what the caller got), and a call that
    finds a value writes exactly that value and changes nothing else. *)
Theorem C18_cached_value_partial : forall E n fn args target s i fu,
  e_builtin E fn = None -> sm_find fn (b_name_to_func (e_bundle E)) = Some i ->
  znth (b_functions (e_bundle E)) (zn i) = Some fu -> s_with s = 0 ->
  (forall s', f_cacheable fu = true -> run_call E (run_block E n) fn args target s = Done CContinue s' ->
     sm_find (f_name fu) (s_cache s') = local s' target) /\
  (forall v, ~ In fn (s_stack s) -> sm_find (f_name fu) (s_cache s) = Some v -> 0 <= target < zlen (s_frame s) ->
     run_call E (run_block E n) fn args target s =
       Done (match v with Some (VErr _) => CError | _ => CContinue end) (set_frame (upd (s_frame s) (Z.to_nat target) v) s)).
Proof.
  intros E n fn args target s i fu Hb Hf Hu Hw. split.
  - intros s' Hc H. eapply call_filled; eauto. apply K_block.
  - intros v Hst Hv Ht. eapply call_hit; eauto.
Qed.
(** Inside `with`: evaluation is the same whatever the cache holds, and does not change the cache. *)
Theorem C18_with_ignores_cache : forall E n b s cache, 0 < s_with s ->
  run_block E n b (set_cache cache s) = map_state (set_cache cache) (run_block E n b s) /\
  (forall c s', run_block E n b s = Done c s' -> s_cache s' = s_cache s).
Proof.
  intros E n b s cache Hs. split; [now apply Q_block|].
  intros c s' H. apply K_block in H as (_ & _ & _ & _ & H). auto.
Qed.
Definition cached_twice (cacheable : bool) : bundle :=
  mk_bundle [fun_f cacheable [[Stmt SAssignVar (loc 2) no_op 4 None; Stmt SReturnLocal no_op no_op 4 None]]]
    ([Stmt SAssignInt (Op TValue 1) no_op 2 None; call_f 2 5] ++ put_result 5 ++
     [Stmt SAssignInt (Op TValue 2) no_op 2 None; call_f 2 5] ++ put_result 5)%list.
Example C18_example : exists u s,
  run (env0 (cached_twice true) 100) 101 (hd {| p_name := []; p_blocks := [] |} (b_plans (cached_twice true))) None = Done u s /\
  sm_find $"g0.f" (s_cache s) = Some (Some (VInt $"1")).
Proof. eexists _, _. split; [vm_compute; reflexivity|]. reflexivity. Qed.
(** A cached function that reads a local it does not set (accepted by verification) answers with a stale value. *)
Theorem C18_refuted :
  verify (cached_twice true) = Ok tt /\ verify (cached_twice false) = Ok tt /\
  let results b := run_entrypoint (env0 b 100) $"p" None in
  let one v := {| r_terms := [VInt v]; r_bindings := [] |} in
  results (cached_twice false) = Ok (QResults [one $"1"; one $"2"]) /\
  results (cached_twice true) = Ok (QResults [one $"1"; one $"1"]).
Proof. vm_compute. auto. Qed.
Print Assumptions C18_cached_value_partial. Print Assumptions C18_with_ignores_cache. Print Assumptions C18_refuted.

(** ** C19 *)
Theorem C19_scan_visits_all : forall E n op0 op1 target body s coll l c s',
  local s target = Some (Some coll) -> elements coll = Some l ->
  0 <= o_index op0 < zlen (s_frame s) -> 0 <= o_index op1 < zlen (s_frame s) ->
  (dispatch E (run_block E n) (Stmt SScan op0 op1 target (Some (ExtBlock body))) s = Done c s' <->
   iterates (run_block E n body) (o_index op0) (o_index op1) l s c s').
Proof. exact scan_iff. Qed.
Theorem C19_scan_of_others : forall E n op0 op1 target e s v,
  local s target = Some v ->
  (v = None -> dispatch E (run_block E n) (Stmt SScan op0 op1 target e) s = Done CContinue s) /\
  (forall x, v = Some x -> elements x = None -> (forall c, x <> VErr c) ->
     dispatch E (run_block E n) (Stmt SScan op0 op1 target e) s = Done CUndefined s).
Proof.
  intros E n op0 op1 target e s v H. cbn [dispatch]. unfold run_scan, bind. rewrite (read_eq _ _ _ H). split.
  - intros ->. reflexivity.
  - intros x -> Hx He. destruct x; try discriminate; try reflexivity. now elim (He code).
Qed.
Example C19_example : elements (VArray [VNull; VTrue]) = Some [(VInt $"0", VNull); (VInt $"1", VTrue)] /\
  run_entrypoint (env0 (mk_bundle [fun_f false copy_body]
    [Stmt SScan (Op TIndex 2) (Op TIndex 3) 0 (Some (ExtBlock (put_result 2)))]) 100) $"p" (Some (VArray [VNull; VTrue])) =
  Ok (QResults [{| r_terms := [VInt $"0"]; r_bindings := [] |}; {| r_terms := [VInt $"1"]; r_bindings := [] |}]).
Proof. vm_compute. auto. Qed.
Print Assumptions C19_scan_visits_all. Print Assumptions C19_scan_of_others.

(** ** C20 *)
(** Assigning the values of several locals once to the same undefined target: accepted exactly when all defined values are the same
    value, which is then the value of the target; otherwise a conflict error is raised. *)
Theorem C20_assign_once : forall E NI NF rb, num_domain (e_fops E) NI NF -> forall target srcs vs s,
  zlen (s_frame s) <= 2 ^ 64 ->
  Forall2 (fun i v => i <> target /\ local s i = Some v) srcs vs ->
  (forall x, In (Some x) vs -> wfv (e_fops E) NI NF x) ->
  local s target = Some None -> s_count s + zlen srcs < e_stmt_limit E ->
  exists c s', run_stmts E rb (map (fun i => Stmt SAssignVarOnce (loc i) no_op target None) srcs) CContinue s = Done c s' /\
    ((agree (e_fops E) vs /\ c = CContinue /\ local s' target = Some (first_defined vs) /\ s_errors s' = s_errors s) \/
     (~ agree (e_fops E) vs /\ c = CError /\ s_errors s' = (s_errors s ++ [EvalConflictError])%list)).
Proof.
  intros E NI NF rb HD target srcs vs s Hlen Hv Hw Ht Hlim.
  assert (Hok : Forall (okv E NI NF) vs) by (apply Forall_forall; intros v Hin x ->; auto).
  assert (Hn : okv E NI NF None) by (intros x Hx; discriminate).
  pose proof (assigns_run E NI NF HD rb target srcs vs s None Hlen Hv Hok Hn Ht Hlim) as H.
  change (map (assign_stmt target) srcs) with (map (fun i => Stmt SAssignVarOnce (loc i) no_op target None) srcs) in H.
  destruct (run_stmts E rb _ CContinue s) as [c s'| | |]; try contradiction. exists c, s'. split; auto.
  assert (HA : agree (e_fops E) (None :: vs) <-> agree (e_fops E) vs).
  { split; intros HA x y Hx Hy; apply HA; simpl in *; intuition discriminate. }
  rewrite HA in H. exact H.
Qed.
(** Inserting the key-value pairs held by several locals once into the same empty object: accepted exactly when equal keys come with
    equal values, and the object then holds exactly those pairs; otherwise a conflict error is raised. *)
Theorem C20_insert_once : forall E NI NF rb, num_domain (e_fops E) NI NF -> forall target srcs kvs s,
  zlen (s_frame s) <= 2 ^ 64 ->
  Forall2 (fun ij kv => fst ij <> target /\ snd ij <> target /\
     local s (fst ij) = Some (Some (fst kv)) /\ local s (snd ij) = Some (Some (snd kv))) srcs kvs ->
  Forall (fun kv => wfv (e_fops E) NI NF (fst kv) /\ wfv (e_fops E) NI NF (snd kv)) kvs ->
  local s target = Some (Some (VObject [])) -> s_count s + zlen srcs < e_stmt_limit E ->
  exists c s', run_stmts E rb (map (fun ij => Stmt SObjectInsertOnce (loc (fst ij)) (loc (snd ij)) target None) srcs) CContinue s = Done c s' /\
    ((functional (e_fops E) kvs /\ c = CContinue /\ s_errors s' = s_errors s /\
      exists l, local s' target = Some (Some (VObject l)) /\ represents (e_fops E) kvs l) \/
     (~ functional (e_fops E) kvs /\ c = CError /\ s_errors s' = (s_errors s ++ [EvalConflictError])%list)).
Proof.
  intros E NI NF rb HD target srcs kvs s Hlen Hv Hw Ht Hlim.
  assert (Hf : functional (e_fops E) []) by (intros k v k' v' []).
  assert (Hh : holds_pairs E [] []) by (split; [intro; simpl; tauto|constructor]).
  pose proof (inserts_run E NI NF HD rb target srcs kvs s [] [] Hlen Hv Hw (Forall_nil _) (Forall_nil _) Hf Hh Ht Hlim) as H.
  change (map (insert_stmt target) srcs) with
    (map (fun ij => Stmt SObjectInsertOnce (loc (fst ij)) (loc (snd ij)) target None) srcs) in H.
  destruct (run_stmts E rb _ CContinue s) as [c s'| | |]; try contradiction. exists c, s'. split; auto.
Qed.
Example C20_example :
  let s := set_frame [None; Some (VInt $"1"); Some (VInt $"1"); None; Some (VObject [])] (init_state 5) in
  Forall2 (fun i v => i <> 0 /\ local s i = Some v) [1; 3; 2] [Some (VInt $"1"); None; Some (VInt $"1")] /\
  agree fops0 [Some (VInt $"1"); None; Some (VInt $"1")] /\
  ~ agree fops0 [Some (VInt $"1"); Some VNull].
Proof.
  cbn zeta. split; [repeat constructor; lia|]. split.
  - intros x y Hx Hy. assert (HI : forall z, In (Some z) [Some (VInt $"1"); None; Some (VInt $"1")] -> z = VInt $"1").
    { intros z [Hz|[Hz|[Hz|[]]]]; try discriminate; now injection Hz as <-. }
    rewrite (HI x Hx), (HI y Hy).
    apply veq_num with $"1"; reflexivity.
  - intro H. specialize (H (VInt $"1") VNull (or_introl eq_refl) (or_intror (or_introl eq_refl))).
    inversion H; subst; discriminate.
Qed.
Print Assumptions C20_assign_once. Print Assumptions C20_insert_once.

(** ** C21 *)
Theorem C21_merge_keeps_paths : forall E a b, distinct_keys (e_fops E) a -> distinct_keys (e_fops E) b ->
  (forall c, merge_objects E 256 a b <> VErr c) ->
  merged (e_fops E) a b (merge_objects E 256 a b) /\
  forall p,
    match at_keys (e_fops E) a p, at_keys (e_fops E) b p with
    | Some x, Some y => exists z, at_keys (e_fops E) (merge_objects E 256 a b) p = Some z /\ merged (e_fops E) x y z
    | Some x, None => at_keys (e_fops E) (merge_objects E 256 a b) p = Some x
    | None, Some y => at_keys (e_fops E) (merge_objects E 256 a b) p = Some y
    | None, None => at_keys (e_fops E) (merge_objects E 256 a b) p = None
    end.
Proof.
  intros E a b Ha Hb Hn. pose proof (merge_merged E 256 a b Ha Hb Hn) as H. split; auto.
  intro p. now apply merged_paths.
Qed.
Theorem C21_merge_succeeds_partial : forall E n a b, (n <= 256)%nat -> distinct_keys (e_fops E) a -> distinct_keys (e_fops E) b ->
  compatible (e_fops E) n a b -> forall c, merge_objects E 256 a b <> VErr c.
Proof. intros E n a b Hn Ha Hb Hc. now apply merge_ok with n. Qed.
Example C21_example : let o l := VObject (map (fun kv : string * value => (VString (bytes_of (fst kv)), snd kv)) l) in
  let a := o [("a"%string, o [("x"%string, VNull)]); ("b"%string, VTrue)] in
  let b := o [("a"%string, o [("y"%string, VNull)]); ("b"%string, VFalse); ("c"%string, VNull)] in
  merge_objects (env0 demo 0) 256 a b =
    o [("a"%string, o [("x"%string, VNull); ("y"%string, VNull)]); ("b"%string, VTrue); ("c"%string, VNull)].
Proof. vm_compute. reflexivity. Qed.
(** Documents nested deeper than 256 objects cannot be merged although they agree. *)
Fixpoint nest (n : nat) : value := match n with O => VNull | S n' => VObject [(VString $"a", nest n')] end.
Theorem C21_refuted : merge_objects (env0 demo 0) 256 (nest 256) (nest 256) = VErr EvalConflictError.
Proof. vm_compute. reflexivity. Qed.
Print Assumptions C21_merge_keeps_paths. Print Assumptions C21_merge_succeeds_partial. Print Assumptions C21_refuted.
