(** Functions of built bundles and calls of them. *)
From Coq Require Import String ZArith NArith List Bool Lia.
From Verif Require Import Base SMap ValueModel ResolverModel VmModel VmSpec VmProofs VmSimProofs VmStmtProofs PlanModel PlanSpec PlanProofs PlanBuildProofs
  PlanTheorems RuleModel RuleSpec RuleVmProofs.
Import ListNotations.
Local Open Scope Z_scope.

(** ** Renaming *)
Section Rename.
Context {L S' L2 S2 : Type} (r : L -> L2) (q : S' -> S2) (nm : str -> str).
Notation mp := (map_ir r q nm).
Lemma op_local_map (o : op L S') : op_local (map_op r q o) = map r (op_local o).
Proof. destruct o; reflexivity. Qed.
Lemma ops_local_map (l : list (op L S')) : flat_map op_local (map (map_op r q) l) = map r (flat_map op_local l).
Proof. induction l as [|o l IH]; [reflexivity|]. cbn [map flat_map]. rewrite map_app, IH, op_local_map. reflexivity. Qed.
Lemma flat_map_map (g : ir L S' -> list L) (h : ir L2 S2 -> list L2) l : Forall (fun s => h (mp s) = map r (g s)) l ->
  flat_map h (map mp l) = map r (flat_map g l).
Proof. induction 1 as [|s l Hs _ IH]; [reflexivity|]. cbn [map flat_map]. rewrite map_app, IH, Hs. reflexivity. Qed.
Lemma flat_map_map2 (g : ir L S' -> list L) (h : ir L2 S2 -> list L2) bs : Forall (fun s => h (mp s) = map r (g s)) (concat bs) ->
  flat_map (flat_map h) (map (map mp) bs) = map r (flat_map (flat_map g) bs).
Proof.
  induction bs as [|b bs IH]; intro H; [reflexivity|]. cbn [concat] in H. apply Forall_app in H as [H1 H2]. cbn [map flat_map].
  rewrite map_app, (flat_map_map g h b H1), IH; auto.
Qed.
Lemma locals_map : forall s, locals_in (mp s) = map r (locals_in s).
Proof.
  induction s as [s IH] using ir_ind'. destruct s; cbn [map_ir locals_in inner] in *; rewrite ?map_app, ?op_local_map, ?ops_local_map; try reflexivity.
  - now apply flat_map_map2.
  - now apply flat_map_map.
  - f_equal. now apply flat_map_map.
  - f_equal. f_equal. now apply flat_map_map.
Qed.
Lemma subjects_map : forall s, subjects (mp s) = map r (subjects s).
Proof.
  induction s as [s IH] using ir_ind'. destruct s; cbn [map_ir subjects inner] in *; rewrite ?map_app; try reflexivity.
  - now apply flat_map_map2.
  - now apply flat_map_map.
  - f_equal. now apply flat_map_map.
  - cbn [map]. f_equal. now apply flat_map_map.
Qed.
Lemma locals_maps l : flat_map locals_in (map mp l) = map r (flat_map locals_in l).
Proof. apply flat_map_map, Forall_forall. intros s _. apply locals_map. Qed.
Lemma subjects_maps l : flat_map subjects (map mp l) = map r (flat_map subjects l).
Proof. apply flat_map_map, Forall_forall. intros s _. apply subjects_map. Qed.
End Rename.

(** ** Built bundles *)
Section Built.
Variable p : prog.
Hypothesis C : compiled p.
Hypothesis M : moderate p.
Variable b : bundle.
Hypothesis B : build p = Ok b.
Notation rho := (nl (final_table p)).
Notation sigma := (ns (final_table p)).
Definition frame_size : Z := Z.of_nat (count_locals p) + 2.

Lemma numbered_nth i f : nth_error (g_fns p) i = Some f -> nth_error (numbered_fns (g_fns p)) i = Some (i, f).
Proof.
  unfold numbered_fns. assert (G : forall (l : list (fn str str)) k j, nth_error l j = Some f -> nth_error (combine (seq k (length l)) l) j = Some ((k + j)%nat, f)).
  { induction l as [|x l IH]; intros k j H; [destruct j; discriminate|]. destruct j as [|j]; cbn [nth_error length seq combine] in *.
    - injection H as ->. now rewrite Nat.add_0_r.
    - rewrite (IH (S k) j H). do 2 f_equal. lia. }
  intro H. exact (G (g_fns p) 0%nat i H).
Qed.
Lemma forall2_nth {A A2} (R : A -> A2 -> Prop) l l2 : Forall2 R l l2 -> forall i x y, nth_error l i = Some x -> nth_error l2 i = Some y -> R x y.
Proof.
  induction 1 as [|x y l l2 HR _ IH]; intros i a a2 H1 H2; [destruct i; discriminate|]. destruct i as [|i]; cbn in *; [congruence|eauto].
Qed.
Lemma named i f x : nth_error (g_fns p) i = Some f -> In x (n_params f ++ flat_map locals_in (fn_body f) ++ [n_result f]) ->
  In (Some i, x) (names p).
Proof.
  intros H I. unfold names. apply in_or_app. right. apply in_flat_map. exists (i, f). split; [|now apply in_map].
  eapply nth_error_In, numbered_nth, H.
Qed.
Lemma says_built : says_prog rho sigma p b /\ numbering rho p.
Proof.
  assert (Q : b = bundle_of p).
  { destruct M as [M1 M2]. assert (H : build p = Ok (bundle_of p)) by (apply build_ok; auto; apply C). rewrite B in H. now injection H. }
  rewrite Q. split; [apply says_ok; auto; [apply M..|apply C]|apply numbering_ok].
Qed.

Lemma own_private E i f x code : e_bundle E = b -> nth_error (g_fns p) i = Some f -> own_name p i code x ->
  In x (flat_map locals_in (fn_body f) ++ [n_result f]) -> private E (n_name f) frame_size (rho (Some i) x).
Proof.
  intros HE Hf (NR & _ & HO) IX name k g Hn Hk Hg. rewrite HE in Hk, Hg.
  destruct says_built as [[_ _ SF] [NI ND NO NS]].
  destruct (C58_names p b C M B) as (HN & _). apply HN in Hk as (f2 & H2 & Hname).
  assert (ZN : nth_error (b_functions b) (N.to_nat k) = Some g).
  { unfold znth in Hg. destruct (_ && _); [|discriminate]. rewrite <- Hg. f_equal. lia. }
  destruct (forall2_nth _ _ _ SF _ _ _ (numbered_nth _ _ H2) ZN) as (_ & HP & _ & _ & _ & HB). cbn [fst snd] in HP, HB.
  set (j := N.to_nat k) in *.
  assert (NE : j <> i) by (intro Q; rewrite Q in H2; congruence).
  assert (IN : In (Some i, x) (names p)) by (eapply named; [exact Hf|apply in_or_app; right; exact IX]).
  assert (DIFF : forall y, In y (n_params f2 ++ flat_map subjects (fn_body f2)) -> rho (Some i) x <> rho (Some j) y).
  { intros y Iy Q.
    assert (INy : In (Some j, y) (names p)).
    { eapply named; [exact H2|]. apply in_app_iff in Iy as [Iy|Iy]; apply in_or_app; [now left|right; apply in_or_app; left].
      apply in_flat_map in Iy as (st & I1 & I2). apply in_flat_map. exists st. split; [exact I1|now apply subjects_locals]. }
    destruct (reserved_dec y) as [R|R].
    - pose proof (nl_reserved p (Some j) y R). pose proof (NO _ IN NR). cbn [fst snd] in *. lia.
    - apply (NS _ _ IN INy NR R) in Q as [Q1 [Q2|Q2]]; cbn [fst snd] in Q1, Q2; [|injection Q2 as Q2; now elim NE]. subst y. exact (HO j f2 NE H2 Q2 Iy). }
  split.
  - intro I. rewrite <- skipn_map in I. assert (I' : In (rho (Some i) x) (map zn (f_params g))) by (rewrite <- (firstn_skipn 2); apply in_or_app; now right). clear I. rename I' into I.
    change (map zn (f_params g)) with (map Z.of_N (f_params g)) in I. rewrite HP in I. apply in_map_iff in I as (y & Q & Iy). apply (DIFF y); auto.
    apply in_or_app. auto.
  - eexists. split; [exact HB|]. rewrite <- concat_map. unfold in_frame. rewrite locals_maps, subjects_maps. split.
    + apply Forall_forall. intros z I. apply in_map_iff in I as (y & <- & Iy). unfold frame_size. apply (nl_range p (Some j, y)).
      eapply named; [exact H2|]. apply in_or_app. right. apply in_or_app. now left.
    + intro I. apply in_map_iff in I as (y & Q & Iy). apply (DIFF y); auto. apply in_or_app. right. exact Iy.
Qed.
Lemma own_owns E i f x code : e_bundle E = b -> nth_error (g_fns p) i = Some f -> own_name p i code x ->
  In x (flat_map locals_in (fn_body f) ++ [n_result f]) -> incl (flat_map subjects code) (flat_map locals_in (fn_body f)) ->
  owns E (n_name f) frame_size (rho (Some i)) sigma (rho (Some i) x) code.
Proof.
  intros HE Hf HO IX HI. split; [eapply own_private; eauto|]. destruct HO as (NR & HS & _). unfold img. rewrite subjects_maps.
  intro I. apply in_map_iff in I as (y & Q & Iy). destruct says_built as [_ [NI ND NO NS]].
  assert (IN : In (Some i, x) (names p)) by (eapply named; [exact Hf|apply in_or_app; right; exact IX]).
  assert (INy : In (Some i, y) (names p)).
  { eapply named; [exact Hf|]. apply in_or_app. right. apply in_or_app. left. now apply HI. }
  destruct (reserved_dec y) as [R|R].
  - pose proof (nl_reserved p (Some i) y R). pose proof (NO _ IN NR). cbn [fst snd] in *. lia.
  - apply (NS _ _ INy IN R NR) in Q as [Q1 _]. cbn [snd] in Q1. subst y. contradiction.
Qed.

Lemma built_rule E i f g fresh prefix l : e_bundle E = b -> rule_of p i f fresh prefix l -> nth_error (b_functions b) i = Some g ->
  compiled_rule E (n_name f) frame_size (rho (Some i)) sigma fresh prefix (n_result f) l (f_blocks g) /\
  zn (f_result g) = rho (Some i) (n_result f).
Proof.
  intros HE [RF RC RS RN RR RE] Hg. destruct says_built as [[_ _ SF] [NI ND NO NS]].
  destruct (forall2_nth _ _ _ SF _ _ _ (numbered_nth _ _ RF) Hg) as (_ & _ & _ & _ & HR & HB). cbn [fst snd] in HR, HB.
  split; [|exact HR]. constructor.
  - exists (n_blocks f). split; [exact RC|]. split; [exact HB|]. unfold in_frame, img. rewrite locals_maps.
    apply Forall_forall. intros z I. apply in_map_iff in I as (y & <- & Iy). unfold frame_size. apply (nl_range p (Some i, y)).
    eapply named; [exact RF|]. apply in_or_app. right. apply in_or_app. now left.
  - destruct M as [M1 _]. unfold frame_size. assert (2 ^ 32 <= 2 ^ 64) by (apply Z.pow_le_mono_r; lia). lia.
  - exact RS.
  - eapply own_owns; eauto. apply in_or_app. right. now left.
  - intros k d I HD. destruct (RE k d I HD) as (O & IX & NE).
    assert (IX2 : In (fresh k 0%nat 0%nat) (flat_map locals_in (fn_body f) ++ [n_result f])) by (apply in_or_app; now left).
    split; [eapply own_owns; eauto|]. intro Q.
    assert (I1 : In (Some i, fresh k 0%nat 0%nat) (names p)) by (eapply named; [exact RF|apply in_or_app; right; exact IX2]).
    assert (I2 : In (Some i, n_result f) (names p)) by (eapply named; [exact RF|apply in_or_app; right; apply in_or_app; right; now left]).
    apply (NS _ _ I1 I2 (proj1 O) (proj1 RR)) in Q as [Q _]. cbn [snd] in Q. contradiction.
Qed.
End Built.

(** ** Calls *)
Lemma call_run E m fn args target s c s' i f : run_call E (run_block E m) fn args target s = Done c s' ->
  e_builtin E fn = None -> sm_find fn (b_name_to_func (e_bundle E)) = Some i -> znth (b_functions (e_bundle E)) (zn i) = Some f ->
  0 < s_with s \/ sm_find (f_name f) (s_cache s) = None -> c = CContinue \/ c = CUndefined -> s_count s' < e_stmt_limit E ->
  exists s0 s1 c1, entered E fn f args s s0 /\ run_blocks (run_block E m) (f_blocks f) CContinue s0 = Done c1 s1 /\
    s_count s1 < e_stmt_limit E /\ c1 <> CBreak /\
    match c1 with
    | CReturn => c = CContinue /\ exists v, local s1 (zn (f_result f)) = Some v /\ local s' target = Some v
    | _ => c = CUndefined
    end.
Proof.
  intros H HB HF HG HC Hc HL. unfold run_call in H. unfold bind at 1, get at 1 in H. destruct (existsb (str_eqb fn) (s_stack s)); [discriminate|].
  rewrite HB, HF in H. unfold bind at 1, vnth in H. rewrite HG in H. cbn [ret] in H. unfold ret at 1 in H.
  unfold bind at 1, get at 1 in H. unfold bind at 1, get at 1 in H.
  assert (HCC : (if 0 <? s_with s then None else sm_find (f_name f) (s_cache s)) = None).
  { destruct HC as [HC|HC]; [apply Z.ltb_lt in HC; now rewrite HC|]. rewrite HC. now destruct (0 <? s_with s). }
  rewrite HCC in H. destruct (zlen args <? zlen (f_params f)).
  { unfold bind, add_error in H. cbn in H. injection H as <- <-. destruct Hc; discriminate. }
  unfold bind at 1 in H. destruct (write_params E _ _ s) as [u t|t|ft t|t] eqn:EW; try discriminate. destruct u.
  destruct (e_call_depth E <=? zlen (s_stack s)).
  { unfold bind, add_error in H. cbn in H. injection H as <- <-. destruct Hc; discriminate. }
  unfold bind at 1, modify at 1 in H.
  destruct (f_blocks f) as [|b0 bs] eqn:EB; [discriminate|].
  unfold bind at 1 in H. match type of H with context [run_blocks _ _ CContinue ?x] => set (s0 := x) in * end.
  destruct (run_blocks _ _ CContinue s0) as [c1 s1|t1|ft t1|t1] eqn:ER; try discriminate.
  unfold bind at 1, modify at 1 in H.
  exists s0, s1, c1. split; [exists t; split; [exact EW|reflexivity]|]. split; [exact ER|].
  destruct c1.
  all: try (cbn in H; injection H as <- <-; split; [exact HL|]; split; [discriminate|reflexivity]).
  - cbn in H. injection H as <- <-. destruct Hc; discriminate.
  - unfold bind at 1 in H. destruct (read_local _ _) as [v t1|t1|ft t1|t1] eqn:Er; try discriminate. apply read_inv in Er as [-> Er].
    unfold bind at 1 in H. destruct (write_local _ _ _) as [u t1|t1|ft t1|t1] eqn:Ew; try discriminate. apply write_inv in Ew as [R ->].
    unfold bind at 1, modify at 1 in H. 
    match type of H with context [if ?b then _ else _] => destruct b end;
    (destruct v as [v|]; [destruct v|]; (unfold bind, add_error in H; cbn in H; injection H as <- <-));
    try (destruct Hc; discriminate);
    (split; [exact HL|]; split; [discriminate|]; split; [reflexivity|]; eexists; split; [exact Er|];
     match type of R with 0 <= _ < zlen (s_frame ?t) => exact (local_set_same t target _ R) end).
Qed.
