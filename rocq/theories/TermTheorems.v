(** C65: terms, queries and rules mean what the language says, whatever code the compiler makes of them. *)
From Coq Require Import String ZArith NArith List Bool Lia.
From Verif Require Import Base BigIntSpec SMap ValueModel ResolverModel VmModel VmSpec VmStmtProofs VmTheorems PlanModel PlanSpec PlanProofs PlanBuildProofs PlanTheorems
  RuleModel RuleSpec RuleProofs RuleBuiltProofs RuleQueryProofs RuleTheorems TermModel TermSpec TermStaticProofs TermRunProofs TermScopeProofs TermRuleProofs TermPlainProofs TermBuiltProofs ValueSpec.
Import ListNotations.
Local Open Scope Z_scope.

(** ** Terms and queries *)

(** The code of a term: it goes on exactly if the term is defined, its operand then is the value, and variables stay as they are. *)
Theorem C65_term : forall E call rules fn n num sigma L k t k' o D rho m b s c s',
  answers E call -> own_frame E fn n num L -> lower k t = (k', o) ->
  safe D t -> unmade k (binds t) -> unmade k D -> incl D L -> own_code E sigma L (ob_code o) -> own_op E sigma L (ob_op o) ->
  opt_list says b = Some (img num sigma (ob_code o)) -> at_work fn n num D rho s ->
  run_stmts E (run_block E m) b CContinue s = Done c s' -> c = CContinue \/ c = CUndefined ->
  at_work fn n num D rho s' /\
  match eval (e_fops E) call rules rho t with
  | Some v => c = CContinue /\ value_at E s' (iop num sigma (ob_op o)) = Some v
  | None => c = CUndefined
  end.
Proof.
  intros E call rules fn n num sigma L k t k' o D rho m b s c s' HA OF HW HS HB HD HDL HF HO HC AW HR Hc.
  pose proof (plain_ctx fn n num L k D rho s HDL HD AW) as X.
  assert (R : runs E num sigma any (ob_code o) s c s') by (exists m, b; repeat (split; [assumption|]); exact I).
  split; [|exact (proj1 (plain_all E fn n num sigma L OF rules call HA) t k k' o D rho s c s' HW HS HB X (own_fine _ _ _ _ HF) HO R)].
  eapply plain_work. exact (plain_after E fn n num sigma L OF t k k' o D rho s c s' HW HS X (own_fine _ _ _ _ HF) R).
Qed.

(** The code of a query: the states in which it holds are, in order, its solutions. *)
Theorem C65_query : forall E call rules fn n num sigma L top k q k' ls D rho tail m kc b s ts c s',
  answers E call -> own_frame E fn n num L -> lower_query top k q = (k', ls) ->
  safe_query D q -> unmade k (binds_query q) -> unmade k D -> incl D L ->
  own_code E sigma L (query_block ls) -> own_code E sigma L tail -> (forall y, In y (scope D q) -> ~ In y (flat_map writes tail)) ->
  opt_list says b = Some (img num sigma (query_block ls)) -> opt_list says kc = Some (img num sigma tail) -> at_work fn n num D rho s ->
  visits E kc m b s ts c s' -> c = CContinue \/ c = CUndefined ->
  Forall2 (fun r t => at_work fn n num (scope D q) r t) (sols (e_fops E) call rules rho q) ts.
Proof.
  intros E call rules fn n num sigma L top k q k' ls D rho tail m kc b s ts c s' HA OF HW HS HB HD HDL HF HT HN HC HK AW HV Hc.
  rewrite (query_code _ _ _ _ _ HW) in *.
  pose proof (plain_ctx fn n num L k D rho s HDL HD AW) as X.
  assert (R : meets E num sigma any (flat_map lit_code ls) tail s ts c s') by (exists m, kc, b; repeat (split; [assumption|]); exact I).
  pose proof (plain_query E fn n num sigma L OF rules call HA q top k k' ls D rho tail s ts c s' HW HS HB X (own_fine _ _ _ _ HF) (own_fine _ _ _ _ HT) HN R) as G.
  clear - G. induction G as [|r t rs ts Y _ IH]; constructor; auto. eapply plain_work; exact Y.
Qed.

(** The value of a term and the solutions of a query depend on the variables in scope only. *)
Theorem C65_scope : forall F call rules D r r', (forall x, In x D -> r x = r' x) ->
  (forall t, safe D t -> eval F call rules r t = eval F call rules r' t) /\
  (forall q, safe_query D q -> Forall2 (fun a a' => forall x, In x (scope D q) -> a x = a' x) (sols F call rules r q) (sols F call rules r' q)).
Proof.
  intros F call rules D r r' H. destruct (agree_all F call rules) as (A & _ & _ & Q). split; [intros t S; now apply (A t D)|intros q S; now apply (Q q D)].
Qed.

(** ** Rules *)

(** A complete rule that has been run without error: all values of its definitions are the same, and its value is theirs, or
    the default's. *)
Theorem C65_complete : forall E call rules fn n num sigma L fresh prefix ret k defs def k' l bs D rho m s c s',
  answers E call -> own_frame E fn n num L -> complete_rule k defs def = (k', l) ->
  compiled_rule E fn n num sigma fresh prefix ret l bs -> own_code E sigma L (rules_code ret (fun j => fresh j 0%nat 0%nat) 0 l) ->
  incl (ret :: D) L -> unmade k D -> ~ In ret D -> aside k (concat defs) ret ->
  (forall j d, In (j, d) (definitions 0 l) -> (1 < length d)%nat ->
     In (fresh j 0%nat 0%nat) L /\ ~ In (fresh j 0%nat 0%nat) D /\ aside k (concat defs) (fresh j 0%nat 0%nat)) ->
  Forall (Forall (good_branch k D)) defs -> (forall t, def = Some t -> constant t = true /\ safe D t) ->
  at_work fn n num D rho s -> ran E fn m bs s c s' ->
  all_same E (flat_map (first_values (e_fops E) call rules rho) defs) /\
  local s' (num ret) = Some (rule_means (e_fops E) call rules rho defs def) /\
  c = match rule_means (e_fops E) call rules rho defs def with Some _ => CReturn | None => CUndefined end.
Proof.
  intros E call rules fn n num sigma L fresh prefix ret k defs def k' l bs D rho m s c s' HA OF HR HC HF HL2 HD ND [RA RB] HY HG HDf AW H.
  assert (X : ctx fn n num L any [] k D rho s) by (apply plain_ctx; auto; intros z I; apply HL2; now right).
  destruct (C63_complete _ _ _ _ _ _ _ _ _ _ _ _ _ _ (complete_kind _ _ _ _ _ HR) HC H) as (s0 & vs & s1 & v & Q & _ & AD & AS & RV & LV & ->).
  assert (OFF : off L k D (concat defs) ret) by (split; [apply HL2; now left|auto]).
  destruct (plain_complete E fn n num sigma L OF rules call HA (fun j => fresh j 0%nat 0%nat) ret k defs def k' l D rho s s0 vs s1 v HR HG HDf X OFF) as [-> ->]; auto; now apply own_fine.
Qed.

(** A rule that defines a set: the set of the values of its heads in the solutions of its bodies. *)
Theorem C65_set : forall E call rules fn n num sigma L fresh prefix ret k defs k' l bs D rho m s c s',
  answers E call -> own_frame E fn n num L -> set_rule k defs = (k', l) -> defs <> [] ->
  compiled_rule E fn n num sigma fresh prefix ret l bs -> own_code E sigma L (rules_code ret (fun j => fresh j 0%nat 0%nat) 0 l) ->
  incl (ret :: D) L -> unmade k D -> ~ In ret D -> aside k defs ret -> Forall (good_branch k D) defs ->
  at_work fn n num D rho s -> ran E fn m bs s c s' ->
  c = CReturn /\ exists v, local s' (num ret) = Some (Some (VSet v)) /\ set_of E (flat_map (head_values (e_fops E) call rules rho) defs) v.
Proof.
  intros E call rules fn n num sigma L fresh prefix ret k defs k' l bs D rho m s c s' HA OF HR NE HC HF HL2 HD ND [RA RB] HG AW H.
  assert (X : ctx fn n num L any [] k D rho s) by (apply plain_ctx; auto; intros z I; apply HL2; now right).
  destruct (C63_set _ _ _ _ _ _ _ _ _ _ _ _ _ _ (set_kind _ _ _ _ HR NE) HC H) as (-> & s0 & vs & s1 & v & Q & _ & AD & AS & LV).
  split; [reflexivity|]. exists v. split; [exact LV|].
  assert (OFF : off L k D defs ret) by (split; [apply HL2; now left|auto]).
  rewrite <- (plain_set E fn n num sigma L OF rules call HA (fun j => fresh j 0%nat 0%nat) ret k defs k' l D rho s s0 vs s1 HR HG X OFF (own_fine _ _ _ _ HF) Q AD I). exact AS.
Qed.

(** A rule that defines an object: the object of the keys and values of its heads in the solutions of its bodies. *)
Theorem C65_object : forall E call rules fn n num sigma L fresh prefix ret k defs k' l bs D rho m s c s',
  answers E call -> own_frame E fn n num L -> object_rule k defs = (k', l) -> defs <> [] ->
  compiled_rule E fn n num sigma fresh prefix ret l bs -> own_code E sigma L (rules_code ret (fun j => fresh j 0%nat 0%nat) 0 l) ->
  incl (ret :: D) L -> unmade k D -> ~ In ret D -> unmade k [ret] ->
  Forall (fun b => ~ In ret (binds_query (snd b) ++ binds (fst (fst b)) ++ binds (snd (fst b)))) defs -> Forall (good_pair k D) defs ->
  at_work fn n num D rho s -> ran E fn m bs s c s' ->
  c = CReturn /\ exists v, local s' (num ret) = Some (Some (VObject v)) /\ object_of E (flat_map (head_pairs (e_fops E) call rules rho) defs) v.
Proof.
  intros E call rules fn n num sigma L fresh prefix ret k defs k' l bs D rho m s c s' HA OF HR NE HC HF HL2 HD ND RA RB HG AW H.
  assert (X : ctx fn n num L any [] k D rho s) by (apply plain_ctx; auto; intros z I; apply HL2; now right).
  destruct (C63_object_partial _ _ _ _ _ _ _ _ _ _ _ _ _ _ (object_kind _ _ _ _ HR NE) HC H) as (-> & s0 & vs & s1 & v & Q & _ & AD & LV & AS).
  split; [reflexivity|]. exists v. split; [exact LV|]. apply AS.
  exact (plain_object E fn n num sigma L OF rules call HA (fun j => fresh j 0%nat 0%nat) ret k defs k' l D rho s s0 vs s1 HR HG X (HL2 _ (or_introl eq_refl)) ND RA RB (own_fine _ _ _ _ HF) Q AD I).
Qed.

(** ** Asking for a rule of a policy *)

(** The whole way, from the source of a rule to the answer to a query for it, for every policy, input and data: the answer is an
    error, or the value the rule has as written. *)
Theorem C65_ask_partial : forall p b, compiled p -> moderate p -> build p = Ok b ->
  forall E call rules pl obj index val x e args i f fresh prefix l k D input r,
  e_bundle E = b -> sound_env E -> answers E call ->
  existsb breaks (flat_map fn_body (g_fns p)) = false -> e_builtin E (n_name f) = None ->
  entry_of p pl obj index val x e -> ob_code e = [ICall (n_name f) args x] ->
  rule_of p i f fresh prefix l -> length (n_params f) = 2%nat ->
  source_of E p i f (fun j => fresh j 0%nat 0%nat) l ->
  incl D (flat_map locals_in (fn_body f)) -> (forall x, In x D -> reserved x) -> (In $"input" D -> input <> None) ->
  run_entrypoint E (l_name pl) input = Ok r ->
  let rho := asked_values input (g_data p) in
  r = QError \/ (exists es, es <> [] /\ r = QErrors es) \/
  ((forall defs def k', complete_rule k defs def = (k', l) ->
      Forall (Forall (good_branch k D)) defs -> (forall t, def = Some t -> constant t = true /\ safe D t) -> aside k (concat defs) (n_result f) ->
      (forall j d, In (j, d) (definitions 0 l) -> (1 < length d)%nat -> aside k (concat defs) (fresh j 0%nat 0%nat)) ->
      all_same E (flat_map (first_values (e_fops E) call rules rho) defs) /\
      exists ws, RuleSpec.gives (l_name pl) (rule_means (e_fops E) call rules rho defs def) ws /\ r = answer ws) /\
   (forall defs k', set_rule k defs = (k', l) -> defs <> [] ->
      Forall (good_branch k D) defs -> aside k defs (n_result f) ->
      exists v ws, set_of E (flat_map (head_values (e_fops E) call rules rho) defs) v /\ RuleSpec.gives (l_name pl) (Some (VSet v)) ws /\ r = answer ws) /\
   (forall defs k', object_rule k defs = (k', l) -> defs <> [] ->
      Forall (good_pair k D) defs -> unmade k [n_result f] ->
      Forall (fun b => ~ In (n_result f) (binds_query (snd b) ++ binds (fst (fst b)) ++ binds (snd (fst b)))) defs ->
      exists v ws, object_of E (flat_map (head_pairs (e_fops E) call rules rho) defs) v /\ RuleSpec.gives (l_name pl) (Some (VObject v)) ws /\ r = answer ws)).
Proof.
  intros p b C M B E call rules pl obj index val x e args i f fresh prefix l k D input r HE SE HA HBr HBi HO HEC HR H2 SO HD HDR HIn HRun rho.
  pose proof (ro_fn _ _ _ _ _ _ HR) as Hf.
  destruct (query_rules p b C M B E pl obj index val x e args i f fresh prefix l input r HE SE HBr HBi HO HEC HR H2 HRun) as [Q|[Q|(s0 & AF & QC & QS & QO)]]; [now left|right; now left|right; right].
  pose proof (source_words p M) as NR. pose proof (source_slots p C M b B E HE i f Hf _ l SO) as HL. pose proof (source_apart p C M b B i f Hf) as HI.
  pose proof (source_fine p C M b B E HE i f Hf _ l SO) as HF.
  assert (OFR : own_frame E (n_name f) (frame_size p) (nl (final_table p) (Some i)) (flat_map locals_in (fn_body f))) by (constructor; assumption).
  destruct (source_asked p C M b B E HE i f input k D s0 AF HD HDR HIn) as [UD AW]. pose proof (plain_ctx _ _ _ _ _ _ _ _ HD UD AW) as X. change (asked_values input (g_data p)) with rho in X.
  assert (NRS : ~ In (n_result f) D). { intro I. apply HDR in I. exact (proj1 (ro_result _ _ _ _ _ _ HR) I). }
  assert (INR : In (n_result f) (flat_map locals_in (fn_body f))).
  { destruct (c_result _ C i f Hf) as (I & _). apply in_flat_map in I as (st & I1 & I2). apply in_flat_map. exists st. split; [exact I1|now apply subjects_locals]. }
  split; [|split].
  - intros defs def k' HW HG HDf [RA RB] HY. destruct (QC (complete_kind _ _ _ _ _ HW)) as (s1 & vs & s2 & v & ws & Q & _ & AD & AS & RV & GV & ->).
    assert (OFF : off (flat_map locals_in (fn_body f)) k D (concat defs) (n_result f)) by (repeat split; auto).
    destruct (plain_complete E (n_name f) (frame_size p) (nl (final_table p) (Some i)) (ns (final_table p)) _ OFR rules call HA (fun j => fresh j 0%nat 0%nat) (n_result f)
      k defs def k' l D rho s0 s1 vs s2 v HW HG HDf X OFF) as [-> ->]; auto.
    + intros j d I LD. destruct (ro_else _ _ _ _ _ _ HR j d I LD) as (O & IL & _). destruct (HY j d I LD) as [Y1 Y2]. repeat split; auto.
      intro I3. apply HDR in I3. exact (proj1 O I3).
    + now apply own_fine.
    + eauto.
  - intros defs k' HW NE HG [RA RB]. destruct (QS (set_kind _ _ _ _ HW NE)) as (s1 & vs & s2 & v & ws & Q & _ & AD & AS & GV & ->).
    assert (OFF : off (flat_map locals_in (fn_body f)) k D defs (n_result f)) by (repeat split; auto).
    exists v, ws. split; [|auto].
    rewrite <- (plain_set E (n_name f) (frame_size p) (nl (final_table p) (Some i)) (ns (final_table p)) _ OFR rules call HA (fun j => fresh j 0%nat 0%nat) (n_result f)
      k defs k' l D rho s0 s1 vs s2 HW HG X OFF (own_fine _ _ _ _ HF) Q AD I). exact AS.
  - intros defs k' HW NE HG RA RB. destruct (QO (object_kind _ _ _ _ HW NE)) as (s1 & vs & s2 & v & ws & Q & _ & AD & GV & -> & AS).
    exists v, ws. split; [|auto]. apply AS.
    exact (plain_object E (n_name f) (frame_size p) (nl (final_table p) (Some i)) (ns (final_table p)) _ OFR rules call HA (fun j => fresh j 0%nat 0%nat) (n_result f)
      k defs k' l D rho s0 s1 vs s2 HW HG X INR NRS RA RB (own_fine _ _ _ _ HF) Q AD I).
Qed.

(** ** A policy
      p := [x, input.a] if { x := input.b; not x == 2 } else := "other" if input.c;  default p := {"none": true}
      s contains pair(k, v) if some k, v in input.l
      o[k] := [y | some _, y in v; y == k] if some k, v in input.l *)
Definition q_ (t : str) : str := $"""" ++ t ++ $"""".
Definition member (f : str) : term := TmDot (TmVar $"input") (TmString (q_ f)).
Definition src_p : list (list (term * TermModel.query)) :=
  [[(TmArray (TCons (TmVar $"x") (TCons (member $"a") TNil)),
     QAssign $"x" (member $"b") (QNot (QExpr (TmEqual (TmVar $"x") (TmNumber $"2")) QEnd) QEnd));
    (TmString (q_ $"other"), QExpr (member $"c") QEnd)]].
Definition def_p : option term := Some (TmObject (Item (TmString (q_ $"none")) (TmBool true) NoItems)).
Definition src_s : list (term * TermModel.query) :=
  [(TmCall $"pair" (TCons (TmVar $"k") (TCons (TmVar $"v") TNil)), QScan (member $"l") $"k" $"v" QEnd)].
Definition src_o : list (term * term * TermModel.query) :=
  [(TmVar $"k", TmArrayCompr (TmVar $"y") (QScan (TmVar $"v") $"j" $"y" (QExpr (TmEqual (TmVar $"y") (TmVar $"k")) QEnd)), QScan (member $"l") $"k" $"v" QEnd)].
Definition rule_p65 := snd (complete_rule 100 src_p def_p).
Definition rule_s65 := snd (set_rule 200 src_s).
Definition rule_o65 := snd (object_rule 300 src_o).
Definition fn_p65 := rule_fn $"p" (tmp $"return" 10) rule_p65.
Definition fn_s65 := rule_fn $"s" (tmp $"return" 11) rule_s65.
Definition fn_o65 := rule_fn $"o" (tmp $"return" 12) rule_o65.
Definition policy65 : prog := policy [fn_p65; fn_s65; fn_o65].
Definition pair_builtin : Z -> list (option value) -> outcome (option value) :=
  fun _ vs => Ok (Some (VArray (map (fun o => match o with Some v => v | None => VNull end) vs))).
Definition env65 (b : bundle) : env :=
  {| e_bundle := b; e_fops := ValueSpec.fops0; e_builtin := fun f => if str_eqb f $"pair" then Some pair_builtin else None;
     e_stmt_limit := 1000; e_call_depth := 100; e_block_depth := 100 |}.
Definition call65 (f : str) (vs : list value) : value := VArray vs.
Definition obj65 (l : list (str * value)) : value := VObject (map (fun kv => (VString (fst kv), snd kv)) l).

Example policy65_answers : exists b, build policy65 = Ok b /\ verify b = Ok tt /\
  let ask q input := run_entrypoint (env65 b) q (Some input) in
  let one v := Ok (answer [v]) in
  let i n := VInt (dec n) in
  ask $"p" (obj65 [($"a", i 1); ($"b", i 3)]) = one (VArray [i 3; i 1]) /\
  ask $"p" (obj65 [($"a", i 1); ($"b", i 2); ($"c", VTrue)]) = one (VString $"other") /\
  ask $"p" (obj65 [($"b", i 3)]) = one (obj65 [($"none", VTrue)]) /\
  ask $"s" (obj65 [($"l", VArray [VTrue; VNull])]) = one (VSet [VArray [i 0; VTrue]; VArray [i 1; VNull]]) /\
  ask $"o" (obj65 [($"l", VArray [VArray [i 0; i 1]; VArray [i 5]])]) = one (VObject [(i 0, VArray [i 0]); (i 1, VArray [])]).
Proof. eexists. split; [vm_compute; reflexivity|]. split; [vm_compute; reflexivity|]. vm_compute. auto 10. Qed.

(** Everything the theorem asks for is met. *)
Definition source_ofb (p : prog) (i : nat) (f : fn str str) (y : nat -> str) (l : list rbody) : bool :=
  let code := rules_code (n_result f) y 0 l in
  forallb (fun x => memb x (flat_map locals_in (fn_body f))) (flat_map locals_in code) &&
  forallb (fun x => memb x (flat_map strings_in (fn_body f))) (flat_map strings_in code) &&
  forallb (fun d => match d with DCall g x => str_eqb g $"pair" && negb (str_eqb (firstn 4 x) $"var$") | _ => true end) (flat_map deeds code) &&
  forallb (fun jg => Nat.eqb (fst jg) i ||
    forallb (fun x => negb (memb x (flat_map locals_in (fn_body f))) || negb (existsb (Z.eqb 36) x || reservedb x)) (skipn 2 (n_params (snd jg)) ++ flat_map writes (fn_body (snd jg))))
    (numbered_fns (g_fns p)).
Lemma source_ofb_ok b p i f y l : source_ofb p i f y l = true -> source_of (env65 b) p i f y l.
Proof.
  unfold source_ofb. cbv zeta. rewrite !andb_true_iff, !forallb_forall. intros [[[H1 H2] H3] H4]. constructor.
  - intros x I. now apply memb_in, H1.
  - intros x I. now apply memb_in, H2.
  - intros g x I. apply H3, andb_true_iff in I as [I1 I2]. change (e_builtin (env65 b) g) with (if str_eqb g $"pair" then Some pair_builtin else None). rewrite I1. split; [discriminate|].
    intros (k & ->). discriminate I2.
  - intros x j g I N Hg HR J. specialize (H4 (j, g) (nth_error_In _ _ (numbered_nth p _ _ Hg))). cbn [fst snd] in H4.
    apply orb_true_iff in H4 as [H4|H4]; [apply Nat.eqb_eq in H4; contradiction|]. rewrite forallb_forall in H4. specialize (H4 x J).
    apply orb_true_iff in H4 as [H4|H4]; apply negb_true_iff in H4; [apply memb_in in I; congruence|]. apply orb_false_iff in H4 as [A B]. destruct HR as [HR|HR].
    + assert (T : existsb (Z.eqb 36) x = true) by (apply existsb_exists; exists 36; split; [exact HR|reflexivity]). congruence.
    + apply reservedb_spec in HR. congruence.
Qed.
Lemma unmade_plain k l : forallb (fun x => negb (existsb (Z.eqb 36) x)) l = true -> unmade k l.
Proof.
  rewrite forallb_forall. intros H q j I. specialize (H _ I). apply negb_true_iff in H. assert (T : existsb (Z.eqb 36) (tmp q j) = true).
  { apply existsb_exists. exists 36. split; [|reflexivity]. unfold tmp. rewrite !in_app_iff. right. left. cbn. auto. }
  congruence.
Qed.
Lemma unmade_tmp k q j : (j < k)%nat -> unmade k [tmp q j].
Proof. intros H q' j' [I|[]]. apply tmp_inj in I. lia. Qed.
Lemma entry_plan_name name obj index val e pl : entry_plan name obj index val e = Some pl -> l_name pl = name.
Proof. unfold entry_plan. destruct (ob_op e); try discriminate. intro H. injection H as <-. reflexivity. Qed.
Definition entry65 (name : str) : pl str str := entry name ($"obj$" ++ name) (call0 name ($"call$" ++ name)).
Example policy65_meets : compiled policy65 /\ moderate policy65 /\ existsb breaks (flat_map fn_body (g_fns policy65)) = false /\
  (forall f, In f [fn_p65; fn_s65; fn_o65] -> length (n_params f) = 2%nat /\ incl [$"input"] (flat_map locals_in (fn_body f)) /\
     let name := n_name f in entry_of policy65 (entry65 name) ($"obj$" ++ name) $"i$" $"v$" ($"call$" ++ name) (call0 name ($"call$" ++ name))) /\
  rule_of policy65 0 fn_p65 fresh0 $"bodyobj$" rule_p65 /\ rule_of policy65 1 fn_s65 fresh0 $"bodyobj$" rule_s65 /\ rule_of policy65 2 fn_o65 fresh0 $"bodyobj$" rule_o65 /\
  (forall b, sound_env (env65 b) /\ answers (env65 b) call65 /\ source_of (env65 b) policy65 0 fn_p65 (fun j => fresh0 j 0%nat 0%nat) rule_p65 /\
     source_of (env65 b) policy65 1 fn_s65 (fun j => fresh0 j 0%nat 0%nat) rule_s65 /\ source_of (env65 b) policy65 2 fn_o65 (fun j => fresh0 j 0%nat 0%nat) rule_o65).
Proof.
  split; [|split; [vm_compute; split; discriminate|split; [vm_compute; reflexivity|split; [|split; [|split; [|split]]]]]].
  - apply compiledb_ok; [vm_compute; reflexivity|].
    apply Forall_forall. intros st I. vm_compute in I. repeat destruct I as [<-|I]; try destruct I; cbn; repeat split; auto.
    all: exists false, [49]; split; [reflexivity|]; split; [discriminate|]; split; [repeat constructor; discriminate|vm_compute; split; [discriminate|reflexivity]].
  - intros f I. assert (J : forall f, f = fn_p65 \/ f = fn_s65 \/ f = fn_o65 -> In f (g_fns policy65)) by (intros g [->|[->| ->]]; cbn; auto).
    assert (F : f = fn_p65 \/ f = fn_s65 \/ f = fn_o65) by (destruct I as [<-|[<-|[<-|[]]]]; auto). clear I J.
    split; [destruct F as [->|[->| ->]]; reflexivity|]. split.
    + intros x [<-|[]]. apply memb_in. destruct F as [->|[->| ->]]; vm_compute; reflexivity.
    + cbv zeta. apply entry_ofb_ok; destruct F as [->|[->| ->]]; try (vm_compute; reflexivity); cbn; auto.
  - apply rule_ofb_ok; vm_compute; reflexivity.
  - apply rule_ofb_ok; vm_compute; reflexivity.
  - apply rule_ofb_ok; vm_compute; reflexivity.
  - intro b. split; [split; [|split]|split; [|split; [|split]]].
    + vm_compute. discriminate.
    + vm_compute. discriminate.
    + intros f b' m args H. change (e_builtin (env65 b) f) with (if str_eqb f $"pair" then Some pair_builtin else None) in H. destruct (str_eqb f $"pair"); [|discriminate]. injection H as <-. discriminate.
    + intros f b' m vs r H H2. change (e_builtin (env65 b) f) with (if str_eqb f $"pair" then Some pair_builtin else None) in H. destruct (str_eqb f $"pair"); [|discriminate]. injection H as <-. injection H2 as <-. unfold call65. do 2 f_equal.
      rewrite map_map. apply map_id.
    + apply source_ofb_ok. vm_compute. reflexivity.
    + apply source_ofb_ok. vm_compute. reflexivity.
    + apply source_ofb_ok. vm_compute. reflexivity.
Qed.
Example policy65_good : let D := [$"input"] in
  Forall (Forall (good_branch 100 D)) src_p /\ (forall t, def_p = Some t -> constant t = true /\ safe D t) /\ aside 100 (concat src_p) (n_result fn_p65) /\
  (forall j d, In (j, d) (definitions 0 rule_p65) -> (1 < length d)%nat -> aside 100 (concat src_p) (fresh0 j 0%nat 0%nat)) /\
  Forall (good_branch 200 D) src_s /\ aside 200 src_s (n_result fn_s65) /\
  Forall (good_pair 300 D) src_o /\ unmade 300 [n_result fn_o65] /\
  Forall (fun b => ~ In (n_result fn_o65) (binds_query (snd b) ++ binds (fst (fst b)) ++ binds (snd (fst b)))) src_o.
Proof.
  assert (NI : forall x l, memb x l = false -> ~ In x l) by (intros x l H I; apply memb_in in I; congruence).
  cbv zeta. repeat match goal with |- _ /\ _ => split end.
  - repeat (apply Forall_cons || apply Forall_nil); (split; [cbn; intuition (try discriminate)|]; split; [cbn; intuition (try discriminate)|apply unmade_plain; vm_compute; reflexivity]).
  - intros t H. injection H as <-. cbn. intuition.
  - split; [apply unmade_tmp; lia|]. repeat constructor; apply NI; vm_compute; reflexivity.
  - intros j d I _. vm_compute in I. destruct I as [I|[]]. injection I as <- _. split; [apply (unmade_tmp 100 $"fresh" 0); lia|]. repeat constructor; apply NI; vm_compute; reflexivity.
  - repeat (apply Forall_cons || apply Forall_nil); (split; [cbn; intuition (try discriminate)|]; split; [cbn; intuition (try discriminate)|apply unmade_plain; vm_compute; reflexivity]).
  - split; [apply unmade_tmp; lia|]. repeat constructor; apply NI; vm_compute; reflexivity.
  - repeat (apply Forall_cons || apply Forall_nil); (split; [cbn; intuition (try discriminate)|]; split; [cbn; intuition (try discriminate)|]; split; [cbn; intuition (try discriminate)|apply unmade_plain; vm_compute; reflexivity]).
  - apply unmade_tmp. lia.
  - repeat constructor; apply NI; vm_compute; reflexivity.
Qed.

(** A single term. *)
Definition dot_bundle : bundle :=
  {| b_data := VObject []; b_name_to_func := []; b_name_to_plan := []; b_plans := []; b_functions := []; b_strings := [$"a"]; b_locals := 4%N; b_query_plan := None |}.
Definition dot_slot (x : str) : Z := if str_eqb x $"x" then 2 else 3.
Example C65_term_meets : let E := env65 dot_bundle in let L := [$"x"; tmp $"dot" 7] in let t := TmDot (TmVar $"x") (TmString (q_ $"a")) in
  let s := set_frame [None; None; Some (obj65 [($"a", VNull)]); None] (set_stack [$"g"] [2] (init_state 4)) in
  let rho := fun x => if str_eqb x $"x" then Some (obj65 [($"a", VNull)]) else None in
  let o := Ob (OLocal (tmp $"dot" 7)) [IDot (OLocal $"x") (OString $"a") (tmp $"dot" 7)] in let b := [Stmt SDot (loc 2) (Op TString 0) 3 None] in
  own_frame E $"g" 4 dot_slot L /\ lower 7 t = (8%nat, o) /\ safe [$"x"] t /\ unmade 7 (binds t) /\ unmade 7 [$"x"] /\
  own_code E (fun _ => 0) L (ob_code o) /\ own_op E (fun _ => 0) L (ob_op o) /\ opt_list says b = Some (img dot_slot (fun _ => 0) (ob_code o)) /\
  at_work $"g" 4 dot_slot [$"x"] rho s /\ exists s', run_stmts E (run_block E 5) b CContinue s = Done CContinue s' /\ value_at E s' (OLocal 3) = Some VNull.
Proof.
  cbv zeta. repeat match goal with |- _ /\ _ => split end.
  - constructor; [vm_compute; discriminate| |].
    + intros x I. split; [destruct I as [<-|[<-|[]]]; vm_compute; split; (discriminate || reflexivity)|]. intros name i f _ H. discriminate.
    + intros x y [<-|[<-|[]]] [<-|[<-|[]]] H; try reflexivity; discriminate.
  - reflexivity.
  - cbn. auto.
  - apply unmade_plain. reflexivity.
  - apply unmade_plain. reflexivity.
  - split; [intros y I; cbn in *; tauto|]. split; [intros u [<-|[]]; reflexivity|intros f x [I|[]]; discriminate I].
  - split; [intros y I; cbn in *; tauto|intros u []].
  - vm_compute. reflexivity.
  - split; [now left|]. split; [vm_compute; discriminate|]. intros x [<-|[]]. eexists. split; reflexivity.
  - eexists. split; vm_compute; reflexivity.
Qed.

(** *** What fails *)
Definition only (defs : list (list (term * TermModel.query))) : prog := policy [rule_fn $"p" (tmp $"return" 10) (snd (complete_rule 100 defs None))].
Definition asks_for (p : prog) (input : option value) : option (outcome output) :=
  match build p with Ok b => Some (run_entrypoint (env65 b) $"p" input) | _ => None end.
Definition means (defs : list (list (term * TermModel.query))) (input : option value) : option value :=
  rule_means ValueSpec.fops0 call65 (fun _ => None) (asked_values input (VObject [])) defs None.

(** A literal that assigns something undefined, such as the input when there is none, holds: `p if { x := input }` is true. *)
Theorem C65_undefined_refuted : let defs := [[(TmBool true, QAssign $"x" (TmVar $"input") QEnd)]] in
  means defs None = None /\ asks_for (only defs) None = Some (Ok (answer [VTrue])).
Proof. split; vm_compute; reflexivity. Qed.
(** An object with an undefined value has an error in its place and is defined: `p := {"a": input}`. *)
Theorem C65_object_refuted : let defs := [[(TmObject (Item (TmString (q_ $"a")) (TmVar $"input") NoItems), QEnd)]] in
  means defs None = None /\ asks_for (only defs) None = Some (Ok (answer [obj65 [($"a", VErr WellFormedError)]])).
Proof. split; vm_compute; reflexivity. Qed.
(** A comparison inside an expression that is not part of an assignment has no value if it is false: `p if { [1 == 2] }` is
    undefined, but `p if { [false] }` is true. *)
Theorem C65_equals_refuted : let defs e := [[(TmBool true, QExpr (TmArray (TCons e TNil)) QEnd)]] in
  asks_for (only (defs (TmEqual (TmNumber $"1") (TmNumber $"2")))) None = Some (Ok (answer [])) /\
  asks_for (only (defs (TmBool false))) None = Some (Ok (answer [VTrue])).
Proof. split; vm_compute; reflexivity. Qed.

Print Assumptions C65_term.
Print Assumptions C65_query.
Print Assumptions C65_scope.
Print Assumptions C65_complete.
Print Assumptions C65_set.
Print Assumptions C65_object.
Print Assumptions C65_ask_partial.
Print Assumptions C65_undefined_refuted.
Print Assumptions C65_object_refuted.
Print Assumptions C65_equals_refuted.
