(** C65: policies whose rules refer to each other mean what the language says. *)
From Coq Require Import String ZArith NArith List Bool Lia.
From Verif Require Import Base BigIntSpec SMap ValueModel ResolverModel VmModel VmSpec VmStmtProofs VmTheorems PlanModel PlanSpec PlanProofs PlanBuildProofs PlanTheorems
  RuleModel RuleSpec RuleProofs RuleBuiltProofs RuleQueryProofs RuleTheorems TermModel TermSpec TermStaticProofs TermRunProofs TermScopeProofs TermRuleProofs TermPlainProofs TermBuiltProofs TermPolicyProofs TermTheorems ValueSpec.
Import ListNotations.
Local Open Scope Z_scope.

(** Whatever order rules are evaluated in and however often one is called, the answer for a rule is its value, and this is the one
    value that the sources of the rules give it. *)
Theorem C65_policy_partial : forall p b, compiled p -> moderate p -> build p = Ok b ->
  forall E call, e_bundle E = b -> answers E call ->
  forall rank src, linked_policy E p rank src ->
  forall input rules, policy_values (e_fops E) call p src input rules ->
  forall pl obj index val x e args f r, entry_of p pl obj index val x e -> ~ reserved x -> ob_code e = [ICall (n_name f) args x] -> In f (g_fns p) ->
  run_entrypoint E (l_name pl) (Some input) = Ok r ->
  r = QError \/ (exists es, es <> [] /\ r = QErrors es) \/
  exists vs, RuleSpec.gives (l_name pl) (rules (n_name f)) vs /\ r = answer vs.
Proof. intros p b C M B E call HE HA rank src PO input rules PV pl obj index val x e args f r. exact (policy_query p C M b B E HE call HA rank src PO input rules PV pl obj index val x e args f r). Qed.

(** Rules that do not refer to themselves have values, and these are determined by the sources. *)
Theorem C65_values : forall F call p rank src input, ranked p rank src ->
  exists rules, policy_values F call p src input rules /\
  forall rules', policy_values F call p src input rules' -> forall f, In f (g_fns p) -> rules' (n_name f) = rules (n_name f).
Proof.
  intros F call p rank src input RK. exists (fun g => values_to F call p src input (S (rank g)) g). split; [exact (values_exist F call p rank src input RK)|].
  intros rules' P f I. symmetry. exact (values_unique F call p rank src input RK _ _ (values_exist F call p rank src input RK) P f I).
Qed.

(** *** An instance *)

(** base := input.a
    p := [base, input.b] if { not base == 2 }
    default p := "none"
    q := [x | some _, x in p]
    s contains x if { some _, x in q }
    s contains base
    o[x] := p if { some _, x in s }
    r := o[base] if { some _, _ in s } *)
Definition src_base : rule_src := SrcValue [[(member $"a", QEnd)]] None.
Definition src_p66 : rule_src :=
  SrcValue [[(TmArray (TCons (TmRule $"base") (TCons (member $"b") TNil)), QNot (QExpr (TmEqual (TmRule $"base") (TmNumber $"2")) QEnd) QEnd)]] (Some (TmString (q_ $"none"))).
Definition src_q66 : rule_src := SrcValue [[(TmArrayCompr (TmVar $"x") (QScan (TmRule $"p") $"k" $"x" QEnd), QEnd)]] None.
Definition src_s66 : rule_src := SrcSet [(TmVar $"x", QScan (TmRule $"q") $"k" $"x" QEnd); (TmRule $"base", QEnd)].
Definition src_o66 : rule_src := SrcObject [(TmVar $"x", TmRule $"p", QScan (TmRule $"s") $"k" $"x" QEnd)].
Definition src_r66 : rule_src := SrcValue [[(TmDot (TmRule $"o") (TmRule $"base"), QScan (TmRule $"s") $"k" $"x" QEnd)]] None.
Definition src66 (f : str) : rule_src :=
  if str_eqb f $"base" then src_base else if str_eqb f $"p" then src_p66 else if str_eqb f $"q" then src_q66
  else if str_eqb f $"s" then src_s66 else if str_eqb f $"o" then src_o66 else src_r66.
Definition rank66 (f : str) : nat :=
  if str_eqb f $"base" then 0 else if str_eqb f $"p" then 1 else if str_eqb f $"q" then 2 else if str_eqb f $"s" then 3 else if str_eqb f $"o" then 4 else 5.
Definition rule66 (k : nat) (r : rule_src) : list rbody :=
  match r with SrcValue defs def => snd (complete_rule k defs def) | SrcSet l => snd (set_rule k l) | SrcObject l => snd (object_rule k l) end.
Definition fn_base := rule_fn $"base" (tmp $"return" 10) (rule66 100 src_base).
Definition fn_p66 := rule_fn $"p" (tmp $"return" 11) (rule66 200 src_p66).
Definition fn_q66 := rule_fn $"q" (tmp $"return" 12) (rule66 300 src_q66).
Definition fn_s66 := rule_fn $"s" (tmp $"return" 13) (rule66 400 src_s66).
Definition fn_o66 := rule_fn $"o" (tmp $"return" 14) (rule66 500 src_o66).
Definition fn_r66 := rule_fn $"r" (tmp $"return" 15) (rule66 600 src_r66).
Definition policy66 : prog := policy [fn_base; fn_p66; fn_q66; fn_s66; fn_o66; fn_r66].

Example policy66_answers : exists b, build policy66 = Ok b /\ verify b = Ok tt /\
  let ask name input := run_entrypoint (env65 b) name (Some input) in
  let one v := Ok (answer [v]) in
  let i n := VInt (dec n) in
  ask $"base" (obj65 [($"a", i 1); ($"b", i 3)]) = one (i 1) /\
  ask $"p" (obj65 [($"a", i 1); ($"b", i 3)]) = one (VArray [i 1; i 3]) /\
  ask $"p" (obj65 [($"a", i 2); ($"b", i 3)]) = one (VString $"none") /\
  ask $"p" (obj65 [($"b", i 3)]) = one (VString $"none") /\
  ask $"q" (obj65 [($"a", i 1); ($"b", i 3)]) = one (VArray [i 1; i 3]) /\
  ask $"q" (obj65 [($"a", i 2); ($"b", i 3)]) = one (VArray []) /\
  ask $"s" (obj65 [($"a", i 1); ($"b", i 3)]) = one (VSet [i 1; i 3]) /\
  ask $"s" (obj65 [($"a", i 2); ($"b", i 3)]) = one (VSet [i 2]) /\
  ask $"o" (obj65 [($"a", i 1); ($"b", i 3)]) = one (VObject [(i 1, VArray [i 1; i 3]); (i 3, VArray [i 1; i 3])]) /\
  ask $"o" (obj65 [($"b", i 3)]) = one (VObject []) /\
  ask $"r" (obj65 [($"a", i 1); ($"b", i 3)]) = one (VArray [i 1; i 3]).
Proof. eexists. split; [vm_compute; reflexivity|]. split; [vm_compute; reflexivity|]. vm_compute. auto 20. Qed.

(** Everything the theorems ask for is met. *)
Definition linkedb (p : prog) (rank : str -> nat) (f : str) (returns : bool) (d : deed str) : bool :=
  match d with
  | DWrite x => negb (reservedb x)
  | DCall g x => (str_eqb g $"pair" && negb (str_eqb (firstn 4 x) $"var$")) ||
                 (existsb (fun k => str_eqb x (tmp $"var" k)) (seq 100 600) && Nat.ltb (rank g) (rank f) && existsb (fun h => str_eqb (n_name h) g) (g_fns p))
  | DReturn => returns
  | DOther => false
  end.
Lemma linkedb_ok b p rank f returns d : linkedb p rank f returns d = true -> linked (env65 b) p rank f returns d.
Proof.
  destruct d as [x|g x| |]; cbn [linkedb linked]; intro H.
  - intro R. apply reservedb_spec in R. rewrite R in H. discriminate.
  - apply orb_true_iff in H as [H|H]; apply andb_true_iff in H as [H H2].
    + left. change (e_builtin (env65 b) g) with (if str_eqb g $"pair" then Some pair_builtin else None). rewrite H. split; [discriminate|]. intros (k & ->). discriminate H2.
    + right. apply andb_true_iff in H as [H H3]. apply existsb_exists in H as (k & _ & H). apply str_eqb_eq in H. split; [now exists k|].
      split; [now apply Nat.ltb_lt|]. apply existsb_exists in H2 as (h & I & E). apply str_eqb_eq in E. now exists h.
  - exact H.
  - discriminate.
Qed.
Definition linked_ruleb (p : prog) (rank : str -> nat) (i : nat) (f : fn str str) (y : nat -> str) (l : list rbody) : bool :=
  let code := rules_code (n_result f) y 0 l in
  negb (str_eqb (n_name f) $"pair") &&
  forallb (fun x => memb x (flat_map locals_in (fn_body f))) (flat_map locals_in code) &&
  forallb (fun x => memb x (flat_map strings_in (fn_body f))) (flat_map strings_in code) &&
  forallb (linkedb p rank (n_name f) false) (flat_map deeds code) &&
  forallb (linkedb p rank (n_name f) true) (flat_map deeds (fn_body f)) &&
  forallb (fun jg => Nat.eqb (fst jg) i ||
    forallb (fun x => negb (memb x (flat_map locals_in (fn_body f))) || negb (existsb (Z.eqb 36) x)) (flat_map writes (fn_body (snd jg))))
    (numbered_fns (g_fns p)).
Lemma linked_ruleb_ok b p rank i f k r : linked_ruleb p rank i f (fun j => fresh0 j 0%nat 0%nat) (rule66 k r) = true ->
  rule_of p i f fresh0 $"bodyobj$" (rule66 k r) -> n_params f = [$"input"; $"data"] ->
  match r with SrcValue _ _ => True | SrcSet l => l <> [] | SrcObject l => l <> [] end ->
  good_src k [$"input"; $"data"] (n_result f) (fun j => fresh0 j 0%nat 0%nat) r (rule66 k r) ->
  linked_rule (env65 b) p rank i f fresh0 $"bodyobj$" k r (rule66 k r).
Proof.
  unfold linked_ruleb. cbv zeta. rewrite !andb_true_iff, !forallb_forall. intros [[[[[H0 H1] H2] H3] H4] H5] R P NE G. constructor; try assumption.
  - destruct r as [defs def|l|l]; unfold rule66; cbn [src_bodies]; [|split; [exact NE|]..].
    + destruct (complete_rule k defs def) as [k' l]. now exists k'.
    + destruct (set_rule k l) as [k' bs]. now exists k'.
    + destruct (object_rule k l) as [k' bs]. now exists k'.
  - change (e_builtin (env65 b) (n_name f)) with (if str_eqb (n_name f) $"pair" then Some pair_builtin else None). apply negb_true_iff in H0. now rewrite H0.
  - intros x I. now apply memb_in, H1.
  - intros x I. now apply memb_in, H2.
  - intros d I. now apply linkedb_ok, H3.
  - intros d I. now apply linkedb_ok, H4.
  - intros x j g I N Hg HR J. specialize (H5 (j, g) (nth_error_In _ _ (numbered_nth p _ _ Hg))). cbn [fst snd] in H5.
    apply orb_true_iff in H5 as [H5|H5]; [apply Nat.eqb_eq in H5; contradiction|]. rewrite forallb_forall in H5. specialize (H5 x J).
    apply orb_true_iff in H5 as [H5|H5]; apply negb_true_iff in H5; [apply memb_in in I; congruence|].
    assert (T : existsb (Z.eqb 36) x = true) by (apply existsb_exists; exists 36; split; [exact HR|reflexivity]). congruence.
Qed.
Ltac good_heads := repeat (apply Forall_cons || apply Forall_nil); repeat (split; [cbn; intuition (try discriminate)|]); apply unmade_plain; vm_compute; reflexivity.
Example policy66_meets : compiled policy66 /\ moderate policy66 /\ ranked policy66 rank66 src66 /\
  (forall b, answers (env65 b) call65 /\ linked_policy (env65 b) policy66 rank66 src66) /\
  (forall f, In f [fn_base; fn_p66; fn_q66; fn_s66; fn_o66; fn_r66] -> In f (g_fns policy66) /\
     let name := n_name f in entry_of policy66 (entry65 name) ($"obj$" ++ name) $"i$" $"v$" ($"call$" ++ name) (call0 name ($"call$" ++ name))).
Proof.
  assert (NI : forall x l, memb x l = false -> ~ In x l) by (intros x l H I; apply memb_in in I; congruence).
  split; [|split; [vm_compute; split; discriminate|split; [|split]]].
  - apply compiledb_ok; [vm_compute; reflexivity|].
    apply Forall_forall. intros st I. vm_compute in I. repeat destruct I as [<-|I]; try destruct I; cbn; repeat split; auto.
    all: exists false; (exists [49] + exists [50]); split; [reflexivity|]; split; [discriminate|]; split; [repeat constructor; discriminate|vm_compute; split; [discriminate|reflexivity]].
  - assert (K : forall f g, In f (g_fns policy66) -> In g (rule_refs (src66 (n_name f))) ->
      Nat.ltb (rank66 g) (rank66 (n_name f)) && existsb (fun h => str_eqb (n_name h) g) (g_fns policy66) = true).
    { intros f g If Ig. repeat destruct If as [<-|If]; try destruct If; vm_compute in Ig; repeat destruct Ig as [<-|Ig]; try destruct Ig; vm_compute; reflexivity. }
    intros f g If Ig. specialize (K f g If Ig). apply andb_true_iff in K as [K1 K2]. split; [now apply Nat.ltb_lt|].
    apply existsb_exists in K2 as (h & Ih & Q). apply str_eqb_eq in Q. now exists h.
  - intro b. split.
    + intros f b' m vs r H H2. change (e_builtin (env65 b) f) with (if str_eqb f $"pair" then Some pair_builtin else None) in H. destruct (str_eqb f $"pair"); [|discriminate]. injection H as <-. injection H2 as <-. unfold call65. do 2 f_equal.
      rewrite map_map. apply map_id.
    + intros i f Hf. destruct i as [|[|[|[|[|[|i]]]]]]; [| | | | | |destruct i; discriminate Hf]; injection Hf as <-.
      * exists fresh0, $"bodyobj$", 100%nat, (rule66 100 src_base). apply (linked_ruleb_ok b policy66 rank66 0 fn_base 100 src_base); [vm_compute; reflexivity|apply rule_ofb_ok; vm_compute; reflexivity|reflexivity|exact I|]. split; [|split; [|split]].
        -- apply Forall_cons; [good_heads|apply Forall_nil].
        -- intros t H. discriminate H.
        -- split; [apply unmade_tmp; lia|]. repeat constructor; apply NI; vm_compute; reflexivity.
        -- intros j d I L. vm_compute in I. destruct I as [I|[]]. injection I as <- <-. cbn in L. lia.
      * exists fresh0, $"bodyobj$", 200%nat, (rule66 200 src_p66). apply (linked_ruleb_ok b policy66 rank66 1 fn_p66 200 src_p66); [vm_compute; reflexivity|apply rule_ofb_ok; vm_compute; reflexivity|reflexivity|exact I|]. split; [|split; [|split]].
        -- apply Forall_cons; [good_heads|apply Forall_nil].
        -- intros t H. injection H as <-. cbn. auto.
        -- split; [apply unmade_tmp; lia|]. repeat constructor; apply NI; vm_compute; reflexivity.
        -- intros j d I L. vm_compute in I. destruct I as [I|[]]. injection I as <- <-. cbn in L. lia.
      * exists fresh0, $"bodyobj$", 300%nat, (rule66 300 src_q66). apply (linked_ruleb_ok b policy66 rank66 2 fn_q66 300 src_q66); [vm_compute; reflexivity|apply rule_ofb_ok; vm_compute; reflexivity|reflexivity|exact I|]. split; [|split; [|split]].
        -- apply Forall_cons; [good_heads|apply Forall_nil].
        -- intros t H. discriminate H.
        -- split; [apply unmade_tmp; lia|]. repeat constructor; apply NI; vm_compute; reflexivity.
        -- intros j d I L. vm_compute in I. destruct I as [I|[]]. injection I as <- <-. cbn in L. lia.
      * exists fresh0, $"bodyobj$", 400%nat, (rule66 400 src_s66). apply (linked_ruleb_ok b policy66 rank66 3 fn_s66 400 src_s66); [vm_compute; reflexivity|apply rule_ofb_ok; vm_compute; reflexivity|reflexivity|discriminate|]. split; [|split].
        -- good_heads.
        -- apply unmade_tmp. lia.
        -- repeat constructor; apply NI; vm_compute; reflexivity.
      * exists fresh0, $"bodyobj$", 500%nat, (rule66 500 src_o66). apply (linked_ruleb_ok b policy66 rank66 4 fn_o66 500 src_o66); [vm_compute; reflexivity|apply rule_ofb_ok; vm_compute; reflexivity|reflexivity|discriminate|]. split; [|split].
        -- good_heads.
        -- apply unmade_tmp. lia.
        -- repeat constructor; apply NI; vm_compute; reflexivity.
      * exists fresh0, $"bodyobj$", 600%nat, (rule66 600 src_r66). apply (linked_ruleb_ok b policy66 rank66 5 fn_r66 600 src_r66); [vm_compute; reflexivity|apply rule_ofb_ok; vm_compute; reflexivity|reflexivity|exact I|]. split; [|split; [|split]].
        -- apply Forall_cons; [good_heads|apply Forall_nil].
        -- intros t H. discriminate H.
        -- split; [apply unmade_tmp; lia|]. repeat constructor; apply NI; vm_compute; reflexivity.
        -- intros j d I L. vm_compute in I. destruct I as [I|[]]. injection I as <- <-. cbn in L. lia.
  - intros f I. assert (F : f = fn_base \/ f = fn_p66 \/ f = fn_q66 \/ f = fn_s66 \/ f = fn_o66 \/ f = fn_r66) by (destruct I as [<-|[<-|[<-|[<-|[<-|[<-|[]]]]]]]; auto 10). split; [exact I|].
    cbv zeta. apply entry_ofb_ok; destruct F as [->|[->|[->|[->|[->| ->]]]]]; try (vm_compute; reflexivity); cbn; auto 15.
Qed.
(** The values that C65_values gives this policy. *)
Example policy66_values : let i n := VInt (dec n) in let input := obj65 [($"a", i 1); ($"b", i 3)] in
  exists rules, policy_values ValueSpec.fops0 call65 policy66 src66 input rules /\
  rules $"base" = Some (i 1) /\ rules $"p" = Some (VArray [i 1; i 3]) /\ rules $"q" = Some (VArray [i 1; i 3]) /\
  rules $"s" = Some (VSet [i 1; i 3]) /\ rules $"o" = Some (VObject [(i 1, VArray [i 1; i 3]); (i 3, VArray [i 1; i 3])]) /\
  rules $"r" = Some (VArray [i 1; i 3]).
Proof.
  cbv zeta. eexists. split; [exact (values_exist ValueSpec.fops0 call65 policy66 rank66 src66 _ (proj1 (proj2 (proj2 policy66_meets))))|]. vm_compute. auto 10.
Qed.

Print Assumptions C65_policy_partial.
Print Assumptions C65_values.
