(** What the rules compiled from terms and queries compute. *)
From Coq Require Import String ZArith List Bool Lia.
From Verif Require Import Base BigIntSpec BigIntModel DecFacts SMap ValueModel ValueSpec ResolverModel VmModel VmSpec VmProofs VmSimProofs VmStmtProofs
  PlanModel PlanSpec PlanProofs RuleModel RuleSpec RuleVmProofs RuleVisitProofs RuleProofs RuleCompleteProofs RuleFnProofs RuleObjProofs RuleEntryProofs RuleBuiltProofs QueryModel QuerySpec QueryProofs
  TermModel TermSpec TermStaticProofs TermVmProofs TermCalmProofs TermRunProofs TermScopeProofs.
Import ListNotations.
Local Open Scope Z_scope.

(** ** Constants *)
Section Constants.
Variable F : fops.
Variable call : str -> list value -> value.
Variable rules : str -> option value.
Lemma constant_all :
  (forall t, constant t = true -> binds t = [] /\ (forall D D', safe D t -> safe D' t) /\ forall r r', eval F call rules r t = eval F call rules r' t) /\
  (forall l, constants l = true -> binds_list l = [] /\ (forall D D', safes D l -> safes D' l) /\ forall r r', evals F call rules r l = evals F call rules r' l) /\
  (forall l, constant_items l = true -> binds_items l = [] /\ (forall D D', safe_items D l -> safe_items D' l) /\ forall r r', eval_items F call rules r l = eval_items F call rules r' l) /\
  (forall q : TermModel.query, True).
Proof.
  apply term_comb; try (intros; discriminate); try (intros; exact I).
  - intros t _. repeat split. auto.
  - intros t _. repeat split.
  - intros b _. repeat split.
  - intros _. repeat split.
  - intros l IH H. destruct (IH H) as (A & B & C). split; [exact A|]. split; [exact B|]. intros r r'.
    change (option_map VArray (evals F call rules r l) = option_map VArray (evals F call rules r' l)). now rewrite (C r r').
  - intros l IH H. destruct (IH H) as (A & B & C). split; [exact A|]. split; [exact B|]. intros r r'.
    change (option_map (fun vs => VSet (fold_left (add_member F) vs [])) (evals F call rules r l) = option_map (fun vs => VSet (fold_left (add_member F) vs [])) (evals F call rules r' l)).
    now rewrite (C r r').
  - intros l IH H. destruct (IH H) as (A & B & C). split; [exact A|]. split; [exact B|]. intros r r'.
    change (option_map (fun kvs => VObject (fold_left (fun o kv => put_item F o (fst kv) (snd kv)) kvs [])) (eval_items F call rules r l) =
            option_map (fun kvs => VObject (fold_left (fun o kv => put_item F o (fst kv) (snd kv)) kvs [])) (eval_items F call rules r' l)).
    now rewrite (C r r').
  - intros _. repeat split.
  - intros t IHt l IHl H. cbn [constants] in H. apply andb_prop in H as [H1 H2]. destruct (IHt H1) as (A & B & C), (IHl H2) as (A' & B' & C').
    split; [cbn [binds_list]; now rewrite A, A'|]. split; [intros D D' [P Q]; split; [exact (B D D' P)|exact (B' D D' Q)]|]. intros r r'.
    change (match eval F call rules r t, evals F call rules r l with Some v, Some vs => Some (v :: vs) | _, _ => None end =
            match eval F call rules r' t, evals F call rules r' l with Some v, Some vs => Some (v :: vs) | _, _ => None end). now rewrite (C r r'), (C' r r').
  - intros _. repeat split.
  - intros k IHk v IHv l IHl H. cbn [constant_items] in H. apply andb_prop in H as [H H3]. apply andb_prop in H as [H1 H2].
    destruct (IHk H1) as (A & B & C), (IHv H2) as (A1 & B1 & C1), (IHl H3) as (A' & B' & C').
    split; [cbn [binds_items]; now rewrite A, A1, A'|]. split; [intros D D' (P & P1 & Q); split; [exact (B D D' P)|split; [exact (B1 D D' P1)|exact (B' D D' Q)]]|]. intros r r'.
    change (match eval F call rules r k, eval F call rules r v, eval_items F call rules r l with Some x, Some y, Some z => Some ((x, y) :: z) | _, _, _ => None end =
            match eval F call rules r' k, eval F call rules r' v, eval_items F call rules r' l with Some x, Some y, Some z => Some ((x, y) :: z) | _, _, _ => None end).
    now rewrite (C r r'), (C1 r r'), (C' r r').
Qed.

End Constants.

(** ** Longer queries *)
Lemma scope_extend q2 : forall q D, scope D (extend q q2) = scope (scope D q) q2.
Proof. induction q; intro D; cbn [extend scope]; auto. Qed.
Lemma safe_extend q2 : forall q D, safe_query D q -> safe_query (scope D q) q2 -> safe_query D (extend q q2).
Proof. induction q; intros D; cbn [extend scope]; intros H G; [exact G|..]; cbn [safe_query] in *; intuition auto. Qed.
Lemma binds_extend q2 y : forall q, In y (binds_query (extend q q2)) <-> In y (binds_query q) \/ In y (binds_query q2).
Proof.
  induction q; cbn [extend]; [cbn; tauto|..]; cbn [binds_query]; rewrite ?in_app_iff; cbn [In]; rewrite ?in_app_iff, ?IHq, ?IHq2; tauto.
Qed.
Section Solutions.
Variable F : fops.
Variable call : str -> list value -> value.
Variable rules : str -> option value.
Notation sl := (sols F call rules).
Lemma flat_map_flat {A B C} (f : A -> list B) (g : B -> list C) l : flat_map g (flat_map f l) = flat_map (fun a => flat_map g (f a)) l.
Proof. induction l as [|a l IH]; [reflexivity|]. cbn [flat_map]. now rewrite flat_map_app, IH. Qed.
Lemma sols_extend q2 : forall q rho, sl rho (extend q q2) = flat_map (fun r => sl r q2) (sl rho q).
Proof.
  induction q; intros rho; cbn [extend].
  - cbn [flat_map]. symmetry. exact (app_nil_r _).
  - change (match eval F call rules rho t with Some v => if holds F v then sl rho (extend q q2) else [] | None => [] end =
      flat_map (fun r => sl r q2) (match eval F call rules rho t with Some v => if holds F v then sl rho q else [] | None => [] end)).
    destruct (eval F call rules rho t) as [v|]; [|reflexivity]. destruct (holds F v); [apply IHq|reflexivity].
  - change (match eval F call rules rho t with Some v => sl (bind_var x v rho) (extend q q2) | None => [] end =
      flat_map (fun r => sl r q2) (match eval F call rules rho t with Some v => sl (bind_var x v rho) q | None => [] end)).
    destruct (eval F call rules rho t) as [v|]; [apply IHq|reflexivity].
  - change (match sl rho q1 with [] => sl rho (extend q3 q2) | _ => [] end = flat_map (fun r => sl r q2) (match sl rho q1 with [] => sl rho q3 | _ => [] end)).
    destruct (sl rho q1); [apply IHq2|reflexivity].
  - cbn [sols]. destruct (rho dom) as [d|]; [|reflexivity]. destruct (elements d) as [l|]; [|reflexivity]. destruct (forallb _ l); [apply IHq2|reflexivity].
  - change (match eval F call rules rho t with Some d => match elements d with Some l => flat_map (fun kv => sl (bind_var val (snd kv) (bind_var key (fst kv) rho)) (extend q q2)) l | None => [] end | None => [] end =
      flat_map (fun r => sl r q2) (match eval F call rules rho t with Some d => match elements d with Some l => flat_map (fun kv => sl (bind_var val (snd kv) (bind_var key (fst kv) rho)) q) l | None => [] end | None => [] end)).
    destruct (eval F call rules rho t) as [d|]; [|reflexivity]. destruct (elements d) as [l|]; [|reflexivity]. rewrite flat_map_flat. apply flat_map_ext. intro a. apply IHq.
Qed.
Lemma sols_assign rho x e : sl rho (QAssign x e QEnd) = match eval F call rules rho e with Some v => [bind_var x v rho] | None => [] end.
Proof. reflexivity. Qed.
End Solutions.

Section Defined.
Variable F : fops.
Variable call : str -> list value -> value.
Variable rules : str -> option value.
Lemma constant_defined :
  (forall t, constant t = true -> forall r, exists v, eval F call rules r t = Some v) /\
  (forall l, constants l = true -> forall r, exists v, evals F call rules r l = Some v) /\
  (forall l, constant_items l = true -> forall r, exists v, eval_items F call rules r l = Some v) /\
  (forall q : TermModel.query, True).
Proof.
  apply term_comb; try (intros; discriminate); try (intros; exact I); try (intros; eexists; reflexivity).
  - intros l IH H r. destruct (IH H r) as (v & E). exists (VArray v). change (option_map VArray (evals F call rules r l) = Some (VArray v)). now rewrite E.
  - intros l IH H r. destruct (IH H r) as (v & E). exists (VSet (fold_left (add_member F) v [])).
    change (option_map (fun vs => VSet (fold_left (add_member F) vs [])) (evals F call rules r l) = Some (VSet (fold_left (add_member F) v []))). now rewrite E.
  - intros l IH H r. destruct (IH H r) as (v & E). exists (VObject (fold_left (fun o kv => put_item F o (fst kv) (snd kv)) v [])).
    change (option_map (fun kvs => VObject (fold_left (fun o kv => put_item F o (fst kv) (snd kv)) kvs [])) (eval_items F call rules r l) = Some (VObject (fold_left (fun o kv => put_item F o (fst kv) (snd kv)) v []))). now rewrite E.
  - intros t IHt l IHl H r. cbn [constants] in H. apply andb_prop in H as [H1 H2]. destruct (IHt H1 r) as (v & E), (IHl H2 r) as (vs & E'). exists (v :: vs).
    change (match eval F call rules r t, evals F call rules r l with Some v, Some vs => Some (v :: vs) | _, _ => None end = Some (v :: vs)). now rewrite E, E'.
  - intros k IHk v IHv l IHl H r. cbn [constant_items] in H. apply andb_prop in H as [H H3]. apply andb_prop in H as [H1 H2].
    destruct (IHk H1 r) as (a & E), (IHv H2 r) as (b & E1), (IHl H3 r) as (vs & E'). exists ((a, b) :: vs).
    change (match eval F call rules r k, eval F call rules r v, eval_items F call rules r l with Some x, Some y, Some z => Some ((x, y) :: z) | _, _, _ => None end = Some ((a, b) :: vs)).
    now rewrite E, E1, E'.
Qed.
End Defined.

Section Rules.
Variable E : env.
Variable fn : str.
Variable n : Z.
Hypothesis NR : n <= 2 ^ 64.
Variables num sg : str -> Z.
Variable L : list str.
Hypothesis HL : forall x, In x L -> 0 <= num x < n /\ unshared E fn n (num x).
Hypothesis HI : forall x y, In x L -> In y L -> num x = num y -> x = y.
Variables ok sane : state -> Prop.
Hypothesis ok_back : forall s s', errs s s' -> ok s' -> ok s.
Variable okd : deed str -> Prop.
Variable res : list str.
Notation fine := (TermRunProofs.fine E sg L okd).
Notation runs := (TermRunProofs.runs E num sg ok).
Hypothesis sane_quiet : forall xs s s', quiet xs s s' -> (forall i, In i xs -> exists x, i = num x /\ mine L res x) -> sane s -> sane s'.
Hypothesis sane_run : forall l m b s c s', fine l -> opt_list says b = Some (img num sg l) -> run_stmts E (run_block E m) b CContinue s = Done c s' -> good c -> ok s' ->
  sane s -> sane s'.
Hypothesis sane_meet : forall l tail m kb b s ts c s', fine l -> fine tail -> opt_list says kb = Some (img num sg tail) -> opt_list says b = Some (img num sg l) ->
  visits E kb m b s ts c s' -> good c -> ok s' -> sane s -> sane s'.
Hypothesis sane_not : forall l m b s c s', fine l -> forallb calm l = true -> opt_list says b = Some (img num sg l) -> run_block E m b s = Done c s' -> ok s' -> sane s ->
  good c \/ c = CError \/ c = CTimeout.
Hypothesis okd_call : forall f x, okd (DCall f x) -> (e_builtin E f <> None /\ ~ rule_var x) \/ rule_var x.
Variable rules : str -> option value.
Hypothesis rule_run : forall f k s c s', okd (DCall f (tmp $"var" k)) -> In (tmp $"var" k) L ->
  runs [ICall f [OLocal $"input"; OLocal $"data"] (tmp $"var" k)] s c s' -> live fn n sane s ->
  match rules f with Some v => c = CContinue /\ local s' (num (tmp $"var" k)) = Some (Some v) | None => c = CUndefined end.
Variable call : str -> list value -> value.
Hypothesis HA : answers E call.
Notation ev := (eval (e_fops E) call rules).
Notation sol := (sols (e_fops E) call rules).
Notation fine_op := (TermRunProofs.fine_op E sg L).
Notation ctx := (TermRunProofs.ctx fn n num L sane res).
Notation meets := (TermRunProofs.meets E num sg ok).
Notation iop := (iop num sg).
Notation asks := (asks E num sg).

Lemma dt t : dyn_term E fn n num sg L ok sane okd res rules call t.
Proof. exact (proj1 (dyn_all E fn n NR num sg L HL HI ok sane ok_back okd res sane_quiet sane_run sane_meet sane_not okd_call rules rule_run call HA) t). Qed.
Lemma dq q : dyn_query E fn n num sg L ok sane okd res rules call q.
Proof. exact (proj2 (proj2 (proj2 (dyn_all E fn n NR num sg L HL HI ok sane ok_back okd res sane_quiet sane_run sane_meet sane_not okd_call rules rule_run call HA))) q). Qed.

Lemma ctx_changed k D rho s s' xs : ctx k D rho s -> quiet xs s s' -> (forall x, In x D -> ~ In (num x) xs) -> (forall i, In i xs -> exists x, i = num x /\ mine L res x) -> ctx k D rho s'.
Proof.
  intros (A & B & (C1 & C2 & C3) & H) Q N M. split; [exact A|]. split; [exact B|]. split; [split; [|split]|].
  - now rewrite (quiet_stack _ _ _ Q).
  - unfold zlen in *. now rewrite (quiet_length _ _ _ Q).
  - eapply sane_quiet; eauto.
  - intros x I. destruct (H x I) as (v & P & R). exists v. split; [exact P|]. now rewrite (quiet_local _ _ _ _ Q (N x I)).
Qed.
Lemma ctx_quiet k D rho s s' : ctx k D rho s -> quiet [] s s' -> ctx k D rho s'.
Proof. intros H Q. eapply ctx_changed; eauto. intros i []. Qed.
Lemma ctx_but z k D rho s s' : ctx k D rho s -> quiet [num z] s s' -> In z L -> ~ In z D -> ctx k D rho s'.
Proof.
  intros H Q Lz N. eapply ctx_changed; eauto.
  - intros x I [J|[]]. apply N. rewrite (HI z x); auto. apply H, I.
  - intros i [<-|[]]. exists z. split; [reflexivity|]. split; [exact Lz|]. intro I. apply N, H, I.
Qed.
(** What has errors at the end has them from then on. *)
Lemma errs_quiet xs s s' : quiet xs s s' -> errs s s'.
Proof. intros (H & _). now apply errs_same. Qed.
Lemma errs_asks tail q s vs s' : asks tail q s vs s' -> errs s s'.
Proof.
  intros (m & kc & b & ts & c & s0 & s1 & _ & _ & Q0 & V & Q1 & _). eapply errs_trans; [eapply errs_quiet; exact Q0|].
  eapply errs_trans; [exact (proj1 (visits_errs E kc) _ _ _ _ _ _ V)|]. eapply errs_quiet; exact Q1.
Qed.
Lemma errs_each tail qs s vs s' : each_asked E num sg tail qs s vs s' -> errs s s'.
Proof. induction 1; [eapply errs_quiet; eauto|]. eapply errs_trans; [eapply errs_asks; eauto|auto]. Qed.
Lemma errs_search tail x qs s vs s' : search E num sg tail x qs s vs s' -> errs s s'.
Proof. induction 1; [eapply errs_quiet; eauto|eapply errs_trans; [eapply errs_quiet; eauto|auto]|]. eapply errs_trans; [eapply errs_asks; eauto|auto]. Qed.
Lemma errs_defines y ret d s vs s' : defines E num sg y ret d s vs s' -> errs s s'.
Proof.
  intro H. destruct H.
  - eapply errs_trans; [eapply errs_asks; eauto|eapply errs_search; eauto].
  - eapply errs_trans; [eapply errs_quiet; eauto|]. eapply errs_trans; [eapply errs_search; eauto|eapply errs_quiet; eauto].
Qed.
Lemma errs_all y ret l s vs s' : all_defined E num sg y ret l s vs s' -> errs s s'.
Proof. induction 1; [eapply errs_quiet; eauto|]. eapply errs_trans; [eapply errs_defines; eauto|auto]. Qed.
Lemma errs_finds x q s vs s' : finds E num sg x q s vs s' -> errs s s'.
Proof.
  destruct q as [[k v] cd]. intros (m & kc & b & ts & c & s0 & s1 & _ & _ & Q0 & V & Q1 & _). eapply errs_trans; [eapply errs_quiet; exact Q0|].
  eapply errs_trans; [exact (proj1 (visits_errs E kc) _ _ _ _ _ _ V)|]. eapply errs_quiet; exact Q1.
Qed.
Lemma errs_found x qs s vs s' : all_found E num sg x qs s vs s' -> errs s s'.
Proof. induction 1; [eapply errs_quiet; eauto|]. eapply errs_trans; [eapply errs_finds; eauto|auto]. Qed.

(** A variable that neither the code nor its tail writes, everywhere. *)
Lemma meets_steady l tail s ts c s' x : meets l tail s ts c s' -> In fn (s_stack s) -> fine l -> fine tail -> In x L -> ~ In x (flat_map writes l) ->
  ~ In x (flat_map writes tail) -> forall v, local s (num x) = Some v -> Forall (fun t => local t (num x) = Some v) ts.
Proof.
  intros H I HF HT Hx N1 N2 cur Ec.
  destruct (meets_fold E fn n NR num sg L HL HI ok ok_back okd x (fun v => v = cur) (fun a t _ => local t (num x) = Some a /\ a = cur) l tail s ts c s' cur) as (cur' & _ & _ & _ & Ch); auto.
  - intros t c1 t' cur1 HR It Lt ->. exists cur. split; [|auto]. rewrite <- Lt. eapply runs_keep; eauto.
  - clear - Ch. assert (G : forall a vs c, chain (fun a t _ => local t (num x) = Some a /\ a = cur) a vs c -> Forall (fun t => local t (num x) = Some cur) vs).
    { clear Ch. intros a vs d H. induction H as [|a t b us d [A A2] _ IH]; [constructor|]. constructor; [congruence|exact IH]. }
    eauto.
Qed.

Definition head_ok (D : list str) (q : TermModel.query) (h : term) : Prop :=
  (constant h = true /\ safe D h) \/ exists x, h = TmVar x /\ In x (scope D q).
Definition made (k : nat) (rho : vals) (h : term) (o : opblock) (s : state) : Prop :=
  constant h = true -> value_at E s (iop (ob_op o)) = ev rho h.

Lemma head_run k k1 h o D q rho s c s1 : lower k h = (k1, o) -> head_ok D q h -> ctx k D rho s -> fine (ob_code o) -> fine_op (ob_op o) -> runs (ob_code o) s c s1 ->
  c = CContinue /\ ctx k1 D rho s1 /\ (constant h = true -> value_at E s1 (iop (ob_op o)) = ev rho h).
Proof.
  intros HW [[HC HS]|(x & -> & I)] HX HF HO HR.
  - destruct (constant_all (e_fops E) call rules) as [K _]. destruct (K h HC) as (B & _ & _).
    destruct (constant_defined (e_fops E) call rules) as [K' _]. destruct (K' h HC rho) as (v & EV).
    pose proof (static_t h k k1 o HW) as (K1 & W & _ & _).
    pose proof (dt h k k1 o D rho s c s1 HW HS ltac:(rewrite B; intros p j []) HX HF HO HR) as G. rewrite EV in G. destruct G as [-> G].
    split; [reflexivity|]. split; [|intros _; congruence].
    refine (ctx_runs E fn n NR num sg L HL HI ok sane okd res sane_run k k k1 D rho s _ _ s1 (binds h) HX (le_n k) K1 HF W _ HR). rewrite B. intros y [].
  - cbn [lower] in HW. injection HW as <- <-. cbn [ob_code] in HR. apply runs_nil in HR as [-> ->]. split; [reflexivity|]. split; [exact HX|]. discriminate.
Qed.

Lemma solved top k k' q ls D rho tail s ts c s' z : lower_query top k q = (k', ls) -> safe_query D q -> older k (binds_query q) -> ctx k D rho s ->
  fine (flat_map lit_code ls) -> fine tail -> (forall y, In y (flat_map writes tail) -> y = z) -> ~ In z (scope D q) ->
  meets (flat_map lit_code ls) tail s ts c s' ->
  Forall2 (fun r t => ctx k' (scope D q) r t) (sol rho q) ts /\ ctx k' D rho s' /\
  forall h k0 k1 o, lower k0 h = (k1, o) -> (k1 <= k)%nat -> older k0 (binds_query q) -> older k0 [z] -> head_ok D q h -> fine_op (ob_op o) ->
    (constant h = true -> value_at E s (iop (ob_op o)) = ev rho h) -> Forall2 (fun r t => value_at E t (iop (ob_op o)) = ev r h) (sol rho q) ts.
Proof.
  intros HW HS HO HX HF HT HZ NZ HM.
  assert (HN : forall y, In y (scope D q) -> ~ In y (flat_map writes tail)) by (intros y I J; apply HZ in J as ->; auto).
  pose proof (dq q top k k' ls D rho tail s ts c s' HW HS HO HX HF HT HN HM) as G. split; [exact G|].
  pose proof (static_q q _ _ _ _ HW) as (K1 & W & _).
  split.
  - eapply ctx_wider; [|exact K1]. refine (ctx_meets E fn n NR num sg L HL HI ok sane ok_back okd res sane_meet k k k' D rho _ tail s ts c s' (binds_query q) HX (le_n k) HF HT W _ _ HM).
    + intros y Hy. exact (proj2 (proj2 (proj2 safe_binds)) q _ HS y Hy).
    + intros y I. apply HN. now apply scope_incl.
  - intros h k0 k1 o Hh Hk O0 OZ [[HC _]|(x & -> & I)] Fo V.
    + specialize (V HC). destruct (constant_all (e_fops E) call rules) as [K _]. destruct (K h HC) as (_ & _ & EQ).
      assert (AL : Forall (fun t => value_at E t (iop (ob_op o)) = ev rho h) ts).
      { destruct (ob_op o) as [y|u|b] eqn:Eo; [|apply Forall_forall; intros t _; exact V|apply Forall_forall; intros t _; exact V].
        pose proof (static_t h k0 k1 o Hh) as (_ & _ & _ & SO). rewrite Eo in SO. destruct (SO y (or_introl eq_refl)) as [NW| ->]; [|discriminate HC].
        assert (Ly : In y L) by (apply Fo; now left).
        destruct (local_some E fn n num L HL y s Ly) as (cur & Ec); [apply HX|].
        assert (Q : Forall (fun t => local t (num y) = Some cur) ts).
        { eapply meets_steady; eauto; [apply HX| |].
          - intro J. apply W in J as [J|J]; [eapply new_apart; [exact NW|exact J|exact Hk]|]. destruct NW as (p & j & Rj & ->). apply O0 in J. lia.
          - intro J. apply HZ in J as ->. destruct NW as (p & j & Rj & ->). specialize (OZ p j (or_introl eq_refl)). lia. }
        apply Forall_forall. intros t It. rewrite Forall_forall in Q. specialize (Q t It). rewrite <- V. cbn [RuleSpec.iop map_op value_at]. now rewrite Q, Ec. }
      clear - G AL EQ. induction G; inversion AL; subst; constructor; auto. rewrite H2. apply EQ.
    + cbn [lower] in Hh. injection Hh as <- <-. cbn [ob_op]. clear - G I.
      induction G as [|r t rs ts (_ & _ & _ & A) _ IH]; constructor; auto. destruct (A x I) as (v & P & Q). cbn [RuleSpec.iop map_op value_at]. rewrite Q. now symmetry.
Qed.

(** ** Heads *)
Lemma head_form name k e q k1 h q1 D : head name k e q = (k1, h, q1) -> safe_query D q -> safe (scope D q) e -> older k (binds_query q ++ binds e) -> older k D ->
  (k <= k1)%nat /\ safe_query D q1 /\ head_ok D q1 h /\ older k1 (binds_query q1) /\
  (forall y, In y (binds_query q1) -> In y (binds_query q ++ binds e) \/ y = tmp name k) /\
  (forall rho, head_values (e_fops E) call rules rho (h, q1) = head_values (e_fops E) call rules rho (e, q)).
Proof.
  intros H HS HE HO HD. unfold head in H. destruct (constant e) eqn:C; injection H as <- <- <-.
  - destruct (constant_all (e_fops E) call rules) as [K _]. destruct (K e C) as (B & S' & _).
    split; [lia|]. split; [exact HS|]. split; [left; eauto|]. split; [eapply older_incl; [exact HO|intros y I; apply in_app_iff; auto]|].
    split; [intros y I; left; apply in_app_iff; auto|reflexivity].
  - assert (N : ~ In (tmp name k) (scope D q)).
    { intro I. apply scope_binds in I as [I|I]; [apply HD in I; lia|]. assert (J : In (tmp name k) (binds_query q ++ binds e)) by (apply in_app_iff; auto). apply HO in J. lia. }
    split; [lia|]. split; [apply safe_extend; [exact HS|cbn [safe_query]; auto]|].
    split; [right; eexists; split; [reflexivity|]; rewrite scope_extend; cbn [scope]; now left|].
    assert (Q : forall y, In y (binds_query (extend q (QAssign (tmp name k) e QEnd))) -> In y (binds_query q ++ binds e) \/ y = tmp name k).
    { intros y I. apply binds_extend in I as [I|I]; [left; apply in_app_iff; auto|]. cbn [binds_query] in I. rewrite app_nil_r in I. destruct I as [<-|I]; [auto|left; apply in_app_iff; auto]. }
    split; [|split; [exact Q|]].
    + intros p j I. apply Q in I as [I|I]; [apply HO in I; lia|]. apply tmp_inj in I. lia.
    + intro rho. unfold head_values. cbn [fst snd]. rewrite sols_extend, flat_map_flat. apply flat_map_ext. intro r. rewrite sols_assign.
      destruct (ev r e) as [v|]; [|reflexivity]. cbn [flat_map]. rewrite app_nil_r. cbn [eval]. unfold bind_var. now rewrite str_eqb_refl.
Qed.
Lemma values_map o h ts rs : Forall2 (fun r t => value_at E t (iop o) = ev r h) rs ts -> values_at E (iop o) ts = flat_map (fun r => option_list (ev r h)) rs.
Proof. induction 1 as [|r t rs ts H _ IH]; [reflexivity|]. unfold values_at in *. cbn [flat_map]. rewrite H, IH. destruct (ev r h); reflexivity. Qed.

(** Everything about a branch. *)
Record placed_at (k k' : nat) (D : list str) (b : term * TermModel.query) (i : instance) (h : term) (q : TermModel.query) (o : opblock) (ls : list literal) (k1 k2 : nat) : Prop := {
  pl_inst : i = Inst o [query_block ls];
  pl_low : (k <= k1)%nat; pl_lower : lower k1 h = (k2, o); pl_query : lower_query true k2 q = (k', ls);
  pl_safe : safe_query D q; pl_head : head_ok D q h; pl_old : older k1 (binds_query q);
  pl_binds : forall z, older k [z] -> ~ In z (binds_query (snd b) ++ binds (fst b)) -> ~ In z (binds_query q);
  pl_values : forall rho, head_values (e_fops E) call rules rho (h, q) = head_values (e_fops E) call rules rho b
}.
Lemma branch_placed name k b k' i D : branch_of name k b = (k', i) -> good_branch k D b -> older k D -> exists h q o ls k1 k2, placed_at k k' D b i h q o ls k1 k2.
Proof.
  intros H (HS & HE & HU) HD. unfold branch_of in H. destruct (head name k (fst b) (snd b)) as [[k1 h] q] eqn:Hh. destruct (lower k1 h) as [k2 o] eqn:Ho.
  destruct (lower_query true k2 q) as [k3 ls] eqn:Hq. injection H as <- <-. destruct (head_form _ _ _ _ _ _ _ D Hh HS HE HU HD) as (A & B & C & O & Q & V).
  exists h, q, o, ls, k1, k2. constructor; auto.
  - intros z OZ NZ I. apply Q in I as [I|I]; [auto|]. subst z. specialize (OZ name k (or_introl eq_refl)). lia.
Qed.
Lemma placed_below k k' D b i h q o ls k1 k2 : placed_at k k' D b i h q o ls k1 k2 -> (k1 <= k2 <= k')%nat.
Proof. intros [? ? H1 H2 _ _ _ _ _]. pose proof (static_t h _ _ _ H1) as (A & _). pose proof (static_q q _ _ _ _ H2) as (B & _). lia. Qed.
(** Its code does not write an older variable. *)
Lemma placed_writes k k' D b i h q o ls k1 k2 z : placed_at k k' D b i h q o ls k1 k2 -> older k [z] -> ~ In z (binds_query (snd b) ++ binds (fst b)) ->
  ~ In z (flat_map writes (ob_code o ++ query_block ls)).
Proof.
  intros P OZ NZ J. pose proof (placed_below _ _ _ _ _ _ _ _ _ _ _ P) as B. destruct P as [? L0 H1 H2 _ HH _ PB _]. pose proof (static_t h _ _ _ H1) as (_ & W & _). pose proof (static_q q _ _ _ _ H2) as (_ & W2 & _).
  rewrite (query_code _ _ _ _ _ H2), flat_map_app in J. apply in_app_iff in J as [J|J].
  - apply W in J as [(p & j & R & ->)|J]; [specialize (OZ p j (or_introl eq_refl)); lia|]. destruct HH as [[C _]|(x & -> & _)]; [|destruct J].
    destruct (constant_all (e_fops E) call rules) as [K _]. destruct (K h C) as (B0 & _). rewrite B0 in J. destruct J.
  - apply W2 in J as [(p & j & R & ->)|J]; [specialize (OZ p j (or_introl eq_refl)); lia|]. exact (PB z OZ NZ J).
Qed.
Lemma older_scope D q z : ~ In z D -> ~ In z (binds_query q) -> ~ In z (scope D q).
Proof. intros A B I. apply scope_binds in I as [I|I]; auto. Qed.

Lemma asks_meets tail o code s vs s' : ok s' -> asks tail (o, code) s vs s' -> exists ts c s0 s1, quiet [] s s0 /\ meets code (tail o) s0 ts c s1 /\ quiet [] s1 s' /\ vs = values_at E (iop o) ts.
Proof.
  intros OK (m & kc & b & ts & c & s0 & s1 & H1 & H2 & Q0 & V & Q1 & ->). exists ts, c, s0, s1. split; [exact Q0|]. split; [|auto].
  exists m, kc, b. cbn [fst snd] in *. repeat (split; [assumption|]). split; [exact (proj1 (visits_good E kc) _ _ _ _ _ _ V)|]. exact (ok_back _ _ (errs_quiet _ _ _ Q1) OK).
Qed.

Lemma asked k k' D b i h q o ls k1 k2 rho s vs s' tail z : placed_at k k' D b i h q o ls k1 k2 -> ctx k D rho s -> fine (ob_code o ++ query_block ls) -> fine_op (ob_op o) -> fine (tail (ob_op o)) ->
  (forall y, In y (flat_map writes (tail (ob_op o))) -> y = z) -> ~ In z D -> older k [z] -> ~ In z (binds_query (snd b) ++ binds (fst b)) ->
  asks tail (ob_op o, ob_code o ++ query_block ls) s vs s' -> ok s' -> ctx k' D rho s' /\ vs = head_values (e_fops E) call rules rho b.
Proof.
  intros P HX HF HO HT HZ ND OZ NB H OK. apply (asks_meets _ _ _ _ _ _ OK) in H as (ts & c & s0 & s1 & Q0 & M & Q1 & ->).
  pose proof (placed_below _ _ _ _ _ _ _ _ _ _ _ P) as B. destruct P as [? L0 H1 H2 HS HH OQ PB PV].
  apply (ctx_quiet _ _ _ _ _ HX) in Q0 as HX0. pose proof (ctx_wider fn n num L sane res _ _ _ _ _ HX0 L0) as HX1.
  apply fine_app in HF as [F1 F2]. pose proof (static_t h _ _ _ H1) as (_ & _ & FL & _).
  apply (meets_app E num sg ok ok_back) in M as (c1 & t1 & R1 & M); [|now left].
  destruct (head_run _ _ _ _ _ _ _ _ _ _ H1 HH HX1 F1 HO R1) as (-> & HX2 & V). destruct M as [[_ M]|(? & _)]; [|discriminate].
  rewrite (query_code _ _ _ _ _ H2) in M, F2.
  destruct (solved true k2 k' q ls D rho _ t1 ts c s1 z H2 HS (older_wider k1 k2 _ OQ (proj1 B)) HX2 F2 HT HZ (older_scope _ _ _ ND (PB z OZ NB)) M) as (_ & HX3 & G).
  split; [eapply ctx_quiet; eauto|]. rewrite <- PV. unfold head_values. cbn [fst snd]. apply values_map.
  apply (G h k1 k2 o); auto. eapply older_wider; eauto.
Qed.
Lemma asked_stores k k' D b i h q o ls k1 k2 rho s vs s' z cur : placed_at k k' D b i h q o ls k1 k2 -> ctx k D rho s -> fine (ob_code o ++ query_block ls) -> fine (store z (ob_op o)) ->
  In z L -> older k [z] -> ~ In z (binds_query (snd b) ++ binds (fst b)) ->
  asks (store z) (ob_op o, ob_code o ++ query_block ls) s vs s' -> ok s' -> local s (num z) = Some cur -> exists cur', local s' (num z) = Some cur' /\ assigned E cur vs cur'.
Proof.
  intros P HX HF HT Hz OZ NB H OK Lz. apply (asks_meets _ _ _ _ _ _ OK) in H as (ts & c & s0 & s1 & Q0 & M & Q1 & ->). pose proof (placed_writes _ _ _ _ _ _ _ _ _ _ _ z P OZ NB) as W.
  destruct (meets_fold E fn n NR num sg L HL HI ok ok_back okd z (fun _ => True) (fun a t b => once E a (value_at E t (iop (ob_op o))) b) (ob_code o ++ query_block ls) (store z (ob_op o)) s0 ts c s1 cur) as (cur' & _ & A & _ & Ch); auto.
  - intros t c1 t' cur1 (m & kb & S1 & R & Hc & _) It Lt _. destruct (store_run E n NR num sg z (ob_op o) _ kb t c1 t' S1 (fine_frame E fn n num sg L HL okd _ HT) R Hc) as (_ & _ & G).
    destruct (G _ Lt) as (cur2 & G1 & G2). eauto.
  - rewrite (quiet_stack _ _ _ Q0). apply HX.
  - now rewrite (quiet_all _ _ _ Q0).
  - exists cur'. split; [now rewrite (quiet_all _ _ _ Q1)|]. now apply chain_assigned.
Qed.

(** ** Lists of branches *)
Lemma good_branch_later k k' D b : good_branch k D b -> (k <= k')%nat -> good_branch k' D b.
Proof. intros (A & B & C) H. split; [exact A|]. split; [exact B|]. eapply older_wider; eauto. Qed.
Lemma good_branches_later k k' D l : Forall (good_branch k D) l -> (k <= k')%nat -> Forall (good_branch k' D) l.
Proof. intros H K. eapply Forall_impl; [|exact H]. intros b G. eapply good_branch_later; eauto. Qed.
(** A variable the compiler uses for results. *)
Definition off (k : nat) (D : list str) (l : list (term * TermModel.query)) (z : str) : Prop :=
  In z L /\ ~ In z D /\ older k [z] /\ Forall (fun b => ~ In z (binds_query (snd b) ++ binds (fst b))) l.
Lemma off_later k k' D l z : off k D l z -> (k <= k')%nat -> off k' D l z.
Proof. intros (A & B & C & H) K. repeat (split; [assumption|]). split; [eapply older_wider; eauto|exact H]. Qed.
Lemma off_tail k D b l z : off k D (b :: l) z -> off k D l z.
Proof. intros (A & B & C & H). inversion H; subst. repeat (split; [assumption|]). assumption. Qed.
Lemma off_app k D l1 l2 z : off k D (l1 ++ l2) z -> off k D l1 z /\ off k D l2 z.
Proof. intros (A & B & C & H). apply Forall_app in H as [H1 H2]. unfold off. auto. Qed.

Lemma store_ok z o y : In y (flat_map writes (store z o)) -> y = z.
Proof. unfold store. rewrite flat_map_app. intro I. apply in_app_iff in I as [I|I]; [|destruct I as [<-|[]]; reflexivity]. destruct o; cbn in I; try contradiction. destruct (_ || _); destruct I. Qed.
Lemma collect_ok z o y : In y (flat_map writes (collect z o)) -> y = z.
Proof. unfold collect. rewrite flat_map_app. intro I. apply in_app_iff in I as [I|I]; [|destruct I as [<-|[]]; reflexivity]. destruct o; cbn in I; try contradiction. destruct (_ || _); destruct I. Qed.
Lemma fine_store z o : fine (store z o) -> fine_op o.
Proof.
  unfold store. intro H. apply fine_app in H as [_ H]. eapply fine_use; [exact H| |].
  - intros y I. cbn. apply in_app_iff. auto.
  - intros y I. cbn. rewrite ?app_nil_r. apply I.
Qed.
Lemma fine_collect z o : fine (collect z o) -> fine_op o.
Proof.
  unfold collect. intro H. apply fine_app in H as [_ H]. eapply fine_use; [exact H| |].
  - intros y I. cbn. apply in_app_iff. auto.
  - intros y I. cbn. rewrite ?app_nil_r. apply I.
Qed.

Definition sb k b := let '(k1, i) := branch_of $"setvalue" k b in (k1, BSet i).
Lemma sets_asked ret : forall l k k' bs D rho s vs s', each sb k l = (k', bs) -> Forall (good_branch k D) l -> ctx k D rho s -> off k D l ret ->
  (forall i, In (BSet i) bs -> fine (inst_code i) /\ fine (collect ret (ob_op (in_value i)))) ->
  each_asked E num sg (collect ret) (set_queries bs) s vs s' -> ok s' -> ctx k' D rho s' /\ vs = flat_map (head_values (e_fops E) call rules rho) l.
Proof.
  induction l as [|b l IH]; intros k k' bs D rho s vs s' HW HG HX HO HF HA' OK; cbn [each] in HW.
  - injection HW as <- <-. cbn [set_queries flat_map] in HA'. inversion HA'; subst. split; [eapply ctx_quiet; eauto|reflexivity].
  - unfold sb at 1 in HW. destruct (branch_of $"setvalue" k b) as [k1 i] eqn:Hb. destruct (each sb k1 l) as [k2 bs'] eqn:Hl. injection HW as <- <-.
    inversion HG as [|? ? G1 G2]; subst.
    destruct (branch_placed _ _ _ _ _ _ Hb G1 (proj1 (proj2 HX))) as (h & q & o & ls & j1 & j2 & P). pose proof (pl_inst _ _ _ _ _ _ _ _ _ _ _ P) as Ei.
    destruct (HF i (or_introl eq_refl)) as [F1 F2]. subst i. cbn [in_value ob_op] in F2. unfold inst_code in F1. cbn [in_value in_blocks concat] in F1. rewrite app_nil_r in F1.
    cbn [set_queries flat_map queries in_value in_blocks map app] in HA'. inversion HA' as [|q0 qs0 s0 vs1 s1 vs2 s2 A1 A2]; subst.
    destruct HO as (O1 & O2 & O3 & O4). inversion O4 as [|? ? O5 O6]; subst.
    destruct (asked _ _ _ _ _ _ _ _ _ _ _ rho s vs1 s1 (collect ret) ret P HX F1 (fine_collect _ _ F2) F2 (collect_ok _ _) O2 O3 O5 A1 (ok_back _ _ (errs_each _ _ _ _ _ A2) OK)) as [X1 ->].
    pose proof (placed_below _ _ _ _ _ _ _ _ _ _ _ P) as PB. pose proof (pl_low _ _ _ _ _ _ _ _ _ _ _ P) as PL.
    destruct (IH k1 k2 bs' D rho s1 vs2 s') as [X2 ->]; auto.
    + eapply good_branches_later; eauto. lia.
    + apply (off_later k); [|lia]. split; auto.
    + intros i I. apply HF. now right.
Qed.

(** Branches tried in order. *)
Notation br := (branch_of $"compvalue").
Lemma searched z : forall d k k' is_ D rho s vs s' cur, each br k d = (k', is_) -> Forall (good_branch k D) d -> ctx k D rho s -> off k D d z ->
  Forall (fun i => fine (inst_code i) /\ fine (store z (ob_op (in_value i)))) is_ -> local s (num z) = Some cur ->
  search E num sg (store z) (num z) (flat_map queries is_) s vs s' -> ok s' ->
  ctx k' D rho s' /\ vs = match cur with Some _ => [] | None => first_values (e_fops E) call rules rho d end.
Proof.
  induction d as [|b d IH]; intros k k' is_ D rho s vs s' cur HW HG HX HO HF HZ HS OK; cbn [each] in HW.
  - injection HW as <- <-. cbn [flat_map] in HS. inversion HS; subst. split; [eapply ctx_quiet; eauto|]. destruct cur; reflexivity.
  - destruct (br k b) as [k1 i] eqn:Hb. destruct (each br k1 d) as [k2 is'] eqn:Hl. injection HW as <- <-.
    inversion HG as [|? ? G1 G2]; subst. inversion HF as [|? ? [F1 F2] F3]; subst.
    destruct (branch_placed _ _ _ _ _ _ Hb G1 (proj1 (proj2 HX))) as (h & q & o & ls & j1 & j2 & P). pose proof (pl_inst _ _ _ _ _ _ _ _ _ _ _ P) as ->.
    cbn [in_value] in F2. unfold inst_code in F1. cbn [in_value in_blocks concat] in F1. rewrite app_nil_r in F1.
    pose proof (placed_below _ _ _ _ _ _ _ _ _ _ _ P) as PB. pose proof (pl_low _ _ _ _ _ _ _ _ _ _ _ P) as PL. assert (KK : (k <= k1)%nat) by lia.
    cbn [flat_map queries in_value in_blocks map app] in HS.
    pose proof (off_later _ _ _ _ _ (off_tail _ _ _ _ _ HO) KK) as HO'. pose proof (good_branches_later _ _ _ _ G2 KK) as G3.
    inversion HS as [|q0 qs0 s0 s1 y vs1 s2 Q LY S1|q0 qs0 s0 vs1 s1 vs2 s2 LZ A1 S1]; subst.
    + rewrite (quiet_all _ _ _ Q), HZ in LY. injection LY as ->.
      refine (IH k1 k2 is' D rho s1 vs s' (Some y) Hl G3 (ctx_wider fn n num L sane res _ _ _ _ _ (ctx_quiet _ _ _ _ _ HX Q) KK) HO' F3 _ S1 OK).
      now rewrite (quiet_all _ _ _ Q).
    + rewrite HZ in LZ. injection LZ as ->.
      destruct HO as (O1 & O2 & O3 & O4). inversion O4 as [|? ? O5 O6]; subst.
      destruct (asked _ _ _ _ _ _ _ _ _ _ _ rho s vs1 s1 (store z) z P HX F1 (fine_store _ _ F2) F2 (store_ok _ _) O2 O3 O5 A1 (ok_back _ _ (errs_search _ _ _ _ _ _ S1) OK)) as [X1 ->].
      destruct (asked_stores _ _ _ _ _ _ _ _ _ _ _ rho s _ s1 z None P HX F1 F2 O1 O3 O5 A1 (ok_back _ _ (errs_search _ _ _ _ _ _ S1) OK) HZ) as (cur' & LC & [AS _]).
      destruct (IH k1 k2 is' D rho s1 vs2 s' cur' Hl G3 X1 HO' F3 LC S1 OK) as [X2 ->]. split; [exact X2|].
      cbn [first_values]. cbn in AS. destruct (head_values (e_fops E) call rules rho b) as [|v vs]; cbn in AS; subst cur'; [reflexivity|]. cbn. now rewrite app_nil_r.
Qed.

Lemma defined y ret d k k' is_ D rho s vs s' : each br k d = (k', is_) -> Forall (good_branch k D) d -> ctx k D rho s -> off k D d ret ->
  ((1 < length is_)%nat -> off k D d y) -> Forall (fun i => fine (inst_code i)) is_ ->
  (forall i, is_ = [i] -> fine (store ret (ob_op (in_value i)))) -> ((1 < length is_)%nat -> Forall (fun i => fine (store y (ob_op (in_value i)))) is_) ->
  defines E num sg y ret is_ s vs s' -> ok s' -> ctx k' D rho s' /\ vs = first_values (e_fops E) call rules rho d.
Proof.
  intros HW HG HX HO HY HF H1 H2 H OK. inversion H as [i q qs s0 vs1 s1 vs2 s2 HQ A1 S1|i j l s0 s1 vs1 s2 s3 Q LY S1 Q1]; subst.
  - destruct d as [|b d]; [discriminate HW|]. cbn [each] in HW. destruct (br k b) as [k1 i'] eqn:Hb. destruct (each br k1 d) as [k2 is'] eqn:Hl. injection HW as <- -> ->.
    destruct d as [|b2 d]; [|cbn [each] in Hl; destruct (br k1 b2), (each br n0 d); discriminate]. injection Hl as <-.
    inversion HG as [|? ? G1 G2]; subst. inversion HF as [|? ? F1 F3]; subst.
    destruct (branch_placed _ _ _ _ _ _ Hb G1 (proj1 (proj2 HX))) as (h & q' & o & ls & j1 & j2 & P). pose proof (pl_inst _ _ _ _ _ _ _ _ _ _ _ P) as ->.
    specialize (H1 _ eq_refl). cbn [in_value] in H1. unfold inst_code in F1. cbn [in_value in_blocks concat] in F1. rewrite app_nil_r in F1.
    cbn [queries in_value in_blocks map] in HQ. injection HQ as <- <-. inversion S1; subst.
    destruct HO as (O1 & O2 & O3 & O4). inversion O4 as [|? ? O5 O6]; subst.
    destruct (asked _ _ _ _ _ _ _ _ _ _ _ rho s vs1 s1 (store ret) ret P HX F1 (fine_store _ _ H1) H1 (store_ok _ _) O2 O3 O5 A1 (ok_back _ _ (errs_search _ _ _ _ _ _ S1) OK)) as [X1 ->].
    split; [eapply ctx_quiet; eauto|]. rewrite app_nil_r. cbn [first_values]. now destruct (head_values _ _ _ _).
  - assert (LT : (1 < length (i :: j :: l))%nat) by (cbn; lia). specialize (HY LT). specialize (H2 LT).
    assert (X0 : ctx k D rho s1) by (eapply ctx_but; eauto; apply HY).
    destruct (searched y d k k' (i :: j :: l) D rho s1 vs s2 None HW HG X0 HY) as [X1 ->]; auto.
    { apply Forall_forall. intros x I. rewrite Forall_forall in HF, H2. auto. }
    { exact (ok_back _ _ (errs_quiet _ _ _ Q1) OK). }
    split; [|reflexivity]. apply (ctx_but ret _ _ _ s2); auto; apply HO.
Qed.

Definition bb k d := let '(k1, is_) := each br k d in (k1, BBody is_).
Lemma each_le {A B} (f : nat -> A -> nat * B) : (forall k a k' b, f k a = (k', b) -> (k <= k')%nat) -> forall l k k' bs, each f k l = (k', bs) -> (k <= k')%nat.
Proof.
  intros H. induction l as [|a l IH]; intros k k' bs HW; cbn [each] in HW; [injection HW as <- _; lia|].
  destruct (f k a) as [k1 b] eqn:Ha. destruct (each f k1 l) as [k2 bs'] eqn:Hl. injection HW as <- <-. apply H in Ha. apply IH in Hl. lia.
Qed.
Lemma branch_le name k b k' i : branch_of name k b = (k', i) -> (k <= k')%nat.
Proof.
  unfold branch_of, head. intro H. destruct (constant (fst b)).
  - destruct (lower k (fst b)) as [k2 o] eqn:Ho. destruct (lower_query true k2 (snd b)) as [k3 ls] eqn:Hq. injection H as <- <-.
    pose proof (static_t _ _ _ _ Ho) as (A & _). pose proof (static_q _ _ _ _ _ Hq) as (B & _). lia.
  - destruct (lower (S k) _) as [k2 o] eqn:Ho. destruct (lower_query true k2 _) as [k3 ls] eqn:Hq. injection H as <- <-.
    pose proof (static_t _ _ _ _ Ho) as (A & _). pose proof (static_q _ _ _ _ _ Hq) as (B & _). lia.
Qed.
Lemma bb_le k d k' b : bb k d = (k', b) -> (k <= k')%nat.
Proof. unfold bb. destruct (each br k d) as [k1 is_] eqn:X. intro H. injection H as <- <-. eapply each_le; [|exact X]. intros; eapply branch_le; eauto. Qed.

Lemma all_asked (y : nat -> str) ret : forall defs j k k' bs D rho s vs s', each bb k defs = (k', bs) -> Forall (Forall (good_branch k D)) defs -> ctx k D rho s ->
  off k D (concat defs) ret ->
  (forall m d, In (m, d) (definitions j bs) -> Forall (fun i => fine (inst_code i)) d /\ (forall i, d = [i] -> fine (store ret (ob_op (in_value i)))) /\
     ((1 < length d)%nat -> off k D (concat defs) (y m) /\ Forall (fun i => fine (store (y m) (ob_op (in_value i)))) d)) ->
  all_defined E num sg y ret (definitions j bs) s vs s' -> ok s' -> ctx k' D rho s' /\ vs = flat_map (first_values (e_fops E) call rules rho) defs.
Proof.
  induction defs as [|d defs IH]; intros j k k' bs D rho s vs s' HW HG HX HO HF HA' OK; cbn [each] in HW.
  - injection HW as <- <-. cbn [definitions] in HA'. inversion HA'; subst. split; [eapply ctx_quiet; eauto|reflexivity].
  - destruct (bb k d) as [k1 b] eqn:Hb. destruct (each bb k1 defs) as [k2 bs'] eqn:Hl. injection HW as <- <-. pose proof (bb_le _ _ _ _ Hb) as KK.
    unfold bb in Hb. destruct (each br k d) as [k3 is_] eqn:He. injection Hb as -> <-. cbn [definitions] in HA', HF.
    inversion HG as [|? ? G1 G2]; subst. inversion HA' as [|m0 d0 l0 s0 vs1 s1 vs2 s2 A1 A2]; subst.
    destruct (HF _ _ (or_introl eq_refl)) as (F1 & F2 & F3). cbn [concat] in HO. destruct (off_app _ _ _ _ _ HO) as [O1 O2].
    destruct (defined (y j) ret d k k1 is_ D rho s vs1 s1 He G1 HX O1) as [X1 ->]; auto.
    + intro LT. destruct (F3 LT) as [F4 _]. cbn [concat] in F4. now apply off_app in F4 as [F4 _].
    + intro LT. now destruct (F3 LT).
    + exact (ok_back _ _ (errs_all _ _ _ _ _ _ A2) OK).
    + destruct (IH (S j) k1 k2 bs' D rho s1 vs2 s') as [X2 ->]; auto.
      * eapply Forall_impl; [|exact G2]. intros b0 G. eapply good_branches_later; eauto.
      * eapply off_later; eauto.
      * intros m d1 I. destruct (HF m d1 (or_intror I)) as (P1 & P2 & P3). split; [exact P1|]. split; [exact P2|]. intro LT. destruct (P3 LT) as [P4 P5]. split; [|exact P5].
        cbn [concat] in P4. apply off_app in P4 as [_ P4]. eapply off_later; eauto.
Qed.

Lemma default_means o t k k' D rho s v : lower k t = (k', o) -> constant t = true -> safe D t -> ctx k D rho s -> fine (ob_code o) -> fine_op (ob_op o) ->
  (forall s, ok s) -> default_value E num sg o s v -> v = ev rho t.
Proof.
  intros HW HC HS HX HF HO OK (m & b & s0 & c & s1 & H1 & Q & R & Hc & ->).
  destruct (head_run k k' t o D QEnd rho s0 c s1 HW (or_introl (conj HC HS)) (ctx_quiet _ _ _ _ _ HX Q) HF HO) as (-> & _ & V); [exists m, b; auto|]. now apply V.
Qed.

(** ** Objects *)
Notation hp := (head_pairs (e_fops E) call rules).
Definition pair_at (r : vals) (hk hv : term) : list (value * value) := match ev r hk, ev r hv with Some x, Some y => [(x, y)] | _, _ => [] end.
Lemma fresh_eval D q r x v t : safe (scope D q) t -> ~ In x (scope D q) -> ev (bind_var x v r) t = ev r t.
Proof.
  intros S' N. apply (proj1 (agree_all (e_fops E) call rules) t (scope D q)); [exact S'|]. intros y I. unfold bind_var. destruct (str_eqb x y) eqn:Q; [|reflexivity].
  apply str_eqb_eq in Q as ->. contradiction.
Qed.
Lemma scope_head name k e q k1 h q1 D : head name k e q = (k1, h, q1) -> scope D q1 = (if constant e then [] else [tmp name k]) ++ scope D q.
Proof. unfold head. intro H. destruct (constant e); injection H as <- <- <-; [reflexivity|]. rewrite scope_extend. reflexivity. Qed.

Lemma pair_form k ke ve q k1 hk q1 k2 hv q2 D : head $"objkey" k ke q = (k1, hk, q1) -> head $"objval" k1 ve q1 = (k2, hv, q2) -> good_pair k D (ke, ve, q) -> older k D ->
  (k <= k1 <= k2)%nat /\ safe_query D q2 /\ head_ok D q2 hk /\ head_ok D q2 hv /\ older k2 (binds_query q2) /\
  (forall z, older k [z] -> ~ In z (binds_query q ++ binds ke ++ binds ve) -> ~ In z (binds_query q2)) /\
  (forall rho, flat_map (fun r => pair_at r hk hv) (sol rho q2) = hp rho (ke, ve, q)).
Proof.
  intros H1 H2 (HS & SK & SV & HO) HD. cbn [fst snd] in *.
  assert (NK : ~ In (tmp $"objkey" k) (scope D q)).
  { intro I. apply scope_binds in I as [I|I]; [apply HD in I; lia|]. assert (J : In (tmp $"objkey" k) (binds_query q ++ binds ke ++ binds ve)) by (apply in_app_iff; auto). apply HO in J. lia. }
  assert (O1 : older k (binds_query q ++ binds ke)) by (eapply older_incl; [exact HO|]; intros y I; rewrite !in_app_iff in *; tauto).
  destruct (head_form _ _ _ _ _ _ _ D H1 HS SK O1 HD) as (A1 & A2 & A3 & A4 & A5 & _).
  assert (SV1 : safe (scope D q1) ve).
  { apply (proj1 more_all ve (scope D q)); [exact SV|]. rewrite (scope_head _ _ _ _ _ _ _ D H1). split; [intros y I; apply in_app_iff; auto|].
    intros y I N J. apply in_app_iff in I as [I|I]; [|auto]. destruct (constant ke); [destruct I|]. destruct I as [<-|[]].
    assert (J' : In (tmp $"objkey" k) (binds_query q ++ binds ke ++ binds ve)) by (rewrite !in_app_iff; auto). apply HO in J'. lia. }
  assert (O2 : older k1 (binds_query q1 ++ binds ve)).
  { intros p j I. apply in_app_iff in I as [I|I]; [now apply A4 in I|]. assert (J : In (tmp p j) (binds_query q ++ binds ke ++ binds ve)) by (rewrite !in_app_iff; auto). apply HO in J. lia. }
  assert (HD1 : older k1 D) by (eapply older_wider; eauto).
  destruct (head_form _ _ _ _ _ _ _ D H2 A2 SV1 O2 HD1) as (B1 & B2 & B3 & B4 & B5 & _).
  split; [lia|]. split; [exact B2|]. split.
  { destruct A3 as [A3|(x & -> & I)]; [now left|right]. exists x. split; [reflexivity|]. rewrite (scope_head _ _ _ _ _ _ _ D H2). apply in_app_iff. auto. }
  split; [exact B3|]. split; [exact B4|]. split.
  { intros z OZ NZ I. apply B5 in I as [I| ->]; [|specialize (OZ _ _ (or_introl eq_refl)); lia]. apply in_app_iff in I as [I|I].
    - apply A5 in I as [I| ->]; [|specialize (OZ _ _ (or_introl eq_refl)); lia]. apply NZ. rewrite !in_app_iff in *. tauto.
    - apply NZ. rewrite !in_app_iff. auto. }
  intro rho. unfold head_pairs. cbn [fst snd].
  assert (NV : ~ In (tmp $"objval" k1) (scope D q1)).
  { intro I. apply scope_binds in I as [I|I]; [apply HD in I; lia|]. apply A4 in I. lia. }
  assert (NE : forall v : value, str_eqb (tmp $"objval" (S k)) (tmp $"objkey" k) = false).
  { intros _. destruct (str_eqb _ _) eqn:Q; [|reflexivity]. apply str_eqb_eq, tmp_inj in Q. lia. }
  destruct (constant_all (e_fops E) call rules) as [K _].
  unfold head in H1, H2. destruct (constant ke) eqn:Ck; injection H1 as <- <- <-; destruct (constant ve) eqn:Cv; injection H2 as <- <- <-; unfold pair_at.
  - reflexivity.
  - rewrite sols_extend, flat_map_flat. apply flat_map_ext. intro r. rewrite sols_assign. destruct (ev r ve) as [w|]; [|now destruct (ev r ke)]. cbn [flat_map]. rewrite app_nil_r.
    destruct (K ke Ck) as (_ & _ & EQ). rewrite (EQ _ r). cbn [eval]. unfold bind_var. rewrite str_eqb_refl. reflexivity.
  - rewrite sols_extend, flat_map_flat. apply flat_map_ext. intro r. rewrite sols_assign. destruct (ev r ke) as [w|]; [|reflexivity]. cbn [flat_map]. rewrite app_nil_r.
    destruct (K ve Cv) as (_ & _ & EQ). rewrite (EQ _ r). cbn [eval]. unfold bind_var. rewrite str_eqb_refl. reflexivity.
  - rewrite !sols_extend, !flat_map_flat. apply flat_map_ext. intro r. rewrite sols_assign. destruct (ev r ke) as [w|]; [|reflexivity]. cbn [flat_map]. rewrite app_nil_r.
    rewrite sols_assign. change (tmp [111; 98; 106; 107; 101; 121] k) with (tmp $"objkey" k). rewrite (fresh_eval D q r _ w ve SV NK). destruct (ev r ve) as [u|]; [|reflexivity]. cbn [flat_map]. rewrite app_nil_r.
    cbn [eval]. unfold bind_var. rewrite !str_eqb_refl. pose proof (NE VNull) as N0. change (tmp [111; 98; 106; 118; 97; 108] (S k)) with (tmp $"objval" (S k)). rewrite N0. reflexivity.
Qed.

Definition oneb (k : nat) (b : term * term * TermModel.query) :=
    let '(k1, hk, q1) := head $"objkey" k (fst (fst b)) (snd b) in
    let '(k2, hv, q2) := head $"objval" k1 (snd (fst b)) q1 in
    let '(k3, ok) := lower k2 hk in
    let '(k4, ov) := lower k3 hv in
    let '(k5, ls) := lower_query true k4 q2 in
    (k5, BObjDynamic [ok] (Inst ov [query_block ls])).

Lemma found k b k5 key i D rho s kvs s' ret : oneb k b = (k5, BObjDynamic [key] i) -> good_pair k D b -> ctx k D rho s ->
  In ret L -> ~ In ret D -> older k [ret] -> ~ In ret (binds_query (snd b) ++ binds (fst (fst b)) ++ binds (snd (fst b))) ->
  fine (ob_code key ++ inst_code i) -> fine [IObjectInsertOnce (ob_op key) (ob_op (in_value i)) ret] ->
  finds E num sg ret (ob_op key, ob_op (in_value i), ob_code (in_value i) ++ ob_code key ++ concat (in_blocks i)) s kvs s' -> ok s' ->
  ctx k5 D rho s' /\ kvs = map (fun p => (Some (fst p), Some (snd p))) (hp rho b) /\ (k <= k5)%nat.
Proof.
  intros HW HG HX Lr ND OR NB HF HT (m & kc & bl & ts & c & s0 & s1 & S1 & S2 & Q0 & V & Q1 & ->) OK.
  destruct b as [[ke ve] q]. unfold oneb in HW. cbn [fst snd] in *.
  destruct (head $"objkey" k ke q) as [[k1 hk] q1] eqn:Hk. destruct (head $"objval" k1 ve q1) as [[k2 hv] q2] eqn:Hv.
  destruct (lower k2 hk) as [k3 ok'] eqn:Lk. destruct (lower k3 hv) as [k4 ov] eqn:Lv. destruct (lower_query true k4 q2) as [k5' ls] eqn:Hq.
  injection HW as -> -> <-. cbn [in_value in_blocks concat] in *. rewrite app_nil_r in S2.
  destruct (pair_form _ _ _ _ _ _ _ _ _ _ D Hk Hv HG (proj1 (proj2 HX))) as (A1 & A2 & A3 & A4 & A5 & A6 & A7).
  unfold inst_code in HF. cbn [in_value in_blocks concat] in HF. rewrite app_nil_r in HF. apply fine_app in HF as [Fk HF]. apply fine_app in HF as [Fv Fq].
  assert (FO : fine_op (ob_op key) /\ fine_op (ob_op ov)).
  { split; (eapply fine_use; [exact HT| |]); intros y I; cbn; rewrite ?app_nil_r, ?in_app_iff; auto. }
  destruct FO as [FOk FOv].
  pose proof (static_t hk _ _ _ Lk) as (K1 & Wk & FLk & Ok). pose proof (static_t hv _ _ _ Lv) as (K2 & Wv & FLv & Ov). pose proof (static_q q2 _ _ _ _ Hq) as (K3 & _).
  assert (M : meets (ob_code ov ++ ob_code key ++ query_block ls) [IObjectInsertOnce (ob_op key) (ob_op ov) ret] s0 ts c s1).
  { exists m, kc, bl. repeat (split; [assumption|]). split; [exact (proj1 (visits_good E kc) _ _ _ _ _ _ V)|]. exact (ok_back _ _ (errs_quiet _ _ _ Q1) OK). }
  pose proof (ctx_quiet _ _ _ _ _ HX Q0) as X0.
  apply (meets_app E num sg ok ok_back) in M as (c1 & t1 & R1 & M); [|now left].
  assert (X0' : ctx k3 D rho s0) by (eapply ctx_wider; [exact X0|lia]).
  destruct (head_run k3 k4 hv ov D q2 rho s0 c1 t1 Lv A4 X0' Fv FOv R1) as (-> & X1 & V1).
  destruct M as [[_ M]|(? & _)]; [|discriminate]. apply (meets_app E num sg ok ok_back) in M as (c2 & t2 & R2 & M); [|now left].
  assert (X1' : ctx k2 D rho t1).
  { apply (ctx_sub fn n num L sane res k4 k2 D D rho rho t1 X1); auto; [intros y I; exact I|apply X1|]. eapply older_wider; [apply X0|lia]. }
  destruct (head_run k2 k3 hk key D q2 rho t1 c2 t2 Lk A3 X1' Fk FOk R2) as (-> & X2 & V2).
  destruct M as [[_ M]|(? & _)]; [|discriminate].
  assert (V1' : constant hv = true -> value_at E t2 (iop (ob_op ov)) = ev rho hv).
  { intro C. rewrite <- (V1 C). destruct (ob_op ov) as [y|u|b] eqn:Eo; [|reflexivity|reflexivity]. cbn [RuleSpec.iop map_op value_at].
    destruct (Ov y (or_introl eq_refl)) as [NW| ->]; [|discriminate C].
    rewrite (runs_keep E fn n NR num sg L HL HI ok okd _ _ _ _ y R2); auto; [apply X1|apply FOv; now left|]. intro J.
    destruct (constant_all (e_fops E) call rules) as [K _].
    apply Wk in J as [J|J]; [eapply new_apart; [exact J|exact NW|lia]|]. destruct A3 as [[C3 _]|(x & -> & _)]; [|destruct J]. destruct (K hk C3) as (B0 & _). rewrite B0 in J. destruct J. }
  rewrite (query_code _ _ _ _ _ Hq) in M, Fq.
  assert (NB2 : ~ In ret (binds_query q2)) by (apply A6; auto).
  assert (A5' : older k4 (binds_query q2)) by (eapply older_wider; [exact A5|lia]).
  assert (X2' : ctx k4 D rho t2) by (eapply ctx_wider; [exact X2|lia]).
  destruct (solved true k4 k5 q2 ls D rho _ t2 ts c s1 ret Hq A2 A5' X2' Fq HT) with (3 := M) as (G0 & X3 & G).
  { intros y [<-|[]]. reflexivity. }
  { now apply older_scope. }
  split; [eapply ctx_quiet; eauto|]. split; [|lia].
  assert (OR2 : older k2 [ret]) by (eapply older_wider; [exact OR|lia]). assert (OR3 : older k3 [ret]) by (eapply older_wider; [exact OR|lia]).
  assert (A53 : older k3 (binds_query q2)) by (eapply older_wider; [exact A5|lia]).
  pose proof (G hk k2 k3 key Lk K2 A5 OR2 A3 FOk V2) as Gk. pose proof (G hv k3 k4 ov Lv (le_n k4) A53 OR3 A4 FOv V1') as Gv.
  rewrite <- A7.
  assert (DEF : forall h, head_ok D q2 h -> forall r t, ctx k5 (scope D q2) r t -> exists v, ev r h = Some v).
  { intros h [[C _]|(x & -> & I)] r t (_ & _ & _ & AG); [apply (proj1 (constant_defined (e_fops E) call rules) h C)|]. destruct (AG x I) as (v & P & _). eauto. }
  clear - G0 Gk Gv DEF A3 A4. induction G0 as [|r t rs ts C0 _ IH]; [reflexivity|]. inversion Gk; subst. inversion Gv; subst. cbn [map flat_map]. rewrite map_app, <- IH; auto.
  destruct (DEF hk A3 r t C0) as (x & Ex), (DEF hv A4 r t C0) as (y & Ey). unfold pair_at. rewrite H2, H3, Ex, Ey. reflexivity.
Qed.

Lemma object_asked ret : forall l k k' bs D rho s kvs s', each oneb k l = (k', bs) -> Forall (good_pair k D) l -> ctx k D rho s ->
  In ret L -> ~ In ret D -> older k [ret] -> Forall (fun b => ~ In ret (binds_query (snd b) ++ binds (fst (fst b)) ++ binds (snd (fst b)))) l ->
  (forall key i, In (BObjDynamic [key] i) bs -> fine (ob_code key ++ inst_code i) /\ fine [IObjectInsertOnce (ob_op key) (ob_op (in_value i)) ret]) ->
  all_found E num sg ret (object_queries bs) s kvs s' -> ok s' -> ctx k' D rho s' /\ kvs = map (fun p => (Some (fst p), Some (snd p))) (flat_map (hp rho) l).
Proof.
  induction l as [|b l IH]; intros k k' bs D rho s kvs s' HW HG HX Lr ND OR NB HF HA' OK; cbn [each] in HW.
  - injection HW as <- <-. cbn [object_queries flat_map] in HA'. inversion HA'; subst. split; [eapply ctx_quiet; eauto|reflexivity].
  - destruct (oneb k b) as [k1 bd] eqn:Hb. destruct (each oneb k1 l) as [k2 bs'] eqn:Hl. injection HW as <- <-.
    inversion HG as [|? ? G1 G2]; subst. inversion NB as [|? ? N1 N2]; subst.
    assert (SH : exists key ov ls, bd = BObjDynamic [key] (Inst ov [query_block ls])).
    { unfold oneb in Hb. destruct (head $"objkey" k (fst (fst b)) (snd b)) as [[? ?] ?]. destruct (head _ _ _ _) as [[? ?] ?]. destruct (lower _ _). destruct (lower _ _). destruct (lower_query _ _ _).
      injection Hb as <- <-. eauto. }
    destruct SH as (key & ov & ls & ->). cbn [object_queries flat_map in_blocks in_value map app] in HA'.
    destruct (HF key _ (or_introl eq_refl)) as [F1 F2].
    inversion HA' as [|q0 qs0 s0 kv1 s1 kv2 s2 A1 A2]; subst.
    destruct (found k b k1 key _ D rho s kv1 s1 ret Hb G1 HX Lr ND OR N1 F1 F2) as (X1 & -> & KK).
    { cbn [in_value in_blocks concat]. rewrite app_nil_r. exact A1. }
    { exact (ok_back _ _ (errs_found _ _ _ _ _ A2) OK). }
    destruct (IH k1 k2 bs' D rho s1 kv2 s') as [X2 ->]; auto.
    + eapply Forall_impl; [|exact G2]. intros b0 (P1 & P2 & P3 & P4). repeat (split; [assumption|]). eapply older_wider; eauto.
    + eapply older_wider; eauto.
    + intros ok0 i0 I. apply HF. now right.
    + split; [exact X2|]. cbn [flat_map]. now rewrite map_app.
Qed.

(** ** Whole rules *)
Lemma fine_rules ret y : forall l j, fine (rules_code ret y j l) -> forall b, In b l -> exists m, fine (rule_code ret y m b).
Proof.
  induction l as [|a l IH]; intros j H b I; [destruct I|]. cbn [rules_code] in H. apply fine_app in H as [H1 H2]. destruct I as [->|I]; eauto.
Qed.
Lemma fine_definitions ret y : forall l j, fine (rules_code ret y j l) -> forall m d, In (m, d) (definitions j l) -> fine (rule_code ret y m (BBody d)).
Proof.
  induction l as [|a l IH]; intros j H m d I; [destruct I|]. cbn [rules_code] in H. apply fine_app in H as [H1 H2].
  destruct a; cbn [definitions] in I; try (now apply (IH (S j))). destruct I as [I|I]; [injection I as <- <-; exact H1|now apply (IH (S j))].
Qed.
Lemma fine_each {A} (f : A -> list nir) l : fine (flat_map f l) -> Forall (fun a => fine (f a)) l.
Proof. induction l as [|a l IH]; intro H; [constructor|]. cbn [flat_map] in H. apply fine_app in H as [H1 H2]. constructor; auto. Qed.
Lemma bodies_only : forall defs k k' bs, each bb k defs = (k', bs) -> Forall (fun b => exists d, b = BBody d) bs.
Proof.
  induction defs as [|d defs IH]; intros k k' bs H; cbn [each] in H; [injection H as <- <-; constructor|].
  destruct (bb k d) as [k1 b] eqn:Hb. destruct (each bb k1 defs) as [k2 bs'] eqn:Hl. injection H as <- <-. unfold bb in Hb. destruct (each br k d). injection Hb as <- <-.
  constructor; eauto.
Qed.
Lemma bodies_default bs : Forall (fun b => exists d, b = BBody d) bs -> forall tl, default_of (bs ++ tl) = default_of tl.
Proof. induction 1 as [|b bs (d & ->) _ IH]; intro tl; [reflexivity|apply IH]. Qed.
Lemma bodies_definitions o : forall bs j, definitions j (bs ++ [BDefault o]) = definitions j bs.
Proof. induction bs as [|b bs IH]; intro j; [reflexivity|]. destruct b; cbn [definitions app]; rewrite ?IH; reflexivity. Qed.
Lemma rules_app ret y : forall l1 l2 j, rules_code ret y j (l1 ++ l2) = rules_code ret y j l1 ++ rules_code ret y (j + length l1) l2.
Proof.
  induction l1 as [|b l1 IH]; intros l2 j; cbn [app rules_code length]; [now rewrite Nat.add_0_r|]. rewrite IH, <- app_assoc. do 2 f_equal. now rewrite Nat.add_succ_r.
Qed.
Lemma bodies_complete bs : Forall (fun b => exists d, b = BBody d) bs -> complete bs.
Proof. intro H. eapply Forall_impl; [|exact H]. intros b (d & ->). exact I. Qed.

Lemma complete_form k defs def k' l : complete_rule k defs def = (k', l) -> exists k1 bs, each bb k defs = (k1, bs) /\
  match def with None => k1 = k' /\ l = bs | Some t => exists o, lower k1 t = (k', o) /\ l = bs ++ [BDefault o] end.
Proof.
  unfold complete_rule. change (fun (k : nat) (d : list (term * TermModel.query)) => let '(k1, is_) := each br k d in (k1, BBody is_)) with bb.
  destruct (each bb k defs) as [k1 bs]. intro H. exists k1, bs. split; [reflexivity|]. destruct def as [t|]; [|injection H as <- <-; auto].
  destruct (lower k1 t) as [k2 o]. injection H as <- <-. eauto.
Qed.
Lemma complete_kind k defs def k' l : complete_rule k defs def = (k', l) -> complete l.
Proof.
  intro H. apply complete_form in H as (k1 & bs & H & D). pose proof (bodies_complete _ (bodies_only _ _ _ _ H)) as C.
  destruct def as [t|]; [destruct D as (o & _ & ->)|destruct D as [_ ->]; exact C]. apply Forall_app. split; [exact C|]. constructor; [exact I|constructor].
Qed.
Lemma complete_meaning y ret k defs def k' l D rho s s0 vs s1 v : complete_rule k defs def = (k', l) -> Forall (Forall (good_branch k D)) defs ->
  (forall t, def = Some t -> constant t = true /\ safe D t) -> ctx k D rho s -> off k D (concat defs) ret ->
  (forall m d, In (m, d) (definitions 0 l) -> (1 < length d)%nat -> off k D (concat defs) (y m)) -> fine (rules_code ret y 0 l) ->
  quiet [num ret] s s0 -> all_defined E num sg y ret (definitions 0 l) s0 vs s1 -> ok s1 ->
  (forall k1 t o v, def = Some t -> lower k1 t = (k', o) -> fine (ob_code o) -> fine_op (ob_op o) -> ctx k1 D rho s1 -> default_value E num sg o s1 v -> v = ev rho t) -> rule_value E num sg vs (default_of l) s1 v ->
  vs = flat_map (first_values (e_fops E) call rules rho) defs /\ v = rule_means (e_fops E) call rules rho defs def.
Proof.
  intros HR HG HD HX HO HY HF Q HA' OK HDEF HV. apply complete_form in HR as (k1 & bs & HE & FD).
  pose proof (bodies_only _ _ _ _ HE) as BO.
  assert (X0 : ctx k D rho s0) by (eapply ctx_but; [exact HX|exact Q|apply HO|apply HO]).
  assert (DL : definitions 0 l = definitions 0 bs) by (destruct def; [destruct FD as (o & _ & ->); apply bodies_definitions|destruct FD as [_ ->]; reflexivity]).
  assert (FB : fine (rules_code ret y 0 bs)).
  { destruct def; [destruct FD as (o & _ & ->)|destruct FD as [_ ->]; exact HF]. rewrite rules_app in HF. apply fine_app in HF. apply HF. }
  rewrite DL in *.
  destruct (all_asked y ret defs 0%nat k k1 bs D rho s0 vs s1 HE HG X0 HO) as [X1 ->]; auto.
  { intros m d I. pose proof (fine_definitions _ _ _ _ FB m d I) as F1. unfold rule_code in F1. apply fine_app in F1 as [F1 F2]. cbn [body_code] in F1.
    split; [now apply fine_each|]. split; [intros i ->; exact F2|]. intro LD. split; [now apply (HY m d)|].
    destruct d as [|i1 [|i2 d]]; cbn [length] in LD; [lia|lia|]. apply (fine_app E sg L okd [IResetLocal (y m)]) in F2 as [_ F2]. apply (fine_each _ _ F2). }
  split; [reflexivity|]. unfold rule_means. unfold rule_value in HV. destruct def as [t|].
  - destruct FD as (o & Ho & ->). rewrite (bodies_default _ BO) in HV. cbn [default_of] in HV. rewrite rules_app in HF. apply fine_app in HF as [_ HF].
    cbn [rules_code rule_code body_code] in HF. rewrite app_nil_r in HF. apply fine_app in HF as [F1 F2]. apply fine_app in F2 as [_ F2].
    destruct (flat_map (first_values (e_fops E) call rules rho) defs); [|exact HV]. destruct (HD t eq_refl) as [Ct St].
    eapply HDEF; try eassumption; [reflexivity|]. eapply fine_use; [exact F2| |]; intros z I; cbn; rewrite ?app_nil_r, ?in_app_iff; auto.
  - destruct FD as [_ ->]. assert (DN : default_of bs = None) by (rewrite <- (app_nil_r bs); apply (bodies_default _ BO [])).
    rewrite DN in HV. destruct (flat_map (first_values (e_fops E) call rules rho) defs); exact HV.
Qed.

Lemma set_kind k l k' bs : set_rule k l = (k', bs) -> l <> [] -> sets bs.
Proof.
  unfold set_rule. change (fun (k : nat) (b : term * TermModel.query) => let '(k1, i) := branch_of $"setvalue" k b in (k1, BSet i)) with sb.
  assert (G : forall l k k' bs, each sb k l = (k', bs) -> Forall (fun b => match b with BSet _ => True | _ => False end) bs /\ (l <> [] -> bs <> [])).
  { clear. induction l as [|b l IH]; intros k k' bs H; cbn [each] in H; [injection H as <- <-; split; [constructor|auto]|].
    unfold sb at 1 in H. destruct (branch_of $"setvalue" k b) as [k1 i]. destruct (each sb k1 l) as [k2 bs'] eqn:Hl. injection H as <- <-.
    split; [constructor; [exact I|now apply (IH k1 k2)]|discriminate]. }
  intros H N. apply G in H as [H1 H2]. split; auto.
Qed.
Lemma set_meaning y ret k l k' bs D rho s s0 vs s1 : set_rule k l = (k', bs) -> Forall (good_branch k D) l -> ctx k D rho s -> off k D l ret ->
  fine (rules_code ret y 0 bs) -> quiet [num ret] s s0 -> each_asked E num sg (collect ret) (set_queries bs) s0 vs s1 -> ok s1 ->
  vs = flat_map (head_values (e_fops E) call rules rho) l.
Proof.
  intros HR HG HX HO HF Q HA' OK. assert (X0 : ctx k D rho s0) by (eapply ctx_but; [exact HX|exact Q|apply HO|apply HO]).
  refine (proj2 (sets_asked ret l k k' bs D rho s0 vs s1 HR HG X0 HO _ HA' OK)).
  intros i I. destruct (fine_rules _ _ _ _ HF _ I) as (m & F). unfold rule_code in F. apply fine_app in F. exact F.
Qed.

Lemma object_kind k l k' bs : object_rule k l = (k', bs) -> l <> [] -> objects bs.
Proof.
  change (object_rule k l) with (each oneb k l).
  assert (G : forall l k k' bs, each oneb k l = (k', bs) -> Forall (fun b => match b with BObjDynamic [_] _ => True | _ => False end) bs /\ (l <> [] -> bs <> [])).
  { clear. induction l as [|b l IH]; intros k k' bs H; cbn [each] in H; [injection H as <- <-; split; [constructor|auto]|].
    destruct (oneb k b) as [k1 bd] eqn:Hb. destruct (each oneb k1 l) as [k2 bs'] eqn:Hl. injection H as <- <-.
    unfold oneb in Hb. destruct (head $"objkey" k (fst (fst b)) (snd b)) as [[? ?] ?]. destruct (head _ _ _ _) as [[? ?] ?]. destruct (lower _ _). destruct (lower _ _). destruct (lower_query _ _ _).
    injection Hb as <- <-. split; [constructor; [exact I|now apply (IH n3 k2)]|discriminate]. }
  intros H N. apply G in H as [H1 H2]. split; auto.
Qed.
Lemma object_meaning y ret k l k' bs D rho s s0 kvs s1 : object_rule k l = (k', bs) -> Forall (good_pair k D) l -> ctx k D rho s ->
  In ret L -> ~ In ret D -> older k [ret] -> Forall (fun b => ~ In ret (binds_query (snd b) ++ binds (fst (fst b)) ++ binds (snd (fst b)))) l ->
  fine (rules_code ret y 0 bs) -> quiet [num ret] s s0 -> all_found E num sg ret (object_queries bs) s0 kvs s1 -> ok s1 ->
  kvs = map (fun p => (Some (fst p), Some (snd p))) (flat_map (hp rho) l).
Proof.
  intros HR HG HX Lr ND OR NB HF Q HA' OK. assert (X0 : ctx k D rho s0) by (eapply ctx_but; [exact HX|exact Q|exact Lr|exact ND]).
  refine (proj2 (object_asked ret l k k' bs D rho s0 kvs s1 HR HG X0 Lr ND OR NB _ HA' OK)).
  intros key i I. destruct (fine_rules _ _ _ _ HF _ I) as (m & F). unfold rule_code in F. cbn [body_code flat_map] in F. rewrite app_nil_r in F. apply fine_app in F. exact F.
Qed.
End Rules.
