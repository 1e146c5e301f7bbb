(** Code that calls builtins only: what TermRunProofs and TermRuleProofs ask for holds of it in every state. *)
From Coq Require Import String ZArith NArith List Bool Lia.
From Verif Require Import Base SMap ValueModel VmModel VmSpec VmProofs PlanModel PlanSpec PlanProofs RuleModel RuleSpec RuleProofs
  TermModel TermSpec TermStaticProofs TermCalmProofs TermVmProofs TermRunProofs TermScopeProofs TermRuleProofs.
Import ListNotations.
Local Open Scope Z_scope.

Lemma calls_map {L1 S1 L2 S2} (r : L1 -> L2) (q : S1 -> S2) nm : forall st : ir L1 S1, calls_in (map_ir r q nm st) = calls_in st.
Proof.
  assert (F : forall l : list (ir L1 S1), Forall (fun st => calls_in (map_ir r q nm st) = calls_in st) l -> flat_map calls_in (map (map_ir r q nm) l) = flat_map calls_in l).
  { induction 1 as [|st l H _ IH]; [reflexivity|]. cbn [map flat_map]. now rewrite H, IH. }
  induction st as [st IH] using ir_ind'. destruct st; cbn [map_ir calls_in inner] in *; try reflexivity; try (apply F; exact IH).
  match goal with |- flat_map _ (map _ ?l) = _ => induction l as [|b bs IHb] end; [reflexivity|]. cbn [map flat_map concat] in *. apply Forall_app in IH as [H1 H2]. rewrite F by exact H1. f_equal. apply IHb. exact H2.
Qed.
Lemma calls_deeds {L1 S1} f : forall st : ir L1 S1, In f (calls_in st) -> exists x, In (DCall f x) (deeds st).
Proof.
  assert (F : forall l : list (ir L1 S1), Forall (fun st => In f (calls_in st) -> exists x, In (DCall f x) (deeds st)) l -> In f (flat_map calls_in l) -> exists x, In (DCall f x) (flat_map deeds l)).
  { intros l H I. apply in_flat_map in I as (st & I1 & I2). rewrite Forall_forall in H. destruct (H st I1 I2) as (x & J). exists x. apply in_flat_map. eauto. }
  induction st as [st IH] using ir_ind'. destruct st; cbn [calls_in deeds inner] in *; intro I; try (now destruct I).
  all: try (destruct I as [<-|[]]; eexists; left; reflexivity).
  all: try (destruct (F _ IH I) as (x & J); exists x; cbn; tauto).
  apply in_flat_map in I as (b & I1 & I2).
  match type of I1 with In _ ?bs => assert (H : Forall (fun st => In f (calls_in st) -> exists x, In (DCall f x) (deeds st)) b) end.
  { rewrite Forall_forall in *. intros st Is. apply IH. apply in_concat. eauto. }
  destruct (F b H I2) as (x & J). exists x. apply in_flat_map. eauto.
Qed.

Definition any (_ : state) : Prop := True.
Definition own_deed (E : env) (d : deed str) : Prop := match d with DCall f x => e_builtin E f <> None /\ ~ rule_var x | _ => True end.

Section Plain.
Variable E : env.
Variable fn : str.
Variable n : Z.
Variable num sg : str -> Z.
Variable L : list str.
Hypothesis OF : own_frame E fn n num L.
Variable rules : str -> option value.
Variable call : str -> list value -> value.
Hypothesis HA : answers E call.
Notation fine := (TermRunProofs.fine E sg L (own_deed E)).
Notation ctx := (TermRunProofs.ctx fn n num L any []).
Notation NR := (of_words _ _ _ _ _ OF).
Notation HL := (of_slots _ _ _ _ _ OF).
Notation HI := (of_apart _ _ _ _ _ OF).

Lemma own_fine l : own_code E sg L l -> fine l.
Proof. intros (A & B & C). split; [exact A|]. split; [exact B|]. intros [x|f x| |] I; cbn; auto. Qed.
Lemma settled_fine b l : opt_list says b = Some (img num sg l) -> forallb calm l = true -> fine l -> settled E b.
Proof.
  intros HS HC (_ & _ & HB). exists (img num sg l). split; [exact HS|]. split.
  - clear - HC. unfold RuleSpec.img. induction l as [|st l IH]; [reflexivity|]. cbn [map forallb] in *. apply andb_true_iff in HC as [H1 H2]. rewrite calm_map, H1. now apply IH.
  - intros f I. unfold RuleSpec.img in I. apply in_flat_map in I as (st & I1 & I2). apply in_map_iff in I1 as (st' & <- & I1).
    rewrite calls_map in I2. apply calls_deeds in I2 as (x & I2). apply (HB (DCall f x)). apply in_flat_map. eauto.
Qed.
Lemma any_back : forall s s', errs s s' -> any s' -> any s. Proof. easy. Qed.
Lemma any_quiet : forall xs s s', quiet xs s s' -> (forall i, In i xs -> exists x, i = num x /\ mine L [] x) -> any s -> any s'. Proof. easy. Qed.
Lemma any_run : forall l m b s c s', fine l -> opt_list says b = Some (img num sg l) -> run_stmts E (run_block E m) b CContinue s = Done c s' -> good c -> any s' -> any s -> any s'.
Proof. easy. Qed.
Lemma any_meet : forall l tail m kb b s ts c s', fine l -> fine tail -> opt_list says kb = Some (img num sg tail) -> opt_list says b = Some (img num sg l) ->
  visits E kb m b s ts c s' -> good c -> any s' -> any s -> any s'.
Proof. easy. Qed.
Lemma any_not : forall l m b s c s', fine l -> forallb calm l = true -> opt_list says b = Some (img num sg l) -> run_block E m b s = Done c s' -> any s' -> any s ->
  good c \/ c = CError \/ c = CTimeout.
Proof.
  intros l m b s c s' HF HC HS HR _ _. destruct (M_block E m b (settled_fine _ _ HS HC HF) _ _ _ HR) as (N1 & N2 & N3).
  destruct c; try congruence; auto; left; [now left|now right].
Qed.
Lemma any_call : forall f x, own_deed E (DCall f x) -> (e_builtin E f <> None /\ ~ rule_var x) \/ rule_var x. Proof. auto. Qed.
Lemma any_rule : forall f k s c s', own_deed E (DCall f (tmp $"var" k)) -> In (tmp $"var" k) L ->
  runs E num sg any [ICall f [OLocal $"input"; OLocal $"data"] (tmp $"var" k)] s c s' -> live fn n any s ->
  match rules f with Some v => c = CContinue /\ local s' (num (tmp $"var" k)) = Some (Some v) | None => c = CUndefined end.
Proof. intros f k s c s' [_ H]. elim H. now exists k. Qed.

Lemma plain_ctx k D rho s : incl D L -> unmade k D -> at_work fn n num D rho s -> ctx k D rho s.
Proof. intros A B (C1 & C2 & C3). split; [split; [exact A|intros x []]|]. split; [exact B|]. split; [repeat split; assumption|exact C3]. Qed.
Lemma plain_work k D rho s : ctx k D rho s -> at_work fn n num D rho s.
Proof. intros (_ & _ & (C1 & C2 & _) & C3). split; auto. Qed.
Definition plain_all := dyn_all E fn n NR num sg L HL HI any any any_back (own_deed E) [] any_quiet any_run any_meet any_not any_call rules any_rule call HA.
Definition plain_after := after_term E fn n NR num sg L HL HI any any (own_deed E) [] any_run.
Definition plain_query := dq E fn n NR num sg L HL HI any any any_back (own_deed E) [] any_quiet any_run any_meet any_not any_call rules any_rule call HA.
Definition plain_set := set_meaning E fn n NR num sg L HL HI any any any_back (own_deed E) [] any_quiet any_run any_meet any_not any_call rules any_rule call HA.
Definition plain_object := object_meaning E fn n NR num sg L HL HI any any any_back (own_deed E) [] any_quiet any_run any_meet any_not any_call rules any_rule call HA.
Definition plain_default := default_means E fn n NR num sg L HL HI any any any_back (own_deed E) [] any_quiet any_run any_meet any_not any_call rules any_rule call HA.
Lemma plain_complete y ret k defs def k' l D rho s s0 vs s1 v : complete_rule k defs def = (k', l) -> Forall (Forall (good_branch k D)) defs ->
  (forall t, def = Some t -> constant t = true /\ safe D t) -> ctx k D rho s -> off L k D (concat defs) ret ->
  (forall m d, In (m, d) (definitions 0 l) -> (1 < length d)%nat -> off L k D (concat defs) (y m)) ->
  fine (rules_code ret y 0 l) -> quiet [num ret] s s0 -> all_defined E num sg y ret (definitions 0 l) s0 vs s1 -> rule_value E num sg vs (default_of l) s1 v ->
  vs = flat_map (first_values (e_fops E) call rules rho) defs /\ v = rule_means (e_fops E) call rules rho defs def.
Proof.
  intros HR HG HD HX HO HY HF Q HA' HV.
  apply (complete_meaning E fn n NR num sg L HL HI any any any_back (own_deed E) [] any_quiet any_run any_meet any_not any_call rules any_rule call HA y ret k defs def k' l D rho s s0 vs s1 v); auto; [exact I|].
  intros k1 t o v0 Ht Hw F1 F2 X Hd. destruct (HD t Ht) as [C S]. eapply plain_default; eauto. intro; exact I.
Qed.
End Plain.
