(** Runs of code with names. *)
From Coq Require Import String ZArith List Bool Lia.
From Verif Require Import Base BigIntSpec BigIntModel DecFacts SMap ValueModel ValueSpec ResolverModel VmModel VmSpec VmProofs VmSimProofs VmStmtProofs
  PlanModel PlanSpec PlanProofs RuleModel RuleSpec RuleVmProofs RuleVisitProofs RuleProofs RuleCompleteProofs RuleFnProofs RuleObjProofs RuleEntryProofs RuleBuiltProofs QueryModel QuerySpec QueryProofs
  TermModel TermSpec TermStaticProofs TermVmProofs TermCalmProofs.
Import ListNotations.
Local Open Scope Z_scope.

Lemma len_stmt E n st s c s' : run_stmt E (run_block E n) st s = Done c s' -> zlen (s_frame s') = zlen (s_frame s).
Proof. intro H. pose proof (mono_stmt E n st s) as (_ & Hl & _). rewrite H in Hl. cbn in Hl. unfold zlen. now rewrite Hl. Qed.
Lemma len_stmts E n : forall l c s c' s', run_stmts E (run_block E n) l c s = Done c' s' -> zlen (s_frame s') = zlen (s_frame s).
Proof.
  induction l as [|st l IH]; intros c s c' s' H; cbn [run_stmts] in H; [now injection H as <- <-|].
  unfold bind at 1 in H. destruct (run_stmt E (run_block E n) st s) as [c1 s1|s1|f s1|s1] eqn:Es; try discriminate. apply len_stmt in Es.
  destruct c1; try discriminate; try (injection H as <- <-; exact Es).
  - apply IH in H. congruence.
Qed.

Section Maps.
Context {L S' L2 S2 : Type} (r : L -> L2) (q : S' -> S2) (nm : str -> str).
Notation mp := (map_ir r q nm).
Lemma writes_map : forall s, writes (mp s) = map r (writes s).
Proof.
  induction s as [s IH] using ir_ind'. destruct s; cbn [map_ir writes inner] in *; rewrite ?map_app; try reflexivity.
  - now apply flat_map_map2.
  - now apply flat_map_map.
  - cbn [map app]. do 2 f_equal. now apply flat_map_map.
  - cbn [map]. f_equal. now apply flat_map_map.
Qed.
Lemma writes_maps l : flat_map writes (map mp l) = map r (flat_map writes l).
Proof. apply flat_map_map, Forall_forall. intros s _. apply writes_map. Qed.
End Maps.

(** What code writes is among its locals. *)
Lemma writes_locals {L S'} (s : ir L S') : incl (writes s) (locals_in s).
Proof.
  assert (F : forall (l : list (ir L S')), Forall (fun s => incl (writes s) (locals_in s)) l -> incl (flat_map writes l) (flat_map locals_in l)).
  { intros l H y I. apply in_flat_map in I as (i & A & B). rewrite Forall_forall in H. apply in_flat_map. exists i. split; [exact A|]. now apply H. }
  assert (F2 : forall (bs : list (list (ir L S'))), Forall (fun s => incl (writes s) (locals_in s)) (concat bs) -> incl (flat_map (flat_map writes) bs) (flat_map (flat_map locals_in) bs)).
  { intros bs H. rewrite !flat_flat. now apply F. }
  induction s as [s IH] using ir_ind'. destruct s; cbn [writes locals_in inner] in *; try (apply F; exact IH); try (apply F2; exact IH);
    try (intros y I; cbn [In] in I; repeat rewrite in_app_iff; cbn [In]; tauto).
  - intros y I. rewrite in_app_iff in *. cbn [In] in *. destruct I as [I|I]; [tauto|]. apply F in I; [tauto|exact IH].
  - intros y I. cbn [In] in *. repeat rewrite in_app_iff. cbn [In]. destruct I as [I|I]; [tauto|]. apply F in I; [tauto|exact IH].
Qed.

Lemma uint32_nonneg t i : to_uint32 t = Some i -> 0 <= i.
Proof.
  unfold to_uint32. destruct t as [|c t]; [discriminate|]. destruct (forallb is_digit (c :: t)) eqn:Ed; [|discriminate].
  destruct (_ <=? _); [|discriminate]. intros [= <-]. rewrite forallb_forall in Ed.
  assert (D : Forall digit (c :: t)). { apply Forall_forall. intros x I. apply Ed in I. unfold is_digit in I. unfold digit. lia. }
  pose proof (BigIntProofs.zval_bound _ D) as B. unfold zval. inversion D as [|? ? Hc]; subst. unfold digit in Hc.
  replace (is_negative (c :: t)) with false; [lia|]. symmetry. unfold is_negative. apply Z.eqb_neq. unfold cminus. lia.
Qed.
Lemma znth_nth {A} (l : list A) i : 0 <= i -> znth l i = nth_error l (Z.to_nat i).
Proof.
  intro H. unfold znth. destruct (Z.leb_spec 0 i); [|lia]. destruct (Z.ltb_spec i (zlen l)); [reflexivity|]. cbn. symmetry. apply nth_error_None.
  unfold zlen in *. lia.
Qed.

Lemma visits_good E kb :
  (forall m b s ts c s', visits E kb m b s ts c s' -> good c) /\
  (forall m i j b l s ts s', loops E kb m i j b l s ts s' -> True) /\
  (forall m b s ts c s', enters E kb m b s ts c s' -> good c).
Proof. apply visits_comb; intros; auto; try now left. now right. all: now right. Qed.
(** If the code at the end always continues, then a run that is undefined did not reach it. *)
Lemma visits_undefined E kb (ok : state -> Prop) : (forall m s c s', run_stmts E (run_block E m) kb CContinue s = Done c s' -> good c -> ok s' -> c = CContinue) ->
  (forall m b s ts c s', visits E kb m b s ts c s' -> c = CUndefined -> (forall s0 s1, errs s0 s1 -> ok s1 -> ok s0) -> ok s' -> ts = []) /\
  (forall m i j b l s ts s', loops E kb m i j b l s ts s' -> True) /\
  (forall m b s ts c s', enters E kb m b s ts c s' -> c = CUndefined -> (forall s0 s1, errs s0 s1 -> ok s1 -> ok s0) -> ok s' -> ts = []).
Proof.
  intro H. apply visits_comb; intros; auto; try discriminate.
  - subst. exfalso. match goal with G : run_stmts _ _ _ _ _ = _ |- _ => apply H in G; [discriminate|auto|auto] end.
  - subst. match goal with G : _ -> _ -> _ -> ts = [] |- _ => apply G; auto end. apply (H7 s2 (add_with (-1) s3)); [|exact H8]. pose proof (mono_write x old s2) as M. rewrite H5 in M. exact (errs_later _ _ M).
  - subst. match goal with G : _ -> _ -> _ -> ts = [] |- _ => apply G; auto end. match goal with B : forall _ _, errs _ _ -> _ |- ok ?s2 => eapply (B s2); [|eassumption]; now apply errs_same end.
Qed.

(** Visits keep the stack and the size of the frame. *)
Definition steady (s s' : state) : Prop := s_stack s' = s_stack s /\ zlen (s_frame s') = zlen (s_frame s).
Lemma steady_trans s s1 s2 : steady s s1 -> steady s1 s2 -> steady s s2.
Proof. intros [A B] [C D]. split; congruence. Qed.
Lemma steady_stmt E n st s c s' : run_stmt E (run_block E n) st s = Done c s' -> steady s s'.
Proof. intro H. split; [|eapply len_stmt; eauto]. now apply (K_stmt E (run_block E n) (K_block E n)) in H as (Q & _). Qed.
Lemma visits_steady E kb :
  (forall m b s ts c s', visits E kb m b s ts c s' -> steady s s') /\
  (forall m i j b l s ts s', loops E kb m i j b l s ts s' -> steady s s') /\
  (forall m b s ts c s', enters E kb m b s ts c s' -> steady s s').
Proof.
  apply visits_comb.
  - intros m s c s' H _. split; [|eapply len_stmts; eauto]. now apply (K_stmts E (run_block E m) (K_block E m)) in H as (Q & _).
  - intros m st b s s1 ts c s' _ H _ IH. eapply steady_trans; [eapply steady_stmt; eauto|exact IH].
  - intros m st b s s1 _ H. eapply steady_stmt; eauto.
  - intros m a b x body' body s src l ts s' st _ _ _ _ IH. exact IH.
  - intros. split; reflexivity.
  - intros m a b x path body' body s v old s1 ts c s2 s3 s0 _ _ HS _ IH HW. apply (steady_trans s s1).
    + split; [apply K_swap in HS as (Q & _); exact Q|]. pose proof (mono_swap E x path v s0) as (_ & Hl & _). rewrite HS in Hl. cbn [final] in Hl.
      unfold zlen. rewrite Hl. reflexivity.
    + apply (steady_trans s1 s2); [exact IH|]. pose proof HW as HW'. apply K_write in HW as (Q & _). split; [exact Q|].
      pose proof (mono_write x old s2) as (_ & Hl & _). rewrite HW' in Hl. cbn [final] in Hl. unfold zlen. cbn. rewrite Hl. reflexivity.
  - intros. split; reflexivity.
  - intros m i j body a b l s ts1 c s1 ts2 s' _ IH1 _ IH2. eapply steady_trans; [|exact IH2]. eapply steady_trans; [|exact IH1]. split; [reflexivity|].
    cbn. now rewrite !zlen_upd.
  - intros m b s ts c s' _ [A B]. split; [exact A|exact B].
Qed.

Section Names.
Variable E : env.
Variable fn : str.
Variable n : Z.
Hypothesis NR : n <= 2 ^ 64.
Variables num sg : str -> Z.
Notation img := (img num sg).
Notation iop := (iop num sg).
Notation known := (known E sg).
Variable L : list str.
Hypothesis HL : forall x, In x L -> 0 <= num x < n /\ unshared E fn n (num x).
Hypothesis HI : forall x y, In x L -> In y L -> num x = num y -> x = y.
(** Runs that count, the states in which rules have their values, and what the code may do. *)
Variables ok sane : state -> Prop.
Hypothesis ok_back : forall s s', errs s s' -> ok s' -> ok s.
Variable okd : deed str -> Prop.

(** A run of code that ends normally. *)
Definition runs (l : list nir) (s : state) (c : code) (s' : state) : Prop :=
  exists m b, opt_list says b = Some (img l) /\ run_stmts E (run_block E m) b CContinue s = Done c s' /\ good c /\ ok s'.
Definition meets (l tail : list nir) (s : state) (ts : list state) (c : code) (s' : state) : Prop :=
  exists m kb b, opt_list says kb = Some (img tail) /\ opt_list says b = Some (img l) /\ visits E kb m b s ts c s' /\ good c /\ ok s'.
(** The code is ours. *)
Definition fine (l : list nir) : Prop :=
  incl (flat_map locals_in l) L /\ (forall s, In s (flat_map strings_in l) -> known s) /\
  (forall d, In d (flat_map deeds l) -> okd d).
Definition fine_op (o : nop) : Prop := incl (op_local o) L /\ forall s, In s (op_string o) -> known s.
Definition live (s : state) : Prop := In fn (s_stack s) /\ n <= zlen (s_frame s) /\ sane s.
(** Locals that the code may write: all but those that hold the input and the data. *)
Variable res : list str.
Definition mine (x : str) : Prop := In x L /\ ~ In x res.
Hypothesis sane_quiet : forall xs s s', quiet xs s s' -> (forall i, In i xs -> exists x, i = num x /\ mine x) -> sane s -> sane s'.
Hypothesis sane_run : forall l m b s c s', fine l -> opt_list says b = Some (img l) -> run_stmts E (run_block E m) b CContinue s = Done c s' -> good c -> ok s' ->
  sane s -> sane s'.
Hypothesis sane_meet : forall l tail m kb b s ts c s', fine l -> fine tail -> opt_list says kb = Some (img tail) -> opt_list says b = Some (img l) ->
  visits E kb m b s ts c s' -> good c -> ok s' -> sane s -> sane s'.
Hypothesis sane_not : forall l m b s c s', fine l -> forallb calm l = true -> opt_list says b = Some (img l) -> run_block E m b s = Done c s' -> ok s' -> sane s ->
  good c \/ c = CError \/ c = CTimeout.
Hypothesis okd_call : forall f x, okd (DCall f x) -> (e_builtin E f <> None /\ ~ rule_var x) \/ rule_var x.
(** References to rules give the values of the rules. *)
Variable rules : str -> option value.
Hypothesis rule_run : forall f k s c s', okd (DCall f (tmp $"var" k)) -> In (tmp $"var" k) L ->
  runs [ICall f [OLocal $"input"; OLocal $"data"] (tmp $"var" k)] s c s' -> live s ->
  match rules f with Some v => c = CContinue /\ local s' (num (tmp $"var" k)) = Some (Some v) | None => c = CUndefined end.

Lemma fine_app a b : fine (a ++ b) <-> fine a /\ fine b.
Proof.
  unfold fine. rewrite !flat_map_app. split.
  - intros (A & B & C). repeat split; intros y I; first [apply A|apply B|apply C]; apply in_or_app; auto.
  - intros [(A & B & C) (A' & B' & C')]. repeat split; intros y I; apply in_app_iff in I as [I|I]; auto.
Qed.
Lemma fine_cons a b : fine (a :: b) <-> fine [a] /\ fine b.
Proof. change (a :: b) with ([a] ++ b). apply fine_app. Qed.
Lemma fine_frame l : fine l -> in_frame n (img l).
Proof.
  intros (A & _). unfold in_frame, RuleSpec.img. rewrite locals_maps, Forall_map, Forall_forall. intros x I. apply HL. now apply A.
Qed.
Lemma fine_fits o : fine_op o -> Forall (fun x => 0 <= x < n) (op_local (iop o)).
Proof.
  intros [A _]. unfold RuleSpec.iop. rewrite op_local_map, Forall_map, Forall_forall. intros x I. apply HL. now apply A.
Qed.
Lemma not_written x l : In x L -> fine l -> ~ In x (flat_map writes l) -> ~ In (num x) (flat_map writes (img l)).
Proof.
  intros Hx (A & _) N I. unfold RuleSpec.img in I. rewrite writes_maps in I. apply in_map_iff in I as (y & Q & I). apply N.
  rewrite <- (HI y x); auto. apply A. apply in_flat_map in I as (i & I1 & I2). apply in_flat_map. exists i. split; [exact I1|]. now apply writes_locals.
Qed.
Lemma wfair_fine x b l : opt_list says b = Some (img l) -> In x L -> fine l -> ~ In x (flat_map writes l) -> wfair (num x) n b.
Proof. intros H Hx HF HN. exists (img l). split; [exact H|]. split; [now apply fine_frame|now apply not_written]. Qed.

Lemma runs_keep l s c s' x : runs l s c s' -> In fn (s_stack s) -> fine l -> In x L -> ~ In x (flat_map writes l) -> local s' (num x) = local s (num x).
Proof.
  intros (m & b & HS & HR & _) I HF Hx HN. destruct (HL x Hx) as [_ P].
  eapply (wJ_stmts E fn (num x) n P NR m); eauto; [intros; eapply wJ_block; eauto|]. eapply wfair_fine; eauto.
Qed.
Lemma runs_live l s c s' : fine l -> runs l s c s' -> live s -> live s'.
Proof.
  intros HF (m & b & HS & HR & Hc & OK) (A & B & C). split; [|split].
  - apply (K_stmts E (run_block E m) (K_block E m)) in HR as (Q & _). now rewrite Q.
  - apply len_stmts in HR. lia.
  - exact (sane_run _ _ _ _ _ _ HF HS HR Hc OK C).
Qed.
Lemma quiet_live xs s s' : quiet xs s s' -> (forall i, In i xs -> exists x, i = num x /\ mine x) -> zlen (s_frame s') = zlen (s_frame s) -> live s -> live s'.
Proof. intros Q M QL (A & B & C). split; [|split; [lia|eapply sane_quiet; eauto]]. destruct Q as (_ & Q & _). now rewrite Q. Qed.

(** ** Runs of lists *)
Lemma runs_nil s c s' : runs [] s c s' -> c = CContinue /\ s' = s.
Proof. intros (m & b & HS & HR & _). apply opt_nil in HS as ->. injection HR as <- <-. auto. Qed.
Lemma runs_good l s c s' : runs l s c s' -> good c. Proof. intros (m & b & _ & _ & H & _). exact H. Qed.
Lemma runs_ok l s c s' : runs l s c s' -> ok s'. Proof. intros (m & b & _ & _ & _ & H). exact H. Qed.
Lemma runs_app a b s c s' : runs (a ++ b) s c s' ->
  exists c1 s1, runs a s c1 s1 /\ ((c1 = CContinue /\ runs b s1 c s') \/ (c1 = CUndefined /\ c = CUndefined /\ s1 = s')).
Proof.
  intros (m & bs & HS & HR & Hc & OK). rewrite img_app in HS. apply opt_app in HS as (b1 & b2 & -> & H1 & H2).
  apply run_app in HR as (c1 & s1 & R1 & R2); [|exact Hc]. exists c1, s1.
  assert (G : good c1) by (destruct R2 as [[-> _]|(-> & _)]; [now left|now right]).
  assert (OK1 : ok s1) by (destruct R2 as [[-> R2]|(_ & _ & ->)]; [exact (ok_back _ _ (errs_stmts _ _ _ _ _ _ _ R2) OK)|exact OK]). split; [exists m, b1; auto|].
  destruct R2 as [[-> R2]|R2]; [left|right; exact R2]. split; [reflexivity|]. exists m, b2. auto.
Qed.
(** The first part continues. *)
Lemma runs_cont a b s c s' : runs (a ++ b) s c s' -> (forall c1 s1, runs a s c1 s1 -> c1 = CContinue) -> exists s1, runs a s CContinue s1 /\ runs b s1 c s'.
Proof.
  intros H G. apply runs_app in H as (c1 & s1 & R1 & [[-> R2]|(-> & _)]); [eauto|]. apply G in R1. discriminate.
Qed.
Lemma runs_one st s c s' : runs [st] s c s' -> exists m ms, says ms = Some (map_ir num sg norm st) /\ run_stmt E (run_block E m) ms s = Done c s' /\ good c.
Proof.
  intros (m & b & HS & HR & Hc & _). cbn [RuleSpec.img map] in HS. apply opt_out in HS as (ms & l & -> & H1 & H2). apply opt_nil in H2 as ->.
  exists m, ms. split; [exact H1|]. apply stmts_inv in HR as [(s1 & A & B)|[A ->]]; [| |exact Hc]; [|auto]. injection B as <- <-. auto.
Qed.

(** ** Single statements *)
Definition wrote_name (x : str) := wrote (num x).
Lemma wrote_other x v s s' y : In x L -> In y L -> wrote (num x) v s s' -> y <> x -> local s' (num y) = local s (num y).
Proof. intros Hx Hy [Q _] N. apply (quiet_local _ _ _ _ Q). intros [I|[]]. apply N. symmetry. apply HI; auto. Qed.

Lemma runs_reset x s c s' : runs [IResetLocal x] s c s' -> c = CContinue /\ wrote (num x) None s s'.
Proof.
  intro H. apply runs_one in H as (m & ms & HS & HR & Hc). apply (run_reset E _ _ _ _ _ _ HS) in HR as (-> & R & ->); [|now apply good_not_timeout].
  split; [reflexivity|]. now apply wrote_put.
Qed.
Lemma runs_makearray t x s c s' : runs [IMakeArray t x] s c s' -> c = CContinue /\ wrote (num x) (Some (VArray [])) s s'.
Proof. intro H. apply runs_one in H as (m & ms & HS & HR & Hc). exact (step_array E _ _ _ _ _ _ _ HS HR Hc). Qed.
Lemma runs_makeobject x s c s' : runs [IMakeObject x] s c s' -> c = CContinue /\ wrote (num x) (Some (VObject [])) s s'.
Proof. intro H. apply runs_one in H as (m & ms & HS & HR & Hc). exact (step_object E _ _ _ _ _ _ HS HR Hc). Qed.
Lemma runs_makeset x s c s' : runs [IMakeSet x] s c s' -> c = CContinue /\ wrote (num x) (Some (VSet [])) s s'.
Proof.
  intro H. apply runs_one in H as (m & ms & HS & HR & Hc). apply (run_makeset E _ _ _ _ _ _ HS) in HR as (-> & R & ->); [|now apply good_not_timeout].
  split; [reflexivity|]. now apply wrote_put.
Qed.
Lemma runs_number t x s c s' : runs [IMakeNumberInt t x] s c s' -> c = CContinue /\ wrote (num x) (Some (number t)) s s'.
Proof. intro H. apply runs_one in H as (m & ms & HS & HR & Hc). exact (step_number E _ _ _ _ _ _ _ HS HR Hc). Qed.
Lemma runs_assign o x s c s' : fine_op o -> runs [IAssignVar o x] s c s' -> c = CContinue /\ wrote (num x) (value_at E s (iop o)) s s'.
Proof.
  intros F H. apply runs_one in H as (m & ms & HS & HR & Hc). exact (step_assign E n NR _ _ _ _ _ _ _ HS (fine_fits _ F) HR Hc).
Qed.
Lemma runs_truth x s c s' : runs [truth x] s c s' -> c = CContinue /\ wrote (num x) (Some VTrue) s s'.
Proof. apply runs_assign. split; intros y []. Qed.
Lemma runs_defined x s c s' : runs [IIsDefined x] s c s' -> quiet [] s s' /\ s_frame s' = s_frame s /\
  exists v, local s (num x) = Some v /\ c = match v with Some _ => CContinue | None => CUndefined end.
Proof.
  intro H. apply runs_one in H as (m & ms & HS & HR & Hc). apply (run_defined E _ _ _ _ _ _ HS) in HR as (-> & G); [|now apply good_not_timeout].
  split; [apply quiet_started|]. auto.
Qed.
Lemma runs_undefined x s c s' : runs [IIsUndefined x] s c s' -> quiet [] s s' /\ s_frame s' = s_frame s /\
  exists v, local s (num x) = Some v /\ c = match v with Some _ => CUndefined | None => CContinue end.
Proof.
  intro H. apply runs_one in H as (m & ms & HS & HR & Hc). apply (run_undefined E _ _ _ _ _ _ HS) in HR as (-> & G); [|now apply good_not_timeout].
  split; [apply quiet_started|]. auto.
Qed.

Lemma says_rest st i : says st = Some i ->
  match i with
  | IMakeNull x => exists a b, st = Stmt SMakeNull a b x None
  | IMakeNumberRef t x => exists a b, st = Stmt SMakeNumberRef a b x None /\ says_index a = Some t
  | IDot k v x => exists a b, st = Stmt SDot a b x None /\ says_op a = Some k /\ says_op b = Some v
  | IEqual k v => exists a b x, st = Stmt SEqual a b x None /\ says_op a = Some k /\ says_op b = Some v
  | INotEqual k v => exists a b x, st = Stmt SNotEqual a b x None /\ says_op a = Some k /\ says_op b = Some v
  | ICall f l x => exists a b ops, st = Stmt SCall a b x (Some (ExtCall f ops)) /\ opt_list says_op ops = Some l
  | INot l => exists a b x bl, st = Stmt SNot a b x (Some (ExtBlock bl)) /\ opt_list says bl = Some l
  | _ => True
  end.
Proof.
  destruct st as [ty a0 a1 y e]. cbn [says]. intro H.
  destruct ty, e as [[]|]; try discriminate H; unfold with1, with2, option_map in H;
    repeat match type of H with context [match ?y with _ => _ end] => destruct y eqn:?; try discriminate H end;
    try discriminate H; injection H as <-; eauto 10.
Qed.
Ltac start H := apply run_stmt_inv in H as [_ H]; [|now apply good_not_timeout]; cbn [dispatch] in H.
Ltac unpack H Ha F := unfold bind at 1 in H;
  match type of H with context [unpack_operand E ?a ?s] => let Eu := fresh "Eu" in destruct (unpack_operand E a s) as [? ?|?|? ?|?] eqn:Eu; try discriminate;
    apply (unpack_value E n NR _ _ _ _ _ Ha F) in Eu as [-> ->] end.
Ltac write H := unfold bind at 1 in H;
  match type of H with context [write_local ?x ?v ?s] => destruct (write_local x v s) as [uw sw|sw|fw sw|sw] eqn:Ew; try discriminate;
    apply write_inv in Ew as [RW ->] end; cbn in H; injection H as <- <-.
Ltac unstart H := repeat match type of H with context [value_at E (started ?st ?s) ?o] => change (value_at E (started st s) o) with (value_at E s o) in H end.

Lemma runs_null x s c s' : runs [IMakeNull x] s c s' -> c = CContinue /\ wrote (num x) (Some VNull) s s'.
Proof.
  intro H. apply runs_one in H as (m & ms & HS & H & Hc). apply says_rest in HS as (a & b & ->). start H. write H. split; [reflexivity|]. now apply wrote_put.
Qed.
Lemma runs_ref t x s c s' : known t -> runs [IMakeNumberRef t x] s c s' -> c = CContinue /\ wrote (num x) (Some (number_of t)) s s'.
Proof.
  intros K H. apply runs_one in H as (m & ms & HS & H & Hc). apply says_rest in HS as (a & b & -> & Ha). start H.
  assert (O : o_index a = sg t mod 2 ^ 64). { destruct a as [[] w]; try discriminate. injection Ha as ->. reflexivity. }
  unfold bind at 1, vnth in H. rewrite O, K in H. cbn [ret] in H. write H. split; [reflexivity|].
  apply (wrote_put (Stmt SMakeNumberRef a b (num x) None) (num x) (Some (number_of t)) s RW).
Qed.
Lemma runs_dot a k x s c s' va vk : fine_op a -> fine_op k -> runs [IDot a k x] s c s' ->
  value_at E s (iop a) = Some va -> value_at E s (iop k) = Some vk ->
  match select (e_fops E) va vk with Some v => c = CContinue /\ wrote (num x) (Some v) s s' | None => c = CUndefined end.
Proof.
  intros Fa Fk H Va Vk. apply runs_one in H as (m & ms & HS & H & Hc). apply says_rest in HS as (a0 & b0 & -> & Ha & Hb). start H.
  unpack H Ha (fine_fits _ Fa). unpack H Hb (fine_fits _ Fk). unstart H. unfold RuleSpec.iop in Va, Vk. rewrite Va, Vk in H.
  assert (D : dot E (Some va) (Some vk) = select (e_fops E) va vk).
  { clear. unfold dot, select. destruct va; try reflexivity.
    - destruct vk; try reflexivity; (destruct (to_uint32 t) as [i|] eqn:Ei; [|reflexivity]); apply znth_nth; eapply uint32_nonneg; eauto.
    - cbn [node_key]. induction l as [|[k' v'] l IH]; cbn [find_item get_item]; [reflexivity|]. unfold same. destruct (str_eqb (to_key (e_fops E) k') _); [reflexivity|exact IH]. }
  rewrite D in H. destruct (select (e_fops E) va vk) as [v|].
  - write H. split; [reflexivity|]. apply (wrote_put (Stmt SDot a0 b0 (num x) None) (num x) (Some v) s RW).
  - injection H as <- <-. reflexivity.
Qed.
Lemma equals_run a b s : exists c, c = boolinfix (e_fops E) OpEq (as_res (Some a)) (as_res (Some b)) /\ equals E (Some a) (Some b) s = lift c s.
Proof. eexists. split; reflexivity. Qed.
Lemma runs_equal a b s c s' va vb : fine_op a -> fine_op b -> runs [IEqual a b] s c s' ->
  value_at E s (iop a) = Some va -> value_at E s (iop b) = Some vb ->
  quiet [] s s' /\ s_frame s' = s_frame s /\ c = if equal (e_fops E) va vb then CContinue else CUndefined.
Proof.
  intros Fa Fk H Va Vk. apply runs_one in H as (m & ms & HS & H & Hc). apply says_rest in HS as (a0 & b0 & x & -> & Ha & Hb). start H.
  unpack H Ha (fine_fits _ Fa). unpack H Hb (fine_fits _ Fk). unstart H. unfold RuleSpec.iop in Va, Vk. rewrite Va, Vk in H.
  unfold bind at 1, equals in H. destruct (boolinfix (e_fops E) OpEq (as_res (Some va)) (as_res (Some vb))) as [r| | |] eqn:Eb; try discriminate H.
  cbn in H. injection H as <- <-. split; [apply quiet_started|]. split; [reflexivity|].
  unfold equal, bi_compare. destruct va, vb; cbn [as_res] in Eb; try rewrite Eb; try (cbn in Eb; injection Eb as <-; reflexivity);
    destruct r as [[]| |]; reflexivity.
Qed.
Lemma runs_holds a s c s' va : fine_op a -> runs [INotEqual a (OBool false)] s c s' -> value_at E s (iop a) = Some va ->
  quiet [] s s' /\ s_frame s' = s_frame s /\ c = if holds (e_fops E) va then CContinue else CUndefined.
Proof.
  intros Fa H Va. apply runs_one in H as (m & ms & HS & H & Hc). apply says_rest in HS as (a0 & b0 & x & -> & Ha & Hb). start H.
  unpack H Ha (fine_fits _ Fa). assert (Fb : Forall (fun x => 0 <= x < n) (op_local (OBool false : op Z Z))) by constructor. unpack H Hb Fb. unstart H. unfold RuleSpec.iop in Va. rewrite Va in H.
  change (value_at E s (map_op num sg (OBool false))) with (Some VFalse) in H. unfold bind at 1, equals in H.
  destruct (boolinfix (e_fops E) OpEq (as_res (Some va)) (as_res (Some VFalse))) as [r| | |] eqn:Eb; try discriminate H.
  cbn [lift ret] in H. injection H as <- <-. split; [apply quiet_started|]. split; [reflexivity|].
  unfold holds, bi_compare. destruct va; cbn [as_res] in Eb; try rewrite Eb; try (cbn in Eb; injection Eb as <-; reflexivity);
    destruct r as [[]| |]; reflexivity.
Qed.

Lemma unpacks_value : forall ops l s vs s', opt_list says_op ops = Some (map iop l) -> Forall fine_op l ->
  unpack_operands E ops s = Done vs s' -> s' = s /\ vs = map (fun o => value_at E s (iop o)) l.
Proof.
  induction ops as [|o ops IH]; intros l s vs s' H F HU; cbn [unpack_operands] in HU.
  - injection HU as <- <-. injection H as H. symmetry in H. apply map_eq_nil in H as ->. auto.
  - apply opt_cons in H as (y & ys & H1 & H2 & HM). destruct l as [|o' l]; [discriminate|]. cbn [map] in HM. injection HM as <- <-.
    inversion F as [|? ? F1 F2]; subst. unfold bind at 1 in HU. destruct (unpack_operand E o s) as [v s1|s1|f s1|s1] eqn:Eu; try discriminate.
    apply (unpack_value E n NR _ _ _ _ _ H1 (fine_fits _ F1)) in Eu as [-> ->].
    unfold bind at 1 in HU. destruct (unpack_operands E ops s) as [v s1|s1|f s1|s1] eqn:Eu; try discriminate.
    destruct (IH _ _ _ _ H2 F2 Eu) as [-> ->]. injection HU as <- <-. auto.
Qed.
Variable call : str -> list value -> value.
Hypothesis HA : answers E call.
Lemma runs_call f ops x s c s' vs : Forall fine_op ops -> e_builtin E f <> None -> runs [ICall f ops x] s c s' ->
  Forall2 (fun o v => value_at E s (iop o) = Some v) ops vs -> c = CContinue /\ wrote (num x) (Some (call f vs)) s s'.
Proof.
  intros F HB H HV. apply runs_one in H as (m & ms & HS & H & Hc). cbn [map_ir] in HS. apply says_rest in HS as (a0 & b0 & mops & -> & Ha). start H.
  unfold run_call in H. unfold bind at 1, get at 1 in H. destruct (existsb _ _); [discriminate|].
  destruct (e_builtin E f) as [bi|] eqn:Ef; [|congruence].
  unfold bind at 1 in H. destruct (unpack_operands E mops _) as [us s1|s1|g s1|s1] eqn:Eu; try discriminate.
  apply (unpacks_value _ _ _ _ _ Ha F) in Eu as [-> ->].
  assert (HM : map (fun o => value_at E (started (Stmt SCall a0 b0 (num x) (Some (ExtCall f mops))) s) (iop o)) ops = map Some vs).
  { clear - HV. induction HV as [|o v ops vs H1 H2 IH]; [reflexivity|]. cbn [map]. rewrite IH. f_equal. exact H1. }
  rewrite HM in H. unfold bind at 1, get at 1 in H.
  unfold bind at 1 in H. destruct (bi _ (map Some vs)) as [r| | |] eqn:Er; try discriminate H. cbn [lift ret] in H.
  apply (HA _ _ _ _ _ Ef) in Er as ->. unfold bind at 1 in H.
  destruct (write_local (num x) _ _) as [uw sw|sw|fw sw|sw] eqn:Ew; try discriminate. apply write_inv in Ew as [RW ->].
  assert (G : c = CContinue /\ s' = put (num x) (Some (call f vs)) (started (Stmt SCall a0 b0 (num x) (Some (ExtCall f mops))) s)).
  { destruct (call f vs); cbn in H; injection H as <- <-; auto. destruct Hc; discriminate. }
  destruct G as [-> ->]. split; [reflexivity|]. now apply wrote_put.
Qed.
Lemma runs_append o x s c s' l u : fine_op o -> runs [IArrayAppend x o] s c s' -> local s (num x) = Some (Some (VArray l)) -> value_at E s (iop o) = Some u ->
  c = CContinue /\ wrote (num x) (Some (VArray (l ++ [u]))) s s'.
Proof.
  intros F H HV HU. apply runs_one in H as (m & ms & HS & H & Hc). exact (step_append E n NR _ _ _ _ _ _ _ _ _ HS (fine_fits _ F) H Hc HV HU).
Qed.
Lemma runs_add o x s c s' l u : fine_op o -> runs [ISetAdd o x] s c s' -> local s (num x) = Some (Some (VSet l)) -> value_at E s (iop o) = Some u ->
  c = CContinue /\ wrote (num x) (Some (VSet (add_member (e_fops E) l u))) s s'.
Proof.
  intros F H HV HU. apply runs_one in H as (m & ms & HS & H & Hc). apply says_leaf in HS as (a & b & -> & Ha). start H.
  unfold bind at 1 in H. destruct (read_local (num x) _) as [y s1|s1|f s1|s1] eqn:Er; try discriminate. apply read_inv in Er as [-> Er].
  change (local (started _ s) (num x)) with (local s (num x)) in Er. rewrite HV in Er. injection Er as <-.
  unpack H Ha (fine_fits _ F). unstart H. unfold RuleSpec.iop in HU. rewrite HU in H.
  assert (EX : existsb (str_eqb (to_key (e_fops E) u)) (map (to_key (e_fops E)) l) = existsb (same (e_fops E) u) l).
  { clear. induction l as [|y l IH]; [reflexivity|]. cbn [map existsb]. now rewrite IH. }
  rewrite EX in H. unfold add_member. destruct (existsb (same (e_fops E) u) l).
  - injection H as <- <-. split; [reflexivity|]. split; [apply quiet_weaken, quiet_started|exact HV].
  - write H. split; [reflexivity|]. apply (wrote_put (Stmt SSetAdd a b (num x) None) (num x) _ s RW).
Qed.
Lemma insert_put l k v once o : insert_into_object E (Some (VObject l)) (Some k) (Some v) once = Some o -> o = VObject (put_item (e_fops E) l k v).
Proof.
  unfold insert_into_object. cbn [node_key to_term].
  assert (G : forall l, match find_item E (to_key (e_fops E) k) l with
     | Some _ => replace_item E (to_key (e_fops E) k) v l = Some (put_item (e_fops E) l k v)
     | None => l ++ [(k, v)] = put_item (e_fops E) l k v end).
  { clear. induction l as [|[k' v'] l IH]; cbn [find_item replace_item put_item app]; [reflexivity|].
    unfold same. rewrite (str_eqb_sym (to_key (e_fops E) k) (to_key (e_fops E) k')). destruct (str_eqb _ _); [reflexivity|].
    destruct (find_item E _ l); [now rewrite IH|now rewrite IH]. }
  specialize (G l). destruct (find_item E (to_key (e_fops E) k) l) as [old|].
  - destruct (once && _); [discriminate|]. rewrite G. congruence.
  - rewrite G. congruence.
Qed.
Lemma runs_insert (once : bool) k v x s c s' l a b : fine_op k -> fine_op v -> runs [if once then IObjectInsertOnce k v x else IObjectInsert k v x] s c s' ->
  local s (num x) = Some (Some (VObject l)) -> value_at E s (iop k) = Some a -> value_at E s (iop v) = Some b ->
  c = CContinue /\ wrote (num x) (Some (VObject (put_item (e_fops E) l a b))) s s'.
Proof.
  intros Fk Fv H HV Va Vb. apply runs_one in H as (m & ms & HS & H & Hc). unfold RuleSpec.iop in Va, Vb.
  assert (G : exists a0 b0, says_op a0 = Some (iop k) /\ says_op b0 = Some (iop v) /\
    ms = Stmt (if once then SObjectInsertOnce else SObjectInsert) a0 b0 (num x) None).
  { destruct once; cbn [map_ir] in HS; [apply says_leaf in HS|apply says_more in HS]; destruct HS as (a0 & b0 & -> & Ha & Hb); eauto 10. }
  destruct G as (a0 & b0 & Ha & Hb & ->). apply run_stmt_inv in H as [_ H]; [|now apply good_not_timeout].
  assert (H' : (do! k0 := unpack_operand E a0 in do! v0 := unpack_operand E b0 in do! o := read_local (num x) in
          match insert_into_object E o k0 v0 once with
          | Some o' => do! u := write_local (num x) (Some o') in ret CContinue
          | None => do! u := add_error EvalConflictError in ret CError
          end) (started (Stmt (if once then SObjectInsertOnce else SObjectInsert) a0 b0 (num x) None) s) = Done c s')
    by (destruct once; exact H). clear H. rename H' into H.
  unpack H Ha (fine_fits _ Fk). unpack H Hb (fine_fits _ Fv). unstart H. unfold RuleSpec.iop in H. rewrite Va, Vb in H.
  unfold bind at 1 in H. destruct (read_local (num x) _) as [y s1|s1|f s1|s1] eqn:Er; try discriminate. apply read_inv in Er as [-> Er].
  change (local (started _ s) (num x)) with (local s (num x)) in Er. rewrite HV in Er. injection Er as <-.
  destruct (insert_into_object E _ _ _ once) as [o|] eqn:Ei.
  - apply insert_put in Ei as ->. write H. split; [reflexivity|]. apply (wrote_put (Stmt (if once then SObjectInsertOnce else SObjectInsert) a0 b0 (num x) None) (num x) _ s RW).
  - cbn in H. injection H as <- <-. destruct Hc; discriminate.
Qed.

(** ** Blocks *)
Lemma block_inv' m b s c s' l : run_block E m b s = Done c s' -> good c -> opt_list says b = Some (img l) -> ok s' ->
  exists s1, runs l (add_depth 1 s) c s1 /\ s' = add_depth (-1) s1.
Proof.
  intros H G HS OK. apply block_inv in H as (m' & s1 & -> & HR & ->); [|exact G]. exists s1. split; [|reflexivity]. exists m', b.
  split; [exact HS|]. split; [exact HR|]. split; [exact G|]. eapply ok_back; [|exact OK]. now apply errs_same.
Qed.
Lemma runs_block l s c s' : runs [IBlock [l]] s c s' -> c = CContinue /\ exists s0 c1 s1, quiet [] s s0 /\ s_frame s0 = s_frame s /\ runs l s0 c1 s1 /\ quiet [] s1 s' /\ s_frame s' = s_frame s1.
Proof.
  intro H. pose proof (runs_ok _ _ _ _ H) as OK. apply runs_one in H as (m & ms & HS & H & Hc). apply (run_blockst E _ _ _ _ _ _ HS) in H as (bs & Hb & HR); [|now apply good_not_timeout].
  cbn [map_ir map] in Hb. apply opt_out in Hb as (b & l' & -> & H1 & H2). apply opt_nil in H2 as ->. cbn [block_stmt] in HR.
  unfold bind at 1 in HR. destruct (run_block E m b _) as [c1 s1|s1|f s1|s1] eqn:Eb; try discriminate.
  assert (G : good c1 /\ c = CContinue /\ s' = s1).
  { destruct c1; try discriminate; injection HR as HR1 HR2; subst; try (destruct Hc; discriminate); (split; [|auto]); [now left|now right]. }
  destruct G as (G & -> & ->). split; [reflexivity|]. destruct (block_inv' _ _ _ _ _ l Eb G H1 OK) as (s2 & R1 & ->).
  exists (add_depth 1 (started ms s)), c1, s2. split; [eapply quiet_trans; [apply (quiet_started ms)|apply quiet_depth]|]. split; [reflexivity|]. split; [exact R1|].
  split; [apply quiet_depth|reflexivity].
Qed.
Lemma calm_map {L1 S1 L2 S2} (r : L1 -> L2) (q : S1 -> S2) nm : forall st : ir L1 S1, calm (map_ir r q nm st) = calm st.
Proof.
  assert (F : forall l : list (ir L1 S1), Forall (fun st => calm (map_ir r q nm st) = calm st) l -> forallb calm (map (map_ir r q nm) l) = forallb calm l).
  { induction 1 as [|st l H _ IH]; [reflexivity|]. cbn [map forallb]. now rewrite H, IH. }
  induction st as [st IH] using ir_ind'. destruct st; cbn [map_ir calm inner] in *; try reflexivity; try (apply F; exact IH).
  match goal with |- forallb _ (map _ ?l) = _ => induction l as [|b bs IHb] end; [reflexivity|]. cbn [map forallb concat] in *. apply Forall_app in IH as [H1 H2]. rewrite F by exact H1. f_equal. apply IHb. exact H2.
Qed.
Lemma runs_not l s c s' : fine l -> forallb calm l = true -> live s -> runs [INot l] s c s' -> exists s0 c1 s1, quiet [] s s0 /\ s_frame s0 = s_frame s /\ runs l s0 c1 s1 /\ quiet [] s1 s' /\ s_frame s' = s_frame s1 /\
  c = match c1 with CContinue => CUndefined | _ => CContinue end.
Proof.
  intros HF HC HLv H. pose proof (runs_ok _ _ _ _ H) as OK. apply runs_one in H as (m & ms & HS & H & Hc). cbn [map_ir] in HS. apply says_rest in HS as (a & b & x & bl & -> & Hb). start H. cbn [ext_block] in H.
  unfold bind at 1, ret at 1 in H. unfold bind at 1 in H.
  destruct (run_block E m bl _) as [c1 s1|s1|f s1|s1] eqn:Eb; try discriminate. cbn in H. injection H as <- <-.
  assert (HN := sane_not l m bl _ c1 s1 HF HC Hb Eb OK).
  assert (G : good c1).
  { destruct HN as [HN|[-> | ->]]; [|exact HN| |]; try (destruct Hc; discriminate). eapply sane_quiet; [apply quiet_started| |apply HLv]. intros i []. }
  destruct (block_inv' _ _ _ _ _ l Eb G Hb OK) as (s2 & R1 & ->).
  eexists _, c1, s2. split; [|split; [|split; [exact R1|]]].
  - eapply quiet_trans; [apply quiet_started|apply quiet_depth].
  - reflexivity.
  - split; [apply quiet_depth|]. split; [reflexivity|]. destruct G as [-> | ->]; reflexivity.
Qed.

(** ** Visits *)
Lemma meets_runs l tail s c s' : runs (append_inner l tail) s c s' -> exists ts, meets l tail s ts c s'.
Proof.
  intros (m & b & HS & HR & Hc & OK). rewrite img_append in HS. destruct (splits_all _ _ _ HS) as (sb & sk & H1 & H2 & X).
  destruct (visits_run E sk m sb b s c s' X Hc HR) as (ts & V). exists ts, m, sk, sb. auto 10.
Qed.
Lemma meets_good l tail s ts c s' : meets l tail s ts c s' -> good c.
Proof. intros (m & kb & b & _ & _ & _ & H & _). exact H. Qed.
Lemma meets_ok l tail s ts c s' : meets l tail s ts c s' -> ok s'.
Proof. intros (m & kb & b & _ & _ & _ & _ & H). exact H. Qed.
Lemma meets_nil tail s ts c s' : meets [] tail s ts c s' -> ts = [s] /\ runs tail s c s'.
Proof.
  intros (m & kb & b & H1 & H2 & V & Hc & OK). apply opt_nil in H2 as ->. inversion V; subst. split; [reflexivity|]. exists m, kb. auto.
Qed.
Lemma visits_app kb m : forall b1 b2 s ts c s', b2 <> [] \/ (forall c0 st, b1 = c0 ++ [st] -> nests st = false) -> good c ->
  visits E kb m (b1 ++ b2) s ts c s' ->
  exists c1 s1, run_stmts E (run_block E m) b1 CContinue s = Done c1 s1 /\
    ((c1 = CContinue /\ visits E kb m b2 s1 ts c s') \/ (c1 = CUndefined /\ ts = [] /\ c = CUndefined /\ s1 = s')).
Proof.
  induction b1 as [|ms b1 IH]; intros b2 s ts c s' HF Hc V.
  - exists CContinue, s. split; [reflexivity|]. left. auto.
  - cbn [app] in V. assert (N : b1 ++ b2 <> [] \/ nests ms = false).
    { destruct HF as [HF|HF]; [left; destruct b1; [exact HF|discriminate]|]. destruct b1 as [|st' b1]; [right; now apply (HF [])|left; discriminate]. }
    assert (G : (exists s1, run_stmt E (run_block E m) ms s = Done CContinue s1 /\ visits E kb m (b1 ++ b2) s1 ts c s') \/
                (run_stmt E (run_block E m) ms s = Done CUndefined s' /\ ts = [] /\ c = CUndefined)).
    { inversion V; subst; eauto; destruct N as [N|N]; try congruence; discriminate N. }
    destruct G as [(s1 & R1 & V1)|(R1 & -> & ->)].
    + assert (HF' : b2 <> [] \/ (forall c0 st, b1 = c0 ++ [st] -> nests st = false)).
      { destruct HF as [HF|HF]; [now left|right]. intros c0 st ->. now apply (HF (ms :: c0)). }
      destruct (IH b2 s1 ts c s' HF' Hc V1) as (c1 & s2 & R2 & G). exists c1, s2. split; [|exact G].
      cbn [run_stmts]. unfold bind at 1. rewrite R1. exact R2.
    + exists CUndefined, s'. split; [|right; auto]. cbn [run_stmts]. unfold bind at 1. rewrite R1. reflexivity.
Qed.
Lemma meets_app a b tail s ts c s' : flat a \/ b <> [] -> meets (a ++ b) tail s ts c s' ->
  exists c1 s1, runs a s c1 s1 /\ ((c1 = CContinue /\ meets b tail s1 ts c s') \/ (c1 = CUndefined /\ ts = [] /\ c = CUndefined /\ s1 = s')).
Proof.
  intros HF (m & kb & bs & H1 & H2 & V & Hc & OK). rewrite img_app in H2. apply opt_app in H2 as (b1 & b2 & -> & S1 & S2).
  destruct (visits_app kb m b1 b2 s ts c s') as (c1 & s1 & R1 & G); [|exact Hc|exact V|].
  - destruct HF as [HF|HF].
    + right. intros c0 st ->. destruct HF as [->|(c1 & i & -> & N)].
      * destruct c0; cbn in S1; [destruct (says st)|destruct (says s0); [destruct (opt_list says (c0 ++ [st]))|]]; discriminate.
      * rewrite img_app in S1. apply opt_app in S1 as (x & y & Q & _ & S3). cbn [RuleSpec.img map] in S3. apply opt_out in S3 as (ms & l & -> & S3 & S4).
        apply opt_nil in S4 as ->. apply app_inj_tail in Q as [_ ->]. rewrite (says_nests _ _ S3). destruct i; try discriminate; reflexivity.
    + left. intros ->. cbn [opt_list] in S2. injection S2 as S2. symmetry in S2. unfold RuleSpec.img in S2. apply map_eq_nil in S2. congruence.
  - exists c1, s1. split.
    + exists m, b1. split; [exact S1|]. split; [exact R1|]. destruct G as [[-> V1]|(-> & _ & _ & ->)]; (split; [|first [exact OK|exact (ok_back _ _ (proj1 (visits_errs E kb) _ _ _ _ _ _ V1) OK)]]); [now left|now right].
    + destruct G as [[-> V1]|G]; [left|right; exact G]. split; [reflexivity|]. exists m, kb, b2. auto 10.
Qed.

Definition idle (s s' : state) : Prop := quiet [] s s' /\ s_frame s' = s_frame s.
Lemma idle_live s s' : idle s s' -> live s -> live s'.
Proof. intros [Q F] H. eapply quiet_live; eauto; [intros i []|now rewrite F]. Qed.
Lemma idle_local s s' x : idle s s' -> local s' x = local s x.
Proof. intros [Q _]. now apply quiet_all. Qed.
Lemma idle_trans s s1 s2 : idle s s1 -> idle s1 s2 -> idle s s2.
Proof. intros [Q F] [Q1 F1]. split; [eapply quiet_trans; eauto|congruence]. Qed.
(** [k] and [v] are given the values [a] and [b]. *)
Definition given (k v : str) (a b : value) (s s' : state) : Prop := live s' /\
  forall y, In y L -> local s' (num y) = if str_eqb v y then Some (Some b) else if str_eqb k y then Some (Some a) else local s (num y).
(** The passes of an iteration. *)
Inductive passes (k v : str) (body tail : list nir) : list (value * value) -> state -> list state -> state -> Prop :=
| pa_end s : passes k v body tail [] s [] s
| pa_next a b l s s0 ts1 c s1 s2 ts2 s' : (live s -> given k v a b s s0) -> meets body tail s0 ts1 c s1 -> idle s1 s2 ->
    passes k v body tail l s2 ts2 s' -> passes k v body tail ((a, b) :: l) s (ts1 ++ ts2) s'.
Lemma loops_passes kb m k v body tail b i j : mine k -> mine v -> i = num k -> j = num v ->
  opt_list says kb = Some (img tail) -> opt_list says b = Some (img body) ->
  forall l s ts s', loops E kb m i j b l s ts s' -> ok s' -> passes k v body tail l s ts s'.
Proof.
  intros Mk Mv -> -> HT HB. pose proof (proj1 Mk) as Hk. pose proof (proj1 Mv) as Hv. induction l as [|[a e] l IH]; intros s ts s' H OK; inversion H as [|? ? ? ? ? ? ? ? ? c s1 ? ? HE HL']; subst; [constructor|].
  inversion HE as [m' ? ? ? ? s2 V]; subst. eapply (pa_next k v body tail a e l s (add_depth 1 (bound s (num k) (num v) a e))); [| | |apply IH; [exact HL'|exact OK]].
  - intros (L1 & L2 & L3). destruct (HL k Hk) as [Rk _]. destruct (HL v Hv) as [Rv _].
    split; [split; [exact L1|split]|].
    + change (n <= zlen (upd (upd (s_frame s) (Z.to_nat (num k)) (Some a)) (Z.to_nat (num v)) (Some e))). rewrite !zlen_upd. exact L2.
    + eapply (sane_quiet [num k; num v]); [|intros i [<-|[<-|[]]]; eauto|exact L3]. do 5 (split; [reflexivity|]). split; [cbn; now rewrite !upd_length|].
      intros i NI. cbn [In] in NI. unfold local. cbn. rewrite !znth_upd_other; [reflexivity|lia|intuition|lia|intuition].
    + intros y Hy. change (local (add_depth 1 (bound s (num k) (num v) a e)) (num y)) with (znth (upd (upd (s_frame s) (Z.to_nat (num k)) (Some a)) (Z.to_nat (num v)) (Some e)) (num y)).
      destruct (str_eqb v y) eqn:E1.
      * apply str_eqb_eq in E1 as <-. apply znth_upd_same. rewrite zlen_upd. lia.
      * apply str_eqb_neq in E1. rewrite znth_upd_other by (try lia; intro Q; apply E1; apply HI; auto). destruct (str_eqb k y) eqn:E2.
        -- apply str_eqb_eq in E2 as <-. apply znth_upd_same. lia.
        -- apply str_eqb_neq in E2. rewrite znth_upd_other by (try lia; intro Q; apply E2; apply HI; auto). reflexivity.
  - exists m', kb, b. split; [exact HT|]. split; [exact HB|]. split; [exact V|].
    split; [exact (proj1 (visits_good E kb) _ _ _ _ _ _ V)|].
    eapply ok_back; [|exact OK]. eapply errs_trans; [|exact (proj1 (proj2 (visits_errs E kb)) _ _ _ _ _ _ _ _ HL')]. now apply errs_same.
  - split; [apply quiet_depth|reflexivity].
Qed.
Lemma meets_scan x k v body tail s ts c s' : mine k -> mine v -> meets [IScan x k v body] tail s ts c s' ->
  (exists src l s0, local s (num x) = Some src /\ scanned src = Some l /\ c = CContinue /\ idle s s0 /\ passes k v body tail l s0 ts s') \/
  (exists w, local s (num x) = Some (Some w) /\ elements w = None /\ ts = [] /\ c = CUndefined).
Proof.
  intros Hk Hv (m & kb & b & H1 & H2 & V & Hc & OK). apply opt_out in H2 as (ms & l & -> & H3 & H4). apply opt_nil in H4 as ->. cbn [map_ir] in H3.
  apply says_scan in H3 as (a0 & a1 & bd & -> & E1 & E2 & E3).
  assert (O0 : o_index a0 = num k).
  { destruct a0 as [[] w]; try discriminate. injection E1 as ->. apply (in_frame_op n NR). apply HL. apply Hk. }
  assert (O1 : o_index a1 = num v).
  { destruct a1 as [[] w]; try discriminate. injection E2 as ->. apply (in_frame_op n NR). apply HL. apply Hv. }
  inversion V as [|? ? ? ? ? ? ? ? N|? ? ? ? ? N|m' a b x' body' bd' s1 src l ts' s1' st HC HS HE HLo|m' a b x' body' bd' s1 w st HC HS HN|]; subst.
  - destruct N as [N|N]; [congruence|discriminate].
  - destruct N as [N|N]; [congruence|discriminate].
  - left. exists src, l, (started st s). split; [exact HS|]. split; [exact HE|]. split; [reflexivity|]. split; [split; [apply quiet_started|reflexivity]|].
    eapply loops_passes; eauto.
  - right. exists w. auto.
Qed.
(** A local that only the code at the end writes. *)
Lemma meets_fold x (V : option value -> Prop) (R : option value -> state -> option value -> Prop) l tail s ts c s' cur :
  (forall t c1 t' cur, runs tail t c1 t' -> In fn (s_stack t) -> local t (num x) = Some cur -> V cur ->
     exists cur', local t' (num x) = Some cur' /\ V cur' /\ R cur t cur') ->
  In x L -> fine l -> ~ In x (flat_map writes l) -> meets l tail s ts c s' -> In fn (s_stack s) -> local s (num x) = Some cur -> V cur ->
  exists cur', In fn (s_stack s') /\ local s' (num x) = Some cur' /\ V cur' /\ chain R cur ts cur'.
Proof.
  intros HK Hx HF HN (m & kb & b & H1 & H2 & HV & Hc & OK) I HL1 HV1. destruct (HL x Hx) as [_ P].
  refine (proj1 (wvisits_fold_all E fn (num x) n P NR kb ok ok_back V R _) m b s ts c s' HV _ OK cur I HL1 HV1).
  - intros m' t c' t' cur' HR Hc' OK' It Lt Vt. destruct (HK t c' t' cur') as (cur2 & A & B & C); auto; [exists m', kb; auto|].
    exists cur2. split; [|auto]. apply (K_stmts E (run_block E m') (K_block E m')) in HR as (Q & _). now rewrite Q.
  - eapply wfair_fine; eauto.
Qed.
Lemma meets_keep l tail s ts c s' x : meets l tail s ts c s' -> live s -> fine l -> fine tail -> In x L -> ~ In x (flat_map writes l) ->
  ~ In x (flat_map writes tail) -> local s' (num x) = local s (num x).
Proof.
  intros H I HF HT Hx N1 N2. destruct I as (I1 & I2 & _). destruct (local s (num x)) as [cur|] eqn:Ec.
  - destruct (meets_fold x (fun v => v = cur) (fun _ _ _ => True) l tail s ts c s' cur) as (cur' & _ & A & -> & _); auto.
    intros t c1 t' cur1 HR It Lt ->. exists cur. split; [|auto]. rewrite <- Lt. eapply runs_keep; eauto.
  - exfalso. destruct (HL x Hx) as [Rx _]. unfold local in Ec. unfold znth in Ec. destruct (Z.leb_spec 0 (num x)); [|lia]. destruct (Z.ltb_spec (num x) (zlen (s_frame s))); [|lia].
    cbn in Ec. apply nth_error_None in Ec. unfold zlen in *. lia.
Qed.
Lemma meets_undefined l tail s ts s' : (forall t c t', runs tail t c t' -> c = CContinue) -> meets l tail s ts CUndefined s' -> ts = [].
Proof.
  intros H (m & kb & b & H1 & H2 & V & _ & OK). refine (proj1 (visits_undefined E kb ok _) _ _ _ _ _ _ V eq_refl ok_back OK).
  intros m' t c t' HR Hc OK'. apply (H t c t'). exists m', kb. auto.
Qed.

(** ** Parts of fine code *)
Lemma fine_use st o : fine [st] -> incl (op_local o) (locals_in st) -> incl (op_string o) (strings_in st) -> fine_op o.
Proof.
  intros (A & B & _) H G. cbn [flat_map] in A, B. rewrite app_nil_r in A, B. split; [intros y I; apply A, H, I|intros y I; apply B, G, I].
Qed.
Lemma fine_at st x : fine [st] -> In x (locals_in st) -> In x L.
Proof. intros (A & _) H. apply A. cbn [flat_map]. now rewrite app_nil_r. Qed.
Lemma fine_call f ops x : fine [ICall f ops x] -> ~ rule_var x -> Forall fine_op ops /\ In x L /\ e_builtin E f <> None.
Proof.
  intros H NV. split; [|split].
  - apply Forall_forall. intros o I. apply (fine_use _ o H); intros y Hy; cbn [locals_in strings_in].
    + apply in_or_app. left. apply in_flat_map. eauto.
    + apply in_flat_map. eauto.
  - apply (fine_at _ _ H). cbn. apply in_or_app. right. now left.
  - destruct H as (_ & _ & H). destruct (okd_call f x) as [[G _]|G]; [apply H; now left|exact G|contradiction].
Qed.
Lemma fine_block l : fine [IBlock [l]] -> fine l.
Proof. unfold fine. cbn [flat_map locals_in strings_in deeds]. now rewrite !app_nil_r. Qed.
Lemma fine_not l : fine [INot l] -> fine l.
Proof. unfold fine. cbn [flat_map locals_in strings_in deeds]. now rewrite !app_nil_r. Qed.
Lemma fine_scan x k v b : fine [IScan x k v b] -> In x L /\ In k L /\ In v L /\ fine b.
Proof.
  intro H. repeat split; try (apply (fine_at _ _ H); cbn [locals_in]; apply in_or_app; right; cbn; tauto);
    destruct H as (A & B & C); cbn [flat_map locals_in strings_in deeds] in A, B, C; rewrite app_nil_r in A, B, C.
  - intros y I. apply A, in_or_app. now left.
  - exact B.
  - intros d I. apply C, in_or_app. now right.
Qed.
Section Append.
Context {B : Type} (f : nir -> list B).
Hypothesis Hscan : forall x k v b b', incl (flat_map f b) (flat_map f b') -> incl (f (IScan x k v b)) (f (IScan x k v b')).
Hypothesis Hwith : forall x p v b b', incl (flat_map f b) (flat_map f b') -> incl (f (IWith x p v b)) (f (IWith x p v b')).
Hypothesis Hin : forall x k v b, incl (flat_map f b) (f (IScan x k v b)).
Hypothesis Hin2 : forall x p v b, incl (flat_map f b) (f (IWith x p v b)).
Let P (b k : list nir) : Prop := incl (flat_map f b) (flat_map f (append_inner b k)) /\ incl (flat_map f k) (flat_map f (append_inner b k)).
Lemma part_list k b : Forall (fun st => P (inner st) k) b -> P b k.
Proof.
  unfold P. induction 1 as [|st b H HF IH]; [split; [intros y []|intros y I; exact I]|]. destruct b as [|st' b].
  - clear IH HF. assert (D : nesting st = true \/ append_inner [st] k = st :: k) by (destruct st; auto). destruct D as [D|D].
    + destruct st; try discriminate; cbn [inner] in H; destruct H as [H1 H2].
      * match goal with |- context [append_inner [IScan ?x ?u ?v ?b0] k] => change (append_inner [IScan x u v b0] k) with [IScan x u v (append_inner b0 k)] end.
        cbn [flat_map]. rewrite !app_nil_r. split; [apply Hscan, H1|]. intros y I. apply Hin, H2, I.
      * match goal with |- context [append_inner [IWith ?x ?u ?v ?b0] k] => change (append_inner [IWith x u v b0] k) with [IWith x u v (append_inner b0 k)] end.
        cbn [flat_map]. rewrite !app_nil_r. split; [apply Hwith, H1|]. intros y I. apply Hin2, H2, I.
    + rewrite D. split; intros y I; change (st :: k) with ([st] ++ k); apply in_flat_app; auto.
  - rewrite append_cons_any by discriminate. remember (st' :: b) as b0. destruct IH as [I1 I2]. cbn [flat_map].
    split; intros y I; [apply in_app_iff in I as [I|I]|]; apply in_or_app; auto.
Qed.
Lemma part_append b k : P b k.
Proof.
  apply part_list, Forall_forall. intros st _. induction st as [st IH] using ir_ind'. apply part_list. exact IH.
Qed.
End Append.
Lemma fine_append a b : fine (append_inner a b) -> fine a /\ fine b.
Proof.
  intros (A & B & C).
  assert (P1 := fun H1 H2 H3 H4 => part_append locals_in H1 H2 H3 H4 a b). assert (P2 := fun H1 H2 H3 H4 => part_append strings_in H1 H2 H3 H4 a b).
  assert (P3 := fun H1 H2 H3 H4 => part_append deeds H1 H2 H3 H4 a b).
  destruct P1 as [P1 P1'], P2 as [P2 P2'], P3 as [P3 P3'];
    try (intros; cbn [locals_in strings_in deeds]; intros y I; repeat rewrite in_app_iff in *; cbn [In] in *; intuition auto).
  repeat split; intros y I; auto.
Qed.

(** ** Circumstances of a run *)
Definition older (k : nat) (l : list str) : Prop := forall p j, In (tmp p j) l -> (j < k)%nat.
Definition ctx (k : nat) (D : list str) (rho : vals) (s : state) : Prop := (incl D L /\ incl res D) /\ older k D /\ live s /\ agrees num D rho s.
Definition apart (bs D : list str) : Prop := forall y, In y bs -> ~ In y D.

Lemma older_wider k k' l : older k l -> (k <= k')%nat -> older k' l.
Proof. intros H A p j I. apply H in I. lia. Qed.
Lemma older_incl k l l' : older k l -> incl l' l -> older k l'.
Proof. intros H A p j I. eapply H, A, I. Qed.
Lemma older_new k k1 k2 l y : older k l -> (k <= k1)%nat -> new k1 k2 y -> ~ In y l.
Proof. intros H A (p & j & B & ->) I. apply H in I. lia. Qed.
Lemma ctx_live k D rho s : ctx k D rho s -> live s. Proof. intros (_ & _ & H & _). exact H. Qed.
Lemma ctx_wider k k' D rho s : ctx k D rho s -> (k <= k')%nat -> ctx k' D rho s.
Proof. intros ((A & A0) & B & C & H) G. split; [split; assumption|]. split; [eapply older_wider; eauto|]. auto. Qed.
Lemma ctx_idle k D rho s s' : ctx k D rho s -> idle s s' -> ctx k D rho s'.
Proof.
  intros ((A & A0) & B & C & H) G. split; [split; assumption|]. split; [exact B|]. split; [eapply idle_live; eauto|]. intros x I. destruct (H x I) as (v & P & Q). exists v.
  split; [exact P|]. now rewrite (idle_local _ _ _ G).
Qed.
Lemma ctx_runs k k1 k2 D rho s l c s' bs : ctx k D rho s -> (k <= k1)%nat -> (k1 <= k2)%nat -> fine l -> writes_ok k1 k2 bs l -> apart bs D -> runs l s c s' -> ctx k2 D rho s'.
Proof.
  intros ((A & A0) & B & C & H) K1 K2 HF HW HA' HR. split; [split; assumption|]. split; [eapply older_wider; eauto; lia|]. split; [eapply runs_live; [|eassumption|eassumption]; assumption|].
  intros x I. destruct (H x I) as (v & P & Q). exists v. split; [exact P|]. rewrite <- Q. eapply runs_keep; eauto; [apply C|]. intro W.
  apply HW in W as [W|W]; [eapply older_new; eauto|]. eapply HA'; eauto.
Qed.
Lemma ctx_wrote k k' D rho s x v s' : ctx k D rho s -> wrote (num x) v s s' -> zlen (s_frame s') = zlen (s_frame s) -> In x L -> ~ In x D -> (k <= k')%nat -> ctx k' D rho s'.
Proof.
  intros ((A & A0) & B & C & H) W Q Hx N K. split; [split; assumption|]. split; [eapply older_wider; eauto|]. split; [eapply quiet_live; [apply W| |exact Q|exact C]|].
  { intros i [<-|[]]. exists x. split; [reflexivity|]. split; [exact Hx|]. intro I. apply N, A0, I. }
  intros y I. destruct (H y I) as (u & P & R). exists u. split; [exact P|]. rewrite <- R. apply (wrote_other x v); auto. intros ->. auto.
Qed.

Lemma keep_op t k k1 k2 o bs l s c s' D : static_ob t k k1 o -> safe D t -> writes_ok k1 k2 bs l -> older k D -> older k bs -> apart bs D -> (k <= k1)%nat ->
  fine l -> fine_op (ob_op o) -> live s -> runs l s c s' -> value_at E s' (iop (ob_op o)) = value_at E s (iop (ob_op o)).
Proof.
  intros (_ & _ & HO) HS HW O1 O2 HP K HF FO HLv HR. destruct (ob_op o) as [y|b|t']; try reflexivity.
  cbn. replace (local s' (num y)) with (local s (num y)); [reflexivity|]. symmetry. eapply runs_keep; eauto; [apply HLv|apply FO; now left|].
  intro W. destruct (HO y (or_introl eq_refl)) as [G| ->].
  - apply HW in W as [W|W]; [exact (new_apart _ _ _ _ _ G W (le_n _))|]. exact (older_new k k k1 bs y O2 (le_n _) G W).
  - cbn [safe] in HS. apply HW in W as [W|W]; [exact (older_new k k1 k2 D y O1 K W HS)|]. exact (HP y W HS).
Qed.

Notation ev := (eval (e_fops E) call rules).
Notation evs := (evals (e_fops E) call rules).
Notation evi := (eval_items (e_fops E) call rules).
Notation sol := (sols (e_fops E) call rules).

Lemma evals_cons rho t l : evs rho (TCons t l) = match ev rho t, evs rho l with Some v, Some vs => Some (v :: vs) | _, _ => None end.
Proof. reflexivity. Qed.
Lemma items_eq rho k v l : evi rho (Item k v l) = match ev rho k, ev rho v, evi rho l with Some x, Some y, Some r => Some ((x, y) :: r) | _, _, _ => None end.
Proof. reflexivity. Qed.
Definition gives (v : option value) (o : nop) (c : code) (s' : state) : Prop :=
  match v with Some u => c = CContinue /\ value_at E s' (iop o) = Some u | None => c = CUndefined end.
Definition dyn_term (t : term) : Prop := forall k k' o D rho s c s', lower k t = (k', o) -> safe D t -> older k (binds t) -> ctx k D rho s ->
  fine (ob_code o) -> fine_op (ob_op o) -> runs (ob_code o) s c s' -> gives (ev rho t) (ob_op o) c s'.
Lemma dyn_operand t k k' o D rho s c s' : dyn_term t -> lower k t = (k', o) -> safe D t -> older k (binds t) -> ctx k D rho s ->
  fine (ob_code (as_operand t o)) -> fine_op (ob_op (as_operand t o)) -> runs (ob_code (as_operand t o)) s c s' -> gives (ev rho t) (ob_op (as_operand t o)) c s'.
Proof.
  intros IH HL' HS HO HC HF HG HR. destruct t; try (eapply IH; eauto; fail). cbn [as_operand ob_code ob_op] in *. apply runs_nil in HR as [-> ->]. cbn [eval gives].
  split; [reflexivity|]. apply known_value. apply HG. now left.
Qed.
(** What a term leaves alone. *)
Lemma after_term t k k' o D rho s c s' : lower k t = (k', o) -> safe D t -> ctx k D rho s -> fine (ob_code o) -> runs (ob_code o) s c s' -> ctx k' D rho s'.
Proof.
  intros HL' HS HC HF HR. pose proof (static_t t _ _ _ HL') as (K & W & _). eapply (ctx_runs k k k' D rho s _ c s' (binds t)); eauto. intros y I. eapply (proj1 safe_binds); eauto.
Qed.
Lemma after_operand t k k' o D rho s c s' : lower k t = (k', o) -> safe D t -> ctx k D rho s -> fine (ob_code (as_operand t o)) -> runs (ob_code (as_operand t o)) s c s' -> ctx k' D rho s'.
Proof.
  intros HL' HS HC HF HR. pose proof (static_t t _ _ _ HL') as (K & W). apply static_operand in W as (W & _). eapply (ctx_runs k k k' D rho s _ c s' (binds t)); eauto. intros y I. eapply (proj1 safe_binds); eauto.
Qed.
(** Two and three operands one after the other. *)
Lemma two_terms (a b : term) (fa fb : opblock -> opblock) k k1 k2 oa ob D rho s c s' :
  (fa = (fun o => o) \/ fa = as_operand a) -> (fb = (fun o => o) \/ fb = as_operand b) ->
  dyn_term a -> dyn_term b -> lower k a = (k1, oa) -> lower k1 b = (k2, ob) -> safe D a -> safe D b -> older k (binds a) -> older k (binds b) -> ctx k D rho s ->
  fine (ob_code (fa oa)) -> fine (ob_code (fb ob)) -> fine_op (ob_op (fa oa)) -> fine_op (ob_op (fb ob)) -> runs (ob_code (fa oa) ++ ob_code (fb ob)) s c s' ->
  match ev rho a, ev rho b with
  | Some x, Some y => c = CContinue /\ value_at E s' (iop (ob_op (fa oa))) = Some x /\ value_at E s' (iop (ob_op (fb ob))) = Some y /\ ctx k2 D rho s'
  | _, _ => c = CUndefined
  end.
Proof.
  intros Qa Qb IHa IHb La Lb Sa Sb Oa Ob HC Fa Fb Ga Gb HR.
  pose proof (static_t a _ _ _ La) as (Ka & Wa). pose proof (static_t b _ _ _ Lb) as (Kb & Wb).
  assert (Wa' : static_ob a k k1 (fa oa)) by (destruct Qa as [-> | ->]; [exact Wa|now apply static_operand]).
  assert (Wb' : static_ob b k1 k2 (fb ob)) by (destruct Qb as [-> | ->]; [exact Wb|now apply static_operand]).
  assert (Ab : apart (binds b) D) by exact (proj1 safe_binds b D Sb). assert (Aa : apart (binds a) D) by exact (proj1 safe_binds a D Sa).
  apply runs_app in HR as (c1 & s1 & R1 & G).
  assert (V1 : gives (ev rho a) (ob_op (fa oa)) c1 s1) by (destruct Qa as [-> | ->]; [eapply IHa|eapply dyn_operand]; eauto).
  assert (C1 : ctx k1 D rho s1) by (eapply (ctx_runs k k k1 D rho s (ob_code (fa oa)) _ _ (binds a)); try eassumption; [lia|apply Wa']).
  destruct (ev rho a) as [x|]; [|cbn in V1; subst; destruct G as [[G _]|(_ & -> & _)]; [discriminate|exact eq_refl]].
  destruct V1 as [-> V1]. destruct G as [[_ R2]|(G & _)]; [|discriminate].
  assert (V2 : gives (ev rho b) (ob_op (fb ob)) c s') by (destruct Qb as [-> | ->]; [eapply IHb|eapply dyn_operand]; eauto; eapply older_wider; eauto).
  destruct (ev rho b) as [y|]; [|exact V2]. destruct V2 as [-> V2]. split; [reflexivity|]. split; [|split; [exact V2|eapply (ctx_runs k1 k1 k2 D rho s1 (ob_code (fb ob)) _ _ (binds b)); try eassumption; [lia|apply Wb']]].
  rewrite <- V1. eapply (keep_op a k k1 k2 (fa oa) (binds b)); eauto; try apply Wb'; [apply HC|apply C1].
Qed.

Lemma runs_len l s c s' : runs l s c s' -> zlen (s_frame s') = zlen (s_frame s).
Proof. intros (m & b & _ & HR & _). eapply len_stmts; eauto. Qed.
Lemma value_local x v s : local s (num x) = Some v -> value_at E s (iop (OLocal x)) = v.
Proof. intro H. cbn. now rewrite H. Qed.
Lemma value_wrote x v s s' : wrote (num x) v s s' -> value_at E s' (iop (OLocal x)) = v.
Proof. intros [_ H]. cbn. now rewrite H. Qed.
Ltac op_in F := apply (fine_use _ _ F); intros ? ?; cbn [locals_in strings_in]; repeat rewrite in_app_iff; cbn [In]; tauto.
Ltac local_in F := apply (fine_at _ _ F); cbn [locals_in]; repeat rewrite in_app_iff; cbn [In]; tauto.

(** *** Elements and items.  [add] adds to the collection in [x], which [wrap] makes from what is there. *)
Definition adds {A B} (x : str) (wrap : A -> value) (step : A -> B -> A) (add : nir) (here : state -> option B) : Prop :=
  forall s c s' acc u, runs [add] s c s' -> local s (num x) = Some (Some (wrap acc)) -> here s = Some u ->
    c = CContinue /\ wrote (num x) (Some (wrap (step acc u))) s s'.
Definition dyn_elems (l : terms) : Prop := forall (wrap : list value -> value) (step : list value -> value -> list value) (x : str) (add : nop -> nir) k k' cd D rho s c s' acc,
  (forall o, writes (add o) = [x]) -> (forall o, nesting (add o) = false) -> (forall o, fine [add o] -> fine_op o) ->
  (forall o, fine_op o -> adds x wrap step (add o) (fun s => value_at E s (iop o))) ->
  lower_elems add k l = (k', cd) -> safes D l -> older k (binds_list l) -> ctx k D rho s -> fine cd -> In x L -> ~ In x D -> older k [x] -> ~ In x (binds_list l) ->
  local s (num x) = Some (Some (wrap acc)) -> runs cd s c s' ->
  match evs rho l with
  | Some vs => c = CContinue /\ local s' (num x) = Some (Some (wrap (fold_left step vs acc)))
  | None => c = CUndefined
  end.
Definition dyn_args (l : terms) : Prop := forall k k' ops cd D rho s c s', lower_args k l = (k', ops, cd) -> safes D l -> older k (binds_list l) -> ctx k D rho s ->
  fine cd -> Forall fine_op ops -> runs cd s c s' ->
  match evs rho l with
  | Some vs => c = CContinue /\ Forall2 (fun o v => value_at E s' (iop o) = Some v) ops vs
  | None => c = CUndefined
  end.
Definition dyn_items (l : items) : Prop := forall x k k' cd D rho s c s' acc,
  lower_items x k l = (k', cd) -> safe_items D l -> older k (binds_items l) -> ctx k D rho s -> fine cd -> In x L -> ~ In x D -> older k [x] -> ~ In x (binds_items l) ->
  local s (num x) = Some (Some (VObject acc)) -> runs cd s c s' ->
  match evi rho l with
  | Some kvs => c = CContinue /\ local s' (num x) = Some (Some (VObject (fold_left (fun o kv => put_item (e_fops E) o (fst kv) (snd kv)) kvs acc)))
  | None => c = CUndefined
  end.

Lemma older_app k a b : older k (a ++ b) -> older k a /\ older k b.
Proof. intro H. split; intros p j I; apply (H p j), in_or_app; auto. Qed.
Lemma not_new x k k' : older k [x] -> new k k' x -> False.
Proof. intros H (p & j & A & ->). specialize (H p j (or_introl eq_refl)). lia. Qed.

Lemma elems_nil : dyn_elems TNil.
Proof.
  intros wrap step x add k k' cd D rho s c s' acc _ _ _ _ HL' _ _ _ _ _ _ _ _ HX HR. injection HL' as <- <-. apply runs_nil in HR as [-> ->]. cbn. auto.
Qed.
Lemma elems_cons t l : dyn_term t -> dyn_elems l -> dyn_elems (TCons t l).
Proof.
  intros IHt IHl wrap step x add k k' cd D rho s c s' acc HW HN HFO HAdd HL' [S1 S2] HO HC HF Hx NxD Ox Nxb HX HR.
  cbn [lower_elems] in HL'. destruct (lower k t) as [k1 o] eqn:Et. destruct (lower_elems add k1 l) as [k2 c'] eqn:El. injection HL' as <- <-.
  cbn [binds_list] in HO, Nxb. apply older_app in HO as [O1 O2]. rewrite in_app_iff in Nxb.
  apply fine_app in HF as [F1 F2]. apply fine_cons in F2 as [F2 F3]. pose proof (static_t t _ _ _ Et) as (K & W & WF & WO).
  apply runs_app in HR as (c1 & s1 & R1 & G). rewrite evals_cons.
  pose proof (IHt _ _ _ _ _ _ _ _ Et S1 O1 HC F1 (HFO _ F2) R1) as V1.
  destruct (ev rho t) as [v|]; [|cbn in V1; subst; destruct G as [[G _]|(_ & -> & _)]; [discriminate|exact eq_refl]].
  destruct V1 as [-> V1]. destruct G as [[_ R2]|(G & _)]; [|discriminate].
  assert (X1 : local s1 (num x) = Some (Some (wrap acc))).
  { rewrite <- HX. eapply runs_keep; eauto; [apply HC|]. intro I. apply W in I as [I|I]; [exact (not_new _ _ _ Ox I)|tauto]. }
  assert (C1 : ctx k1 D rho s1) by (eapply after_term; eauto).
  change (add (ob_op o) :: c') with ([add (ob_op o)] ++ c') in R2. apply runs_app in R2 as (c2 & s2 & R2 & G).
  destruct (HAdd _ (HFO _ F2) _ _ _ _ _ R2 X1 V1) as [-> W2]. destruct G as [[_ R3]|(G & _)]; [|discriminate].
  assert (C2 : ctx k1 D rho s2) by (eapply ctx_wrote; eauto; eapply runs_len; eauto).
  pose proof (IHl wrap step x add _ _ _ _ _ _ _ _ (step acc v) HW HN HFO HAdd El S2 (older_wider _ _ _ O2 K) C2 F3 Hx NxD (older_wider _ _ _ Ox K) (fun I => Nxb (or_intror I)) (proj2 W2) R3) as H.
  destruct (evs rho l) as [vs|]; [|exact H]. exact H.
Qed.
Lemma args_nil : dyn_args TNil.
Proof. intros k k' ops cd D rho s c s' HL' _ _ _ _ _ HR. injection HL' as <- <- <-. apply runs_nil in HR as [-> ->]. cbn. split; [reflexivity|constructor]. Qed.
Lemma args_cons t l : dyn_term t -> dyn_args l -> dyn_args (TCons t l).
Proof.
  intros IHt IHl k k' ops cd D rho s c s' HL' [S1 S2] HO HC HF HG HR.
  cbn [lower_args] in HL'. destruct (lower k t) as [k1 o] eqn:Et. destruct (lower_args k1 l) as [[k2 ops'] c'] eqn:El. injection HL' as <- <- <-.
  cbn [binds_list] in HO. apply older_app in HO as [O1 O2]. apply fine_app in HF as [F1 F2]. inversion HG as [|? ? G1 G2]; subst.
  pose proof (static_t t _ _ _ Et) as (K & W). apply static_operand in W. pose proof (proj2 (static_l l) _ _ _ _ El) as (K2 & _ & W2).
  apply runs_app in HR as (c1 & s1 & R1 & G). rewrite evals_cons.
  pose proof (dyn_operand _ _ _ _ _ _ _ _ _ IHt Et S1 O1 HC F1 G1 R1) as V1.
  destruct (ev rho t) as [v|]; [|cbn in V1; subst; destruct G as [[G _]|(_ & -> & _)]; [discriminate|exact eq_refl]].
  destruct V1 as [-> V1]. destruct G as [[_ R2]|(G & _)]; [|discriminate].
  assert (C1 : ctx k1 D rho s1) by (eapply after_operand; eauto).
  pose proof (IHl _ _ _ _ _ _ _ _ _ El S2 (older_wider _ _ _ O2 K) C1 F2 G2 R2) as H.
  destruct (evs rho l) as [vs|]; [|exact H]. destruct H as [-> H]. split; [reflexivity|]. constructor; [|exact H].
  rewrite <- V1. eapply (keep_op t k k1 k2 _ (binds_list l)); eauto; [apply HC|exact (proj1 (proj2 safe_binds) l D S2)|apply C1].
Qed.
Lemma items_nil : dyn_items NoItems.
Proof. intros x k k' cd D rho s c s' acc HL' _ _ _ _ _ _ _ _ HX HR. injection HL' as <- <-. apply runs_nil in HR as [-> ->]. cbn. auto. Qed.
Lemma items_cons i v l : dyn_term i -> dyn_term v -> dyn_items l -> dyn_items (Item i v l).
Proof.
  intros IHi IHv IHl x k k' cd D rho s c s' acc HL' (S1 & S2 & S3) HO HC HF Hx NxD Ox Nxb HX HR.
  cbn [lower_items] in HL'. destruct (lower k i) as [k1 oi] eqn:Ei. destruct (lower k1 v) as [k2 ov] eqn:Ev. destruct (lower_items x k2 l) as [k3 c'] eqn:El. injection HL' as <- <-.
  cbn [binds_items] in HO, Nxb. apply older_app in HO as [O1 O2]. apply older_app in O2 as [O2 O3]. rewrite !in_app_iff in Nxb.
  rewrite app_assoc in HF, HR. apply fine_app in HF as [F1 F2]. apply fine_cons in F2 as [F2 F3].
  pose proof (static_t i _ _ _ Ei) as (K1 & W1 & _). pose proof (static_t v _ _ _ Ev) as (K2 & W2 & _).
  assert (Gi : fine_op (ob_op oi)) by op_in F2. assert (Gv : fine_op (ob_op ov)) by op_in F2.
  apply runs_app in HR as (c1 & s1 & R1 & G). rewrite items_eq. pose proof (proj1 (fine_app _ _) F1) as [F1a F1b].
  pose proof (two_terms i v (fun o => o) (fun o => o) k k1 k2 oi ov D rho s c1 s1 (or_introl eq_refl) (or_introl eq_refl) IHi IHv Ei Ev S1 S2 O1 O2 HC F1a F1b Gi Gv R1) as V1.
  destruct (ev rho i) as [a|]; [|subst; destruct G as [[G _]|(_ & -> & _)]; [discriminate|exact eq_refl]].
  destruct (ev rho v) as [b|]; [|subst; destruct G as [[G _]|(_ & -> & _)]; [discriminate|exact eq_refl]].
  destruct V1 as (-> & Va & Vb & C1). destruct G as [[_ R2]|(G & _)]; [|discriminate].
  assert (X1 : local s1 (num x) = Some (Some (VObject acc))).
  { rewrite <- HX. eapply runs_keep; eauto; [apply HC|]. intro I. apply in_flat_app in I as [I|I].
    - apply W1 in I as [I|I]; [exact (not_new _ _ _ Ox I)|tauto].
    - apply W2 in I as [I|I]; [exact (not_new _ _ _ (older_wider _ _ _ Ox K1) I)|tauto]. }
  match type of R2 with runs (?a :: ?b) _ _ _ => change (a :: b) with ([a] ++ b) in R2 end. apply runs_app in R2 as (c2 & s2 & R2 & G).
  destruct (runs_insert false _ _ _ _ _ _ _ _ _ Gi Gv R2 X1 Va Vb) as [-> W3]. destruct G as [[_ R3]|(G & _)]; [|discriminate].
  assert (C2 : ctx k2 D rho s2) by (eapply ctx_wrote; eauto; eapply runs_len; eauto).
  assert (K : (k <= k2)%nat) by lia.
  pose proof (IHl x _ _ _ _ _ _ _ _ _ El S3 (older_wider _ _ _ O3 K) C2 F3 Hx NxD (older_wider _ _ _ Ox K) (fun I => Nxb (or_intror (or_intror I))) (proj2 W3) R3) as H.
  destruct (evi rho l) as [kvs|]; exact H.
Qed.

(** *** Terms without queries *)
Lemma fresh_not k p j l : older k l -> (k <= j)%nat -> ~ In (tmp p j) l.
Proof. intros H A I. apply H in I. lia. Qed.
Ltac fresh_in H := apply (fresh_not _ _ _ _ H); lia.
Lemma ctx_older k D rho s : ctx k D rho s -> older k D. Proof. intros (_ & H & _). exact H. Qed.
Lemma older_self k p : older (S k) [tmp p k].
Proof. intros q j [H|[]]. apply tmp_inj in H. lia. Qed.
(** A new local is written. *)
Lemma ctx_new k k' D rho s p j v s' : ctx k D rho s -> wrote (num (tmp p j)) v s s' -> zlen (s_frame s') = zlen (s_frame s) -> In (tmp p j) L -> (k <= j)%nat -> (k <= k')%nat -> ctx k' D rho s'.
Proof. intros HC HW HZ HX A B. eapply ctx_wrote; eauto. pose proof (ctx_older _ _ _ _ HC) as HO. fresh_in HO. Qed.
Ltac undef G := destruct G as [[G _]|(_ & -> & _)]; [discriminate|exact eq_refl].
Ltac contd G R := destruct G as [[_ R]|(G & _)]; [|discriminate].

Lemma term_string t : dyn_term (TmString t).
Proof.
  intros k k' o D rho s c s' [= <- <-] HS _ _ _ HG HR. apply runs_nil in HR as [-> ->]. split; [reflexivity|]. cbn [ob_op] in *. rewrite (known_value E num sg); [|apply HG; now left].
  cbn [safe] in HS. now rewrite HS.
Qed.
Lemma term_number t : dyn_term (TmNumber t).
Proof.
  intros k k' o D rho s c s' [= <- <-] HS _ _ HF HG HR. cbn [ob_code ob_op] in *. apply runs_ref in HR as [-> W]; [|apply HF; now left].
  split; [reflexivity|]. exact (value_wrote _ _ _ _ W).
Qed.
Lemma term_bool b : dyn_term (TmBool b).
Proof. intros k k' o D rho s c s' [= <- <-] HS _ _ HF HG HR. apply runs_nil in HR as [-> ->]. split; reflexivity. Qed.
Lemma term_null : dyn_term TmNull.
Proof.
  intros k k' o D rho s c s' [= <- <-] HS _ _ HF HG HR. cbn [ob_code ob_op] in *. apply runs_null in HR as [-> W]. split; [reflexivity|]. exact (value_wrote _ _ _ _ W).
Qed.
Lemma term_var x : dyn_term (TmVar x).
Proof.
  intros k k' o D rho s c s' [= <- <-] HS _ (_ & _ & _ & HA') HF HG HR. apply runs_nil in HR as [-> ->]. cbn [safe] in HS. destruct (HA' x HS) as (v & P & Q).
  cbn [eval]. rewrite P. split; [reflexivity|]. cbn. now rewrite Q.
Qed.
Lemma fold_snoc {A} (vs : list A) : forall acc, fold_left (fun a u => a ++ [u]) vs acc = acc ++ vs.
Proof. induction vs as [|v vs IH]; intro acc; cbn [fold_left]; [now rewrite app_nil_r|]. rewrite IH, <- app_assoc. reflexivity. Qed.
Lemma term_array l : dyn_elems l -> dyn_term (TmArray l).
Proof.
  intros IH k k' o D rho s c s' HL' HS HO HC HF HG HR. cbn [lower] in HL'. destruct (lower_elems _ (S k) l) as [k1 cd] eqn:El. injection HL' as <- <-.
  cbn [ob_code ob_op binds safe] in *. apply fine_cons in HF as [F1 F2]. assert (Hx : In (tmp $"array" k) L) by local_in F1.
  match type of HR with runs (?a :: ?b) _ _ _ => change (a :: b) with ([a] ++ b) in HR end. apply runs_app in HR as (c1 & s1 & R1 & G).
  pose proof (runs_len _ _ _ _ R1) as Z1. apply runs_makearray in R1 as [-> W1]. contd G R2.
  assert (C1 : ctx (S k) D rho s1) by (eapply ctx_new; eauto).
  pose proof (ctx_older _ _ _ _ HC) as OD.
  pose proof (IH VArray (fun a u => a ++ [u]) (tmp $"array" k) (IArrayAppend (tmp $"array" k)) (S k) k1 cd D rho s1 c s' []) as H.
  change (ev rho (TmArray l)) with (option_map VArray (evs rho l)).
  assert (H' : match evs rho l with Some vs => c = CContinue /\ local s' (num (tmp $"array" k)) = Some (Some (VArray (fold_left (fun a u => a ++ [u]) vs []))) | None => c = CUndefined end).
  { apply H; auto.
    - intros o F. op_in F.
    - intros o F t c0 t' acc u R X V. exact (runs_append _ _ _ _ _ _ _ F R X V).
    - eapply older_wider; eauto.
    - fresh_in OD.
    - apply older_self.
    - fresh_in HO.
    - apply W1. }
  destruct (evs rho l) as [vs|]; [|exact H']. destruct H' as [-> H']. cbn [option_map gives]. split; [reflexivity|]. rewrite fold_snoc in H'. cbn [app] in H'. exact (value_local _ _ _ H').
Qed.
Lemma term_set l : dyn_elems l -> dyn_term (TmSet l).
Proof.
  intros IH k k' o D rho s c s' HL' HS HO HC HF HG HR. cbn [lower] in HL'. destruct (lower_elems _ (S k) l) as [k1 cd] eqn:El. injection HL' as <- <-.
  cbn [ob_code ob_op binds safe] in *. apply fine_cons in HF as [F1 F2]. assert (Hx : In (tmp $"set" k) L) by local_in F1.
  match type of HR with runs (?a :: ?b) _ _ _ => change (a :: b) with ([a] ++ b) in HR end. apply runs_app in HR as (c1 & s1 & R1 & G).
  pose proof (runs_len _ _ _ _ R1) as Z1. apply runs_makeset in R1 as [-> W1]. contd G R2.
  assert (C1 : ctx (S k) D rho s1) by (eapply ctx_new; eauto).
  pose proof (ctx_older _ _ _ _ HC) as OD.
  pose proof (IH VSet (add_member (e_fops E)) (tmp $"set" k) (fun o => ISetAdd o (tmp $"set" k)) (S k) k1 cd D rho s1 c s' []) as H.
  change (ev rho (TmSet l)) with (option_map (fun vs => VSet (fold_left (add_member (e_fops E)) vs [])) (evs rho l)).
  assert (H' : match evs rho l with Some vs => c = CContinue /\ local s' (num (tmp $"set" k)) = Some (Some (VSet (fold_left (add_member (e_fops E)) vs []))) | None => c = CUndefined end).
  { apply H; auto.
    - intros o F. op_in F.
    - intros o F t c0 t' acc u R X V. exact (runs_add _ _ _ _ _ _ _ F R X V).
    - eapply older_wider; eauto.
    - fresh_in OD.
    - apply older_self.
    - fresh_in HO.
    - apply W1. }
  destruct (evs rho l) as [vs|]; [|exact H']. destruct H' as [-> H']. cbn [option_map gives]. split; [reflexivity|]. exact (value_local _ _ _ H').
Qed.
Lemma term_object l : dyn_items l -> dyn_term (TmObject l).
Proof.
  intros IH k k' o D rho s c s' HL' HS HO HC HF HG HR. cbn [lower] in HL'. destruct (lower_items _ (S k) l) as [k1 cd] eqn:El. injection HL' as <- <-.
  cbn [ob_code ob_op binds safe] in *. apply fine_cons in HF as [F1 F2]. assert (Hx : In (tmp $"object" k) L) by local_in F1.
  match type of HR with runs (?a :: ?b) _ _ _ => change (a :: b) with ([a] ++ b) in HR end. apply runs_app in HR as (c1 & s1 & R1 & G).
  pose proof (runs_len _ _ _ _ R1) as Z1. apply runs_makeobject in R1 as [-> W1]. contd G R2.
  assert (C1 : ctx (S k) D rho s1) by (eapply ctx_new; eauto).
  pose proof (ctx_older _ _ _ _ HC) as OD.
  pose proof (IH (tmp $"object" k) (S k) k1 cd D rho s1 c s' []) as H.
  change (ev rho (TmObject l)) with (option_map (fun kvs => VObject (fold_left (fun o kv => put_item (e_fops E) o (fst kv) (snd kv)) kvs [])) (evi rho l)).
  assert (H' : match evi rho l with Some kvs => c = CContinue /\ local s' (num (tmp $"object" k)) = Some (Some (VObject (fold_left (fun o kv => put_item (e_fops E) o (fst kv) (snd kv)) kvs []))) | None => c = CUndefined end).
  { apply H; auto.
    - eapply older_wider; eauto.
    - fresh_in OD.
    - apply older_self.
    - fresh_in HO.
    - apply W1. }
  destruct (evi rho l) as [vs|]; [|exact H']. destruct H' as [-> H']. cbn [option_map gives]. split; [reflexivity|]. exact (value_local _ _ _ H').
Qed.
Lemma term_dot a b : dyn_term a -> dyn_term b -> dyn_term (TmDot a b).
Proof.
  intros IHa IHb k k' o D rho s c s' HL' [Sa Sb] HO HC HF HG HR. cbn [lower] in HL'. destruct (lower k a) as [k1 oa] eqn:Ea. destruct (lower k1 b) as [k2 ob] eqn:Eb.
  injection HL' as <- <-. cbn [ob_code ob_op binds] in *. apply older_app in HO as [O1 O2]. rewrite app_assoc in HR. apply fine_app in HF as [Fa F2]. apply fine_app in F2 as [Fb F2].
  assert (Ga : fine_op (ob_op oa)) by op_in F2. assert (Gb : fine_op (ob_op ob)) by op_in F2.
  apply runs_app in HR as (c1 & s1 & R1 & G).
  pose proof (two_terms a b (fun o => o) (fun o => o) k k1 k2 oa ob D rho s c1 s1 (or_introl eq_refl) (or_introl eq_refl) IHa IHb Ea Eb Sa Sb O1 O2 HC Fa Fb Ga Gb R1) as V.
  change (ev rho (TmDot a b)) with (match ev rho a, ev rho b with Some x, Some y => select (e_fops E) x y | _, _ => None end).
  destruct (ev rho a) as [x|]; [|subst; undef G]. destruct (ev rho b) as [y|]; [|subst; undef G]. destruct V as (-> & Va & Vb & C1). contd G R2.
  pose proof (runs_dot _ _ _ _ _ _ _ _ Ga Gb R2 Va Vb) as H. destruct (select (e_fops E) x y) as [v|]; [|exact H]. destruct H as [-> W]. split; [reflexivity|]. exact (value_wrote _ _ _ _ W).
Qed.
Lemma term_call f l : dyn_args l -> dyn_term (TmCall f l).
Proof.
  intros IH k k' o D rho s c s' HL' HS HO HC HF HG HR. cbn [lower] in HL'. destruct (lower_args (S k) l) as [[k1 ops] cd] eqn:El. injection HL' as <- <-.
  cbn [ob_code ob_op binds safe] in *. apply fine_app in HF as [F1 F2]. apply fine_call in F2 as (F2 & Hx & FB); [|now intros [? ?]]. apply runs_app in HR as (c1 & s1 & R1 & G).
  pose proof (IH _ _ _ _ D rho s c1 s1 El HS (older_wider _ _ _ HO (le_S _ _ (le_n _))) (ctx_wider _ _ _ _ _ HC (le_S _ _ (le_n _))) F1 F2 R1) as H.
  change (ev rho (TmCall f l)) with (option_map (call f) (evs rho l)).
  destruct (evs rho l) as [vs|]; [|subst; undef G]. destruct H as [-> H]. contd G R2. apply (runs_call _ _ _ _ _ _ vs F2 FB) in R2 as [-> W]; [|exact H].
  split; [reflexivity|]. exact (value_wrote _ _ _ _ W).
Qed.
Lemma number_zero : number $"0" = VInt $"0". Proof. reflexivity. Qed.
Lemma term_minus a : dyn_term a -> dyn_term (TmMinus a).
Proof.
  intros IHa k k' o D rho s c s' HL' Sa HO HC HF HG HR. cbn [lower] in HL'. destruct (lower k a) as [k1 oa] eqn:Ea.
  injection HL' as <- <-. cbn [ob_code ob_op binds safe] in *. apply fine_app in HF as [Fa F2]. apply fine_cons in F2 as [F2 F3]. apply fine_call in F3 as (F3 & Hx & FB); [|now intros [? ?]].
  inversion F3 as [|? ? G1 F4]; subst. inversion F4 as [|? ? G2 _]; subst.
  apply runs_app in HR as (c1 & s1 & R1 & G). pose proof (IHa _ _ _ _ _ _ _ _ Ea Sa HO HC Fa G2 R1) as V.
  change (ev rho (TmMinus a)) with (option_map (fun v => call $"minus" [VInt $"0"; v]) (ev rho a)).
  destruct (ev rho a) as [v|]; [|cbn in V; subst; undef G]. destruct V as [-> V]. contd G R2.
  match type of R2 with runs (?a :: ?b) _ _ _ => change (a :: b) with ([a] ++ b) in R2 end. apply runs_app in R2 as (c2 & s2 & R2 & G). pose proof R2 as R2'. apply runs_number in R2 as [-> W]. contd G R3.
  apply (runs_call _ _ _ _ _ _ [VInt $"0"; v] F3 FB) in R3 as [-> W2].
  - split; [reflexivity|]. exact (value_wrote _ _ _ _ W2).
  - constructor; [|constructor; [|constructor]].
    + rewrite (value_wrote _ _ _ _ W). reflexivity.
    + rewrite <- V. pose proof (static_t a _ _ _ Ea) as (K & WS). eapply (keep_op a k k1 (S (S k1)) oa []); eauto.
      * intros y [<-|[]]. left. apply new_tmp. lia.
      * apply (ctx_older _ _ _ _ HC).
      * intros p j [].
      * intros y [].
      * eapply runs_live; [|exact R1|apply HC]; auto.
Qed.
Lemma term_equal a b : dyn_term a -> dyn_term b -> dyn_term (TmEqual a b).
Proof.
  intros IHa IHb k k' o D rho s c s' HL' [Sa Sb] HO HC HF HG HR. cbn [lower] in HL'. destruct (lower (S k) a) as [k1 oa] eqn:Ea. destruct (lower k1 b) as [k2 ob] eqn:Eb.
  injection HL' as <- <-. cbn [ob_code ob_op binds] in *. apply older_app in HO as [O1 O2]. rewrite app_assoc in HR. apply fine_app in HF as [Fa F2]. apply fine_app in F2 as [Fb F2].
  apply fine_cons in F2 as [F2 F3].
  assert (Ga : fine_op (ob_op (as_operand a oa))) by op_in F2. assert (Gb : fine_op (ob_op (as_operand b ob))) by op_in F2.
  apply runs_app in HR as (c1 & s1 & R1 & G). assert (K : (k <= S k)%nat) by lia.
  pose proof (two_terms a b (as_operand a) (as_operand b) (S k) k1 k2 oa ob D rho s c1 s1 (or_intror eq_refl) (or_intror eq_refl) IHa IHb Ea Eb Sa Sb
    (older_wider _ _ _ O1 K) (older_wider _ _ _ O2 K) (ctx_wider _ _ _ _ _ HC K) Fa Fb Ga Gb R1) as V.
  change (ev rho (TmEqual a b)) with (match ev rho a, ev rho b with Some x, Some y => if equal (e_fops E) x y then Some VTrue else None | _, _ => None end).
  destruct (ev rho a) as [x|]; [|subst; undef G]. destruct (ev rho b) as [y|]; [|subst; undef G]. destruct V as (-> & Va & Vb & C1). contd G R2.
  match type of R2 with runs (?a :: ?b) _ _ _ => change (a :: b) with ([a] ++ b) in R2 end. apply runs_app in R2 as (c2 & s2 & R2 & G).
  destruct (runs_equal _ _ _ _ _ _ _ Ga Gb R2 Va Vb) as (Q & _ & ->). destruct (equal (e_fops E) x y).
  - contd G R3. apply runs_truth in R3 as [-> W]. split; [reflexivity|]. exact (value_wrote _ _ _ _ W).
  - undef G.
Qed.
Lemma term_member v q : dyn_term v -> dyn_term q -> dyn_term (TmMember v q).
Proof.
  intros IHv IHs k k' o D rho s c s' HL' [Sv Ss] HO HC HF HG HR. cbn [lower] in HL'. destruct (lower (S k) q) as [k1 os] eqn:Es. destruct (lower k1 v) as [k2 ov] eqn:Ev.
  injection HL' as <- <-. cbn [ob_code ob_op binds] in *. apply older_app in HO as [O1 O2]. rewrite app_assoc in HR. apply fine_app in HF as [Fa F2]. apply fine_app in F2 as [Fb F2].
  apply fine_call in F2 as (F3 & Hx & FB); [|now intros [? ?]]. inversion F3 as [|? ? G1 F4]; subst. inversion F4 as [|? ? G2 _]; subst.
  apply runs_app in HR as (c1 & s1 & R1 & G). assert (K : (k <= S k)%nat) by lia.
  pose proof (two_terms q v (as_operand q) (as_operand v) (S k) k1 k2 os ov D rho s c1 s1 (or_intror eq_refl) (or_intror eq_refl) IHs IHv Es Ev Ss Sv
    (older_wider _ _ _ O2 K) (older_wider _ _ _ O1 K) (ctx_wider _ _ _ _ _ HC K) Fa Fb G2 G1 R1) as V.
  change (ev rho (TmMember v q)) with (match ev rho q, ev rho v with Some y, Some x => Some (call $"internal.member_2" [x; y]) | _, _ => None end).
  destruct (ev rho q) as [y|]; [|subst; undef G]. destruct (ev rho v) as [x|]; [|subst; undef G]. destruct V as (-> & Va & Vb & C1). contd G R2.
  apply (runs_call _ _ _ _ _ _ [x; y] F3 FB) in R2 as [-> W2]; [|auto]. split; [reflexivity|]. exact (value_wrote _ _ _ _ W2).
Qed.
Lemma term_member3 i v q : dyn_term i -> dyn_term v -> dyn_term q -> dyn_term (TmMember3 i v q).
Proof.
  intros IHi IHv IHs k k' o D rho s c s' HL' (Si & Sv & Ss) HO HC HF HG HR. cbn [lower] in HL'. destruct (lower (S k) q) as [k1 os] eqn:Es. destruct (lower k1 i) as [k2 oi] eqn:Ei.
  destruct (lower k2 v) as [k3 ov] eqn:Ev.
  injection HL' as <- <-. cbn [ob_code ob_op binds] in *. apply older_app in HO as [O1 O2]. apply older_app in O2 as [O2 O3]. apply fine_app in HF as [Fa F2]. apply fine_app in F2 as [Fb F2].
  apply fine_app in F2 as [Fc F2]. apply fine_call in F2 as (F3 & Hx & FB); [|now intros [? ?]]. inversion F3 as [|? ? G1 F4]; subst. inversion F4 as [|? ? G2 F5]; subst. inversion F5 as [|? ? G3 _]; subst.
  rewrite app_assoc in HR. apply runs_app in HR as (c1 & s1 & R1 & G). assert (K : (k <= S k)%nat) by lia.
  pose proof (two_terms q i (as_operand q) (as_operand i) (S k) k1 k2 os oi D rho s c1 s1 (or_intror eq_refl) (or_intror eq_refl) IHs IHi Es Ei Ss Si
    (older_wider _ _ _ O3 K) (older_wider _ _ _ O1 K) (ctx_wider _ _ _ _ _ HC K) Fa Fb G3 G1 R1) as V.
  change (ev rho (TmMember3 i v q)) with (match ev rho q, ev rho i, ev rho v with Some z, Some x, Some y => Some (call $"internal.member_3" [x; y; z]) | _, _, _ => None end).
  destruct (ev rho q) as [z|]; [|subst; undef G]. destruct (ev rho i) as [x|]; [|subst; undef G]. destruct V as (-> & Va & Vb & C1). contd G R2.
  pose proof (static_t q _ _ _ Es) as (K1 & W1). pose proof (static_t i _ _ _ Ei) as (K2 & W2). pose proof (static_t v _ _ _ Ev) as (K3 & W3).
  apply static_operand in W1, W2, W3.
  apply runs_app in R2 as (c2 & s2 & R2 & G). assert (K' : (k <= k2)%nat) by lia.
  pose proof (dyn_operand _ _ _ _ _ _ _ _ _ IHv Ev Sv (older_wider _ _ _ O2 K') C1 Fc G2 R2) as V.
  destruct (ev rho v) as [y|]; [|cbn in V; subst; undef G]. destruct V as [-> V]. contd G R3.
  assert (OD := ctx_older _ _ _ _ HC).
  apply (runs_call _ _ _ _ _ _ [x; y; z] F3 FB) in R3 as [-> W4].
  - split; [reflexivity|]. exact (value_wrote _ _ _ _ W4).
  - constructor; [|constructor; [exact V|constructor; [|constructor]]].
    + rewrite <- Vb. eapply (keep_op i k1 k2 k3 _ (binds v)); eauto; try apply W3; try (eapply older_wider; eauto; lia); [exact (proj1 safe_binds v D Sv)|apply C1].
    + rewrite <- Va. eapply (keep_op q (S k) k2 k3 _ (binds v)); eauto; try apply W3; try (eapply older_wider; eauto; lia); try lia; [|exact (proj1 safe_binds v D Sv)|apply C1].
      destruct W1 as (A1 & A2 & A3). split; [|split; [exact A2|]].
      * eapply writes_ok_wider; [exact A1|lia|lia|apply incl_refl].
      * intros u I. apply A3 in I as [I|I]; [left; eapply new_wider; eauto; lia|now right].
Qed.

(** *** Comprehensions *)
Definition dyn_query (q : query) : Prop := forall top k k' ls D rho tail s ts c s', lower_query top k q = (k', ls) -> safe_query D q -> older k (binds_query q) -> ctx k D rho s ->
  fine (flat_map lit_code ls) -> fine tail -> (forall y, In y (scope D q) -> ~ In y (flat_map writes tail)) -> meets (flat_map lit_code ls) tail s ts c s' ->
  Forall2 (fun r t => ctx k' (scope D q) r t) (sol rho q) ts.
Lemma query_code top k q k' ls : lower_query top k q = (k', ls) -> query_block ls = flat_map lit_code ls.
Proof. intro H. pose proof (static_q q _ _ _ _ H) as (_ & _ & F). exact (F [] (or_introl eq_refl)). Qed.

Definition tailed (x : str) (tail : list nir) (cur : option value) (t : state) (cur' : option value) : Prop :=
  local t (num x) = Some cur /\ exists c1 t', runs tail t c1 t' /\ local t' (num x) = Some cur'.
Lemma local_some x s : In x L -> n <= zlen (s_frame s) -> exists v, local s (num x) = Some v.
Proof.
  intros Hx Z. destruct (HL x Hx) as [R _]. unfold local, znth. destruct (Z.leb_spec 0 (num x)); [|lia]. destruct (Z.ltb_spec (num x) (zlen (s_frame s))); [|lia].
  cbn. destruct (nth_error (s_frame s) (Z.to_nat (num x))) eqn:En; [eauto|]. apply nth_error_None in En. unfold zlen in *. lia.
Qed.
Lemma local_range x s v : local s x = Some v -> 0 <= x < zlen (s_frame s).
Proof. unfold local, znth. destruct (Z.leb_spec 0 x); [|discriminate]. destruct (Z.ltb_spec x (zlen (s_frame s))); [lia|discriminate]. Qed.
Lemma range_local x s : 0 <= x < zlen (s_frame s) -> exists v, local s x = Some v.
Proof.
  intro R. unfold local, znth. destruct (Z.leb_spec 0 x); [|lia]. destruct (Z.ltb_spec x (zlen (s_frame s))); [|lia].
  cbn. destruct (nth_error (s_frame s) (Z.to_nat x)) eqn:En; [eauto|]. apply nth_error_None in En. unfold zlen in *. lia.
Qed.
Lemma meets_each x l tail s ts c s' cur : In x L -> fine l -> ~ In x (flat_map writes l) -> meets l tail s ts c s' -> In fn (s_stack s) -> local s (num x) = Some cur ->
  exists cur', local s' (num x) = Some cur' /\ chain (tailed x tail) cur ts cur'.
Proof.
  intros Hx HF HN HM I HX. destruct (meets_fold x (fun _ => True) (tailed x tail) l tail s ts c s' cur) as (cur' & _ & A & _ & C); auto; [|eauto].
  intros t c1 t' cur1 HR It Lt _. destruct (range_local (num x) t') as (v & V).
  - rewrite (runs_len _ _ _ _ HR). eapply local_range; eauto.
  - exists v. split; [exact V|]. split; [exact Logic.I|]. split; [exact Lt|]. eauto.
Qed.
Lemma chain_fold {A} x tail (wrap : A -> value) (step : A -> vals -> A) (P : vals -> state -> Prop) :
  (forall r t c1 t' acc, P r t -> runs tail t c1 t' -> local t (num x) = Some (Some (wrap acc)) -> local t' (num x) = Some (Some (wrap (step acc r)))) ->
  forall rs ts, Forall2 P rs ts -> forall acc cur', chain (tailed x tail) (Some (wrap acc)) ts cur' -> cur' = Some (wrap (fold_left step rs acc)).
Proof.
  intros H. induction 1 as [|r t rs ts H1 H2 IH]; intros acc cur' C; inversion C as [|? ? a1 ? ? (X & c1 & t' & R & X') C']; subst; [reflexivity|].
  rewrite (H _ _ _ _ _ H1 R X) in X'. injection X' as <-. apply IH. exact C'.
Qed.
Lemma comprehension {A} q k k1 ls D rho tail x s c s' (wrap : A -> value) (step : A -> vals -> A) acc :
  dyn_query q -> lower_query false k q = (k1, ls) -> safe_query D q -> older k (binds_query q) -> ctx k D rho s -> In x L -> ~ In x (binds_query q) -> older k [x] ->
  fine [IBlock [append_inner (query_block ls) tail]] -> (forall y, In y (scope D q) -> ~ In y (flat_map writes tail)) -> local s (num x) = Some (Some (wrap acc)) ->
  (forall r t c1 t' acc, ctx k1 (scope D q) r t -> fine tail -> runs tail t c1 t' -> local t (num x) = Some (Some (wrap acc)) -> local t' (num x) = Some (Some (wrap (step acc r)))) ->
  runs [IBlock [append_inner (query_block ls) tail]] s c s' -> c = CContinue /\ local s' (num x) = Some (Some (wrap (fold_left step (sol rho q) acc))).
Proof.
  intros IH HL' HS HO HC Hx Nx Ox HF HT HX Hstep HR. apply fine_block, fine_append in HF as [F1 F2].
  apply runs_block in HR as (-> & s0 & c1 & s1 & Q0 & FR0 & R & Q1 & FR1). split; [reflexivity|].
  assert (I0 : idle s s0) by (split; auto). assert (I1 : idle s1 s') by (split; auto).
  apply meets_runs in R as (ts & M). rewrite (query_code _ _ _ _ _ HL') in M, F1.
  pose proof (static_q q _ _ _ _ HL') as (K & W & _).
  pose proof (IH _ _ _ _ _ _ _ _ _ _ _ HL' HS HO (ctx_idle _ _ _ _ _ HC I0) F1 F2 HT M) as HQ.
  destruct (meets_each x _ _ _ _ _ _ (Some (wrap acc)) Hx F1 (fun I => match W x I with or_introl N => not_new _ _ _ Ox N | or_intror B => Nx B end) M (proj1 (idle_live _ _ I0 (ctx_live _ _ _ _ HC)))) as (cur' & X' & CH).
  { now rewrite (idle_local _ _ _ I0). }
  rewrite (idle_local _ _ _ I1), X'. f_equal. eapply (chain_fold x tail wrap step); [|exact HQ|exact CH]. intros r t c2 t' a H1 H2 H3. eapply Hstep; eauto.
Qed.
Lemma apart_scope D q t y : safe (scope D q) t -> In y (binds t) -> ~ In y (scope D q).
Proof. intro H. exact (proj1 safe_binds t _ H y). Qed.
(** The locals of the solutions are not written by the code of the head. *)
Lemma scope_older D q k : older k D -> older k (binds_query q) -> older k (scope D q).
Proof. intros H G p j I. apply scope_binds in I as [I|I]; [eapply H|eapply G]; eauto. Qed.
Lemma fold_snoc_map {A B} (f : A -> option B) l : forall acc,
  fold_left (fun acc r => match f r with Some x => acc ++ [x] | None => acc end) l acc = acc ++ flat_map (fun r => match f r with Some x => [x] | None => [] end) l.
Proof.
  induction l as [|r l IH]; intro acc; cbn [fold_left flat_map]; [now rewrite app_nil_r|]. rewrite IH. destruct (f r); [now rewrite <- app_assoc|reflexivity].
Qed.
Lemma fold_map {A B C} (f : A -> option B) (g : C -> B -> C) l : forall acc,
  fold_left (fun acc r => match f r with Some x => g acc x | None => acc end) l acc = fold_left g (flat_map (fun r => match f r with Some x => [x] | None => [] end) l) acc.
Proof.
  induction l as [|r l IH]; intro acc; cbn [fold_left flat_map]; [reflexivity|]. rewrite IH. destruct (f r); reflexivity.
Qed.
Ltac split_run HR c1 s1 R1 G := match type of HR with runs (?a :: ?b) _ _ _ => change (a :: b) with ([a] ++ b) in HR | _ => idtac end; apply runs_app in HR as (c1 & s1 & R1 & G).

(** One head, stored by [add]. *)
Lemma head_tail {A} v k1 k2 ov0 q D (x : str) (wrap : A -> value) (step : A -> value -> A) (add : nop -> nir) k : 
  let ov := as_operand v ov0 in
  dyn_term v -> lower k1 v = (k2, ov0) -> safe (scope D q) v -> older k (binds v) -> older k [x] -> ~ In x (binds v) -> (k <= k1)%nat -> In x L ->
  (fine [add (ob_op ov)] -> fine_op (ob_op ov) /\ adds x wrap step (add (ob_op ov)) (fun s => value_at E s (iop (ob_op ov)))) ->
  forall r t c1 t' acc, ctx k1 (scope D q) r t -> fine (ob_code ov ++ [add (ob_op ov)]) -> runs (ob_code ov ++ [add (ob_op ov)]) t c1 t' -> local t (num x) = Some (Some (wrap acc)) ->
    local t' (num x) = Some (Some (wrap (match ev r v with Some u => step acc u | None => acc end))).
Proof.
  intros ov IH HL' HS HO Ox Nx K Hx HAdd r t c1 t' acc HC HF HR HX. apply fine_app in HF as [F1 F2]. destruct (HAdd F2) as [G1 HAd].
  apply runs_app in HR as (c2 & s1 & R1 & G). pose proof (dyn_operand _ _ _ _ _ _ _ _ _ IH HL' HS (older_wider _ _ _ HO K) HC F1 G1 R1) as V.
  pose proof (static_t v _ _ _ HL') as (K2 & W). apply static_operand in W as (W & _).
  assert (X1 : local s1 (num x) = Some (Some (wrap acc))).
  { rewrite <- HX. eapply runs_keep; eauto; [apply (ctx_live _ _ _ _ HC)|]. intro I. apply W in I as [I|I]; [exact (not_new _ _ _ (older_wider _ _ _ Ox K) I)|tauto]. }
  destruct (ev r v) as [u|].
  - destruct V as [-> V]. contd G R2. destruct (HAd _ _ _ _ _ R2 X1 V) as [_ [_ X2]]. exact X2.
  - cbn in V. subst c2. destruct G as [[G _]|(_ & _ & ->)]; [discriminate|exact X1].
Qed.
Lemma tail_apart v k k1 k2 ov0 q D x (add : nop -> nir) : lower k1 v = (k2, ov0) -> safe (scope D q) v -> older k D -> older k (binds_query q) -> (k < k1)%nat ->
  (forall o, writes (add o) = [x]) -> (exists p, x = tmp p k) ->
  forall y, In y (scope D q) -> ~ In y (flat_map writes (ob_code (as_operand v ov0) ++ [add (ob_op (as_operand v ov0))])).
Proof.
  intros HL' HS OD OQ K HW (p & ->) y I W. pose proof (static_t v _ _ _ HL') as (K2 & WS). apply static_operand in WS as (WS & _). pose proof (scope_older _ _ _ OD OQ) as OS.
  apply in_flat_app in W as [W|W].
  - apply WS in W as [W|W]; [refine (older_new k k1 k2 _ y OS _ W I); lia|]. exact (apart_scope _ _ _ _ HS W I).
  - cbn [flat_map] in W. rewrite HW in W. cbn in W. destruct W as [<-|[]]. apply OS in I. lia.
Qed.

Lemma term_arraycompr v q : dyn_term v -> dyn_query q -> dyn_term (TmArrayCompr v q).
Proof.
  intros IHv IHq k k' o D rho s c s' HL' [Sq Sv] HO HC HF HG HR. cbn [lower] in HL'. destruct (lower_query false (S k) q) as [k1 ls] eqn:Eq. destruct (lower k1 v) as [k2 ov0] eqn:Ev.
  injection HL' as <- <-. cbn [ob_code ob_op binds] in *. apply older_app in HO as [O1 O2]. apply fine_cons in HF as [F1 F2]. assert (Hx : In (tmp $"arraycompr" k) L) by local_in F1.
  split_run HR c1 s1 R1 G. pose proof (runs_len _ _ _ _ R1) as Z1. apply runs_makearray in R1 as [-> W1]. contd G R2. pose proof (ctx_older _ _ _ _ HC) as OD.
  assert (C1 : ctx (S k) D rho s1) by (eapply ctx_new; eauto). pose proof (static_q q _ _ _ _ Eq) as (K & _).
  set (x := tmp $"arraycompr" k) in *. set (ov := as_operand v ov0) in *.
  pose proof (comprehension q (S k) k1 ls D rho (ob_code ov ++ [IArrayAppend x (ob_op ov)]) x s1 c s' VArray
    (fun acc r => match ev r v with Some u => acc ++ [u] | None => acc end) [] IHq Eq Sq (older_wider _ _ _ O1 (le_S _ _ (le_n _))) C1 Hx) as H.
  destruct H as [-> H]; auto.
  - apply (fresh_not _ _ _ _ O1); lia.
  - apply older_self.
  - apply (tail_apart v k k1 k2 ov0 q D x (fun o => IArrayAppend x o)); eauto.
  - apply W1.
  - apply (head_tail v k1 k2 ov0 q D x VArray (fun acc u => acc ++ [u]) (fun o => IArrayAppend x o) (S k)); auto.
    + eapply older_wider; eauto.
    + apply older_self.
    + apply (fresh_not _ _ _ _ O2); lia.
    + intro F. assert (FO : fine_op (ob_op (as_operand v ov0))) by op_in F. split; [exact FO|]. intros t c0 t' acc u R X V. exact (runs_append _ _ _ _ _ _ _ FO R X V).
  - split; [reflexivity|]. rewrite fold_snoc_map in H. exact (value_local _ _ _ H).
Qed.
Lemma term_setcompr v q : dyn_term v -> dyn_query q -> dyn_term (TmSetCompr v q).
Proof.
  intros IHv IHq k k' o D rho s c s' HL' [Sq Sv] HO HC HF HG HR. cbn [lower] in HL'. destruct (lower_query false (S k) q) as [k1 ls] eqn:Eq. destruct (lower k1 v) as [k2 ov0] eqn:Ev.
  injection HL' as <- <-. cbn [ob_code ob_op binds] in *. apply older_app in HO as [O1 O2]. apply fine_cons in HF as [F1 F2]. assert (Hx : In (tmp $"setcompr" k) L) by local_in F1.
  split_run HR c1 s1 R1 G. pose proof (runs_len _ _ _ _ R1) as Z1. apply runs_makeset in R1 as [-> W1]. contd G R2. pose proof (ctx_older _ _ _ _ HC) as OD.
  assert (C1 : ctx (S k) D rho s1) by (eapply ctx_new; eauto). pose proof (static_q q _ _ _ _ Eq) as (K & _).
  set (x := tmp $"setcompr" k) in *. set (ov := as_operand v ov0) in *.
  pose proof (comprehension q (S k) k1 ls D rho (ob_code ov ++ [ISetAdd (ob_op ov) x]) x s1 c s' VSet
    (fun acc r => match ev r v with Some u => add_member (e_fops E) acc u | None => acc end) [] IHq Eq Sq (older_wider _ _ _ O1 (le_S _ _ (le_n _))) C1 Hx) as H.
  destruct H as [-> H]; auto.
  - apply (fresh_not _ _ _ _ O1); lia.
  - apply older_self.
  - apply (tail_apart v k k1 k2 ov0 q D x (fun o => ISetAdd o x)); eauto.
  - apply W1.
  - apply (head_tail v k1 k2 ov0 q D x VSet (add_member (e_fops E)) (fun o => ISetAdd o x) (S k)); auto.
    + eapply older_wider; eauto.
    + apply older_self.
    + apply (fresh_not _ _ _ _ O2); lia.
    + intro F. assert (FO : fine_op (ob_op (as_operand v ov0))) by op_in F. split; [exact FO|]. intros t c0 t' acc u R X V. exact (runs_add _ _ _ _ _ _ _ FO R X V).
  - split; [reflexivity|]. rewrite fold_map in H. exact (value_local _ _ _ H).
Qed.
Lemma fold_map2 {A B C D'} (f : A -> option B) (g : A -> option C) (h : D' -> B -> C -> D') l : forall acc,
  fold_left (fun acc r => match f r, g r with Some x, Some y => h acc x y | _, _ => acc end) l acc =
  fold_left (fun o kv => h o (fst kv) (snd kv)) (flat_map (fun r => match f r, g r with Some x, Some y => [(x, y)] | _, _ => [] end) l) acc.
Proof.
  induction l as [|r l IH]; intro acc; cbn [fold_left flat_map]; [reflexivity|]. rewrite IH. destruct (f r), (g r); reflexivity.
Qed.
Lemma term_objectcompr i v q : dyn_term i -> dyn_term v -> dyn_query q -> dyn_term (TmObjectCompr i v q).
Proof.
  intros IHi IHv IHq k k' o D rho s c s' HL' (Sq & Si & Sv) HO HC HF HG HR. cbn [lower] in HL'. destruct (lower_query false (S k) q) as [k1 ls] eqn:Eq. destruct (lower k1 i) as [k2 oi0] eqn:Ei.
  destruct (lower k2 v) as [k3 ov0] eqn:Ev.
  injection HL' as <- <-. cbn [ob_code ob_op binds] in *. apply older_app in HO as [O1 O2]. apply older_app in O2 as [O2 O3]. apply fine_cons in HF as [F1 F2]. assert (Hx : In (tmp $"objectcompr" k) L) by local_in F1.
  split_run HR c1 s1 R1 G. pose proof (runs_len _ _ _ _ R1) as Z1. apply runs_makeobject in R1 as [-> W1]. contd G R2. pose proof (ctx_older _ _ _ _ HC) as OD.
  assert (C1 : ctx (S k) D rho s1) by (eapply ctx_new; eauto). pose proof (static_q q _ _ _ _ Eq) as (K & _).
  pose proof (static_t i _ _ _ Ei) as (Ki & Wi). apply static_operand in Wi. pose proof (static_t v _ _ _ Ev) as (Kv & Wv). apply static_operand in Wv.
  set (x := tmp $"objectcompr" k) in *. set (oi := as_operand i oi0) in *. set (ov := as_operand v ov0) in *.
  assert (Ox : older (S k) [x]) by apply older_self. assert (Nx : forall l, older k l -> ~ In x l) by (intros l Hl; apply (fresh_not _ _ _ _ Hl); lia).
  pose proof (comprehension q (S k) k1 ls D rho (ob_code oi ++ ob_code ov ++ [IObjectInsertOnce (ob_op oi) (ob_op ov) x]) x s1 c s' VObject
    (fun acc r => match ev r i, ev r v with Some a, Some b => put_item (e_fops E) acc a b | _, _ => acc end) [] IHq Eq Sq (older_wider _ _ _ O1 (le_S _ _ (le_n _))) C1 Hx) as H.
  destruct H as [-> H]; auto.
  - intros y I W. pose proof (scope_older _ _ _ OD O1) as OS. apply in_flat_app in W as [W|W]; [|apply in_flat_app in W as [W|W]].
    + apply Wi in W as [W|W]; [refine (older_new k k1 k2 _ y OS _ W I); lia|]. exact (apart_scope _ _ _ _ Si W I).
    + apply Wv in W as [W|W]; [refine (older_new k k2 k3 _ y OS _ W I); lia|]. exact (apart_scope _ _ _ _ Sv W I).
    + destruct W as [<-|[]]. exact (Nx _ OS I).
  - apply W1.
  - intros r t c2 t' acc HC' HF' HR' HX'. rewrite app_assoc in HR'. apply fine_app in HF' as [Fi F3]. apply fine_app in F3 as [Fv F3].
    assert (Gi : fine_op (ob_op oi)) by op_in F3. assert (Gv : fine_op (ob_op ov)) by op_in F3. apply runs_app in HR' as (c3 & s3 & R3 & G).
    assert (KK : (k <= k1)%nat) by lia.
    pose proof (two_terms i v (as_operand i) (as_operand v) k1 k2 k3 oi0 ov0 _ r t c3 s3 (or_intror eq_refl) (or_intror eq_refl) IHi IHv Ei Ev Si Sv
      (older_wider _ _ _ O2 KK) (older_wider _ _ _ O3 KK) HC' Fi Fv Gi Gv R3) as V.
    assert (X3 : local s3 (num x) = Some (Some (VObject acc))).
    { rewrite <- HX'. eapply runs_keep; [exact R3|apply (ctx_live _ _ _ _ HC')|apply fine_app; auto|exact Hx|]. intro W. apply in_flat_app in W as [W|W].
      - apply Wi in W as [W|W]; [exact (not_new x k1 k2 (older_wider _ _ _ Ox K) W)|exact (Nx _ O2 W)].
      - apply Wv in W as [W|W]; [refine (not_new x k2 k3 (older_wider _ _ _ Ox _) W); lia|exact (Nx _ O3 W)]. }
    destruct (ev r i) as [a|]; [|subst; destruct G as [[G _]|(_ & _ & ->)]; [discriminate|exact X3]].
    destruct (ev r v) as [b|]; [|subst; destruct G as [[G _]|(_ & _ & ->)]; [discriminate|exact X3]].
    destruct V as (-> & Va & Vb & _). contd G R4. destruct (runs_insert true _ _ _ _ _ _ _ _ _ Gi Gv R4 X3 Va Vb) as [_ [_ X4]]. exact X4.
  - split; [reflexivity|]. rewrite (fold_map2 (fun r => ev r i) (fun r => ev r v) (put_item (e_fops E))) in H. exact (value_local _ _ _ H).
Qed.

(** *** Queries *)
Lemma query_end : dyn_query QEnd.
Proof.
  intros top k k' ls D rho tail s ts c s' [= <- <-] _ _ HC _ _ _ HM. apply meets_nil in HM as [-> _]. constructor; [exact HC|constructor].
Qed.
Lemma query_expr t q : dyn_term t -> dyn_query q -> dyn_query (QExpr t q).
Proof.
  intros IHt IHq top k k' ls D rho tail s ts c s' HL' [St Sq] HO HC HF HT HN HM. cbn [lower_query] in HL'. destruct (lower k t) as [k1 o] eqn:Et. destruct (lower_query top k1 q) as [k2 ls'] eqn:Eq.
  injection HL' as <- <-. cbn [flat_map lit_code binds_query scope] in *. apply older_app in HO as [O1 O2]. pose proof (static_t t _ _ _ Et) as (K & _).
  apply fine_app in HF as [F1 F2]. pose proof (proj1 (fine_app _ _) F1) as [F1a F1b]. assert (Go : fine_op (ob_op o)) by op_in F1b.
  apply meets_app in HM as (c1 & s1 & R1 & G); [|left; now apply flat_last]. apply runs_app in R1 as (c2 & s2 & R2 & G2).
  pose proof (IHt _ _ _ _ _ _ _ _ Et St O1 HC F1a Go R2) as V.
  change (sol rho (QExpr t q)) with (match ev rho t with Some v => if holds (e_fops E) v then sol rho q else [] | None => [] end).
  destruct (ev rho t) as [v|].
  - destruct V as [-> V]. contd G2 R3. destruct (runs_holds _ _ _ _ _ Go R3 V) as (Q & FR & ->). destruct (holds (e_fops E) v).
    + destruct G as [[_ M]|(G & _)]; [|discriminate]. refine (IHq top k1 k2 ls' D rho tail s1 ts c s' Eq Sq (older_wider _ _ _ O2 K) _ F2 HT HN M).
      eapply ctx_idle; [eapply after_term; eauto|split; auto].
    + destruct G as [[G _]|(_ & -> & _)]; [discriminate|constructor].
  - cbn in V. subst c2. destruct G2 as [[G2 _]|(_ & -> & _)]; [discriminate|]. destruct G as [[G _]|(_ & -> & _)]; [discriminate|constructor].
Qed.
Lemma query_assign x t q : dyn_term t -> dyn_query q -> dyn_query (QAssign x t q).
Proof.
  intros IHt IHq top k k' ls D rho tail s ts c s' HL' (St & Nx & Sq) HO HC HF HT HN HM. cbn [lower_query] in HL'. destruct (lower (S k) t) as [k1 o] eqn:Et. destruct (lower_query top k1 q) as [k2 ls'] eqn:Eq.
  injection HL' as <- <-. cbn [flat_map lit_code binds_query scope] in *. change (x :: binds t ++ binds_query q) with ([x] ++ binds t ++ binds_query q) in HO.
  apply older_app in HO as [O0 O1]. apply older_app in O1 as [O1 O2]. pose proof (static_t t _ _ _ Et) as (K & _).
  set (o' := as_operand t o) in *.
  apply fine_app in HF as [F1 F2]. pose proof (proj1 (fine_app _ _) F1) as [F1a F1b]. apply fine_cons in F1b as [F1b F1c]. unfold truth in F1c. assert (Go : fine_op (ob_op o')) by op_in F1b.
  assert (Hx : In x L) by local_in F1b. assert (Hy : In (tmp $"term" k) L) by local_in F1c.
  apply meets_app in HM as (c1 & s1 & R1 & G).
  2: { left. pose proof (static_t t _ _ _ Et) as (_ & WS). apply static_operand in WS as (_ & WS & _). apply flat_app; [exact WS|].
       right. eexists [_], _. split; reflexivity. }
  apply runs_app in R1 as (c2 & s2 & R2 & G2). assert (KK : (k <= S k)%nat) by lia.
  pose proof (dyn_operand _ _ _ _ _ _ _ _ _ IHt Et St (older_wider _ _ _ O1 KK) (ctx_wider _ _ _ _ _ HC KK) F1a Go R2) as V.
  change (sol rho (QAssign x t q)) with (match ev rho t with Some v => sol (bind_var x v rho) q | None => [] end).
  destruct (ev rho t) as [v|].
  - destruct V as [-> V]. contd G2 R3. split_run R3 c3 s3 R3 G3. pose proof (runs_len _ _ _ _ R3) as Z3. apply runs_assign in R3 as [-> W3]; [|exact Go]. contd G3 R4.
    pose proof (runs_len _ _ _ _ R4) as Z4. apply runs_truth in R4 as [-> W4]. destruct G as [[_ M]|(G & _)]; [|discriminate].
    fold o' in V. rewrite V in W3. pose proof (after_operand _ _ _ _ _ _ _ _ _ Et St (ctx_wider _ _ _ _ _ HC KK) F1a R2) as C2.
    assert (C3 : ctx k1 D rho s3) by (eapply ctx_wrote; eauto). destruct C3 as ((A1 & A0) & A2 & A3 & A4).
    assert (C3 : ctx k1 (x :: D) (bind_var x v rho) s3).
    { split; [split; [intros y [<-|I]; auto|intros y I; right; auto]|]. split; [intros p j [Q|I]; [specialize (O0 p j (or_introl Q)); lia|eauto]|]. split; [exact A3|].
      intros y [<-|I].
      - exists v. unfold bind_var. rewrite str_eqb_refl. split; [reflexivity|apply W3].
      - destruct (A4 y I) as (u & P & Q). exists u. unfold bind_var. destruct (str_eqb x y) eqn:Ex; [apply str_eqb_eq in Ex; subst; contradiction|]. auto. }
    refine (IHq top k1 k2 ls' (x :: D) _ tail s1 ts c s' Eq Sq (older_wider _ _ _ O2 _) _ F2 HT HN M); [lia|].
    eapply ctx_wrote; [exact C3|exact W4|exact Z4|exact Hy| |lia]. intros [E0|I].
    + specialize (O0 $"term" k (or_introl E0)). lia.
    + pose proof (ctx_older _ _ _ _ HC) as OD. apply OD in I. lia.
  - cbn in V. subst c2. destruct G2 as [[G2 _]|(_ & -> & _)]; [discriminate|]. destruct G as [[G _]|(_ & -> & _)]; [discriminate|constructor].
Qed.

(** The head of the first statement. *)
Lemma append_first {L1 S1} (st : ir L1 S1) c k : nesting st = false -> append_inner (st :: c) k = st :: append_inner c k.
Proof. intro H. destruct c as [|i c]; [destruct st; try discriminate; reflexivity|]. apply append_cons_any. discriminate. Qed.
Lemma chain_truth x ts a b : chain (tailed x [truth x]) a ts b -> ts <> [] -> b = Some VTrue.
Proof.
  intro H. induction H as [a|a t a1 ts a' (_ & c1 & t' & R & X) C IH]; [congruence|]. intros _. apply runs_truth in R as [_ [_ W]]. rewrite W in X. injection X as <-.
  destruct ts as [|t2 ts]; [inversion C; reflexivity|]. apply IH. discriminate.
Qed.
(** A local that is set when the query has a solution. *)
Lemma flagged q top k k1 ls D rho x s c s' : dyn_query q -> lower_query top k q = (k1, ls) -> safe_query D q -> older k (binds_query q) -> ctx k D rho s -> In x L ->
  ~ In x (binds_query q) -> older k [x] -> ~ In x D -> fine (append_inner (query_block ls) [truth x]) -> local s (num x) = Some None ->
  runs (append_inner (query_block ls) [truth x]) s c s' ->
  ctx k1 D rho s' /\
  match sol rho q with
  | [] => local s' (num x) = Some None
  | _ => c = CContinue /\ local s' (num x) = Some (Some VTrue)
  end.
Proof.
  intros IH HL' HS HO HC Hx Nx Ox NxD HF HX HR. pose proof (query_code _ _ _ _ _ HL') as QC. rewrite QC in *.
  pose proof (static_q q _ _ _ _ HL') as (K & W & _). pose proof (fine_append _ _ HF) as [F1 F2].
  assert (NW : ~ In x (flat_map writes (flat_map lit_code ls))) by (intro I; apply W in I as [I|I]; [exact (not_new _ _ _ Ox I)|auto]).
  split.
  { destruct HC as ((A & A0) & B & C & H). split; [split; assumption|]. split; [eapply older_wider; eauto|]. split; [eapply runs_live; [|eassumption|eassumption]; assumption|].
    intros y I. destruct (H y I) as (v & P & Q). exists v. split; [exact P|]. rewrite <- Q. eapply runs_keep; eauto; [apply C|]. intro I'. apply writes_append in I' as [I'|I'].
    - apply W in I' as [I'|I']; [exact (older_new k k k1 D y B (le_n _) I' I)|]. exact (proj2 (proj2 (proj2 safe_binds)) q D HS y I' I).
    - destruct I' as [<-|[]]. auto. }
  apply meets_runs in HR as (ts & M).
  assert (HQ : Forall2 (fun r t => ctx k1 (scope D q) r t) (sol rho q) ts).
  { refine (IH _ _ _ _ _ _ _ _ _ _ _ HL' HS HO HC F1 F2 _ M). intros y I [<-|[]]. apply scope_binds in I as [I|I]; auto. }
  destruct (meets_each x _ _ _ _ _ _ None Hx F1 NW M (proj1 (ctx_live _ _ _ _ HC)) HX) as (cur' & X' & CH).
  inversion HQ as [Q1 Q2|r t rs ts' H1 H2 Q1 Q2]; subst; rewrite X'.
  - inversion CH. reflexivity.
  - split.
    + destruct (meets_good _ _ _ _ _ _ M) as [->| ->]; [reflexivity|]. exfalso. apply meets_undefined in M; [discriminate|]. intros t0 c0 t0' R0. now apply runs_truth in R0.
    + f_equal. eapply chain_truth; eauto. discriminate.
Qed.
Lemma query_not q1 q : dyn_query q1 -> dyn_query q -> dyn_query (QNot q1 q).
Proof.
  intros IH1 IHq top k k' ls D rho tail s ts c s' HL' (S1 & Sq) HO HC HF HT HN HM. cbn [lower_query] in HL'. destruct (lower_query false (S k) q1) as [k1 ls1] eqn:E1. destruct (lower_query top k1 q) as [k2 ls'] eqn:Eq.
  injection HL' as <- <-. cbn [flat_map lit_code binds_query scope] in *. apply older_app in HO as [O1 O2].
  set (found := tmp $"found" k) in *. pose proof (static_q q1 _ _ _ _ E1) as (K & W & F). pose proof (query_code _ _ _ _ _ E1) as QC.
  change (tmp [102; 111; 117; 110; 100] k) with found in HF, HM.
  rewrite (F [IResetLocal found] (flat_one (IResetLocal found) eq_refl)) in HF, HM. change ([IResetLocal found] ++ flat_map lit_code ls1) with (IResetLocal found :: flat_map lit_code ls1) in HF, HM. rewrite append_first in HF, HM by reflexivity. rewrite <- QC in HF, HM.
  apply fine_app in HF as [F1 F2]. apply meets_app in HM as (c1 & s1 & R1 & G); [|left; now apply flat_one].
  apply fine_not in F1. pose proof F1 as FN. apply fine_app in F1 as [F1 F3]. cbn [app] in F1. apply fine_cons in F1 as [F0 F1].
  assert (Hx : In found L) by local_in F0. pose proof (ctx_older _ _ _ _ HC) as OD.
  assert (CL : forallb calm ((IResetLocal found :: append_inner (query_block ls1) [truth found]) ++ [IIsDefined found]) = true).
  { apply calm_app; [|reflexivity]. apply calm_cons; [reflexivity|]. apply calm_append; [|reflexivity]. rewrite QC. exact (proj2 (proj2 (proj2 calm_code)) q1 _ _ _ _ E1). }
  apply runs_not in R1 as (s2 & c2 & s3 & Q2 & FR2 & R2 & Q3 & FR3 & ->); [|exact FN|exact CL|apply HC].
  assert (I2 : idle s s2) by (split; auto). assert (I3 : idle s3 s1) by (split; auto).
  apply runs_app in R2 as (c4 & s4 & R4 & G4). split_run R4 c5 s5 R5 G5. pose proof (runs_len _ _ _ _ R5) as Z5. apply runs_reset in R5 as [-> W5]. contd G5 R6.
  assert (C5 : ctx (S k) D rho s5) by (eapply ctx_new; [eapply ctx_idle; eauto|exact W5|exact Z5|exact Hx|lia|lia]).
  assert (KK : (k <= S k)%nat) by lia.
  destruct (flagged q1 false (S k) k1 ls1 D rho found s5 c4 s4 IH1 E1 S1 (older_wider _ _ _ O1 KK) C5 Hx) as [C4 H4]; auto.
  { apply (fresh_not _ _ _ _ O1); lia. } { apply older_self. } { apply (fresh_not _ _ _ _ OD); lia. } { apply W5. }
  assert (HD : idle s4 s3 /\ (c2 = CContinue <-> sol rho q1 <> [])).
  { destruct G4 as [[-> R7]|(-> & -> & ->)].
    - apply runs_defined in R7 as (Q7 & FR7 & v & X7 & ->). split; [split; auto|]. destruct (sol rho q1); [rewrite H4 in X7; injection X7 as <-; split; congruence|].
      destruct H4 as [_ H4]. rewrite H4 in X7. injection X7 as <-. split; [discriminate|reflexivity].
    - split; [split; [apply quiet_refl|reflexivity]|]. split; [discriminate|]. destruct (sol rho q1); [congruence|]. destruct H4; discriminate. }
  destruct HD as [I4 HD].
  assert (C1 : ctx k1 D rho s1) by (eapply ctx_idle; [eapply ctx_idle; eauto|exact I3]).
  change (sol rho (QNot q1 q)) with (match sol rho q1 with [] => sol rho q | _ => [] end).
  destruct (sol rho q1) as [|r rs].
  - assert (c2 <> CContinue) by (intro Q; apply HD in Q; congruence). destruct G as [[_ M]|(G & _)]; [|destruct c2; congruence].
    refine (IHq top k1 k2 ls' D rho tail s1 ts c s' Eq Sq (older_wider _ _ _ O2 _) C1 F2 HT HN M). lia.
  - assert (c2 = CContinue) by (apply HD; discriminate). subst c2. destruct G as [[G _]|(_ & -> & _)]; [discriminate|constructor].
Qed.
(** *** Iterations *)
Lemma meets_live l tail s ts c s' : fine l -> fine tail -> meets l tail s ts c s' -> live s -> live s'.
Proof.
  intros F1 F2 (m & kb & b & H1 & H2 & V & G & OK) (A & B & C). pose proof (sane_meet _ _ _ _ _ _ _ _ _ F1 F2 H1 H2 V G OK C) as C'.
  apply visits_steady in V as [P Q]. split; [now rewrite P|]. split; [now rewrite Q|exact C'].
Qed.
Lemma ctx_meets k k1 k2 D rho l tail s ts c s' bs : ctx k D rho s -> (k <= k1)%nat -> fine l -> fine tail -> writes_ok k1 k2 bs l -> apart bs D ->
  (forall y, In y D -> ~ In y (flat_map writes tail)) -> meets l tail s ts c s' -> ctx k D rho s'.
Proof.
  intros ((A & A0) & B & C & H) K1 HF HT HW HA' HN HM. split; [split; assumption|]. split; [exact B|]. split; [eapply meets_live; [| |eassumption|eassumption]; assumption|].
  intros x I. destruct (H x I) as (v & P & Q). exists v. split; [exact P|]. rewrite <- Q. eapply meets_keep; eauto. intro W.
  apply HW in W as [W|W]; [eapply older_new; eauto|]. eapply HA'; eauto.
Qed.
Lemma ctx_given k D rho key val a b s s0 : ctx k D rho s -> older k [val; key] -> In key L -> In val L -> ~ In key D -> ~ In val D ->
  (live s -> given key val a b s s0) -> ctx k (val :: key :: D) (bind_var val b (bind_var key a rho)) s0.
Proof.
  intros ((A & A0) & B & C & H) O Hk Hv Nk Nv G. specialize (G C). destruct G as [G1 G2]. split; [split; [intros y [<-|[<-|I]]; auto|intros y I; right; right; auto]|]. split.
  { intros p j [Q|[Q|I]]; [apply (O p j); now left|apply (O p j); right; now left|eauto]. }
  split; [exact G1|]. intros y I. assert (Hy : In y L) by (destruct I as [<-|[<-|I]]; auto). rewrite (G2 y Hy). unfold bind_var.
  destruct (str_eqb val y) eqn:E1; [eauto|]. destruct (str_eqb key y) eqn:E2; [eauto|].
  destruct I as [<-|[<-|I]]; [rewrite str_eqb_refl in E1; discriminate|rewrite str_eqb_refl in E2; discriminate|]. apply H. exact I.
Qed.
Lemma scan_passes q k1 k2 ls' key val D rho tail : dyn_query q -> lower_query false k1 q = (k2, ls') -> safe_query (val :: key :: D) q -> older k1 (binds_query q) ->
  ~ In key D -> ~ In val D -> older k1 [val; key] -> In key L -> In val L -> fine (flat_map lit_code ls') -> fine tail ->
  (forall y, In y (scope (val :: key :: D) q) -> ~ In y (flat_map writes tail)) ->
  forall l s ts s', passes key val (flat_map lit_code ls') tail l s ts s' -> ctx k1 D rho s ->
  Forall2 (fun r t => ctx k2 (scope (val :: key :: D) q) r t) (flat_map (fun kv => sol (bind_var val (snd kv) (bind_var key (fst kv) rho)) q) l) ts.
Proof.
  intros IH HL' HS HO Nk Nv O Hk Hv HF HT HN l s ts s' P. pose proof (static_q q _ _ _ _ HL') as (K & W & _).
  induction P as [s|a b l s s0 ts1 c s1 s2 ts2 s' G M I P IHP]; intro HC; cbn [flat_map fst snd]; [constructor|].
  pose proof (ctx_given _ _ _ _ _ _ _ _ _ HC O Hk Hv Nk Nv G) as C0.
  apply Forall2_app.
  - exact (IH _ _ _ _ _ _ _ _ _ _ _ HL' HS HO C0 HF HT HN M).
  - apply IHP. eapply ctx_idle; [|exact I].
    assert (C1 : ctx k1 (val :: key :: D) (bind_var val b (bind_var key a rho)) s1).
    { eapply ctx_meets; [exact C0|apply le_n|exact HF|exact HT|exact W|intros y Hy; exact (proj2 (proj2 (proj2 safe_binds)) q _ HS y Hy)| |exact M].
      intros y Iy. apply HN. now apply scope_incl. }
    destruct C1 as (A1 & A2 & A3 & A4). destruct HC as (B1 & B2 & B3 & B4). split; [exact B1|]. split; [exact B2|]. split; [exact A3|].
    intros y Iy. destruct (A4 y (or_intror (or_intror Iy))) as (u & U1 & U2). exists u. split; [|exact U2]. rewrite <- U1. unfold bind_var.
    destruct (str_eqb val y) eqn:E1; [apply str_eqb_eq in E1; subst; contradiction|]. destruct (str_eqb key y) eqn:E2; [apply str_eqb_eq in E2; subst; contradiction|]. reflexivity.
Qed.
Lemma elements_holds d l : elements d = Some l -> holds (e_fops E) d = true.
Proof. destruct d; try discriminate; intros _; reflexivity. Qed.
Lemma scannable_local t k k1 o : lower k t = (k1, o) -> scannable t = true -> exists x, ob_op o = OLocal x.
Proof.
  intros H Sc. destruct t; try discriminate Sc; cbn [lower] in H;
    repeat match type of H with context [let '(_, _) := ?z in _] => destruct z end; injection H as _ <-; cbn [ob_op]; eauto.
Qed.
Lemma local_value x d s : value_at E s (iop (OLocal x)) = Some d -> local s (num x) = Some (Some d).
Proof. cbn. destruct (local s (num x)) as [v|]; [intros ->; reflexivity|discriminate]. Qed.
Lemma query_scan t key val q : dyn_term t -> dyn_query q -> dyn_query (QScan t key val q).
Proof.
  intros IHt IHq top k k' ls D rho tail s ts c s' HL' (St & Sc & Nk & Nv & Sq) HO HC HF HT HN HM. cbn [lower_query] in HL'.
  destruct (lower k t) as [k1 o] eqn:Et. destruct (lower_query false k1 q) as [k2 ls'] eqn:Eq. pose proof (query_code _ _ _ _ _ Eq) as QC.
  cbn [binds_query scope] in *. change (val :: key :: binds t ++ binds_query q) with ([val; key] ++ binds t ++ binds_query q) in HO.
  apply older_app in HO as [O0 O1]. apply older_app in O1 as [O1 O2]. pose proof (static_t t _ _ _ Et) as (K & SO).
  destruct (scannable_local _ _ _ _ Et Sc) as (x & Ex).
  assert (SH : k' = k2 /\ exists mid, (mid = [] \/ mid = [INotEqual (ob_op o) (OBool false)]) /\ flat_map lit_code ls = ob_code o ++ mid ++ [IScan x key val (flat_map lit_code ls')]).
  { unfold source in HL'. rewrite Ex, QC in HL'. destruct top; [destruct (ob_code o) as [|i cc] eqn:Eo|]; injection HL' as <- <-; (split; [reflexivity|]).
    - exists []. split; [now left|reflexivity].
    - exists [INotEqual (ob_op o) (OBool false)]. split; [now right|]. cbn [flat_map lit_code]. rewrite Eo, <- !app_assoc. reflexivity.
    - exists []. split; [now left|]. cbn [flat_map lit_code]. now rewrite app_nil_r. }
  destruct SH as (-> & mid & Hmid & EC). rewrite EC in HF, HM. clear EC HL'.
  apply fine_app in HF as [F1 F2]. apply fine_app in F2 as [F2 F3]. destruct (fine_scan _ _ _ _ F3) as (Hx & Hk & Hv & F4).
  assert (Go : fine_op (ob_op o)). { rewrite Ex. split; [intros y [<-|[]]; exact Hx|intros y []]. }
  apply meets_app in HM as (c1 & s1 & R1 & G1); [|right; destruct mid; discriminate].
  pose proof (IHt _ _ _ _ _ _ _ _ Et St O1 HC F1 Go R1) as V. pose proof (after_term _ _ _ _ _ _ _ _ _ Et St HC F1 R1) as C1.
  change (sol rho (QScan t key val q)) with (match ev rho t with Some d => match elements d with Some l => flat_map (fun kv => sol (bind_var val (snd kv) (bind_var key (fst kv) rho)) q) l | None => [] end | None => [] end).
  destruct (ev rho t) as [d|].
  2: { cbn in V. subst c1. destruct G1 as [[G1 _]|(_ & -> & _)]; [discriminate|constructor]. }
  destruct V as [-> V]. destruct G1 as [[_ M]|(G1 & _)]; [|discriminate].
  apply meets_app in M as (c2 & s2 & R2 & G2); [|right; discriminate].
  assert (H2 : idle s1 s2 /\ (c2 = CContinue \/ elements d = None)).
  { destruct Hmid as [->| ->].
    - apply runs_nil in R2 as [-> ->]. split; [split; [apply quiet_refl|reflexivity]|now left].
    - destruct (runs_holds _ _ _ _ _ Go R2 V) as (Q & FR & ->). split; [split; auto|]. destruct (elements d) eqn:Ed; [|now right]. rewrite (elements_holds _ _ Ed). now left. }
  destruct H2 as [I2 H2]. destruct G2 as [[-> M]|(-> & -> & -> & ->)].
  2: { destruct H2 as [H2|H2]; [discriminate|]. rewrite H2. constructor. }
  clear H2. assert (LX : local s2 (num x) = Some (Some d)). { rewrite (idle_local _ _ _ I2). apply local_value. now rewrite <- Ex. }
  assert (A0 := proj2 (proj1 HC)).
  apply meets_scan in M as [(src & l & s0 & L1 & L2 & -> & I0 & P)|(w & L1 & L2 & -> & ->)]; [| |split; [exact Hk|intro; apply Nk; auto]|split; [exact Hv|intro; apply Nv; auto]].
  - rewrite LX in L1. injection L1 as <-. cbn [scanned] in L2. rewrite L2.
    eapply scan_passes; [exact IHq|exact Eq|exact Sq|eapply older_wider; eauto|exact Nk|exact Nv|eapply older_wider; eauto|exact Hk|exact Hv|exact F4|exact HT|exact HN|exact P|].
    eapply ctx_idle; [eapply ctx_idle; [exact C1|exact I2]|exact I0].
  - rewrite LX in L1. injection L1 as <-. rewrite L2. constructor.
Qed.
(** *** [every] *)
Lemma ctx_bind k D rho x v s s' : ctx k D rho s -> wrote (num x) (Some v) s s' -> zlen (s_frame s') = zlen (s_frame s) -> In x L -> ~ In x res -> older k [x] -> ctx k (x :: D) (bind_var x v rho) s'.
Proof.
  intros ((A & A0) & B & C & H) W Q Hx ND O. split; [split; [intros y [<-|I]; auto|intros y I; right; auto]|]. split.
  { intros p j [E0|I]; [apply (O p j); now left|eauto]. }
  split; [eapply quiet_live; [apply W|intros i [<-|[]]; exists x; split; [reflexivity|split; [exact Hx|auto]]|exact Q|exact C]|]. intros y I. unfold bind_var. destruct (str_eqb x y) eqn:Ex.
  - apply str_eqb_eq in Ex as <-. exists v. split; [reflexivity|apply W].
  - destruct I as [<-|I]; [rewrite str_eqb_refl in Ex; discriminate|]. destruct (H y I) as (u & P & R). exists u. split; [exact P|]. rewrite <- R.
    apply (wrote_other x (Some v)); auto. intros ->. now rewrite str_eqb_refl in Ex.
Qed.
Lemma ctx_sub k k' D D' rho rho' s : ctx k D rho s -> incl D' D -> incl res D' -> older k' D' -> (forall y, In y D' -> rho' y = rho y) -> ctx k' D' rho' s.
Proof.
  intros ((A & A0) & B & C & H) I I0 O R. split; [split; [intros y Y; apply A, I, Y|exact I0]|]. split; [exact O|]. split; [exact C|]. intros y Y. destruct (H y (I y Y)) as (v & P & Q). exists v.
  split; [|exact Q]. rewrite R; auto.
Qed.
Lemma older_cons k x l : older k (x :: l) -> older k [x] /\ older k l.
Proof. intro H. split; intros p j I; apply (H p j); [destruct I as [<-|[]]; now left|now right]. Qed.
Section Item.
Variables (body : query) (k k1 : nat) (ls1 : list literal) (key : option str) (val : str) (D : list str) (rho : vals).
Let si := tmp $"scanindex" k.
Let sv := tmp $"scanvalue" (S k).
Let itemok := tmp $"itemok" (S (S k)).
Let onebad := tmp $"onebad" (S (S (S k))).
Let K5 := S (S (S (S (S k)))).
Let kc : list nir := match key with Some x => [IAssignVar (OLocal si) x] | None => [] end.
Let pre := kc ++ [IAssignVar (OLocal sv) val; IResetLocal itemok; IBlock [append_inner (query_block ls1) [truth itemok]]; IIsUndefined itemok].
Definition bound_item (kv : value * value) : vals := bind_var val (snd kv) (match key with Some x => bind_var x (fst kv) rho | None => rho end).
Definition item_ok (kv : value * value) : bool := match sol (bound_item kv) body with [] => false | _ => true end.
Hypothesis IH : dyn_query body.
Hypothesis E1 : lower_query false K5 body = (k1, ls1).
Hypothesis Nk : forall x, In x (opt_var key) -> ~ In x D.
Hypothesis Nv : ~ In val D.
Hypothesis SB : safe_query (val :: opt_var key ++ D) body.
Hypothesis O : older k (val :: opt_var key ++ binds_query body).
Hypothesis Hsi : In si L.
Hypothesis Hsv : In sv L.
Hypothesis HF : fine (pre ++ [truth onebad]).
Lemma pre_writes : writes_ok K5 k1 (itemok :: val :: opt_var key ++ binds_query body) pre.
Proof.
  pose proof (static_q body _ _ _ _ E1) as (A1 & A2 & A3). unfold pre. rewrite writes_ok_app. split.
  { unfold kc. destruct key as [x|]; [|intros y []]. apply writes_ok_one. intros y [<-|[]]. right. cbn [opt_var app In]. tauto. }
  apply writes_ok_cons; [intros y [<-|[]]; right; right; now left|]. apply writes_ok_cons; [intros y [<-|[]]; right; now left|].
  apply writes_ok_cons; [|apply writes_ok_one; intros y []].
  intros y I. cbn [writes flat_map] in I. rewrite app_nil_r in I. apply writes_append in I as [I|I]; [|destruct I as [<-|[]]; right; now left].
  rewrite (query_code _ _ _ _ _ E1) in I. apply A2 in I as [I|I]; [now left|]. right. cbn [In]. rewrite in_app_iff. tauto.
Qed.
Lemma pre_bad : ~ In onebad (flat_map writes pre).
Proof.
  intro I. apply pre_writes in I as [(p & j & J & Q)|[Q|I]].
  - unfold onebad in Q. apply tmp_inj in Q. unfold K5 in J. lia.
  - unfold itemok, onebad in Q. apply tmp_inj in Q. lia.
  - apply O in I. lia.
Qed.
Lemma every_item a b s s0 c s1 : ctx k D rho s -> (live s -> given si sv a b s s0) -> runs (pre ++ [truth onebad]) s0 c s1 ->
  ctx k D rho s1 /\ local s1 (num onebad) = if item_ok (a, b) then local s (num onebad) else Some (Some VTrue).
Proof.
  intros HC G HR. pose proof (ctx_older _ _ _ _ HC) as OD. pose proof (static_q body _ _ _ _ E1) as (KB & _ & _). unfold K5 in KB.
  pose proof (proj1 (fine_app _ _) HF) as [Fp Ft]. pose proof pre_writes as WP. pose proof pre_bad as NB.
  assert (Hbad : In onebad L) by (unfold truth in Ft; local_in Ft).
  destruct (older_cons _ _ _ O) as [Ov O']. destruct (older_app _ _ _ O') as [Ok Ob].
  assert (C0 : ctx K5 (sv :: si :: D) (bind_var sv b (bind_var si a rho)) s0).
  { eapply ctx_given; [eapply ctx_wider; [exact HC|unfold K5; lia]| |exact Hsi|exact Hsv| | |exact G].
    - intros p j [Q|[Q|[]]]; unfold si, sv in Q; apply tmp_inj in Q; unfold K5; lia.
    - unfold si. fresh_in OD.
    - unfold sv. fresh_in OD. }
  specialize (G (ctx_live _ _ _ _ HC)). destruct G as [_ G].
  assert (B0 : local s0 (num onebad) = local s (num onebad)).
  { rewrite (G onebad Hbad). destruct (str_eqb sv onebad) eqn:Q1; [apply str_eqb_eq in Q1; unfold sv, onebad in Q1; apply tmp_inj in Q1; lia|].
    destruct (str_eqb si onebad) eqn:Q2; [apply str_eqb_eq in Q2; unfold si, onebad in Q2; apply tmp_inj in Q2; lia|]. reflexivity. }
  (* the variables [D] *)
  assert (CD : ctx k D rho s1).
  { assert (C0' : ctx k D rho s0).
    { eapply ctx_sub; [exact C0|intros y I; right; now right|apply HC|exact OD|]. intros y I. unfold bind_var.
      destruct (str_eqb sv y) eqn:Q1; [apply str_eqb_eq in Q1; subst y; exfalso; revert I; unfold sv; fresh_in OD|].
      destruct (str_eqb si y) eqn:Q2; [apply str_eqb_eq in Q2; subst y; exfalso; revert I; unfold si; fresh_in OD|]. reflexivity. }
    destruct C0' as ((A & A0) & B & C & H). split; [split; assumption|]. split; [exact B|]. split; [eapply runs_live; [|eassumption|eassumption]; assumption|].
    intros y I. destruct (H y I) as (u & P & Q). exists u. split; [exact P|]. rewrite <- Q. eapply runs_keep; eauto; [apply C|]. intro W.
    apply in_flat_app in W as [W|W].
    - apply WP in W as [(p & j & J & ->)|[<-|W]].
      + apply OD in I. unfold K5 in J. lia.
      + revert I. unfold itemok. fresh_in OD.
      + destruct W as [<-|W]; [auto|]. apply in_app_iff in W as [W|W]; [exact (Nk _ W I)|].
        apply (proj2 (proj2 (proj2 safe_binds)) body _ SB y W). right. apply in_or_app. now right.
    - destruct W as [<-|[]]. revert I. unfold onebad. fresh_in OD. }
  split; [exact CD|]. apply runs_app in HR as (c2 & s2 & R2 & G2).
  assert (B2 : local s2 (num onebad) = local s (num onebad)).
  { rewrite <- B0. eapply runs_keep; eauto. apply (ctx_live _ _ _ _ C0). }
  (* the bound variables *)
  unfold pre in R2, Fp. apply fine_app in Fp as [Fk Fp]. apply runs_app in R2 as (c3 & s3 & R3 & G3).
  assert (C3 : c3 = CContinue /\ ctx K5 (opt_var key ++ sv :: si :: D) (match key with Some x => bind_var x a (bind_var sv b (bind_var si a rho)) | None => bind_var sv b (bind_var si a rho) end) s3).
  { unfold kc in R3, Fk. destruct key as [x|].
    - pose proof (runs_len _ _ _ _ R3) as Z3. assert (Hx : In x L) by local_in Fk.
      assert (FO : fine_op (OLocal si)) by (split; [intros y [<-|[]]; exact Hsi|intros y []]).
      apply runs_assign in R3 as [-> W3]; [|exact FO]. split; [reflexivity|]. apply ctx_bind with (s := s0); auto.
      + rewrite <- (value_local si (Some a) s0); [exact W3|]. rewrite (G si Hsi). destruct (str_eqb sv si) eqn:Q1; [apply str_eqb_eq in Q1; unfold sv, si in Q1; apply tmp_inj in Q1; lia|].
        now rewrite str_eqb_refl.
      + intro I. apply (Nk x (or_introl eq_refl)), HC, I.
      + eapply older_wider; [exact Ok|unfold K5; lia].
    - apply runs_nil in R3 as [-> ->]. split; [reflexivity|exact C0]. }
  destruct C3 as [-> C3]. contd G3 R4.
  apply fine_cons in Fp as [Fv Fp]. split_run R4 c4 s4 R4 G4. pose proof (runs_len _ _ _ _ R4) as Z4. assert (Hv : In val L) by local_in Fv.
  assert (FO : fine_op (OLocal sv)) by (split; [intros y [<-|[]]; exact Hsv|intros y []]).
  apply runs_assign in R4 as [-> W4]; [|exact FO]. contd G4 R5.
  assert (VB : value_at E s3 (iop (OLocal sv)) = Some b).
  { destruct C3 as (_ & _ & _ & H3). destruct (H3 sv) as (u & P & Q); [apply in_or_app; right; now left|]. rewrite (value_local _ _ _ Q). rewrite <- P.
    destruct key as [x|]; unfold bind_var.
    - destruct (str_eqb x sv) eqn:Q1; [|now rewrite str_eqb_refl]. apply str_eqb_eq in Q1. subst x. exfalso. specialize (Ok $"scanvalue" (S k) (or_introl eq_refl)). lia.
    - now rewrite str_eqb_refl. }
  rewrite VB in W4. assert (OvK : older K5 [val]) by (eapply older_wider; [exact Ov|unfold K5; lia]).
  pose proof (ctx_bind _ _ _ _ _ _ _ C3 W4 Z4 Hv (fun I => Nv (proj2 (proj1 HC) _ I)) OvK) as C4.
  assert (OD' : older k (val :: opt_var key ++ D)).
  { intros p j [Q|I]; [apply (Ov p j); now left|]. apply in_app_iff in I as [I|I]; [exact (Ok p j I)|exact (OD p j I)]. }
  assert (C4' : ctx K5 (val :: opt_var key ++ D) (bound_item (a, b)) s4).
  { eapply ctx_sub; [exact C4| |intros y I; right; apply in_or_app; right; exact (proj2 (proj1 HC) _ I)|eapply older_wider; [exact OD'|unfold K5; lia]|].
    - intros y [<-|I]; [now left|]. right. apply in_app_iff in I as [I|I]; apply in_or_app; [now left|right; right; now right].
    - intros y I. assert (N1 : str_eqb sv y = false). { destruct (str_eqb sv y) eqn:Q1; [|reflexivity]. apply str_eqb_eq in Q1. subst y. apply OD' in I. lia. }
      assert (N2 : str_eqb si y = false). { destruct (str_eqb si y) eqn:Q1; [|reflexivity]. apply str_eqb_eq in Q1. subst y. apply OD' in I. lia. }
      unfold bound_item, bind_var. cbn [fst snd]. destruct key as [x|]; rewrite N1, N2; reflexivity. }
  (* the body *)
  apply fine_cons in Fp as [Fi Fp]. split_run R5 c5 s5 R5 G5. pose proof (runs_len _ _ _ _ R5) as Z5. apply runs_reset in R5 as [-> W5]. contd G5 R6.
  assert (Hi : In itemok L) by local_in Fi.
  assert (NI : ~ In itemok (val :: opt_var key ++ D)) by (unfold itemok; fresh_in OD').
  assert (C5 : ctx K5 (val :: opt_var key ++ D) (bound_item (a, b)) s5) by (eapply ctx_wrote; [exact C4'|exact W5|exact Z5|exact Hi|exact NI|apply le_n]).
  apply fine_cons in Fp as [Fb Fp]. split_run R6 c6 s6 R6 G6. apply runs_block in R6 as (-> & s7 & c7 & s8 & Q7 & FR7 & R7 & Q8 & FR8). contd G6 R8.
  assert (I7 : idle s5 s7) by (split; auto). assert (I8 : idle s8 s6) by (split; auto).
  destruct (flagged body false K5 k1 ls1 (val :: opt_var key ++ D) (bound_item (a, b)) itemok s7 c7 s8 IH E1 SB) as [C8 H8]; auto.
  { eapply older_wider; [exact Ob|unfold K5; lia]. } { eapply ctx_idle; eauto. } { unfold itemok. fresh_in Ob. }
  { intros p j [Q|[]]. unfold itemok in Q. apply tmp_inj in Q. unfold K5. lia. } { now apply fine_block. }
  { rewrite (idle_local _ _ _ I7). apply W5. }
  apply runs_undefined in R8 as (Q9 & FR9 & v & X9 & ->). rewrite (idle_local _ _ _ I8) in X9. unfold item_ok.
  destruct (sol (bound_item (a, b)) body).
  - rewrite H8 in X9. injection X9 as <-. destruct G2 as [[_ R9]|(G2 & _)]; [|discriminate]. apply runs_truth in R9 as [_ [_ W9]]. exact W9.
  - destruct H8 as [_ H8]. rewrite H8 in X9. injection X9 as <-. destruct G2 as [[G2 _]|(_ & _ & ->)]; [discriminate|]. exact B2.
Qed.
Lemma every_passes l s ts s' bad : passes si sv [] (pre ++ [truth onebad]) l s ts s' -> ctx k D rho s -> local s (num onebad) = Some (if bad : bool then Some VTrue else None) ->
  ctx k D rho s' /\ local s' (num onebad) = Some (if bad || negb (forallb item_ok l) then Some VTrue else None).
Proof.
  intro P. revert bad. induction P as [s|a b l s s0 ts1 c s1 s2 ts2 s' G M I P IHP]; intros bad HC HB.
  - cbn [forallb negb]. rewrite orb_false_r. auto.
  - apply meets_nil in M as [_ M]. destruct (every_item a b s s0 c s1 HC G M) as [C1 B1].
    destruct (IHP (bad || negb (item_ok (a, b)))) as [C2 B2].
    + eapply ctx_idle; eauto.
    + rewrite (idle_local _ _ _ I), B1. destruct (item_ok (a, b)); cbn [negb]; [now rewrite orb_false_r|now rewrite orb_true_r].
    + split; [exact C2|]. rewrite B2. cbn [forallb]. destruct bad, (item_ok (a, b)), (forallb item_ok l); reflexivity.
Qed.
End Item.
Lemma query_every dom key val body q : dyn_query body -> dyn_query q -> dyn_query (QEvery dom key val body q).
Proof.
  intros IHb IHq top k k' ls D rho tail s ts c s' HL' (Hd & Nk & Nv & Sb & Sq) HO HC HF HT HN HM. cbn [lower_query] in HL'.
  destruct (lower_query false (S (S (S (S (S k))))) body) as [k1 ls1] eqn:E1. destruct (lower_query top k1 q) as [k2 ls'] eqn:Eq. injection HL' as <- <-.
  cbn [flat_map binds_query scope] in *. unfold lit_code at 1 in HF. unfold lit_code at 1 in HM. cbn [ob_code ob_op] in HF, HM.
  set (si := tmp $"scanindex" k) in *. set (sv := tmp $"scanvalue" (S k)) in *. set (itemok := tmp $"itemok" (S (S k))) in *.
  set (onebad := tmp $"onebad" (S (S (S k)))) in *. set (allok := tmp $"allok" (S (S (S (S k))))) in *.
  set (pre := match key with Some x => [IAssignVar (OLocal si) x] | None => [] end ++ [IAssignVar (OLocal sv) val; IResetLocal itemok; IBlock [append_inner (query_block ls1) [truth itemok]]; IIsUndefined itemok]).
  match type of HF with fine (([_; _; IScan _ _ _ ?sb; _; _] ++ _) ++ _) => assert (EP : sb = pre ++ [truth onebad]) by (unfold pre; now rewrite <- app_assoc); rewrite EP in HF, HM; clear EP end.
  assert (O1 : older k (val :: opt_var key ++ binds_query body)).
  { intros p j I. apply (HO p j). destruct I as [<-|I]; [now left|]. right. apply in_app_iff in I as [I|I]; apply in_or_app; [now left|right; apply in_or_app; now left]. }
  assert (O2 : older k (binds_query q)). { intros p j I. apply (HO p j). right. apply in_or_app. right. apply in_or_app. now right. }
  pose proof (static_q body _ _ _ _ E1) as (K & _). pose proof (ctx_older _ _ _ _ HC) as OD.
  apply fine_app in HF as [F1 F2]. apply fine_app in F1 as [F1 Fn]. apply fine_cons in F1 as [Fr F1]. apply fine_cons in F1 as [Fd F1]. apply fine_cons in F1 as [Fs F1].
  apply fine_cons in F1 as [Fu Fa]. destruct (fine_scan _ _ _ _ Fs) as (_ & Hsi & Hsv & Fp). assert (Hb : In onebad L) by local_in Fr.
  unfold truth in Fa. assert (Ha : In allok L) by local_in Fa.
  apply meets_app in HM as (c1 & s1 & R1 & G); [|left; now apply flat_last].
  apply runs_app in R1 as (c2 & s2 & R2 & G2).
  split_run R2 c3 s3 R3 G3. pose proof (runs_len _ _ _ _ R3) as Z3. apply runs_reset in R3 as [-> W3]. contd G3 R4.
  assert (C3 : ctx k D rho s3) by (eapply ctx_wrote; [exact HC|exact W3|exact Z3|exact Hb|unfold onebad; fresh_in OD|apply le_n]).
  assert (LD : exists d, rho dom = Some d /\ local s3 (num dom) = Some (Some d)) by (apply C3; exact Hd). destruct LD as (d & RD & LD).
  split_run R4 c4 s4 R4 G4. apply runs_defined in R4 as (Q4 & FR4 & v & X4 & ->). rewrite LD in X4. injection X4 as <-. contd G4 R5.
  assert (I4 : idle s3 s4) by (split; auto).
  split_run R5 c5 s5 R5 G5. 
  destruct (meets_runs [IScan dom si sv []] (pre ++ [truth onebad]) _ _ _ R5) as (ts5 & M5).
  change (sol rho (QEvery dom key val body q)) with (match rho dom with Some d => match elements d with Some l => if forallb (item_ok body key val rho) l then sol rho q else [] | None => [] end | None => [] end).
  rewrite RD.
  apply meets_scan in M5 as [(src & l & s0 & L1 & L2 & -> & I0 & P)|(w & L1 & L2 & -> & ->)]; [| |split; [exact Hsi|intro I; apply (proj2 (proj1 HC)) in I; revert I; unfold si; fresh_in OD]|split; [exact Hsv|intro I; apply (proj2 (proj1 HC)) in I; revert I; unfold sv; fresh_in OD]];
    rewrite (idle_local _ _ _ I4), LD in L1; injection L1 as <-.
  2: { rewrite L2. destruct G5 as [[G5 _]|(_ & -> & ->)]; [discriminate|]. destruct G2 as [[G2 _]|(_ & -> & ->)]; [discriminate|]. destruct G as [[G _]|(_ & -> & _)]; [discriminate|constructor]. }
  cbn [scanned] in L2. rewrite L2. contd G5 R6. pose proof (idle_trans _ _ _ I4 I0) as I40.
  destruct (every_passes body k k1 ls1 key val D rho IHb E1 Nk Nv Sb O1 Hsi Hsv Fp l s0 ts5 s5 false P (ctx_idle _ _ _ _ _ C3 I40)) as [C5 B5].
  { rewrite (idle_local _ _ _ I40). apply W3. }
  cbn [orb] in B5. split_run R6 c6 s6 R6 G6. apply runs_undefined in R6 as (Q6 & FR6 & v & X6 & ->). pose proof (eq_trans (eq_sym B5) X6) as X7. clear X6. rename X7 into X6. injection X6 as <-.
  assert (I6 : idle s5 s6) by (split; auto). destruct (forallb (item_ok body key val rho) l); cbn [negb] in G6.
  - contd G6 R7. pose proof (runs_len _ _ _ _ R7) as Z7. apply runs_truth in R7 as [-> W7]. contd G2 R8.
    assert (Go : fine_op (OLocal allok)) by (split; [intros y [<-|[]]; exact Ha|intros y []]).
    destruct (runs_holds _ _ _ _ _ Go R8 (value_wrote _ _ _ _ W7)) as (Q8 & FR8 & ->).
    destruct G as [[_ M]|(G & _)]; [|discriminate].
    refine (IHq top k1 k2 ls' D rho tail s1 ts c s' Eq Sq (older_wider _ _ _ O2 _) _ F2 HT HN M); [lia|].
    eapply ctx_idle; [|split; [exact Q8|exact FR8]]. eapply ctx_wrote; [eapply ctx_idle; [exact C5|exact I6]|exact W7|exact Z7|exact Ha|unfold allok; fresh_in OD|lia].
  - destruct G6 as [[G6 _]|(_ & -> & ->)]; [discriminate|]. destruct G2 as [[G2 _]|(_ & -> & ->)]; [discriminate|]. destruct G as [[G _]|(_ & -> & _)]; [discriminate|constructor].
Qed.
Lemma term_rule f : dyn_term (TmRule f).
Proof.
  intros k k' o D rho s c s' [= <- <-] _ _ HC HF HG HR. cbn [ob_code ob_op] in *.
  assert (OK : okd (DCall f (tmp $"var" k))) by (apply HF; now left). assert (Hx : In (tmp $"var" k) L) by local_in HF.
  pose proof (rule_run f k s c s' OK Hx HR (ctx_live _ _ _ _ HC)) as H. change (ev rho (TmRule f)) with (rules f).
  destruct (rules f) as [v|]; [|exact H]. destruct H as [-> H]. split; [reflexivity|]. exact (value_local _ _ _ H).
Qed.
Theorem dyn_all : (forall t, dyn_term t) /\ (forall l, dyn_elems l /\ dyn_args l) /\ (forall l, dyn_items l) /\ (forall q, dyn_query q).
Proof.
  apply term_comb.
  - apply term_string.
  - apply term_number.
  - apply term_bool.
  - apply term_null.
  - apply term_var.
  - intros l [H _]. now apply term_array.
  - intros l [H _]. now apply term_set.
  - intros l H. now apply term_object.
  - intros. now apply term_dot.
  - intros f l [_ H]. now apply term_call.
  - intros. now apply term_minus.
  - intros. now apply term_equal.
  - intros. now apply term_member.
  - intros. now apply term_member3.
  - intros. now apply term_arraycompr.
  - intros. now apply term_setcompr.
  - intros. now apply term_objectcompr.
  - apply term_rule.
  - split; [apply elems_nil|apply args_nil].
  - intros t Ht l [H1 H2]. split; [now apply elems_cons|now apply args_cons].
  - apply items_nil.
  - intros. now apply items_cons.
  - apply query_end.
  - intros. now apply query_expr.
  - intros. now apply query_assign.
  - intros. now apply query_not.
  - intros. now apply query_every.
  - intros. now apply query_scan.
Qed.
End Names.
