(** What the compiled definitions of a rule compute. *)
From Coq Require Import String ZArith List Bool Lia.
From Verif Require Import Base SMap ValueModel ValueSpec ResolverModel VmModel VmSpec VmProofs VmSimProofs VmStmtProofs PlanModel PlanSpec PlanProofs
  RuleModel RuleSpec RuleVmProofs RuleVisitProofs.
Import ListNotations.
Local Open Scope Z_scope.

Scheme visits_mind := Minimality for visits Sort Prop
  with loops_mind := Minimality for loops Sort Prop
  with enters_mind := Minimality for enters Sort Prop.
Combined Scheme visits_comb from visits_mind, loops_mind, enters_mind.

Definition good (c : code) : Prop := c = CContinue \/ c = CUndefined.

(** Following a local from visit to visit. *)
Inductive chain {A} (R : A -> state -> A -> Prop) : A -> list state -> A -> Prop :=
| ch_nil a : chain R a [] a
| ch_cons a t a1 ts a' : R a t a1 -> chain R a1 ts a' -> chain R a (t :: ts) a'.
Lemma chain_app {A} (R : A -> state -> A -> Prop) a t1 a1 t2 a2 : chain R a t1 a1 -> chain R a1 t2 a2 -> chain R a (t1 ++ t2) a2.
Proof. induction 1; cbn; auto. intro. econstructor; eauto. Qed.

Lemma o_index_nonneg a : 0 <= o_index a.
Proof. destruct a. unfold o_index. cbn. now apply Z.mod_pos_bound. Qed.

Section Fold.
Variable E : env.
Variable fn : str.
Variable x n : Z.
Hypothesis P : private E fn n x.
Hypothesis NR : n <= 2 ^ 64.
Variable k : block.
Variable V : option value -> Prop.
Variable R : option value -> state -> option value -> Prop.
Hypothesis Hk : forall m t c s' cur, run_stmts E (run_block E m) k CContinue t = Done c s' -> good c ->
  In fn (s_stack t) -> local t x = Some cur -> V cur ->
  exists cur', In fn (s_stack s') /\ local s' x = Some cur' /\ V cur' /\ R cur t cur'.

Lemma J_run_stmt m st : fair x n [st] -> J fn x (run_stmt E (run_block E m) st).
Proof. intro H. eapply J_stmt; eauto. intros. eapply J_block; eauto. Qed.
Lemma fair_scan a b y body : fair x n [Stmt SScan a b y (Some (ExtBlock body))] -> fair x n body /\ o_index a <> x /\ o_index b <> x.
Proof.
  intros (l & Hl & HF & HS). apply opt_cons in Hl as (i & l' & Hs & Hn & ->). injection Hn as <-.
  unfold in_frame in HF. cbn [flat_map] in HF, HS. rewrite app_nil_r in HF, HS. cbn [says] in Hs.
  destruct (says_index a) eqn:Ea; try discriminate. destruct (says_index b) eqn:Eb; try discriminate.
  destruct (opt_list says body) eqn:El; try discriminate. injection Hs as <-. cbn [locals_in subjects] in HF, HS.
  apply Forall_app in HF as [F1 F2]. rewrite Forall_forall in F2. split; [|split].
  - exists l. split; [auto|]. split; [exact F1|]. intro; apply HS; apply in_or_app; auto.
  - destruct a as [[] w]; try discriminate. injection Ea as <-. rewrite (in_frame_op n NR); [intro; apply HS; cbn; auto|]. apply F2. cbn; auto.
  - destruct b as [[] w]; try discriminate. injection Eb as <-. rewrite (in_frame_op n NR); [intro; apply HS; cbn; auto|]. apply F2. cbn; auto.
Qed.
Lemma fair_with a b y path body : fair x n [Stmt SWith a b y (Some (ExtWith path body))] -> fair x n body /\ y <> x.
Proof.
  intros (l & Hl & HF & HS). apply opt_cons in Hl as (i & l' & Hs & Hn & ->). injection Hn as <-.
  unfold in_frame in HF. cbn [flat_map] in HF, HS. rewrite app_nil_r in HF, HS. cbn [says] in Hs.
  destruct (says_op a) eqn:Ea; try discriminate.
  destruct (opt_list says body) eqn:El; try discriminate. injection Hs as <-. cbn [locals_in subjects In] in HF, HS.
  apply Forall_app in HF as [_ F2]. apply Forall_app in F2 as [F2 _]. split; [|tauto].
  exists l. split; [auto|]. split; [exact F2|tauto].
Qed.

Let Q (b : block) (s : state) (ts : list state) (s' : state) : Prop := fair x n b ->
  forall cur, In fn (s_stack s) -> local s x = Some cur -> V cur ->
  exists cur', In fn (s_stack s') /\ local s' x = Some cur' /\ V cur' /\ chain R cur ts cur'.

Lemma visits_fold_all :
  (forall m b s ts c s', visits E k m b s ts c s' -> Q b s ts s') /\
  (forall m i j b l s ts s', loops E k m i j b l s ts s' -> 0 <= i -> 0 <= j -> i <> x -> j <> x -> Q b s ts s') /\
  (forall m b s ts c s', enters E k m b s ts c s' -> Q b s ts s').
Proof.
  apply visits_comb; unfold Q.
  - intros m s c s' H Hc _ cur I L HV. destruct (Hk _ _ _ _ _ H Hc I L HV) as (cur' & I' & L' & HV' & HR).
    exists cur'. repeat split; auto. econstructor; [exact HR|constructor].
  - intros m st b s s1 ts c s' _ H _ IH Hf cur I L HV. apply fair_cons in Hf as [F1 F2].
    destruct (J_run_stmt m st F1 _ _ _ I H) as [I1 L1]. apply IH; auto. congruence.
  - intros m st b s s1 _ H Hf cur I L HV. apply fair_cons in Hf as [F1 F2].
    destruct (J_run_stmt m st F1 _ _ _ I H) as [I1 L1]. exists cur. repeat split; auto; [congruence|constructor].
  - intros m a b y body' body s src l ts s' _ HL HS _ IH Hf cur I L HV. apply fair_scan in Hf as (F1 & F2 & F3).
    apply IH; auto; apply o_index_nonneg.
  - intros m a b y body' body s v _ HL HS _ Hf cur I L HV. exists cur. repeat split; auto. constructor.
  - intros m a b y path body' body s v old s1 ts c s2 s3 _ HU HW _ IH HB Hf cur I L HV.
    apply fair_with in Hf as (F1 & F2). destruct (J_swap E fn x y path v F2 (add_with 1 (started (Stmt SWith a b y (Some (ExtWith path body'))) s)) _ _ I HW) as [I1 L1].
    destruct (IH F1 cur I1) as (cur' & I2 & L2 & V2 & C2); [|exact HV|].
    { rewrite L1. exact L. }
    destruct (J_write fn x y old F2 _ _ _ I2 HB) as [I3 L3].
    exists cur'. repeat split; auto. change (local (add_with (-1) s3) x) with (local s3 x). congruence.
  - intros m i j body s _ _ _ _ _ cur I L HV. exists cur. repeat split; auto. constructor.
  - intros m i j body a b l s ts1 c s1 ts2 s' _ IH1 _ IH2 Pi Pj Ni Nj Hf cur I L HV.
    assert (HB : local (bound s i j a b) x = local s x).
    { unfold local, bound. cbn [set_frame s_frame]. rewrite !znth_upd_other by auto. reflexivity. }
    destruct (IH1 Hf cur I) as (c1 & I1 & L1 & V1 & C1); [congruence|exact HV|].
    destruct (IH2 Pi Pj Ni Nj Hf c1 I1 L1 V1) as (c2 & I2 & L2 & V2 & C2). exists c2. repeat split; auto. eapply chain_app; eauto.
  - intros m b s ts c s' _ IH Hf cur I L HV. destruct (IH Hf cur I L HV) as (c2 & I2 & L2 & V2 & C2). exists c2. auto.
Qed.
End Fold.

(** ** Renaming and appending *)
Lemma append_cons_any {L S'} (st : ir L S') b k : b <> [] -> append_inner (st :: b) k = st :: append_inner b k.
Proof. destruct b; [congruence|reflexivity]. Qed.
Section Img.
Variables rho sigma : str -> Z.
Notation img := (img rho sigma).
Lemma img_append_list (b k : list nir) :
  Forall (fun st => img (append_inner (inner st) k) = append_inner (img (inner st)) (img k)) b ->
  img (append_inner b k) = append_inner (img b) (img k).
Proof.
  unfold RuleSpec.img. induction 1 as [|st b H HF IH]; [reflexivity|]. destruct b as [|st' b].
  - clear IH HF. destruct st; try reflexivity; cbn [inner] in H; cbn [map map_ir].
    + rewrite append_scan. rewrite <- H. reflexivity.
    + rewrite append_with. rewrite <- H. reflexivity.
  - rewrite append_cons_any by discriminate. cbn [map] in *. rewrite append_cons by discriminate. now rewrite IH.
Qed.
Lemma img_append b k : img (append_inner b k) = append_inner (img b) (img k).
Proof.
  apply img_append_list, Forall_forall. intros st _. induction st as [st IH] using ir_ind'. apply img_append_list. exact IH.
Qed.
Lemma img_app a b : img (a ++ b) = img a ++ img b. Proof. apply map_app. Qed.
End Img.

Lemma locals_append_list (b k : list (ir Z Z)) z :
  Forall (fun st => In z (flat_map locals_in (inner st)) \/ In z (flat_map locals_in k) ->
    In z (flat_map locals_in (append_inner (inner st) k))) b ->
  In z (flat_map locals_in b) \/ In z (flat_map locals_in k) -> In z (flat_map locals_in (append_inner b k)).
Proof.
  induction 1 as [|st b H HF IH]; intro G; [destruct G as [[]|G]; exact G|]. destruct b as [|st' b].
  - clear IH HF. assert (D : match st with IScan _ _ _ _ | IWith _ _ _ _ => True | _ => False end \/ append_inner [st] k = st :: k)
      by (destruct st; auto).
    destruct D as [D|D].
    + destruct st; try contradiction; cbn [inner] in H.
      * rewrite append_scan. cbn [flat_map locals_in] in *. rewrite app_nil_r in *. rewrite in_app_iff in *. tauto.
      * rewrite append_with. cbn [flat_map locals_in] in *. rewrite app_nil_r in *. repeat rewrite in_app_iff in *. tauto.
    + rewrite D. cbn [flat_map] in *. rewrite app_nil_r in G. rewrite in_app_iff. tauto.
  - rewrite append_cons by discriminate. remember (st' :: b) as b0. cbn [flat_map] in G |- *. rewrite in_app_iff in *. tauto.
Qed.
Lemma locals_append (b k : list (ir Z Z)) z : In z (flat_map locals_in b) \/ In z (flat_map locals_in k) ->
  In z (flat_map locals_in (append_inner b k)).
Proof.
  apply locals_append_list, Forall_forall. intros st _. induction st as [st IH] using ir_ind'. apply locals_append_list. exact IH.
Qed.
Lemma in_frame_append n b k : in_frame n (append_inner b k) -> in_frame n b /\ in_frame n k.
Proof.
  unfold in_frame. rewrite !Forall_forall. intro H. split; intros z I; apply H, locals_append; auto.
Qed.
Lemma in_frame_app n a b : in_frame n (a ++ b) <-> in_frame n a /\ in_frame n b.
Proof. unfold in_frame. rewrite flat_map_app, Forall_app. tauto. Qed.
Lemma in_frame_cons n a b : in_frame n (a :: b) <-> in_frame n [a] /\ in_frame n b.
Proof. change (a :: b) with ([a] ++ b). apply in_frame_app. Qed.

(** ** Single statements *)
Section Stmts.
Variable E : env.
Variable n : Z.
Hypothesis NR : n <= 2 ^ 64.

Lemma says_leaf st i : says st = Some i ->
  match i with
  | IIsDefined x => exists a b, st = Stmt SIsDefined a b x None
  | IIsUndefined x => exists a b, st = Stmt SIsUndefined a b x None
  | IResetLocal x => exists a b, st = Stmt SResetLocal a b x None
  | IReturnLocal x => exists a b, st = Stmt SReturnLocal a b x None
  | IMakeSet x => exists a b, st = Stmt SMakeSet a b x None
  | IMakeObject x => exists a b, st = Stmt SMakeObject a b x None
  | IAssignVarOnce o x => exists a b, st = Stmt SAssignVarOnce a b x None /\ says_op a = Some o
  | IAssignVar o x => exists a b, st = Stmt SAssignVar a b x None /\ says_op a = Some o
  | ISetAdd o x => exists a b, st = Stmt SSetAdd a b x None /\ says_op a = Some o
  | IObjectInsertOnce k v x => exists a b, st = Stmt SObjectInsertOnce a b x None /\ says_op a = Some k /\ says_op b = Some v
  | IBlock ls => exists a b x bs, st = Stmt SBlock a b x (Some (ExtBlocks bs)) /\ opt_list (opt_list says) bs = Some ls
  | _ => True
  end.
Proof.
  destruct st as [ty a0 a1 y e]. cbn [says]. intro H.
  destruct ty, e as [[]|]; try discriminate H; unfold with1, with2, option_map in H;
    repeat match type of H with context [match ?y with _ => _ end] => destruct y eqn:?; try discriminate H end;
    try discriminate H; injection H as <-; eauto 10.
Qed.

Lemma unpack_value a o t v t' : says_op a = Some o -> Forall (fun x => 0 <= x < n) (op_local o) ->
  unpack_operand E a t = Done v t' -> t' = t /\ v = value_at E t o.
Proof.
  intros Ho HF H. pose proof (unpack_inv _ _ _ _ _ H) as ->. split; [reflexivity|].
  unfold says_op in Ho. unfold unpack_operand in H. destruct a as [ty w]. cbn [o_type o_word] in *.
  destruct ty; try discriminate; injection Ho as <-.
  - apply read_inv in H as [_ H]. cbn [value_at]. inversion HF; subst. unfold o_index in H. cbn [o_word] in H.
    rewrite Z.mod_small in H by lia. now rewrite H.
  - unfold bind, vnth, o_index in H. cbn [o_word] in H. cbn [value_at].
    match goal with |- context [znth ?a ?b] => destruct (znth a b) end; [|discriminate].
    cbn in H. injection H as <-. reflexivity.
  - injection H as <-. reflexivity.
  - injection H as <-. reflexivity.
Qed.

(** A statement has run: what it says about the locals. *)
Lemma run_defined rb st x s c s' : says st = Some (IIsDefined x) -> run_stmt E rb st s = Done c s' -> c <> CTimeout ->
  s' = started st s /\ exists v, local s x = Some v /\ c = match v with Some _ => CContinue | None => CUndefined end.
Proof.
  intros Hs H Hc. apply says_leaf in Hs as (a & b & ->). apply run_stmt_inv in H as [_ H]; [|exact Hc].
  cbn [dispatch] in H. unfold bind at 1, is_defined, bind at 1 in H.
  destruct (read_local x _) as [v s1|s1|f s1|s1] eqn:Er; try discriminate. apply read_inv in Er as [-> Er].
  cbn in H. injection H as <- <-. split; [reflexivity|]. exists v. split; [exact Er|]. destruct v; reflexivity.
Qed.
Lemma run_undefined rb st x s c s' : says st = Some (IIsUndefined x) -> run_stmt E rb st s = Done c s' -> c <> CTimeout ->
  s' = started st s /\ exists v, local s x = Some v /\ c = match v with Some _ => CUndefined | None => CContinue end.
Proof.
  intros Hs H Hc. apply says_leaf in Hs as (a & b & ->). apply run_stmt_inv in H as [_ H]; [|exact Hc].
  cbn [dispatch] in H. unfold bind at 1, is_defined, bind at 1 in H.
  destruct (read_local x _) as [v s1|s1|f s1|s1] eqn:Er; try discriminate. apply read_inv in Er as [-> Er].
  cbn in H. injection H as <- <-. split; [reflexivity|]. exists v. split; [exact Er|]. destruct v; reflexivity.
Qed.
Definition put (x : Z) (v : option value) (s : state) : state := set_frame (upd (s_frame s) (Z.to_nat x) v) s.
Lemma run_reset rb st x s c s' : says st = Some (IResetLocal x) -> run_stmt E rb st s = Done c s' -> c <> CTimeout ->
  c = CContinue /\ 0 <= x < zlen (s_frame s) /\ s' = put x None (started st s).
Proof.
  intros Hs H Hc. apply says_leaf in Hs as (a & b & ->). apply run_stmt_inv in H as [_ H]; [|exact Hc].
  cbn [dispatch] in H. unfold bind at 1 in H.
  destruct (write_local x _ _) as [v s1|s1|f s1|s1] eqn:Er; try discriminate. apply write_inv in Er as [R ->].
  cbn in H. injection H as <- <-. auto.
Qed.
Lemma run_makeset rb st x s c s' : says st = Some (IMakeSet x) -> run_stmt E rb st s = Done c s' -> c <> CTimeout ->
  c = CContinue /\ 0 <= x < zlen (s_frame s) /\ s' = put x (Some (VSet [])) (started st s).
Proof.
  intros Hs H Hc. apply says_leaf in Hs as (a & b & ->). apply run_stmt_inv in H as [_ H]; [|exact Hc].
  cbn [dispatch] in H. unfold bind at 1 in H.
  destruct (write_local x _ _) as [v s1|s1|f s1|s1] eqn:Er; try discriminate. apply write_inv in Er as [R ->].
  cbn in H. injection H as <- <-. auto.
Qed.
Lemma run_return rb st x s c s' : says st = Some (IReturnLocal x) -> run_stmt E rb st s = Done c s' -> c <> CTimeout ->
  c = CReturn /\ s' = started st s.
Proof.
  intros Hs H Hc. apply says_leaf in Hs as (a & b & ->). apply run_stmt_inv in H as [_ H]; [|exact Hc].
  cbn in H. injection H as <- <-. auto.
Qed.
Lemma run_blockst rb st ls s c s' : says st = Some (IBlock ls) -> run_stmt E rb st s = Done c s' -> c <> CTimeout ->
  exists bs, opt_list (opt_list says) bs = Some ls /\ block_stmt rb bs (started st s) = Done c s'.
Proof.
  intros Hs H Hc. apply says_leaf in Hs as (a & b & x & bs & -> & Hb). apply run_stmt_inv in H as [_ H]; [|exact Hc]. eauto.
Qed.

(** Storing a value once. *)
Definition once (cur v cur' : option value) : Prop :=
  match v with
  | None => cur' = cur
  | Some u => match cur with None => cur' = Some u | Some y => same_value E u y /\ cur' = cur end
  end.
Lemma run_once rb st o x s c s' : says st = Some (IAssignVarOnce o x) -> Forall (fun x => 0 <= x < n) (op_local o) ->
  run_stmt E rb st s = Done c s' -> good c ->
  c = CContinue /\ ((s' = started st s /\ value_at E s o = None) \/
    exists u cur cur', value_at E s o = Some u /\ local s x = Some cur /\ once cur (Some u) cur' /\ local s' x = Some cur' /\
      (0 <= x < zlen (s_frame s) /\ s' = put x cur' (started st s) \/ s' = started st s)).
Proof.
  intros Hs HF H Hc. apply says_leaf in Hs as (a & b & -> & Ha). apply run_stmt_inv in H as [_ H]; [|destruct Hc; subst; discriminate].
  cbn [dispatch] in H. unfold bind at 1 in H.
  destruct (unpack_operand E a _) as [v s1|s1|f s1|s1] eqn:Eu; try discriminate.
  apply (unpack_value _ _ _ _ _ Ha HF) in Eu as [-> Ev]. change (value_at E (started _ s) o) with (value_at E s o) in Ev.
  rewrite <- Ev. destruct v as [u|].
  - unfold bind at 1 in H. destruct (read_local x _) as [y s1|s1|f s1|s1] eqn:Er; try discriminate. apply read_inv in Er as [-> Er].
    change (local (started _ s) x) with (local s x) in Er. destruct y as [y|].
    + destruct (str_eqb _ _) eqn:Ek.
      * injection H as <- <-. split; [reflexivity|]. right. exists u, (Some y), (Some y). split; [reflexivity|]. split; [exact Er|].
        split; [split; [now apply str_eqb_eq|reflexivity]|]. split; [exact Er|]. auto.
      * cbn in H. injection H as <- <-. destruct Hc; discriminate.
    + unfold bind at 1 in H. destruct (write_local x _ _) as [w s1|s1|f s1|s1] eqn:Ew; try discriminate. apply write_inv in Ew as [R ->].
      cbn in H. injection H as <- <-. split; [reflexivity|]. right. exists u, None, (Some u). split; [reflexivity|]. split; [exact Er|].
      split; [reflexivity|]. split; [|left; auto].
      exact (local_set_same (started (Stmt SAssignVarOnce a b x None) s) x (Some u) R).
  - injection H as <- <-. split; [reflexivity|]. left. auto.
Qed.
End Stmts.

(** ** Quiet steps *)
Lemma quiet_refl xs s : quiet xs s s. Proof. unfold quiet. auto 10. Qed.
Lemma quiet_trans xs s s1 s2 : quiet xs s s1 -> quiet xs s1 s2 -> quiet xs s s2.
Proof.
  intros (A1 & A2 & A3 & A4 & A5 & A0 & A6) (B1 & B2 & B3 & B4 & B5 & B0 & B6). repeat split; try congruence.
  intros i Hi. rewrite B6, A6; auto.
Qed.
Lemma quiet_weaken xs s s1 : quiet [] s s1 -> quiet xs s s1.
Proof. intros (A1 & A2 & A3 & A4 & A5 & A0 & A6). repeat split; auto. Qed.
Lemma quiet_depth d s : quiet [] s (add_depth d s). Proof. repeat split. Qed.
Lemma quiet_started st s : quiet [] s (started st s). Proof. repeat split. Qed.
Lemma quiet_put x v s : 0 <= x -> quiet [x] s (put x v s).
Proof.
  intro H. repeat split; [apply upd_length|]. intros i Hi. unfold put. rewrite local_set_other; auto. intros ->. apply Hi. now left.
Qed.
Lemma quiet_stack xs s s' : quiet xs s s' -> s_stack s' = s_stack s. Proof. intros (? & ? & ?). tauto. Qed.
Lemma quiet_local xs s s' i : quiet xs s s' -> ~ In i xs -> local s' i = local s i. Proof. intros (? & ? & ? & ? & ? & ? & H). auto. Qed.
Lemma quiet_length xs s s' : quiet xs s s' -> length (s_frame s') = length (s_frame s). Proof. intros (? & ? & ? & ? & ? & ? & H). auto. Qed.
Lemma quiet_all s s' i : quiet [] s s' -> local s' i = local s i. Proof. intro H. eapply quiet_local; eauto. Qed.

(** ** Values stored once *)
Definition assigned E (cur : option value) (vs : list value) (cur' : option value) : Prop :=
  cur' = match cur with Some y => Some y | None => hd_error vs end /\
  forall v u, In v vs -> cur' = Some u -> same_value E v u.
Lemma assigned_nil E cur : assigned E cur [] cur.
Proof. split; [destruct cur; reflexivity|intros v u []]. Qed.
Lemma assigned_app E a vs b ws c : assigned E a vs b -> assigned E b ws c -> assigned E a (vs ++ ws) c.
Proof.
  intros [A1 A2] [B1 B2]. split.
  - subst. destruct a; [reflexivity|]. destruct vs; reflexivity.
  - intros v u I ->. apply in_app_iff in I as [I|I]; [|now apply B2]. apply A2; auto.
    subst b. destruct a; [symmetry; exact B1|]. destruct vs; [destruct I|symmetry; exact B1].
Qed.
Lemma once_assigned E cur v cur' : once E cur v cur' -> assigned E cur (match v with Some u => [u] | None => [] end) cur'.
Proof.
  unfold once. destruct v as [u|]; [|intros ->; apply assigned_nil]. destruct cur as [y|].
  - intros [H ->]. split; [reflexivity|]. intros v w [<-|[]] [= <-]. exact H.
  - intros ->. split; [reflexivity|]. intros v w [<-|[]] [= <-]. reflexivity.
Qed.
Lemma chain_assigned E o : forall ts cur cur', chain (fun a t b => once E a (value_at E t o) b) cur ts cur' ->
  assigned E cur (values_at E o ts) cur'.
Proof.
  induction 1; [apply assigned_nil|]. unfold values_at. cbn [flat_map]. eapply assigned_app; [|eassumption].
  now apply once_assigned.
Qed.

Section Ask.
Variable E : env.
Variable fn : str.
Variable n : Z.
Hypothesis NR : n <= 2 ^ 64.
Variables rho sigma : str -> Z.
Notation img := (img rho sigma).
Notation iop := (iop rho sigma).
Notation asks := (asks E rho sigma).

Lemma ask_run tail o code m b s c s' : opt_list says b = Some (img (append_inner code (tail o))) ->
  run_stmts E (run_block E m) b CContinue s = Done c s' -> good c -> exists vs, asks tail (o, code) s vs s'.
Proof.
  rewrite img_append. intros H HR Hc. apply splits_all in H as (sb & sk & H1 & H2 & X).
  destruct (visits_run E sk m sb b s c s' X Hc HR) as (ts & V).
  eexists. exists m, sk, sb, ts, c, s, s'. repeat split; eauto.
Qed.

Lemma asks_keep tail o code s vs s' z : asks tail (o, code) s vs s' -> In fn (s_stack s) -> private E fn n z ->
  in_frame n (img code) -> ~ In z (flat_map subjects (img code)) ->
  (forall m kc t c t', opt_list says kc = Some (img (tail o)) -> run_stmts E (run_block E m) kc CContinue t = Done c t' -> good c ->
     s_stack t' = s_stack t /\ local t' z = local t z) ->
  forall cur, local s z = Some cur -> In fn (s_stack s') /\ local s' z = Some cur.
Proof.
  intros (m & kc & b & ts & c & s0 & s1 & H1 & H2 & Q0 & V & Q1 & _) I P HF HS HT cur L.
  cbn [fst snd] in *.
  assert (I0 : In fn (s_stack s0)) by (rewrite (quiet_stack _ _ _ Q0); auto).
  assert (L0 : local s0 z = Some cur) by (rewrite (quiet_all _ _ _ Q0); auto).
  destruct (visits_fold_all E fn z n P NR kc (fun _ => True) (fun a _ b => b = a)) as [G _].
  - intros m' t c' t' cur0 HR Hc It Lt _. destruct (HT m' kc t c' t' H1 HR Hc) as [A B].
    exists cur0. rewrite A, B. auto.
  - destruct (G _ _ _ _ _ _ V ltac:(exists (img code); auto) cur I0 L0 Logic.I) as (cur' & I1 & L1 & _ & C).
    rewrite (quiet_stack _ _ _ Q1), (quiet_all _ _ _ Q1). split; [auto|].
    assert (cur' = cur) by (clear - C; induction C; congruence). congruence.
Qed.

Lemma store_run y o rb kc t c t' : opt_list says kc = Some (img (store y o)) -> in_frame n (img (store y o)) ->
  run_stmts E rb kc CContinue t = Done c t' -> good c ->
  s_stack t' = s_stack t /\ (forall z, z <> rho y -> local t' z = local t z) /\
  forall cur, local t (rho y) = Some cur -> exists cur', local t' (rho y) = Some cur' /\ once E cur (value_at E t (iop o)) cur'.
Proof.
  intros HS HF HR Hc. unfold store in HS, HF. rewrite img_app in HS, HF. apply opt_app in HS as (k1 & k2 & -> & S1 & S2).
  apply in_frame_app in HF as [_ HF].
  assert (HO : Forall (fun x => 0 <= x < n) (op_local (iop o))).
  { unfold in_frame in HF. cbn in HF. rewrite app_nil_r in HF. now apply Forall_app in HF as [HF _]. }
  assert (LAST : forall t0, run_stmts E rb k2 CContinue t0 = Done c t' -> s_stack t' = s_stack t0 /\ (forall z, z <> rho y -> local t' z = local t0 z) /\
     forall cur, local t0 (rho y) = Some cur -> exists cur', local t' (rho y) = Some cur' /\ once E cur (value_at E t0 (iop o)) cur').
  { clear HR. intros t0 HR. cbn [RuleSpec.img map map_ir] in S2. apply opt_out in S2 as (st & l' & -> & Hst & Hn). apply opt_nil in Hn as ->.
    assert (HR1 : run_stmt E rb st t0 = Done c t').
    { apply stmts_inv in HR as [(s1 & A & B)|[A ->]]; auto. injection B as <- <-. exact A. }
    apply (run_once E n NR _ _ _ _ _ _ _ Hst HO) in HR1 as [_ [[-> HV]|(u & cur & cur' & HV & HL & HO' & HL' & HD)]]; [| |exact Hc].
    - split; [reflexivity|]. split; [reflexivity|]. intros cur L. exists cur. unfold RuleSpec.iop. rewrite HV. split; [exact L|reflexivity].
    - split; [destruct HD as [[_ ->]| ->]; reflexivity|]. split.
      + intros z Hz. destruct HD as [[R ->]| ->]; [|reflexivity]. unfold put.
        rewrite local_set_other; [reflexivity|lia|auto].
      + intros cur0 L0. rewrite HL in L0. injection L0 as <-. exists cur'. unfold RuleSpec.iop. rewrite HV. auto. }
  unfold check_operand_is_defined in S1. destruct o as [l|i|bb]; [destruct (_ || _)| |].
  2:{ cbn [RuleSpec.img map map_ir] in S1. apply opt_out in S1 as (st & l' & -> & Hst & Hn). apply opt_nil in Hn as ->.
      cbn [app] in HR. apply stmts_inv in HR as [(s1 & A & B)|[A ->]]; [| |exact Hc].
      - apply (run_defined E _ _ _ _ _ _ Hst) in A as [-> _]; [|discriminate]. apply LAST in B. exact B.
      - apply (run_defined E _ _ _ _ _ _ Hst) in A as [-> (v & HL & Hv)]; [|discriminate]. destruct v; [discriminate|].
        split; [reflexivity|]. split; [reflexivity|]. intros cur L. exists cur. split; [exact L|]. cbn. rewrite HL. reflexivity. }
  all: apply opt_nil in S1 as ->; now apply LAST.
Qed.

Lemma asks_store y o code s vs s' : asks (store y) (o, code) s vs s' -> In fn (s_stack s) -> private E fn n (rho y) ->
  in_frame n (img code) -> in_frame n (img (store y o)) -> ~ In (rho y) (flat_map subjects (img code)) ->
  forall cur, local s (rho y) = Some cur ->
  exists cur', In fn (s_stack s') /\ local s' (rho y) = Some cur' /\ assigned E cur vs cur'.
Proof.
  intros (m & kc & b & ts & c & s0 & s1 & H1 & H2 & Q0 & V & Q1 & ->) I P HF HT HS cur L.
  cbn [fst snd] in *.
  assert (I0 : In fn (s_stack s0)) by (rewrite (quiet_stack _ _ _ Q0); auto).
  assert (L0 : local s0 (rho y) = Some cur) by (rewrite (quiet_all _ _ _ Q0); auto).
  destruct (visits_fold_all E fn (rho y) n P NR kc (fun _ => True) (fun a t b => once E a (value_at E t (iop o)) b)) as [G _].
  - intros m' t c' t' cur0 HR Hc It Lt _. destruct (store_run _ _ _ _ _ _ _ H1 HT HR Hc) as (A & _ & B).
    destruct (B _ Lt) as (cur' & B1 & B2). exists cur'. rewrite A. auto.
  - destruct (G _ _ _ _ _ _ V ltac:(exists (img code); auto) cur I0 L0 Logic.I) as (cur' & I1 & L1 & _ & C).
    exists cur'. rewrite (quiet_stack _ _ _ Q1), (quiet_all _ _ _ Q1). split; [auto|]. split; [auto|].
    now apply chain_assigned.
Qed.
End Ask.
