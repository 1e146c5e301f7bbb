(** Code of rules that refer to rules: what TermRunProofs and TermRuleProofs ask for, given what calls of rules do. *)
From Coq Require Import String ZArith NArith List Bool Lia.
From Verif Require Import Base SMap ValueModel ValueSpec VmModel VmSpec VmProofs VmSimProofs VmStmtProofs PlanModel PlanSpec PlanProofs RuleModel RuleSpec RuleVmProofs RuleVisitProofs RuleProofs
  TermModel TermSpec TermStaticProofs TermCalmProofs TermVmProofs TermRunProofs TermScopeProofs TermRuleProofs TermPlainProofs TermSaneProofs.
Import ListNotations.
Local Open Scope Z_scope.

Lemma docs_not_tmp x p k : In x [$"input"; $"data"] -> x <> tmp p k.
Proof.
  intros I Q. assert (D : In 36 x) by (rewrite Q; unfold tmp; apply in_or_app; right; left; reflexivity).
  destruct I as [<-|[<-|[]]]; cbn in D; intuition discriminate.
Qed.
(** ** Visits *)
Section Visit.
Variable E : env.
Variable n : Z.
Hypothesis NR : n <= 2 ^ 64.
Variables inp data : value.
Variable rules : str -> option value.
Variable is_rule : str -> Prop.
Notation sane := (sane n inp data rules).
Notation hfair := (hfair E n is_rule).
Hypothesis HC : forall g m args t s c s', is_rule g -> 2 <= t -> s_count s < e_stmt_limit E -> run_call E (run_block E m) g args t s = Done c s' -> clean s' ->
  sane s -> sane s' /\ s_count s' < e_stmt_limit E /\
    match rules g with Some v => c = CContinue /\ local s' t = Some (Some v) | None => c = CUndefined end.
Lemma sane_H m r st : H E n inp data rules false r m -> forall s' c, m st = Done c s' -> clean s' -> sane st -> sane s' /\ within r c.
Proof. intros X s' c Q C S. destruct (X _ _ _ Q C) as [_ P]. destruct P as [[P1 _] P2]; [split; [exact S|discriminate]|]. auto. Qed.
Lemma sane_stmts m b s c s' : hfair false b -> run_stmts E (run_block E m) b CContinue s = Done c s' -> clean s' -> sane s -> sane s'.
Proof.
  intros HF HR HCl HS. eapply (sane_H _ false); eauto. apply (H_stmts E n NR inp data rules is_rule HC m false); auto using within_cont.
  intros. apply (H_block E n NR inp data rules is_rule HC); auto.
Qed.
Lemma sane_stmt m st s c s' : hfair false [st] -> run_stmt E (run_block E m) st s = Done c s' -> clean s' -> sane s -> sane s'.
Proof.
  intros HF HR HCl HS. eapply (sane_H _ false); eauto. apply (H_stmt E n NR inp data rules is_rule HC m false); auto.
  intros. apply (H_block E n NR inp data rules is_rule HC); auto.
Qed.
Lemma hfair_scan a b y body : hfair false [Stmt SScan a b y (Some (ExtBlock body))] -> hfair false body /\ 2 <= o_index a /\ 2 <= o_index b.
Proof.
  intros (l & Hl & HB). apply opt_cons in Hl as (i & l' & Hs & Hn & ->). injection Hn as <-.
  cbn [flat_map] in HB. rewrite app_nil_r in HB. cbn [says] in Hs.
  destruct (says_index a) as [z|] eqn:Ea; try discriminate. destruct (says_index b) as [z0|] eqn:Eb; try discriminate.
  destruct (opt_list says body) as [l|] eqn:El; try discriminate. injection Hs as <-. cbn [deeds app] in HB.
  pose proof (HB (DWrite z) (or_introl eq_refl)) as Hz. pose proof (HB (DWrite z0) (or_intror (or_introl eq_refl))) as Hz0. cbn [zok] in Hz, Hz0.
  split; [|split].
  - exists l. split; [auto|]. intros d I. apply HB. cbn. auto.
  - unfold says_index in *. unfold o_index. destruct (o_type a); try discriminate. injection Ea as <-. rewrite Z.mod_small; lia.
  - unfold says_index in *. unfold o_index. destruct (o_type b); try discriminate. injection Eb as <-. rewrite Z.mod_small; lia.
Qed.
Lemma hfair_with a b y p body : ~ hfair false [Stmt SWith a b y (Some (ExtWith p body))].
Proof.
  intros (l & Hl & HB). apply opt_cons in Hl as (i & l' & Hs & Hn & ->). injection Hn as <-.
  cbn [flat_map] in HB. rewrite app_nil_r in HB. cbn [says] in Hs.
  destruct (says_op a); try discriminate. destruct (opt_list says body); try discriminate. injection Hs as <-. exact (HB DOther (or_introl eq_refl)).
Qed.
Variable kb : block.
Hypothesis Hk : hfair false kb.
Lemma sane_visits :
  (forall m b s ts c s', visits E kb m b s ts c s' -> hfair false b -> clean s' -> sane s -> sane s') /\
  (forall m i j b l s ts s', loops E kb m i j b l s ts s' -> 2 <= i -> 2 <= j -> hfair false b -> clean s' -> sane s -> sane s') /\
  (forall m b s ts c s', enters E kb m b s ts c s' -> hfair false b -> clean s' -> sane s -> sane s').
Proof.
  apply visits_comb.
  - intros m s c s' Q Hc _ C S. eapply sane_stmts; eauto.
  - intros m st b s s1 ts c s' _ Q V IH Hf C S. apply hfair_cons in Hf as [F1 F2]. apply IH; auto. eapply sane_stmt; eauto.
    eapply clean_errs; [|exact C]. exact (proj1 (visits_errs E kb) _ _ _ _ _ _ V).
  - intros m st b s s1 _ Q Hf C S. apply hfair_cons in Hf as [F1 F2]. eapply sane_stmt; eauto.
  - intros m a b y body' body s src l ts s' st _ _ _ _ IH Hf C S. apply hfair_scan in Hf as (F1 & F2 & F3). apply IH; auto.
  - intros. auto.
  - intros m a b y path body' body s v old s1 ts c s2 s3 s0 _ _ _ _ _ _ Hf. now apply hfair_with in Hf.
  - intros. auto.
  - intros m i j body a b l s ts1 c s1 ts2 s' _ IH1 V2 IH2 Pi Pj Hf C S. apply IH2; auto. apply IH1; auto.
    + eapply clean_errs; [|exact C]. exact (proj1 (proj2 (visits_errs E kb)) _ _ _ _ _ _ _ _ V2).
    + destruct S as (A1 & A2 & A3 & A4 & A5). unfold TermSaneProofs.sane, local in *. unfold bound. cbn [set_frame s_frame s_with s_cache].
      rewrite !znth_upd_other by lia. rewrite !zlen_upd. auto.
  - intros m b s ts c s' _ IH Hf C S. exact (IH Hf C S).
Qed.
End Visit.

Lemma call_writes {S1} (f : str) (x : str) : forall st : ir str S1, In (DCall f x) (deeds st) -> In (DWrite x) (deeds st).
Proof.
  assert (F : forall l : list (ir str S1), Forall (fun st => In (DCall f x) (deeds st) -> In (DWrite x) (deeds st)) l -> In (DCall f x) (flat_map deeds l) -> In (DWrite x) (flat_map deeds l)).
  { intros l X I. apply in_flat_map in I as (st & I1 & I2). rewrite Forall_forall in X. apply in_flat_map. eauto. }
  induction st as [st IH] using ir_ind'.
  assert (W : forall l : list str, ~ In (DCall f x) (map DWrite l)) by (intros l I; apply in_map_iff in I as (? & Q & _); discriminate).
  destruct st; try (intro I; elim (W _ I)); cbn [deeds inner app] in *; intro I.
  all: try (cbn in I |- *; intuition congruence).
  all: try (destruct I as [I|I]; [discriminate|]; try (destruct I as [I|I]; [discriminate|]); cbn; auto; fail).
  all: try (apply F; auto; fail).
  - apply in_flat_map in I as (b & I1 & I2). apply in_flat_map. exists b. split; [exact I1|]. apply F; [|exact I2]. rewrite Forall_forall in *. intros st Is. apply IH. apply in_concat. eauto.
Qed.
Section Link.
Variable E : env.
Variable fn : str.
Variable n : Z.
Hypothesis NR : n <= 2 ^ 64.
Variables inp data : value.
Variable rules : str -> option value.
Variable is_rule : str -> Prop.
Notation sane := (sane n inp data rules).
Notation hfair := (hfair E n is_rule).
Hypothesis HC : forall g m args t s c s', is_rule g -> 2 <= t -> s_count s < e_stmt_limit E -> run_call E (run_block E m) g args t s = Done c s' -> clean s' ->
  sane s -> sane s' /\ s_count s' < e_stmt_limit E /\
    match rules g with Some v => c = CContinue /\ local s' t = Some (Some v) | None => c = CUndefined end.
Variables num sg : str -> Z.
Variable L : list str.
Hypothesis HL : forall x, In x L -> 0 <= num x < n /\ unshared E fn n (num x).
Hypothesis HI : forall x y, In x L -> In y L -> num x = num y -> x = y.
Definition docs : list str := [$"input"; $"data"].
Hypothesis HR2 : forall x, In x L -> ~ In x docs -> 2 <= num x.
Definition linked_deed (r : bool) (d : deed str) : Prop :=
  match d with
  | DWrite x => ~ In x docs
  | DCall f x => (e_builtin E f <> None /\ ~ rule_var x) \/ (is_rule f /\ rule_var x)
  | DReturn => r = true
  | DOther => False
  end.
Notation fine r := (TermRunProofs.fine E sg L (linked_deed r)).
Lemma linked_hfair r l b : fine r l -> opt_list says b = Some (img num sg l) -> hfair r b.
Proof.
  intros (A & _ & B) HS. exists (img num sg l). split; [exact HS|]. intros d I. unfold img in I. apply in_flat_map in I as (st & I1 & I2). apply in_map_iff in I1 as (st' & <- & I1).
  rewrite deeds_map in I2. apply in_map_iff in I2 as (d' & <- & I2).
  assert (W : forall x, In (DWrite x) (deeds st') -> 2 <= num x < n).
  { intros x J. assert (Lx : In x L) by (apply A; apply in_flat_map; exists st'; split; [exact I1|apply deed_locals; auto]).
    split; [|now apply HL]. apply HR2; [exact Lx|]. apply (B (DWrite x)). apply in_flat_map. eauto. }
  pose proof (B d' ltac:(apply in_flat_map; eauto)) as Bd. destruct d' as [x|f x| |]; cbn [deed_map zok] in *; auto.
  split; [|destruct Bd as [[? _]|[? _]]; auto]. apply W. now apply call_writes with (f := f).
Qed.
Lemma clean_back : forall s s', errs s s' -> clean s' -> clean s. Proof. apply clean_errs. Qed.
Lemma linked_quiet : forall xs s s', quiet xs s s' -> (forall i, In i xs -> exists x, i = num x /\ mine L docs x) -> sane s -> sane s'.
Proof.
  intros xs s s' (_ & _ & Q3 & _ & Q5 & Q6 & Q7) M (A1 & A2 & A3 & A4 & A5).
  assert (N : forall i, i < 2 -> ~ In i xs). { intros i Hi I. destruct (M i I) as (x & -> & Lx & Nx). specialize (HR2 x Lx Nx). lia. }
  unfold TermSaneProofs.sane, zlen in *. rewrite Q3, Q5, Q6, !Q7 by (apply N; lia). auto.
Qed.
Lemma linked_run : forall l m b s c s', fine false l -> opt_list says b = Some (img num sg l) -> run_stmts E (run_block E m) b CContinue s = Done c s' -> good c -> clean s' -> sane s -> sane s'.
Proof. intros l m b s c s' HF HS HR Hc HCl. eapply sane_stmts; eauto. eapply linked_hfair; eauto. Qed.
Lemma linked_meet : forall l tail m kb b s ts c s', fine false l -> fine false tail -> opt_list says kb = Some (img num sg tail) -> opt_list says b = Some (img num sg l) ->
  visits E kb m b s ts c s' -> good c -> clean s' -> sane s -> sane s'.
Proof.
  intros l tail m kb b s ts c s' H1 H2 H3 H4 V _ C SA. exact (proj1 (sane_visits E n NR inp data rules is_rule HC kb (linked_hfair _ _ _ H2 H3)) _ _ _ _ _ _ V (linked_hfair _ _ _ H1 H4) C SA).
Qed.
Lemma linked_not : forall l m b s c s', fine false l -> forallb calm l = true -> opt_list says b = Some (img num sg l) -> run_block E m b s = Done c s' -> clean s' -> sane s ->
  good c \/ c = CError \/ c = CTimeout.
Proof.
  intros l m b s c s' HF _ HS HR HCl S. left. destruct (sane_H E n inp data rules _ false _ (H_block E n NR inp data rules is_rule HC false false m b (linked_hfair _ _ _ HF HS)) _ _ HR HCl S) as [_ [W|[W _]]]; [exact W|discriminate].
Qed.
Lemma linked_call : forall f x, linked_deed false (DCall f x) -> (e_builtin E f <> None /\ ~ rule_var x) \/ rule_var x.
Proof. intros f x [H|[_ H]]; auto. Qed.
Lemma linked_ref : forall f k s c s', linked_deed false (DCall f (tmp $"var" k)) -> In (tmp $"var" k) L ->
  runs E num sg clean [ICall f [OLocal $"input"; OLocal $"data"] (tmp $"var" k)] s c s' -> live fn n sane s ->
  match rules f with Some v => c = CContinue /\ local s' (num (tmp $"var" k)) = Some (Some v) | None => c = CUndefined end.
Proof.
  intros f k s c s' [[_ H]|[Hf _]] Lx R (_ & _ & SA); [elim H; now exists k|]. pose proof (runs_ok _ _ _ _ _ _ _ _ R) as OK.
  apply runs_one in R as (m & ms & HS & HR & Hc). cbn [map_ir] in HS. apply says_rest in HS as (a0 & b0 & mops & -> & Ha).
  apply run_stmt_inv in HR as [LT HR]; [|destruct Hc as [-> | ->]; discriminate]. cbn [dispatch] in HR.
  refine (proj2 (proj2 (HC f m mops (num (tmp $"var" k)) _ c s' Hf _ _ HR OK _))).
  - apply HR2; [exact Lx|]. intro I. exact (docs_not_tmp _ _ _ I eq_refl).
  - exact LT.
  - exact SA.
Qed.
End Link.
