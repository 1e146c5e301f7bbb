(** Code that does not leave its block does neither return nor break. *)
From Coq Require Import String ZArith List Bool Lia.
From Verif Require Import Base SMap ValueModel ValueSpec ResolverModel VmModel VmSpec VmProofs VmSimProofs VmStmtProofs PlanModel PlanSpec PlanProofs
  RuleModel RuleSpec RuleVmProofs RuleVisitProofs RuleProofs TermModel TermSpec TermStaticProofs.
Import ListNotations.
Local Open Scope Z_scope.

Section Stays.
Variable E : env.
Definition builtins_only (l : list (ir Z Z)) : Prop := forall f, In f (flat_map calls_in l) -> e_builtin E f <> None.
Definition settled (b : block) : Prop := exists l, opt_list says b = Some l /\ forallb calm l = true /\ builtins_only l.
Definition inside (c : code) : Prop := c <> CReturn /\ c <> CBreak /\ c <> CMultipleOutputs.
Definition M (m : vm code) : Prop := forall s c s', m s = Done c s' -> inside c.
Lemma M_bind {A} (m : vm A) (k : A -> vm code) : (forall a, M (k a)) -> M (bind m k).
Proof. intros H s c s' G. unfold bind in G. destruct (m s); try discriminate. eapply H; eauto. Qed.
Lemma M_ret c : inside c -> M (ret c).
Proof. intros H s c' s' G. injection G as <- <-. exact H. Qed.
Lemma M_exn : M exn. Proof. intros s c s' G. discriminate. Qed.
Lemma M_fault f : M (fault_ f). Proof. intros s c s' G. discriminate. Qed.
Lemma M_bind2 (m : vm code) (k : code -> vm code) : M m -> (forall a, inside a -> M (k a)) -> M (bind m k).
Proof.
  intros H1 H2 s c s' G. unfold bind in G. destruct (m s) eqn:Em; try discriminate. apply H1 in Em. eapply (H2 a); eauto.
Qed.
Ltac ins := solve [repeat split; discriminate | assumption | match goal with H : inside _ |- _ => destruct H as (? & ? & ?); repeat split; congruence end].

Variable m : nat.
Notation rb := (run_block E m).
Hypothesis Hrb : forall b, settled b -> M (rb b).
Lemma M_block_stmt l : Forall settled l -> M (block_stmt rb l).
Proof.
  induction 1; simpl; [apply M_ret; ins|]. apply M_bind2; [auto|intros c Hc].
  destruct c; auto using M_exn; apply M_ret; ins.
Qed.
Lemma M_scan_loop l k v body : settled body -> M (scan_loop rb l k v body).
Proof.
  intros Hb. induction l as [|[a b] l]; simpl; [apply M_ret; ins|]. apply M_bind; intro. apply M_bind; intro.
  apply M_bind2; [auto|intros c Hc]. destruct c; auto; apply M_ret; ins.
Qed.
Lemma M_call g args target : e_builtin E g <> None -> M (run_call E rb g args target).
Proof.
  intro H. unfold run_call. apply M_bind; intro st. destruct (existsb _ _); [apply M_exn|]. destruct (e_builtin E g); [|congruence].
  repeat (apply M_bind; intro). destruct a1 as [[]|]; try (apply M_ret; ins). apply M_bind; intro. apply M_ret; ins.
Qed.
Lemma settled_blocks ls bs : opt_list (opt_list says) bs = Some ls -> forallb (forallb calm) ls = true ->
  (forall f, In f (flat_map (flat_map calls_in) ls) -> e_builtin E f <> None) -> Forall settled bs.
Proof.
  revert ls. induction bs as [|b bs IH]; intros ls H HN HB; [constructor|].
  apply opt_cons in H as (l & ls' & H1 & H2 & ->). cbn [forallb] in HN. apply andb_true_iff in HN as [N1 N2]. cbn [flat_map] in HB.
  constructor; [exists l; split; [auto|]; split; [auto|]; intros f I; apply HB; apply in_or_app; auto|]. eapply IH; eauto. intros f I. apply HB, in_or_app. auto.
Qed.
Lemma M_dispatch st : settled [st] -> M (dispatch E rb st).
Proof.
  intros (l & Hl & HS & HB). apply opt_cons in Hl as (i & l' & Hs & Hn & ->). injection Hn as <-.
  cbn [forallb] in HS. rewrite andb_true_r in HS. unfold builtins_only in HB. cbn [flat_map] in HB. rewrite app_nil_r in HB.
  destruct st as [ty op0 op1 target e]. unfold dispatch.
  destruct ty; cbn [says] in Hs; destruct e as [ex|]; try discriminate Hs.
  all: try (destruct ex; try discriminate Hs).
  all: unfold with1, with2, option_map in Hs;
    repeat match type of Hs with context [match ?y with _ => _ end] => destruct y eqn:?; try discriminate Hs end;
    injection Hs as <-; cbn [calm] in HS; try discriminate HS; cbn [calls_in] in HB.
  all: repeat match goal with
    | |- M (bind (ext_block (Some (ExtBlock ?b))) ?k) => change (M (k b)); cbv beta
    | |- M (bind (rb _) _) => fail 1
    | |- M (run_call _ _ _ _ _) => apply M_call; apply HB; now left
    | |- M (bind _ _) => apply M_bind; intro
    | |- M (ret _) => apply M_ret; solve [repeat match goal with |- context [match ?y with _ => _ end] => destruct y end; ins]
    | |- M exn => apply M_exn
    | |- M (fault_ _) => apply M_fault
    | |- M (match ?y with _ => _ end) => destruct y
    end.
  - apply M_block_stmt. eapply settled_blocks; eauto.
  - apply M_bind; intro c. apply M_ret. destruct c; ins.
  - unfold run_scan. apply M_bind; intro src.
    assert (G : forall l, M (scan_pairs rb l op0 op1 (Some (ExtBlock b)))).
    { intros l0. unfold scan_pairs. destruct l0; [apply M_ret; ins|]. cbn [ext_block].
      intros s c s' H. unfold bind at 1, ret at 1 in H. eapply (M_scan_loop (p :: l0) (o_index op0) (o_index op1) b); eauto.
      exists l. auto. }
    destruct src as [[]|]; auto using M_exn; apply M_ret; ins.
  - unfold run_with. apply M_bind; intro. apply M_bind; intro v. apply M_bind; intro old.
    apply M_bind2; [apply Hrb; exists l; auto|intros c Hc]. apply M_bind; intro. apply M_bind; intro. now apply M_ret.
Qed.
Lemma settled_cons st b : settled (st :: b) -> settled [st] /\ settled b.
Proof.
  intros (l & H & HS & HB). apply opt_cons in H as (i & l' & H1 & H2 & ->). cbn [forallb] in HS.
  apply andb_true_iff in HS as [S1 S2]. unfold builtins_only in HB. cbn [flat_map] in HB. split.
  - exists [i]. cbn [opt_list forallb]. rewrite H1, S1. split; [auto|]. split; [auto|]. intros f I. apply HB. cbn [flat_map] in I. rewrite app_nil_r in I. apply in_or_app. auto.
  - exists l'. split; [auto|]. split; [auto|]. intros f I. apply HB, in_or_app. auto.
Qed.
Lemma M_stmt st : settled [st] -> M (run_stmt E rb st).
Proof.
  intro H. unfold run_stmt. apply M_bind; intro. apply M_bind; intro k. destruct (_ <=? _).
  - apply M_bind; intro. apply M_ret. ins.
  - apply M_bind; intro. now apply M_dispatch.
Qed.
Lemma M_stmts l : settled l -> forall c, inside c -> M (run_stmts E rb l c).
Proof.
  induction l as [|st l IH]; intros H c Hc; cbn [run_stmts]; [now apply M_ret|]. apply settled_cons in H as [H1 H2].
  apply M_bind2; [now apply M_stmt|intros c' Hc']. destruct c'; auto using M_exn; try (apply M_ret; ins).
  destruct Hc' as (? & ? & ?). congruence.
Qed.
End Stays.
Lemma M_block E : forall m b, settled E b -> M (run_block E m b).
Proof.
  induction m as [|m IH]; intros b H; [intros s c s' G; discriminate|]. cbn [run_block]. apply M_bind; intro d. destruct (_ <=? _).
  - apply M_bind; intro. apply M_ret. repeat split; discriminate.
  - apply M_bind; intro. apply M_bind2; [apply M_stmts; auto; repeat split; discriminate|intros c Hc]. apply M_bind; intro. now apply M_ret.
Qed.
