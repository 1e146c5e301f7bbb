(** The names in the code of terms and queries. *)
From Coq Require Import String ZArith List Bool Lia.
From Verif Require Import Base BigIntSpec BigIntModel DecFacts SMap ValueModel ValueSpec ResolverModel VmModel VmSpec VmProofs VmSimProofs VmStmtProofs
  PlanModel PlanSpec PlanProofs RuleModel RuleSpec RuleVmProofs RuleVisitProofs RuleProofs TermModel TermSpec.
Import ListNotations.
Local Open Scope Z_scope.

Scheme term_mind := Induction for term Sort Prop
  with terms_mind := Induction for terms Sort Prop
  with items_mind := Induction for items Sort Prop
  with query_mind := Induction for query Sort Prop.
Combined Scheme term_comb from term_mind, terms_mind, items_mind, query_mind.

(** ** Names *)
Lemma last_dollar : forall a b c d, ~ In 36 b -> ~ In 36 d -> a ++ 36 :: b = c ++ 36 :: d -> b = d.
Proof.
  induction a as [|x a IH]; intros b c d Hb Hd H.
  - destruct c as [|y c]; [cbn [app] in H; congruence|]. cbn [app] in H. injection H as <- H. elim Hb. rewrite H. apply in_or_app. right. now left.
  - destruct c as [|y c].
    + cbn [app] in H. injection H as -> H. elim Hd. rewrite <- H. apply in_or_app. right. now left.
    + cbn [app] in H. injection H as -> H. eauto.
Qed.
Lemma dec_nodollar k : ~ In 36 (dec (Z.of_nat k)).
Proof.
  intro H. pose proof (dec_canon (Z.of_nat k) ltac:(lia)) as G. apply BigIntProofs.canon_iff in G. destruct G as (G & _). rewrite Forall_forall in G. apply G in H. unfold digit in H. lia.
Qed.
Lemma tmp_inj p q i j : tmp p i = tmp q j -> i = j.
Proof.
  unfold tmp. change ($"$") with [36]. cbn [app]. intro H. apply last_dollar in H; [|apply dec_nodollar|apply dec_nodollar].
  apply dec_inj in H. lia.
Qed.

(** A name made with a number from [k] up to [k']. *)
Definition new (k k' : nat) (x : str) : Prop := exists p j, (k <= j < k')%nat /\ x = tmp p j.
Lemma new_wider k k' i i' x : new i i' x -> (k <= i)%nat -> (i' <= k')%nat -> new k k' x.
Proof. intros (p & j & H & ->) A B. exists p, j. split; [lia|reflexivity]. Qed.
Lemma new_tmp k k' p j : (k <= j < k')%nat -> new k k' (tmp p j).
Proof. intro H. exists p, j. auto. Qed.
Lemma new_apart k1 k2 k3 k4 x : new k1 k2 x -> new k3 k4 x -> (k2 <= k3)%nat -> False.
Proof. intros (p & i & H & ->) (q & j & G & Q) A. apply tmp_inj in Q. lia. Qed.

(** ** Appending at the end *)
Definition nesting {L S'} (i : ir L S') : bool := match i with IScan _ _ _ _ | IWith _ _ _ _ => true | _ => false end.
Definition flat {L S'} (c : list (ir L S')) : Prop := c = [] \/ exists c0 st, c = c0 ++ [st] /\ nesting st = false.
Lemma append_flat {L S'} (c k : list (ir L S')) : flat c -> append_inner c k = c ++ k.
Proof.
  intros [->|(c0 & st & -> & N)]; [reflexivity|]. induction c0 as [|i c0 IH].
  - destruct st; try discriminate; reflexivity.
  - cbn [app]. rewrite append_cons_any by (destruct c0; discriminate). now rewrite IH.
Qed.
Lemma flat_last {L S'} (c : list (ir L S')) st : nesting st = false -> flat (c ++ [st]).
Proof. right. eauto. Qed.
Lemma flat_one {L S'} (st : ir L S') : nesting st = false -> flat [st].
Proof. right. exists [], st. auto. Qed.
Lemma flat_cons {L S'} (st : ir L S') c : nesting st = false -> flat c -> flat (st :: c).
Proof. intros H [->|(c0 & i & -> & N)]; [now apply flat_one|]. right. exists (st :: c0), i. auto. Qed.
Lemma flat_app {L S'} (a c : list (ir L S')) : flat a -> flat c -> flat (a ++ c).
Proof. intros HA [->|(c0 & i & -> & N)]; [now rewrite app_nil_r|]. right. exists (a ++ c0), i. now rewrite app_assoc. Qed.

Definition lit_code (l : literal) : list nir :=
  match l with LExpr e => ob_code e ++ [INotEqual (ob_op e) (OBool false)] | LAssign c => c | LStmt st => [st] end.

Lemma in_flat_app {A B} (f : A -> list B) y a c : In y (flat_map f (a ++ c)) <-> In y (flat_map f a) \/ In y (flat_map f c).
Proof. rewrite flat_map_app. apply in_app_iff. Qed.
Lemma writes_append_list {L S'} (y : L) (k b : list (ir L S')) :
  Forall (fun st => In y (flat_map writes (append_inner (inner st) k)) -> In y (flat_map writes (inner st)) \/ In y (flat_map writes k)) b ->
  In y (flat_map writes (append_inner b k)) -> In y (flat_map writes b) \/ In y (flat_map writes k).
Proof.
  induction 1 as [|st b H HF IH]; intro G; [now right|]. destruct b as [|st' b].
  - clear IH HF. assert (D : nesting st = true \/ append_inner [st] k = st :: k) by (destruct st; auto).
    destruct D as [D|D].
    + destruct st; try discriminate; cbn [inner] in H.
      * match type of G with In _ (flat_map _ (append_inner [IScan ?x ?u ?v ?b0] k)) =>
          change (In y (flat_map writes [IScan x u v (append_inner b0 k)])) in G end.
        cbn [flat_map writes] in *. rewrite app_nil_r in *. rewrite in_app_iff in *. tauto.
      * match type of G with In _ (flat_map _ (append_inner [IWith ?x ?u ?v ?b0] k)) =>
          change (In y (flat_map writes [IWith x u v (append_inner b0 k)])) in G end.
        cbn [flat_map writes In app] in *. rewrite app_nil_r in *. tauto.
    + rewrite D in G. change (st :: k) with ([st] ++ k) in G. now apply in_flat_app in G.
  - rewrite append_cons_any in G by discriminate. remember (st' :: b) as b0. cbn [flat_map] in *. rewrite in_app_iff in *. tauto.
Qed.
Lemma writes_append {L S'} (y : L) (b k : list (ir L S')) :
  In y (flat_map writes (append_inner b k)) -> In y (flat_map writes b) \/ In y (flat_map writes k).
Proof.
  apply writes_append_list, Forall_forall. intros st _. induction st as [st IH] using ir_ind'. apply writes_append_list. exact IH.
Qed.

(** ** What the code writes *)
Definition writes_ok (k k' : nat) (bs : list str) (c : list nir) : Prop :=
  forall y, In y (flat_map writes c) -> new k k' y \/ In y bs.
Definition static_ob (t : term) (k k' : nat) (o : opblock) : Prop :=
  writes_ok k k' (binds t) (ob_code o) /\ flat (ob_code o) /\
  forall y, In y (op_local (ob_op o)) -> new k k' y \/ t = TmVar y.
Definition static_term (t : term) : Prop := forall k k' o, lower k t = (k', o) -> (k <= k')%nat /\ static_ob t k k' o.
Definition static_terms (l : terms) : Prop :=
  (forall add k k' c, lower_elems add k l = (k', c) -> (forall o, nesting (add o) = false) ->
     (k <= k')%nat /\ flat c /\ forall y, In y (flat_map writes c) -> new k k' y \/ In y (binds_list l) \/ exists o, In y (writes (add o))) /\
  (forall k k' ops c, lower_args k l = (k', ops, c) -> (k <= k')%nat /\ flat c /\ writes_ok k k' (binds_list l) c).
Definition static_items (l : items) : Prop := forall x k k' c, lower_items x k l = (k', c) ->
  (k <= k')%nat /\ flat c /\ forall y, In y (flat_map writes c) -> new k k' y \/ In y (binds_items l) \/ y = x.
Definition static_query (q : query) : Prop := forall top k k' ls, lower_query top k q = (k', ls) ->
  (k <= k')%nat /\ writes_ok k k' (binds_query q) (flat_map lit_code ls) /\
  forall b, flat b -> fold_left add_literal ls b = b ++ flat_map lit_code ls.

Lemma static_operand t k k' o : static_ob t k k' o -> static_ob t k k' (as_operand t o).
Proof.
  intro H. destruct t; try exact H. cbn [as_operand]. split; [intros y []|]. split; [now left|]. intros y [].
Qed.
Lemma writes_ok_app k k' bs a c : writes_ok k k' bs (a ++ c) <-> writes_ok k k' bs a /\ writes_ok k k' bs c.
Proof.
  unfold writes_ok. split; [intro H; split; intros y I; apply H, in_flat_app; auto|].
  intros [H G] y I. apply in_flat_app in I as [I|I]; auto.
Qed.
Lemma writes_ok_wider k k' i i' bs bs' c : writes_ok i i' bs c -> (k <= i)%nat -> (i' <= k')%nat -> incl bs bs' -> writes_ok k k' bs' c.
Proof. intros H A B I y Hy. apply H in Hy as [Hy|Hy]; [left; eapply new_wider; eauto|right; auto]. Qed.
Lemma writes_ok_one k k' bs st : (forall y, In y (writes st) -> new k k' y \/ In y bs) -> writes_ok k k' bs [st].
Proof. intros H y I. cbn [flat_map] in I. rewrite app_nil_r in I. auto. Qed.
Lemma writes_ok_cons k k' bs st c : (forall y, In y (writes st) -> new k k' y \/ In y bs) -> writes_ok k k' bs c -> writes_ok k k' bs (st :: c).
Proof. intros H G y I. cbn [flat_map] in I. apply in_app_iff in I as [I|I]; auto. Qed.
Lemma writes_ok_append k k' bs b c : writes_ok k k' bs b -> writes_ok k k' bs c -> writes_ok k k' bs (append_inner b c).
Proof. intros H G y I. apply writes_append in I as [I|I]; auto. Qed.

Ltac wider := eapply writes_ok_wider; [eassumption|lia|lia|
  let y := fresh in let I := fresh in intros y I; cbn [binds binds_list binds_items binds_query In]; repeat rewrite in_app_iff; tauto].
Ltac one := let y := fresh in let I := fresh in intros y I; cbn [writes In] in I;
  first [contradiction | destruct I as [<-|[]]; left; apply new_tmp; lia].
Ltac last_tmp := let y := fresh in let I := fresh in intros y I; cbn [op_local ob_op In] in I; destruct I as [<-|[]]; left; apply new_tmp; lia.

Lemma static : (forall t, static_term t) /\ (forall l, static_terms l) /\ (forall l, static_items l) /\ (forall q, static_query q).
Proof.
  apply term_comb; unfold static_term, static_ob.
  - intros s k k' o [= <- <-]. split; [lia|]. split; [intros y []|]. split; [now left|]. intros y [].
  - intros s k k' o [= <- <-]. split; [lia|]. split; [apply writes_ok_one; one|]. split; [now apply flat_one|]. last_tmp.
  - intros s k k' o [= <- <-]. split; [lia|]. split; [intros y []|]. split; [now left|]. intros y [].
  - intros k k' o [= <- <-]. split; [lia|]. split; [apply writes_ok_one; one|]. split; [now apply flat_one|]. last_tmp.
  - intros s k k' o [= <- <-]. split; [lia|]. split; [intros y []|]. split; [now left|]. intros y [<-|[]]. now right.
  - intros l [IH _] k k' o H. cbn [lower] in H. destruct (lower_elems _ (S k) l) as [k1 c] eqn:El. injection H as <- <-.
    apply IH in El as (A & B & C); [|reflexivity]. split; [lia|]. cbn [ob_code ob_op]. split; [|split; [now apply flat_cons|last_tmp]].
    apply writes_ok_cons; [one|]. intros y I. apply C in I as [I|[I|(o & I)]]; [left; eapply new_wider; eauto; lia|right; exact I|].
    destruct I as [<-|[]]. left. apply new_tmp. lia.
  - intros l [IH _] k k' o H. cbn [lower] in H. destruct (lower_elems _ (S k) l) as [k1 c] eqn:El. injection H as <- <-.
    apply IH in El as (A & B & C); [|reflexivity]. split; [lia|]. cbn [ob_code ob_op]. split; [|split; [now apply flat_cons|last_tmp]].
    apply writes_ok_cons; [one|]. intros y I. apply C in I as [I|[I|(o & I)]]; [left; eapply new_wider; eauto; lia|right; exact I|].
    destruct I as [<-|[]]. left. apply new_tmp. lia.
  - intros l IH k k' o H. cbn [lower] in H. destruct (lower_items _ (S k) l) as [k1 c] eqn:El. injection H as <- <-.
    apply IH in El as (A & B & C). split; [lia|]. cbn [ob_code ob_op]. split; [|split; [now apply flat_cons|last_tmp]].
    apply writes_ok_cons; [one|]. intros y I. apply C in I as [I|[I| ->]]; [left; eapply new_wider; eauto; lia|right; exact I|].
    left. apply new_tmp. lia.
  - intros a IHa b IHb k k' o H. cbn [lower] in H. destruct (lower k a) as [k1 oa] eqn:Ea. destruct (lower k1 b) as [k2 ob] eqn:Eb.
    injection H as <- <-. apply IHa in Ea as (A1 & A2 & A3 & A4). apply IHb in Eb as (B1 & B2 & B3 & B4). cbn [ob_code ob_op].
    split; [lia|]. split; [|split; [|last_tmp]].
    + rewrite !writes_ok_app. split; [wider|]. split; [wider|]. apply writes_ok_one; one.
    + rewrite app_assoc. now apply flat_last.
  - intros f l [_ IH] k k' o H. cbn [lower] in H. destruct (lower_args (S k) l) as [[k1 ops] c] eqn:El. injection H as <- <-.
    apply IH in El as (A & B & C). split; [lia|]. cbn [ob_code ob_op]. split; [|split; [now apply flat_last|last_tmp]].
    rewrite writes_ok_app. split; [wider|]. apply writes_ok_one; one.
  - intros a IHa k k' o H. cbn [lower] in H. destruct (lower k a) as [k1 oa] eqn:Ea.
    injection H as <- <-. apply IHa in Ea as (A1 & A2 & A3 & A4). cbn [ob_code ob_op].
    split; [lia|]. split; [|split; [|last_tmp]].
    + rewrite !writes_ok_app. split; [wider|]. apply writes_ok_cons; [one|]. apply writes_ok_one; one.
    + match goal with |- flat (?c ++ [?u; ?v]) => change (flat (c ++ [u] ++ [v])) end. rewrite app_assoc. now apply flat_last.
  - intros a IHa b IHb k k' o H. cbn [lower] in H. destruct (lower (S k) a) as [k1 oa] eqn:Ea. destruct (lower k1 b) as [k2 ob] eqn:Eb.
    injection H as <- <-. apply IHa in Ea as (A1 & A2). apply static_operand in A2 as (A2 & A3 & A4).
    apply IHb in Eb as (B1 & B2). apply static_operand in B2 as (B2 & B3 & B4). cbn [ob_code ob_op].
    split; [lia|]. split; [|split; [|last_tmp]].
    + rewrite !writes_ok_app. split; [wider|]. split; [wider|]. apply writes_ok_cons; [one|]. apply writes_ok_one; one.
    + match goal with |- flat (?c ++ ?d ++ [?u; ?v]) => change (flat (c ++ d ++ [u] ++ [v])) end. rewrite !app_assoc. now apply flat_last.
  - intros v IHv s IHs k k' o H. cbn [lower] in H. destruct (lower (S k) s) as [k1 os] eqn:Es. destruct (lower k1 v) as [k2 ov] eqn:Ev.
    injection H as <- <-. apply IHs in Es as (A1 & A2). apply static_operand in A2 as (A2 & A3 & A4).
    apply IHv in Ev as (B1 & B2). apply static_operand in B2 as (B2 & B3 & B4). cbn [ob_code ob_op].
    split; [lia|]. split; [|split; [|last_tmp]].
    + rewrite !writes_ok_app. split; [wider|]. split; [wider|]. apply writes_ok_one; one.
    + rewrite !app_assoc. now apply flat_last.
  - intros i IHi v IHv s IHs k k' o H. cbn [lower] in H. destruct (lower (S k) s) as [k1 os] eqn:Es. destruct (lower k1 i) as [k2 oi] eqn:Ei.
    destruct (lower k2 v) as [k3 ov] eqn:Ev.
    injection H as <- <-. apply IHs in Es as (A1 & A2). apply static_operand in A2 as (A2 & A3 & A4).
    apply IHv in Ev as (B1 & B2). apply static_operand in B2 as (B2 & B3 & B4).
    apply IHi in Ei as (C1 & C2). apply static_operand in C2 as (C2 & C3 & C4). cbn [ob_code ob_op].
    split; [lia|]. split; [|split; [|last_tmp]].
    + rewrite !writes_ok_app. split; [wider|]. split; [wider|]. split; [wider|]. apply writes_ok_one; one.
    + rewrite !app_assoc. now apply flat_last.
  - intros v IHv q IHq k k' o H. cbn [lower] in H. destruct (lower_query false (S k) q) as [k1 ls] eqn:Eq. destruct (lower k1 v) as [k2 ov] eqn:Ev.
    injection H as <- <-. apply IHq in Eq as (A1 & A2 & A3). apply IHv in Ev as (B1 & B2). apply static_operand in B2 as (B2 & B3 & B4).
    cbn [ob_code ob_op]. split; [lia|]. split; [|split; [now apply flat_cons, flat_one|last_tmp]].
    apply writes_ok_cons; [one|]. apply writes_ok_one. intros y I. cbn [writes flat_map] in I. rewrite app_nil_r in I. revert y I.
    change (writes_ok k k2 (binds (TmArrayCompr v q)) (append_inner (query_block ls) (ob_code (as_operand v ov) ++ [IArrayAppend (tmp $"arraycompr" k) (ob_op (as_operand v ov))]))).
    apply writes_ok_append; [unfold query_block; rewrite A3 by (now left); cbn [app]; wider|]. rewrite writes_ok_app. split; [wider|]. apply writes_ok_one; one.
  - intros v IHv q IHq k k' o H. cbn [lower] in H. destruct (lower_query false (S k) q) as [k1 ls] eqn:Eq. destruct (lower k1 v) as [k2 ov] eqn:Ev.
    injection H as <- <-. apply IHq in Eq as (A1 & A2 & A3). apply IHv in Ev as (B1 & B2). apply static_operand in B2 as (B2 & B3 & B4).
    cbn [ob_code ob_op]. split; [lia|]. split; [|split; [now apply flat_cons, flat_one|last_tmp]].
    apply writes_ok_cons; [one|]. apply writes_ok_one. intros y I. cbn [writes flat_map] in I. rewrite app_nil_r in I. revert y I.
    change (writes_ok k k2 (binds (TmSetCompr v q)) (append_inner (query_block ls) (ob_code (as_operand v ov) ++ [ISetAdd (ob_op (as_operand v ov)) (tmp $"setcompr" k)]))).
    apply writes_ok_append; [unfold query_block; rewrite A3 by (now left); cbn [app]; wider|]. rewrite writes_ok_app. split; [wider|]. apply writes_ok_one; one.
  - intros i IHi v IHv q IHq k k' o H. cbn [lower] in H. destruct (lower_query false (S k) q) as [k1 ls] eqn:Eq. destruct (lower k1 i) as [k2 oi] eqn:Ei.
    destruct (lower k2 v) as [k3 ov] eqn:Ev.
    injection H as <- <-. apply IHq in Eq as (A1 & A2 & A3). apply IHv in Ev as (B1 & B2). apply static_operand in B2 as (B2 & B3 & B4).
    apply IHi in Ei as (C1 & C2). apply static_operand in C2 as (C2 & C3 & C4).
    cbn [ob_code ob_op]. split; [lia|]. split; [|split; [now apply flat_cons, flat_one|last_tmp]].
    apply writes_ok_cons; [one|]. apply writes_ok_one. intros y I. cbn [writes flat_map] in I. rewrite app_nil_r in I. revert y I.
    change (writes_ok k k3 (binds (TmObjectCompr i v q)) (append_inner (query_block ls) (ob_code (as_operand i oi) ++ ob_code (as_operand v ov) ++ [IObjectInsertOnce (ob_op (as_operand i oi)) (ob_op (as_operand v ov)) (tmp $"objectcompr" k)]))).
    apply writes_ok_append; [unfold query_block; rewrite A3 by (now left); cbn [app]; wider|]. rewrite !writes_ok_app.
    split; [wider|]. split; [wider|]. apply writes_ok_one; one.
  - intros f k k' o [= <- <-]. split; [lia|]. split; [apply writes_ok_one; one|]. split; [now apply flat_one|]. last_tmp.
  - split; intros.
    + injection H as <- <-. split; [lia|]. split; [now left|]. intros y [].
    + injection H as <- <- <-. split; [lia|]. split; [now left|]. intros y [].
  - intros t IHt l [IH1 IH2]. split.
    + intros add k k' c H HN. cbn [lower_elems] in H. destruct (lower k t) as [k1 o] eqn:Et. destruct (lower_elems add k1 l) as [k2 c'] eqn:El.
      injection H as <- <-. apply IHt in Et as (A1 & A2 & A3 & A4). apply IH1 in El as (B1 & B2 & B3); [|exact HN].
      split; [lia|]. split; [apply flat_app; [exact A3|now apply flat_cons]|]. intros y I. apply in_flat_app in I as [I|I].
      * apply A2 in I as [I|I]; [left; eapply new_wider; eauto; lia|]. right. left. cbn [binds_list]. apply in_or_app. now left.
      * cbn [flat_map] in I. apply in_app_iff in I as [I|I]; [right; right; eauto|].
        apply B3 in I as [I|[I|I]]; [left; eapply new_wider; eauto; lia| |auto]. right. left. cbn [binds_list]. apply in_or_app. now right.
    + intros k k' ops c H. cbn [lower_args] in H. destruct (lower k t) as [k1 o] eqn:Et. destruct (lower_args k1 l) as [[k2 ops'] c'] eqn:El.
      injection H as <- <- <-. apply IHt in Et as (A1 & A2). apply static_operand in A2 as (A2 & A3 & A4). apply IH2 in El as (B1 & B2 & B3).
      split; [lia|]. split; [now apply flat_app|]. rewrite writes_ok_app. split; wider.
  - intros x k k' c [= <- <-]. split; [lia|]. split; [now left|]. intros y [].
  - intros i IHi v IHv l IH x k k' c H. cbn [lower_items] in H. destruct (lower k i) as [k1 oi] eqn:Ei. destruct (lower k1 v) as [k2 ov] eqn:Ev.
    destruct (lower_items x k2 l) as [k3 c'] eqn:El. injection H as <- <-.
    apply IHi in Ei as (A1 & A2 & A3 & A4). apply IHv in Ev as (B1 & B2 & B3 & B4). apply IH in El as (C1 & C2 & C3).
    split; [lia|]. split; [apply flat_app; [exact A3|]; apply flat_app; [exact B3|now apply flat_cons]|].
    intros y I. cbn [binds_items]. repeat rewrite in_app_iff. apply in_flat_app in I as [I|I].
    { apply A2 in I as [I|I]; [left; eapply new_wider; eauto; lia|tauto]. }
    apply in_flat_app in I as [I|I]. { apply B2 in I as [I|I]; [left; eapply new_wider; eauto; lia|tauto]. }
    cbn [flat_map] in I. apply in_app_iff in I as [I|I]; [destruct I as [<-|[]]; tauto|].
    apply C3 in I as [I|[I|I]]; [left; eapply new_wider; eauto; lia|tauto|tauto].
  - intros top k k' ls [= <- <-]. split; [lia|]. split; [intros y []|]. intros b _. cbn. now rewrite app_nil_r.
  - intros t IHt q IHq top k k' ls H. cbn [lower_query] in H. destruct (lower k t) as [k1 o] eqn:Et. destruct (lower_query top k1 q) as [k2 ls'] eqn:Eq.
    injection H as <- <-. apply IHt in Et as (A1 & A2 & A3 & A4). apply IHq in Eq as (B1 & B2 & B3). split; [lia|]. split.
    + cbn [flat_map lit_code]. rewrite !writes_ok_app. split; [split; [wider|apply writes_ok_one; one]|wider].
    + intros b Hb. cbn [fold_left flat_map lit_code add_literal]. rewrite append_flat by (now apply flat_app).
      rewrite B3 by (now apply flat_last). now rewrite !app_assoc.
  - intros x t IHt q IHq top k k' ls H. cbn [lower_query] in H. destruct (lower (S k) t) as [k1 o] eqn:Et. destruct (lower_query top k1 q) as [k2 ls'] eqn:Eq.
    injection H as <- <-. apply IHt in Et as (A1 & A2). apply static_operand in A2 as (A2 & A3 & A4). apply IHq in Eq as (B1 & B2 & B3). split; [lia|]. split.
    + cbn [flat_map lit_code]. rewrite !writes_ok_app. split; [split; [wider|]|wider]. apply writes_ok_cons; [|apply writes_ok_one; one].
      intros y [<-|[]]. right. now left.
    + intros b Hb. cbn [fold_left flat_map lit_code add_literal]. rewrite B3; [now rewrite !app_assoc|]. apply flat_app; [exact Hb|].
      apply flat_app; [exact A3|]. now apply flat_cons, flat_one.
  - intros q1 IH1 q IHq top k k' ls H. cbn [lower_query] in H. destruct (lower_query false (S k) q1) as [k1 ls1] eqn:E1. destruct (lower_query top k1 q) as [k2 ls'] eqn:Eq.
    injection H as <- <-. apply IH1 in E1 as (A1 & A2 & A3). apply IHq in Eq as (B1 & B2 & B3). split; [lia|]. split.
    + cbn [flat_map lit_code]. rewrite !writes_ok_app. split; [|wider]. apply writes_ok_one. intros y I. cbn [writes] in I. revert y I.
      match goal with |- forall y, In y (flat_map writes ?c) -> _ => change (writes_ok k k2 (binds_query (QNot q1 q)) c) end.
      rewrite writes_ok_app. split; [|apply writes_ok_one; one]. apply writes_ok_append; [|apply writes_ok_one; one].
      rewrite A3 by (now apply flat_one). apply writes_ok_cons; [one|wider].
    + intros b Hb. cbn [fold_left flat_map lit_code add_literal]. rewrite B3; [now rewrite <- app_assoc|]. now apply flat_last.
  - intros dom key val body IH1 q IHq top k k' ls H. cbn [lower_query] in H.
    destruct (lower_query false (S (S (S (S (S k))))) body) as [k1 ls1] eqn:E1. destruct (lower_query top k1 q) as [k2 ls'] eqn:Eq.
    injection H as <- <-. apply IH1 in E1 as (A1 & A2 & A3). apply IHq in Eq as (B1 & B2 & B3). split; [lia|]. split.
    + cbn [flat_map lit_code ob_code ob_op]. rewrite !writes_ok_app. split; [split; [|apply writes_ok_one; one]|wider].
      apply writes_ok_cons; [one|]. apply writes_ok_cons; [one|]. apply writes_ok_cons; [|apply writes_ok_cons; [one|apply writes_ok_one; one]].
      intros y I. cbn [writes app In] in I. destruct I as [<-|[<-|I]]; [left; apply new_tmp; lia|left; apply new_tmp; lia|]. revert y I.
      match goal with |- forall y, In y (flat_map writes ?c) -> _ => change (writes_ok k k2 (binds_query (QEvery dom key val body q)) c) end.
      rewrite writes_ok_app. split.
      { destruct key as [x|]; [|intros y []]. apply writes_ok_one. intros y [<-|[]]. right. cbn [binds_query opt_var app In]. tauto. }
      apply writes_ok_cons; [intros y [<-|[]]; right; now left|]. apply writes_ok_cons; [one|].
      apply writes_ok_cons; [|apply writes_ok_cons; [one|apply writes_ok_one; one]].
      intros y I. cbn [writes flat_map] in I. rewrite app_nil_r in I. revert y I.
      match goal with |- forall y, In y (flat_map writes ?c) -> _ => change (writes_ok k k2 (binds_query (QEvery dom key val body q)) c) end.
      apply writes_ok_append; [|apply writes_ok_one; one]. unfold query_block. rewrite A3 by (now left). cbn [app]. wider.
    + intros b Hb. cbn [fold_left flat_map lit_code add_literal ob_code ob_op]. rewrite append_flat.
      * rewrite B3; [now rewrite <- !app_assoc|]. now apply flat_last.
      * apply flat_app; [exact Hb|]. match goal with |- flat [?a; ?b0; ?u; ?v; ?w] => right; exists [a; b0; u; v], w; auto end.
  - intros t IHt key val q IHq top k k' ls H. cbn [lower_query] in H. destruct (lower k t) as [k1 o] eqn:Et. destruct (lower_query false k1 q) as [k2 ls'] eqn:Eq.
    injection H as <- <-. apply IHt in Et as (A1 & A2 & A3 & A4). apply IHq in Eq as (B1 & B2 & B3). split; [lia|].
    set (sc := IScan (source o) key val (query_block ls')).
    assert (HS : writes_ok k k2 (binds_query (QScan t key val q)) [sc]).
    { apply writes_ok_one. unfold sc. intros y I. cbn [writes app In] in I. destruct I as [<-|[<-|I]]; [right; right; now left|right; now left|]. revert y I.
      match goal with |- forall y, In y (flat_map writes ?c) -> _ => change (writes_ok k k2 (binds_query (QScan t key val q)) c) end.
      unfold query_block. rewrite B3 by (now left). cbn [app]. wider. }
    destruct top.
    + destruct (ob_code o) as [|i c] eqn:Ec.
      * split; [exact HS|]. intros b _. reflexivity.
      * split.
        -- cbn [flat_map lit_code]. rewrite Ec. rewrite !writes_ok_app. split; [split; [wider|apply writes_ok_one; one]|split; [exact HS|intros y []]].
        -- intros b Hb. cbn [fold_left flat_map lit_code add_literal]. rewrite Ec. rewrite append_flat by (now apply flat_app). now rewrite <- !app_assoc.
    + split; [|intros b _; cbn; now rewrite app_nil_r]. cbn [flat_map lit_code]. rewrite !writes_ok_app. split; [split; [wider|exact HS]|intros y []].
Qed.
Definition static_t := proj1 static.
Definition static_l := proj1 (proj2 static).
Definition static_i := proj1 (proj2 (proj2 static)).
Definition static_q := proj2 (proj2 (proj2 static)).

(** ** Scopes *)
Lemma scope_incl : forall q D, incl D (scope D q).
Proof.
  induction q; intros D y I; cbn [scope].
  - exact I.
  - now apply IHq.
  - apply IHq. now right.
  - now apply IHq2.
  - now apply IHq2.
  - apply IHq. right. now right.
Qed.
Lemma scope_binds : forall q D y, In y (scope D q) -> In y D \/ In y (binds_query q).
Proof.
  induction q; intros D y I; cbn [scope binds_query] in *; cbn [In]; repeat rewrite in_app_iff.
  - now left.
  - apply IHq in I. tauto.
  - apply IHq in I. cbn [In] in I. tauto.
  - apply IHq2 in I. tauto.
  - apply IHq2 in I. tauto.
  - apply IHq in I. cbn [In] in I. tauto.
Qed.
Lemma safe_binds : (forall t D, safe D t -> forall y, In y (binds t) -> ~ In y D) /\ (forall l D, safes D l -> forall y, In y (binds_list l) -> ~ In y D) /\
  (forall l D, safe_items D l -> forall y, In y (binds_items l) -> ~ In y D) /\ (forall q D, safe_query D q -> forall y, In y (binds_query q) -> ~ In y D).
Proof.
  apply term_comb; cbn [safe safes safe_items safe_query binds binds_list binds_items binds_query]; intros;
    repeat match goal with
    | H : _ /\ _ |- _ => destruct H
    | H : In _ (_ ++ _) |- _ => apply in_app_iff in H as [H|H]
    | H : In _ (_ :: _) |- _ => destruct H as [<-|H]
    end; try contradiction; try solve [eauto 3].
  - intro I. eapply H; eauto. now apply scope_incl.
  - intro I. eapply H; eauto. now apply scope_incl.
  - intro I. eapply H; eauto. now apply scope_incl.
  - intro I. eapply H0; eauto. now apply scope_incl.
  - intro I. eapply H0; eauto. now right.
  - intro I. eapply H; eauto. right. apply in_or_app. now right.
  - intro I. eapply H0; eauto. right. now right.
Qed.

(** ** Code that does not leave its block *)
Fixpoint calm {L S'} (s : ir L S') : bool :=
  match s with
  | IBreak _ | IReturnLocal _ | ICallDynamic _ _ _ => false
  | IBlock bs => forallb (forallb calm) bs
  | IScan _ _ _ b | IWith _ _ _ b | INot b => forallb calm b
  | _ => true
  end.
Lemma calm_append_list {L S'} (k b : list (ir L S')) :
  Forall (fun st => forallb calm (inner st) = true -> forallb calm k = true -> forallb calm (append_inner (inner st) k) = true) b ->
  forallb calm b = true -> forallb calm k = true -> forallb calm (append_inner b k) = true.
Proof.
  induction 1 as [|st b H HF IH]; intros Hb Hk; [exact Hk|]. destruct b as [|st' b].
  - clear IH HF. cbn [forallb] in Hb. rewrite andb_true_r in Hb.
    assert (D : nesting st = true \/ append_inner [st] k = st :: k) by (destruct st; auto).
    destruct D as [D|D].
    + destruct st; try discriminate; cbn [inner calm] in *;
        match goal with |- forallb calm (append_inner [?i] k) = true => change (forallb calm [match i with IScan x u v b0 => IScan x u v (append_inner b0 k)
           | IWith x u v b0 => IWith x u v (append_inner b0 k) | j => j end] = true) end; cbn [forallb calm]; rewrite H; auto.
    + rewrite D. cbn [forallb]. now rewrite Hb, Hk.
  - rewrite append_cons_any by discriminate. remember (st' :: b) as b0. cbn [forallb] in *. apply andb_true_iff in Hb as [H1 H2]. now rewrite H1, IH.
Qed.
Lemma calm_append {L S'} (b k : list (ir L S')) : forallb calm b = true -> forallb calm k = true -> forallb calm (append_inner b k) = true.
Proof. apply calm_append_list, Forall_forall. intros st _. induction st as [st IH] using ir_ind'. apply calm_append_list. exact IH. Qed.
Lemma calm_operand t o : forallb calm (ob_code o) = true -> forallb calm (ob_code (as_operand t o)) = true.
Proof. destruct t; auto. Qed.

Lemma calm_app {L S'} (a b : list (ir L S')) : forallb calm a = true -> forallb calm b = true -> forallb calm (a ++ b) = true.
Proof. intros H G. rewrite forallb_app, H. exact G. Qed.
Lemma calm_cons {L S'} (a : ir L S') b : calm a = true -> forallb calm b = true -> forallb calm (a :: b) = true.
Proof. intros H G. cbn [forallb]. rewrite H. exact G. Qed.
Ltac calm := repeat first [assumption | reflexivity | apply calm_operand | apply calm_append | apply calm_app | apply calm_cons].
Definition calm_lits (ls : list literal) : Prop := forallb calm (flat_map lit_code ls) = true.
Lemma calm_code : (forall t k k' o, lower k t = (k', o) -> forallb calm (ob_code o) = true) /\
  (forall l, (forall add k k' c, lower_elems add k l = (k', c) -> (forall o, calm (add o) = true) -> forallb calm c = true) /\
     forall k k' ops c, lower_args k l = (k', ops, c) -> forallb calm c = true) /\
  (forall l x k k' c, lower_items x k l = (k', c) -> forallb calm c = true) /\
  (forall q top k k' ls, lower_query top k q = (k', ls) -> calm_lits ls).
Proof.
  assert (QB : forall q, (forall top k k' ls, lower_query top k q = (k', ls) -> calm_lits ls) ->
    forall top k k' ls b, lower_query top k q = (k', ls) -> flat b -> forallb calm b = true -> forallb calm (fold_left add_literal ls b) = true).
  { intros q H top k k' ls b El Hb HC. pose proof (static_q q _ _ _ _ El) as (_ & _ & F). rewrite F by exact Hb. apply calm_app; [exact HC|].
    exact (H _ _ _ _ El). }
  apply term_comb; unfold calm_lits.
  - intros s k k' o [= <- <-]. reflexivity.
  - intros s k k' o [= <- <-]. reflexivity.
  - intros s k k' o [= <- <-]. reflexivity.
  - intros k k' o [= <- <-]. reflexivity.
  - intros s k k' o [= <- <-]. reflexivity.
  - intros l [IH _] k k' o H. cbn [lower] in H. destruct (lower_elems _ (S k) l) as [k1 c] eqn:El. injection H as <- <-.
    apply IH in El; [|reflexivity]. cbn [ob_code]. calm.
  - intros l [IH _] k k' o H. cbn [lower] in H. destruct (lower_elems _ (S k) l) as [k1 c] eqn:El. injection H as <- <-.
    apply IH in El; [|reflexivity]. cbn [ob_code]. calm.
  - intros l IH k k' o H. cbn [lower] in H. destruct (lower_items _ (S k) l) as [k1 c] eqn:El. injection H as <- <-.
    apply IH in El. cbn [ob_code]. calm.
  - intros a IHa b IHb k k' o H. cbn [lower] in H. destruct (lower k a) as [k1 oa] eqn:Ea. destruct (lower k1 b) as [k2 ob] eqn:Eb.
    injection H as <- <-. apply IHa in Ea. apply IHb in Eb. cbn [ob_code]. calm.
  - intros f l [_ IH] k k' o H. cbn [lower] in H. destruct (lower_args (S k) l) as [[k1 ops] c] eqn:El. injection H as <- <-.
    apply IH in El. cbn [ob_code]. calm.
  - intros a IHa k k' o H. cbn [lower] in H. destruct (lower k a) as [k1 oa] eqn:Ea.
    injection H as <- <-. apply IHa in Ea. cbn [ob_code]. calm.
  - intros a IHa b IHb k k' o H. cbn [lower] in H. destruct (lower (S k) a) as [k1 oa] eqn:Ea. destruct (lower k1 b) as [k2 ob] eqn:Eb.
    injection H as <- <-. apply IHa in Ea. apply IHb in Eb. cbn [ob_code]. calm.
  - intros v IHv s IHs k k' o H. cbn [lower] in H. destruct (lower (S k) s) as [k1 os] eqn:Es. destruct (lower k1 v) as [k2 ov] eqn:Ev.
    injection H as <- <-. apply IHs in Es. apply IHv in Ev. cbn [ob_code]. calm.
  - intros i IHi v IHv s IHs k k' o H. cbn [lower] in H. destruct (lower (S k) s) as [k1 os] eqn:Es. destruct (lower k1 i) as [k2 oi] eqn:Ei.
    destruct (lower k2 v) as [k3 ov] eqn:Ev. injection H as <- <-. apply IHs in Es. apply IHv in Ev. apply IHi in Ei. cbn [ob_code]. calm.
  - intros v IHv q IHq k k' o H. cbn [lower] in H. destruct (lower_query false (S k) q) as [k1 ls] eqn:Eq. destruct (lower k1 v) as [k2 ov] eqn:Ev.
    injection H as <- <-. apply IHv in Ev. pose proof (QB q IHq _ _ _ _ [] Eq (or_introl eq_refl) eq_refl) as G. cbn [ob_code ob_op].
    apply calm_cons; [reflexivity|]. cbn [forallb calm]. rewrite andb_true_r, andb_true_r. calm.
  - intros v IHv q IHq k k' o H. cbn [lower] in H. destruct (lower_query false (S k) q) as [k1 ls] eqn:Eq. destruct (lower k1 v) as [k2 ov] eqn:Ev.
    injection H as <- <-. apply IHv in Ev. pose proof (QB q IHq _ _ _ _ [] Eq (or_introl eq_refl) eq_refl) as G. cbn [ob_code ob_op].
    apply calm_cons; [reflexivity|]. cbn [forallb calm]. rewrite andb_true_r, andb_true_r. calm.
  - intros i IHi v IHv q IHq k k' o H. cbn [lower] in H. destruct (lower_query false (S k) q) as [k1 ls] eqn:Eq. destruct (lower k1 i) as [k2 oi] eqn:Ei.
    destruct (lower k2 v) as [k3 ov] eqn:Ev.
    injection H as <- <-. apply IHv in Ev. apply IHi in Ei. pose proof (QB q IHq _ _ _ _ [] Eq (or_introl eq_refl) eq_refl) as G. cbn [ob_code ob_op].
    apply calm_cons; [reflexivity|]. cbn [forallb calm]. rewrite andb_true_r, andb_true_r. calm.
  - intros f k k' o [= <- <-]. reflexivity.
  - split; intros.
    + injection H as <- <-. reflexivity.
    + injection H as <- <- <-. reflexivity.
  - intros t IHt l [IH1 IH2]. split.
    + intros add k k' c H HN. cbn [lower_elems] in H. destruct (lower k t) as [k1 o] eqn:Et. destruct (lower_elems add k1 l) as [k2 c'] eqn:El.
      injection H as <- <-. apply IHt in Et. apply IH1 in El; [|exact HN]. apply calm_app; [exact Et|]. apply calm_cons; [apply HN|exact El].
    + intros k k' ops c H. cbn [lower_args] in H. destruct (lower k t) as [k1 o] eqn:Et. destruct (lower_args k1 l) as [[k2 ops'] c'] eqn:El.
      injection H as <- <- <-. apply IHt in Et. apply IH2 in El. calm.
  - intros x k k' c [= <- <-]. reflexivity.
  - intros i IHi v IHv l IH x k k' c H. cbn [lower_items] in H. destruct (lower k i) as [k1 oi] eqn:Ei. destruct (lower k1 v) as [k2 ov] eqn:Ev.
    destruct (lower_items x k2 l) as [k3 c'] eqn:El. injection H as <- <-. apply IHi in Ei. apply IHv in Ev. apply IH in El. calm.
  - intros top k k' ls [= <- <-]. reflexivity.
  - intros t IHt q IHq top k k' ls H. cbn [lower_query] in H. destruct (lower k t) as [k1 o] eqn:Et. destruct (lower_query top k1 q) as [k2 ls'] eqn:Eq.
    injection H as <- <-. apply IHt in Et. apply IHq in Eq. cbn [flat_map lit_code]. calm.
  - intros x t IHt q IHq top k k' ls H. cbn [lower_query] in H. destruct (lower (S k) t) as [k1 o] eqn:Et. destruct (lower_query top k1 q) as [k2 ls'] eqn:Eq.
    injection H as <- <-. apply IHt in Et. apply IHq in Eq. cbn [flat_map lit_code]. calm.
  - intros q1 IH1 q IHq top k k' ls H. cbn [lower_query] in H. destruct (lower_query false (S k) q1) as [k1 ls1] eqn:E1. destruct (lower_query top k1 q) as [k2 ls'] eqn:Eq.
    injection H as <- <-. pose proof (QB q1 IH1 _ _ _ _ [IResetLocal (tmp $"found" k)] E1 (flat_one (IResetLocal (tmp $"found" k)) eq_refl) eq_refl) as G.
    apply IHq in Eq. cbn [flat_map lit_code]. apply calm_app; [|exact Eq]. cbn [forallb calm]. rewrite andb_true_r. calm.
  - intros dom key val body IH1 q IHq top k k' ls H. cbn [lower_query] in H.
    destruct (lower_query false (S (S (S (S (S k))))) body) as [k1 ls1] eqn:E1. destruct (lower_query top k1 q) as [k2 ls'] eqn:Eq.
    injection H as <- <-. pose proof (QB body IH1 _ _ _ _ [] E1 (or_introl eq_refl) eq_refl) as G. apply IHq in Eq. cbn [flat_map lit_code ob_code ob_op].
    apply calm_app; [|exact Eq]. apply calm_app; [|reflexivity]. do 2 (apply calm_cons; [reflexivity|]). apply calm_cons; [|reflexivity]. cbn [calm].
    apply calm_app; [destruct key; reflexivity|]. do 2 (apply calm_cons; [reflexivity|]). apply calm_cons; [|reflexivity]. cbn [calm forallb]. rewrite andb_true_r.
    apply calm_append; [exact G|reflexivity].
  - intros t IHt key val q IHq top k k' ls H. cbn [lower_query] in H. destruct (lower k t) as [k1 o] eqn:Et. destruct (lower_query false k1 q) as [k2 ls'] eqn:Eq.
    injection H as <- <-. apply IHt in Et. pose proof (QB q IHq _ _ _ _ [] Eq (or_introl eq_refl) eq_refl) as G.
    assert (HS : forallb calm [IScan (source o) key val (query_block ls')] = true) by (cbn [forallb calm]; rewrite andb_true_r; exact G).
    destruct top; [destruct (ob_code o) as [|i c] eqn:Ec|].
    + exact HS.
    + cbn [flat_map lit_code]. rewrite Ec. repeat (apply calm_app); try assumption; reflexivity.
    + cbn [flat_map lit_code]. repeat (apply calm_app); try assumption; reflexivity.
Qed.
