(** Code of rules that refer to rules: if it ends without an error, it has kept the input, the data and a true cache, and it has
    neither broken off nor stopped at a limit. *)
From Coq Require Import String ZArith NArith List Bool Lia.
From Verif Require Import Base SMap ValueModel ValueSpec ResolverModel VmModel VmSpec VmProofs VmSimProofs VmStmtProofs PlanModel PlanSpec PlanProofs
  RuleModel RuleSpec RuleVmProofs RuleVisitProofs RuleProofs TermModel TermSpec TermStaticProofs TermVmProofs TermRunProofs.
Import ListNotations.
Local Open Scope Z_scope.

Lemma errs_call E k fn args t s c s' : run_call E (run_block E k) fn args t s = Done c s' -> errs s s'.
Proof.
  intro H. destruct (VmSimProofs.R_call E (e_stmt_limit E) (run_block E k) (run_block (with_limit (e_stmt_limit E) E) (k + 0)) (VmSimProofs.R_block E _ (Z.le_refl _) k 0) fn args t) as [M _].
  specialize (M s). rewrite H in M. now apply errs_later.
Qed.
Lemma errs_blocks E k : forall l c s c' s', run_blocks (run_block E k) l c s = Done c' s' -> errs s s'.
Proof.
  induction l as [|b l IH]; intros c s c' s' H; cbn [run_blocks] in H; [injection H as <- <-; apply errs_refl|].
  unfold bind at 1 in H. destruct (run_block E k b s) as [c1 s1|s1|f s1|s1] eqn:Es; try discriminate. apply errs_block in Es.
  eapply errs_trans; [exact Es|]. destruct c1; try discriminate H; try (injection H as <- <-; apply errs_refl); eauto.
Qed.

Section Sane.
Variable E : env.
Variable n : Z.
Hypothesis NR : n <= 2 ^ 64.
Variables inp data : value.
Variable rules : str -> option value.
Variable is_rule : str -> Prop.

Definition clean (s : state) : Prop := s_errors s = [].
Definition sane (s : state) : Prop :=
  n <= zlen (s_frame s) /\ local s 0 = Some (Some inp) /\ local s 1 = Some (Some data) /\ s_with s = 0 /\
  forall g cv, sm_find g (s_cache s) = Some cv -> exists u, cv = Some u /\ rules g = Some u /\ forall e, u <> VErr e.
Definition pre (q : bool) (s : state) : Prop := sane s /\ (q = true -> s_count s < e_stmt_limit E).
Definition within (r : bool) (c : code) : Prop := good c \/ (r = true /\ c = CReturn).
Definition G {A} (q : bool) (m : vm A) : Prop := forall s a s', m s = Done a s' -> clean s' -> clean s /\ (pre q s -> pre q s').
Definition CB {A} (m : vm A) : Prop := forall s a s', m s = Done a s' -> clean s' -> clean s.
Definition H (q r : bool) (m : vm code) : Prop := forall s c s', m s = Done c s' -> clean s' -> clean s /\ (pre q s -> pre q s' /\ within r c).

Lemma clean_errs s s' : errs s s' -> clean s' -> clean s.
Proof. intros (es & Q) C. unfold clean in *. rewrite C in Q. symmetry in Q. now apply app_eq_nil in Q. Qed.
Lemma G_bind {A B} q (m : vm A) (k : A -> vm B) : G q m -> (forall a, G q (k a)) -> G q (bind m k).
Proof. intros X Y s a s' Q C. unfold bind in Q. destruct (m s) as [a1 s1|s1|f s1|s1] eqn:Em; try discriminate. destruct (Y _ _ _ _ Q C) as [C1 P1]. destruct (X _ _ _ Em C1) as [C0 P0]. split; auto. Qed.
Lemma G_ret {A} q (a : A) : G q (ret a). Proof. intros s b s' Q C. injection Q as <- <-. auto. Qed.
Lemma G_exn {A} q : G q (@exn A). Proof. intros s b s' Q. discriminate. Qed.
Lemma G_fault {A} q f : G q (@fault_ A f). Proof. intros s b s' Q. discriminate. Qed.
Lemma G_get {A} q (f : state -> A) : G q (get f). Proof. intros s b s' Q C. injection Q as <- <-. auto. Qed.
Lemma G_vnth {A} q (l : list A) i : G q (vnth l i).
Proof. unfold vnth. destruct (znth l i); [apply G_ret|apply G_fault]. Qed.
Lemma G_lift {A} q (o : outcome A) : G q (lift o).
Proof. intros s b s' Q C. destruct o; try discriminate. injection Q as <- <-. auto. Qed.
Lemma G_read q i : G q (read_local i).
Proof. apply G_bind; [apply G_get|intro; apply G_vnth]. Qed.
Lemma G_def q i : G q (is_defined i).
Proof. unfold is_defined. apply G_bind; [apply G_read|intro; apply G_ret]. Qed.
Lemma G_write q i v : 2 <= i -> G q (write_local i v).
Proof.
  intros Hi s a s' Q C. apply write_inv in Q as [R ->]. split; [exact C|]. intros [(A1 & A2 & A3 & A4 & A5) A6]. split; [|exact A6].
  split; [unfold zlen in *; cbn [set_frame s_frame]; now rewrite upd_length|]. rewrite !local_set_other by lia. auto.
Qed.
Lemma G_unpack q o : G q (unpack_operand E o).
Proof. unfold unpack_operand. destruct (o_type o); auto using G_ret, G_exn, G_read. apply G_bind; [apply G_vnth|intro; apply G_ret]. Qed.
Lemma G_unpacks q l : G q (unpack_operands E l).
Proof. induction l as [|o l IH]; cbn [unpack_operands]; [apply G_ret|]. apply G_bind; [apply G_unpack|intro]. apply G_bind; [exact IH|intro; apply G_ret]. Qed.
Lemma G_equals q a b : G q (equals E a b). Proof. apply G_lift. Qed.
Lemma G_modify q f : (forall s, s_frame (f s) = s_frame s /\ s_errors (f s) = s_errors s /\ s_with (f s) = s_with s /\ s_cache (f s) = s_cache s /\ s_count (f s) = s_count s) -> G q (modify f).
Proof.
  intros X s a s' Q C. injection Q as _ <-. destruct (X s) as (Y1 & Y2 & Y3 & Y4 & Y5). split; [unfold clean in *; now rewrite <- Y2|].
  intros [(A1 & A2 & A3 & A4 & A5) A6]. split; [|now rewrite Y5]. unfold sane, local in *. rewrite Y1, Y3, Y4. auto.
Qed.
Lemma H_bind {A} q r (m : vm A) (k : A -> vm code) : G q m -> (forall a, H q r (k a)) -> H q r (bind m k).
Proof. intros X Y s a s' Q C. unfold bind in Q. destruct (m s) as [a1 s1|s1|f s1|s1] eqn:Em; try discriminate. destruct (Y _ _ _ _ Q C) as [C1 P1]. destruct (X _ _ _ Em C1) as [C0 P0]. split; auto. Qed.
Lemma H_ret q r c : within r c -> H q r (ret c). Proof. intros X s b s' Q C. injection Q as <- <-. auto. Qed.
Lemma H_exn q r : H q r exn. Proof. intros s b s' Q. discriminate. Qed.
Lemma H_fault q r f : H q r (fault_ f). Proof. intros s b s' Q. discriminate. Qed.
Lemma H_error q r e c : H q r (bind (add_error e) (fun _ => ret c)).
Proof. intros s b s' Q C. unfold bind, add_error, modify, ret in Q. injection Q as <- <-. unfold clean in C. cbn in C. now apply app_eq_nil in C. Qed.
Lemma H_CB q r m : H q r m -> CB m. Proof. intros X s a s' Q C. now apply (X s a s'). Qed.
Lemma CB_ret {A} (a : A) : CB (ret a). Proof. intros s b s' Q C. injection Q as <- <-. exact C. Qed.
Lemma CB_exn {A} : CB (@exn A). Proof. intros s b s' Q. discriminate. Qed.
Lemma H_bind2 q r r' (m : vm code) (k : code -> vm code) : H q r m -> (forall a, CB (k a)) -> (forall a, within r a -> H q r' (k a)) -> H q r' (bind m k).
Proof.
  intros X Z Y s a s' Q C. unfold bind in Q. destruct (m s) as [a1 s1|s1|f s1|s1] eqn:Em; try discriminate. pose proof (Z _ _ _ _ Q C) as C1.
  destruct (X _ _ _ Em C1) as [C0 P0]. split; [exact C0|]. intro P. destruct (P0 P) as [P1 W]. now apply (Y _ W _ _ _ Q C).
Qed.
Lemma within_cont r : within r CContinue. Proof. left. now left. Qed.
Lemma within_undef r : within r CUndefined. Proof. left. now right. Qed.

Definition zok (r : bool) (d : deed Z) : Prop :=
  match d with
  | DWrite i => 2 <= i < n
  | DCall f i => 2 <= i /\ (e_builtin E f <> None \/ is_rule f)
  | DReturn => r = true
  | DOther => False
  end.
Definition hfair (r : bool) (b : block) : Prop := exists l, opt_list says b = Some l /\ forall d, In d (flat_map deeds l) -> zok r d.
Hypothesis HC : forall g m args t s c s', is_rule g -> 2 <= t -> s_count s < e_stmt_limit E -> run_call E (run_block E m) g args t s = Done c s' -> clean s' ->
  sane s -> sane s' /\ s_count s' < e_stmt_limit E /\
    match rules g with Some v => c = CContinue /\ local s' t = Some (Some v) | None => c = CUndefined end.

Section Block.
Variable m : nat.
Variable r : bool.
Notation rb := (run_block E m).
Hypothesis Hrb : forall b, hfair r b -> H true r (rb b).
Lemma H_block_stmt l : Forall (hfair r) l -> H true r (block_stmt rb l).
Proof.
  induction 1 as [|b l Hb _ IH]; cbn [block_stmt]; [apply H_ret, within_cont|]. apply (H_bind2 true r); [auto| |].
  - intros c. destruct c; eauto using H_CB, CB_ret, CB_exn.
  - intros c W. destruct c; auto using H_exn; now apply H_ret.
Qed.
Lemma H_run_blocks l : Forall (hfair r) l -> forall c, within r c -> H true r (run_blocks rb l c).
Proof.
  induction 1 as [|b l Hb _ IH]; intros c0 W0; cbn [run_blocks]; [now apply H_ret|]. apply (H_bind2 true r); [auto| |].
  - intros c. assert (K : forall c', CB (run_blocks rb l c')) by (intros c' s a s' Q C; eapply clean_errs; [eapply errs_blocks; exact Q|exact C]). destruct c; auto using CB_ret.
  - intros c W. destruct c; auto using within_cont, within_undef; try (now apply H_ret); destruct W as [[?|?]|[_ ?]]; discriminate.
Qed.
Lemma H_scan_loop l k v body : hfair r body -> 2 <= k -> 2 <= v -> H true r (scan_loop rb l k v body).
Proof.
  intros Hb Hk Hv. induction l as [|[a b] l IH]; cbn [scan_loop]; [apply H_ret, within_cont|]. apply H_bind; [now apply G_write|intro]. apply H_bind; [now apply G_write|intro].
  apply (H_bind2 true r); [auto| |].
  - intros c. destruct c; eauto using H_CB, CB_ret, CB_exn.
  - intros c W. destruct c; auto using H_exn; now apply H_ret.
Qed.
Lemma hfair_blocks ls bs : opt_list (opt_list says) bs = Some ls -> (forall d, In d (flat_map (flat_map deeds) ls) -> zok r d) -> Forall (hfair r) bs.
Proof.
  revert ls. induction bs as [|b bs IH]; intros ls X HB; [constructor|].
  apply opt_cons in X as (l & ls' & H1 & H2 & ->). cbn [flat_map] in HB.
  constructor; [exists l; split; [auto|]; intros d I; apply HB, in_or_app; auto|]. eapply IH; eauto. intros d I. apply HB, in_or_app. auto.
Qed.
Lemma H_call g args t : 2 <= t -> e_builtin E g <> None \/ is_rule g -> H true r (run_call E rb g args t).
Proof.
  intros Ht Hg. destruct (e_builtin E g) as [f|] eqn:Eb.
  - unfold run_call. rewrite Eb. apply H_bind; [apply G_get|intro st]. destruct (existsb _ _); [apply H_exn|]. apply H_bind; [apply G_unpacks|intro]. apply H_bind; [apply G_get|intro].
    apply H_bind; [apply G_lift|intro v]. apply H_bind; [now apply G_write|intro]. destruct v as [[]|]; try apply H_error; apply H_ret, within_cont.
  - destruct Hg as [Hg|Hg]; [congruence|]. intros s c s' Q C.
    assert (CL : clean s).
    { eapply clean_errs; [|exact C]. eapply errs_call. exact Q. }
    split; [exact CL|]. intros [SA CO]. destruct (HC _ _ _ _ _ _ _ Hg Ht (CO eq_refl) Q C SA) as (S1 & C1 & RV).
    split; [split; auto|]. destruct (rules g); [destruct RV as [-> _]; apply within_cont|subst c; apply within_undef].
Qed.
Lemma H_dispatch st : hfair r [st] -> H true r (dispatch E rb st).
Proof.
  intros (l & Hl & HB). apply opt_cons in Hl as (i & l' & Hs & Hn & ->). injection Hn as <-.
  cbn [flat_map] in HB. rewrite app_nil_r in HB.
  destruct st as [ty op0 op1 target e]. unfold dispatch.
  destruct ty; cbn [says] in Hs; destruct e as [ex|]; try discriminate Hs.
  all: try (destruct ex; try discriminate Hs).
  all: unfold with1, with2, option_map in Hs;
    repeat match type of Hs with context [match ?y with _ => _ end] => destruct y eqn:?; try discriminate Hs end;
    injection Hs as <-; cbn [deeds writes map app] in HB.
  all: try (elim (HB DOther (or_introl eq_refl))).
  all: try (pose proof (HB (DWrite target) (or_introl eq_refl)) as Ht; cbn [zok] in Ht).
  all: try (pose proof (HB (DWrite target) (or_intror (or_introl eq_refl))) as Ht; cbn [zok] in Ht).
  all: repeat match goal with
    | |- H _ _ (bind (ext_block (Some (ExtBlock ?b))) ?k) => change (H true r (k b)); cbv beta
    | |- H _ _ (bind (rb _) _) => fail 1
    | |- H _ _ (run_call _ _ _ _ _) => destruct (HB _ (or_introl eq_refl)) as [? ?]; apply H_call; auto; lia
    | |- H _ _ (bind (add_error _) _) => apply H_error
    | |- H _ _ (bind (write_local _ _) _) => apply H_bind; [apply G_write; lia|intro]
    | |- H _ _ (bind _ _) => apply H_bind; [first [apply G_read|apply G_unpack|apply G_vnth|apply G_equals|apply G_def|apply G_modify; intro; repeat split]|intro]
    | |- H _ _ (ret CReturn) => apply H_ret; right; split; [exact (HB DReturn (or_introl eq_refl))|reflexivity]
    | |- H _ _ (ret _) => apply H_ret; solve [repeat match goal with |- context [match ?y with _ => _ end] => destruct y end; auto using within_cont, within_undef]
    | |- H _ _ exn => apply H_exn
    | |- H _ _ (fault_ _) => apply H_fault
    | |- H _ _ (match ?y with _ => _ end) => destruct y
    end.
  - apply H_block_stmt. eapply hfair_blocks; eauto.
  - apply (H_bind2 true r); [apply Hrb; exists l; auto|intro; apply CB_ret|]. intros c [[-> | ->]|[_ ->]]; apply H_ret; auto using within_cont, within_undef.
  - pose proof (HB (DWrite z) (or_introl eq_refl)) as Hz. pose proof (HB (DWrite z0) (or_intror (or_introl eq_refl))) as Hz0. cbn [zok] in Hz, Hz0.
    assert (I0 : o_index op0 = z). { unfold says_index in *. unfold o_index. destruct (o_type op0); try discriminate. injection Heqo as <-. apply Z.mod_small. lia. }
    assert (I1 : o_index op1 = z0). { unfold says_index in *. unfold o_index. destruct (o_type op1); try discriminate. injection Heqo0 as <-. apply Z.mod_small. lia. }
    unfold run_scan. apply H_bind; [apply G_read|intro src].
    assert (K : forall l, H true r (scan_pairs rb l op0 op1 (Some (ExtBlock b)))).
    { intros l0. unfold scan_pairs. destruct l0; [apply H_ret, within_cont|]. cbn [ext_block].
      intros s c s' Q. unfold bind at 1, ret at 1 in Q. revert s c s' Q. apply H_scan_loop; try lia. exists l. split; [auto|]. intros d I. apply HB. cbn. auto. }
    destruct src as [[]|]; auto using H_exn; apply H_ret; auto using within_cont, within_undef.
Qed.
Lemma hfair_cons st b : hfair r (st :: b) -> hfair r [st] /\ hfair r b.
Proof.
  intros (l & X & HB). apply opt_cons in X as (i & l' & H1 & H2 & ->). cbn [flat_map] in HB. split.
  - exists [i]. cbn [opt_list]. rewrite H1. split; [auto|]. intros f I. apply HB. cbn [flat_map] in I. rewrite app_nil_r in I. apply in_or_app. auto.
  - exists l'. split; [auto|]. intros f I. apply HB, in_or_app. auto.
Qed.
Lemma H_stmt q st : hfair r [st] -> H q r (run_stmt E rb st).
Proof.
  intros X s c s' Q C. unfold run_stmt in Q. unfold bind at 1, modify at 1 in Q. unfold bind at 1, get at 1 in Q.
  destruct (Z.leb_spec (e_stmt_limit E) (s_count (inc_stmts s))) as [|LT].
  - unfold bind, add_error, modify, ret in Q. injection Q as <- <-. unfold clean in C. cbn in C. now apply app_eq_nil in C.
  - unfold bind at 1, modify at 1 in Q. destruct (H_dispatch st X _ _ _ Q C) as [C0 P0]. split; [exact C0|].
    intros [SA _]. destruct P0 as [[P1 P2] P3]; [split; [exact SA|intros _; exact LT]|]. split; [split; auto|exact P3].
Qed.
Lemma H_stmts q l : hfair r l -> forall c, within r c -> H q r (run_stmts E rb l c).
Proof.
  induction l as [|st l IH]; intros X c W; cbn [run_stmts]; [now apply H_ret|]. apply hfair_cons in X as [H1 H2].
  apply (H_bind2 q r); [now apply H_stmt| |].
  - intros c'. destruct c'; eauto using H_CB, CB_ret, CB_exn, within_cont.
    intros s b s' Q C. unfold bind, modify, ret in Q. injection Q as <- <-. exact C.
  - intros c' W'. destruct c'; auto using H_exn, within_cont; try (now apply H_ret). destruct W' as [[?|?]|[_ ?]]; discriminate.
Qed.
End Block.
Lemma H_block r q : forall m b, hfair r b -> H q r (run_block E m b).
Proof.
  assert (ST : forall q m, (forall b, hfair r b -> H true r (run_block E m b)) -> forall b, hfair r b -> H q r (run_block E (S m) b)).
  { intros q0 m IH b X. cbn [run_block]. apply H_bind; [apply G_get|intro d]. destruct (_ <=? _); [apply H_error|].
    apply H_bind; [apply G_modify; intro; repeat split|intro]. apply (H_bind2 q0 r); [apply H_stmts; auto using within_cont| |].
    - intros c s b0 s' Q C. unfold bind, modify, ret in Q. injection Q as <- <-. exact C.
    - intros c W. apply H_bind; [apply G_modify; intro; repeat split|intro; now apply H_ret]. }
  intros m. destruct m as [|m]; [intros b _ s c s' Q; discriminate|]. apply ST.
  induction m as [|m IH]; [intros b _ s c s' Q; discriminate|]. now apply ST.
Qed.
End Sane.

(** ** Deeds under renaming *)
Definition deed_map {A B} (r : A -> B) (d : deed A) : deed B :=
  match d with DWrite x => DWrite (r x) | DCall f x => DCall f (r x) | DReturn => DReturn | DOther => DOther end.
Lemma deeds_map {L1 S1 L2 S2} (r : L1 -> L2) (q : S1 -> S2) nm : forall st : ir L1 S1, deeds (map_ir r q nm st) = map (deed_map r) (deeds st).
Proof.
  assert (F : forall l : list (ir L1 S1), Forall (fun st => deeds (map_ir r q nm st) = map (deed_map r) (deeds st)) l -> flat_map deeds (map (map_ir r q nm) l) = map (deed_map r) (flat_map deeds l)).
  { induction 1 as [|st l H _ IH]; [reflexivity|]. cbn [map flat_map]. now rewrite H, IH, map_app. }
  induction st as [st IH] using ir_ind'. destruct st; cbn [map_ir deeds inner writes map app deed_map] in *; try reflexivity; try (rewrite F by exact IH; reflexivity).
  match goal with |- flat_map _ (map _ ?l) = _ => induction l as [|b bs IHb] end; [reflexivity|]. cbn [map flat_map concat] in *. apply Forall_app in IH as [H1 H2]. rewrite F by exact H1. rewrite map_app. f_equal. apply IHb. exact H2.
Qed.
Lemma deed_locals {L1 S1} (x : L1) : forall st : ir L1 S1, (In (DWrite x) (deeds st) \/ exists f, In (DCall f x) (deeds st)) -> In x (locals_in st).
Proof.
  set (P := fun ds : list (deed L1) => In (DWrite x) ds \/ exists f, In (DCall f x) ds).
  assert (PA : forall a b, P (a ++ b) -> P a \/ P b).
  { intros a b [I|(f & I)]; apply in_app_iff in I as [I|I]; unfold P; eauto. }
  assert (F : forall l : list (ir L1 S1), Forall (fun st => P (deeds st) -> In x (locals_in st)) l -> P (flat_map deeds l) -> In x (flat_map locals_in l)).
  { induction 1 as [|st l H _ IH]; cbn [flat_map]; [intros [[]|(? & [])]|]. intro Q. apply in_or_app. apply PA in Q as [Q|Q]; auto. }
  change (forall st : ir L1 S1, P (deeds st) -> In x (locals_in st)).
  induction st as [st IH] using ir_ind'.
  assert (W : P (map DWrite (writes st)) -> In x (locals_in st)).
  { intros [I|(f & I)]; apply in_map_iff in I as (y & Q & I); [injection Q as <-; now apply writes_locals|discriminate]. }
  assert (PW : forall l, P (map DWrite l) -> In x l).
  { intros l [I|(f & I)]; apply in_map_iff in I as (y & Q & I); [injection Q as <-; exact I|discriminate]. }
  assert (P1 : forall d l, P (d :: l) -> d = DWrite x \/ (exists f, d = DCall f x) \/ P l).
  { intros d l [[I|I]|(f & [I|I])]; unfold P; eauto. }
  clear PA. destruct st; try exact W; clear W; cbn [deeds inner locals_in app] in *; intro Q.
  all: repeat (apply P1 in Q as [Q|[(? & Q)|Q]]; [try discriminate Q; injection Q as <-; cbn; rewrite ?in_app_iff; cbn; tauto|try discriminate Q; try (injection Q as <- <-; rewrite ?in_app_iff; cbn; tauto)|]).
  all: rewrite ?in_app_iff; try (destruct Q as [[]|(? & [])]); try (apply F in Q; [tauto|exact IH]).
  revert IH Q. match goal with |- Forall _ (concat ?l) -> _ => induction l as [|b bs IHb] end; intros IH Q; [destruct Q as [[]|(? & [])]|]. cbn [flat_map concat] in *. apply Forall_app in IH as [H1 H2].
  apply in_or_app. assert (Q' : P (flat_map deeds b) \/ P (flat_map (flat_map deeds) bs)). { destruct Q as [I|(f & I)]; apply in_app_iff in I as [I|I]; unfold P; eauto. }
  destruct Q' as [Q'|Q']; auto.
Qed.
