(** Properties C49-C53: what single instructions of the virtual machine compute. *)
From Coq Require Import String ZArith List Bool Lia.
From Verif Require Import Base BigIntSpec BigIntModel DecFacts BigIntProofs SMap SMapFacts ValueModel ValueSpec KeyProofs
  ResolverModel ResolverProofs OrderProofs VmModel VmSpec VmProofs VmSimProofs VmStmtProofs VmTheorems.
Import ListNotations.
Local Open Scope Z_scope.

Section Ops.
Variable E : env.
Variables NI NF : str -> Prop.
Let F := e_fops E.
Hypothesis HD : num_domain F NI NF.
Hypothesis HF : forall t u, NI t \/ NF t -> NF t \/ NF u -> NI u \/ NF u -> f_ok F t = true /\ f_ok F u = true.
Variable rb : block -> vm code.
Variable s : state.
Hypothesis Hlen : zlen (s_frame s) <= 2 ^ 64.
Hypothesis Hlim : s_count s + 1 < e_stmt_limit E.
Definition after (st : stmt) : state := add_log (EvStmt st) (inc_stmts s).

Lemma wf_not_err x : wfv F NI NF x -> as_res (Some x) = RVal x.
Proof. now destruct 1. Qed.
Lemma compare_eq x y : wfv F NI NF x -> wfv F NI NF y ->
  (veq F x y /\ boolinfix F OpEq (as_res (Some x)) (as_res (Some y)) = Ok (RVal VTrue)) \/
  (~ veq F x y /\ boolinfix F OpEq (as_res (Some x)) (as_res (Some y)) = Ok (RVal VFalse)).
Proof.
  intros Hx Hy. rewrite !wf_not_err by auto. destruct (order_facts F NI NF HD HF) as (A & _ & C & _).
  destruct (A OpEq x y Hx Hy) as [[H1 H2]|[H1 H2]]; [left|right]; (split; [|exact H1]).
  - now apply (C x y Hx Hy).
  - intro V. apply H2. now apply (C x y Hx Hy).
Qed.
Lemma unpack_loc i v : local s i = Some v -> forall st, unpack_operand E (loc i) (after st) = Done v (after st).
Proof.
  intros H st. unfold loc. cbn [unpack_operand o_type].
  assert (0 <= i < zlen (s_frame s)) by (eapply znth_some; exact H).
  rewrite o_index_small by lia. now apply read_eq.
Qed.

Lemma equal_run i j a b t e : local s i = Some a -> local s j = Some b ->
  okv E NI NF a -> okv E NI NF b ->
  exists c, run_stmt E rb (Stmt SEqual (loc i) (loc j) t e) s = Done c (after (Stmt SEqual (loc i) (loc j) t e)) /\
    ((c = CContinue /\ exists x y, a = Some x /\ b = Some y /\ veq F x y) \/
     (c = CUndefined /\ ~ exists x y, a = Some x /\ b = Some y /\ veq F x y)).
Proof.
  intros Ha Hb Oa Ob. rewrite run_stmt_eq by auto. cbn [dispatch]. fold (after (Stmt SEqual (loc i) (loc j) t e)).
  unfold bind. rewrite (unpack_loc i a Ha). rewrite (unpack_loc j b Hb). unfold equals, lift. fold F.
  destruct a as [x|].
  2: { exists CUndefined. split; [reflexivity|]. right. split; auto. intros (x & y & Z & _). discriminate Z. }
  destruct b as [y|].
  2: { exists CUndefined. split; [rewrite (wf_not_err x) by (now apply Oa); reflexivity|].
       right. split; auto. intros (x' & y & _ & Z & _). discriminate Z. }
  destruct (compare_eq x y (Oa x eq_refl) (Ob y eq_refl)) as [[V ->]|[V ->]]; eexists; (split; [reflexivity|]).
  - left. split; [reflexivity|]. now exists x, y.
  - right. split; [reflexivity|]. intros (x' & y' & Ex & Ey & V'). injection Ex as <-. injection Ey as <-. auto.
Qed.
Lemma not_equal_run i j a b t e : local s i = Some a -> local s j = Some b ->
  okv E NI NF a -> okv E NI NF b ->
  exists c, run_stmt E rb (Stmt SNotEqual (loc i) (loc j) t e) s = Done c (after (Stmt SNotEqual (loc i) (loc j) t e)) /\
    ((c = CContinue /\ exists x y, a = Some x /\ b = Some y /\ ~ veq F x y) \/
     (c = CUndefined /\ ~ exists x y, a = Some x /\ b = Some y /\ ~ veq F x y)).
Proof.
  intros Ha Hb Oa Ob. rewrite run_stmt_eq by auto. cbn [dispatch]. fold (after (Stmt SNotEqual (loc i) (loc j) t e)).
  unfold bind. rewrite (unpack_loc i a Ha). rewrite (unpack_loc j b Hb).
  destruct a as [x|].
  2: { exists CUndefined. split; [reflexivity|]. right. split; auto. intros (x & y & Z & _). discriminate Z. }
  destruct b as [y|].
  2: { exists CUndefined. split; [reflexivity|]. right. split; auto. intros (x' & y & _ & Z & _). discriminate Z. }
  unfold equals, lift. fold F.
  destruct (compare_eq x y (Oa x eq_refl) (Ob y eq_refl)) as [[V ->]|[V ->]]; eexists; (split; [reflexivity|]).
  - right. split; [reflexivity|]. intros (x' & y' & Ex & Ey & V'). injection Ex as <-. injection Ey as <-. auto.
  - left. split; [reflexivity|]. now exists x, y.
Qed.

(** Dot *)
Lemma find_item_iff k l : wfv F NI NF k -> wfv F NI NF (VObject l) ->
  match find_item E (to_key F k) l with
  | Some v => exists k', In (k', v) l /\ veq F k' k
  | None => ~ exists k' v, In (k', v) l /\ veq F k' k
  end.
Proof.
  intros Hk Hl. inversion Hl as [| | | | | | | |m He Hw Hn]; subst. clear Hl Hn.
  induction m as [|[t v] m IH]; cbn [map find_item fst snd].
  - intros (k' & v & [] & _).
  - inversion He; subst. inversion Hw; subst. cbn [fst snd] in *.
    assert (W : wfv F NI NF (VString t)) by now constructor.
    change (e_fops E) with F. destruct (str_eqb (to_key F (VString t)) (to_key F k)) eqn:Q.
    + exists (VString t). split; [now left|]. now apply (key_eqb_veq E NI NF HD).
    + specialize (IH H2 H4). destruct (find_item E (to_key F k) _) as [v'|].
      * destruct IH as (k' & I & V). exists k'. split; [now right | exact V].
      * intros (k' & v' & [I|I] & V); [|apply IH; now exists k', v'].
        injection I as <- <-. apply (key_eqb_veq E NI NF HD) in V; auto. unfold F in Q. congruence.
Qed.
Lemma to_uint32_dec z : to_uint32 (dec z) = if (0 <=? z) && (z <? 2 ^ 32) then Some z else None.
Proof.
  unfold to_uint32. destruct (Z.leb_spec 0 z) as [Hz|Hz]; cbn [andb].
  - destruct (dec_canon z Hz) as [Hd _]. destruct (dec_cons_digit z Hz) as (c & t & Ed & _). rewrite Ed in *.
    assert (Fd : forallb is_digit (c :: t) = true).
    { apply forallb_forall. intros d Hin. rewrite Forall_forall in Hd. specialize (Hd d Hin). red in Hd.
      unfold is_digit. lia. }
    rewrite Fd, <- Ed, zval_dec_all. destruct (Z.leb_spec z (2 ^ 32 - 1)), (Z.ltb_spec z (2 ^ 32)); auto; lia.
  - replace z with (- - z) by lia. rewrite dec_neg by lia. reflexivity.
Qed.
Lemma dot_iff src k : wfv F NI NF src -> wfv F NI NF k -> (forall t, k <> VFloat t) ->
  (forall l, src = VArray l -> zlen l <= 2 ^ 32) ->
  match dot E (Some src) (Some k) with
  | Some v => selects F src k v
  | None => ~ exists v, selects F src k v
  end.
Proof.
  intros Hs Hk Hf Ha.
  destruct src as [| | |t|t|t|l|l|l|c]; cbn [dot]; try (intros (v & S); inversion S; fail).
  - destruct k as [| | |t|t|t|l'|l'|l'|c]; try (intros (v & S); inversion S; fail).
    + inversion Hk as [| | |t' Ht| | | | |]; subst. destruct HD as (HI & _). destruct (HI t Ht) as [z ->].
      rewrite to_uint32_dec. specialize (Ha l eq_refl). unfold znth.
      destruct (Z.leb_spec 0 z) as [Hz|Hz]; cbn [andb].
      * destruct (Z.ltb_spec z (2 ^ 32)).
        -- destruct (Z.leb_spec 0 z); [cbn [andb] | lia]. destruct (Z.ltb_spec z (zlen l)).
           ++ destruct (nth_error l (Z.to_nat z)) as [v|] eqn:Nv.
              ** replace z with (Z.of_nat (Z.to_nat z)) by lia. now constructor.
              ** apply nth_error_None in Nv. unfold zlen in *. lia.
           ++ intros (v & S). inversion S as [| |l0 i v0 Hv Q1 Q2]; subst. apply dec_inj in Q2. subst z.
              assert (i < length l)%nat by (apply nth_error_Some; congruence). unfold zlen in *. lia.
        -- intros (v & S). inversion S as [| |l0 i v0 Hv Q1 Q2]; subst. apply dec_inj in Q2. subst z.
           assert (i < length l)%nat by (apply nth_error_Some; congruence). unfold zlen in *. lia.
      * intros (v & S). inversion S as [| |l0 i v0 Hv Q1 Q2]; subst. apply dec_inj in Q2. lia.
    + destruct (Hf t eq_refl).
  - pose proof (find_item_iff k l Hk Hs) as H. unfold node_key. fold F.
    destruct (find_item E (to_key F k) l) as [v|].
    + destruct H as (k' & I & V). now apply sel_object with k'.
    + intros (v & S). apply H. inversion S; subst. eauto.
  - inversion Hs as [| | | | | | |l' Hw _|]; subst. unfold node_key. change (e_fops E) with F.
    destruct (find _ l) as [m|] eqn:Fm.
    + apply find_some in Fm as [I Q]. rewrite Forall_forall in Hw. constructor; auto.
      apply (key_eqb_veq E NI NF HD); auto.
    + intros (v & S). inversion S as [|l0 k0 m I V Q1 Q2|]; subst.
      apply (find_none _ _ Fm) in I as Q. rewrite Forall_forall in Hw.
      apply (key_eqb_veq E NI NF HD) in V; auto. unfold F in Q. congruence.
Qed.
Lemma key_not_undefined m : wfv F NI NF m -> to_key F m <> $"undefined".
Proof.
  intros W Q. pose proof (key_start F NI NF HD m W) as S. fold F in Q. rewrite Q in S.
  destruct m; cbn in S; try discriminate; try contradiction;
    destruct S as (c & t' & S & R); injection S as <- _; try discriminate R; destruct R as [R|R]; lia.
Qed.
Lemma dot_run i j target a b e old : local s i = Some a -> local s j = Some b -> local s target = Some old ->
  okv E NI NF a -> okv E NI NF b -> (forall t, b <> Some (VFloat t)) -> (forall l, a = Some (VArray l) -> zlen l <= 2 ^ 32) ->
  exists c s', run_stmt E rb (Stmt SDot (loc i) (loc j) target e) s = Done c s' /\ s_errors s' = s_errors s /\
    ((c = CContinue /\ exists x y v, a = Some x /\ b = Some y /\ selects F x y v /\ local s' target = Some (Some v) /\
        forall n, n <> target -> local s' n = local s n) \/
     (c = CUndefined /\ (forall n, local s' n = local s n) /\
        ~ exists x y v, a = Some x /\ b = Some y /\ selects F x y v)).
Proof.
  intros Ha Hb Ht Oa Ob Nf La. rewrite run_stmt_eq by auto. cbn [dispatch]. fold (after (Stmt SDot (loc i) (loc j) target e)).
  unfold bind. rewrite (unpack_loc i a Ha). rewrite (unpack_loc j b Hb).
  destruct a as [x|].
  2: { exists CUndefined. eexists. split; [reflexivity|]. split; [reflexivity|]. right. split; auto. split; auto.
       intros (x & y & v & Z & _). discriminate Z. }
  destruct b as [y|].
  - assert (Nf' : forall t, y <> VFloat t) by (intros t Q; apply (Nf t); now rewrite Q).
    assert (La' : forall l, x = VArray l -> zlen l <= 2 ^ 32) by (intros l Q; apply La; now rewrite Q).
    pose proof (dot_iff x y (Oa x eq_refl) (Ob y eq_refl) Nf' La') as D.
    destruct (dot E (Some x) (Some y)) as [v|].
    + assert (0 <= target < zlen (s_frame s)) by (eapply znth_some; exact Ht).
      rewrite write_eq by exact H. exists CContinue. eexists. split; [reflexivity|]. split; [reflexivity|]. left. split; auto.
      exists x, y, v. split; auto. split; auto. split; auto. split.
      * rewrite local_set_same by (auto; lia); reflexivity.
      * intros n Hn. rewrite local_set_other by (auto; lia); reflexivity.
    + exists CUndefined. eexists. split; [reflexivity|]. split; [reflexivity|]. right. split; auto. split; auto.
      intros (x' & y' & v & Ex & Ey & S). injection Ex as <-. injection Ey as <-. apply D. now exists v.
  - assert (D : dot E (Some x) None = None).
    { pose proof (Oa x eq_refl) as Wx. destruct x as [| | |t|t|t|l|l|l|c]; cbn [dot]; auto.
      - inversion Wx as [| | | | | | | |m He Hw Hn]; subst. clear. induction m as [|[t v] m IH]; [reflexivity|].
        cbn [map find_item]. exact IH.
      - destruct (find _ l) as [m|] eqn:Fm; auto. apply find_some in Fm as [I Q]. exfalso.
        inversion Wx as [| | | | | | |l' Hw _|]; subst. rewrite Forall_forall in Hw.
        apply str_eqb_eq in Q. now apply (key_not_undefined m (Hw m I)). }
    rewrite D. exists CUndefined. eexists. split; [reflexivity|]. split; [reflexivity|]. right. split; auto. split; auto.
    intros (x' & y' & v & _ & Z & _). discriminate Z.
Qed.

(** Tests *)
Definition is_kind (ty : stmt_type) (v : option value) : Prop :=
  match ty, v with
  | SIsArray, Some (VArray _) | SIsObject, Some (VObject _) | SIsSet, Some (VSet _) => True
  | _, _ => False
  end.
Lemma kind_run ty i a t e : In ty [SIsArray; SIsObject; SIsSet] -> local s i = Some a ->
  exists c, run_stmt E rb (Stmt ty (loc i) no_op t e) s = Done c (after (Stmt ty (loc i) no_op t e)) /\
    ((c = CContinue /\ is_kind ty a) \/ (c = CUndefined /\ ~ is_kind ty a)).
Proof.
  intros T Ha. rewrite run_stmt_eq by auto. fold (after (Stmt ty (loc i) no_op t e)).
  destruct T as [<-|[<-|[<-|[]]]]; cbn [dispatch]; unfold bind; rewrite (unpack_loc i a Ha); eexists; (split; [reflexivity|]);
    destruct a as [[]|]; cbn; auto.
Qed.
Lemma defined_run i a op0 op1 e : local s i = Some a ->
  run_stmt E rb (Stmt SIsDefined op0 op1 i e) s =
    Done (match a with Some _ => CContinue | None => CUndefined end) (after (Stmt SIsDefined op0 op1 i e)) /\
  run_stmt E rb (Stmt SIsUndefined op0 op1 i e) s =
    Done (match a with Some _ => CUndefined | None => CContinue end) (after (Stmt SIsUndefined op0 op1 i e)).
Proof.
  intro Ha. rewrite !run_stmt_eq by auto. cbn [dispatch]. unfold is_defined, bind.
  rewrite !(read_eq i _ a) by exact Ha. destruct a; auto.
Qed.
Lemma not_run op0 op1 t b c s' : rb b (after (Stmt SNot op0 op1 t (Some (ExtBlock b)))) = Done c s' ->
  run_stmt E rb (Stmt SNot op0 op1 t (Some (ExtBlock b))) s =
    Done (match c with CError => CError | CTimeout => CTimeout | CUndefined => CContinue | _ => CUndefined end) s'.
Proof.
  intro H. rewrite run_stmt_eq by auto. cbn [dispatch ext_block]. unfold bind, ret.
  fold (after (Stmt SNot op0 op1 t (Some (ExtBlock b)))). rewrite H. destruct c; reflexivity.
Qed.
Lemma len_run i a target e old : local s i = Some (Some a) -> local s target = Some old ->
  exists s', run_stmt E rb (Stmt SLen (loc i) no_op target e) s = Done CContinue s' /\
    local s' target = Some (Some (VInt (dec (node_size (Some a))))) /\
    (forall n, n <> target -> local s' n = local s n) /\ s_errors s' = s_errors s.
Proof.
  intros Ha Ht. rewrite run_stmt_eq by auto. cbn [dispatch]. fold (after (Stmt SLen (loc i) no_op target e)).
  unfold bind. rewrite (unpack_loc i _ Ha).
  assert (0 <= target < zlen (s_frame s)) by (eapply znth_some; exact Ht).
  rewrite write_eq by exact H. eexists. split; [reflexivity|]. split; [rewrite local_set_same by (auto; lia); reflexivity|].
  split; [intros n Hn; rewrite local_set_other by (auto; lia); reflexivity | reflexivity].
Qed.
End Ops.

(** ** Building collections *)
Section Build.
Variable E : env.
Variables NI NF : str -> Prop.
Let F := e_fops E.
Hypothesis HD : num_domain F NI NF.
Variable rb : block -> vm code.

Definition add_stmt (ty : stmt_type) (target i : Z) : stmt := Stmt ty (loc i) no_op target None.
Lemma forall2_set target s vals srcs : 0 <= target -> forall v,
  Forall2 (fun i x => i <> target /\ local s i = Some (Some x)) srcs vals ->
  Forall2 (fun i x => i <> target /\ local (set_frame (upd (s_frame s) (Z.to_nat target) v) s) i = Some (Some x)) srcs vals.
Proof.
  intros Ht v H. induction H as [|i x srcs vals [H1 H2] H IH]; constructor; auto. split; auto.
  rewrite local_set_other; auto.
Qed.
Lemma appends_run target : forall srcs vs s l,
  zlen (s_frame s) <= 2 ^ 64 -> Forall2 (fun i x => i <> target /\ local s i = Some (Some x)) srcs vs ->
  local s target = Some (Some (VArray l)) -> s_count s + zlen srcs < e_stmt_limit E ->
  exists s', run_stmts E rb (map (add_stmt SArrayAppend target) srcs) CContinue s = Done CContinue s' /\
    local s' target = Some (Some (VArray (l ++ vs))) /\ s_errors s' = s_errors s.
Proof.
  induction srcs as [|i srcs IH]; intros vs s l Hlen Hv Ht Hlim.
  - inversion Hv; subst. exists s. rewrite app_nil_r. auto.
  - inversion Hv as [|i' v srcs' vs' [Hit Hi] Hv']; subst. unfold zlen in Hlim. cbn [length] in Hlim. cbn [map].
    pose proof (run_stmt_eq E rb (add_stmt SArrayAppend target i) s ltac:(lia)) as Hrun.
    unfold add_stmt in Hrun at 2. cbn [dispatch] in Hrun. unfold bind at 1 in Hrun.
    set (s1 := add_log _ (inc_stmts s)) in Hrun.
    rewrite (read_eq target s1 _ Ht) in Hrun. unfold bind at 1 in Hrun. cbn [unpack_operand o_type loc] in Hrun.
    assert (Hir : 0 <= i < zlen (s_frame s)) by (eapply znth_some; exact Hi).
    assert (Htr : 0 <= target < zlen (s_frame s)) by (eapply znth_some; exact Ht).
    unfold loc in Hrun. cbn [unpack_operand o_type] in Hrun.
    rewrite o_index_small in Hrun by lia. rewrite (read_eq i s1 _ Hi) in Hrun.
    unfold bind at 1 in Hrun. rewrite write_eq in Hrun by exact Htr.
    rewrite (run_stmts_continue _ _ _ _ _ _ _ Hrun).
    destruct (IH vs' (set_frame (upd (s_frame s1) (Z.to_nat target) (Some (VArray (l ++ [v])))) s1) (l ++ [v])%list) as (s' & R & L & Er).
    + cbn. rewrite zlen_upd. exact Hlen.
    + apply (forall2_set target s1); auto. lia.
    + now apply (local_set_same s1).
    + cbn. unfold zlen. lia.
    + exists s'. rewrite <- app_assoc in L. auto.
Qed.

Lemma set_snoc vs l x : Forall (wfv F NI NF) l -> wfv F NI NF x ->
  set_of_values F vs l -> ~ mem F x l -> set_of_values F (vs ++ [x]) (l ++ [x]).
Proof.
  intros Wl Wx (M1 & M2 & D) N. split; [|split].
  - intros y I. apply in_app_iff in I as [I|[<-|[]]].
    + destruct (M1 y I) as (z & Iz & V). exists z. rewrite in_app_iff. auto.
    + exists x. split; [apply in_app_iff; right; now left | now apply (veq_refl' E NI NF HD)].
  - intros y I. rewrite in_app_iff in *. destruct I as [I|I]; auto.
  - intros l1 a l2 b l3 Q V.
    assert (C : (exists l3', l3 = l3' ++ [x] /\ l = l1 ++ a :: l2 ++ b :: l3') \/ (l3 = [] /\ b = x /\ l = l1 ++ a :: l2)).
    { destruct l3 as [|z l3] using rev_ind.
      - right. replace (l1 ++ a :: l2 ++ [b]) with ((l1 ++ a :: l2) ++ [b]) in Q by (now rewrite <- app_assoc).
        apply app_inj_tail in Q as [-> ->]. auto.
      - left. exists l3. replace (l1 ++ a :: l2 ++ b :: l3 ++ [z]) with ((l1 ++ a :: l2 ++ b :: l3) ++ [z]) in Q
          by (now rewrite <- !app_assoc, !app_comm_cons, <- !app_assoc).
        apply app_inj_tail in Q as [-> ->]. auto. }
    destruct C as [(l3' & _ & ->)|(_ & -> & ->)].
    + now apply (D l1 a l2 b l3').
    + apply N. exists a. split; [apply in_app_iff; right; now left|].
      apply (veq_sym' E NI NF HD); auto. rewrite Forall_forall in Wl. apply Wl. apply in_app_iff. right. now left.
Qed.
Lemma set_dup vs l x : set_of_values F vs l -> mem F x l -> set_of_values F (vs ++ [x]) l.
Proof.
  intros (M1 & M2 & D) N. split; [|split; auto].
  - intros y I. apply in_app_iff in I as [I|[<-|[]]]; auto.
  - intros y I. apply in_app_iff. auto.
Qed.
Lemma mem_existsb x l : wfv F NI NF x -> Forall (wfv F NI NF) l ->
  (existsb (str_eqb (to_key F x)) (map (to_key F) l) = true <-> mem F x l).
Proof.
  intros Wx Wl. rewrite (mem_key F NI NF HD x l Wx Wl), existsb_exists. split.
  - intros (k & I & Q). apply str_eqb_eq in Q. now subst.
  - intro I. exists (to_key F x). split; auto. apply str_eqb_refl.
Qed.
Lemma set_adds_run target : forall srcs vs vs0 s l,
  zlen (s_frame s) <= 2 ^ 64 -> Forall2 (fun i x => i <> target /\ local s i = Some (Some x)) srcs vs ->
  Forall (wfv F NI NF) vs -> Forall (wfv F NI NF) l -> set_of_values F vs0 l ->
  local s target = Some (Some (VSet l)) -> s_count s + zlen srcs < e_stmt_limit E ->
  exists s' l', run_stmts E rb (map (add_stmt SSetAdd target) srcs) CContinue s = Done CContinue s' /\
    local s' target = Some (Some (VSet l')) /\ set_of_values F (vs0 ++ vs) l' /\ s_errors s' = s_errors s.
Proof.
  induction srcs as [|i srcs IH]; intros vs vs0 s l Hlen Hv Wv Wl Hset Ht Hlim.
  - inversion Hv; subst. exists s, l. rewrite app_nil_r. auto.
  - inversion Hv as [|i' v srcs' vs' [Hit Hi] Hv']; subst. unfold zlen in Hlim. cbn [length] in Hlim. cbn [map].
    inversion Wv as [|? ? Wx Wv']; subst.
    pose proof (run_stmt_eq E rb (add_stmt SSetAdd target i) s ltac:(lia)) as Hrun.
    unfold add_stmt in Hrun at 2. cbn [dispatch] in Hrun. unfold bind at 1 in Hrun.
    set (s1 := add_log _ (inc_stmts s)) in Hrun.
    rewrite (read_eq target s1 _ Ht) in Hrun. unfold bind at 1 in Hrun.
    assert (Hir : 0 <= i < zlen (s_frame s)) by (eapply znth_some; exact Hi).
    assert (Htr : 0 <= target < zlen (s_frame s)) by (eapply znth_some; exact Ht).
    unfold loc in Hrun. cbn [unpack_operand o_type] in Hrun.
    rewrite o_index_small in Hrun by lia. rewrite (read_eq i s1 _ Hi) in Hrun. change (e_fops E) with F in Hrun.
    pose proof (mem_existsb v l Wx Wl) as Hm. replace (vs0 ++ v :: vs') with ((vs0 ++ [v]) ++ vs') by (now rewrite <- app_assoc).
    destruct (existsb _ _) eqn:Q in Hrun; rewrite Q in Hm.
    + rewrite (run_stmts_continue _ _ _ _ _ _ _ Hrun).
      destruct (IH vs' (vs0 ++ [v]) s1 l) as (s' & l' & R & L & S & Er); auto.
      * apply set_dup; auto. now apply Hm.
      * cbn. unfold zlen. lia.
      * exists s', l'. auto.
    + unfold bind at 1 in Hrun. rewrite write_eq in Hrun by exact Htr.
      rewrite (run_stmts_continue _ _ _ _ _ _ _ Hrun).
      destruct (IH vs' (vs0 ++ [v]) (set_frame (upd (s_frame s1) (Z.to_nat target) (Some (VSet (l ++ [v])))) s1) (l ++ [v])%list)
        as (s' & l' & R & L & S & Er).
      * cbn. rewrite zlen_upd. exact Hlen.
      * apply (forall2_set target s1); auto. lia.
      * exact Wv'.
      * apply Forall_app. auto.
      * apply set_snoc; auto. intro M. apply Hm in M. discriminate M.
      * now apply (local_set_same s1).
      * cbn. unfold zlen. lia.
      * exists s', l'. auto.
Qed.
End Build.

Lemma selects_fun F NI NF : num_domain F NI NF -> forall src key v w,
  wfv F NI NF src -> wfv F NI NF key -> selects F src key v -> selects F src key w -> v = w.
Proof.
  intros HD src key v w Ws Wk Sv Sw.
  destruct Sv as [l k k' v I V|l k m I V|l i v N]; inversion Sw as [l2 k2 k2' v2 I2 V2 Q1 Q2|l2 k2 m2 I2 V2 Q1 Q2|l2 i2 v2 N2 Q1 Q2]; subst.
  - inversion Ws as [| | | | | | | |ms He Hw Hn]; subst.
    apply in_map_iff in I as ([t x] & Q & I). injection Q as <- <-.
    apply in_map_iff in I2 as ([t2 x2] & Q & I2). injection Q as <- <-. cbn [fst snd] in *.
    assert (Wt : forall t x, In (t, x) ms -> wfv F NI NF (VString t)).
    { intros t' x' I'. rewrite Forall_forall in Hw, He. constructor. first [apply (He (t', x')) | apply (Hw (t', x'))]; auto. }
    assert (K : to_key F (VString t) = to_key F (VString t2)).
    { transitivity (to_key F k); [|symmetry]; apply (veq_key F NI NF HD); eauto. }
    assert (t = t2) as <-.
    { apply (key_veq F NI NF HD) in K; eauto. inversion K as [| | |a b t' Z| | | |]; subst; auto. discriminate Z. }
    clear - Hn I I2. induction ms as [|[t' x'] ms IH]; [destruct I|]. cbn in Hn. inversion Hn as [|? ? H1 H2]; subst.
    destruct I as [I|I], I2 as [I2|I2]; auto.
    + congruence.
    + injection I as -> ->. destruct H1. now apply (in_map fst) in I2.
    + injection I2 as -> ->. destruct H1. now apply (in_map fst) in I.
  - inversion Ws as [| | | | | | |l' Hw Hd|]; subst. rewrite Forall_forall in Hw.
    assert (V3 : to_key F m = to_key F w).
    { transitivity (to_key F k); [|symmetry]; apply (veq_key F NI NF HD); auto. }
    apply in_split in I as (a & b & ->). apply in_app_iff in I2 as [I2|[I2|I2]]; auto.
    + apply in_split in I2 as (c & d & ->). rewrite <- app_assoc in Hd. destruct (Hd c w d m b eq_refl).
      apply (key_veq F NI NF HD); auto; apply Hw; rewrite !in_app_iff; cbn; auto.
    + apply in_split in I2 as (c & d & ->). destruct (Hd a m c w d eq_refl).
      apply (key_veq F NI NF HD); auto; apply Hw; rewrite !in_app_iff; cbn; auto. right. right. rewrite in_app_iff. cbn. auto.
  - apply dec_inj in Q2. assert (i2 = i) by lia. subst. congruence.
Qed.

(** The machine state after an instruction that changes no local: same locals, errors and results. *)
Definition same_store (s s' : state) : Prop :=
  s_frame s' = s_frame s /\ s_errors s' = s_errors s /\ s_results s' = s_results s /\ s_cache s' = s_cache s.
Definition floats_ok (F : fops) (NI NF : str -> Prop) : Prop :=
  forall t u, NI t \/ NF t -> NF t \/ NF u -> NI u \/ NF u -> f_ok F t = true /\ f_ok F u = true.
Definition good (E : env) (NI NF : str -> Prop) (v : option value) : Prop := forall x, v = Some x -> wfv (e_fops E) NI NF x.

(** ** C49 *)
(** The equality test goes on exactly when both operands are defined and are the same value; the inequality test exactly when both
    are defined and are different values.  Neither changes anything. *)
Theorem C49_equality_test : forall E NI NF rb, num_domain (e_fops E) NI NF -> floats_ok (e_fops E) NI NF ->
  forall s i j a b t e, zlen (s_frame s) <= 2 ^ 64 -> s_count s + 1 < e_stmt_limit E ->
  local s i = Some a -> local s j = Some b -> good E NI NF a -> good E NI NF b ->
  (exists c s', run_stmt E rb (Stmt SEqual (loc i) (loc j) t e) s = Done c s' /\ same_store s s' /\
    ((c = CContinue /\ exists x y, a = Some x /\ b = Some y /\ veq (e_fops E) x y) \/
     (c = CUndefined /\ ~ exists x y, a = Some x /\ b = Some y /\ veq (e_fops E) x y))) /\
  (exists c s', run_stmt E rb (Stmt SNotEqual (loc i) (loc j) t e) s = Done c s' /\ same_store s s' /\
    ((c = CContinue /\ exists x y, a = Some x /\ b = Some y /\ ~ veq (e_fops E) x y) \/
     (c = CUndefined /\ ~ exists x y, a = Some x /\ b = Some y /\ ~ veq (e_fops E) x y))).
Proof.
  intros E NI NF rb HD HF s i j a b t e Hlen Hlim Ha Hb Ga Gb. split.
  - destruct (equal_run E NI NF HD HF rb s Hlen Hlim i j a b t e Ha Hb Ga Gb) as (c & R & H).
    exists c. eexists. split; [exact R|]. split; [now repeat split|exact H].
  - destruct (not_equal_run E NI NF HD HF rb s Hlen Hlim i j a b t e Ha Hb Ga Gb) as (c & R & H).
    exists c. eexists. split; [exact R|]. split; [now repeat split|exact H].
Qed.
Definition ops_state : state :=
  set_frame [Some (VInt $"7"); Some (VArray [VNull; VInt $"7"]); None; Some (VInt $"1"); Some (VSet []); Some (VArray [])] (init_state 6).
Example C49_example : num_domain fops0 any_int no_float /\ floats_ok fops0 any_int no_float /\
  (forall i a, local ops_state i = Some a -> good (env0 demo 100) any_int no_float a) /\
  zlen (s_frame ops_state) <= 2 ^ 64 /\ s_count ops_state + 1 < e_stmt_limit (env0 demo 100) /\
  local ops_state 0 = Some (Some (VInt $"7")) /\ local ops_state 2 = Some None.
Proof.
  split; [apply int_domain|]. split; [intros t u _ [[]|[]]|]. split.
  - intros i a H. assert (I : In a (s_frame ops_state)).
    { unfold local, znth in H. destruct (_ && _); [|discriminate]. now apply nth_error_In in H. }
    assert (N7 : wfv fops0 any_int no_float (VInt $"7")) by (constructor; now exists 7).
    assert (N1 : wfv fops0 any_int no_float (VInt $"1")) by (constructor; now exists 1).
    intros x ->. cbn in I. decompose [or] I; try discriminate; try contradiction;
      match goal with H : Some _ = Some _ |- _ => injection H as <- end; auto.
    + apply wf_array. constructor; [constructor|]. constructor; [exact N7 | constructor].
    + constructor; [constructor|]. intros l1 x l2 y l3 Q. destruct l1; discriminate Q.
    + apply wf_array. constructor.
  - repeat split; vm_compute; congruence.
Qed.
Print Assumptions C49_equality_test.

(** ** C50 *)
(** A negated block succeeds exactly when the block is undefined; errors and timeouts of the block come out unchanged, and the
    block's effects are those of running it. *)
Theorem C50_negation : forall E fuel s op0 op1 t b, s_count s + 1 < e_stmt_limit E ->
  forall c s', run_stmt E (run_block E fuel) (Stmt SNot op0 op1 t (Some (ExtBlock b))) s = Done c s' ->
  exists s0 cb, same_store s s0 /\ run_block E fuel b s0 = Done cb s' /\
    (c = CContinue <-> cb = CUndefined) /\
    (c = CError <-> cb = CError) /\ (c = CTimeout <-> cb = CTimeout) /\
    (c = CContinue \/ c = CUndefined \/ c = CError \/ c = CTimeout).
Proof.
  intros E fuel s op0 op1 t b Hlim c s' H.
  pose proof (not_run E (run_block E fuel) s Hlim op0 op1 t b) as N.
  exists (after s (Stmt SNot op0 op1 t (Some (ExtBlock b)))).
  destruct (run_block E fuel b (after s (Stmt SNot op0 op1 t (Some (ExtBlock b))))) as [cb s1|s1|s1|s1] eqn:R.
  - rewrite (N cb s1 eq_refl) in H. injection H as <- <-. exists cb. split; [now repeat split|]. split; [reflexivity|].
    destruct cb; cbn; intuition discriminate.
  - rewrite run_stmt_eq in H by auto. cbn [dispatch ext_block] in H. unfold bind, ret in H. unfold after in R. rewrite R in H. discriminate.
  - rewrite run_stmt_eq in H by auto. cbn [dispatch ext_block] in H. unfold bind, ret in H. unfold after in R. rewrite R in H. discriminate.
  - rewrite run_stmt_eq in H by auto. cbn [dispatch ext_block] in H. unfold bind, ret in H. unfold after in R. rewrite R in H. discriminate.
Qed.
Example C50_example :
  let run ty := run_stmt (env0 demo 100) (run_block (env0 demo 100) 3)
    (Stmt SNot no_op no_op 0 (Some (ExtBlock [Stmt ty (loc 1) no_op 1 None]))) ops_state in
  (exists s, run SIsArray = Done CUndefined s) /\ (exists s, run SIsObject = Done CContinue s).
Proof. cbn zeta. split; eexists; vm_compute; reflexivity. Qed.
Print Assumptions C50_negation.

(** ** C51 *)
(** Indexing: the result is the value stored under the key (object), the member itself (set) or the element at the index (array),
    with value equality as the notion of "the same key"; it is undefined exactly when there is none. *)
Theorem C51_indexing : forall E NI NF rb, num_domain (e_fops E) NI NF -> floats_ok (e_fops E) NI NF ->
  forall s i j target a b e old, zlen (s_frame s) <= 2 ^ 64 -> s_count s + 1 < e_stmt_limit E ->
  local s i = Some a -> local s j = Some b -> local s target = Some old -> good E NI NF a -> good E NI NF b ->
  (forall t, b <> Some (VFloat t)) -> (forall l, a = Some (VArray l) -> zlen l <= 2 ^ 32) ->
  exists c s', run_stmt E rb (Stmt SDot (loc i) (loc j) target e) s = Done c s' /\ s_errors s' = s_errors s /\
    ((c = CContinue /\ exists x y v, a = Some x /\ b = Some y /\ selects (e_fops E) x y v /\ local s' target = Some (Some v) /\
        forall n, n <> target -> local s' n = local s n) \/
     (c = CUndefined /\ (forall n, local s' n = local s n) /\
        ~ exists x y v, a = Some x /\ b = Some y /\ selects (e_fops E) x y v)).
Proof.
  intros E NI NF rb HD HF s i j target a b e old Hlen Hlim Ha Hb Ht Ga Gb Nf La.
  now apply (dot_run E NI NF HD rb s Hlen Hlim i j target a b e old).
Qed.
(** At most one value can be selected (up to equality of values in sets: the member found is the only one equal to the key). *)
Theorem C51_indexing_is_deterministic : forall F NI NF, num_domain F NI NF -> forall src key v w,
  wfv F NI NF src -> wfv F NI NF key -> selects F src key v -> selects F src key w -> v = w.
Proof. exact selects_fun. Qed.
Example C51_example :
  selects fops0 (VArray [VNull; VInt $"7"]) (VInt $"1") (VInt $"7") /\
  exists s, run_stmt (env0 demo 100) (run_block (env0 demo 100) 3) (Stmt SDot (loc 1) (loc 3) 2 None) ops_state = Done CContinue s /\
    local s 2 = Some (Some (VInt $"7")).
Proof.
  split; [exact (sel_array fops0 [VNull; VInt $"7"] 1 (VInt $"7") eq_refl)|]. eexists. split; vm_compute; reflexivity.
Qed.
Print Assumptions C51_indexing. Print Assumptions C51_indexing_is_deterministic.

(** ** C52 *)
(** Appending the values of several locals to an empty array gives exactly those values in that order; adding them to an empty set
    gives every value once; the length instruction counts the elements. *)
Theorem C52_building : forall E NI NF rb, num_domain (e_fops E) NI NF -> forall target srcs vs s,
  zlen (s_frame s) <= 2 ^ 64 -> s_count s + zlen srcs < e_stmt_limit E ->
  Forall2 (fun i x => i <> target /\ local s i = Some (Some x)) srcs vs -> Forall (wfv (e_fops E) NI NF) vs ->
  (local s target = Some (Some (VArray [])) ->
   exists s', run_stmts E rb (map (fun i => Stmt SArrayAppend (loc i) no_op target None) srcs) CContinue s = Done CContinue s' /\
     local s' target = Some (Some (VArray vs)) /\ s_errors s' = s_errors s) /\
  (local s target = Some (Some (VSet [])) ->
   exists s' l, run_stmts E rb (map (fun i => Stmt SSetAdd (loc i) no_op target None) srcs) CContinue s = Done CContinue s' /\
     local s' target = Some (Some (VSet l)) /\ set_of_values (e_fops E) vs l /\ s_errors s' = s_errors s).
Proof.
  intros E NI NF rb HD target srcs vs s Hlen Hlim Hv Wv. split; intro Ht.
  - exact (appends_run E rb target srcs vs s [] Hlen Hv Ht Hlim).
  - destruct (set_adds_run E NI NF HD rb target srcs vs [] s [] Hlen Hv Wv (Forall_nil _)) as (s' & l & H); auto.
    + split; [intros x []|]. split; [intros x []|]. intros l1 x l2 y l3 Q. destruct l1; discriminate Q.
    + exists s', l. exact H.
Qed.
Theorem C52_length : forall E rb s i a target e old,
  zlen (s_frame s) <= 2 ^ 64 -> s_count s + 1 < e_stmt_limit E ->
  local s i = Some (Some a) -> local s target = Some old ->
  exists s', run_stmt E rb (Stmt SLen (loc i) no_op target e) s = Done CContinue s' /\
    (forall l, a = VArray l \/ a = VSet l -> local s' target = Some (Some (VInt (dec (Z.of_nat (length l)))))) /\
    (forall l, a = VObject l -> local s' target = Some (Some (VInt (dec (Z.of_nat (length l)))))) /\
    (forall n, n <> target -> local s' n = local s n) /\ s_errors s' = s_errors s.
Proof.
  intros E rb s i a target e old Hlen Hlim Ha Ht.
  destruct (len_run E rb s Hlen Hlim i a target e old Ha Ht) as (s' & R & L & O & Er).
  exists s'. split; auto. split; [|split]; auto.
  - intros l [-> | ->]; exact L.
  - intros l ->. exact L.
Qed.
Example C52_example :
  Forall2 (fun i x => i <> 4 /\ local ops_state i = Some (Some x)) [3; 0; 3] [VInt $"1"; VInt $"7"; VInt $"1"] /\
  (exists s, run_stmts (env0 demo 100) (run_block (env0 demo 100) 3)
     (map (fun i => Stmt SSetAdd (loc i) no_op 4 None) [3; 0; 3]) CContinue ops_state = Done CContinue s /\
     local s 4 = Some (Some (VSet [VInt $"1"; VInt $"7"]))).
Proof. split; [repeat constructor; lia|]. eexists. split; vm_compute; reflexivity. Qed.
Print Assumptions C52_building. Print Assumptions C52_length.

(** ** C53 *)
(** The type and definedness tests change nothing and go on exactly when the local holds such a value. *)
Theorem C53_tests : forall E rb s i a t e, zlen (s_frame s) <= 2 ^ 64 -> s_count s + 1 < e_stmt_limit E -> local s i = Some a ->
  let outcome st (P : Prop) := exists c s', run_stmt E rb st s = Done c s' /\ same_store s s' /\
    ((c = CContinue /\ P) \/ (c = CUndefined /\ ~ P)) in
  outcome (Stmt SIsArray (loc i) no_op t e) (exists l, a = Some (VArray l)) /\
  outcome (Stmt SIsObject (loc i) no_op t e) (exists l, a = Some (VObject l)) /\
  outcome (Stmt SIsSet (loc i) no_op t e) (exists l, a = Some (VSet l)) /\
  outcome (Stmt SIsDefined no_op no_op i e) (exists x, a = Some x) /\
  outcome (Stmt SIsUndefined no_op no_op i e) (a = None).
Proof.
  intros E rb s i a t e Hlen Hlim Ha outcome.
  assert (K : forall ty, In ty [SIsArray; SIsObject; SIsSet] -> forall P : Prop, (is_kind ty a <-> P) ->
    outcome (Stmt ty (loc i) no_op t e) P).
  { intros ty T P HP. destruct (kind_run E rb s Hlen Hlim ty i a t e T Ha) as (c & R & H).
    exists c. eexists. split; [exact R|]. split; [now repeat split|]. rewrite HP in H. exact H. }
  destruct (defined_run E rb s Hlim i a no_op no_op e Ha) as [D1 D2].
  split; [|split; [|split; [|split]]].
  - apply K; [now left|]. destruct a as [[]|]; cbn; split; intro H; try contradiction; try (destruct H as [l' Q]; discriminate Q); eauto.
  - apply K; [right; now left|]. destruct a as [[]|]; cbn; split; intro H; try contradiction; try (destruct H as [l' Q]; discriminate Q); eauto.
  - apply K; [right; right; now left|]. destruct a as [[]|]; cbn; split; intro H; try contradiction; try (destruct H as [l' Q]; discriminate Q); eauto.
  - eexists _, _. split; [exact D1|]. split; [now repeat split|]. destruct a; [left; eauto|right; split; auto]. intros [x Q]. discriminate Q.
  - eexists _, _. split; [exact D2|]. split; [now repeat split|]. destruct a; [right; split; auto|left; auto]. discriminate.
Qed.
Example C53_example : exists s, run_stmt (env0 demo 100) (run_block (env0 demo 100) 3) (Stmt SIsSet (loc 4) no_op 0 None) ops_state = Done CContinue s.
Proof. eexists. vm_compute. reflexivity. Qed.
Print Assumptions C53_tests.
