(** The compiled definitions of an object rule with one variable key. *)
From Coq Require Import String ZArith List Bool Lia.
From Verif Require Import Base SMap ValueModel ValueSpec ResolverModel VmModel VmSpec VmProofs VmSimProofs VmStmtProofs PlanModel PlanSpec PlanProofs
  RuleModel RuleSpec RuleVmProofs RuleVisitProofs RuleProofs RuleCompleteProofs RuleFnProofs.
From Verif Require TermSpec.
Import ListNotations.
Local Open Scope Z_scope.

(** ** Inserting in an object *)
Section Inserted.
Variable E : env.
Notation key := (to_key (e_fops E)).
Definition both (p : value * value) : str * str := (key (fst p), key (snd p)).
Definition holds (kvs l : list (value * value)) : Prop :=
  (forall x, In x (map both l) <-> In x (map both kvs)) /\ NoDup (map fst (map both l)).
Lemma holds_object kvs l : holds kvs l -> object_of E kvs l.
Proof.
  intros [H N]. split; [|split].
  - intros p I. assert (G : In (both p) (map both l)) by (apply H, in_map, I). apply in_map_iff in G as (q & Q & J). exists q.
    split; [exact J|]. injection Q as Q1 Q2. split; symmetry; assumption.
  - intros q I. assert (G : In (both q) (map both kvs)) by (apply H, in_map, I). apply in_map_iff in G as (p & Q & J). exists p.
    split; [exact J|]. injection Q as Q1 Q2. split; assumption.
  - intros l1 a l2 b l3 -> S. rewrite !map_app in N. cbn in N. rewrite !map_app in N. cbn in N.
    apply NoDup_remove_2 in N. apply N. apply in_or_app. right. apply in_or_app. right. left. symmetry. exact S.
Qed.
Lemma found_none k l : find_item E k l = None -> ~ In k (map fst (map both l)).
Proof.
  induction l as [|[k' v] l IH]; cbn [find_item map]; intros H I; [exact I|].
  destruct (str_eqb (to_key (e_fops E) k') k) eqn:K; [discriminate|]. destruct I as [I|I]; [|exact (IH H I)].
  cbn in I. rewrite I, str_eqb_refl in K. discriminate.
Qed.
Lemma found_some k v old l : find_item E k l = Some old -> key v = key old -> In (k, key v) (map both l) /\
  exists l', replace_item E k v l = Some l' /\ map both l' = map both l.
Proof.
  intros H HV. induction l as [|[k' u] l IH]; cbn [find_item replace_item map] in *; [discriminate|].
  destruct (str_eqb (to_key (e_fops E) k') k) eqn:K.
  - injection H as ->. apply str_eqb_eq in K. subst k. rewrite str_eqb_refl. split; [left; unfold both; cbn; rewrite HV; reflexivity|].
    eexists. split; [reflexivity|]. cbn [map]. f_equal. unfold both. cbn. now rewrite HV.
  - destruct (IH H) as (I & l' & R & M). split; [now right|].
    destruct (str_eqb k (to_key (e_fops E) k')) eqn:K2.
    { apply str_eqb_eq in K2. subst. rewrite str_eqb_refl in K. discriminate. }
    rewrite R. eexists. split; [reflexivity|]. cbn [map]. now rewrite M.
Qed.
Lemma insert_holds kvs l k v o : holds kvs l -> insert_into_object E (Some (VObject l)) (Some k) (Some v) true = Some o ->
  exists l', o = VObject l' /\ holds (kvs ++ [(k, v)]) l'.
Proof.
  intros [H N]. unfold insert_into_object. cbn [node_key to_term]. destruct (find_item E (key k) l) as [old|] eqn:FI.
  - cbn [andb]. destruct (str_eqb (key old) (key v)) eqn:K; [|discriminate]. cbn [negb]. apply str_eqb_eq in K.
    destruct (found_some _ v _ _ FI (eq_sym K)) as (I & l' & -> & M). intros [= <-]. exists l'. split; [reflexivity|].
    unfold holds. rewrite M. split; [|exact N]. intro x. rewrite map_app, in_app_iff. cbn. rewrite <- H. split; [now left|]. intros [J|[<-|[]]]; [exact J|exact I].
  - intros [= <-]. eexists. split; [reflexivity|]. apply found_none in FI. split.
    + intro x. rewrite !map_app, !in_app_iff, H. reflexivity.
    + rewrite !map_app. cbn [map fst both snd]. pose proof (Add_app (key k) (map fst (map both l)) []) as A.
      rewrite app_nil_r in A. apply (NoDup_Add A). auto.
Qed.
Lemma insert_object l k v once o : insert_into_object E (Some (VObject l)) k v once = Some o -> exists l', o = VObject l'.
Proof.
  unfold insert_into_object. destruct (find_item E _ l); [|intros [= <-]; eauto].
  destruct (_ && _); [discriminate|]. destruct (replace_item E _ _ l); [|discriminate]. intros [= <-]. eauto.
Qed.
(** The items in the order they came in. *)
Notation gather := (fold_left (fun o kv => TermSpec.put_item (e_fops E) o (fst kv) (snd kv))).
Definition items_of (kvs l : list (value * value)) : Prop := holds kvs l /\ l = gather kvs [].
Lemma insert_gather l k v once o : insert_into_object E (Some (VObject l)) (Some k) (Some v) once = Some o -> o = VObject (TermSpec.put_item (e_fops E) l k v).
Proof.
  unfold insert_into_object. cbn [node_key to_term].
  assert (G : match find_item E (key k) l with
     | Some _ => replace_item E (key k) v l = Some (TermSpec.put_item (e_fops E) l k v)
     | None => l ++ [(k, v)] = TermSpec.put_item (e_fops E) l k v end).
  { clear. induction l as [|[k' v'] l IH]; cbn [find_item replace_item TermSpec.put_item app]; [reflexivity|].
    unfold TermSpec.same. destruct (str_eqb (key k') (key k)) eqn:K.
    - apply str_eqb_eq in K. rewrite K, str_eqb_refl. reflexivity.
    - destruct (str_eqb (key k) (key k')) eqn:K2; [apply str_eqb_eq in K2; rewrite K2, str_eqb_refl in K; discriminate|].
      destruct (find_item E (key k) l); rewrite IH; reflexivity. }
  destruct (find_item E (key k) l); [|rewrite G; now intros [= <-]]. destruct (_ && _); [discriminate|]. rewrite G. now intros [= <-].
Qed.
Lemma insert_items kvs l k v o : items_of kvs l -> insert_into_object E (Some (VObject l)) (Some k) (Some v) true = Some o ->
  exists l', o = VObject l' /\ items_of (kvs ++ [(k, v)]) l'.
Proof.
  intros [A B] H. destruct (insert_holds _ _ _ _ _ A H) as (l' & -> & HH). exists l'. split; [reflexivity|]. split; [exact HH|].
  apply insert_gather in H. injection H as ->. rewrite fold_left_app, <- B. reflexivity.
Qed.
(** The content of the local from visit to visit. *)
Definition inserts (k v : op Z Z) (cur : option value) (t : state) (cur' : option value) : Prop :=
  forall kvs l a b, cur = Some (VObject l) -> items_of kvs l -> value_at E t k = Some a -> value_at E t v = Some b ->
  exists l', cur' = Some (VObject l') /\ items_of (kvs ++ [(a, b)]) l'.
Lemma chain_inserts k v cur ts cur' : chain (inserts k v) cur ts cur' -> forall ps kvs l,
  map (fun t => (value_at E t k, value_at E t v)) ts = map (fun p => (Some (fst p), Some (snd p))) ps ->
  cur = Some (VObject l) -> items_of kvs l -> exists l', cur' = Some (VObject l') /\ items_of (kvs ++ ps) l'.
Proof.
  induction 1 as [a|a t a1 ts a' HR HC IH]; intros ps kvs l HM HL HS.
  - destruct ps; [|discriminate]. exists l. rewrite app_nil_r. auto.
  - destruct ps as [|[x y] ps]; [discriminate|]. cbn [map fst snd] in HM. injection HM as H1 H2 HM.
    destruct (HR kvs l x y HL HS H1 H2) as (l1 & H3 & H4). destruct (IH ps _ l1 HM H3 H4) as (l' & H5 & H6).
    exists l'. rewrite <- app_assoc in H6. auto.
Qed.
End Inserted.

Section Objects.
Variable E : env.
Variable fn : str.
Variable n : Z.
Hypothesis NR : n <= 2 ^ 64.
Variables rho sigma : str -> Z.
Notation img := (img rho sigma).
Notation iop := (iop rho sigma).
Notation says_list := (opt_list says).
Notation finds := (finds E rho sigma).
Notation all_found := (all_found E rho sigma).

Lemma run_insert rb st k v x s c s' l : says st = Some (IObjectInsertOnce k v x) ->
  Forall (fun x => 0 <= x < n) (op_local k) -> Forall (fun x => 0 <= x < n) (op_local v) ->
  run_stmt E rb st s = Done c s' -> good c -> local s x = Some (Some (VObject l)) ->
  s_stack s' = s_stack s /\ exists l', local s' x = Some (Some (VObject l')) /\
    inserts E k v (Some (VObject l)) s (Some (VObject l')).
Proof.
  intros Hs HF1 HF2 H Hc L. apply says_leaf in Hs as (a & b & -> & Ha & Hb). apply run_stmt_inv in H as [_ H]; [|now apply good_not_timeout].
  cbn [dispatch] in H.
  unfold bind at 1 in H. destruct (unpack_operand E a _) as [kv s1|s1|f s1|s1] eqn:Eu; try discriminate.
  apply (unpack_value E n NR _ _ _ _ _ Ha HF1) in Eu as [-> Ev]. change (value_at E (started _ s) k) with (value_at E s k) in Ev.
  unfold bind at 1 in H. destruct (unpack_operand E b _) as [vv s1|s1|f s1|s1] eqn:Eu; try discriminate.
  apply (unpack_value E n NR _ _ _ _ _ Hb HF2) in Eu as [-> Ew]. change (value_at E (started _ s) v) with (value_at E s v) in Ew.
  unfold bind at 1 in H. destruct (read_local x _) as [y s1|s1|f s1|s1] eqn:Er; try discriminate.
  apply read_inv in Er as [-> Er]. change (local (started _ s) x) with (local s x) in Er. rewrite L in Er. injection Er as <-.
  destruct (insert_into_object E (Some (VObject l)) kv vv true) as [o|] eqn:EI.
  - destruct (insert_object _ _ _ _ _ _ EI) as (l' & ->).
    unfold bind at 1 in H. destruct (write_local x _ _) as [w s1|s1|f s1|s1] eqn:Ewr; try discriminate. apply write_inv in Ewr as [R ->].
    cbn in H. injection H as <- <-. split; [reflexivity|]. exists l'.
    split; [exact (local_set_same (started (Stmt SObjectInsertOnce a b x None) s) x (Some (VObject l')) R)|].
    intros kvs l0 ka vb [= <-] HH Hk Hv. subst kv vv. rewrite Hk, Hv in EI.
    destruct (insert_items _ _ _ _ _ _ HH EI) as (l2 & Q & HH2). injection Q as <-. eauto.
  - unfold bind, add_error in H. cbn in H. injection H as <- <-. destruct Hc; discriminate.
Qed.

Definition placed_pair (x : str) (q : pair_query) : Prop :=
  let '(k, v, code) := q in
  in_frame n (img code) /\ in_frame n (img [IObjectInsertOnce k v x]) /\ ~ In (rho x) (flat_map subjects (img code)).

Lemma finds_insert y q s kvs s' : finds y q s kvs s' -> In fn (s_stack s) -> private E fn n (rho y) -> placed_pair y q ->
  forall l, local s (rho y) = Some (Some (VObject l)) ->
  In fn (s_stack s') /\ exists l', local s' (rho y) = Some (Some (VObject l')) /\
    forall ps kvs0, kvs = map (fun p => (Some (fst p), Some (snd p))) ps -> items_of E kvs0 l -> items_of E (kvs0 ++ ps) l'.
Proof.
  destruct q as [[k v] code]. intros (m & kc & b & ts & c & s0 & s1 & H1 & H2 & Q0 & V & Q1 & ->) I P (HF & HT & HS) l L.
  assert (I0 : In fn (s_stack s0)) by (rewrite (quiet_stack _ _ _ Q0); auto).
  assert (L0 : local s0 (rho y) = Some (Some (VObject l))) by (rewrite (quiet_all _ _ _ Q0); auto).
  unfold in_frame in HT. cbn in HT. rewrite app_nil_r in HT. apply Forall_app in HT as [HT1 HT]. apply Forall_app in HT as [HT2 _].
  cbn [RuleSpec.img map map_ir] in H1. apply opt_out in H1 as (st & l' & -> & Hst & Hn). apply opt_nil in Hn as ->.
  destruct (visits_fold_all E fn (rho y) n P NR [st] (fun a => exists l, a = Some (VObject l)) (inserts E (iop k) (iop v))) as [G _].
  - intros m' t c' t' cur0 HR Hc It Lt (l0 & ->). apply one_stmt in HR; [|exact Hc].
    destruct (run_insert _ _ _ _ _ _ _ _ l0 Hst HT1 HT2 HR Hc Lt) as (A & l1 & B & C).
    exists (Some (VObject l1)). rewrite A. split; [auto|]. split; [auto|]. split; eauto.
  - destruct (G _ _ _ _ _ _ V ltac:(exists (img code); auto) _ I0 L0 ltac:(eauto)) as (cur' & I1 & L1 & (l' & ->) & C).
    rewrite (quiet_stack _ _ _ Q1), (quiet_all _ _ _ Q1). split; [exact I1|]. exists l'. split; [exact L1|].
    intros ps kvs0 HM HH. destruct (chain_inserts _ _ _ _ _ _ C ps kvs0 l HM eq_refl HH) as (l2 & [= <-] & HH2). exact HH2.
Qed.

(** ** All definitions *)
Lemma finds_quiet y q s s1 kvs s2 s' : quiet [] s s1 -> finds y q s1 kvs s2 -> quiet [] s2 s' -> finds y q s kvs s'.
Proof.
  destruct q as [[k v] code]. intros Q1 (m & kc & b & ts & c & t0 & t1 & H1 & H2 & Q0 & V & Q2 & H3) Q3.
  exists m, kc, b, ts, c, t0, t1. repeat split; auto; [eapply quiet_trans; eauto..].
Qed.
Lemma found_quiet y qs s s1 kvs s' : quiet [] s s1 -> all_found y qs s1 kvs s' -> all_found y qs s kvs s'.
Proof.
  intros Q H. destruct H.
  - apply af_end. eapply quiet_trans; eauto.
  - eapply af_find; [|eassumption]. eapply finds_quiet; [exact Q|eassumption|apply quiet_refl].
Qed.
Lemma found_app y q1 q2 s kvs s1 kvs' s' : all_found y q1 s kvs s1 -> all_found y q2 s1 kvs' s' ->
  all_found y (q1 ++ q2) s (kvs ++ kvs') s'.
Proof.
  intros H G. induction H; cbn [app].
  - eapply found_quiet; eauto.
  - rewrite <- app_assoc. eapply af_find; eauto.
Qed.
Lemma found_end y qs s kvs s1 s' : all_found y qs s kvs s1 -> quiet [] s1 s' -> all_found y qs s kvs s'.
Proof. intros H Q. rewrite <- (app_nil_r qs), <- (app_nil_r kvs). eapply found_app; eauto. now apply af_end. Qed.

Lemma map_split {A B} (f : A -> B) : forall l1 l2 l, l1 ++ l2 = map f l -> exists a b, l = a ++ b /\ l1 = map f a /\ l2 = map f b.
Proof.
  induction l1 as [|x l1 IH]; intros l2 l H; [exists [], l; auto|]. destruct l as [|y l]; [discriminate|]. injection H as -> H.
  destruct (IH _ _ H) as (a & b & -> & -> & ->). exists (y :: a), b. auto.
Qed.
Lemma all_insert y qs s kvs s' : all_found y qs s kvs s' -> private E fn n (rho y) -> Forall (placed_pair y) qs ->
  forall l, In fn (s_stack s) -> local s (rho y) = Some (Some (VObject l)) ->
  In fn (s_stack s') /\ exists l', local s' (rho y) = Some (Some (VObject l')) /\
    forall ps kvs0, kvs = map (fun p => (Some (fst p), Some (snd p))) ps -> items_of E kvs0 l -> items_of E (kvs0 ++ ps) l'.
Proof.
  intros H P. induction H as [s s' Q|q qs s kvs s1 kvs' s' A H IH]; intros HO l I L.
  - rewrite (quiet_stack _ _ _ Q), (quiet_all _ _ _ Q). split; [exact I|]. exists l. split; [exact L|].
    intros ps kvs0 HM HH. destruct ps; [|discriminate]. now rewrite app_nil_r.
  - inversion HO as [|? ? HO1 HO2]; subst.
    destruct (finds_insert _ _ _ _ _ A I P HO1 l L) as (I1 & l1 & L1 & S1).
    destruct (IH HO2 l1 I1 L1) as (I2 & l2 & L2 & S2). split; [exact I2|]. exists l2. split; [exact L2|].
    intros ps kvs0 HM HH. apply map_split in HM as (a & b & -> & Ha & Hb). rewrite app_assoc. apply S2; auto.
Qed.

Definition pairs_of (k : opblock) (i : instance) (bs : list (list nir)) : list pair_query :=
  map (fun q => (ob_op k, ob_op (in_value i), ob_code (in_value i) ++ ob_code k ++ q)) bs.
Lemma find_block y k v code m b s c s' : says_list b = Some (img (append_inner code [IObjectInsertOnce k v y])) ->
  run_block E m b s = Done c s' -> good c -> exists kvs, finds y (k, v, code) s kvs s'.
Proof.
  intros H HR Hc. apply block_inv in HR as (m' & s1 & -> & HR & ->); [|exact Hc].
  rewrite img_append in H. apply splits_all in H as (sb & sk & H1 & H2 & X).
  destruct (visits_run E sk m' sb b _ c s1 X Hc HR) as (ts & V). eexists.
  exists m', sk, sb, ts, c, (add_depth 1 s), s1. repeat (split; [first [eassumption|apply quiet_depth|repeat split]|]). reflexivity.
Qed.
Lemma obj_blocks_run fresh nb m k i y : forall blocks j bs s c s',
  opt_list says_list bs = Some (map img (dynamic_blocks (fun j => insert_path fresh nb j 0 y [k] (ob_op (in_value i))) j [k] (in_value i) blocks)) ->
  block_stmt (run_block E m) bs s = Done c s' -> good c -> exists kvs, all_found y (pairs_of k i blocks) s kvs s'.
Proof.
  induction blocks as [|b blocks IH]; intros j bs s c s' H HR Hc.
  - apply opt_nil in H as ->. injection HR as <- <-. exists []. apply af_end, quiet_refl.
  - cbn [dynamic_blocks map] in H. apply opt_out in H as (b0 & bs0 & -> & H1 & H2).
    apply block_stmt_inv in HR as (c1 & s1 & R1 & Hc1 & R2); [|exact Hc]. destruct (IH _ _ _ _ _ H2 R2 Hc) as (vs & G).
    cbn [insert_path flat_map] in H1. rewrite app_nil_r in H1.
    destruct (find_block _ _ _ _ _ _ _ _ _ H1 R1 Hc1) as (ws & A).
    exists (ws ++ vs). cbn [pairs_of map]. eapply af_find; eauto.
Qed.
Lemma obj_body_run fresh nb m k i y L b s c s' :
  dynamic_block (fun j => insert_path fresh nb j 0 y [k] (ob_op (in_value i))) [k] i = Some L -> says_list b = Some (img L) ->
  run_block E m b s = Done c s' -> good c -> exists kvs, all_found y (pairs_of k i (in_blocks i)) s kvs s'.
Proof.
  unfold dynamic_block. destruct (in_blocks i) as [|b0 bs]; [discriminate|]. intros [= <-] H HR Hc.
  apply block_inv in HR as (m' & s1 & -> & HR & ->); [|exact Hc].
  cbn [RuleSpec.img map map_ir] in H.
  apply opt_out in H as (st & l' & -> & Hst & Hl). apply opt_nil in Hl as ->.
  apply one_stmt in HR; [|exact Hc]. apply (run_blockst E _ _ _ _ _ _ Hst) in HR as (bs' & Hbs & HB); [|now apply good_not_timeout].
  destruct (obj_blocks_run fresh nb m' k i y (b0 :: bs) 0 bs' _ c s1 Hbs HB Hc) as (kvs & A). exists kvs.
  eapply found_quiet; [|eapply found_end; [exact A|apply quiet_depth]]. repeat split.
Qed.
Lemma dynamic_in tail path value b : forall bs j, In b bs -> exists j', In (append_inner (ob_code value ++ flat_map ob_code path ++ b) (tail j'))
  (dynamic_blocks tail j path value bs).
Proof.
  induction bs as [|b0 bs IH]; intros j I; [destruct I|]. cbn [dynamic_blocks]. destruct I as [->|I]; [exists j; now left|].
  destruct (IH (S j) I) as (j' & G). exists j'. now right.
Qed.
Lemma obj_placed fresh nb k i y L : dynamic_block (fun j => insert_path fresh nb j 0 y [k] (ob_op (in_value i))) [k] i = Some L ->
  in_frame n (img L) -> ~ In (rho y) (flat_map subjects (img (body_code (BObjDynamic [k] i)))) ->
  Forall (placed_pair y) (pairs_of k i (in_blocks i)).
Proof.
  unfold dynamic_block. intros H HF HN. apply Forall_forall. intros q I. unfold pairs_of in I. apply in_map_iff in I as (b & <- & I).
  destruct (in_blocks i) as [|b0 bs] eqn:EB; [destruct I|]. injection H as <-. apply in_frame_block in HF. rewrite Forall_forall in HF.
  destruct (dynamic_in (fun j => insert_path fresh nb j 0 y [k] (ob_op (in_value i))) [k] (in_value i) b (b0 :: bs) 0%nat I) as (j' & G).
  specialize (HF _ G). cbn [insert_path flat_map] in HF. rewrite app_nil_r in HF. rewrite img_append in HF. apply in_frame_append in HF as [F1 F2].
  split; [exact F1|]. split; [exact F2|]. intro X. apply HN. eapply in_subjects; [|exact X]. intros st J.
  cbn [body_code flat_map]. rewrite app_nil_r. unfold inst_code. rewrite EB.
  apply in_app_iff in J as [J|J]; [|apply in_app_iff in J as [J|J]]; apply in_or_app; [right; apply in_or_app; auto|auto|].
  right. apply in_or_app. right. apply in_concat. eauto.
Qed.
Lemma obj_leaves fresh nb k i y L : dynamic_block (fun j => insert_path fresh nb j 0 y [k] (ob_op (in_value i))) [k] i = Some L ->
  existsb leaves (body_code (BObjDynamic [k] i)) = false -> existsb leaves L = false.
Proof.
  intros H HL. cbn [body_code flat_map] in HL. rewrite app_nil_r, existsb_app in HL. apply orb_false_iff in HL as [HK HL].
  apply leaves_inst in HL as [H1 H2]. unfold dynamic_block in H. destruct (in_blocks i) as [|b0 bs] eqn:EB; [discriminate|].
  injection H as <-. clear EB.
  assert (G : forall j, existsb (existsb leaves) (dynamic_blocks (fun j => insert_path fresh nb j 0 y [k] (ob_op (in_value i))) j [k] (in_value i) (b0 :: bs)) = false);
    [|change (existsb (existsb leaves) (dynamic_blocks (fun j => insert_path fresh nb j 0 y [k] (ob_op (in_value i))) 0 [k] (in_value i) (b0 :: bs)) || false = false);
      rewrite orb_false_r; exact (G 0%nat)].
  induction H2 as [|b l Hb _ IH]; intro j; [reflexivity|]. cbn [dynamic_blocks existsb]. apply orb_false_iff. split; [|apply IH].
  rewrite leaves_append, !existsb_app. cbn [flat_map insert_path existsb leaves]. rewrite app_nil_r.
  repeat (apply orb_false_iff; split); auto.
Qed.

Variable fresh : nat -> nat -> nat -> str.
Variables prefix ret : str.
Variable m : nat.
Notation runs := (run_blocks (run_block E m)).
Lemma objects_bodies : forall l k blocks d seen bs rest c0 s c s',
  Forall (fun b => match b with BObjDynamic [_] _ => True | _ => False end) l ->
  lower_bodies fresh k prefix seen None ret l = Some (blocks, d) ->
  opt_list says_list bs = Some (map img blocks) -> Forall (fun b => in_frame n (img b)) blocks ->
  existsb leaves (flat_map body_code l) = false -> ~ In (rho ret) (flat_map subjects (img (flat_map body_code l))) -> good c0 ->
  runs (bs ++ rest) c0 s = Done c s' -> ends c -> s_count s' < e_stmt_limit E ->
  d = None /\ Forall (placed_pair ret) (object_queries l) /\
  exists kvs s1 c1, all_found ret (object_queries l) s kvs s1 /\ good c1 /\ runs rest c1 s1 = Done c s'.
Proof.
  induction l as [|b l IH]; intros k blocks d seen bs rest c0 s c s' HC HL HB HF HN HS Hg HR He Hc.
  - injection HL as <- <-. apply opt_nil in HB as ->. split; [reflexivity|]. split; [constructor|]. exists [], s, c0.
    split; [apply af_end, quiet_refl|]. auto.
  - inversion HC as [|? ? HC1 HC2]; subst. cbn [flat_map] in HN, HS. rewrite existsb_app in HN. apply orb_false_iff in HN as [HN1 HN2].
    destruct b as [| | | |path i| |]; try contradiction. destruct path as [|kb [|]]; try contradiction. cbn [lower_bodies] in HL. cbv zeta in HL.
    destruct (dynamic_block _ _ i) as [L|] eqn:EB; [|discriminate].
    destruct (lower_bodies fresh (S k) prefix seen None ret l) as [[r d']|] eqn:ER; [|discriminate].
    injection HL as <- <-. cbn [app map] in HB. apply opt_out in HB as (b0 & bs0 & -> & H1 & H2).
    cbn [app] in HF. inversion HF as [|? ? HF1 HF2]; subst. cbn [app] in HR.
    assert (ST : stays b0) by (eapply stays_says; [exact H1|eapply obj_leaves; eauto]).
    destruct (next_block _ _ _ _ _ _ _ _ HR He Hc ST) as (c1 & s1 & R1 & G1 & R2).
    destruct (obj_body_run _ _ _ _ _ _ _ _ _ _ _ EB H1 R1 G1) as (ws & A1).
    assert (HS2 : ~ In (rho ret) (flat_map subjects (img (flat_map body_code l)))).
    { intro X. apply HS. eapply in_subjects; [|exact X]. intros st J. apply in_or_app. auto. }
    destruct (IH _ _ _ _ _ _ _ _ _ _ HC2 ER H2 HF2 HN2 HS2 G1 R2 He Hc) as (-> & PL & vs & s2 & c2 & A2 & G2 & R3).
    split; [reflexivity|]. split.
    + unfold object_queries. cbn [flat_map]. apply Forall_app. split; [|exact PL]. eapply obj_placed; eauto.
      intro X. apply HS. eapply in_subjects; [|exact X]. intros st J. apply in_or_app. auto.
    + exists (ws ++ vs), s2, c2. split; [unfold object_queries; cbn [flat_map]; eapply found_app; eauto|]. auto.
Qed.

Lemma run_makeobject rb st x s c s' : says st = Some (IMakeObject x) -> run_stmt E rb st s = Done c s' -> c <> CTimeout ->
  c = CContinue /\ 0 <= x < zlen (s_frame s) /\ s' = put x (Some (VObject [])) (started st s).
Proof.
  intros Hs H Hc. apply says_leaf in Hs as (a & b & ->). apply run_stmt_inv in H as [_ H]; [|exact Hc].
  cbn [dispatch] in H. unfold bind at 1 in H.
  destruct (write_local x _ _) as [v s1|s1|f s1|s1] eqn:Er; try discriminate. apply write_inv in Er as [R ->].
  cbn in H. injection H as <- <-. auto.
Qed.
Lemma make_block_object b s c s' : says_list b = Some (img [IResetLocal ret; IMakeObject ret]) -> run_block E m b s = Done c s' -> good c ->
  quiet [rho ret] s s' /\ local s' (rho ret) = Some (Some (VObject [])).
Proof.
  intros H HR Hc. apply block_inv in HR as (m' & s1 & -> & HR & ->); [|exact Hc].
  cbn [RuleSpec.img map map_ir] in H. apply opt_out in H as (st & l' & -> & Hst & Hl).
  apply opt_out in Hl as (st2 & l2 & -> & Hst2 & Hl). apply opt_nil in Hl as ->.
  apply stmts_inv in HR as [(t & A & B)|[A ->]]; [| |exact Hc].
  - apply (run_reset E _ _ _ _ _ _ Hst) in A as (_ & HX & ->); [|discriminate].
    apply one_stmt in B; [|exact Hc]. apply (run_makeobject _ _ _ _ _ _ Hst2) in B as (_ & HY & ->); [|now apply good_not_timeout].
    split.
    + eapply quiet_trans; [|eapply quiet_trans; [apply quiet_put; lia|apply quiet_weaken, quiet_depth]].
      eapply quiet_trans; [|apply quiet_weaken, quiet_started]. eapply quiet_trans; [|apply quiet_put; lia]. repeat split.
    + match goal with |- local (add_depth _ (put ?x ?v ?t)) _ = _ => exact (local_set_same t x v HY) end.
  - apply (run_reset E _ _ _ _ _ _ Hst) in A as (A & _); [|discriminate]. discriminate.
Qed.

Lemma objects_run_ends l bs s c s' : objects l -> compiled_rule E fn n rho sigma fresh prefix ret l bs -> ran E fn m bs s c s' ->
  c = CReturn /\ exists s0 kvs s1 v, quiet [rho ret] s s0 /\ local s0 (rho ret) = Some (Some (VObject [])) /\
    all_found ret (object_queries l) s0 kvs s1 /\ local s' (rho ret) = Some (Some (VObject v)) /\
    (forall ps, kvs = map (fun p => (Some (fst p), Some (snd p))) ps -> items_of E ps v) /\
    exists bs' c', runs bs' c' s1 = Done c s'.
Proof.
  intros [HX HC] [(ls & HL & HB & HF) _ HN [HR1 HR2] _] (I & R & He1 & He2 & Hc).
  unfold lower_function in HL.
  assert (HS : start_block ret l = Some ([IResetLocal ret; IMakeObject ret], l)).
  { assert (G : forallb is_object l = true).
    { clear - HC. induction HC as [|b l Hb _ IH]; [auto|]. destruct b; try contradiction; auto. }
    unfold start_block. destruct l as [|b l]; [congruence|]. inversion HC; subst. destruct b; try contradiction.
    cbn [existsb is_object orb]. rewrite G. reflexivity. }
  rewrite HS in HL.
  destruct (lower_bodies fresh 0 prefix [] None ret l) as [[blocks d]|] eqn:EL; [|discriminate].
  injection HL as <-. apply frame_all in HF. inversion HF as [|? ? HF0 HF1]; subst. apply Forall_app in HF1 as [HF1 HF2].
  unfold says_blocks in HB. cbn [map] in HB. apply opt_out in HB as (b0 & bs0 & -> & HB0 & HB).
  rewrite map_app in HB. apply opt_app in HB as (bs1 & bs2 & -> & HB1 & HB2).
  destruct (next_block _ _ _ _ _ _ _ _ R (conj He1 He2) Hc) as (c1 & s0 & R1 & G1 & R2).
  { eapply stays_says; [exact HB0|reflexivity]. }
  destruct (make_block_object _ _ _ _ HB0 R1 G1) as [Q0 L0].
  destruct (objects_bodies _ _ _ _ _ _ _ _ _ _ _ HC EL HB1 HF1 HN HR2 G1 R2 (conj He1 He2) Hc) as (-> & PL & kvs & s1 & c2 & AD & G2 & R3).
  destruct (all_insert _ _ _ _ _ AD HR1 PL []) as (I1 & v & L1 & S1); auto.
  { rewrite (quiet_stack _ _ _ Q0). exact I. }
  cbn [map app] in HB2. apply opt_out in HB2 as (b3 & bs3 & -> & Hb3 & HB2). apply opt_nil in HB2 as ->.
  destruct (return_run E rho sigma ret m _ _ _ _ _ Hb3 R3 (conj He1 He2) Hc) as (Q & w & LV & ->).
  rewrite L1 in LV. injection LV as <-. split; [reflexivity|]. exists s0, kvs, s1, v. repeat (split; [assumption|]).
  split; [rewrite (quiet_all _ _ _ Q); exact L1|].
  split; [|eauto]. intros ps HM. apply (S1 ps [] HM). split; [|reflexivity]. split; [reflexivity|constructor].
Qed.
Lemma objects_run l bs s c s' : objects l -> compiled_rule E fn n rho sigma fresh prefix ret l bs -> ran E fn m bs s c s' ->
  c = CReturn /\ exists s0 kvs s1 v, quiet [rho ret] s s0 /\ local s0 (rho ret) = Some (Some (VObject [])) /\
    all_found ret (object_queries l) s0 kvs s1 /\ local s' (rho ret) = Some (Some (VObject v)) /\
    forall ps, kvs = map (fun p => (Some (fst p), Some (snd p))) ps -> object_of E ps v.
Proof.
  intros H1 H2 H3. destruct (objects_run_ends l bs s c s' H1 H2 H3) as (-> & s0 & kvs & s1 & v & A & B & D & L & G & _).
  split; [reflexivity|]. exists s0, kvs, s1, v. repeat (split; [assumption|]). intros ps HM. apply holds_object, (G ps HM).
Qed.
End Objects.
