(** Proofs about single statements of the machine: with, scan, single assignment, merge, calls. *)
From Coq Require Import String ZArith List Bool Lia.
From Verif Require Import Base BigIntSpec BigIntModel SMap SMapFacts ValueModel ValueSpec KeyProofs ResolverModel VmModel VmSpec
  VmProofs VmSimProofs.
Import ListNotations.
Local Open Scope Z_scope.

Lemma znth_some {A} (l : list A) i a : znth l i = Some a -> 0 <= i < zlen l.
Proof.
  unfold znth. destruct (Z.leb_spec 0 i), (Z.ltb_spec i (zlen l)); simpl; intro; try discriminate; lia.
Qed.
Lemma znth_in {A} (l : list A) i a : znth l i = Some a -> In a l.
Proof. unfold znth. destruct (_ && _); [apply nth_error_In|discriminate]. Qed.
Lemma znth_range {A} (l : list A) i : 0 <= i < zlen l -> exists a, znth l i = Some a.
Proof.
  intro H. unfold znth. destruct (Z.leb_spec 0 i), (Z.ltb_spec i (zlen l)); try lia. simpl.
  destruct (nth_error l (Z.to_nat i)) eqn:E; eauto. apply nth_error_None in E. unfold zlen in H. lia.
Qed.
Lemma zlen_upd {A} (l : list A) n a : zlen (upd l n a) = zlen l.
Proof. unfold zlen. now rewrite upd_length. Qed.
Lemma znth_upd_same {A} (l : list A) i a : 0 <= i < zlen l -> znth (upd l (Z.to_nat i) a) i = Some a.
Proof.
  intro H. unfold znth. rewrite zlen_upd. destruct (Z.leb_spec 0 i), (Z.ltb_spec i (zlen l)); try lia. simpl.
  apply upd_same. unfold zlen in H. lia.
Qed.
Lemma znth_upd_other {A} (l : list A) i j a : 0 <= i -> i <> j -> znth (upd l (Z.to_nat i) a) j = znth l j.
Proof.
  intros H N. unfold znth. rewrite zlen_upd. destruct (Z.leb_spec 0 j), (Z.ltb_spec j (zlen l)); simpl; auto.
  apply upd_other. lia.
Qed.
Lemma read_eq i s v : local s i = Some v -> read_local i s = Done v s.
Proof. unfold local, read_local, bind, get, vnth. intros ->. reflexivity. Qed.
Lemma read_inv i s v s' : read_local i s = Done v s' -> s' = s /\ local s i = Some v.
Proof.
  unfold local, read_local, bind, get, vnth. destruct (znth (s_frame s) i); intro H; try discriminate.
  injection H as -> ->. auto.
Qed.
Lemma write_eq i v s : 0 <= i < zlen (s_frame s) ->
  write_local i v s = Done tt (set_frame (upd (s_frame s) (Z.to_nat i) v) s).
Proof.
  intro H. unfold write_local, bind, get. destruct (Z.leb_spec 0 i), (Z.ltb_spec i (zlen (s_frame s))); try lia. reflexivity.
Qed.
Lemma write_inv i v s u s' : write_local i v s = Done u s' ->
  0 <= i < zlen (s_frame s) /\ s' = set_frame (upd (s_frame s) (Z.to_nat i) v) s.
Proof.
  unfold write_local, bind, get. destruct (Z.leb_spec 0 i), (Z.ltb_spec i (zlen (s_frame s))); simpl; intro H1; try discriminate.
  injection H1 as <- <-. split; [lia|auto].
Qed.
Lemma unpack_inv E o s v s' : unpack_operand E o s = Done v s' -> s' = s.
Proof.
  unfold unpack_operand. destruct (o_type o); try discriminate; try (intro H; injection H; auto; fail).
  - intro H. now apply read_inv in H.
  - unfold bind, vnth. destruct (znth _ _); try discriminate. intro H. injection H; auto.
Qed.
Lemma path_strings_inv E l : forall s ks s', path_strings E l s = Done ks s' ->
  s' = s /\ Forall2 (fun i k => znth (b_strings (e_bundle E)) (zn i) = Some k) l ks.
Proof.
  induction l as [|x l IH]; simpl; intros s ks s' H.
  - injection H as <- <-. auto.
  - unfold bind, vnth in H. destruct (znth (b_strings (e_bundle E)) (zn x)) eqn:Ex; try discriminate. cbn [ret] in H.
    unfold ret in H. destruct (path_strings E l s) as [ts s1| | |] eqn:El; try discriminate. injection H as <- <-.
    apply IH in El as [-> El]. auto.
Qed.

(** ** with *)

Lemma strip_quotes_quote t : strip_quotes (quote t) = t.
Proof.
  unfold strip_quotes. rewrite is_quoted_quote. unfold quote. cbn [app tl]. apply removelast_last.
Qed.
Lemma find_member_assoc E k l : (forall k' v, In (k', v) l -> exists t, k' = VString t) -> find_member E k l = assoc k l.
Proof.
  induction l as [|[k' v] l IH]; intro H; simpl; auto.
  destruct (H k' v (or_introl eq_refl)) as [t ->]. cbn [to_key]. rewrite strip_quotes_quote.
  destruct (str_eqb t k); auto. apply IH. intros; eapply H; right; eauto.
Qed.
Lemma set_member_keys E k v l : (forall k' v, In (k', v) l -> exists t, k' = VString t) ->
  forall k' v', In (k', v') (set_member E k v l) -> exists t, k' = VString t.
Proof.
  induction l as [|[k1 v1] l IH]; simpl; intros H k' v' Hin.
  - destruct Hin as [Hin|[]]. injection Hin as <- <-. eauto.
  - destruct (str_eqb _ k).
    + destruct Hin as [Hin|Hin]; [injection Hin as <- <-|]; eauto.
    + destruct Hin as [Hin|Hin]; [injection Hin as <- <-; eauto|]. eapply IH; eauto.
Qed.
Lemma assoc_set E k v l k' : is_quoted k = false -> (forall k' v, In (k', v) l -> exists t, k' = VString t) ->
  assoc k' (set_member E k v l) = if str_eqb k k' then Some v else assoc k' l.
Proof.
  intros Hk. induction l as [|[k1 v1] l IH]; intro H; simpl.
  - unfold strip_quotes. rewrite Hk. reflexivity.
  - destruct (H k1 v1 (or_introl eq_refl)) as [t ->]. cbn [to_key]. rewrite strip_quotes_quote.
    destruct (str_eqb t k) eqn:Et; simpl.
    + apply str_eqb_eq in Et. subst t. destruct (str_eqb k k'); reflexivity.
    + destruct (str_eqb t k') eqn:Et'.
      * apply str_eqb_eq in Et'. subst t. rewrite str_eqb_sym. rewrite Et. reflexivity.
      * apply IH. intros; eapply H; right; eauto.
Qed.

Lemma string_keyed_nil : string_keyed (VObject []).
Proof. apply sk_object. intros k v []. Qed.
Lemma sk_members l : string_keyed (VObject l) -> forall k v, In (k, v) l -> (exists t, k = VString t) /\ string_keyed v.
Proof. intro H. inversion H as [l' Hl E1|v Hv E1]; subst; auto. now elim (Hv l). Qed.
Lemma assoc_in k l v : assoc k l = Some v -> In (VString k, v) l.
Proof.
  induction l as [|[k' v'] l IH]; simpl; try discriminate.
  destruct k'; auto. destruct (str_eqb t k) eqn:Et; auto. apply str_eqb_eq in Et. subst. intro H. injection H as ->. auto.
Qed.
Lemma at_path_nil_object p : p <> [] -> at_path (VObject []) p = None.
Proof. destruct p; simpl; congruence. Qed.

Definition members (d : value) : list (value * value) := match d with VObject l => l | _ => [] end.
Lemma members_sk d : string_keyed d -> forall k v, In (k, v) (members d) -> (exists t, k = VString t) /\ string_keyed v.
Proof. intro H. destruct d; simpl; try (intros k v []; fail). now apply sk_members. Qed.
Lemma at_path_members d k p : at_path d (k :: p) = match assoc k (members d) with Some c => at_path c p | None => None end.
Proof. destruct d; reflexivity. Qed.

Lemma write_path_object E d k p v : exists l, write_path E d (k :: p) v = VObject l.
Proof. simpl. eauto. Qed.

Lemma write_path_spec E p : forall d v, string_keyed d -> Forall (fun k => is_quoted k = false) p ->
  changed_at (Some d) p v (write_path E d p v).
Proof.
  induction p as [|k p IH]; intros d v Hd Hp; split.
  - reflexivity.
  - intros q N _. elim N. exists q. reflexivity.
  - inversion Hp; subst. intro q. cbn [app write_path]. fold (members d). rewrite at_path_members. cbn [members].
    rewrite assoc_set; auto; [|intros k' v' Hin; eapply members_sk in Hin; tauto].
    rewrite str_eqb_refl. destruct p as [|k2 p']; [reflexivity|].
    apply IH; auto. rewrite find_member_assoc by (intros k' v' Hin; eapply members_sk in Hin; tauto).
    destruct (assoc k (members d)) eqn:Ea; [|apply string_keyed_nil].
    apply assoc_in in Ea. eapply members_sk in Ea; tauto.
  - inversion Hp; subst. intros q N1 N2. destruct q as [|k' q]; [elim N2; now exists (k :: p)|].
    cbn [write_path]. fold (members d). rewrite !at_path_members. cbn [members].
    rewrite assoc_set; auto; [|intros k1 v1 Hin; eapply members_sk in Hin; tauto].
    destruct (str_eqb k k') eqn:Ek; [|reflexivity]. apply str_eqb_eq in Ek. subst k'.
    assert (M1 : ~ prefix p q) by (intros [r ->]; apply N1; now exists r).
    assert (M2 : ~ prefix q p) by (intros [r ->]; apply N2; now exists r).
    destruct p as [|k2 p']; [elim M1; now exists q|].
    rewrite find_member_assoc by (intros k1 v1 Hin; eapply members_sk in Hin; tauto).
    destruct (assoc k (members d)) eqn:Ea.
    + apply assoc_in in Ea. eapply members_sk in Ea as [_ Ea]; auto. now apply IH.
    + destruct (IH (VObject []) v string_keyed_nil H2) as [_ HH]. rewrite HH by auto.
      apply at_path_nil_object. intros ->. apply M2. now exists (k2 :: p').
Qed.

Lemma local_set_same s i v : 0 <= i < zlen (s_frame s) -> local (set_frame (upd (s_frame s) (Z.to_nat i) v) s) i = Some v.
Proof. intro H. unfold local. cbn. now apply znth_upd_same. Qed.
Lemma local_set_other s i j v : 0 <= i -> i <> j -> local (set_frame (upd (s_frame s) (Z.to_nat i) v) s) j = local s j.
Proof. intros H N. unfold local. cbn. now apply znth_upd_other. Qed.

Lemma swap_inv E i path v s old s' : write_and_swap E i path v s = Done old s' ->
  local s i = Some old /\ (forall j, j <> i -> local s' j = local s j) /\ zlen (s_frame s') = zlen (s_frame s) /\
  0 <= i < zlen (s_frame s) /\
  exists ks, Forall2 (fun i k => znth (b_strings (e_bundle E)) (zn i) = Some k) path ks /\
    ((path = [] /\ local s' i = Some v) \/
     (path <> [] /\ (old = None \/ exists l, old = Some (VObject l)) /\
      local s' i = Some (Some (write_path E (match old with Some d => d | None => VObject [] end) ks (to_term v))))).
Proof.
  unfold write_and_swap. unfold bind at 1. destruct (read_local i s) as [o s1| | |] eqn:Er; try discriminate.
  apply read_inv in Er as [-> Er]. destruct path as [|x path].
  - intro H. unfold bind in H. destruct (write_local i v s) as [u s1| | |] eqn:Ew; try discriminate.
    unfold ret in H. injection H as -> ->. apply write_inv in Ew as [Hi ->].
    split; [exact Er|]. split; [intros; apply local_set_other; lia|]. split; [apply zlen_upd|]. split; [exact Hi|].
    exists []. split; [constructor|]. left. split; auto. now apply local_set_same.
  - intro H. unfold bind at 1 in H. destruct (path_strings E (x :: path) s) as [ks s1| | |] eqn:Es; try discriminate.
    apply path_strings_inv in Es as [-> Es].
    assert (HH : (old = None \/ exists l, old = Some (VObject l)) /\ o = old /\
      exists u, write_local i (Some (write_path E (match old with Some d => d | None => VObject [] end) ks (to_term v))) s = Done u s').
    { destruct o as [[]|]; try discriminate; unfold bind in H.
      - destruct (write_local i _ s) as [u s1| | |] eqn:Ew; try discriminate. unfold ret in H. injection H as <- <-.
        split; [eauto|]. split; [auto|]. exists u. exact Ew.
      - destruct (write_local i _ s) as [u s1| | |] eqn:Ew; try discriminate. unfold ret in H. injection H as <- <-.
        split; [auto|]. split; [auto|]. exists u. exact Ew. }
    destruct HH as (Ho & -> & u & Ew). apply write_inv in Ew as [Hi ->].
    split; [exact Er|]. split; [intros; apply local_set_other; lia|]. split; [apply zlen_upd|]. split; [exact Hi|].
    exists ks. split; [exact Es|]. right. split; [discriminate|]. split; auto. now apply local_set_same.
Qed.

Lemma with_inv E n op0 op1 target path body s c s' :
  dispatch E (run_block E n) (Stmt SWith op0 op1 target (Some (ExtWith path body))) s = Done c s' ->
  exists v old ks s1 s2,
    unpack_operand E op0 s = Done v s /\
    Forall2 (fun i k => znth (b_strings (e_bundle E)) (zn i) = Some k) path ks /\
    run_block E n body s1 = Done c s2 /\
    local s target = Some old /\ local s' target = Some old /\
    (forall i, i <> target -> local s1 i = local s i /\ local s' i = local s2 i) /\
    ((path = [] /\ local s1 target = Some v) \/
     (path <> [] /\ (old = None \/ exists l, old = Some (VObject l)) /\
      local s1 target = Some (Some (write_path E (match old with Some d => d | None => VObject [] end) ks (to_term v))))).
Proof.
  cbn [dispatch]. unfold run_with, bind, modify. intro H.
  destruct (unpack_operand E op0 (add_with 1 s)) as [v s0| | |] eqn:Eu; try discriminate.
  pose proof (unpack_inv _ _ _ _ _ Eu). subst s0.
  destruct (write_and_swap E target path v (add_with 1 s)) as [old s1| | |] eqn:Ew; try discriminate.
  destruct (run_block E n body s1) as [c2 s2| | |] eqn:Eb; try discriminate.
  destruct (write_local target old s2) as [u s3| | |] eqn:El; try discriminate.
  unfold ret in H. injection H as <- <-.
  apply swap_inv in Ew as (W1 & W2 & W3 & W4 & ks & W5 & W6). apply write_inv in El as [L1 ->].
  exists v, old, ks, s1, s2.
  assert (Hu : unpack_operand E op0 s = Done v s).
  { revert Eu. unfold unpack_operand, read_local, bind, get, vnth, ret, exn, fault_.
    destruct (o_type op0); try discriminate; cbn [s_frame add_with set_counts].
    - destruct (znth (s_frame s) (o_index op0)); intro HH; try discriminate. injection HH; intros; subst; reflexivity.
    - destruct (znth _ _); intro HH; try discriminate. injection HH; intros; subst; reflexivity.
    - intro HH. injection HH; intros; subst; reflexivity.
    - intro HH. injection HH; intros; subst; reflexivity. }
  split; [exact Hu|]. split; [exact W5|]. split; [exact Eb|]. split; [exact W1|].
  split; [change (local (set_frame (upd (s_frame s2) (Z.to_nat target) old) s2) target = Some old); now apply local_set_same|].
  split; [|exact W6].
  intros i Hi. split; [apply W2; auto|].
  change (local (set_frame (upd (s_frame s2) (Z.to_nat target) old) s2) i = local s2 i). apply local_set_other; [lia|auto].
Qed.

(** ** scan *)

Lemma array_pairs_eq l : forall i,
  array_pairs (Z.of_nat i) l = combine (map (fun i => VInt (dec (Z.of_nat i))) (seq i (length l))) l.
Proof.
  induction l as [|x l IH]; intro i; simpl; auto. f_equal. rewrite <- IH. f_equal. lia.
Qed.
Lemma combine_self {A} (l : list A) : map (fun x => (x, x)) l = combine l l.
Proof. induction l; simpl; congruence. Qed.

Lemma scan_loop_iff rb k v body : forall l s c s',
  (forall b s c s', rb b s = Done c s' -> zlen (s_frame s') = zlen (s_frame s)) ->
  0 <= k < zlen (s_frame s) -> 0 <= v < zlen (s_frame s) ->
  (scan_loop rb l k v body s = Done c s' <-> iterates (rb body) k v l s c s').
Proof.
  intros l s c s' Hlen. revert s c s'.
  induction l as [|[a b] l IH]; intros s c s' Hk Hv; simpl.
  - unfold ret. split; [intro H; injection H as <- <-; constructor|inversion 1; auto].
  - unfold bind. rewrite write_eq by auto. rewrite write_eq by (cbn; rewrite zlen_upd; auto).
    change (set_frame (upd (s_frame (set_frame (upd (s_frame s) (Z.to_nat k) (Some a)) s)) (Z.to_nat v) (Some b))
              (set_frame (upd (s_frame s) (Z.to_nat k) (Some a)) s)) with (bound s k v a b).
    assert (HB : zlen (s_frame (bound s k v a b)) = zlen (s_frame s)) by (cbn; now rewrite !zlen_upd).
    destruct (rb body (bound s k v a b)) as [c1 s1| | |] eqn:Eb.
    + pose proof (Hlen _ _ _ _ Eb) as Hl. rewrite HB in Hl.
      assert (Hgo : (c1 = CContinue \/ c1 = CUndefined) ->
        (scan_loop rb l k v body s1 = Done c s' <-> iterates (rb body) k v ((a, b) :: l) s c s')).
      { intro Hc. split.
        - intro H. eapply it_next; eauto. apply IH; auto; lia.
        - inversion 1; subst; rewrite Eb in *.
          + match goal with H : Done _ _ = Done _ _ |- _ => injection H as <- <- end. apply IH; auto; lia.
          + match goal with H : Done _ _ = Done _ _ |- _ => injection H as <- <- end. intuition congruence. }
      assert (Hst : (c1 <> CContinue /\ c1 <> CUndefined) ->
        (ret c1 s1 = Done c s' <-> iterates (rb body) k v ((a, b) :: l) s c s')).
      { intros [Hc1 Hc2]. split.
        - intro H. injection H as <- <-. now eapply it_stop.
        - inversion 1; subst; rewrite Eb in *.
          + match goal with H : Done _ _ = Done _ _ |- _ => injection H as <- <- end. intuition congruence.
          + match goal with H : Done _ _ = Done _ _ |- _ => injection H as <- <- end. reflexivity. }
      destruct c1; first [apply Hgo; auto; fail | apply Hst; split; discriminate].
    + split; [discriminate|]. inversion 1; subst; congruence.
    + split; [discriminate|]. inversion 1; subst; congruence.
    + split; [discriminate|]. inversion 1; subst; congruence.
Qed.

Lemma block_len E n b s c s' : run_block E n b s = Done c s' -> zlen (s_frame s') = zlen (s_frame s).
Proof.
  intro H. pose proof (mono_block E n b s) as (_ & Hl & _). rewrite H in Hl. cbn in Hl. unfold zlen. now rewrite Hl.
Qed.

Lemma scan_pairs_iff E n op0 op1 body l s c s' :
  0 <= o_index op0 < zlen (s_frame s) -> 0 <= o_index op1 < zlen (s_frame s) ->
  (scan_pairs (run_block E n) l op0 op1 (Some (ExtBlock body)) s = Done c s' <->
   iterates (run_block E n body) (o_index op0) (o_index op1) l s c s').
Proof.
  intros H0 H1. destruct l as [|[a b] l]; cbn [scan_pairs].
  - unfold ret. split; [intro H; injection H as <- <-; constructor|inversion 1; auto].
  - unfold bind, ext_block, ret. apply scan_loop_iff; auto. intros; eapply block_len; eauto.
Qed.
Lemma scan_iff E n op0 op1 target body s coll l c s' :
  local s target = Some (Some coll) -> elements coll = Some l ->
  0 <= o_index op0 < zlen (s_frame s) -> 0 <= o_index op1 < zlen (s_frame s) ->
  (dispatch E (run_block E n) (Stmt SScan op0 op1 target (Some (ExtBlock body))) s = Done c s' <->
   iterates (run_block E n body) (o_index op0) (o_index op1) l s c s').
Proof.
  intros Hs He H0 H1. cbn [dispatch]. unfold run_scan, bind. rewrite (read_eq _ _ _ Hs).
  destruct coll; try discriminate; cbn [elements] in He; injection He as <-.
  - rewrite <- array_pairs_eq. now apply scan_pairs_iff.
  - now apply scan_pairs_iff.
  - rewrite combine_self. now apply scan_pairs_iff.
Qed.

(** ** single assignment *)

Lemma run_stmt_eq E rb st s : s_count s + 1 < e_stmt_limit E ->
  run_stmt E rb st s = dispatch E rb st (add_log (EvStmt st) (inc_stmts s)).
Proof.
  intro H. unfold run_stmt, bind, modify, get. cbn [inc_stmts set_counts s_count].
  destruct (Z.leb_spec (e_stmt_limit E) (s_count s + 1)); [lia|reflexivity].
Qed.
Lemma run_stmts_continue E rb st l c s s1 : run_stmt E rb st s = Done CContinue s1 ->
  run_stmts E rb (st :: l) c s = run_stmts E rb l CContinue s1.
Proof. intro H. cbn [run_stmts]. unfold bind. now rewrite H. Qed.
Lemma run_stmts_error E rb st l c s s1 : run_stmt E rb st s = Done CError s1 ->
  run_stmts E rb (st :: l) c s = Done CError s1.
Proof. intro H. cbn [run_stmts]. unfold bind. now rewrite H. Qed.

Section Once.
Variables (E : env) (NI NF : str -> Prop).
Notation F := (e_fops E).
Hypothesis HD : num_domain F NI NF.
Variable rb : block -> vm code.

Lemma key_eqb_veq a b : wfv F NI NF a -> wfv F NI NF b -> (str_eqb (to_key F a) (to_key F b) = true <-> veq F a b).
Proof. intros Ha Hb. rewrite str_eqb_eq. apply (key_iff F NI NF HD); auto. Qed.
Lemma veq_refl' a : wfv F NI NF a -> veq F a a.
Proof. intro Ha. apply key_eqb_veq; auto. apply str_eqb_refl. Qed.
Lemma veq_sym' a b : wfv F NI NF a -> wfv F NI NF b -> veq F a b -> veq F b a.
Proof. intros Ha Hb H. apply key_eqb_veq; auto. rewrite str_eqb_sym. now apply key_eqb_veq. Qed.
Lemma veq_trans' a b c : wfv F NI NF a -> wfv F NI NF b -> wfv F NI NF c -> veq F a b -> veq F b c -> veq F a c.
Proof.
  intros Ha Hb Hc H1 H2. apply (key_iff F NI NF HD) in H1, H2; auto. apply (key_iff F NI NF HD); auto. congruence.
Qed.

Definition okv (v : option value) : Prop := forall x, v = Some x -> wfv F NI NF x.

Lemma o_index_small ty i : 0 <= i < 2 ^ 64 -> o_index (Op ty i) = i.
Proof. intro H. unfold o_index. cbn. now apply Z.mod_small. Qed.

Definition assign_stmt (target i : Z) : stmt := Stmt SAssignVarOnce (Op TLocal i) (Op TNone 0) target None.

(** [cur] is the content of the target so far. *)
Lemma assigns_run target : forall srcs vs s cur,
  zlen (s_frame s) <= 2 ^ 64 ->
  Forall2 (fun i v => i <> target /\ local s i = Some v) srcs vs ->
  Forall okv vs -> okv cur -> local s target = Some cur ->
  s_count s + zlen srcs < e_stmt_limit E ->
  match run_stmts E rb (map (assign_stmt target) srcs) CContinue s with
  | Done c s' =>
      (agree F (cur :: vs) /\ c = CContinue /\ local s' target = Some (first_defined (cur :: vs)) /\ s_errors s' = s_errors s) \/
      (~ agree F (cur :: vs) /\ c = CError /\ s_errors s' = (s_errors s ++ [EvalConflictError])%list)
  | _ => False
  end.
Proof.
  induction srcs as [|i srcs IH]; intros vs s cur Hlen Hv Hok Hcur Ht Hlim.
  - inversion Hv; subst. cbn. left. split; [|auto].
    + intros x y [Hx|[]] [Hy|[]]. rewrite Hx in Hy. injection Hy as <-. apply veq_refl'. auto.
    + destruct cur; auto.
  - inversion Hv as [|i' v srcs' vs' [Hit Hi] Hv']; subst. inversion Hok as [|v' vs'' Hv1 Hv2]; subst.
    cbn [map]. unfold zlen in Hlim. cbn [length] in Hlim.
    pose proof (run_stmt_eq E rb (assign_stmt target i) s ltac:(lia)) as Hrun.
    unfold assign_stmt in Hrun at 2. cbn [dispatch] in Hrun.
    set (s1 := add_log _ (inc_stmts s)) in Hrun.
    assert (Hi1 : local s1 i = Some v) by exact Hi.
    assert (Hir : 0 <= i < zlen (s_frame s)) by (eapply znth_some; exact Hi).
    assert (Htr : 0 <= target < zlen (s_frame s)) by (eapply znth_some; exact Ht).
    unfold bind at 1 in Hrun. cbn [unpack_operand o_type] in Hrun. rewrite o_index_small in Hrun by lia.
    rewrite (read_eq _ _ _ Hi1) in Hrun.
    assert (HF : Forall2 (fun i v => i <> target /\ local s1 i = Some v) srcs vs') by exact Hv'.
    destruct v as [x|].
    + unfold bind at 1 in Hrun. rewrite (read_eq target s1 cur Ht) in Hrun. destruct cur as [y|].
      * destruct (str_eqb (to_key F x) (to_key F y)) eqn:Ek.
        -- rewrite (run_stmts_continue _ _ _ _ _ _ _ Hrun).
           specialize (IH vs' s1 (Some y) Hlen HF Hv2 Hcur Ht ltac:(cbn; unfold zlen; lia)).
           destruct (run_stmts E rb (map (assign_stmt target) srcs) CContinue s1) as [c s'| | |]; auto.
           assert (HA : agree F (Some y :: vs') <-> agree F (Some y :: Some x :: vs')).
           { assert (Hxy : veq F y x) by (apply veq_sym'; auto; apply key_eqb_veq; auto).
             split; intros HA a b Ha Hb.
             - assert (Hr : forall z, In (Some z) (Some y :: Some x :: vs') -> exists z', In (Some z') (Some y :: vs') /\ veq F z z' /\ wfv F NI NF z /\ wfv F NI NF z').
               { intros z [Hz|[Hz|Hz]].
                 - injection Hz as <-. exists y. split; [left; auto|]. split; [apply veq_refl'; auto|]. auto.
                 - injection Hz as <-. exists y. split; [left; auto|]. split; [apply veq_sym'; auto|]. auto.
                 - rewrite Forall_forall in Hv2. exists z. split; [right; auto|].
                   split; [apply veq_refl'; exact (Hv2 _ Hz z eq_refl)|]. split; exact (Hv2 _ Hz z eq_refl). }
               destruct (Hr a Ha) as (a' & A1 & A2 & A3 & A4). destruct (Hr b Hb) as (b' & B1 & B2 & B3 & B4).
               apply veq_trans' with a'; auto. apply veq_trans' with b'; auto. apply veq_sym'; auto.
             - apply HA; simpl in *; tauto. }
           destruct IH as [(I1 & I2 & I3 & I4)|(I1 & I2 & I3)]; [left|right].
           ++ split; [now apply HA|auto].
           ++ split; [now rewrite <- HA|auto].
        -- rewrite (run_stmts_error _ _ _ _ _ _ _ Hrun). right. split; [|auto].
           intro HA. specialize (HA x y (or_intror (or_introl eq_refl)) (or_introl eq_refl)).
           apply key_eqb_veq in HA; auto. congruence.
      * unfold bind at 1 in Hrun. rewrite write_eq in Hrun by exact Htr.
        set (s2 := set_frame _ s1) in Hrun. rewrite (run_stmts_continue _ _ _ _ _ _ _ Hrun).
        assert (HF2 : Forall2 (fun i v => i <> target /\ local s2 i = Some v) srcs vs').
        { clear -HF Htr. induction HF as [|j w js ws [Hj1 Hj2] HF IH]; constructor; auto. split; auto.
          unfold s2. rewrite local_set_other; auto. lia. }
        assert (Ht2 : local s2 target = Some (Some x)) by (apply local_set_same; exact Htr).
        assert (Hl2 : zlen (s_frame s2) <= 2 ^ 64) by (cbn; rewrite zlen_upd; exact Hlen).
        specialize (IH vs' s2 (Some x) Hl2 HF2 Hv2 Hv1 Ht2 ltac:(cbn; unfold zlen; lia)).
        destruct (run_stmts E rb (map (assign_stmt target) srcs) CContinue s2) as [c s'| | |]; auto.
        assert (HA : agree F (Some x :: vs') <-> agree F (None :: Some x :: vs')).
        { split; intros HA a b Ha Hb; apply HA; simpl in *; intuition discriminate. }
        rewrite <- HA. exact IH.
    + rewrite (run_stmts_continue _ _ _ _ _ _ _ Hrun).
      specialize (IH vs' s1 cur Hlen HF Hv2 Hcur Ht ltac:(cbn; unfold zlen; lia)).
      destruct (run_stmts E rb (map (assign_stmt target) srcs) CContinue s1) as [c s'| | |]; auto.
      assert (HA : agree F (cur :: vs') <-> agree F (cur :: None :: vs')).
      { split; intros HA a b Ha Hb; apply HA; simpl in *; intuition discriminate. }
      rewrite <- HA. destruct cur; exact IH.
Qed.
End Once.

(** ** ObjectInsertOnce *)

Lemma NoDup_app_intro {A} (a b : list A) : NoDup a -> NoDup b -> (forall x, In x a -> ~ In x b) -> NoDup (a ++ b).
Proof.
  induction a as [|x a IH]; simpl; intros Ha Hb H; auto. inversion Ha; subst. constructor.
  - rewrite in_app_iff. intros [G|G]; [auto|]. apply (H x); auto.
  - apply IH; auto.
Qed.

Section InsertOnce.
Variables (E : env) (NI NF : str -> Prop).
Notation F := (e_fops E).
Hypothesis HD : num_domain F NI NF.
Variable rb : block -> vm code.
Notation key := (to_key F).
Definition kk (kv : value * value) : str * str := (key (fst kv), key (snd kv)).
Definition wfkv (kv : value * value) : Prop := wfv F NI NF (fst kv) /\ wfv F NI NF (snd kv).

Lemma functional_kk kvs : Forall wfkv kvs ->
  (functional F kvs <-> forall a b b', In (a, b) (map kk kvs) -> In (a, b') (map kk kvs) -> b = b').
Proof.
  intro Hw. rewrite Forall_forall in Hw. split.
  - intros Hf a b b' H1 H2. apply in_map_iff in H1 as ([k v] & E1 & I1). apply in_map_iff in H2 as ([k' v'] & E2 & I2).
    unfold kk in *. cbn in *. injection E1 as <- <-. injection E2 as E2 <-.
    destruct (Hw _ I1), (Hw _ I2). cbn in *.
    apply (key_iff F NI NF HD); auto. apply (Hf k v k' v'); auto. apply (key_iff F NI NF HD); auto.
  - intros H k v k' v' I1 I2 Hk. destruct (Hw _ I1), (Hw _ I2). cbn in *.
    apply (key_iff F NI NF HD); auto. apply (H (key k)).
    + apply in_map_iff. exists (k, v). auto.
    + apply in_map_iff. exists (k', v'). split; auto. unfold kk. cbn. f_equal. symmetry. apply (key_iff F NI NF HD); auto.
Qed.

Lemma find_item_none k l : find_item E k l = None -> forall b, ~ In (k, b) (map kk l).
Proof.
  induction l as [|[k' v] l IH]; simpl; intros H b Hin; auto. destruct (str_eqb (key k') k) eqn:Ek; try discriminate.
  destruct Hin as [Hin|Hin]; [|eapply IH; eauto]. injection Hin as Hin _. apply str_eqb_neq in Ek. auto.
Qed.
Lemma find_item_some k l v : find_item E k l = Some v -> In (k, key v) (map kk l).
Proof.
  induction l as [|[k' v'] l IH]; simpl; intros H; try discriminate. destruct (str_eqb (key k') k) eqn:Ek; auto.
  apply str_eqb_eq in Ek. injection H as ->. left. unfold kk. cbn. congruence.
Qed.
Lemma replace_item_eq k v old l : find_item E k l = Some old -> key v = key old ->
  exists l', replace_item E k v l = Some l' /\ map kk l' = map kk l /\
    (Forall wfkv l -> wfv F NI NF v -> Forall wfkv l').
Proof.
  intros H Hv. induction l as [|[k' v'] l IH]; simpl in *; try discriminate.
  rewrite str_eqb_sym in H. destruct (str_eqb k (key k')) eqn:Ek.
  - injection H as ->. exists ((k', v) :: l). split; [auto|]. split; [unfold kk; simpl; congruence|].
    intros Hf Hw. inversion Hf as [|x y [X1 X2]]; subst. constructor; auto. split; auto.
  - destruct (IH H) as (l' & R1 & R2 & R3). rewrite R1. exists ((k', v') :: l').
    split; [auto|]. split; [simpl; congruence|]. intros Hf Hw. inversion Hf; subst. constructor; auto.
Qed.

(** The object holds exactly the pairs inserted so far, up to identity, each key once. *)
Definition holds_pairs (l : list (value * value)) (done : list (value * value)) : Prop :=
  (forall p, In p (map kk l) <-> In p (map kk done)) /\ NoDup (map fst (map kk l)).

Lemma holds_represents l done : Forall wfkv l -> Forall wfkv done -> holds_pairs l done -> represents F done l.
Proof.
  intros Hl Hd [H HN]. rewrite Forall_forall in Hl, Hd. repeat split.
  - intros k v Hin. assert (Hk : In (kk (k, v)) (map kk l)) by (apply H, in_map; auto).
    apply in_map_iff in Hk as ([k' v'] & Ek & Ik). exists k', v'. injection Ek as E1 E2. cbn in *.
    destruct (Hd _ Hin), (Hl _ Ik). cbn in *. repeat split; auto; apply (key_iff F NI NF HD); auto.
  - intros k v Hin. assert (Hk : In (kk (k, v)) (map kk done)) by (apply H, in_map; auto).
    apply in_map_iff in Hk as ([k' v'] & Ek & Ik). exists k', v'. injection Ek as E1 E2. cbn in *.
    destruct (Hd _ Ik), (Hl _ Hin). cbn in *. repeat split; auto; apply (key_iff F NI NF HD); auto.
  - intros l1 k v l2 k' v' l3 El Hv. rewrite El, !map_app in HN. cbn in HN. rewrite !map_app in HN. cbn in HN.
    assert (Iv : In (k, v) l) by (rewrite El; apply in_app_iff; right; left; auto).
    assert (Iv' : In (k', v') l) by (rewrite El; apply in_app_iff; right; right; apply in_app_iff; right; left; auto).
    destruct (Hl _ Iv) as [W1 _], (Hl _ Iv') as [W2 _]. cbn in *.
    apply (key_iff F NI NF HD) in Hv; auto.
    apply NoDup_remove_2 in HN. apply HN. rewrite Hv. apply in_app_iff. right. apply in_app_iff. right. left. reflexivity.
Qed.

Definition insert_stmt (target : Z) (ij : Z * Z) : stmt :=
  Stmt SObjectInsertOnce (Op TLocal (fst ij)) (Op TLocal (snd ij)) target None.

Lemma inserts_run target : forall srcs kvs s l done,
  zlen (s_frame s) <= 2 ^ 64 ->
  Forall2 (fun ij kv => fst ij <> target /\ snd ij <> target /\
     local s (fst ij) = Some (Some (fst kv)) /\ local s (snd ij) = Some (Some (snd kv))) srcs kvs ->
  Forall wfkv kvs -> Forall wfkv done -> Forall wfkv l -> functional F done -> holds_pairs l done ->
  local s target = Some (Some (VObject l)) ->
  s_count s + zlen srcs < e_stmt_limit E ->
  match run_stmts E rb (map (insert_stmt target) srcs) CContinue s with
  | Done c s' =>
      (functional F (done ++ kvs) /\ c = CContinue /\ s_errors s' = s_errors s /\
       exists l', local s' target = Some (Some (VObject l')) /\ represents F (done ++ kvs) l') \/
      (~ functional F (done ++ kvs) /\ c = CError /\ s_errors s' = (s_errors s ++ [EvalConflictError])%list)
  | _ => False
  end.
Proof.
  induction srcs as [|[i j] srcs IH]; intros kvs s l done Hlen Hv Hkv Hd Hl Hfun Hh Ht Hlim.
  - inversion Hv; subst. cbn. left. rewrite app_nil_r. split; [auto|]. split; [auto|]. split; [auto|].
    exists l. split; auto. now apply holds_represents.
  - inversion Hv as [|ij kv srcs' kvs' (Hi1 & Hj1 & Hi & Hj) Hv']; subst. destruct kv as [k v]. cbn [fst snd] in *.
    inversion Hkv as [|kv' kvs'' [Hk1 Hk2] Hkv2]; subst. cbn [fst snd] in *.
    cbn [map]. unfold zlen in Hlim. cbn [length] in Hlim.
    pose proof (run_stmt_eq E rb (insert_stmt target (i, j)) s ltac:(lia)) as Hrun.
    unfold insert_stmt in Hrun at 2. cbn [dispatch fst snd] in Hrun.
    set (s1 := add_log _ (inc_stmts s)) in Hrun.
    assert (Hir : 0 <= i < zlen (s_frame s)) by (eapply znth_some; exact Hi).
    assert (Hjr : 0 <= j < zlen (s_frame s)) by (eapply znth_some; exact Hj).
    assert (Htr : 0 <= target < zlen (s_frame s)) by (eapply znth_some; exact Ht).
    unfold bind at 1 in Hrun. cbn [unpack_operand o_type] in Hrun. rewrite o_index_small in Hrun by lia.
    rewrite (read_eq i s1 (Some k) Hi) in Hrun. unfold bind at 1 in Hrun. rewrite o_index_small in Hrun by lia.
    rewrite (read_eq j s1 (Some v) Hj) in Hrun. unfold bind at 1 in Hrun. rewrite (read_eq target s1 _ Ht) in Hrun.
    cbn [insert_into_object] in Hrun. change (VmModel.node_key E (Some k)) with (key k) in Hrun.
    change (VmModel.node_key E (Some v)) with (key v) in Hrun.
    assert (Hdone : Forall wfkv (done ++ [(k, v)])) by (apply Forall_app; repeat constructor; auto).
    replace (done ++ (k, v) :: kvs')%list with ((done ++ [(k, v)]) ++ kvs')%list by (rewrite <- app_assoc; reflexivity).
    assert (Hgo : forall l2, run_stmt E rb (insert_stmt target (i, j)) s = Done CContinue (set_frame (upd (s_frame s1) (Z.to_nat target) (Some (VObject l2))) s1) ->
       Forall wfkv l2 -> functional F (done ++ [(k, v)]) -> holds_pairs l2 (done ++ [(k, v)]) ->
      match run_stmts E rb (insert_stmt target (i, j) :: map (insert_stmt target) srcs) CContinue s with
      | Done c s' =>
        (functional F ((done ++ [(k, v)]) ++ kvs') /\ c = CContinue /\ s_errors s' = s_errors s /\
         exists l', local s' target = Some (Some (VObject l')) /\ represents F ((done ++ [(k, v)]) ++ kvs') l') \/
        (~ functional F ((done ++ [(k, v)]) ++ kvs') /\ c = CError /\ s_errors s' = (s_errors s ++ [EvalConflictError])%list)
      | _ => False end).
    { intros l2 HR G1 G2 G3. rewrite (run_stmts_continue _ _ _ _ _ _ _ HR).
      set (s2 := set_frame _ s1).
      apply (IH kvs' s2 l2 (done ++ [(k, v)])%list); auto.
      - cbn. rewrite zlen_upd. exact Hlen.
      - clear -Hv' Htr. induction Hv' as [|[a b] [c d] js ws (A1 & A2 & A3 & A4) HF IH]; constructor; auto.
        cbn [fst snd] in *. split; auto. split; auto. unfold s2. rewrite !local_set_other; auto; lia.
      - now apply local_set_same.
      - cbn. unfold zlen. lia. }
    destruct (find_item E (key k) l) as [old|] eqn:Ef.
    + cbn [andb] in Hrun. destruct (str_eqb (key old) (key v)) eqn:Ek; cbn [negb] in Hrun.
      * apply str_eqb_eq in Ek. destruct (replace_item_eq (key k) v old l Ef (eq_sym Ek)) as (l2 & R1 & R2 & R3).
        cbn [to_term] in Hrun. rewrite R1 in Hrun. unfold bind in Hrun. rewrite write_eq in Hrun by exact Htr. unfold ret in Hrun.
        assert (Hin : In (key k, key v) (map kk done)).
        { apply Hh. rewrite <- Ek. now apply find_item_some. }
        assert (Hsame : forall p, In p (map kk done) <-> In p (map kk (done ++ [(k, v)]))).
        { intro p. rewrite map_app, in_app_iff. simpl. split; [auto|]. intros [Hp|[Hp|[]]]; auto. subst p. exact Hin. }
        apply (Hgo l2); auto.
        -- apply functional_kk; auto. intros a b b' H1 H2. apply Hsame in H1, H2.
           eapply (proj1 (functional_kk done Hd) Hfun); eauto.
        -- destruct Hh as [Hh1 Hh2]. split; [|now rewrite R2]. intro p. rewrite R2, Hh1. apply Hsame.
      * unfold bind, add_error, modify, ret in Hrun. rewrite (run_stmts_error _ _ _ _ _ _ _ Hrun). right.
        split; [|auto]. intro Hf. apply str_eqb_neq in Ek. apply Ek.
        assert (HW : Forall wfkv ((done ++ [(k, v)]) ++ kvs')) by (apply Forall_app; auto).
        apply (proj1 (functional_kk _ HW) Hf (key k)); rewrite !map_app, !in_app_iff.
        -- left. left. apply Hh. now apply find_item_some.
        -- left. right. left. reflexivity.
    + cbn [to_term] in Hrun. unfold bind in Hrun. rewrite write_eq in Hrun by exact Htr. unfold ret in Hrun.
      pose proof (find_item_none _ _ Ef) as Hnone.
      apply (Hgo (l ++ [(k, v)])%list); auto.
      * apply Forall_app. split; auto. constructor; [split; auto|constructor].
      * apply functional_kk; auto. intros a b b' H1 H2. rewrite map_app, in_app_iff in H1, H2. simpl in H1, H2.
        assert (Hno : forall b, ~ In (key k, b) (map kk done)) by (intros b0 Hb; apply (Hnone b0), Hh; auto).
        destruct H1 as [H1|[H1|[]]], H2 as [H2|[H2|[]]].
        -- eapply (proj1 (functional_kk done Hd) Hfun); eauto.
        -- injection H2 as <- <-. now apply Hno in H1.
        -- injection H1 as <- <-. now apply Hno in H2.
        -- congruence.
      * destruct Hh as [Hh1 Hh2]. split.
        -- intro p. rewrite !map_app, !in_app_iff, Hh1. tauto.
        -- rewrite !map_app. cbn. apply NoDup_app_intro; auto.
           { constructor; [intros []|constructor]. }
           intros x Hx [Hx2|[]]. subst x. apply in_map_iff in Hx as ([a b] & Ea & Ia). cbn in Ea. subst a. eapply Hnone; eauto.
Qed.
End InsertOnce.
