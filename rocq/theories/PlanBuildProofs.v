(** Proofs about the whole way from a compiled program to a verified bundle. *)
From Coq Require Import String ZArith NArith Nnat List Bool Lia Sorting.Sorted.
From Verif Require Import Base BigIntSpec BigIntModel SMap SMapFacts ValueModel ResolverModel DecFacts VmModel VmSpec VmProofs PlanModel PlanSpec PlanProofs.
Import ListNotations.
Local Open Scope Z_scope.

(** ** Names and positions *)
Definition addn (l : list str) : list (str * N) := fold_left add_name l [].
Lemma sm_set_length {A} k (a : A) m : keyed m ->
  length (sm_set k a m) = match sm_find k m with Some _ => length m | None => Datatypes.S (length m) end.
Proof.
  induction m as [|[k' a'] m IH]; simpl; intros H; auto.
  assert (KM : keyed m) by (unfold keyed in *; simpl in H; inversion H; auto).
  destruct (str_ltb k k') eqn:LT.
  - destruct (str_eqb k k') eqn:E.
    + apply str_eqb_eq in E. subst. rewrite str_ltb_irrefl in LT. discriminate.
    + rewrite (keyed_find_lt k m); [reflexivity|]. unfold keyed in H. simpl in H. inversion H; subst.
      rewrite Forall_forall in *. intros x Ix. eapply str_ltb_trans; eauto.
  - destruct (str_eqb k k'); simpl; auto. rewrite IH by auto. now destruct (sm_find k m).
Qed.
Lemma addn_snoc l x : addn (l ++ [x]) = add_name (addn l) x.
Proof. unfold addn. now rewrite fold_left_app. Qed.
Lemma addn_keyed l : keyed (addn l).
Proof. induction l as [|x l IH] using rev_ind; [apply keyed_nil|]. rewrite addn_snoc. now apply sm_set_keyed. Qed.
Lemma addn_bound l : (length (addn l) <= length l)%nat /\ forall n i, In (n, i) (addn l) -> (N.to_nat i < length l)%nat.
Proof.
  induction l as [|x l [L B]] using rev_ind; [simpl; split; [lia|tauto]|]. rewrite addn_snoc, app_length. unfold add_name.
  rewrite sm_set_length by apply addn_keyed. simpl length. split.
  - destruct (sm_find x (addn l)); lia.
  - intros n i I. apply keyed_in in I; [|apply sm_set_keyed, addn_keyed]. rewrite sm_find_set in I by apply addn_keyed.
    destruct (str_eqb n x); [injection I as <-; lia|]. apply keyed_in in I; [|apply addn_keyed]. apply B in I. lia.
Qed.
Lemma addn_names l n : In n (map fst (addn l)) <-> In n l.
Proof.
  induction l as [|x l IH] using rev_ind; [simpl; tauto|]. rewrite addn_snoc. unfold add_name. rewrite sm_set_keys, IH, in_app_iff.
  simpl. intuition.
Qed.
Lemma NoDup_snoc {A} (l : list A) x : NoDup (l ++ [x]) -> NoDup l /\ ~ In x l.
Proof. intros H. apply NoDup_remove in H. rewrite app_nil_r in H. exact H. Qed.
Lemma addn_find l : NoDup l -> length (addn l) = length l /\
  forall n i, sm_find n (addn l) = Some i <-> nth_error l (N.to_nat i) = Some n.
Proof.
  induction l as [|x l IH] using rev_ind.
  - intros _. split; [reflexivity|]. intros n i. split; [discriminate|]. now destruct (N.to_nat i).
  - intros ND. apply NoDup_snoc in ND as [ND NI]. destruct (IH ND) as [L F]. rewrite addn_snoc. unfold add_name.
    rewrite sm_set_length by apply addn_keyed. assert (NF : sm_find x (addn l) = None) by (apply sm_find_none; now rewrite addn_names).
    rewrite NF, app_length. simpl length. split; [lia|]. intros n i. rewrite sm_find_set by apply addn_keyed.
    destruct (str_eqb n x) eqn:E.
    + apply str_eqb_eq in E. subst n. rewrite L. split.
      * intros [= <-]. rewrite Nat2N.id, nth_error_app2 by lia. now rewrite Nat.sub_diag.
      * intros H. destruct (Nat.lt_ge_cases (N.to_nat i) (length l)) as [LT|GE].
        -- rewrite nth_error_app1 in H by lia. apply nth_error_In in H. tauto.
        -- assert (N.to_nat i < length (l ++ [x]))%nat by (apply nth_error_Some; congruence). rewrite app_length in *. simpl in *.
           f_equal. lia.
    + rewrite F. assert (NE : n <> x) by (intros ->; rewrite str_eqb_refl in E; discriminate).
      destruct (Nat.lt_ge_cases (N.to_nat i) (length l)) as [LT|GE].
      * now rewrite nth_error_app1 by lia.
      * rewrite nth_error_app2 by lia. split; intros H.
        -- assert (N.to_nat i < length l)%nat by (apply nth_error_Some; congruence). lia.
        -- destruct (N.to_nat i - length l)%nat as [|k]; simpl in H; [congruence|]. now destruct k.
Qed.
Lemma add_plans_fst q l m o : fst (add_plans q l m o) = fold_left add_name (map l_name l) m.
Proof. revert m o. induction l as [|p l IH]; intros m o; simpl; auto. Qed.
Lemma add_plans_app q a b m o : add_plans q (a ++ b) m o = let r := add_plans q a m o in add_plans q b (fst r) (snd r).
Proof. revert m o. induction a as [|p a IH]; intros m o; simpl; auto. Qed.
Lemma add_plans_snd q l : match snd (add_plans q l [] None) with
  | None => ~ In q (map l_name l)
  | Some i => (N.to_nat i < length l)%nat /\ (NoDup (map l_name l) -> nth_error (map l_name l) (N.to_nat i) = Some q)
  end.
Proof.
  induction l as [|p l IH] using rev_ind; [simpl; tauto|]. rewrite add_plans_app. cbv zeta. cbn [add_plans snd].
  rewrite add_plans_fst. fold (addn (map l_name l)). rewrite map_app, app_length. simpl map. simpl length.
  destruct (str_eqb (l_name p) q) eqn:E.
  - apply str_eqb_eq in E. destruct (addn_bound (map l_name l)) as [L _]. rewrite map_length in L. split; [lia|].
    intros ND. apply NoDup_snoc in ND as [ND _]. destruct (addn_find _ ND) as [L2 _]. rewrite Nat2N.id, L2, nth_error_app2 by lia.
    rewrite Nat.sub_diag. simpl. now rewrite E.
  - destruct (snd (add_plans q l [] None)) as [i|].
    + destruct IH as [A B]. split; [lia|]. intros ND. apply NoDup_snoc in ND as [ND _].
      rewrite nth_error_app1 by (rewrite map_length; lia). auto.
    + rewrite in_app_iff. simpl. intros [I|[I|[]]]; [tauto|]. subst q. rewrite str_eqb_refl in E. discriminate.
Qed.

(** ** Keys *)
Lemma generated_exists n : existsb (Z.eqb 36) n = true <-> generated n.
Proof.
  unfold generated. rewrite existsb_exists. split.
  - intros (c & I & E). apply Z.eqb_eq in E. now subst.
  - intros I. exists 36. split; auto.
Qed.
Lemma key_same f n f' n' : key_of f n = key_of f' n' <-> same_local f n f' n'.
Proof.
  unfold key_of, same_local. pose proof (generated_exists n) as G. pose proof (generated_exists n') as G'.
  destruct (existsb (Z.eqb 36) n) eqn:E, (existsb (Z.eqb 36) n') eqn:E'; split; intros H; try discriminate.
  - injection H as <-. intuition.
  - now destruct H as [-> _].
  - destruct H as [-> _]. congruence.
  - destruct H as [-> _]. congruence.
  - injection H as <- <-. auto.
  - destruct H as [-> [H| ->]]; [apply G in H; discriminate|reflexivity].
Qed.
Lemma reservedb_spec n : reservedb n = true <-> reserved n.
Proof. unfold reservedb, reserved. now rewrite orb_true_iff, !str_eqb_eq. Qed.
Lemma same_localb_key x y : same_localb x y = true <-> key_of (fst x) (snd x) = key_of (fst y) (snd y).
Proof.
  rewrite key_same. unfold same_localb, same_local. rewrite andb_true_iff, orb_true_iff, str_eqb_eq, generated_exists.
  destruct x as [[i|] n], y as [[j|] m]; simpl; rewrite ?Nat.eqb_eq; intuition (try congruence; try discriminate).
Qed.

Lemma distinct_count {A B} (same : A -> A -> bool) (g : A -> B) (eqb : B -> B -> bool) l :
  (forall a b, eqb a b = true <-> a = b) -> (forall x y, same x y = true <-> g x = g y) ->
  length (grow eqb [] (map g l)) = length (distinct same l).
Proof.
  intros EQ SM.
  assert (D : NoDup (map g (distinct same l)) /\ forall y, In y (map g (distinct same l)) <-> In y (map g l)).
  { induction l as [|x l [N I]]; simpl; [split; [constructor|tauto]|].
    destruct (existsb (same x) l) eqn:E.
    - split; auto. intros y. rewrite I. apply existsb_exists in E. destruct E as (z & Iz & E). apply SM in E.
      split; auto. intros [<-|H]; auto. rewrite E. now apply in_map.
    - simpl. split.
      + constructor; auto. rewrite I. intros H. apply in_map_iff in H. destruct H as (z & E2 & Iz).
        assert (existsb (same x) l = true) by (apply existsb_exists; exists z; split; auto; apply SM; auto). congruence.
      + intros y. now rewrite I. }
  destruct D as [N I]. assert (NG : NoDup (grow eqb [] (map g l))) by (apply grow_nodup; auto; constructor).
  assert (IG : forall y, In y (grow eqb [] (map g l)) <-> In y (map g l)) by (intros y; rewrite (grow_in eqb EQ); simpl; tauto).
  rewrite <- (map_length g (distinct same l)). apply Nat.le_antisymm; apply NoDup_incl_length; auto; intros y Iy.
  - apply I, IG, Iy.
  - apply IG, I, Iy.
Qed.
Lemma count_locals_table p : length (t_locals (final_table p)) = count_locals p.
Proof. unfold count_locals, final_table, growt. simpl. apply distinct_count; [apply key_eqb_eq|apply same_localb_key]. Qed.
Lemma count_strings_table p : length (t_strings (final_table p)) = count_strings p.
Proof.
  unfold count_strings, final_table, growt. cbn [t_strings]. rewrite <- (map_id (strings p)) at 1.
  apply distinct_count; apply str_eqb_eq.
Qed.

(** ** The table of a program *)
Lemma map_snd_combine {A} (l : list A) : forall k, map snd (combine (seq k (length l)) l) = l.
Proof. induction l as [|x l IH]; intros k; simpl; [reflexivity|]. f_equal. apply IH. Qed.
Section Table.
  Variable p : prog.
  Notation T := (final_table p).
  Lemma K_in x l : In x l -> ~ reserved (snd x) -> In (key_of (fst x) (snd x)) (K l).
  Proof.
    intros I R. unfold K. apply in_map_iff. exists x. split; auto. apply filter_In. split; auto.
    destruct (reservedb (snd x)) eqn:E; auto. apply reservedb_spec in E. tauto.
  Qed.
  Lemma K_elim k l : In k (K l) -> exists x, In x l /\ ~ reserved (snd x) /\ k = key_of (fst x) (snd x).
  Proof.
    unfold K. intros I. apply in_map_iff in I. destruct I as (x & <- & I). apply filter_In in I as [I R]. exists x. split; auto.
    split; auto. intros H. apply reservedb_spec in H. rewrite H in R. discriminate.
  Qed.
  Lemma table_locals k : In k (t_locals T) <-> In k (K (names p)).
  Proof. unfold final_table, growt. cbn [t_locals]. rewrite (grow_in key_eqb key_eqb_eq). simpl. tauto. Qed.
  Lemma table_nodup : NoDup (t_locals T).
  Proof. unfold final_table, growt. cbn [t_locals]. apply (grow_nodup key_eqb key_eqb_eq). constructor. Qed.
  Lemma nl_own f n : ~ reserved n -> nl T f n = match index_of key_eqb (key_of f n) (t_locals T) with Some i => i + 2 | None => -1 end.
  Proof.
    intros R. unfold nl. destruct (str_eqb n $"input") eqn:E1; [apply str_eqb_eq in E1; exfalso; apply R; left; exact E1|].
    destruct (str_eqb n $"data") eqn:E2; [apply str_eqb_eq in E2; exfalso; apply R; right; exact E2|]. reflexivity.
  Qed.
  Lemma nl_index x : In x (names p) -> ~ reserved (snd x) ->
    exists i, index_of key_eqb (key_of (fst x) (snd x)) (t_locals T) = Some i /\ nl T (fst x) (snd x) = i + 2 /\
              0 <= i < Z.of_nat (count_locals p).
  Proof.
    intros I R. destruct (idx_some key_eqb key_eqb_eq (key_of (fst x) (snd x)) (t_locals T)) as [i E].
    { apply table_locals, K_in; auto. }
    exists i. split; auto. rewrite nl_own, E by auto. split; auto.
    apply (idx_nth key_eqb key_eqb_eq) in E. destruct E as [B _]. unfold zlen in B. now rewrite count_locals_table in B.
  Qed.
  Lemma nl_reserved f n : reserved n -> 0 <= nl T f n <= 1.
  Proof.
    intros [->| ->]; unfold nl; [rewrite str_eqb_refl; lia|]. change (str_eqb $"data" $"input") with false. rewrite str_eqb_refl. lia.
  Qed.
  Lemma reserved_dec n : reserved n \/ ~ reserved n.
  Proof. destruct (reservedb n) eqn:E; [left; now apply reservedb_spec|right]. intros H. apply reservedb_spec in H. congruence. Qed.
  Lemma nl_range x : In x (names p) -> 0 <= nl T (fst x) (snd x) < Z.of_nat (count_locals p) + 2.
  Proof.
    intros I. destruct (reserved_dec (snd x)) as [R|R].
    - pose proof (nl_reserved (fst x) (snd x) R). lia.
    - destruct (nl_index x I R) as (i & _ & -> & B). lia.
  Qed.
  Lemma numbering_ok : numbering (nl T) p.
  Proof.
    constructor.
    - intros f. reflexivity.
    - intros f. reflexivity.
    - intros x I R. destruct (nl_index x I R) as (i & _ & -> & B). lia.
    - intros x y Ix Iy Rx Ry. destruct (nl_index x Ix Rx) as (i & Ei & -> & _), (nl_index y Iy Ry) as (j & Ej & -> & _).
      rewrite <- key_same. split; intros H.
      + assert (i = j) by lia. subst. eapply (idx_inj key_eqb key_eqb_eq); eauto.
      + rewrite H in Ei. congruence.
  Qed.
  Lemma table_strings s : In s (t_strings T) <-> In s (strings p).
  Proof. unfold final_table, growt. cbn [t_strings]. rewrite (grow_in str_eqb str_eqb_eq). simpl. tauto. Qed.
  Lemma ns_index s : In s (strings p) -> 0 <= ns T s < Z.of_nat (count_strings p) /\ znth (t_strings T) (ns T s) = Some s.
  Proof.
    intros I. unfold ns. destruct (idx_some str_eqb str_eqb_eq s (t_strings T)) as [i E]; [now apply table_strings|]. rewrite E.
    apply (idx_nth str_eqb str_eqb_eq) in E. destruct E as [B N]. unfold znth, zlen in *. rewrite count_strings_table in *. split; auto.
    destruct (Z.leb_spec 0 i); [|lia]. destruct (Z.ltb_spec i (Z.of_nat (count_strings p))); [|lia]. exact N.
  Qed.
  Lemma interned_ok : interned (ns T) p (t_strings T).
  Proof.
    split; [|split].
    - unfold final_table, growt. cbn [t_strings]. apply (grow_nodup str_eqb str_eqb_eq). constructor.
    - apply table_strings.
    - intros s I. now apply ns_index.
  Qed.

  (** ** The bundle *)
  Definition fn_of (x : nat * fn str str) : func :=
    let r := nl T (Some (fst x)) in
    {| f_name := n_name (snd x); f_arity := zlen (n_params (snd x)); f_params := map (fun n => Z.to_N (r n)) (n_params (snd x));
       f_result := Z.to_N (r (n_result (snd x))); f_blocks := map (map (stmt_of r (ns T))) (n_blocks (snd x));
       f_cacheable := zlen (n_params (snd x)) =? 2 |}.
  Definition pl_of (x : pl str str) : plan :=
    {| p_name := l_name x; p_blocks := map (map (stmt_of (nl T None) (ns T))) (l_blocks x) |}.
  Definition fn_slots (x : nat * fn str str) : list Z := map (nl T (Some (fst x))) (flat_map subjects (fn_body (snd x))).
  Definition pl_slots (x : pl str str) : list Z := map (nl T None) (flat_map subjects (pl_body x)).
  Definition top : Z := maxes 2 (flat_map fn_slots (numbered_fns (g_fns p)) ++ flat_map pl_slots (g_plans p)).
  Definition bundle_of : bundle :=
    {| b_data := g_data p; b_name_to_func := addn (map n_name (g_fns p)); b_name_to_plan := addn (map l_name (g_plans p));
       b_plans := map pl_of (g_plans p); b_functions := map fn_of (numbered_fns (g_fns p)); b_strings := t_strings T;
       b_locals := Z.to_N (top + 1); b_query_plan := snd (add_plans (g_query p) (g_plans p) [] None) |}.

  Hypothesis many_locals : (Z.of_nat (count_locals p) + 2 <= 2 ^ 32).
  Hypothesis many_strings : (Z.of_nat (count_strings p) <= 2 ^ 32).
  Hypothesis Hplan : g_plans p <> [].
  Hypothesis Hwf : Forall (well_formed (arity_in (g_fns p))) (body p).
  Notation ar := (arity_in (g_fns p)).

  Lemma numbered_nth i f : In (i, f) (numbered_fns (g_fns p)) <-> nth_error (g_fns p) i = Some f.
  Proof.
    unfold numbered_fns. assert (G : forall l k, In (i, f) (combine (seq k (length l)) l) <-> (k <= i)%nat /\ nth_error l (i - k) = Some f).
    { induction l as [|x l IH]; intros k; simpl.
      - split; [tauto|]. intros [_ H]. now destruct (i - k)%nat.
      - rewrite IH. split.
        + intros [[= <- <-]|[LE N]].
          * now rewrite Nat.sub_diag.
          * split; [lia|]. replace (i - k)%nat with (Datatypes.S (i - Datatypes.S k)) by lia. exact N.
        + intros [LE N]. destruct (i - k)%nat as [|m] eqn:E.
          * simpl in N. injection N as ->. left. f_equal. lia.
          * right. split; [lia|]. replace (i - Datatypes.S k)%nat with m by lia. exact N. }
    rewrite G, Nat.sub_0_r. intuition lia.
  Qed.
  Lemma numbered_snd : map snd (numbered_fns (g_fns p)) = g_fns p.
  Proof.
    unfold numbered_fns. apply map_snd_combine.
  Qed.
  Lemma numbered_length : length (numbered_fns (g_fns p)) = length (g_fns p).
  Proof. rewrite <- (map_length snd). now rewrite numbered_snd. Qed.

  Lemma fn_stmt_names x s n : In x (numbered_fns (g_fns p)) -> In s (fn_body (snd x)) -> In n (locals_in s) ->
    In (Some (fst x), n) (names p).
  Proof.
    intros Ix Is In_n. unfold names. apply in_app_iff. right. apply in_flat_map. exists x. split; auto. unfold fn_names.
    apply in_map_iff. exists n. split; auto. rewrite !in_app_iff. right. left. apply in_flat_map. eauto.
  Qed.
  Lemma pl_stmt_names x s n : In x (g_plans p) -> In s (pl_body x) -> In n (locals_in s) -> In (None, n) (names p).
  Proof.
    intros Ix Is In_n. unfold names, plan_names. apply in_app_iff. left. apply in_map_iff. exists n. split; auto.
    apply in_flat_map. exists x. split; auto. apply in_flat_map. eauto.
  Qed.
  Lemma fn_in_body x s : In x (numbered_fns (g_fns p)) -> In s (fn_body (snd x)) -> In s (body p).
  Proof.
    intros Ix Is. unfold body. apply in_app_iff. right. apply in_flat_map. exists (snd x). split; auto.
    rewrite <- numbered_snd. now apply in_map.
  Qed.
  Lemma pl_in_body x s : In x (g_plans p) -> In s (pl_body x) -> In s (body p).
  Proof. intros Ix Is. unfold body. apply in_app_iff. left. apply in_flat_map. eauto. Qed.
  Lemma body_strings s x : In s (body p) -> In x (strings_in s) -> In x (strings p).
  Proof. intros. unfold strings. apply in_flat_map. eauto. Qed.

  Lemma fn_bounded x s : In x (numbered_fns (g_fns p)) -> In s (fn_body (snd x)) -> bounded (nl T (Some (fst x))) (ns T) s.
  Proof.
    intros Ix Is. split; intros n Hn; unfold small.
    - pose proof (nl_range _ (fn_stmt_names x s n Ix Is Hn)) as R. cbn [fst snd] in R. lia.
    - destruct (ns_index n (body_strings s n (fn_in_body x s Ix Is) Hn)). lia.
  Qed.
  Lemma pl_bounded x s : In x (g_plans p) -> In s (pl_body x) -> bounded (nl T None) (ns T) s.
  Proof.
    intros Ix Is. split; intros n Hn; unfold small.
    - pose proof (nl_range _ (pl_stmt_names x s n Ix Is Hn)) as R. cbn [fst snd] in R. lia.
    - destruct (ns_index n (body_strings s n (pl_in_body x s Ix Is) Hn)). lia.
  Qed.
  Lemma body_wf s : In s (body p) -> well_formed ar s.
  Proof. rewrite Forall_forall in Hwf. auto. Qed.

  Lemma blocks_ok rho bs m : (forall s, In s (concat bs) -> bounded rho (ns T) s /\ well_formed ar s) ->
    node_to_blocks (map (map (map_ir (text rho) (text (ns T)) (fun x => x))) bs) m =
    Ok (map (map (stmt_of rho (ns T))) bs, maxes m (map rho (flat_map subjects (concat bs)))).
  Proof.
    intros H. unfold node_to_blocks.
    rewrite (thread_ok _ _ (map (stmt_of rho (ns T))) (fun b => map rho (flat_map subjects b))).
    - now rewrite <- maxes_flat, flat_map_concat'.
    - apply Forall_forall. intros b Ib m'. rewrite (thread_ok _ _ (stmt_of rho (ns T)) (fun x => map rho (subjects x))).
      + now rewrite maxes_flat.
      + apply Forall_forall. intros s Is m2. destruct (H s) as [B W]; [apply in_concat; eauto|]. now apply (node_to_statement_ok rho (ns T) ar).
  Qed.

  Lemma add_plans_text t q l : forall m o, add_plans q (map (pl_text t) l) m o = add_plans q l m o.
  Proof. induction l as [|x l IH]; intros m o; [reflexivity|]. cbn [map add_plans]. rewrite IH. reflexivity. Qed.
  Lemma build_ok : build p = Ok bundle_of.
  Proof.
    unfold build. rewrite index_pass_ok by auto. unfold from_node. cbn [g_fns g_plans g_data g_strings g_query].
    rewrite (thread_ok _ (fn_text T) fn_of fn_slots).
    - cbn [obind fst snd]. destruct (add_plans (g_query p) (map (pl_text T) (g_plans p)) [] None) as [n2p qp] eqn:AP.
      rewrite (thread_ok _ (pl_text T) pl_of pl_slots).
      + cbn [obind fst snd]. unfold bundle_of, top. do 2 f_equal.
        * unfold addn. rewrite <- numbered_snd at 2. rewrite map_map. generalize (@nil (str * N)).
          induction (numbered_fns (g_fns p)) as [|x l IH]; intros m; simpl; auto.
        * pose proof (add_plans_fst (g_query p) (map (pl_text T) (g_plans p)) [] None) as F. rewrite AP in F. simpl in F.
          rewrite F. unfold addn. rewrite map_map. reflexivity.
        * unfold maxes. now rewrite fold_left_app.
        * change qp with (snd (n2p, qp)). rewrite <- AP. now rewrite add_plans_text.
      + apply Forall_forall. intros x Ix m. unfold node_to_plan, pl_text. cbn [l_blocks l_name]. rewrite blocks_ok; [reflexivity|].
        intros s Is. split; [apply (pl_bounded x s Ix Is)|apply body_wf, (pl_in_body x s Ix Is)].
    - apply Forall_forall. intros x Ix m. unfold node_to_function, fn_text. cbn [n_params n_result n_blocks n_name]. cbv zeta.
      assert (NB : forall n, In n (n_params (snd x) ++ [n_result (snd x)]) -> small (nl T (Some (fst x)) n)).
      { intros n Hn. assert (In (Some (fst x), n) (names p)) as I.
        { unfold names. apply in_app_iff. right. apply in_flat_map. exists x. split; auto. unfold fn_names.
          apply in_map_iff. exists n. split; auto. rewrite !in_app_iff in *. tauto. }
        pose proof (nl_range _ I) as R. cbn [fst snd] in R. unfold small. lia. }
      rewrite map_o_map, (map_o_ok _ (nl T (Some (fst x)))).
      + cbn [obind]. unfold text at 1. rewrite to_size_dec by (apply NB, in_app_iff; right; now left). cbn [obind].
        rewrite blocks_ok.
        * cbn [obind fst snd]. unfold fn_of, zlen. rewrite map_length, map_map. reflexivity.
        * intros s Is. split; [apply (fn_bounded x s Ix Is)|apply body_wf, (fn_in_body x s Ix Is)].
      + intros n Hn. unfold text. apply to_size_dec, NB, in_app_iff. auto.
  Qed.

  Lemma says_blocks_ok rho bs : (forall s, In s (concat bs) -> bounded rho (ns T) s /\ well_formed ar s) ->
    says_blocks (map (map (stmt_of rho (ns T))) bs) = Some (map (map (map_ir rho (ns T) norm)) bs).
  Proof.
    intros H. unfold says_blocks. apply opt_list_ok. intros b Ib. apply opt_list_ok. intros s Is.
    destruct (H s) as [B W]; [apply in_concat; eauto|]. now apply (says_stmt_of rho (ns T) ar).
  Qed.
  Lemma Forall2_map_r {A B} (R : A -> B -> Prop) (g : A -> B) l : (forall x, In x l -> R x (g x)) -> Forall2 R l (map g l).
  Proof. induction l as [|x l IH]; intros H; simpl; constructor; [apply H; now left|]. apply IH. intros y I. apply H. now right. Qed.
  Lemma says_ok : says_prog (nl T) (ns T) p bundle_of.
  Proof.
    constructor; cbn [b_data b_plans b_functions bundle_of].
    - reflexivity.
    - apply Forall2_map_r. intros x Ix. cbn [p_name p_blocks pl_of]. split; auto. apply says_blocks_ok.
      intros s Is. split; [apply (pl_bounded x s Ix Is)|apply body_wf, (pl_in_body x s Ix Is)].
    - apply Forall2_map_r. intros x Ix. unfold fn_of. cbn [f_name f_params f_arity f_cacheable f_result f_blocks]. cbv zeta.
      assert (NB : forall n, In n (n_params (snd x) ++ [n_result (snd x)]) -> 0 <= nl T (Some (fst x)) n).
      { intros n Hn. assert (In (Some (fst x), n) (names p)) as I.
        { unfold names. apply in_app_iff. right. apply in_flat_map. exists x. split; auto. unfold fn_names.
          apply in_map_iff. exists n. split; auto. rewrite !in_app_iff in *. tauto. }
        pose proof (nl_range _ I) as R. cbn [fst snd] in R. lia. }
      split; [reflexivity|]. split; [|split; [reflexivity|split; [|split]]].
      + rewrite map_map. apply map_ext_in. intros n Hn. apply Z2N.id, NB, in_app_iff. auto.
      + unfold zlen. destruct (Z.eqb_spec (Z.of_nat (length (n_params (snd x)))) 2) as [E|E];
          destruct (Nat.eqb_spec (length (n_params (snd x))) 2) as [E2|E2]; auto; exfalso; lia.
      + apply Z2N.id, NB, in_app_iff. right. now left.
      + apply says_blocks_ok. intros s Is. split; [apply (fn_bounded x s Ix Is)|apply body_wf, (fn_in_body x s Ix Is)].
  Qed.
End Table.

(** ** How many locals *)
Lemma maxes_ge m l : m <= maxes m l.
Proof. unfold maxes. revert m. induction l as [|x l IH]; intros m; simpl; [lia|]. specialize (IH (Z.max m x)). lia. Qed.
Lemma maxes_in m l x : In x l -> x <= maxes m l.
Proof.
  unfold maxes. revert m. induction l as [|y l IH]; intros m; simpl; [tauto|]. intros [->|I]; [|now apply IH].
  pose proof (maxes_ge (Z.max m x) l) as H. unfold maxes in H. lia.
Qed.
Lemma maxes_le m l u : m <= u -> (forall x, In x l -> x <= u) -> maxes m l <= u.
Proof.
  unfold maxes. revert m. induction l as [|y l IH]; intros m Hm H; simpl; auto. apply IH; [|intros x I; apply H; now right].
  specialize (H y (or_introl eq_refl)). lia.
Qed.
Lemma subjects_locals {L S'} (s : ir L S') : incl (subjects s) (locals_in s).
Proof.
  induction s as [s IH] using ir_ind'. rewrite Forall_forall in IH.
  destruct s; cbn [subjects locals_in inner] in *; intros n Hn; rewrite ?in_app_iff; cbn [In] in *; try tauto.
  - apply in_flat_map in Hn. destruct Hn as (b & Ib & Hn). apply in_flat_map in Hn. destruct Hn as (x & Ix & Hn).
    apply in_flat_map. exists b. split; auto. apply in_flat_map. exists x. split; auto. apply IH; auto. apply in_concat. eauto.
  - apply in_flat_map in Hn. destruct Hn as (x & Ix & Hn). apply in_flat_map. exists x. split; auto. now apply IH.
  - apply in_app_iff in Hn. destruct Hn as [Hn|Hn]; [cbn [In] in Hn; tauto|]. left. apply in_flat_map in Hn. destruct Hn as (x & Ix & Hn).
    apply in_flat_map. exists x. split; auto. now apply IH.
  - destruct Hn as [Hn|Hn]; [tauto|]. right. left. apply in_flat_map in Hn. destruct Hn as (x & Ix & Hn).
    apply in_flat_map. exists x. split; auto. now apply IH.
Qed.

Section Compiled.
  Variable p : prog.
  Hypothesis C : compiled p.
  Notation T := (final_table p).
  Notation B := (bundle_of p).
  Notation ar := (arity_in (g_fns p)).

  Lemma subject_slot x : In x (all_subjects p) -> nl T (fst x) (snd x) <= top p.
  Proof.
    unfold all_subjects, top. intros I. apply maxes_in. apply in_app_iff in I. apply in_app_iff. destruct I as [I|I].
    - right. apply in_map_iff in I. destruct I as (n & <- & I). apply in_flat_map in I. destruct I as (y & Iy & I).
      apply in_flat_map. exists y. split; auto. unfold pl_slots. cbn [fst snd]. apply in_map. exact I.
    - left. apply in_flat_map in I. destruct I as (y & Iy & I). unfold fn_subjects in I. apply in_map_iff in I.
      destruct I as (n & <- & I). apply in_flat_map. exists y. split; auto. unfold fn_slots. cbn [fst snd]. apply in_map. exact I.
  Qed.
  Lemma subject_named x : In x (all_subjects p) -> In x (names p).
  Proof.
    unfold all_subjects. intros I. apply in_app_iff in I. destruct I as [I|I].
    - apply in_map_iff in I. destruct I as (n & <- & I). apply in_flat_map in I. destruct I as (y & Iy & I).
      apply in_flat_map in I. destruct I as (s & Is & I). eapply pl_stmt_names; eauto. now apply subjects_locals.
    - apply in_flat_map in I. destruct I as (y & Iy & I). unfold fn_subjects in I. apply in_map_iff in I.
      destruct I as (n & <- & I). apply in_flat_map in I. destruct I as (s & Is & I). eapply fn_stmt_names; eauto. now apply subjects_locals.
  Qed.
  Lemma fn_slots_subjects y n : In y (numbered_fns (g_fns p)) -> In n (flat_map subjects (fn_body (snd y))) ->
    In (Some (fst y), n) (all_subjects p).
  Proof.
    intros Iy I. unfold all_subjects. apply in_app_iff. right. apply in_flat_map. exists y. split; auto. unfold fn_subjects.
    apply in_map_iff. eauto.
  Qed.
  Lemma top_ge : 2 <= top p.
  Proof. apply maxes_ge. Qed.

  (** A parameter gets its slot before the result of its function does. *)
  Lemma param_before i f n : nth_error (g_fns p) i = Some f -> In n (n_params f) -> ~ reserved n ->
    nl T (Some i) n < nl T (Some i) (n_result f).
  Proof.
    intros F P R. destruct (c_result p C i f F) as (SUB & NR & NP & FRESH).
    set (pre := plan_names p ++ flat_map fn_names (firstn i (numbered_fns (g_fns p)))) in *.
    set (ps := map (pair (Some i)) (n_params f)).
    assert (NTH : nth_error (numbered_fns (g_fns p)) i = Some (i, f)).
    { unfold numbered_fns. assert (G : forall l k j, nth_error l j = Some f -> nth_error (combine (seq k (length l)) l) j = Some ((k + j)%nat, f)).
      { induction l as [|x l IH]; intros k j H; [now destruct j|]. destruct j as [|j]; simpl in *.
        - injection H as ->. now rewrite Nat.add_0_r.
        - rewrite (IH (Datatypes.S k) j H). do 2 f_equal. lia. }
      exact (G (g_fns p) 0%nat i F). }
    assert (SPLIT : exists rest, names p = (pre ++ ps) ++ rest).
    { assert (NE : names p = plan_names p ++ flat_map fn_names (firstn i (numbered_fns (g_fns p)) ++ skipn i (numbered_fns (g_fns p))))
        by (now rewrite firstn_skipn).
      rewrite NE, flat_map_app. unfold pre. clear NE.
      destruct (skipn i (numbered_fns (g_fns p))) as [|y l] eqn:SK.
      - exfalso. assert (length (skipn i (numbered_fns (g_fns p))) = 0)%nat by now rewrite SK. rewrite skipn_length in H.
        assert (i < length (numbered_fns (g_fns p)))%nat by (apply nth_error_Some; congruence). lia.
      - assert (y = (i, f)) as ->.
        { pose proof NTH as N2. rewrite <- (firstn_skipn i (numbered_fns (g_fns p))) in N2. rewrite SK in N2.
          assert (i < length (numbered_fns (g_fns p)))%nat by (apply nth_error_Some; congruence).
          rewrite nth_error_app2 in N2 by (rewrite firstn_length; lia). rewrite firstn_length in N2.
          replace (i - Nat.min i (length (numbered_fns (g_fns p))))%nat with 0%nat in N2 by lia. simpl in N2. congruence. }
        simpl flat_map. unfold fn_names at 2. cbn [fst snd]. rewrite map_app. fold ps. eexists. rewrite <- !app_assoc. reflexivity. }
    destruct SPLIT as [rest SPLIT].
    assert (LOC : t_locals T = grow key_eqb (grow key_eqb [] (K (pre ++ ps))) (K rest)).
    { unfold final_table, growt. cbn [t_locals]. now rewrite SPLIT, K_app, grow_app. }
    assert (IN1 : In (Some i, n) (names p)).
    { rewrite SPLIT, !in_app_iff. left. right. unfold ps. now apply in_map. }
    assert (IN2 : In (Some i, n_result f) (names p)).
    { apply subject_named, (fn_slots_subjects (i, f)); auto. apply nth_error_In in NTH. exact NTH. }
    destruct (nl_index p _ IN1 R) as (a & Ea & Na & _), (nl_index p _ IN2 NR) as (b & Eb & Nb & _). cbn [fst snd] in *.
    rewrite Na, Nb. rewrite LOC in Ea, Eb.
    assert (a < b); [|lia]. eapply (grow_before key_eqb key_eqb_eq); [| |exact Ea|exact Eb].
    - rewrite (grow_in key_eqb key_eqb_eq). right. rewrite K_app, in_app_iff. right. apply (K_in (Some i, n)); auto. unfold ps. now apply in_map.
    - rewrite (grow_in key_eqb key_eqb_eq). intros [[]|I]. apply K_elim in I. destruct I as (x & Ix & Rx & E).
      apply in_app_iff in Ix. destruct Ix as [Ix|Ix].
      + apply FRESH. exists x. split; auto. cbn [fst snd]. now apply key_same.
      + unfold ps in Ix. apply in_map_iff in Ix. destruct Ix as (m & <- & Im). cbn [fst snd] in E. apply key_same in E.
        destruct E as [E _]. congruence.
  Qed.

  Lemma name_slot x : In x (names p) -> nl T (fst x) (snd x) <= top p.
  Proof.
    intros I. pose proof top_ge as TG. destruct (reserved_dec (snd x)) as [R|R].
    - pose proof (nl_reserved p (fst x) (snd x) R). lia.
    - destruct (c_scope p C x I R) as [(i & f & E & F & P)|(y & Iy & S)].
      + rewrite E. pose proof (param_before i f (snd x) F P R). destruct (c_result p C i f F) as (SUB & _).
        assert (nl T (Some i) (n_result f) <= top p); [|lia].
        apply (subject_slot (Some i, n_result f)). apply (fn_slots_subjects (i, f)); auto. now apply numbered_nth.
      + apply key_same in S. pose proof (subject_slot y Iy) as H.
        assert (~ reserved (snd y)) as Ry.
        { apply key_same in S. destruct S as [<- _]. exact R. }
        rewrite nl_own in * by auto. now rewrite S.
  Qed.
  Lemma top_exact : top p + 1 = Z.max 3 (Z.of_nat (count_locals p) + 2).
  Proof.
    pose proof top_ge as TG.
    assert (U : top p <= Z.max 2 (Z.of_nat (count_locals p) + 1)).
    { apply maxes_le; [lia|]. intros z Iz. apply in_app_iff in Iz. destruct Iz as [Iz|Iz]; apply in_flat_map in Iz;
        destruct Iz as (y & Iy & Iz); [unfold fn_slots in Iz|unfold pl_slots in Iz]; apply in_map_iff in Iz; destruct Iz as (n & <- & I);
        apply in_flat_map in I; destruct I as (s & Is & I); apply subjects_locals in I.
      - pose proof (nl_range p _ (fn_stmt_names p y s n Iy Is I)). cbn [fst snd] in *. lia.
      - pose proof (nl_range p _ (pl_stmt_names p y s n Iy Is I)). cbn [fst snd] in *. lia. }
    destruct (count_locals p) as [|c] eqn:CE; [lia|].
    assert (Z.of_nat (Datatypes.S c) + 1 <= top p); [|lia].
    pose proof (count_locals_table p) as L. rewrite CE in L.
    destruct (nth_error (t_locals T) c) as [k|] eqn:N; [|apply nth_error_None in N; lia].
    assert (I : In k (t_locals T)) by (eapply nth_error_In; eauto). apply table_locals in I. apply K_elim in I.
    destruct I as (x & Ix & R & ->). pose proof (name_slot x Ix) as LE. destruct (nl_index p x Ix R) as (i & E & NE & B0).
    rewrite NE in LE. apply (idx_nth key_eqb key_eqb_eq) in E. destruct E as [BI NI].
    assert (Z.to_nat i = c).
    { pose proof (table_nodup p) as ND. rewrite NoDup_nth_error in ND. apply ND; [|congruence]. apply nth_error_Some. congruence. }
    lia.
  Qed.

  (** ** Verification *)
  Hypothesis many_locals : (Z.of_nat (count_locals p) + 2 <= 2 ^ 32).
  Hypothesis many_strings : (Z.of_nat (count_strings p) <= 2 ^ 32).
  Lemma locals_B : zn (b_locals B) = top p + 1.
  Proof. cbn [b_locals bundle_of]. pose proof top_ge. rewrite Z2N.id; lia. Qed.
  Lemma strings_B : zlen (b_strings B) = Z.of_nat (count_strings p).
  Proof. cbn [b_strings bundle_of]. unfold zlen. now rewrite count_strings_table. Qed.
  Lemma znth_nth {A} (l : list A) i a : nth_error l (N.to_nat i) = Some a -> znth l (zn i) = Some a.
  Proof.
    intros H. assert (N.to_nat i < length l)%nat by (apply nth_error_Some; congruence). unfold znth, zlen.
    destruct (Z.leb_spec 0 (zn i)); [|lia]. destruct (Z.ltb_spec (zn i) (Z.of_nat (length l))); [|lia].
    cbn [andb]. now replace (Z.to_nat (zn i)) with (N.to_nat i) by lia.
  Qed.
  Lemma calls_ok g i : sm_find g (b_name_to_func B) = Some i ->
    exists callee, znth (b_functions B) (zn i) = Some callee /\ ar g = Some (length (f_params callee)).
  Proof.
    cbn [b_name_to_func b_functions bundle_of]. intros H. apply (proj2 (addn_find _ (c_fns p C))) in H.
    rewrite nth_error_map in H. destruct (nth_error (g_fns p) (N.to_nat i)) as [f|] eqn:F; [|discriminate]. simpl in H. injection H as H.
    assert (NTH : nth_error (map (fn_of p) (numbered_fns (g_fns p))) (N.to_nat i) = Some (fn_of p (N.to_nat i, f))).
    { rewrite nth_error_map. unfold numbered_fns.
      assert (G : forall l k j, nth_error l j = Some f -> nth_error (combine (seq k (length l)) l) j = Some ((k + j)%nat, f)).
      { induction l as [|x l IH]; intros k j Hj; [now destruct j|]. destruct j as [|j]; simpl in *.
        - injection Hj as ->. now rewrite Nat.add_0_r.
        - rewrite (IH (Datatypes.S k) j Hj). do 2 f_equal. lia. }
      now rewrite (G (g_fns p) 0%nat _ F). }
    exists (fn_of p (N.to_nat i, f)). split; [now apply znth_nth|]. cbn [f_params fn_of]. rewrite map_length. cbn [snd].
    unfold arity_in. subst g. assert (FD : find (fun x => str_eqb (n_name x) (n_name f)) (g_fns p) = Some f).
    { pose proof (c_fns p C) as ND. apply nth_error_In in F. clear - ND F. induction (g_fns p) as [|x l IH]; [destruct F|]. simpl in *.
      inversion ND; subst. destruct F as [->|F]; [now rewrite str_eqb_refl|].
      destruct (str_eqb (n_name x) (n_name f)) eqn:E; [|auto]. apply str_eqb_eq in E. exfalso. apply H1. rewrite E. now apply in_map. }
    now rewrite FD.
  Qed.
  Lemma in_strings_numbers s : incl (numbers_in s) (@strings_in str str s).
  Proof.
    induction s as [s IH] using ir_ind'. rewrite Forall_forall in IH.
    destruct s; cbn [numbers_in strings_in inner] in *; intros n Hn; cbn [In] in *; try tauto.
    - apply in_flat_map in Hn. destruct Hn as (b & Ib & Hn). apply in_flat_map in Hn. destruct Hn as (x & Ix & Hn).
      apply in_flat_map. exists b. split; auto. apply in_flat_map. exists x. split; auto. apply IH; auto. apply in_concat. eauto.
    - apply in_flat_map in Hn. destruct Hn as (x & Ix & Hn). apply in_flat_map. exists x. split; auto. now apply IH.
    - apply in_flat_map in Hn. destruct Hn as (x & Ix & Hn). apply in_flat_map. exists x. split; auto. now apply IH.
    - apply in_flat_map in Hn. destruct Hn as (x & Ix & Hn). rewrite !in_app_iff. right. right. apply in_flat_map. exists x. split; auto. now apply IH.
  Qed.

  (** A statement that verifies has its number literals below the number of locals. *)
  Lemma verify_numbers rho s : (forall x, In x (strings_in s) -> small (ns T x)) ->
    verify_stmt B (stmt_of rho (ns T) s) = Ok tt -> forall x, In x (numbers_in s) -> ns T x < zn (b_locals B).
  Proof.
    induction s as [s IH] using ir_ind'. rewrite Forall_forall in IH. intros SM V x Ix.
    destruct s; cbn [numbers_in inner strings_in stmt_of verify_stmt] in *; try (now destruct Ix);
      rewrite ?verify_blocks_nested, ?verify_block_nested in V; apply obind_ok in V as [_ V]; apply obind_ok in V as [V0 V];
      apply obind_ok in V as [V1 V].
    - cbn [obind] in V. apply each_ok in V. rewrite Forall_forall in V. apply in_flat_map in Ix. destruct Ix as (b & Ib & Ix).
      apply in_flat_map in Ix. destruct Ix as (s & Is & Ix). eapply (IH s); eauto.
      + apply in_concat. eauto.
      + intros y Iy. apply SM. apply in_flat_map. exists b. split; auto. apply in_flat_map. eauto.
      + specialize (V (map (stmt_of rho (ns T)) b) (in_map _ _ _ Ib)). apply each_ok in V. rewrite Forall_forall in V.
        apply V. now apply in_map.
    - destruct Ix as [<-|[]]. unfold verify_operand, idx_of in V0. cbn [o_type] in V0. rewrite index_small in V0 by (apply SM; now left).
      apply require_ok, Z.ltb_lt in V0. exact V0.
    - cbn [obind] in V. apply each_ok in V. rewrite Forall_forall in V. apply in_flat_map in Ix. destruct Ix as (s & Is & Ix).
      eapply (IH s); eauto.
      + intros y Iy. apply SM. apply in_flat_map. eauto.
      + apply V. now apply in_map.
    - cbn [obind] in V. apply each_ok in V. rewrite Forall_forall in V. apply in_flat_map in Ix. destruct Ix as (s & Is & Ix).
      eapply (IH s); eauto.
      + intros y Iy. apply SM. apply in_flat_map. eauto.
      + apply V. now apply in_map.
    - cbn [obind] in V. apply obind_ok in V as [V _]. apply each_ok in V. rewrite Forall_forall in V. apply in_flat_map in Ix. destruct Ix as (s & Is & Ix).
      eapply (IH s); eauto.
      + intros y Iy. apply SM. rewrite !in_app_iff. right. right. apply in_flat_map. eauto.
      + apply V. now apply in_map.
  Qed.

  Definition numbers_fit : Prop := forall x, In x (numbers p) -> ns T x < zn (b_locals B).
  Lemma in_numbers s x : In s (body p) -> In x (numbers_in s) -> In x (numbers p).
  Proof. intros. unfold numbers. apply in_flat_map. eauto. Qed.

  Lemma stmt_verifies rho s : bounded rho (ns T) s -> In s (body p) -> (forall n, In n (locals_in s) -> rho n < zn (b_locals B)) ->
    numbers_fit -> verify_stmt B (stmt_of rho (ns T) s) = Ok tt.
  Proof.
    intros BD I L NF. apply (verify_stmt_of rho (ns T) ar B calls_ok); auto.
    - apply (body_wf p (c_stmts p C)). exact I.
    - split; [auto|split].
      + intros x Ix. rewrite strings_B. apply ns_index. eapply body_strings; eauto.
      + intros x Ix. apply NF. eapply in_numbers; eauto.
  Qed.
  Lemma fn_locals_fit x s n : In x (numbered_fns (g_fns p)) -> In s (fn_body (snd x)) -> In n (locals_in s) ->
    nl T (Some (fst x)) n < zn (b_locals B).
  Proof. intros Ix Is Hn. rewrite locals_B. pose proof (name_slot _ (fn_stmt_names p x s n Ix Is Hn)). cbn [fst snd] in *. lia. Qed.
  Lemma pl_locals_fit x s n : In x (g_plans p) -> In s (pl_body x) -> In n (locals_in s) -> nl T None n < zn (b_locals B).
  Proof. intros Ix Is Hn. rewrite locals_B. pose proof (name_slot _ (pl_stmt_names p x s n Ix Is Hn)). cbn [fst snd] in *. lia. Qed.

  Lemma verify_iff : verify B = Ok tt <-> numbers_fit.
  Proof.
    assert (FB : forall x s, In x (numbered_fns (g_fns p)) -> In s (fn_body (snd x)) -> bounded (nl T (Some (fst x))) (ns T) s).
    { intros. now apply fn_bounded. }
    assert (PB : forall x s, In x (g_plans p) -> In s (pl_body x) -> bounded (nl T None) (ns T) s).
    { intros x s Ix Is. now apply (pl_bounded p many_locals many_strings x). }
    split.
    - intros V x Ix. unfold verify in V. apply obind_ok in V as [_ V]. apply obind_ok in V as [VF VP].
      apply each_ok in VF, VP. rewrite Forall_forall in VF, VP. cbn [b_functions b_plans bundle_of] in VF, VP.
      unfold numbers, body in Ix. apply in_flat_map in Ix. destruct Ix as (s & Is & Ix). apply in_app_iff in Is. destruct Is as [Is|Is].
      + apply in_flat_map in Is. destruct Is as (y & Iy & Is). destruct (PB y s Iy Is) as [_ SM].
        apply (verify_numbers (nl T None) s SM); auto. specialize (VP _ (in_map (pl_of p) _ _ Iy)). apply each_ok in VP.
        rewrite Forall_forall in VP. unfold pl_body in Is. apply in_concat in Is. destruct Is as (b & Ib & Is).
        cbn [p_blocks pl_of] in VP. specialize (VP _ (in_map _ _ _ Ib)). apply each_ok in VP. rewrite Forall_forall in VP.
        apply VP. now apply in_map.
      + apply in_flat_map in Is. destruct Is as (f & If & Is). rewrite <- (numbered_snd p) in If. apply in_map_iff in If.
        destruct If as (y & <- & Iy). destruct (FB y s Iy Is) as [_ SM].
        apply (verify_numbers (nl T (Some (fst y))) s SM); auto. specialize (VF _ (in_map (fn_of p) _ _ Iy)).
        unfold verify_function in VF. apply obind_ok in VF as [_ VF]. apply obind_ok in VF as [_ VF]. apply obind_ok in VF as [_ VF].
        apply each_ok in VF. rewrite Forall_forall in VF. unfold fn_body in Is. apply in_concat in Is. destruct Is as (b & Ib & Is).
        cbn [f_blocks fn_of] in VF. specialize (VF _ (in_map _ _ _ Ib)). apply each_ok in VF. rewrite Forall_forall in VF.
        apply VF. now apply in_map.
    - intros NF. unfold verify.
      assert (Q : match b_query_plan B with None => Ok tt | Some i => require (zn i <? zlen (b_plans B)) end = Ok tt).
      { cbn [b_query_plan b_plans bundle_of]. pose proof (add_plans_snd (g_query p) (g_plans p)) as H.
        destruct (snd (add_plans (g_query p) (g_plans p) [] None)) as [i|]; [|reflexivity]. destruct H as [H _].
        unfold require, zlen. rewrite map_length. destruct (Z.ltb_spec (zn i) (Z.of_nat (length (g_plans p)))); [reflexivity|lia]. }
      rewrite Q. cbn [obind].
      assert (VF : each (verify_function B) (b_functions B) = Ok tt).
      { apply each_ok_intro, Forall_forall. intros y Iy. cbn [b_functions bundle_of] in Iy. apply in_map_iff in Iy.
        destruct Iy as (x & <- & Ix). unfold verify_function.
        assert (NB : forall n, In n (n_params (snd x) ++ [n_result (snd x)]) -> 0 <= nl T (Some (fst x)) n < zn (b_locals B)).
        { intros n Hn. assert (In (Some (fst x), n) (names p)) as I.
          { unfold names. apply in_app_iff. right. apply in_flat_map. exists x. split; auto. unfold fn_names.
            apply in_map_iff. exists n. split; auto. rewrite !in_app_iff in *. tauto. }
          pose proof (nl_range p _ I). pose proof (name_slot _ I). rewrite locals_B. cbn [fst snd] in *. lia. }
        assert (A2 : require (2 <=? zlen (f_params (fn_of p x))) = Ok tt).
        { unfold fn_of, zlen. cbn [f_params]. rewrite map_length. apply require_ok, Z.leb_le.
          assert (2 <= length (n_params (snd x)))%nat; [|lia]. apply (c_arity p C). rewrite <- (numbered_snd p). now apply in_map. }
        rewrite A2. cbn [obind].
        assert (A3 : each (fun q => require (zn q <? zn (b_locals B))) (f_params (fn_of p x)) = Ok tt).
        { apply each_ok_intro, Forall_forall. intros q Iq. cbn [f_params fn_of] in Iq. apply in_map_iff in Iq. destruct Iq as (n & <- & Hn).
          assert (H : 0 <= nl T (Some (fst x)) n < zn (b_locals B)) by (apply NB, in_app_iff; auto).
          apply require_ok, Z.ltb_lt. rewrite Z2N.id; lia. }
        rewrite A3. cbn [obind].
        assert (A4 : require (zn (f_result (fn_of p x)) <? zn (b_locals B)) = Ok tt).
        { assert (H : 0 <= nl T (Some (fst x)) (n_result (snd x)) < zn (b_locals B)) by (apply NB, in_app_iff; right; now left).
          apply require_ok, Z.ltb_lt. cbn [f_result fn_of]. rewrite Z2N.id; lia. }
        rewrite A4. cbn [obind]. apply each_ok_intro, Forall_forall. intros b Ib. cbn [f_blocks fn_of] in Ib. apply in_map_iff in Ib.
        destruct Ib as (l & <- & Il). apply each_ok_intro, Forall_forall. intros q Iq. apply in_map_iff in Iq. destruct Iq as (s & <- & Is).
        assert (Is2 : In s (fn_body (snd x))) by (apply in_concat; eauto).
        apply stmt_verifies; auto; [eapply fn_in_body; eauto|]. intros n Hn. eapply fn_locals_fit; eauto. }
      rewrite VF. cbn [obind]. apply each_ok_intro, Forall_forall. intros y Iy. cbn [b_plans bundle_of] in Iy. apply in_map_iff in Iy.
      destruct Iy as (x & <- & Ix). apply each_ok_intro, Forall_forall. intros b Ib. cbn [p_blocks pl_of] in Ib. apply in_map_iff in Ib.
      destruct Ib as (l & <- & Il). apply each_ok_intro, Forall_forall. intros q Iq. apply in_map_iff in Iq. destruct Iq as (s & <- & Is).
      assert (Is2 : In s (pl_body x)) by (apply in_concat; eauto).
      apply stmt_verifies; auto; [eapply PB; eauto|eapply pl_in_body; eauto|]. intros n Hn. eapply pl_locals_fit; eauto.
  Qed.

  Lemma well_made_ok : well_made B.
  Proof.
    pose proof top_ge as TG. split; [|split; [|split; [|split]]].
    - cbn [b_locals bundle_of]. lia.
    - cbn [b_name_to_func b_functions bundle_of]. intros n i I. apply (proj2 (addn_bound _)) in I. rewrite map_length in I. unfold zlen.
      rewrite map_length, numbered_length. lia.
    - cbn [b_name_to_plan b_plans bundle_of]. intros n i I. apply (proj2 (addn_bound _)) in I. rewrite map_length in I. unfold zlen.
      rewrite map_length. lia.
    - cbn [b_functions bundle_of]. intros f I. apply in_map_iff in I. destruct I as ([i g] & <- & Ix). cbn [f_blocks fn_of fst snd]. split.
      + destruct (c_result p C i g) as [S _]; [now apply numbered_nth|]. unfold fn_body in S. destruct (n_blocks g); [destruct S|discriminate].
      + apply forallb_forall. intros y Iy. apply in_map_iff in Iy. destruct Iy as (l & <- & _). apply forallb_forall.
        intros q Iq. apply in_map_iff in Iq. destruct Iq as (s & <- & _). apply slots_stmt_of.
    - cbn [b_plans bundle_of]. intros f I. apply in_map_iff in I. destruct I as (x & <- & Ix). cbn [p_blocks pl_of].
      apply forallb_forall. intros y Iy. apply in_map_iff in Iy. destruct Iy as (l & <- & _). apply forallb_forall.
      intros q Iq. apply in_map_iff in Iq. destruct Iq as (s & <- & _). apply slots_stmt_of.
  Qed.
End Compiled.
