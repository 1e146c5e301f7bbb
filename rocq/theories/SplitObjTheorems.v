(** C70 for objects. *)
From Coq Require Import String ZArith List Bool Arith Lia.
From Verif Require Import Base SMap SMapFacts BigIntModel ValueModel SplitModel SplitSpec SplitProofs SplitObjModel.
Import ListNotations.

(** Two objects are the same if they have the same values under the same keys. *)
Definition same_object (e : env) (l r : items) : Prop :=
  forall k v, (exists t, In (k, t) l /\ eval e t = v) <-> (exists u, In (k, u) r /\ eval e u = v).
Definition distinct (l : items) : Prop := NoDup (map fst l).
Definition old_items (n : nat) (l : items) : Prop := forall k t, In (k, t) l -> old_term n t.

Lemma index_find l : distinct l -> forall k, sm_find k (index l) = sm_find k l.
Proof.
  intros D k. unfold index.
  assert (H : forall m, keyed m -> sm_find k (fold_left (fun m kv => sm_set (fst kv) (snd kv) m) l m)
    = match sm_find k l with Some a => Some a | None => sm_find k m end).
  { revert D. induction l as [|[k1 a1] l IH]; intros D m K; [reflexivity|]. inversion D as [|? ? N D']; subst. simpl.
    rewrite IH; auto using sm_set_keyed. rewrite sm_find_set; auto.
    destruct (str_eqb k k1) eqn:E; [|reflexivity]. apply str_eqb_eq in E. subst.
    apply sm_find_none in N. simpl in N. rewrite N. reflexivity. }
  rewrite H by apply keyed_nil. destruct (sm_find k l); reflexivity.
Qed.
Lemma index_keyed l : keyed (index l).
Proof.
  unfold index. assert (H : forall m : items, keyed m -> keyed (fold_left (fun m kv => sm_set (fst kv) (snd kv) m) l m)).
  { induction l as [|[k a] l IH]; intros m K; simpl; auto using sm_set_keyed. }
  apply H, keyed_nil.
Qed.
Lemma index_in l : distinct l -> forall k t, In (k, t) (index l) <-> In (k, t) l.
Proof.
  intros D k t. rewrite (keyed_in k t (index l) (index_keyed l)), index_find by exact D. split.
  - apply sm_find_in.
  - apply nodup_find, D.
Qed.

Lemma step_match lm rm : forall s w s', sound s -> old_items (next s) lm -> (forall k u, sm_find k rm = Some u -> old_term (next s) u) ->
  match_items lm rm s = Ok (w, s') ->
  (w = true <-> exists k t, In (k, t) lm /\ sm_find k rm = None) /\
  step s s' (fun e => forall k t u, In (k, t) lm -> sm_find k rm = Some u -> unifies e t u) [].
Proof.
  induction lm as [|[k t] lm IH]; intros s w s' S Ol Or H; simpl in H.
  - injection H as <- <-. split; [split; [discriminate | intros [k [t [[] _]]]]|].
    eapply step_iff; [|apply step_refl, S]. intro e. split; [intros _ k t u [] | auto].
  - assert (Ol' : old_items (next s) lm) by (intros k' t' H'; apply (Ol k' t'); simpl; auto).
    destruct (sm_find k rm) as [u|] eqn:F.
    + destruct (add_terms t u s) as [[b s1]| | |] eqn:T; cbn [obind fst snd] in H; try discriminate H.
      assert (Ot : old_term (next s) t) by (apply (Ol k t); simpl; auto).
      assert (Ou : old_term (next s) u) by (apply (Or k u F)).
      destruct (step_terms t u s b s1 S Ot Ou T) as [H1 H2].
      set (s2 := if b then drop t u s1 else s1) in *.
      assert (K : step s s2 (fun e => unifies e t u) (vars t ++ vars u)).
      { unfold s2. destruct b; [|apply H2; reflexivity]. rewrite (H1 eq_refl). apply step_drop, step_refl, S. }
      clearbody s2. pose proof (st_next _ _ _ _ K) as Nx.
      destruct (IH s2 w s' (st_sound _ _ _ _ K)) as [W R]; auto.
      { intros k' t' H'. apply (old_term_le (next s)); eauto. }
      { intros k' u' H'. apply (old_term_le (next s)); eauto. }
      split.
      * rewrite W. split; intros [k' [t' [A B]]]; [exists k', t'; simpl; auto|].
        destruct A as [A|A]; [injection A as <- <-; congruence | exists k', t'; auto].
      * apply (step_names _ _ _ ((vars t ++ vars u) ++ [])); [intros x []|].
        eapply step_iff; [|eapply step_seq; [exact K | exact R |]].
        -- intro e. split.
           ++ intros [A B] k' t' u' [E|E] G; [injection E as <- <-; congruence | eauto].
           ++ intro A. split; [apply (A k t u); simpl; auto | intros k' t' u' E G; apply (A k' t' u'); simpl; auto].
        -- intros e f A X k' t' u' E G. apply (old_unifies_stable (next s) t' u' (Ol' _ _ E) (Or _ _ G) e f A). eauto.
    + destruct (match_items lm rm s) as [[w1 s1]| | |] eqn:M; cbn [obind fst snd] in H; try discriminate H.
      injection H as <- <-. destruct (IH s w1 s1 S Ol' Or M) as [_ R]. split.
      * split; [intros _; exists k, t; simpl; auto | reflexivity].
      * eapply step_iff; [|exact R]. intro e. split.
        -- intros A k' t' u' [E|E] G; [injection E as <- <-; congruence | eauto].
        -- intros A k' t' u' E G. apply (A k' t' u'); simpl; auto.
Qed.

Lemma not_unresolved rm : rhs_unresolved rm = false.
Proof.
  unfold rhs_unresolved. destruct (existsb _ rm) eqn:E; auto. apply existsb_exists in E as [[k t] [H G]]. simpl in G.
  destruct (sm_find k rm) eqn:F; [discriminate G|]. apply sm_find_none in F. exfalso. apply F, in_map_iff. exists (k, t). auto.
Qed.

Lemma add_objects_split l r s w s' : sound s -> distinct l -> distinct r -> old_items (next s) l -> old_items (next s) r ->
  add_objects l r s = Ok (Split w s') -> error s' = false ->
  length l = length r /\ (w = true <-> exists k t, In (k, t) l /\ ~ In k (map fst r)) /\
  step s s' (fun e => forall k t u, In (k, t) l -> In (k, u) r -> unifies e t u) [].
Proof.
  intros S Dl Dr Ol Or H Er. unfold add_objects in H.
  destruct (length r <? length l) eqn:L; [discriminate H|].
  match type of H with (if ?c then _ else _) = _ => destruct c; [discriminate H|] end.
  destruct (length l =? length r) eqn:E.
  - apply Nat.eqb_eq in E. rewrite firstn_all2 in H by lia.
    destruct (match_items (index l) (index r) s) as [[w1 s1]| | |] eqn:M; cbn [obind fst snd] in H; try discriminate H.
    injection H as <- <-. rewrite not_unresolved, orb_false_r.
    apply step_match in M as [W R]; auto.
    + split; [exact E|]. split.
      * rewrite W. split; intros [k [t [A B]]]; exists k, t; rewrite index_in, index_find, ?sm_find_none in * by assumption; auto.
      * eapply step_iff; [|exact R]. intro e. split; intros A k t u H1 H2; apply (A k t u).
        -- rewrite index_in by exact Dl. exact H1.
        -- rewrite index_find by exact Dr. apply nodup_find; auto.
        -- rewrite index_in in H1 by exact Dl. exact H1.
        -- rewrite index_find in H2 by exact Dr. apply sm_find_in, H2.
    + intros k t Hk. rewrite (index_in l Dl) in Hk. apply (Ol k t Hk).
    + intros k u Hk. rewrite index_find in Hk by exact Dr. apply (Or k u), sm_find_in, Hk.
  - exfalso. destruct (match_items (index l) (index (firstn (length l) r)) (set_error s)) as [[w1 s1]| | |] eqn:M;
      cbn [obind fst snd] in H; try discriminate H. injection H as <- <-.
    assert (Dr' : distinct (firstn (length l) r)).
    { unfold distinct in *. rewrite <- (firstn_skipn (length l) r), map_app in Dr. revert Dr. clear. generalize (map fst (skipn (length l) r)).
      induction (map fst (firstn (length l) r)) as [|x m IH]; intros m' H; [constructor|]. inversion H as [|? ? N D]; subst.
      constructor; [intro X; apply N, in_or_app; auto | apply (IH m' D)]. }
    apply step_match in M as [_ R].
    + apply (st_err _ _ _ _ R) in Er. discriminate Er.
    + exact S.
    + intros k t Hk. rewrite (index_in l Dl) in Hk. apply (Ol k t Hk).
    + intros k u Hk. rewrite index_find in Hk by exact Dr'. apply sm_find_in in Hk. apply (Or k u).
      rewrite <- (firstn_skipn (length l) r). apply in_or_app. auto.
Qed.

Lemma keys_same (l r : items) : distinct l -> length l = length r -> (forall k t, In (k, t) l -> In k (map fst r)) ->
  forall k u, In (k, u) r -> In k (map fst l).
Proof.
  intros D L H k u Hk. assert (I : incl (map fst r) (map fst l)); [apply NoDup_length_incl; [exact D | |]|].
  - rewrite !map_length. lia.
  - intros x Hx. apply in_map_iff in Hx as [[k' t] [<- Hx]]. apply (H k' t Hx).
  - apply I, in_map_iff. exists (k, u). auto.
Qed.

(** Two objects with distinct constant keys that are split without waiting, error or ignored failure: the literals hold exactly if the objects are
    the same. *)
Theorem C70_objects_partial : forall l r s s',
  sound s -> distinct l -> distinct r -> old_items (next s) l -> old_items (next s) r ->
  add_objects l r s = Ok (Split false s') -> dropped s' = [] -> error s' = false ->
  exists new, lits s' = lits s ++ new /\
    forall e, same_object e l r <-> exists f, agree (next s) e f /\ Forall (holds f) new.
Proof.
  intros l r s s' S Dl Dr Ol Or H D Er.
  destruct (add_objects_split l r s false s' S Dl Dr Ol Or H Er) as [L [W [A _ _ _ _ _ [new [E1 [E2 [E3 [E4 E5]]]]]]]].
  assert (Hl : forall k t, In (k, t) l -> In k (map fst r)).
  { intros k t Hk. destruct (sm_find k r) eqn:F.
    - apply sm_find_in in F. apply in_map_iff. eexists. split; [|exact F]. reflexivity.
    - apply sm_find_none in F. assert (X : false = true) by (apply W; exists k, t; auto). discriminate X. }
  pose proof (keys_same l r Dl L Hl) as Hr.
  assert (Eq : forall e, same_object e l r <-> (forall k t u, In (k, t) l -> In (k, u) r -> unifies e t u)).
  { intro e. split.
    - intros X k t u H1 H2. destruct (proj1 (X k (eval e t)) (ex_intro _ t (conj H1 eq_refl))) as [u' [H3 H4]].
      apply (nodup_find _ _ _ Dr) in H2, H3. unfold unifies. congruence.
    - intros X k v. split; intros [t [H1 H2]].
      + pose proof (Hl k t H1) as H3. apply in_map_iff in H3 as [[k' u] [<- H3]]. exists u. split; auto.
        rewrite <- H2. symmetry. apply (X k' t u H1 H3).
      + pose proof (Hr k t H1) as H3. apply in_map_iff in H3 as [[k' u] [<- H3]]. exists u. split; auto.
        rewrite <- H2. apply (X k' u t H3 H1). }
  exists new. split; [exact E1|]. intro e. rewrite Eq. split; [apply E5|].
  intros [f [F1 F2]] k t u H1 H2.
  apply (old_unifies_stable (next s) t u (Ol k t H1) (Or k u H2) f e (agree_sym _ _ _ F1)).
  apply (E4 (conj D Er) f F2 k t u H1 H2).
Qed.
Print Assumptions C70_objects_partial.

Definition g1 := {| assigned := [User $"z"]; lits := []; next := 0; error := false; dropped := [] |}.
Definition left1 : items := [($"b", TVar (User $"x")); ($"a", TArray [TVar (User $"y"); TVar (User $"x")])].
Definition right1 : items := [($"a", TVar (User $"z")); ($"b", TScalar VNull)].
Example C70_objects_meets : exists s', add_objects left1 right1 g1 = Ok (Split false s') /\ dropped s' = [] /\ error s' = false
  /\ length (lits s') = 6 /\ distinct left1 /\ distinct right1.
Proof.
  eexists. split; [vm_compute; reflexivity|]. split; [reflexivity|]. split; [reflexivity|]. split; [reflexivity|].
  split; repeat constructor; simpl; intros H; decompose [or] H; try discriminate; auto.
Qed.

(** It waits, without an error, only if a key of the left object is missing in the right one, and then no values make the objects the same. *)
Theorem C70_objects_wait : forall l r s s',
  sound s -> distinct l -> distinct r -> old_items (next s) l -> old_items (next s) r ->
  add_objects l r s = Ok (Split true s') -> error s' = false -> forall e, ~ same_object e l r.
Proof.
  intros l r s s' S Dl Dr Ol Or H Er e X.
  destruct (add_objects_split l r s true s' S Dl Dr Ol Or H Er) as [_ [W _]].
  destruct (proj1 W eq_refl) as [k [t [H1 H2]]].
  destruct (proj1 (X k (eval e t)) (ex_intro _ t (conj H1 eq_refl))) as [u [H3 _]].
  apply H2, in_map_iff. exists (k, u). auto.
Qed.
Print Assumptions C70_objects_wait.

(** Waiting is not without effect: literals for the keys in common stay, so that each further attempt adds them again. *)
Theorem C70_objects_wait_refuted : exists l r s', distinct l /\ distinct r /\
  add_objects l r g1 = Ok (Split true s') /\ error s' = false /\ lits s' <> lits g1.
Proof.
  exists [($"a", TVar (User $"x")); ($"b", TScalar VNull)], [($"a", TScalar VNull); ($"c", TScalar VNull)]. eexists.
  split; [repeat constructor; simpl; intros H; decompose [or] H; try discriminate; auto|].
  split; [repeat constructor; simpl; intros H; decompose [or] H; try discriminate; auto|].
  split; [vm_compute; reflexivity|]. split; [reflexivity|]. intro H. discriminate H.
Qed.
Print Assumptions C70_objects_wait_refuted.

(** Keys of the right object that the left one lacks are never found: with a key twice on the left, the objects are split without waiting or error
    although no values make them the same. *)
Theorem C70_objects_keys_refuted : exists l r s',
  add_objects l r g1 = Ok (Split false s') /\ dropped s' = [] /\ error s' = false /\
  (forall e, ~ same_object e l r) /\ exists e, Forall (holds e) (lits s').
Proof.
  exists [($"a", TVar (User $"x")); ($"a", TVar (User $"x"))], [($"a", TScalar VNull); ($"b", TScalar VNull)]. eexists.
  split; [vm_compute; reflexivity|]. split; [reflexivity|]. split; [reflexivity|]. split.
  - intros e X. destruct (proj2 (X $"b" VNull)) as [t [H _]].
    + exists (TScalar VNull). simpl. auto.
    + simpl in H. decompose [or] H; try contradiction; discriminate.
  - exists (fun _ => VNull). constructor; [reflexivity | constructor].
Qed.
Print Assumptions C70_objects_keys_refuted.
