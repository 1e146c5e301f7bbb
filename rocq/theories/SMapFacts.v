(** Facts about sorted maps and sorting. *)
From Coq Require Import String ZArith List Bool Lia Permutation Sorted.
From Verif Require Import Base SMap.
Import ListNotations.

(** Keys strictly increasing. *)
Definition keyed {A} (m : list (str * A)) : Prop := StronglySorted (fun a b => str_ltb a b = true) (map fst m).

Lemma sm_find_none {A} k (m : list (str * A)) : sm_find k m = None <-> ~ In k (map fst m).
Proof.
  induction m as [|[k' a] m IH]; simpl; [tauto|].
  destruct (str_eqb k k') eqn:E.
  - apply str_eqb_eq in E. subst. split; [discriminate|tauto].
  - apply str_eqb_neq in E. rewrite IH. split; intros H; [intros [->|?]; tauto|tauto].
Qed.

Lemma sm_find_in {A} k a (m : list (str * A)) : sm_find k m = Some a -> In (k, a) m.
Proof.
  induction m as [|[k' a'] m IH]; simpl; [discriminate|].
  destruct (str_eqb k k') eqn:E.
  - apply str_eqb_eq in E. intros [= ->]. subst. auto.
  - auto.
Qed.

Lemma nodup_find {A} k a (m : list (str * A)) : NoDup (map fst m) -> In (k, a) m -> sm_find k m = Some a.
Proof.
  induction m as [|[k' a'] m IH]; simpl; [tauto|].
  intros Hn [H|H].
  - injection H as -> ->. now rewrite str_eqb_refl.
  - inversion Hn; subst. destruct (str_eqb k k') eqn:E; [|auto].
    apply str_eqb_eq in E. subst. exfalso. apply H2. apply in_map_iff. exists (k', a). auto.
Qed.

Lemma ssorted_nodup l : StronglySorted (fun a b => str_ltb a b = true) l -> NoDup l.
Proof.
  induction 1 as [|a l Hs IH Hf]; constructor; auto.
  intro Hin. rewrite Forall_forall in Hf. specialize (Hf a Hin). rewrite str_ltb_irrefl in Hf. discriminate.
Qed.

Lemma keyed_nodup {A} (m : list (str * A)) : keyed m -> NoDup (map fst m).
Proof. apply ssorted_nodup. Qed.

Lemma keyed_in {A} k a (m : list (str * A)) : keyed m -> (In (k, a) m <-> sm_find k m = Some a).
Proof.
  intro H. split.
  - intro Hin. apply nodup_find; auto. now apply keyed_nodup.
  - apply sm_find_in.
Qed.

Lemma sm_set_keys {A} k a (m : list (str * A)) k' :
  In k' (map fst (sm_set k a m)) <-> k' = k \/ In k' (map fst m).
Proof.
  induction m as [|[k1 a1] m IH]; simpl; [intuition|].
  destruct (str_ltb k k1) eqn:E1; [simpl; intuition|].
  destruct (str_eqb k k1) eqn:E2.
  - apply str_eqb_eq in E2. subst. simpl. intuition.
  - simpl. rewrite IH. intuition.
Qed.

Lemma sm_set_keyed {A} k a (m : list (str * A)) : keyed m -> keyed (sm_set k a m).
Proof.
  unfold keyed. induction m as [|[k1 a1] m IH]; intro H; simpl.
  - constructor; constructor.
  - simpl in H. inversion H as [|? ? Hs Hf]; subst.
    destruct (str_ltb k k1) eqn:E1.
    + simpl. constructor; auto. constructor; auto. eapply Forall_impl; [|exact Hf]. intros. eapply str_ltb_trans; eauto.
    + destruct (str_eqb k k1) eqn:E2.
      * apply str_eqb_eq in E2. subst. simpl. constructor; auto.
      * simpl. constructor; auto. rewrite Forall_forall in *. intros x Hx.
        apply sm_set_keys in Hx as [->|Hx]; auto.
        destruct (str_ltb k1 k) eqn:E3; auto. apply str_eqb_neq in E2. destruct E2. now apply str_ltb_total.
Qed.

Lemma keyed_find_lt {A} k (m : list (str * A)) :
  Forall (fun x => str_ltb k x = true) (map fst m) -> sm_find k m = None.
Proof.
  intro H. apply sm_find_none. intro Hin. rewrite Forall_forall in H. specialize (H _ Hin).
  rewrite str_ltb_irrefl in H. discriminate.
Qed.

Lemma sm_find_set {A} k a (m : list (str * A)) k' : keyed m ->
  sm_find k' (sm_set k a m) = if str_eqb k' k then Some a else sm_find k' m.
Proof.
  unfold keyed. induction m as [|[k1 a1] m IH]; intro H; simpl; auto.
  simpl in H. inversion H as [|? ? Hs Hf]; subst.
  destruct (str_ltb k k1) eqn:E1; [simpl; reflexivity|].
  destruct (str_eqb k k1) eqn:E2.
  - apply str_eqb_eq in E2. subst. simpl. destruct (str_eqb k' k1); auto.
  - simpl. destruct (str_eqb k' k1) eqn:E3.
    + apply str_eqb_eq in E3. subst. rewrite str_eqb_sym, E2. reflexivity.
    + auto.
Qed.

Lemma sm_insert_keyed {A} k (a : A) m : keyed m -> keyed (sm_insert k a m).
Proof. intro H. unfold sm_insert. destruct (sm_find k m); auto using sm_set_keyed. Qed.

Lemma sm_find_insert {A} k (a : A) m k' : keyed m ->
  sm_find k' (sm_insert k a m) =
    match sm_find k' m with Some b => Some b | None => if str_eqb k' k then Some a else None end.
Proof.
  intro H. unfold sm_insert. destruct (sm_find k m) eqn:E.
  - destruct (sm_find k' m) eqn:E'; auto. destruct (str_eqb k' k) eqn:E2; auto.
    apply str_eqb_eq in E2. congruence.
  - rewrite sm_find_set by auto. destruct (str_eqb k' k) eqn:E2.
    + apply str_eqb_eq in E2. subst. now rewrite E.
    + destruct (sm_find k' m); auto.
Qed.

Lemma keyed_nil {A} : keyed (@nil (str * A)).
Proof. constructor. Qed.

(** Two maps with the same contents are the same list. *)
Lemma keyed_ext {A} (m m' : list (str * A)) : keyed m -> keyed m' ->
  (forall k, sm_find k m = sm_find k m') -> m = m'.
Proof.
  unfold keyed. revert m'. induction m as [|[k a] m IH]; intros m' H H' E.
  - destruct m' as [|[k' a'] m']; auto. specialize (E k'). simpl in E. rewrite str_eqb_refl in E. discriminate.
  - destruct m' as [|[k' a'] m'].
    { specialize (E k). simpl in E. rewrite str_eqb_refl in E. discriminate. }
    simpl in H, H'. inversion H as [|? ? Hs Hf]; subst. inversion H' as [|? ? Hs' Hf']; subst.
    assert (Ek : k = k').
    { pose proof (E k) as E1. pose proof (E k') as E2. simpl in E1, E2.
      rewrite str_eqb_refl in E1, E2. 
      destruct (str_eqb k k') eqn:Q; [now apply str_eqb_eq|].
      rewrite str_eqb_sym, Q in E2.
      assert (I1 : In k (map fst m')).
      { symmetry in E1. apply sm_find_in in E1. apply in_map_iff. exists (k, a). auto. }
      assert (I2 : In k' (map fst m)).
      { apply sm_find_in in E2. apply in_map_iff. exists (k', a'). auto. }
      rewrite Forall_forall in Hf, Hf'. specialize (Hf _ I2). specialize (Hf' _ I1).
      apply str_ltb_asym in Hf. congruence. }
    subst k'. assert (a = a').
    { specialize (E k). simpl in E. rewrite str_eqb_refl in E. congruence. }
    subst a'. f_equal. apply IH; auto.
    intro x. specialize (E x). simpl in E. destruct (str_eqb x k) eqn:Q; auto.
    apply str_eqb_eq in Q. subst. rewrite !keyed_find_lt; auto.
Qed.

(** Inserting a whole list, first occurrence wins. *)
Definition insert_all {A} (l : list (str * A)) (m : list (str * A)) : list (str * A) :=
  fold_left (fun m kv => sm_insert (fst kv) (snd kv) m) l m.

Lemma insert_all_keyed {A} (l m : list (str * A)) : keyed m -> keyed (insert_all l m).
Proof. revert m. induction l as [|[k a] l IH]; intros m H; [exact H|].
  apply (IH (sm_insert k a m)). now apply sm_insert_keyed. Qed.

Lemma insert_all_find {A} (l m : list (str * A)) k : keyed m ->
  sm_find k (insert_all l m) = match sm_find k m with Some a => Some a | None => sm_find k l end.
Proof.
  revert m. induction l as [|[k1 a1] l IH]; intros m H.
  - simpl. destruct (sm_find k m); auto.
  - change (insert_all ((k1, a1) :: l) m) with (insert_all l (sm_insert k1 a1 m)). rewrite IH by now apply sm_insert_keyed. rewrite sm_find_insert by auto.
    cbn [sm_find]. destruct (sm_find k m); auto. destruct (str_eqb k k1); auto.
Qed.

(** Sorting. *)
Lemma insert_by_perm {A} lt (x : A) l : Permutation (insert_by lt x l) (x :: l).
Proof.
  induction l as [|y l IH]; simpl; auto. destruct (lt y x); auto.
  rewrite IH. apply perm_swap.
Qed.

Lemma sort_by_perm {A} lt (l : list A) : Permutation (sort_by lt l) l.
Proof. induction l as [|x l IH]; simpl; auto. rewrite insert_by_perm. now constructor. Qed.

Lemma sort_by_length {A} lt (l : list A) : length (sort_by lt l) = length l.
Proof. apply Permutation_length, sort_by_perm. Qed.

Lemma sort_by_in {A} lt (l : list A) x : In x (sort_by lt l) <-> In x l.
Proof. split; apply Permutation_in; [|apply Permutation_sym]; apply sort_by_perm. Qed.

Lemma insert_by_map {A B} (f : A -> B) lt lt' x l :
  (forall y, In y l -> lt y x = lt' (f y) (f x)) ->
  map f (insert_by lt x l) = insert_by lt' (f x) (map f l).
Proof.
  induction l as [|y l IH]; intro H; simpl; auto.
  rewrite <- (H y) by (simpl; auto). destruct (lt y x); simpl; auto. f_equal. apply IH. intros; apply H; simpl; auto.
Qed.

Lemma sort_by_map {A B} (f : A -> B) lt lt' l :
  (forall x y, In x l -> In y l -> lt x y = lt' (f x) (f y)) ->
  map f (sort_by lt l) = sort_by lt' (map f l).
Proof.
  induction l as [|x l IH]; intro H; simpl; auto.
  rewrite (insert_by_map f lt lt').
  - f_equal. apply IH. intros; apply H; simpl; auto.
  - intros y Hy. apply sort_by_in in Hy. apply H; simpl; auto.
Qed.

Section Total.
Context {A : Type} (lt : A -> A -> bool) (S : A -> Prop).
Hypothesis irrefl : forall x, S x -> lt x x = false.
Hypothesis trans : forall x y z, S x -> S y -> S z -> lt x y = true -> lt y z = true -> lt x z = true.
Hypothesis total : forall x y, S x -> S y -> lt x y = false -> lt y x = false -> x = y.

Lemma insert_comm x z l : S x -> S z -> Forall S l ->
  insert_by lt x (insert_by lt z l) = insert_by lt z (insert_by lt x l).
Proof.
  intros Hx Hz Hl. induction Hl as [|y l Hy Hl IH]; simpl.
  - destruct (lt z x) eqn:E1, (lt x z) eqn:E2; auto.
    + pose proof (trans x z x Hx Hz Hx E2 E1). rewrite irrefl in H by auto. discriminate.
    + rewrite (total x z); auto.
  - destruct (lt y z) eqn:Ez, (lt y x) eqn:Ex; simpl; rewrite ?Ez, ?Ex; auto.
    + f_equal. exact IH.
    + destruct (lt x z) eqn:E; simpl; rewrite ?Ez; auto.
      assert (lt z x = true).
      { destruct (lt z x) eqn:E'; auto. rewrite (total x z) in Ex; auto. congruence. }
      pose proof (trans y z x Hy Hz Hx Ez H). congruence.
    + destruct (lt z x) eqn:E; simpl; rewrite ?Ex; auto.
      assert (lt x z = true).
      { destruct (lt x z) eqn:E'; auto. rewrite (total x z) in Ex; auto. congruence. }
      pose proof (trans y x z Hy Hx Hz Ex H). congruence.
    + destruct (lt z x) eqn:E1, (lt x z) eqn:E2; rewrite ?Ez, ?Ex; auto.
      * pose proof (trans x z x Hx Hz Hx E2 E1). rewrite irrefl in H by auto. discriminate.
      * rewrite (total x z); auto.
Qed.

Lemma sort_by_perm_eq l l' : Forall S l -> Permutation l l' -> sort_by lt l = sort_by lt l'.
Proof.
  intros HS HP. revert HS. induction HP; intro HS; simpl; auto.
  - inversion HS; subst. now rewrite IHHP.
  - inversion HS as [|? ? H1 H2]; subst. inversion H2; subst. apply insert_comm; auto.
    rewrite Forall_forall in *. intros a Ha. apply sort_by_in in Ha. auto.
  - rewrite IHHP1 by auto. apply IHHP2. rewrite Forall_forall in *. intros a Ha. apply HS.
    eapply Permutation_in; [apply Permutation_sym; eassumption|auto].
Qed.

(** The result is sorted: no later element is smaller than an earlier one. *)
Lemma insert_sorted x l : S x -> Forall S l ->
  StronglySorted (fun a b => lt b a = false) l -> StronglySorted (fun a b => lt b a = false) (insert_by lt x l).
Proof.
  intros Hx Hl Hs. induction Hs as [|y l Hs IH Hf]; simpl.
  - constructor; constructor.
  - inversion Hl; subst. destruct (lt y x) eqn:E.
    + constructor; auto. rewrite Forall_forall in *. intros a Ha.
      apply (Permutation_in _ (insert_by_perm lt x l)) in Ha. destruct Ha as [<-|Ha]; auto.
      destruct (lt x y) eqn:E2; auto.
      pose proof (trans x y x Hx H1 Hx E2 E). rewrite irrefl in H by auto. discriminate.
    + constructor; [constructor; auto|]. constructor; auto.
      rewrite Forall_forall in *. intros a Ha. specialize (Hf a Ha). specialize (H2 a Ha).
      destruct (lt a x) eqn:E2; auto. exfalso.
      destruct (lt x y) eqn:E3.
      * rewrite (trans a x y) in Hf; auto. discriminate.
      * rewrite (total x y) in E2; auto. congruence.
Qed.

Lemma sort_by_sorted l : Forall S l -> StronglySorted (fun a b => lt b a = false) (sort_by lt l).
Proof.
  induction 1 as [|x l Hx Hl IH]; simpl; [constructor|].
  apply insert_sorted; auto. rewrite Forall_forall in *. intros a Ha. apply sort_by_in in Ha. auto.
Qed.
End Total.

(** join *)
Lemma join_cons2 sep x y l : join sep (x :: y :: l) = (x ++ sep ++ join sep (y :: l))%list.
Proof. reflexivity. Qed.
