(** Proofs about merging documents and about the function cache. *)
From Coq Require Import String ZArith List Bool Lia.
From Verif Require Import Base BigIntSpec BigIntModel SMap SMapFacts ValueModel ValueSpec KeyProofs ResolverModel VmModel VmSpec
  VmProofs VmSimProofs VmStmtProofs.
Import ListNotations.
Local Open Scope Z_scope.

Section Merge.
Variable E : env.
Notation F := (e_fops E).
Notation key := (to_key F).
Notation item := (str * (value * value))%type.

(** The loop over the members of the second object. *)
Fixpoint merge_go (n : nat) (l : list (value * value)) (items : list item) : value :=
  match l with
  | [] => VObject (map snd items)
  | (k, v) :: l' =>
      match sm_find (key k) items with
      | Some (_, old) =>
          match merge_objects E n old v with
          | VErr c => VErr c
          | m => merge_go n l' (sm_set (key k) (k, m) items)
          end
      | None => merge_go n l' (sm_set (key k) (k, v) items)
      end
  end.
Definition items_of (la : list (value * value)) : list item :=
  fold_left (fun m (kv : value * value) => sm_set (key (fst kv)) kv m) la [].
Lemma merge_objects_eq n la lb : merge_objects E (S n) (VObject la) (VObject lb) = merge_go n lb (items_of la).
Proof.
  cbn [merge_objects]. fold (items_of la). generalize (items_of la).
  induction lb as [|[k v] lb IH]; intro m; simpl; auto.
  destruct (sm_find (key k) m) as [[k' old]|]; auto. destruct (merge_objects E n old v); auto.
Qed.

Definition good (m : list item) : Prop := keyed m /\ Forall (fun it => fst it = key (fst (snd it))) m.

Lemma sm_set_Forall {A} (P : str * A -> Prop) k a m : Forall P m -> P (k, a) -> Forall P (sm_set k a m).
Proof.
  intros Hm Ha. induction Hm as [|[k' a'] m H1 H2 IH]; simpl; auto.
  destruct (str_ltb k k'); auto. destruct (str_eqb k k'); auto.
Qed.
Lemma good_set k v m : good m -> good (sm_set (key k) (k, v) m).
Proof. intros [H1 H2]. split; [now apply sm_set_keyed|]. apply sm_set_Forall; auto. Qed.
Lemma look_good k m : Forall (fun it : item => fst it = key (fst (snd it))) m ->
  look F k (map snd m) = option_map snd (sm_find k m).
Proof.
  induction 1 as [|[k' [a b]] m H1 H2 IH]; simpl; auto. cbn in H1. subst k'.
  rewrite str_eqb_sym. destruct (str_eqb k (key a)); auto.
Qed.

Lemma items_good la : forall m, good m -> good (fold_left (fun m (kv : value * value) => sm_set (key (fst kv)) kv m) la m).
Proof.
  induction la as [|[k v] la IH]; intros m H; simpl; auto. apply IH. now apply good_set.
Qed.
Lemma look_none k l : look F k l = None <-> ~ In k (map (fun kv => key (fst kv)) l).
Proof.
  induction l as [|[k' v] l IH]; simpl; [tauto|]. destruct (str_eqb (key k') k) eqn:Ek.
  - apply str_eqb_eq in Ek. split; [discriminate|]. intro H. elim H. auto.
  - apply str_eqb_neq in Ek. rewrite IH. tauto.
Qed.
Lemma look_in k l v : look F k l = Some v -> exists k', In (k', v) l /\ key k' = k.
Proof.
  induction l as [|[k' v'] l IH]; simpl; try discriminate. destruct (str_eqb (key k') k) eqn:Ek.
  - apply str_eqb_eq in Ek. intro H. injection H as ->. eauto.
  - intro H. destruct (IH H) as (k2 & H1 & H2). eauto.
Qed.
Lemma items_find k la : forall m, good m -> NoDup (map (fun kv => key (fst kv)) la) ->
  option_map snd (sm_find k (fold_left (fun m (kv : value * value) => sm_set (key (fst kv)) kv m) la m)) =
  match look F k la with Some v => Some v | None => option_map snd (sm_find k m) end.
Proof.
  induction la as [|[k' v] la IH]; intros m Hm HN; simpl; auto.
  inversion HN as [|x y N1 N2]; subst. rewrite IH; auto; [|now apply good_set].
  rewrite (sm_find_set _ _ _ _ (proj1 Hm)). rewrite (str_eqb_sym (key k') k).
  destruct (str_eqb k (key k')) eqn:Ek; auto. apply str_eqb_eq in Ek. subst k.
  assert (Hl : look F (key k') la = None) by (apply look_none; exact N1). rewrite Hl. reflexivity.
Qed.

Lemma merge_go_spec n lb : forall m r, good m -> NoDup (map (fun kv => key (fst kv)) lb) ->
  merge_go n lb m = r -> (forall c, r <> VErr c) ->
  exists lm, r = VObject lm /\ forall k,
    match look F k lb, option_map snd (sm_find k m) with
    | None, o => look F k lm = o
    | Some y, None => look F k lm = Some y
    | Some y, Some x => look F k lm = Some (merge_objects E n x y) /\ forall c, merge_objects E n x y <> VErr c
    end.
Proof.
  induction lb as [|[k v] lb IH]; intros m r Hm HN Hr Hne; simpl in Hr.
  - subst r. exists (map snd m). split; auto. intro k. simpl. apply look_good. apply Hm.
  - inversion HN as [|x y N1 N2]; subst x y.
    assert (Hkk : look F (key k) lb = None) by (apply look_none; exact N1).
    destruct (sm_find (key k) m) as [[k0 old]|] eqn:Ef.
    + assert (Hz : forall c, merge_objects E n old v <> VErr c).
      { intros c Hc. rewrite Hc in Hr. apply (Hne c). auto. }
      assert (Hr' : merge_go n lb (sm_set (key k) (k, merge_objects E n old v) m) = r).
      { destruct (merge_objects E n old v); auto. now elim (Hz code). }
      destruct (IH _ r (good_set k _ m Hm) N2 Hr' Hne) as (lm & -> & Hlm). exists lm. split; auto.
      intro k'. specialize (Hlm k'). rewrite (sm_find_set _ _ _ _ (proj1 Hm)) in Hlm.
      simpl. rewrite (str_eqb_sym (key k) k'). destruct (str_eqb k' (key k)) eqn:Ek.
      * apply str_eqb_eq in Ek. subst k'. rewrite Hkk in Hlm. cbn in Hlm. rewrite Ef. cbn. auto.
      * exact Hlm.
    + destruct (IH _ r (good_set k v m Hm) N2 Hr Hne) as (lm & -> & Hlm). exists lm. split; auto.
      intro k'. specialize (Hlm k'). rewrite (sm_find_set _ _ _ _ (proj1 Hm)) in Hlm.
      simpl. rewrite (str_eqb_sym (key k) k'). destruct (str_eqb k' (key k)) eqn:Ek.
      * apply str_eqb_eq in Ek. subst k'. rewrite Hkk in Hlm. cbn in Hlm. rewrite Ef. cbn. auto.
      * exact Hlm.
Qed.

Lemma good_nil : good [].
Proof. split; [apply keyed_nil|constructor]. Qed.

Lemma merge_merged n : forall a b, distinct_keys F a -> distinct_keys F b ->
  (forall c, merge_objects E n a b <> VErr c) -> merged F a b (merge_objects E n a b).
Proof.
  induction n as [|n IH]; intros a b Ha Hb Hne.
  - cbn [merge_objects] in Hne. now elim (Hne EvalConflictError).
  - destruct (collection a) eqn:Ca.
    + destruct a as [| | | | | | |la|la|]; try discriminate.
      * destruct b as [| | | | | | |lb|lb|]; try (now elim (Hne EvalConflictError)).
        rewrite merge_objects_eq in *.
        inversion Ha as [la' NA DA|v NA EA]; [subst|now elim (NA la)].
        inversion Hb as [lb' NB DB|v NB EB]; [subst|now elim (NB lb)].
        pose proof (items_good la [] good_nil) as Hg.
        destruct (merge_go_spec n lb (items_of la) _ Hg NB eq_refl Hne) as (lm & Hlm & Hk). rewrite Hlm.
        assert (Hf : forall k, option_map snd (sm_find k (items_of la)) = look F k la).
        { intro k. unfold items_of. rewrite items_find; auto using good_nil. cbn. destruct (look F k la); auto. }
        apply mg_object; intros k; specialize (Hk k); rewrite Hf in Hk.
        -- intro H. rewrite H in Hk. destruct (look F k lb); auto.
        -- intro H. rewrite H in Hk. auto.
        -- intros x y Hx Hy. rewrite Hx, Hy in Hk. destruct Hk as [Hk1 Hk2]. exists (merge_objects E n x y). split; auto.
           apply look_in in Hx as (kx & Ix & _). apply look_in in Hy as (ky & Iy & _). apply IH; eauto.
      * destruct b as [| | | | | | |lb|lb|]; try (now elim (Hne EvalConflictError)).
        cbn [merge_objects]. unfold merge_sets. apply mg_set.
        -- intros x Hx. apply in_app_iff in Hx as [Hx|Hx]; auto. apply filter_In in Hx as [Hx _]. auto.
        -- intros x [Hx|Hx].
           ++ exists x. split; auto. apply in_app_iff. auto.
           ++ destruct (existsb (str_eqb (key x)) (map key la)) eqn:Ex.
              ** apply existsb_exists in Ex as (kx & Ix & Ek). apply str_eqb_eq in Ek. apply in_map_iff in Ix as (y & Ey & Iy).
                 exists y. split; [apply in_app_iff; auto|congruence].
              ** exists x. split; auto. apply in_app_iff. right. apply filter_In. rewrite Ex. auto.
    + assert (Hb' : collection b = false) by (destruct a, b; try discriminate; auto; now elim (Hne EvalConflictError)).
      assert (Em : merge_objects E (S n) a b = a) by (destruct a, b; try discriminate; reflexivity).
      rewrite Em. now apply mg_first.
Qed.

Lemma merge_go_ok n lb : forall m, good m -> NoDup (map (fun kv => key (fst kv)) lb) ->
  (forall k x y, option_map snd (sm_find k m) = Some x -> look F k lb = Some y -> forall c, merge_objects E n x y <> VErr c) ->
  forall c, merge_go n lb m <> VErr c.
Proof.
  induction lb as [|[k v] lb IH]; intros m Hm HN H c; simpl; [discriminate|].
  inversion HN as [|x y N1 N2]; subst x y.
  assert (Hkk : look F (key k) lb = None) by (apply look_none; exact N1).
  assert (Hnext : forall v', forall c, merge_go n lb (sm_set (key k) (k, v') m) <> VErr c).
  { intro v'. apply IH; auto using good_set. intros k' x y. rewrite (sm_find_set _ _ _ _ (proj1 Hm)).
    destruct (str_eqb k' (key k)) eqn:Ek.
    - apply str_eqb_eq in Ek. subst k'. rewrite Hkk. discriminate.
    - intros Hx Hy. apply (H k'); auto. simpl. rewrite str_eqb_sym, Ek. auto. }
  destruct (sm_find (key k) m) as [[k0 old]|] eqn:Ef; auto.
  assert (Hz : forall c, merge_objects E n old v <> VErr c).
  { apply (H (key k)); [now rewrite Ef|]. simpl. now rewrite str_eqb_refl. }
  pose proof (Hnext (merge_objects E n old v)) as HH.
  destruct (merge_objects E n old v); auto; now elim (Hz code).
Qed.

Lemma merge_ok n : forall m a b, (m <= n)%nat -> distinct_keys F a -> distinct_keys F b -> compatible F m a b ->
  forall c, merge_objects E n a b <> VErr c.
Proof.
  induction n as [|n IH]; intros m a b Hmn Ha Hb Hc c.
  - inversion Hc; subst; lia.
  - inversion Hc as [m' la lb Hk|m' la lb|m' a' b' Ca Cb Ce]; subst.
    + rewrite merge_objects_eq.
      inversion Ha as [la' NA DA|v NA EA]; [subst|now elim (NA la)].
      inversion Hb as [lb' NB DB|v NB EB]; [subst|now elim (NB lb)].
      apply merge_go_ok; auto.
      { apply (items_good la [] good_nil). }
      intros k x y Hx Hy. unfold items_of in Hx. rewrite items_find in Hx by auto using good_nil.
      assert (Hx' : look F k la = Some x) by (destruct (look F k la); [exact Hx|discriminate]).
      apply IH with m'; [lia| | |eauto].
      * apply look_in in Hx' as (kx & Ix & _). eauto.
      * apply look_in in Hy as (ky & Iy & _). eauto.
    + discriminate.
    + assert (Em : merge_objects E (S n) a b = a) by (destruct a, b; try discriminate; reflexivity).
      rewrite Em. apply Ce.
Qed.
End Merge.

Lemma merged_paths F p : forall a b m, merged F a b m ->
  match at_keys F a p, at_keys F b p with
  | Some x, Some y => exists z, at_keys F m p = Some z /\ merged F x y z
  | Some x, None => at_keys F m p = Some x
  | None, Some y => at_keys F m p = Some y
  | None, None => at_keys F m p = None
  end.
Proof.
  induction p as [|k p IH]; intros a b m H.
  - simpl. eauto.
  - inversion H as [la lb lm H1 H2 H3|la lb lm H1 H2|a' b' Ca Cb]; subst.
    + simpl. destruct (look F k la) as [x|] eqn:Ea, (look F k lb) as [y|] eqn:Eb.
      * destruct (H3 k x y Ea Eb) as (z & Hz & Hm). rewrite Hz. now apply IH.
      * rewrite (H2 k Eb), Ea. destruct (at_keys F x p); auto.
      * rewrite (H1 k Ea), Eb. destruct (at_keys F y p); auto.
      * rewrite (H1 k Ea), Eb. auto.
    + reflexivity.
    + destruct m; try discriminate; destruct b; try discriminate; reflexivity.
Qed.
