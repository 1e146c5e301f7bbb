From Coq Require Import String ZArith List Bool Lia Permutation Sorted QArith.
From Verif Require Import Base BigIntSpec BigIntModel DecFacts BigIntProofs SMap SMapFacts ValueModel ValueSpec KeyProofs ResolverModel.
Import ListNotations.
Local Open Scope Z_scope.

Section Ints.
Variable F : fops.

Lemma plus_spec x y : bi_plus F (VInt (dec x)) (VInt (dec y)) = Ok (RVal (VInt (dec (x + y)))).
Proof. unfold bi_plus, arithinfix, unwrap_number. cbn [is_num andb try_get_int obind op_eqb_div do_arith_int].
  now rewrite bi_add_spec. Qed.
Lemma minus_spec x y : bi_minus F (VInt (dec x)) (VInt (dec y)) = Ok (RVal (VInt (dec (x - y)))).
Proof. unfold bi_minus, arithinfix, unwrap_number_or_set, unwrap_number. cbn [is_num andb try_get_int obind op_eqb_div do_arith_int].
  now rewrite bi_sub_spec. Qed.
Lemma times_spec x y : bi_times F (VInt (dec x)) (VInt (dec y)) = Ok (RVal (VInt (dec (x * y)))).
Proof. unfold bi_times, arithinfix, unwrap_number. cbn [is_num andb try_get_int obind op_eqb_div do_arith_int].
  now rewrite bi_mul_spec. Qed.

Lemma compare_spec op x y :
  (zrel op x y -> bi_compare F op (VInt (dec x)) (VInt (dec y)) = Ok (RVal VTrue)) /\
  (~ zrel op x y -> bi_compare F op (VInt (dec x)) (VInt (dec y)) = Ok (RVal VFalse)).
Proof.
  unfold bi_compare, boolinfix. 
  assert (G : forall b, (zrel op x y <-> b = true) -> do_bool_int op (dec x) (dec y) = b ->
    (zrel op x y -> @Ok res (RVal (vbool (do_bool_int op (dec x) (dec y)))) = Ok (RVal VTrue)) /\
    (~ zrel op x y -> @Ok res (RVal (vbool (do_bool_int op (dec x) (dec y)))) = Ok (RVal VFalse))).
  { intros b Hb ->. split; intro H; [apply Hb in H; subst; reflexivity|].
    destruct b; [exfalso; apply H; now apply Hb|reflexivity]. }
  destruct op; cbn [zrel do_bool_int] in *.
  - apply (G (x =? y)); [rewrite Z.eqb_eq; tauto|]. now apply bi_eq_spec.
  - apply (G (negb (x =? y))); [rewrite negb_true_iff, Z.eqb_neq; tauto|].
    unfold bi_ne. f_equal. apply bi_eq_spec.
  - apply (G (x <? y)); [rewrite Z.ltb_lt; tauto|]. now apply bi_lt_spec.
  - apply (G (x <=? y)); [rewrite Z.leb_le; tauto|]. now apply bi_le_spec.
  - apply (G (y <? x)); [rewrite Z.ltb_lt; lia|]. now apply bi_gt_spec.
  - apply (G (y <=? x)); [rewrite Z.leb_le; lia|]. now apply bi_ge_spec.
Qed.

Lemma eval_iexpr_spec e : eval_iexpr F e = Ok (RVal (VInt (dec (zeval e)))).
Proof.
  induction e; cbn [eval_iexpr zeval]; rewrite ?IHe1, ?IHe2, ?IHe; cbn [on_val]; auto.
  - apply plus_spec. - apply minus_spec. - apply times_spec.
  - unfold bi_uminus. change ($"0") with (dec 0). rewrite minus_spec. reflexivity.
  - cbn [bi_absb]. now rewrite bi_abs_spec.
Qed.


Lemma acc_add l a : accumulate F OpAdd (RVal (VInt (dec a))) (ints l) = Ok (RVal (VInt (dec (fold_left Z.add l a)))).
Proof. revert a. induction l as [|x l IH]; intro a; [reflexivity|].
  cbn [ints map accumulate fold_left]. pose proof (plus_spec a x) as E. unfold bi_plus, unwrap_number in E. cbn [is_num] in E. rewrite E. apply IH. Qed.
Lemma acc_mul l a : accumulate F OpMul (RVal (VInt (dec a))) (ints l) = Ok (RVal (VInt (dec (fold_left Z.mul l a)))).
Proof. revert a. induction l as [|x l IH]; intro a; [reflexivity|].
  cbn [ints map accumulate fold_left]. pose proof (times_spec a x) as E. unfold bi_times, unwrap_number in E. cbn [is_num] in E. rewrite E. apply IH. Qed.

Lemma rem_zero x : bi_rem F (VInt (dec x)) (VInt (dec 0)) = Ok (RErr EvalBuiltInError).
Proof. reflexivity. Qed.

Lemma rem_spec x y : y <> 0 ->
  (forall k, 0 < k -> 10 ^ k <= Z.abs x -> (Z.abs x / 10 ^ k) mod Z.abs y <> 0) \/ Z.abs x < Z.abs y ->
  bi_rem F (VInt (dec x)) (VInt (dec y)) = Ok (RVal (VInt (dec (Z.rem x y)))).
Proof.
  intros Hy H. unfold bi_rem, arithinfix, unwrap_number. cbn [is_num andb try_get_int obind op_eqb_div do_arith_int].
  rewrite is_zero_dec. destruct (Z.eqb_spec y 0); [lia|]. now rewrite bi_mod_spec.
Qed.
End Ints.

Section Wf.
Variable F : fops.
Variables NI NF : str -> Prop.
Hypothesis Hdom : num_domain F NI NF.
Notation wf := (wfv F NI NF).
Notation key := (to_key F).

Lemma mem_key x l : wf x -> Forall wf l -> (mem F x l <-> In (key x) (map key l)).
Proof.
  intros Hx Hl. rewrite in_map_iff, Forall_forall in *. split; intros (y & A & B).
  - exists y. split; auto. symmetry. apply (veq_key F NI NF); auto.
  - exists y. split; auto. apply (key_veq F NI NF); auto.
Qed.

Lemma nodup_wf_set l : Forall wf l -> NoDup (map key l) -> wf (VSet l).
Proof.
  intros Hl Hn. constructor; auto. intros l1 x l2 y l3 -> E.
  rewrite Forall_forall in Hl.
  assert (K : key x = key y).
  { apply (veq_key F NI NF); auto; apply Hl; repeat (apply in_or_app; simpl; right; auto); simpl; auto. 
    right. apply in_or_app. simpl; auto. }
  rewrite map_app in Hn. simpl in Hn. apply NoDup_remove_2 in Hn. apply Hn.
  rewrite map_app. simpl. rewrite K. apply in_or_app. right. apply in_or_app. right. left. reflexivity.
Qed.

Lemma wf_set_inv l : wf (VSet l) -> Forall wf l /\ NoDup (map key l).
Proof. intro H. inversion H as [| | | | | | |? A B|]; subst. split; auto. now apply (map_key_nodup F NI NF). Qed.

(** A map from keys to members whose keys are those of the members. *)
Definition kmap (m : list (str * value)) : Prop := keyed m /\ Forall (fun kv => fst kv = key (snd kv)) m.

Lemma kmap_keys m : kmap m -> map key (map snd m) = map fst m.
Proof. intros [_ H]. rewrite map_map. apply map_ext_in. rewrite Forall_forall in H. intros kv Hkv. symmetry. auto. Qed.

Lemma sm_set_in {A} k (a : A) m kv : In kv (sm_set k a m) -> kv = (k, a) \/ In kv m.
Proof.
  induction m as [|[k' a'] m IH]; simpl; [intuition|].
  destruct (str_ltb k k'); [simpl; intuition|]. destruct (str_eqb k k'); simpl; intuition.
Qed.

Lemma kmap_set x m : kmap m -> kmap (sm_set (key x) x m).
Proof. intros [A B]. split; [now apply sm_set_keyed|]. rewrite Forall_forall in *. intros kv H.
  apply sm_set_in in H as [->|H]; auto. Qed.
Lemma kmap_insert x m : kmap m -> kmap (sm_insert (key x) x m).
Proof. intros H. unfold sm_insert. destruct (sm_find (key x) m); auto. now apply kmap_set. Qed.

Lemma in_keys {A} k (m : list (str * A)) : In k (map fst m) <-> sm_find k m <> None.
Proof. pose proof (sm_find_none k m) as [G1 G2]. destruct (sm_find k m) eqn:E.
  - split; [congruence|]. intros _. apply in_map_iff. exists (k, a). split; auto. now apply sm_find_in.
  - split; [|congruence]. intros H. exfalso. now apply G1.
Qed.

Lemma set_keys_in k (x : value) m : keyed m -> (In k (map fst (sm_set (key x) x m)) <-> k = key x \/ In k (map fst m)).
Proof. intros Hm. rewrite !in_keys, sm_find_set by auto. destruct (str_eqb k (key x)) eqn:E.
  - apply str_eqb_eq in E. split; auto. intros _. discriminate.
  - apply str_eqb_neq in E. tauto. Qed.
Lemma insert_keys_in k (x : value) m : keyed m -> (In k (map fst (sm_insert (key x) x m)) <-> k = key x \/ In k (map fst m)).
Proof. intros Hm. rewrite !in_keys, sm_find_insert by auto. destruct (sm_find k m) eqn:E.
  - split; intros _; [right|]; discriminate.
  - destruct (str_eqb k (key x)) eqn:E'.
    + apply str_eqb_eq in E'. split; auto. intros _. discriminate.
    + apply str_eqb_neq in E'. tauto. Qed.

Lemma fold_insert l m : kmap m ->
  let m' := fold_left (fun m x => sm_insert (key x) x m) l m in
  kmap m' /\ (forall k, In k (map fst m') <-> In k (map key l) \/ In k (map fst m)) /\
  (forall kv, In kv m' -> In kv m \/ In (snd kv) l).
Proof.
  revert m. induction l as [|x l IH]; intros m Hm; cbn [fold_left].
  - split; auto. split; [simpl; tauto|auto].
  - destruct (IH (sm_insert (key x) x m) (kmap_insert x m Hm)) as (A & B & C). split; auto. split.
    + intro k. rewrite B, insert_keys_in by apply Hm. simpl. intuition.
    + intros kv H. apply C in H as [H|H]; [|simpl; auto]. unfold sm_insert in H.
      destruct (sm_find (key x) m); auto. apply sm_set_in in H as [->|H]; simpl; auto.
Qed.
Lemma fold_set l m : kmap m ->
  let m' := fold_left (fun m x => sm_set (key x) x m) l m in
  kmap m' /\ (forall k, In k (map fst m') <-> In k (map key l) \/ In k (map fst m)) /\
  (forall kv, In kv m' -> In kv m \/ In (snd kv) l).
Proof.
  revert m. induction l as [|x l IH]; intros m Hm; cbn [fold_left].
  - split; auto. split; [simpl; tauto|auto].
  - destruct (IH (sm_set (key x) x m) (kmap_set x m Hm)) as (A & B & C). split; auto. split.
    + intro k. rewrite B, set_keys_in by apply Hm. simpl. intuition.
    + intros kv H. apply C in H as [H|H]; [|simpl; auto].
      apply sm_set_in in H as [->|H]; simpl; auto.
Qed.
Lemma kmap_nil : kmap [].
Proof. split; constructor. Qed.

Lemma set_of_facts l :
  StronglySorted (fun a b => str_ltb a b = true) (map key (set_of F l)) /\
  (forall k, In k (map key (set_of F l)) <-> In k (map key l)) /\
  (forall x, In x (set_of F l) -> In x l).
Proof.
  destruct (fold_insert l [] kmap_nil) as (A & B & C). unfold set_of.
  rewrite kmap_keys by exact A. split; [apply A|]. split.
  - intro k. rewrite B. simpl. tauto.
  - intros x H. apply in_map_iff in H as (kv & <- & H). apply C in H as [[]|H]; auto.
Qed.

Lemma set_union_facts a b :
  StronglySorted (fun a b => str_ltb a b = true) (map key (set_union F a b)) /\
  (forall k, In k (map key (set_union F a b)) <-> In k (map key a) \/ In k (map key b)) /\
  (forall x, In x (set_union F a b) -> In x a \/ In x b).
Proof.
  destruct (fold_set a [] kmap_nil) as (A & B & C). destruct (fold_insert b _ A) as (A' & B' & C').
  unfold set_union. rewrite kmap_keys by exact A'. split; [apply A'|]. split.
  - intro k. rewrite B', B. simpl. tauto.
  - intros x H. apply in_map_iff in H as (kv & <- & H). apply C' in H as [H|H]; auto.
    apply C in H as [[]|H]; auto.
Qed.

Lemma existsb_key x l : existsb (str_eqb (key x)) (map key l) = true <-> In (key x) (map key l).
Proof. rewrite existsb_exists. split.
  - intros (k & H & E). apply str_eqb_eq in E. now subst.
  - intro H. exists (key x). split; auto. apply str_eqb_refl. Qed.

Lemma nodup_map_filter (f : value -> bool) l : NoDup (map key l) -> NoDup (map key (filter f l)).
Proof.
  induction l as [|x l IH]; simpl; auto. intro H. inversion H; subst. destruct (f x); auto. simpl. constructor; auto.
  intro I. apply H2. apply in_map_iff in I as (y & <- & I). apply filter_In in I as [I _]. now apply in_map.
Qed.
Lemma forall_filter (P : value -> Prop) f l : Forall P l -> Forall P (filter f l).
Proof. rewrite !Forall_forall. intros H x Hx. apply filter_In in Hx as [Hx _]. auto. Qed.

Lemma filter_keys (f : str -> bool) l k : In k (map key (filter (fun x => f (key x)) l)) <-> In k (map key l) /\ f k = true.
Proof.
  rewrite !in_map_iff. split.
  - intros (x & <- & H). apply filter_In in H as [H E]. split; auto. exists x. auto.
  - intros [(x & <- & H) E]. exists x. split; auto. apply filter_In. auto.
Qed.

Lemma inter_keys a b k : In k (map key (set_inter F a b)) <-> In k (map key a) /\ In k (map key b).
Proof.
  unfold set_inter. rewrite (filter_keys (fun k => existsb (str_eqb k) (map key a))).
  rewrite existsb_exists. split.
  - intros [A (y & H & E)]. apply str_eqb_eq in E. subst. auto.
  - intros [A B]. split; auto. exists k. split; auto. apply str_eqb_refl.
Qed.
Lemma diff_keys a b k : In k (map key (set_diff F a b)) <-> In k (map key a) /\ ~ In k (map key b).
Proof.
  unfold set_diff. rewrite (filter_keys (fun k => negb (existsb (str_eqb k) (map key b)))).
  rewrite negb_true_iff. split; intros [A B]; split; auto.
  - intro H. assert (existsb (str_eqb k) (map key b) = true); [|congruence]. rewrite existsb_exists.
    exists k. split; auto. apply str_eqb_refl.
  - destruct (existsb (str_eqb k) (map key b)) eqn:E; auto. rewrite existsb_exists in E.
    destruct E as (y & H & E). apply str_eqb_eq in E. now subst.
Qed.

Lemma sorted_nodup_keys l : StronglySorted (fun a b => str_ltb a b = true) l -> NoDup l.
Proof. apply ssorted_nodup. Qed.

Lemma set_of_wf l : Forall wf l -> wf (VSet (set_of F l)).
Proof.
  intro H. destruct (set_of_facts l) as (A & B & C). apply nodup_wf_set; [|now apply sorted_nodup_keys].
  rewrite Forall_forall in *. auto.
Qed.
Lemma union_wf a b : Forall wf a -> Forall wf b -> wf (VSet (set_union F a b)).
Proof.
  intros Ha Hb. destruct (set_union_facts a b) as (A & B & C). apply nodup_wf_set; [|now apply sorted_nodup_keys].
  rewrite Forall_forall in *. intros x Hx. apply C in Hx as [Hx|Hx]; auto.
Qed.
Lemma inter_wf a b : wf (VSet b) -> wf (VSet (set_inter F a b)).
Proof. intros Hb. apply wf_set_inv in Hb as [H1 H2]. apply nodup_wf_set; [now apply forall_filter|now apply nodup_map_filter]. Qed.
Lemma diff_wf a b : wf (VSet a) -> wf (VSet (set_diff F a b)).
Proof. intros Hb. apply wf_set_inv in Hb as [H1 H2]. apply nodup_wf_set; [now apply forall_filter|now apply nodup_map_filter]. Qed.

(** Sets are equal when they have the same members. *)
Lemma set_ext a b : wf (VSet a) -> wf (VSet b) -> (forall k, In k (map key a) <-> In k (map key b)) ->
  veq F (VSet a) (VSet b).
Proof.
  intros Ha Hb H. apply wf_set_inv in Ha as [Ha _]. apply wf_set_inv in Hb as [Hb _].
  rewrite Forall_forall in Ha, Hb. constructor.
  - intros x Hx. assert (I : In (key x) (map key b)) by (apply H; now apply in_map).
    apply in_map_iff in I as (y & E & I). exists y. split; auto. apply (key_veq F NI NF); auto.
  - intros y Hy. assert (I : In (key y) (map key a)) by (apply H; now apply in_map).
    apply in_map_iff in I as (x & E & I). exists x. split; auto. apply (key_veq F NI NF); auto.
Qed.

(** set_of is the same list of keys for lists with the same members. *)
Lemma ssorted_ext (l l' : list str) :
  StronglySorted (fun a b => str_ltb a b = true) l -> StronglySorted (fun a b => str_ltb a b = true) l' ->
  (forall k, In k l <-> In k l') -> l = l'.
Proof.
  intros H H' E.
  assert (K : forall t : list str, map fst (map (fun k => (k, tt)) t) = t) by (intro t; rewrite map_map; apply map_id).
  assert (R : map (fun k => (k, tt)) l = map (fun k => (k, tt)) l').
  { apply keyed_ext; unfold keyed; rewrite ?K; auto. intro k.
    assert (forall t, sm_find k (map (fun k => (k, tt)) t) = if existsb (str_eqb k) t then Some tt else None) as G.
    { induction t as [|x t IH]; simpl; auto. destruct (str_eqb k x); auto. }
    rewrite !G. assert (existsb (str_eqb k) l = existsb (str_eqb k) l') as ->; auto.
    apply eq_iff_eq_true. rewrite !existsb_exists. 
    split; intros (y & Hy & Ey); exists y; split; auto; apply E; auto. }
  rewrite <- (K l), <- (K l'). now rewrite R.
Qed.
End Wf.
