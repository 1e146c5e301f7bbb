(** Lemmas about the object builtins. *)
From Coq Require Import String ZArith List Bool Lia Permutation Sorted.
From Verif Require Import Base BigIntSpec BigIntModel DecFacts BigIntProofs SMap SMapFacts ValueModel ValueSpec KeyProofs
  ResolverModel ResolverProofs CollModel CollSpec.
Import ListNotations.
Local Open Scope Z_scope.

Section Obj.
Variable F : fops.
Variables NI NF : str -> Prop.
Hypothesis Hdom : num_domain F NI NF.
Notation wf := (wfv F NI NF).
Notation key := (to_key F).
Notation ikey := (fun kv : value * value => key (fst kv)).

Lemma has_key_in k l : has_key k l = true <-> In k l.
Proof.
  unfold has_key. rewrite existsb_exists. split.
  - intros (x & A & B). apply str_eqb_eq in B. now subst.
  - intro H. exists k. split; auto. apply str_eqb_refl.
Qed.
Lemma has_key_not k l : has_key k l = false <-> ~ In k l.
Proof. rewrite <- has_key_in. destruct (has_key k l); intuition congruence. Qed.

Definition wfi (l : list (value * value)) : Prop := Forall (fun kv => wf (fst kv)) l.
Lemma wfi_fst l : wfi l -> Forall wf (map fst l).
Proof. unfold wfi. rewrite !Forall_forall. intros H x Hx. apply in_map_iff in Hx as (kv & <- & Hx). auto. Qed.
Lemma ikey_map l : map ikey l = map key (map fst l).
Proof. now rewrite map_map. Qed.
Lemma wfi_app l l' : wfi (l ++ l') <-> wfi l /\ wfi l'.
Proof. apply Forall_app. Qed.
Lemma wfi_filter f l : wfi l -> wfi (filter f l).
Proof. unfold wfi. rewrite !Forall_forall. intros H x Hx. apply filter_In in Hx as [Hx _]. auto. Qed.

Lemma distinct_nodup l : wfi l -> (distinct_keys F l <-> NoDup (map ikey l)).
Proof.
  intro W. split.
  - intro D. induction l as [|[k v] l IH]; simpl; [constructor|]. inversion W as [|? ? Wk W']; subst. constructor.
    + intro H. apply in_map_iff in H as ([k' v'] & E & H). apply in_split in H as (l2 & l3 & ->).
      apply (D [] k v l2 k' v' l3 eq_refl). apply (key_veq F NI NF); auto.
      rewrite wfi_app in W'. destruct W' as [_ W']. now inversion W'.
    + apply IH; auto. intros l1 k1 v1 l2 k2 v2 l3 -> . apply (D ((k, v) :: l1) k1 v1 l2 k2 v2 l3 eq_refl).
  - intros N l1 k v l2 k' v' l3 -> E. apply wfi_app in W as [_ W]. inversion W as [|? ? Wk W']; subst.
    apply wfi_app in W' as [_ W']. inversion W' as [|? ? Wk' W'']; subst.
    rewrite map_app in N. simpl in N. apply NoDup_remove_2 in N. apply N. rewrite map_app. apply in_or_app. right.
    apply in_or_app. right. left. simpl in *. symmetry. apply (veq_key F NI NF); auto.
Qed.

Lemma wf_object_inv l : wf (VObject l) -> wfi l /\ Forall (fun kv => wf (snd kv)) l /\ NoDup (map ikey l).
Proof.
  intro H. inversion H as [| | | | | | | |l0 A B C]; subst. unfold wfi. rewrite !Forall_forall in *. repeat split.
  - intros kv Hk. apply in_map_iff in Hk as (x & <- & Hx). constructor. now apply A.
  - intros kv Hk. apply in_map_iff in Hk as (x & <- & Hx). now apply B.
  - rewrite map_map. simpl. clear A B H. induction l0 as [|[k v] l IH]; simpl in *; [constructor|]. inversion C; subst.
    constructor; auto. intro Hin. apply in_map_iff in Hin as ([k' v'] & E & Hin). simpl in E. apply quote_inj in E. subst.
    apply H1. apply in_map_iff. exists (k, v'). auto.
Qed.

Lemma nodup_app {A} (l l' : list A) : NoDup l -> NoDup l' -> (forall x, In x l -> ~ In x l') -> NoDup (l ++ l').
Proof.
  induction l as [|x l IH]; simpl; intros H H' D; auto. inversion H; subst. constructor; [|apply IH; auto].
  rewrite in_app_iff. intros [G|G]; auto. apply (D x); auto.
Qed.
Lemma nodup_filter_map {A} (f : A -> str) p l : NoDup (map f l) -> NoDup (map f (filter p l)).
Proof.
  induction l as [|x l IH]; simpl; intro H; [constructor|]. inversion H; subst. destruct (p x); simpl; auto.
  constructor; auto. intro Hin. apply H2. apply in_map_iff in Hin as (y & E & Hy). apply filter_In in Hy as [Hy _].
  apply in_map_iff. eauto.
Qed.

Lemma item_in_coll k v l kl : wfi l -> Forall wf kl -> In (k, v) l ->
  (has_key (key k) (map key kl) = true <-> mem F k kl).
Proof.
  intros W Wk H. rewrite has_key_in, <- (mem_key F NI NF Hdom); auto; [reflexivity|].
  unfold wfi in W. rewrite Forall_forall in W. apply (W _ H).
Qed.
Lemma filter_items l kl : wfi l -> Forall wf kl -> forall k v,
  In (k, v) (filter (fun kv => has_key (key (fst kv)) (map key kl)) l) <-> In (k, v) l /\ mem F k kl.
Proof.
  intros W Wk k v. rewrite filter_In. simpl. split; intros [A B]; split; auto; eapply item_in_coll; eauto.
Qed.
Lemma remove_items l kl : wfi l -> Forall wf kl -> forall k v,
  In (k, v) (filter (fun kv => negb (has_key (key (fst kv)) (map key kl))) l) <-> In (k, v) l /\ ~ mem F k kl.
Proof.
  intros W Wk k v. rewrite filter_In. simpl. split; intros [A B]; split; auto.
  - intro M. apply (item_in_coll k v l kl) in M; auto. rewrite M in B. discriminate.
  - destruct (has_key (key k) (map key kl)) eqn:E; auto. apply (item_in_coll k v l kl) in E; auto.
Qed.

Lemma union_items_in l r : wfi l -> wfi r -> forall k v,
  In (k, v) (union_items F l r) <-> In (k, v) r \/ (In (k, v) l /\ ~ mem F k (map fst r)).
Proof.
  intros Wl Wr k v. unfold union_items. rewrite in_app_iff, ikey_map, remove_items; auto; [tauto|]. now apply wfi_fst.
Qed.
Lemma union_wfi l r : wfi l -> wfi r -> wfi (union_items F l r).
Proof. intros Wl Wr. unfold union_items. apply wfi_app. split; auto. now apply wfi_filter. Qed.
Lemma union_nodup l r : NoDup (map ikey l) -> NoDup (map ikey r) -> NoDup (map ikey (union_items F l r)).
Proof.
  intros Nl Nr. unfold union_items. rewrite map_app. apply nodup_app; auto.
  - now apply nodup_filter_map.
  - intros k H1 H2. apply in_map_iff in H2 as (kv & <- & H2). apply filter_In in H2 as [_ H2].
    apply negb_true_iff, has_key_not in H2. contradiction.
Qed.

Lemma union_n_spec os : Forall wfi os -> Forall (fun o => NoDup (map ikey o)) os -> forall acc, wfi acc -> NoDup (map ikey acc) ->
  exists l, union_n_loop F acc (map VObject os) = RVal (VObject l) /\ wfi l /\ NoDup (map ikey l) /\
  forall k v, In (k, v) l <->
    (In (k, v) acc /\ Forall (fun o => ~ mem F k (map fst o)) os) \/
    exists before o after, os = (before ++ o :: after)%list /\ In (k, v) o /\ Forall (fun o' => ~ mem F k (map fst o')) after.
Proof.
  induction os as [|o os IH]; intros W N acc Wa Na.
  - exists acc. split; [reflexivity|]. split; auto. split; auto. intros k v. split.
    + intro H. left. auto.
    + intros [[H _]|(b & o & a & E & _)]; auto. destruct b; discriminate.
  - inversion W as [|? ? W1 W2]; subst. inversion N as [|? ? N1 N2]; subst. cbn [map union_n_loop].
    destruct (IH W2 N2 (union_items F acc o) (union_wfi _ _ Wa W1) (union_nodup _ _ Na N1)) as (l & E & Wl & Nl & S).
    exists l. split; auto. split; auto. split; auto. intros k v. rewrite S, union_items_in by auto. split.
    + intros [[[H|[H H']] Hf]|(b & o' & a & -> & Hin & Hf)].
      * right. exists [], o, os. auto.
      * left. auto.
      * right. exists (o :: b), o', a. auto.
    + intros [[H Hf]|(b & o' & a & Eo & Hin & Hf)].
      * inversion Hf; subst. left. auto.
      * destruct b as [|x b]; injection Eo as E1 E2; subst; [left; auto|right; exists b, o', a; auto].
Qed.

(** ** object.get *)
Lemma first_item_spec k l : wf k -> wfi l -> NoDup (map ikey l) ->
  match first_item F (key k) l with
  | Some v => exists k', In (k', v) l /\ veq F k k' /\ forall k2 v2, In (k2, v2) l -> veq F k k2 -> v2 = v
  | None => forall k' v, In (k', v) l -> ~ veq F k k'
  end.
Proof.
  intros Hk. induction l as [|[k1 v1] l IH]; intros W N; cbn [first_item]; [intros ? ? []|].
  inversion W as [|? ? W1 W2]; subst. inversion N as [|? ? N1 N2]; subst. simpl in W1, N1.
  destruct (str_eqb (key k1) (key k)) eqn:E.
  - apply str_eqb_eq in E. exists k1. split; [left; auto|]. split; [apply (key_veq F NI NF); auto|].
    intros k2 v2 [H|H] V; [congruence|]. exfalso. apply N1. apply in_map_iff. exists (k2, v2). split; auto. simpl.
    rewrite E. symmetry. apply (veq_key F NI NF); auto. unfold wfi in W2. rewrite Forall_forall in W2. apply (W2 _ H).
  - apply str_eqb_neq in E. specialize (IH W2 N2). destruct (first_item F (key k) l) as [v|].
    + destruct IH as (k' & A & B & C). exists k'. split; [right; auto|]. split; auto.
      intros k2 v2 [H|H] V; [|eauto]. injection H as -> ->. exfalso. apply E. symmetry. apply (veq_key F NI NF); auto.
    + intros k' v [H|H] V; [|eapply IH; eauto]. injection H as -> ->. apply E. symmetry. apply (veq_key F NI NF); auto.
Qed.

Lemma bi_to_size_spec z : 0 <= z < 2 ^ 64 -> bi_to_size (dec z) = Some z.
Proof.
  intro H. unfold bi_to_size. pose proof (zval_dec_all z) as V. unfold zval in V.
  assert (Hn : is_negative (dec z) = false) by (rewrite is_negative_dec; apply Z.ltb_ge; lia).
  rewrite Hn in *. unfold digits. rewrite Hn, V. destruct (Z.ltb_spec uint64_max z) as [L|L]; auto. unfold uint64_max in L. lia.
Qed.

Lemma get_key_spec ks : Forall wf ks -> forall v, wf v -> in_range F v ks ->
  exists r, get_key F v ks = Ok r /\
  match r with Some x => addresses F v ks x /\ (forall y, addresses F v ks y -> y = x) | None => forall x, ~ addresses F v ks x end.
Proof.
  induction ks as [|k ks IH]; intros Wk v Wv R; cbn [get_key].
  - exists (Some v). split; auto. split; [constructor|]. intros y H. now inversion H.
  - inversion Wk as [|? ? Wk1 Wks]; subst. specialize (IH Wks).
    destruct v as [| | |t|t|t|l|l|l|c]; try (exists None; split; [reflexivity|]; intros x H; now inversion H).
    + (* array *)
      destruct k as [| | |t|t|t|l'|l'|l'|c]; try (exists None; split; [reflexivity|]; intros x H; now inversion H).
      inversion Wk1 as [| | |? Hn| | | | |]; subst. destruct Hdom as (HI & _). destruct (HI t Hn) as [z ->].
      inversion R as [| |? n v ? H1 H2 H3|? ? ? H1|? ? H1 H2]; subst.
      * match goal with H : dec _ = dec _ |- _ => apply dec_inj in H; subst end.
        rewrite bi_to_size_spec by lia.
        assert (Hlt : (n < length l)%nat) by (apply nth_error_Some; congruence).
        destruct (Z.ltb_spec (Z.of_nat n) (Z.of_nat (length l))) as [_|?]; [|lia]. rewrite Nat2Z.id, H1.
        assert (Wx : wf v). { inversion Wv as [| | | | | |? A| |]; subst. rewrite Forall_forall in A. apply A. eapply nth_error_In; eauto. }
        destruct (IH v Wx H3) as (r & E & S). exists r. split; auto. destruct r as [x|].
        -- destruct S as [S1 S2]. split; [econstructor; eauto|]. intros y Hy. inversion Hy as [| |? m ? ? ? G1 G2]; subst.
           match goal with H : dec _ = dec _ |- _ => apply dec_inj in H; apply Nat2Z.inj in H; subst end. apply S2. congruence.
        -- intros x Hx. inversion Hx as [| |? m ? ? ? G1 G2]; subst.
           match goal with H : dec _ = dec _ |- _ => apply dec_inj in H; apply Nat2Z.inj in H; subst end. apply (S x). congruence.
      * exfalso. eapply H1. reflexivity.
      * exfalso. eapply H2. reflexivity.
    + (* object *)
      destruct (wf_object_inv l Wv) as (W & Ws & N). pose proof (first_item_spec k l Wk1 W N) as S.
      destruct (first_item F (key k) l) as [x|].
      * destruct S as (k' & A & B & C).
        assert (Wx : wf x) by (rewrite Forall_forall in Ws; apply (Ws _ A)).
        assert (Rx : in_range F x ks).
        { inversion R as [|? ? ? H1| | |? ? H1 H2]; subst; [eauto|]. exfalso. eapply H1. reflexivity. }
        destruct (IH x Wx Rx) as (r & E & S). exists r. split; auto. destruct r as [y|].
        -- destruct S as [S1 S2]. split; [econstructor; eauto|]. intros y' Hy. inversion Hy as [|? ? k2 v2 ? ? G1 G2 G3|]; subst.
           apply S2. rewrite <- (C _ _ G1 G2). auto.
        -- intros y Hy. inversion Hy as [|? ? k2 v2 ? ? G1 G2 G3|]; subst. apply (S y). rewrite <- (C _ _ G1 G2). auto.
      * exists None. split; [reflexivity|]. intros x H. inversion H as [|? ? k2 v2 ? ? G1 G2 G3|]; subst. eapply S; eauto.
Qed.

(** ** object.subset *)
Lemma set_subset_spec super sub : Forall wf super -> wf (VSet sub) ->
  set_subset F super sub = true <-> (forall x, In x sub -> mem F x super).
Proof.
  intros W W'. apply (wf_set_inv F NI NF Hdom) in W' as [W' N]. unfold set_subset.
  assert (K : forallb (fun k => has_key k (map key super)) (map key sub) = true <-> (forall x, In x sub -> mem F x super)).
  { rewrite forallb_forall. split.
    - intros H x Hx. apply (mem_key F NI NF Hdom); auto; [rewrite Forall_forall in W'; auto|].
      apply has_key_in. apply H. now apply in_map.
    - intros H k Hk. apply in_map_iff in Hk as (x & <- & Hx). apply has_key_in. apply (mem_key F NI NF Hdom); auto.
      rewrite Forall_forall in W'; auto. }
  destruct (Nat.ltb_spec (length super) (length sub)) as [L|L]; [|exact K].
  split; [discriminate|]. intro H. exfalso. assert (I : incl (map key sub) (map key super)).
  { intros k Hk. apply in_map_iff in Hk as (x & <- & Hx). apply (mem_key F NI NF Hdom); auto. rewrite Forall_forall in W'; auto. }
  apply NoDup_incl_length in I; auto. rewrite !map_length in I. lia.
Qed.

Lemma starts_with_spec l pre : starts_with l pre = true <-> exists r, l = (pre ++ r)%list.
Proof.
  revert l. induction pre as [|x pre IH]; intro l.
  - destruct l; simpl; split; eauto.
  - destruct l as [|y l]; simpl; [split; [discriminate|intros [r H]; discriminate]|].
    rewrite andb_true_iff, IH. split.
    + intros [H [r ->]]. apply str_eqb_eq in H. subst. eauto.
    + intros [r H]. injection H as -> ->. split; [apply str_eqb_refl|eauto].
Qed.
Lemma find_run_spec first sub super : find_run super (first :: sub) first = true <->
  exists a b, super = (a ++ (first :: sub) ++ b)%list.
Proof.
  induction super as [|x super IH]; cbn [find_run].
  - split; [discriminate|]. intros (a & b & H). destruct a; discriminate.
  - assert (Tail : find_run super (first :: sub) first = true -> exists a b, x :: super = (a ++ (first :: sub) ++ b)%list).
    { intro H. apply IH in H as (a & b & ->). exists (x :: a), b. reflexivity. }
    destruct (str_eqb x first) eqn:E.
    + apply str_eqb_eq in E. subst. destruct (Nat.ltb_spec (length (first :: super)) (length (first :: sub))) as [L|L].
      * split; [discriminate|]. intros (a & b & H). apply (f_equal (@length _)) in H. rewrite !app_length in H. lia.
      * destruct (starts_with (first :: super) (first :: sub)) eqn:S.
        -- split; auto. intros _. apply starts_with_spec in S as [r S]. exists [], r. exact S.
        -- split; auto. intros (a & b & H). destruct a as [|y a].
           ++ assert (starts_with (first :: super) (first :: sub) = true) by (apply starts_with_spec; exists b; exact H). congruence.
           ++ injection H as _ H. apply IH. eauto.
    + apply str_eqb_neq in E. split; auto. intros (a & b & H). destruct a as [|y a].
      * injection H as H _. congruence.
      * injection H as _ H. apply IH. eauto.
Qed.

Lemma map_key_forall2 l l' : Forall wf l -> Forall wf l' -> (map key l = map key l' <-> Forall2 (veq F) l l').
Proof.
  revert l'. induction l as [|x l IH]; intros [|y l'] W W'; simpl; try (split; [discriminate|intro H; inversion H]).
  - split; constructor.
  - inversion W; subst. inversion W'; subst. split.
    + intro H. injection H as A B. constructor; [apply (key_veq F NI NF); auto|now apply IH].
    + intro H. inversion H; subst. f_equal; [now apply (veq_key F NI NF)|now apply IH].
Qed.
Lemma array_subset_spec super sub : Forall wf super -> Forall wf sub -> sub <> [] ->
  exists b, array_subset F super sub = Ok b /\ (b = true <-> contained F (VArray super) (VArray sub)).
Proof.
  intros W W' Hne. unfold array_subset.
  assert (Len : contained F (VArray super) (VArray sub) -> (length sub <= length super)%nat).
  { intro H. inversion H as [|? run ? ? G| | |? ? S]; subst; [|destruct S]. assert (GL : length run = length sub) by (clear - G; induction G; simpl; congruence). rewrite !app_length. lia. }
  destruct (Nat.ltb_spec (length super) (length sub)) as [L|L].
  - exists false. split; auto. split; [discriminate|]. intro H. apply Len in H. lia.
  - destruct sub as [|x sub]; [congruence|]. cbn [map].
    exists (find_run (map key super) (key x :: map key sub) (key x)). split; [reflexivity|]. rewrite find_run_spec. split.
    + intros (a & b & H). change (key x :: map key sub) with (map key (x :: sub)) in H.
      apply map_eq_app in H as (l1 & l2 & -> & <- & H). apply map_eq_app in H as (l3 & l4 & -> & H & <-).
      apply Forall_app in W as [_ W]. apply Forall_app in W as [W _]. constructor. now apply map_key_forall2.
    + intro H. inversion H as [|before run after ? G| | |? ? S]; subst; [|destruct S].
      apply Forall_app in W as [_ W]. apply Forall_app in W as [W _]. apply map_key_forall2 in G; auto.
      exists (map key before), (map key after). rewrite !map_app, G. reflexivity.
Qed.

Lemma to_map_find l k : NoDup (map ikey l) -> keyed (to_map F l) /\
  forall v, sm_find k (to_map F l) = Some v <-> exists k', In (k', v) l /\ key k' = k.
Proof.
  unfold to_map. intro N.
  assert (G : forall m, keyed m -> keyed (fold_left (fun m kv => sm_set (key (fst kv)) (snd kv) m) l m) /\
    forall v, sm_find k (fold_left (fun m kv => sm_set (key (fst kv)) (snd kv) m) l m) = Some v <->
      (exists k', In (k', v) l /\ key k' = k) \/ (~ In k (map ikey l) /\ sm_find k m = Some v)).
  { induction l as [|[k1 v1] l IH]; intros m Hm; cbn [fold_left].
    - split; auto. intro v. split; [right; auto|]. intros [(k' & [] & _)|[_ H]]; auto.
    - inversion N as [|? ? N1 N2]; subst. simpl in N1. specialize (IH N2). cbn [fst snd].
      destruct (IH (sm_set (key k1) v1 m) (sm_set_keyed _ _ _ Hm)) as [A B]. split; auto. intro v. rewrite B, sm_find_set by auto.
      destruct (str_eqb k (key k1)) eqn:E; cbn [map fst].
      + apply str_eqb_eq in E. subst k. split.
        * intros [(k' & H & Ek)|[H Ev]]; left; [exists k'; split; [right|]; auto|]. injection Ev as ->. exists k1. split; [left|]; auto.
        * intros [(k' & [H|H] & Ek)|[H _]]; [|left; eauto|exfalso; apply H; left; auto].
          injection H as -> ->. right. auto.
      + apply str_eqb_neq in E. split.
        * intros [(k' & H & Ek)|[H Ev]]; [left; exists k'; split; [right|]; auto|right]. split; auto. intros [H'|H']; auto. 
        * intros [(k' & [H|H] & Ek)|[H Ev]]; [injection H as -> ->; congruence|left; eauto|right]. split; auto. intro H'. apply H. right. auto. }
  destruct (G [] keyed_nil) as [A B]. split; auto. intro v. rewrite B. split; [|auto]. intros [H|[_ H]]; auto. discriminate.
Qed.

Lemma is_subset_spec fuel : forall super sub, wf super -> wf sub -> no_empty_array sub -> (odepth sub < fuel)%nat ->
  exists b, is_subset F fuel super sub = Ok b /\ (b = true <-> contained F super sub).
Proof.
  induction fuel as [|fuel IH]; intros super sub Wp Wb NE Hf; [lia|].
  assert (Sc : forall a b, wf a -> wf b -> is_scalar a && is_scalar b = true ->
    exists r, Ok (str_eqb (key a) (key b)) = Ok r /\ (r = true <-> contained F a b)).
  { intros a b Wa Wb' S. exists (str_eqb (key a) (key b)). split; [reflexivity|]. rewrite str_eqb_eq. apply andb_true_iff in S as [Sa Sb].
    rewrite (key_iff F NI NF Hdom) by auto. split.
    - intro H. apply ct_scalar; auto; [destruct a|destruct b]; simpl in *; auto; discriminate.
    - intro H. inversion H; subst; try discriminate. auto. }
  assert (No : forall a b, wf a -> wf b -> is_scalar a && is_scalar b = false -> (contained F a b -> False) ->
    exists r, Ok false = Ok r /\ (r = true <-> contained F a b)).
  { intros a b _ _ _ H. exists false. split; auto. split; [discriminate|intro; exfalso; auto]. }
  destruct sub as [| | |tb|tb|tb|lb|lb|lb|cb]; destruct super as [| | |tp|tp|tp|lp|lp|lp|cp]; cbn [is_subset is_scalar andb];
    try (apply Sc; auto; fail);
    try (apply No; auto; intro H; inversion H; subst; simpl in *; contradiction).
  - (* arrays *)
    apply array_subset_spec.
    + now inversion Wp.
    + now inversion Wb.
    + inversion NE; subst; congruence.
  - (* objects *)
    destruct (wf_object_inv lp Wp) as (W & Ws & N). destruct (wf_object_inv lb Wb) as (W' & Ws' & N').
    assert (Mp : forall k v, sm_find k (to_map F lp) = Some v <-> exists k', In (k', v) lp /\ key k' = k)
      by (intro k; apply (to_map_find lp k N)).
    assert (Mb : forall k v, In (k, v) (to_map F lb) <-> exists k', In (k', v) lb /\ key k' = k).
    { intros k v. destruct (to_map_find lb k N') as [A B]. rewrite keyed_in by auto. apply B. }
    assert (Spec : contained F (VObject lp) (VObject lb) <->
      forall k v, In (k, v) (to_map F lb) -> exists s, sm_find k (to_map F lp) = Some s /\ contained F s v).
    { split.
      - intro H. inversion H as [? ? G| | | |? ? S]; subst; [|destruct S]. intros k v Hin. apply Mb in Hin as (k' & Hin & <-).
        destruct (G k' v Hin) as (k2 & v2 & A & B & C). exists v2. split; auto. apply Mp. exists k2. split; auto.
        unfold wfi in *. rewrite Forall_forall in W, W'. symmetry. apply (veq_key F NI NF); auto; first [apply (W' _ Hin)|apply (W _ A)].
      - intro H. constructor. intros k v Hin. destruct (H (key k) v) as (s & A & B); [apply Mb; eauto|].
        apply Mp in A as (k' & A & E). exists k', s. split; auto. split; auto.
        unfold wfi in *. rewrite Forall_forall in W, W'. apply (key_veq F NI NF); auto; first [apply (W' _ Hin)|apply (W _ A)]. }
    destruct (Nat.ltb_spec (length lp) (length lb)) as [L|L].
    + exists false. split; auto. split; [discriminate|]. intro H. exfalso.
      inversion H as [? ? G| | | |? ? S]; subst; [|destruct S].
      assert (I : incl (map ikey lb) (map ikey lp)).
      { intros k Hk. apply in_map_iff in Hk as ([k1 v1] & <- & Hk). destruct (G k1 v1 Hk) as (k2 & v2 & A & B & C).
        apply in_map_iff. exists (k2, v2). split; auto. unfold wfi in *. rewrite Forall_forall in W, W'. symmetry.
        apply (veq_key F NI NF); auto; first [apply (W' _ Hk)|apply (W _ A)]. }
      apply NoDup_incl_length in I; auto. rewrite !map_length in I. lia.
    + assert (Sub : forall k v, In (k, v) (to_map F lb) -> wf v /\ no_empty_array v /\ (odepth v < fuel)%nat).
      { intros k v Hin. apply Mb in Hin as (k' & Hin & _). rewrite Forall_forall in Ws'. split; [apply (Ws' _ Hin)|]. split.
        - inversion NE as [? G|? G]; subst; [eauto|]. exfalso. eapply G. reflexivity.
        - cbn [odepth] in Hf. apply Nat.succ_lt_mono in Hf. eapply Nat.le_lt_trans; [|exact Hf]. clear - Hin.
          induction lb as [|[k1 v1] l IHl]; [destruct Hin|]. cbn [fold_right snd]. destruct Hin as [H|H].
          + injection H as -> ->. apply Nat.le_max_l.
          + eapply Nat.le_trans; [apply (IHl H)|apply Nat.le_max_r]. }
      assert (Find : forall k s, sm_find k (to_map F lp) = Some s -> wf s).
      { intros k s Hs. apply Mp in Hs as (k' & Hs & _). rewrite Forall_forall in Ws. apply (Ws _ Hs). }
      clear Mb. revert Spec Sub. generalize (to_map F lb) as m. intros m Spec Sub.
      assert (Go : exists b, (fix go (m : list (str * value)) : outcome bool :=
               match m with
               | [] => Ok true
               | (k, v) :: m' =>
                   match sm_find k (to_map F lp) with
                   | None => Ok false
                   | Some s => let! b := is_subset F fuel s v in if b then go m' else Ok false
                   end
               end) m = Ok b /\ (b = true <-> forall k v, In (k, v) m -> exists s, sm_find k (to_map F lp) = Some s /\ contained F s v)).
      { clear Spec. induction m as [|[k v] m IHm].
        - exists true. split; auto. split; auto. intros _ ? ? [].
        - destruct (sm_find k (to_map F lp)) as [s|] eqn:E.
          + destruct (Sub k v (or_introl eq_refl)) as (S1 & S2 & S3). destruct (IH s v (Find _ _ E) S1 S2 S3) as (b & Eb & Hb).
            rewrite Eb. cbn [obind]. destruct b.
            * destruct IHm as (b' & Eb' & Hb'); [intros; apply (Sub k0 v0); right; auto|]. exists b'. split; auto. rewrite Hb'. split.
              -- intros H k1 v1 [H1|H1]; [injection H1 as <- <-; exists s; split; [auto|now apply Hb]|eauto].
              -- intros H k1 v1 H1. apply H. right; auto.
            * exists false. split; auto. split; [discriminate|]. intro H. destruct (H k v (or_introl eq_refl)) as (s' & A & B).
              rewrite E in A. injection A as <-. now apply Hb in B.
          + exists false. split; auto. split; [discriminate|]. intro H. destruct (H k v (or_introl eq_refl)) as (s' & A & B). congruence. }
      destruct Go as (b & E & Hb). exists b. split; auto. rewrite Hb, Spec. reflexivity.
  - (* set in array *)
    exists (set_subset F lp lb). split; [reflexivity|]. rewrite set_subset_spec; auto; [|now inversion Wp]. split.
    + intro H. now constructor.
    + intro H. inversion H as [| | | |? ? S]; subst; auto. destruct S.
  - (* sets *)
    exists (set_subset F lp lb). split; [reflexivity|]. rewrite set_subset_spec; auto; [|now inversion Wp]. split.
    + intro H. now constructor.
    + intro H. inversion H as [| | | |? ? S]; subst; auto. destruct S.
Qed.
End Obj.
