(** [to_key] identifies well-formed values. *)
From Coq Require Import String ZArith List Bool Lia Permutation Sorted QArith.
From Verif Require Import Base BigIntSpec BigIntModel DecFacts BigIntProofs SMap SMapFacts ValueModel ValueSpec.
Import ListNotations.
Local Open Scope Z_scope.

(** Induction over nested values. *)
Section ValueInd.
Variable P : value -> Prop.
Hypothesis Hnull : P VNull.
Hypothesis Htrue : P VTrue.
Hypothesis Hfalse : P VFalse.
Hypothesis Hint : forall t, P (VInt t).
Hypothesis Hfloat : forall t, P (VFloat t).
Hypothesis Hstring : forall t, P (VString t).
Hypothesis Harray : forall l, Forall P l -> P (VArray l).
Hypothesis Hobject : forall l, Forall (fun kv => P (fst kv) /\ P (snd kv)) l -> P (VObject l).
Hypothesis Hset : forall l, Forall P l -> P (VSet l).
Hypothesis Herr : forall c, P (VErr c).
Fixpoint value_rect' (v : value) : P v :=
  match v with
  | VNull => Hnull | VTrue => Htrue | VFalse => Hfalse
  | VErr c => Herr c | VInt t => Hint t | VFloat t => Hfloat t | VString t => Hstring t
  | VArray l => Harray l ((fix go l := match l return Forall P l with [] => Forall_nil _ | x :: l' => Forall_cons _ (value_rect' x) (go l') end) l)
  | VObject l => Hobject l ((fix go l := match l return Forall (fun kv => P (fst kv) /\ P (snd kv)) l with
       | [] => Forall_nil _ | (k, x) :: l' => Forall_cons (k, x) (conj (value_rect' k) (value_rect' x)) (go l') end) l)
  | VSet l => Hset l ((fix go l := match l return Forall P l with [] => Forall_nil _ | x :: l' => Forall_cons _ (value_rect' x) (go l') end) l)
  end.
End ValueInd.

(** A scanner that cuts off the first key of a text: it stops at a separator or closing bracket outside strings and
    brackets. *)
Definition opens (c : byte) : bool := (c =? 91) || (c =? 60) || (c =? 123).
Definition closes (c : byte) : bool := (c =? 93) || (c =? 62) || (c =? 125).
Definition seps (c : byte) : bool := c =? 44.

Ltac bz := unfold opens, closes, seps in *; repeat match goal with
  | H : (_ || _) = true |- _ => apply orb_true_iff in H as [H|H]
  | H : (_ =? _) = true |- _ => apply Z.eqb_eq in H end; subst; try discriminate; try lia.

Lemma closes_opens c : closes c = true -> opens c = false.
Proof. intro H. destruct (opens c) eqn:E; auto. bz. Qed.
Lemma closes_seps c : closes c = true -> seps c = true -> False.
Proof. intros. bz. Qed.
Lemma seps_opens c : seps c = true -> opens c = false.
Proof. intro H. destruct (opens c) eqn:E; auto. bz. Qed.

Definition pcons (c : byte) (p : str * str) : str * str := (c :: fst p, snd p).

Fixpoint scan (d : nat) (ins : bool) (esc : bool) (s : str) : str * str :=
  match s with
  | [] => ([], [])
  | c :: s' =>
      if ins then
        if esc then pcons c (scan d true false s')
        else if c =? 92 then pcons c (scan d true true s')
        else if c =? 34 then pcons c (scan d false false s')
        else pcons c (scan d true false s')
      else if c =? 34 then pcons c (scan d true false s')
      else if opens c then pcons c (scan (S d) false false s')
      else if closes c then match d with O => ([], s) | S d' => pcons c (scan d' false false s') end
      else if seps c then match d with O => ([], s) | S _ => pcons c (scan d false false s') end
      else pcons c (scan d false false s')
  end.

Definition papp (a : str) (p : str * str) : str * str := (a ++ fst p, snd p)%list.

(** [k] is passed over in one piece, at any depth. *)
Definition whole (k : str) : Prop := forall d r, scan d false false (k ++ r) = papp k (scan d false false r).
(** [k] is passed over inside brackets. *)
Definition inner (k : str) : Prop := forall d r, scan (S d) false false (k ++ r) = papp k (scan (S d) false false r).

Lemma papp_app a b p : papp (a ++ b)%list p = papp a (papp b p).
Proof. unfold papp. simpl. now rewrite app_assoc. Qed.

Lemma whole_inner k : whole k -> inner k.
Proof. intros H d r. apply H. Qed.

Lemma inner_app a b : inner a -> inner b -> inner (a ++ b)%list.
Proof. intros Ha Hb d r. rewrite <- app_assoc, Ha, Hb, papp_app. reflexivity. Qed.

Lemma inner_nil : inner [].
Proof. intros d r. unfold papp. simpl. now destruct (scan _ _ _ _). Qed.

Lemma inner_join sep l : inner sep -> Forall whole l -> inner (join sep l).
Proof.
  intros Hs Hl. induction Hl as [|x l Hx Hl IH]; [apply inner_nil|].
  destruct l as [|y l]; [now apply whole_inner|].
  rewrite join_cons2. repeat apply inner_app; auto using whole_inner.
Qed.

Lemma whole_bracket o c k : opens o = true -> closes c = true -> inner k -> whole (o :: k ++ [c])%list.
Proof.
  intros Ho Hc Hk d r. cbn [app scan].
  assert (o =? 34 = false) as ->.
  { destruct (Z.eqb_spec o 34) as [->|]; [discriminate|auto]. }
  rewrite Ho. rewrite <- app_assoc. rewrite Hk. cbn [app scan].
  assert (c =? 34 = false) as ->.
  { destruct (Z.eqb_spec c 34) as [->|]; [discriminate|auto]. }
  assert (opens c = false) as ->.
  { now apply closes_opens. }
  rewrite Hc. unfold pcons, papp. simpl. rewrite <- app_assoc. reflexivity.
Qed.

Definition plain (c : byte) : bool := negb ((c =? 34) || opens c || closes c || seps c).

Lemma whole_plain k : forallb plain k = true -> whole k.
Proof.
  intros H d r. induction k as [|c k IH]; simpl.
  - unfold papp. simpl. now destruct (scan _ _ _ _).
  - simpl in H. apply andb_true_iff in H as [Hc Hk]. unfold plain in Hc.
    apply negb_true_iff in Hc. apply orb_false_iff in Hc as [Hc H4]. apply orb_false_iff in Hc as [Hc H3].
    apply orb_false_iff in Hc as [H1 H2]. rewrite H1, H2, H3, H4.
    rewrite IH by auto. reflexivity.
Qed.

Lemma scan_string k : forall n, (length k <= n)%nat -> escaped k = true -> forall d r,
  scan d true false (k ++ 34 :: r) = papp (k ++ [34])%list (scan d false false r).
Proof.
  intro n. revert k. induction n as [|n IH]; intros k Hn He d r.
  - destruct k; [|simpl in Hn; lia]. reflexivity.
  - destruct k as [|c k]; [reflexivity|]. simpl in He, Hn. cbn [app scan].
    destruct (Z.eqb_spec c 34); [discriminate|].
    destruct (Z.eqb_spec c 92).
    + destruct k as [|c2 k]; [discriminate|]. cbn [app scan]. rewrite IH; [reflexivity|simpl in Hn; lia|auto].
    + rewrite IH; [reflexivity|lia|auto].
Qed.

Lemma whole_quote k : escaped k = true -> whole (quote k).
Proof.
  intros He d r. unfold quote. cbn [app scan]. rewrite <- app_assoc. cbn [app].
  change (34 =? 34) with true. cbn [scan]. rewrite (scan_string k (length k)) by auto. reflexivity.
Qed.

Definition stops (r : str) : Prop :=
  match r with [] => True | c :: _ => closes c = true \/ seps c = true end.

Lemma scan_stops r : stops r -> scan 0 false false r = ([], r).
Proof.
  destruct r as [|c r]; [reflexivity|]. intro H. cbn [scan]. unfold stops in H.
  assert (c =? 34 = false) as ->.
  { destruct (Z.eqb_spec c 34) as [->|]; auto. exfalso. cbv in H. destruct H; discriminate. }
  assert (opens c = false) as ->.
  { destruct H; [now apply closes_opens|now apply seps_opens]. }
  destruct (closes c); auto. destruct H as [?| ->]; [discriminate|reflexivity].
Qed.

(** Unique decoding. *)
Lemma whole_unique a b r r' : whole a -> whole b -> stops r -> stops r' ->
  (a ++ r = b ++ r')%list -> a = b /\ r = r'.
Proof.
  intros Ha Hb Hr Hr' E. specialize (Ha 0%nat r). specialize (Hb 0%nat r').
  rewrite (scan_stops r) in Ha by auto. rewrite (scan_stops r') in Hb by auto. unfold papp in *. cbn [fst snd] in *. rewrite app_nil_r in *.
  rewrite E, Hb in Ha. injection Ha; auto.
Qed.

(** Decoding of separated lists closed by a bracket. *)
Lemma join_unique sep c l l' r r' :
  (exists s s', sep = s :: s' /\ seps s = true) -> closes c = true ->
  Forall whole l -> Forall whole l' -> Forall (fun k => exists x k', k = x :: k' /\ closes x = false /\ seps x = false) l ->
  Forall (fun k => exists x k', k = x :: k' /\ closes x = false /\ seps x = false) l' ->
  (join sep l ++ c :: r = join sep l' ++ c :: r')%list -> l = l' /\ r = r'.
Proof.
  intros (s & s' & -> & Hs) Hc Hl. revert l'.
  induction Hl as [|x l Hx Hl IH]; intros l' Hl' Hn Hn' E.
  - destruct l' as [|y l']; [simpl in E; injection E; auto|]. exfalso.
    inversion Hn' as [|? ? (z & k' & -> & Hz1 & Hz2) _]; subst.
    destruct l'; simpl in E; injection E as E1 _; subst; congruence.
  - destruct l' as [|y l'].
    + exfalso. inversion Hn as [|? ? (z & k' & -> & Hz1 & Hz2) _]; subst.
      destruct l; simpl in E; injection E as E1 _; subst; congruence.
    + inversion Hl'; subst. inversion Hn; subst. inversion Hn'; subst.
      assert (G : forall l, exists r2, (join (s :: s') (x :: l) ++ c :: r = x ++ r2)%list /\ stops r2 /\
               ((l = [] /\ r2 = c :: r) \/ (l <> [] /\ r2 = ((s :: s') ++ join (s :: s') l ++ c :: r)%list))).
      { intros [|w m].
        - exists (c :: r). split; [reflexivity|]. simpl. auto.
        - exists ((s :: s') ++ join (s :: s') (w :: m) ++ c :: r)%list. split.
          + rewrite join_cons2, <- !app_assoc. reflexivity.
          + simpl. split; auto. right. split; [discriminate|reflexivity]. }
      assert (G' : forall l, exists r2, (join (s :: s') (y :: l) ++ c :: r' = y ++ r2)%list /\ stops r2 /\
               ((l = [] /\ r2 = c :: r') \/ (l <> [] /\ r2 = ((s :: s') ++ join (s :: s') l ++ c :: r')%list))).
      { intros [|w m].
        - exists (c :: r'). split; [reflexivity|]. simpl. auto.
        - exists ((s :: s') ++ join (s :: s') (w :: m) ++ c :: r')%list. split.
          + rewrite join_cons2, <- !app_assoc. reflexivity.
          + simpl. split; auto. right. split; [discriminate|reflexivity]. }
      destruct (G l) as (r2 & E2 & S2 & C2). destruct (G' l') as (r3 & E3 & S3 & C3).
      rewrite E2, E3 in E. apply whole_unique in E as [-> E]; auto. clear E2 E3.
      destruct C2 as [[-> ->]|[N2 ->]], C3 as [[-> ->]|[N3 ->]].
      * injection E as ->. auto.
      * exfalso. simpl in E. injection E as E _. subst. eapply closes_seps; eauto.
      * exfalso. simpl in E. injection E as E _. subst. eapply closes_seps; eauto.
      * apply app_inv_head in E. destruct (IH l') as [-> ->]; auto.
Qed.

Lemma whole_app a b : whole a -> whole b -> whole (a ++ b)%list.
Proof. intros Ha Hb d r. rewrite <- app_assoc, Ha, Hb, papp_app. reflexivity. Qed.

Lemma quote_unique : forall n k k' r r', (length k <= n)%nat -> escaped k = true -> escaped k' = true ->
  (k ++ 34 :: r = k' ++ 34 :: r')%list -> k = k' /\ r = r'.
Proof.
  induction n as [|n IH]; intros k k' r r' Hn Hk Hk' E.
  - destruct k; [|simpl in Hn; lia]. destruct k' as [|c k'].
    + simpl in E. injection E; auto.
    + simpl in E. injection E as <- _. simpl in Hk'. discriminate.
  - destruct k as [|c k].
    + destruct k' as [|c k'].
      * simpl in E. injection E; auto.
      * simpl in E. injection E as <- _. simpl in Hk'. discriminate.
    + destruct k' as [|c' k'].
      { simpl in E. injection E as -> _. simpl in Hk. discriminate. }
      simpl in E. injection E as <- E. simpl in Hk, Hk', Hn.
      destruct (c =? 34); [discriminate|].
      destruct (c =? 92).
      * destruct k as [|d k]; [discriminate|]. destruct k' as [|d' k']; [discriminate|].
        simpl in E. injection E as <- E. simpl in Hn. destruct (IH k k' r r') as [-> ->]; auto; lia.
      * destruct (IH k k' r r') as [-> ->]; auto; lia.
Qed.

Lemma quote_inj k k' : quote k = quote k' -> k = k'.
Proof. unfold quote. simpl. intro E. injection E as E. apply app_inj_tail in E as [-> _]. reflexivity. Qed.

Lemma is_quoted_quote k : is_quoted (quote k) = true.
Proof.
  destruct k as [|x k]; [reflexivity|].
  change (is_quoted (quote (x :: k))) with (last ((34 :: x :: k) ++ [34])%list 0 =? 34).
  now rewrite last_last.
Qed.

Section Wf.
Variable F : fops.
Variables NI NF : str -> Prop.
Hypothesis Hdom : num_domain F NI NF.
Notation wf := (wfv F NI NF).
Notation key := (to_key F).

Definition obj_items (l : list (value * value)) : list (str * str) :=
  insert_all (map (fun kv : value * value => let '(k, x) := kv in (object_key_text (key k), key x)) l) [].

Lemma to_key_object l : key (VObject l) =
  ($"{" ++ join $", " (map (fun kv : str * str => fst kv ++ $":" ++ snd kv) (obj_items l)) ++ $"}")%list.
Proof. reflexivity. Qed.

Definition set_keys (l : list value) : list str := map snd (sort_by (nk_lt F) (map (fun x => (x, key x)) l)).
Lemma to_key_set l : key (VSet l) = ($"<" ++ join $"," (set_keys l) ++ $">")%list.
Proof. reflexivity. Qed.

Lemma set_keys_perm l : Permutation (set_keys l) (map key l).
Proof.
  unfold set_keys. rewrite (sort_by_perm (nk_lt F)). rewrite map_map. simpl. reflexivity.
Qed.

Definition wf_items (l : list (str * value)) : list (str * str) := map (fun kv => (quote (fst kv), key (snd kv))) l.

Lemma obj_items_wf l : obj_items (map (fun kv : str * value => (VString (fst kv), snd kv)) l) = insert_all (wf_items l) [].
Proof.
  unfold obj_items, wf_items. f_equal. rewrite map_map. apply map_ext. intros [k v]. simpl.
  unfold object_key_text. now rewrite is_quoted_quote.
Qed.

Lemma wf_items_nodup l : NoDup (map fst l) -> NoDup (map fst (wf_items l)).
Proof.
  unfold wf_items. rewrite map_map. simpl. induction l as [|[k v] l IH]; simpl; intro H; [constructor|].
  inversion H; subst. constructor; auto. intro Hin. apply in_map_iff in Hin as ([k' v'] & E & Hin).
  simpl in E. apply quote_inj in E. subst. apply H2. apply in_map_iff. exists (k, v'). auto.
Qed.

Lemma obj_items_in l k v : NoDup (map fst l) ->
  In (k, v) (insert_all (wf_items l) []) <-> In (k, v) (wf_items l).
Proof.
  intro Hn. rewrite keyed_in by (apply insert_all_keyed, keyed_nil).
  rewrite insert_all_find by apply keyed_nil. simpl. split.
  - apply sm_find_in.
  - apply nodup_find. now apply wf_items_nodup.
Qed.

(** First byte of a key. *)
Definition start_ok (v : value) (k : str) : Prop :=
  exists c k', k = c :: k' /\
  match v with
  | VNull => c = 110 | VTrue => c = 116 | VFalse => c = 102
  | VInt _ | VFloat _ => (48 <= c <= 57) \/ c = 45
  | VString _ => c = 34 | VArray _ => c = 91 | VObject _ => c = 123 | VSet _ => c = 60 | VErr _ => c = 40
  end.

Lemma ni_num_like t : NI t -> num_like t.
Proof.
  intro H. destruct Hdom as (HI & _). destruct (HI t H) as [z ->].
  destruct (Z.ltb_spec z 0).
  - replace z with (- - z) by lia. rewrite dec_neg by lia. exists cminus, (dec (- z)).
    split; auto. split; [right; reflexivity|].
    pose proof (dec_canon (-z) ltac:(lia)) as [Hd _]. apply forallb_forall. intros c Hc.
    rewrite Forall_forall in Hd. specialize (Hd c Hc). unfold digit in Hd. unfold num_char.
    destruct (Z.leb_spec 48 c); [|lia]. destruct (Z.leb_spec c 57); [|lia]. reflexivity.
  - destruct (dec_cons_digit z H0) as (c & t & E & Hc). rewrite E. exists c, t. split; auto. split; [left; exact Hc|].
    pose proof (dec_canon z H0) as [Hd _]. rewrite E in Hd. inversion Hd; subst. apply forallb_forall. intros c' Hc'.
    rewrite Forall_forall in H4. specialize (H4 c' Hc'). unfold digit in H4. unfold num_char.
    destruct (Z.leb_spec 48 c'); [|lia]. destruct (Z.leb_spec c' 57); [|lia]. reflexivity.
Qed.

Lemma nf_num_like t : NF t -> num_like t.
Proof. destruct Hdom as (_ & H & _). apply H. Qed.

Lemma num_char_plain c : num_char c = true -> plain c = true.
Proof.
  unfold num_char, plain. intro H. apply negb_true_iff.
  destruct ((c =? 34) || opens c || closes c || seps c) eqn:E; auto. exfalso.
  repeat match goal with
  | H : (_ || _) = true |- _ => apply orb_true_iff in H as [H|H]
  | H : (_ && _) = true |- _ => apply andb_true_iff in H as [H ?]
  | H : (_ <=? _) = true |- _ => apply Z.leb_le in H
  | H : opens _ = true |- _ => unfold opens in H
  | H : closes _ = true |- _ => unfold closes in H
  | H : seps _ = true |- _ => unfold seps in H
  | H : (_ =? _) = true |- _ => apply Z.eqb_eq in H
  end; subst; try discriminate; lia.
Qed.

Lemma num_like_plain t : num_like t -> forallb plain t = true.
Proof.
  intros (c & t' & -> & Hc & Ht). simpl. apply andb_true_iff. split.
  - apply num_char_plain. unfold num_char. destruct Hc as [Hc| ->]; [|reflexivity].
    destruct (Z.leb_spec 48 c); [|lia]. destruct (Z.leb_spec c 57); [|lia]. reflexivity.
  - rewrite forallb_forall in *. intros x Hx. apply num_char_plain; auto.
Qed.

Lemma key_start v : wf v -> start_ok v (key v).
Proof.
  destruct 1 as [| | |t Ht|t Ht|t Ht|l Hl|l Hl|l Hl]; unfold start_ok; cbn [to_key]; eauto;
    try (eexists; eexists; split; [reflexivity|reflexivity]).
  - destruct (ni_num_like t Ht) as (c & t' & -> & H & _). eauto.
  - destruct (nf_num_like _ Ht) as (c & t' & -> & H & _). eauto.
Qed.

Lemma key_whole v : wf v -> whole (key v).
Proof.
  induction v as [| | |t|t|t|l IH|l IH|l IH|ec] using value_rect'; intro H; inversion H; subst.
  - apply whole_plain. reflexivity.
  - apply whole_plain. reflexivity.
  - apply whole_plain. reflexivity.
  - apply whole_plain. now apply num_like_plain, ni_num_like.
  - apply whole_plain. now apply num_like_plain, nf_num_like.
  - now apply whole_quote.
  - apply (whole_bracket 91 93); auto. apply inner_join; [apply inner_app with (a := [44]) (b := []); [|apply inner_nil]|].
    + intros d r. reflexivity.
    + rewrite Forall_forall in *. intros k Hk. apply in_map_iff in Hk as (x & <- & Hx). auto.
  - rewrite to_key_object, obj_items_wf.
    apply (whole_bracket 123 125); auto. apply inner_join.
    + intros d r. reflexivity.
    + rewrite Forall_forall. intros k Hk. apply in_map_iff in Hk as ([k1 v1] & <- & Hx).
      rewrite obj_items_in in Hx by auto. unfold wf_items in Hx. apply in_map_iff in Hx as ([k2 v2] & E & Hx).
      injection E as <- <-. cbn [fst snd]. apply whole_app.
      * apply whole_quote. rewrite Forall_forall in H1. apply (H1 (k2, v2) Hx).
      * apply whole_app; [apply whole_plain; reflexivity|].
        rewrite Forall_forall in IH, H2. 
        apply (IH (VString k2, v2)); [apply in_map_iff; exists (k2, v2); auto|]. apply (H2 (k2, v2) Hx).
  - rewrite to_key_set. apply (whole_bracket 60 62); auto. apply inner_join.
    + intros d r. reflexivity.
    + rewrite Forall_forall in *. intros k Hk.
      apply (Permutation_in _ (set_keys_perm l)) in Hk. apply in_map_iff in Hk as (x & <- & Hx). auto.
Qed.

Lemma start_first v k : start_ok v k -> exists x k', k = x :: k' /\ closes x = false /\ seps x = false.
Proof.
  intros (c & k' & -> & H). exists c, k'. split; auto.
  unfold closes, seps.
  destruct v; try (subst; split; reflexivity).
  - destruct H as [H| ->]; [|split; reflexivity]. split.
    + destruct (Z.eqb_spec c 93), (Z.eqb_spec c 62), (Z.eqb_spec c 125); try lia; reflexivity.
    + apply Z.eqb_neq. lia.
  - destruct H as [H| ->]; [|split; reflexivity]. split.
    + destruct (Z.eqb_spec c 93), (Z.eqb_spec c 62), (Z.eqb_spec c 125); try lia; reflexivity.
    + apply Z.eqb_neq. lia.
Qed.

Lemma keys_first l : Forall wf l -> Forall (fun k => exists x k', k = x :: k' /\ closes x = false /\ seps x = false) (map key l).
Proof.
  intro H. rewrite Forall_forall in *. intros k Hk. apply in_map_iff in Hk as (v & <- & Hv).
  eapply start_first. apply key_start; auto.
Qed.

Lemma array_keys l l' : Forall wf l -> Forall wf l' -> key (VArray l) = key (VArray l') -> map key l = map key l'.
Proof.
  intros Hl Hl' E. cbn [to_key] in E. change $"[" with [91] in E. change $"]" with [93] in E.
  simpl in E. injection E as E.
  apply (join_unique $"," 93 _ _ [] []) in E as [E _]; auto.
  - exists 44, []. auto.
  - rewrite Forall_forall in *. intros k Hk. apply in_map_iff in Hk as (x & <- & Hx). apply key_whole; auto.
  - rewrite Forall_forall in *. intros k Hk. apply in_map_iff in Hk as (x & <- & Hx). apply key_whole; auto.
  - now apply keys_first.
  - now apply keys_first.
Qed.

Lemma set_keys_eq l l' : Forall wf l -> Forall wf l' -> key (VSet l) = key (VSet l') -> set_keys l = set_keys l'.
Proof.
  intros Hl Hl' E. rewrite !to_key_set in E. change $"<" with [60] in E. change $">" with [62] in E.
  simpl in E. injection E as E.
  assert (G : forall l, Forall wf l -> Forall whole (set_keys l) /\
     Forall (fun k => exists x k', k = x :: k' /\ closes x = false /\ seps x = false) (set_keys l)).
  { clear -Hdom. intros l Hl. split; rewrite Forall_forall in *; intros k Hk.
    - apply (Permutation_in _ (set_keys_perm l)) in Hk. apply in_map_iff in Hk as (x & <- & Hx). apply key_whole; auto.
    - apply (Permutation_in _ (set_keys_perm l)) in Hk. apply in_map_iff in Hk as (x & <- & Hx).
      eapply start_first, key_start; auto. }
  destruct (G l Hl), (G l' Hl').
  apply (join_unique $"," 62 _ _ [] []) in E as [E _]; auto.
  exists 44, []. auto.
Qed.

Lemma object_items_eq (l l' : list (str * value)) :
  wf (VObject (map (fun kv => (VString (fst kv), snd kv)) l)) ->
  wf (VObject (map (fun kv => (VString (fst kv), snd kv)) l')) ->
  Forall (fun kv => escaped (fst kv) = true) l -> Forall (fun kv => wf (snd kv)) l -> NoDup (map fst l) ->
  Forall (fun kv => escaped (fst kv) = true) l' -> Forall (fun kv => wf (snd kv)) l' -> NoDup (map fst l') ->
  key (VObject (map (fun kv => (VString (fst kv), snd kv)) l)) = key (VObject (map (fun kv => (VString (fst kv), snd kv)) l')) ->
  insert_all (wf_items l) [] = insert_all (wf_items l') [].
Proof.
  intros _ _ He Hw Hn He' Hw' Hn' E. rewrite !to_key_object, !obj_items_wf in E.
  change $"{" with [123] in E. change $"}" with [125] in E. simpl in E. injection E as E.
  set (g := fun kv : str * str => (fst kv ++ $":" ++ snd kv)%list) in *.
  assert (G : forall l, Forall (fun kv => escaped (fst kv) = true) l -> Forall (fun kv => wf (snd kv)) l -> NoDup (map fst l) ->
     Forall whole (map g (insert_all (wf_items l) [])) /\
     Forall (fun k => exists x k', k = x :: k' /\ closes x = false /\ seps x = false) (map g (insert_all (wf_items l) [])) /\
     Forall (fun kv => exists k, fst kv = quote k /\ escaped k = true) (insert_all (wf_items l) [])).
  { clear -Hdom. intros l He Hw Hn.
    assert (H : forall kv, In kv (insert_all (wf_items l) []) -> exists k v, kv = (quote k, key v) /\ escaped k = true /\ wf v).
    { intros [a b] Hin. rewrite obj_items_in in Hin by auto. apply in_map_iff in Hin as ([k v] & E & Hin).
      injection E as <- <-. exists k, v. split; auto. rewrite Forall_forall in *.
      split; [apply (He (k, v) Hin)|apply (Hw (k, v) Hin)]. }
    split; [|split]; rewrite Forall_forall; intros x Hx.
    - apply in_map_iff in Hx as (kv & <- & Hx). destruct (H kv Hx) as (k & v & -> & H1 & H2). unfold g. cbn [fst snd].
      apply whole_app; [now apply whole_quote|]. apply whole_app; [apply whole_plain; reflexivity|now apply key_whole].
    - apply in_map_iff in Hx as (kv & <- & Hx). destruct (H kv Hx) as (k & v & -> & H1 & H2). unfold g, quote. simpl.
      eexists; eexists; split; [reflexivity|]. split; reflexivity.
    - destruct (H x Hx) as (k & v & -> & H1 & H2). exists k. split; [reflexivity|exact H1]. }
  destruct (G l) as (A1 & A2 & A3); auto. destruct (G l') as (B1 & B2 & B3); auto.
  apply (join_unique $", " 125 _ _ [] []) in E as [E _]; auto.
  2:{ exists 44, [32]. auto. }
  subst g. clear -E A3 B3. revert E. generalize dependent (insert_all (wf_items l) []).
  generalize dependent (insert_all (wf_items l') []).
  intros m' B3 m. revert m' B3. induction m as [|[k v] m IH]; intros [|[k' v'] m'] B3 A3 E; try discriminate; auto.
  inversion A3 as [|? ? (q & Eq & Hq) A4]; subst. inversion B3 as [|? ? (q' & Eq' & Hq') B4]; subst.
  simpl in Eq, Eq'. subst k k'. cbn [map] in E. injection E as E1 E2.
  rewrite (IH m' B4 A4 E2). f_equal. 
  rewrite <- !app_assoc in E1. simpl in E1.
  apply (quote_unique (length q)) in E1 as [-> E1]; auto. injection E1 as ->. reflexivity.
Qed.

Lemma start_kind a b k : start_ok a k -> start_ok b k ->
  match a, b with
  | VNull, VNull | VTrue, VTrue | VFalse, VFalse | VString _, VString _ | VArray _, VArray _
  | VObject _, VObject _ | VSet _, VSet _ | VErr _, VErr _ => True
  | (VInt _ | VFloat _), (VInt _ | VFloat _) => True
  | _, _ => False end.
Proof.
  intros (c & k1 & -> & H1) (c' & k2 & E & H2). injection E as -> ->.
  destruct a, b; auto; subst; try discriminate; try lia.
Qed.

Lemma key_veq a : forall b, wf a -> wf b -> key a = key b -> veq F a b.
Proof.
  induction a as [| | |t|t|t|l IH|l IH|l IH|ec] using value_rect'; intros b Ha Hb E;
    pose proof (start_kind _ _ _ (key_start _ Ha) (eq_ind_r (start_ok b) (key_start _ Hb) E)) as K;
    destruct b as [| | |t'|t'|t'|l'|l'|l'|ec']; try contradiction; try (now constructor).
  - apply veq_num with (t := t); auto. cbn in *. congruence.
  - apply veq_num with (t := t); auto. cbn in *. congruence.
  - apply veq_num with (t := f_key F t); auto. cbn in *. congruence.
  - apply veq_num with (t := f_key F t); auto. cbn in *. congruence.
  - cbn in E. apply quote_inj in E. subst. constructor.
  - inversion Ha as [| | | | | |? HA| |]; subst. inversion Hb as [| | | | | |? HB| |]; subst. constructor.
    apply array_keys in E; auto. clear Ha Hb K. revert l' HB E.
    induction l as [|x l IHl]; intros [|y l'] HB E; try discriminate; [constructor|].
    injection E as E1 E2. inversion IH; subst. inversion HA; subst. inversion HB; subst. constructor; auto.
  - inversion Ha as [| | | | | | | |m He Hw Hn]; subst. inversion Hb as [| | | | | | | |m' He' Hw' Hn']; subst.
    apply object_items_eq in E; auto.
    rewrite Forall_forall in IH.
    assert (IH' : forall k v v', In (k, v) m -> wf v -> wf v' -> key v = key v' -> veq F v v').
    { intros k v v' Hin. apply (IH (VString k, v)). apply in_map_iff. exists (k, v). auto. }
    rewrite Forall_forall in Hw, Hw'.
    apply veq_object.
    + intros k v Hin. apply in_map_iff in Hin as ([k0 v0] & Eq & Hin). injection Eq as <- <-. simpl.
      assert (I : In (quote k0, key v0) (insert_all (wf_items m) [])).
      { apply obj_items_in; auto. apply in_map_iff. exists (k0, v0). auto. }
      rewrite E in I. apply obj_items_in in I; auto. apply in_map_iff in I as ([k1 v1] & Eq & I).
      simpl in Eq. injection Eq as Eq1 Eq2. apply app_inj_tail in Eq1 as [-> _].
      exists (VString k0), v1. split; [apply in_map_iff; exists (k0, v1); auto|]. split; [constructor|].
      apply (IH' k0); auto. apply (Hw (k0, v0) Hin). apply (Hw' (k0, v1) I).
    + intros k v Hin. apply in_map_iff in Hin as ([k0 v0] & Eq & Hin). injection Eq as <- <-. simpl.
      assert (I : In (quote k0, key v0) (insert_all (wf_items m') [])).
      { apply obj_items_in; auto. apply in_map_iff. exists (k0, v0). auto. }
      rewrite <- E in I. apply obj_items_in in I; auto. apply in_map_iff in I as ([k1 v1] & Eq & I).
      simpl in Eq. injection Eq as Eq1 Eq2. apply app_inj_tail in Eq1 as [-> _].
      exists (VString k0), v1. split; [apply in_map_iff; exists (k0, v1); auto|]. split; [constructor|].
      apply (IH' k0); auto. apply (Hw (k0, v1) I). apply (Hw' (k0, v0) Hin).
  - inversion Ha; subst. inversion Hb; subst. apply set_keys_eq in E; auto.
    assert (P : Permutation (map key l) (map key l')).
    { rewrite <- !set_keys_perm. now rewrite E. }
    rewrite Forall_forall in *. constructor.
    + intros x Hx. assert (I : In (key x) (map key l')).
      { eapply Permutation_in; [exact P|]. now apply in_map. }
      apply in_map_iff in I as (y & Ey & Hy). exists y. split; auto.
    + intros y Hy. assert (I : In (key y) (map key l)).
      { eapply Permutation_in; [apply Permutation_sym; exact P|]. now apply in_map. }
      apply in_map_iff in I as (x & Ex & Hx). exists x. split; auto.
  - inversion Ha.
Qed.

(** The order of [NodeKey]s, as an order on keys. *)
Definition krank (k : str) : Z :=
  match k with
  | [] => 4
  | c :: _ =>
      if c =? 110 then 0 else if c =? 102 then 1 else if c =? 116 then 2
      else if ((48 <=? c) && (c <=? 57)) || (c =? 45) then 3 else 4
  end.
Definition qltb (q : str -> Q) (a b : str) : bool := match Qcompare (q a) (q b) with Lt => true | _ => false end.
Definition klt (q : str -> Q) (a b : str) : bool :=
  if krank a <? krank b then true
  else if krank b <? krank a then false
  else if krank a =? 3 then qltb q a b else str_ltb a b.

Lemma type_krank v : wf v -> type_rank v = krank (key v).
Proof.
  intro H. destruct (key_start v H) as (c & k' & -> & Hc). unfold krank.
  destruct v; cbn [type_rank]; try (subst c; reflexivity);
  (destruct Hc as [Hc| ->]; [|reflexivity];
   destruct (Z.eqb_spec c 110), (Z.eqb_spec c 102), (Z.eqb_spec c 116), (Z.leb_spec 48 c), (Z.leb_spec c 57); try lia; reflexivity).
Qed.

Lemma qltb_lt q a b : qltb q a b = true <-> (q a < q b)%Q.
Proof. unfold qltb. rewrite Qlt_alt. destruct (Qcompare (q a) (q b)); split; congruence. Qed.

Lemma nk_lt_klt q :
  (forall z, NI (dec z) -> (q (dec z) == inject_Z z)%Q) ->
  (forall t u, NI t \/ NF t -> NI u \/ NF u -> NF t \/ NF u -> f_cmp F t u = Some (Qcompare (q t) (q u))) ->
  forall x y, wf x -> wf y -> nk_lt F (x, key x) (y, key y) = klt q (key x) (key y).
Proof.
  intros Hq Hc x y Hx Hy.
  pose proof (type_krank x Hx) as Rx. pose proof (type_krank y Hy) as Ry.
  unfold klt. rewrite <- Rx, <- Ry.
  destruct x, y; cbn [type_rank]; try reflexivity; cbn [nk_lt fst snd].
  - inversion Hx; subst. inversion Hy; subst. cbn [to_key].
    destruct Hdom as (HI & _). destruct (HI t H0) as [a ->]. destruct (HI t0 H1) as [b ->].
    rewrite bi_lt_spec. change (qltb q (dec a) (dec b)) with (if 3 <? 3 then true else if 3 <? 3 then false else if 3 =? 3 then qltb q (dec a) (dec b) else str_ltb (dec a) (dec b)).
    simpl. destruct (qltb q (dec a) (dec b)) eqn:E.
    + apply qltb_lt in E. rewrite !Hq in E by auto. apply Z.ltb_lt. now rewrite Zlt_Qlt.
    + apply Z.ltb_ge. apply Z.nlt_ge. intro L. rewrite Zlt_Qlt in L. rewrite <- !Hq in L by auto.
      apply qltb_lt in L. congruence.
  - inversion Hx; subst. inversion Hy; subst. unfold dlt. rewrite Hc by auto. reflexivity.
  - inversion Hx; subst. inversion Hy; subst. unfold dlt. rewrite Hc by auto. reflexivity.
  - inversion Hx; subst. inversion Hy; subst. unfold dlt. rewrite Hc by auto. reflexivity.
Qed.

Definition iskey (k : str) : Prop := exists v, wf v /\ k = key v.

Lemma iskey_num k : iskey k -> krank k = 3 -> NI k \/ NF k.
Proof.
  intros (v & Hv & ->) H. rewrite <- type_krank in H by auto.
  destruct v; try discriminate; inversion Hv; subst; auto.
Qed.

Lemma klt_irrefl q k : klt q k k = false.
Proof.
  unfold klt. rewrite Z.ltb_irrefl. destruct (krank k =? 3); [|apply str_ltb_irrefl].
  destruct (qltb q k k) eqn:E; auto. apply qltb_lt in E. now apply Qlt_irrefl in E.
Qed.

Lemma klt_trans q a b c : klt q a b = true -> klt q b c = true -> klt q a c = true.
Proof.
  unfold klt.
  destruct (Z.ltb_spec (krank a) (krank b)), (Z.ltb_spec (krank b) (krank a)),
    (Z.ltb_spec (krank b) (krank c)), (Z.ltb_spec (krank c) (krank b)),
    (Z.ltb_spec (krank a) (krank c)), (Z.ltb_spec (krank c) (krank a)); try lia; try congruence; auto.
  assert (krank a = krank b) as -> by lia. destruct (krank b =? 3).
  - rewrite !qltb_lt. apply Qlt_trans.
  - apply str_ltb_trans.
Qed.

Lemma klt_total q :
  (forall t u, NI t \/ NF t -> NI u \/ NF u -> (q t == q u)%Q -> t = u) ->
  forall a b, iskey a -> iskey b -> klt q a b = false -> klt q b a = false -> a = b.
Proof.
  intros Hq a b Ha Hb. unfold klt.
  destruct (Z.ltb_spec (krank a) (krank b)), (Z.ltb_spec (krank b) (krank a)); try lia; try congruence.
  assert (E : krank a = krank b) by lia. rewrite E. destruct (Z.eqb_spec (krank b) 3).
  - intros H1 H2. apply Hq; [apply iskey_num; auto; lia|apply iskey_num; auto|].
    unfold qltb in H1, H2. rewrite Qeq_alt. rewrite <- Qcompare_antisym in H2.
    destruct (Qcompare (q a) (q b)); auto; discriminate.
  - apply str_ltb_total.
Qed.

Lemma set_keys_sort q :
  (forall z, NI (dec z) -> (q (dec z) == inject_Z z)%Q) ->
  (forall t u, NI t \/ NF t -> NI u \/ NF u -> NF t \/ NF u -> f_cmp F t u = Some (Qcompare (q t) (q u))) ->
  forall l, Forall wf l -> set_keys l = sort_by (klt q) (map key l).
Proof.
  intros Hq Hc l Hl. unfold set_keys.
  rewrite (sort_by_map snd (nk_lt F) (klt q)).
  - rewrite map_map. reflexivity.
  - intros [x kx] [y ky] Hx Hy. apply in_map_iff in Hx as (x' & Ex & Hx). apply in_map_iff in Hy as (y' & Ey & Hy).
    injection Ex as <- <-. injection Ey as <- <-. rewrite Forall_forall in Hl. apply nk_lt_klt; auto.
Qed.

Lemma map_key_nodup l : Forall wf l ->
  (forall l1 x l2 y l3, l = (l1 ++ x :: l2 ++ y :: l3)%list -> ~ veq F x y) -> NoDup (map key l).
Proof.
  intros Hl Hd. induction l as [|x l IH]; simpl; [constructor|].
  inversion Hl; subst. constructor.
  - intro Hin. apply in_map_iff in Hin as (y & Ey & Hy).
    apply in_split in Hy as (l2 & l3 & ->). apply (Hd [] x l2 y l3); auto.
    apply key_veq; auto. rewrite Forall_forall in H2. apply H2. apply in_or_app. simpl. auto.
  - apply IH; auto. intros l1 a l2 b l3 ->. apply (Hd (x :: l1) a l2 b l3). reflexivity.
Qed.

Lemma veq_key a : forall b, wf a -> wf b -> veq F a b -> key a = key b.
Proof.
  induction a as [| | |t|t|t|l IH|l IH|l IH|ec] using value_rect'; intros b Ha Hb E; inversion E; subst; auto;
    try (cbn [num_text] in *; discriminate).
  - destruct b; cbn [num_text] in *; try discriminate; cbn [to_key]; congruence.
  - destruct b; cbn [num_text] in *; try discriminate; cbn [to_key]; congruence.
  - inversion Ha as [| | | | | |? HA| |]; subst. inversion Hb as [| | | | | |? HB| |]; subst.
    cbn [to_key]. f_equal. f_equal. f_equal. clear Ha Hb E. revert l' HB H0.
    induction l as [|x l IHl]; intros l' HB E; inversion E; subst; auto.
    inversion IH; subst. inversion HA; subst. inversion HB; subst. cbn [map]. f_equal; auto.
  - inversion Ha as [| | | | | | | |m He Hw Hn]; subst. inversion Hb as [| | | | | | | |m' He' Hw' Hn']; subst.
    rewrite !to_key_object, !obj_items_wf. f_equal. f_equal. f_equal. f_equal.
    apply keyed_ext; try (apply insert_all_keyed, keyed_nil).
    assert (G : forall k v, In (k, v) (insert_all (wf_items m) []) <-> In (k, v) (insert_all (wf_items m') [])).
    { rewrite Forall_forall in IH, Hw, Hw'.
      assert (IH' : forall k v v', In (k, v) m -> wf v -> wf v' -> veq F v v' -> key v = key v').
      { intros k v v' Hin. apply (IH (VString k, v)). apply in_map_iff. exists (k, v). auto. }
      intros k v. rewrite !obj_items_in by auto. split; intro Hin; apply in_map_iff in Hin as ([k0 v0] & Eq & Hin);
        cbn [fst snd] in Eq; injection Eq as <- <-.
      - destruct (H0 (VString k0) v0) as (k' & v' & Hin' & Ek & Ev); [apply in_map_iff; exists (k0, v0); auto|].
        apply in_map_iff in Hin' as ([k1 v1] & Eq & Hin'). injection Eq as <- <-.
        assert (k1 = k0) by (inversion Ek; subst; auto; discriminate). subst k1.
        apply in_map_iff. exists (k0, v1). split; auto. cbn [fst snd]. f_equal. symmetry.
        apply (IH' k0); auto. apply (Hw (k0, v0) Hin). apply (Hw' (k0, v1) Hin').
      - destruct (H1 (VString k0) v0) as (k' & v' & Hin' & Ek & Ev); [apply in_map_iff; exists (k0, v0); auto|].
        apply in_map_iff in Hin' as ([k1 v1] & Eq & Hin'). injection Eq as <- <-.
        assert (k1 = k0) by (inversion Ek; subst; auto; discriminate). subst k1.
        apply in_map_iff. exists (k0, v1). split; auto. cbn [fst snd]. f_equal.
        apply (IH' k0); auto. apply (Hw (k0, v1) Hin'). apply (Hw' (k0, v0) Hin). }
    intro k. destruct (sm_find k (insert_all (wf_items m) [])) eqn:E1.
    + symmetry. apply keyed_in; [apply insert_all_keyed, keyed_nil|]. apply G. now apply sm_find_in.
    + destruct (sm_find k (insert_all (wf_items m') [])) eqn:E2; auto.
      apply sm_find_in in E2. apply G in E2. apply keyed_in in E2; [congruence|apply insert_all_keyed, keyed_nil].
  - inversion Ha as [| | | | | | |? HA DA|]; subst. inversion Hb as [| | | | | | |? HB DB|]; subst.
    destruct Hdom as (_ & _ & q & Q1 & Q2 & Q3).
    rewrite !to_key_set. rewrite !(set_keys_sort q) by auto. f_equal. f_equal. f_equal.
    apply (sort_by_perm_eq (klt q) iskey).
    + intros; apply klt_irrefl.
    + intros x y z _ _ _. apply klt_trans.
    + now apply klt_total.
    + rewrite Forall_forall in *. intros k Hk. apply in_map_iff in Hk as (v & <- & Hv). exists v. auto.
    + apply NoDup_Permutation; [now apply map_key_nodup|now apply map_key_nodup|].
      rewrite Forall_forall in IH, HA, HB.
      intro k. split; intro Hk; apply in_map_iff in Hk as (v & <- & Hv).
      * destruct (H0 v Hv) as (y & Hy & Ey). apply in_map_iff. exists y. split; auto. symmetry. auto.
      * destruct (H1 v Hv) as (x & Hx & Ex). apply in_map_iff. exists x. split; auto.
Qed.

Lemma key_iff a b : wf a -> wf b -> (key a = key b <-> veq F a b).
Proof. intros Ha Hb. split; [now apply key_veq|now apply veq_key]. Qed.
End Wf.

Lemma int_domain F : num_domain F any_int no_float.
Proof.
  split; [auto|]. split; [intros t []|].
  exists (fun t => inject_Z (zval t)). split; [|split].
  - intros z _. now rewrite zval_dec_all.
  - intros t u _ _ [[]|[]].
  - intros t u [[a ->]|[]] [[b ->]|[]] H. rewrite !zval_dec_all in H. unfold Qeq in H. simpl in H. f_equal. lia.
Qed.
