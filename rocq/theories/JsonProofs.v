(** Lemmas about JSON documents. *)
From Coq Require Import String ZArith List Bool Lia Sorted Permutation.
From Verif Require Import Base SMap SMapFacts BigIntSpec BigIntModel DecFacts ValueModel ValueSpec KeyProofs ResolverModel VmModel StrModel StrSpec StrProofs
  EncModel EncSpec EncProofs UriProofs JsonModel JsonSpec.
Import ListNotations.
Local Open Scope Z_scope.
Local Open Scope list_scope.

Section Induction.
Variable P : jtree -> Prop.
Hypothesis (Hn : P JNull) (Ht : P JTrue) (Hf : P JFalse) (Hnum : forall t, P (JNumber t)) (Hs : forall s, P (JString s))
  (Ha : forall l, Forall P l -> P (JArray l)) (Ho : forall l, Forall (fun kt => P (snd kt)) l -> P (JObject l)).
Fixpoint jtree_induction (t : jtree) : P t :=
  match t with
  | JNull => Hn | JTrue => Ht | JFalse => Hf | JNumber t => Hnum t | JString s => Hs s
  | JArray l => Ha l ((fix go (l : list jtree) : Forall P l := match l with [] => Forall_nil _ | t :: l' => Forall_cons t (jtree_induction t) (go l') end) l)
  | JObject l => Ho l ((fix go (l : list (str * jtree)) : Forall (fun kt => P (snd kt)) l :=
      match l with [] => Forall_nil _ | kt :: l' => Forall_cons kt (jtree_induction (snd kt)) (go l') end) l)
  end.
End Induction.

(** ** Numbers *)
Lemma all_digits_spec s : all_digits s = true <-> digits1 s.
Proof.
  unfold all_digits, digits1. rewrite andb_true_iff, forallb_forall, Forall_forall. split.
  - intros [N H]. split; [ intros ->; discriminate | ]. intros c I. specialize (H c I). unfold is_digit in H. lia.
  - intros [N H]. split; [ destruct s; [ congruence | reflexivity ] | ]. intros c I. specialize (H c I). unfold is_digit. lia.
Qed.
Lemma signed_spec s (P : str -> Prop) : (forall u, P u -> forall v, u <> 45 :: v) -> (P (no_minus s) <-> exists u, signed s u /\ P u).
Proof.
  intros H. split.
  - intros Q. exists (no_minus s). split; [ | exact Q ]. unfold no_minus, signed. destruct s as [ | c s ]; auto. destruct (Z.eqb_spec c 45); auto. subst. now right.
  - intros (u & [-> | ->] & Q).
    + unfold no_minus. destruct u as [ | c u ]; auto. destruct (Z.eqb_spec c 45); auto. subst. now elim (H _ Q u).
    + exact Q.
Qed.
Lemma digits1_head u v : digits1 u -> u <> 45 :: v.
Proof. intros [_ H] ->. inversion H; subst. lia. Qed.
Lemma int_re_spec s : int_re s = true <-> int_number s.
Proof. unfold int_re, int_number. rewrite all_digits_spec. apply signed_spec. intros u H v. now apply digits1_head. Qed.
Definition float_body (s : str) : Prop := exists u v w, s = u ++ $"." ++ v ++ w /\ digits1 u /\ digits1 v /\ exponent w.
Lemma digits1_all u : digits1 u <-> u <> [] /\ Forall (fun c => is_digit c = true) u.
Proof. unfold digits1. rewrite !Forall_forall. unfold is_digit. split; intros [N H]; (split; [ exact N | ]); intros c I; specialize (H c I); lia. Qed.
Definition exp_re (rest : str) : bool :=
  match rest with
  | [] => true
  | e :: rest => (e =? 101) && all_digits (match rest with c :: r => if (c =? 43) || (c =? 45) then r else rest | [] => [] end)
  end.
Lemma exp_re_spec s : exp_re s = true <-> exponent s.
Proof.
  unfold exp_re, exponent. destruct s as [ | e s ]; [ split; auto | ]. rewrite andb_true_iff, Z.eqb_eq, all_digits_spec. split.
  - intros [-> D]. right. destruct s as [ | c r ]; [ now destruct D | ]. destruct (Z.eqb_spec c 43); [ subst; exists $"+", r; repeat split; try reflexivity; [ right; now left | apply D | apply D ] | ].
    destruct (Z.eqb_spec c 45); [ subst; exists $"-", r; repeat split; try reflexivity; [ right; right; now left | apply D | apply D ] | ].
    exists (@nil byte), (c :: r). repeat split; [ now left | apply D | apply D ].
  - intros [E | (sign & d & E & I & D)]; [ discriminate | ]. change ($"e" ++ sign ++ d) with (101 :: sign ++ d) in E. injection E as -> ->. split; [ reflexivity | ].
    destruct I as [<- | [<- | [<- | []]]]; cbn [app]; try exact D. destruct D as [N H]. destruct d as [ | c d ]; [ congruence | ]. inversion H; subst.
    replace (c =? 43) with false by lia. replace (c =? 45) with false by lia. now split.
Qed.
Lemma float_body_spec s : (let '(whole, rest) := span is_digit s in
  match rest with
  | dot :: rest => let '(frac, rest) := span is_digit rest in (dot =? 46) && all_digits whole && all_digits frac && exp_re rest
  | [] => false end) = true <-> float_body s.
Proof.
  destruct (span is_digit s) as [whole rest] eqn:E1. apply span_spec in E1 as (-> & W & R). split.
  - destruct rest as [ | dot rest ]; [ discriminate | ]. destruct (span is_digit rest) as [frac r] eqn:E2. apply span_spec in E2 as (-> & Fr & R2).
    rewrite !andb_true_iff, Z.eqb_eq, !all_digits_spec, exp_re_spec. intros [[[-> D1] D2] X]. exists whole, frac, r. auto.
  - intros (u & v & w & E & D1 & D2 & X). change ($"." ++ v ++ w) with (46 :: v ++ w) in E.
    assert (Q : span is_digit (whole ++ rest) = (u, 46 :: v ++ w)).
    { rewrite E. apply span_eq; [ now apply digits1_all | ]. intros c t Q. injection Q as <- _. reflexivity. }
    assert (Q2 : (whole, rest) = (u, 46 :: v ++ w)) by (etransitivity; [ symmetry; exact (span_eq is_digit whole rest W R) | exact Q ]). clear Q. injection Q2 as -> ->.
    assert (Q : span is_digit (v ++ w) = (v, w)).
    { apply span_eq; [ now apply digits1_all | ]. intros c t ->. destruct X as [X | (sg & d & X & _)]; [ discriminate | ]. injection X as -> _. reflexivity. }
    rewrite Q. rewrite !andb_true_iff, Z.eqb_eq, !all_digits_spec, exp_re_spec. auto.
Qed.
Lemma float_re_spec s : float_re s = true <-> float_number s.
Proof.
  change (float_re s) with (let '(whole, rest) := span is_digit (no_minus s) in
    match rest with
    | dot :: rest => let '(frac, rest) := span is_digit rest in (dot =? 46) && all_digits whole && all_digits frac && exp_re rest
    | [] => false end).
  rewrite float_body_spec. rewrite (signed_spec s float_body).
  - unfold float_number, float_body. split; [ intros (x & Sg & u & v & w & -> & H); eauto 6 | intros (u & v & w & Sg & H); eauto 8 ].
  - intros x (u & v & w & -> & D & _) y E. destruct D as [N D]. destruct u as [ | c u ]; [ congruence | ]. injection E as -> _. inversion D as [ | ? ? Hc Hd ]. lia.
Qed.
Lemma int_not_float s : int_number s -> ~ float_number s.
Proof.
  intros (x & S1 & D1) (u & v & w & S2 & D2 & _).
  assert (I : In 46 s) by (assert (In 46 (u ++ bytes_of "." ++ v ++ w)) by (apply in_or_app; right; now left); destruct S2 as [-> | ->]; [ assumption | now right ]).
  assert (N : forall c, In c s -> c = 45 \/ 48 <= c <= 57).
  { destruct D1 as [_ D1]. rewrite Forall_forall in D1. destruct S1 as [-> | ->]; intros c; [ intros H; right; now apply D1 | ]. intros H. apply in_app_or in H as [[<- | []] | H]; [ now left | right; now apply D1 ]. }
  apply N in I. lia.
Qed.
Lemma from_number_spec t : match from_number t with
  | Some v => (v = VInt t /\ int_number t) \/ (v = VFloat t /\ float_number t)
  | None => ~ int_number t /\ ~ float_number t end.
Proof.
  unfold from_number. destruct (float_re t) eqn:E1; [ right; split; [ reflexivity | now apply float_re_spec ] | ]. destruct (int_re t) eqn:E2; [ left; split; [ reflexivity | now apply int_re_spec ] | ].
  split; intros H; [ apply int_re_spec in H | apply float_re_spec in H ]; congruence.
Qed.

(** ** Repeated members *)
Notation kview := item_key_view.
Fixpoint lasts (l : list (value * value)) : list (value * value) :=
  match l with [] => [] | kv :: l' => if in_dec str_eq_dec (kview kv) (map kview l') then lasts l' else kv :: lasts l' end.
Lemma last_indices_keyed l : forall i m, keyed m -> keyed (last_indices i l m).
Proof. induction l as [ | kv l IH ]; intros i m K; cbn [last_indices]; auto. apply IH. now apply sm_set_keyed. Qed.
Lemma last_indices_keys l : forall i m k, In k (map fst (last_indices i l m)) <-> In k (map fst m) \/ In k (map kview l).
Proof. induction l as [ | kv l IH ]; intros i m k; cbn [last_indices map In]; [ tauto | ]. rewrite IH, sm_set_keys. intuition. Qed.
Definition good (M : list (str * nat)) (i : nat) (l : list (value * value)) : Prop :=
  forall l1 kv l2, l = l1 ++ kv :: l2 -> ~ In (kview kv) (map kview l2) -> sm_find (kview kv) M = Some (i + length l1)%nat.
Lemma last_indices_other l : forall i m k, keyed m -> ~ In k (map kview l) -> sm_find k (last_indices i l m) = sm_find k m.
Proof.
  induction l as [ | kv l IH ]; intros i m k K N; cbn [last_indices map In] in *; auto. rewrite IH; [ | now apply sm_set_keyed | tauto ]. rewrite sm_find_set by exact K.
  destruct (str_eqb k (kview kv)) eqn:Q; auto. apply str_eqb_eq in Q. subst. tauto.
Qed.
Lemma last_indices_good l : forall i m, keyed m -> good (last_indices i l m) i l.
Proof.
  induction l as [ | kv l IH ]; intros i m K l1 x l2 E N; [ destruct l1; discriminate | ]. cbn [last_indices]. destruct l1 as [ | y l1 ]; cbn [app] in E.
  - injection E as -> ->. rewrite last_indices_other; [ | now apply sm_set_keyed | exact N ]. rewrite sm_find_set by exact K. rewrite str_eqb_refl. f_equal. cbn [length]. lia.
  - injection E as -> E. rewrite (IH (S i) _ (sm_set_keyed _ _ _ K) l1 x l2 E N). f_equal. cbn [length]. lia.
Qed.
Lemma last_split l k : In k (map kview l) -> exists l1 kv l2, l = l1 ++ kv :: l2 /\ kview kv = k /\ ~ In k (map kview l2).
Proof.
  induction l as [ | kv l IH ]; intros I; [ destruct I | ]. destruct (in_dec str_eq_dec k (map kview l)) as [J | J].
  - destruct (IH J) as (l1 & x & l2 & -> & E & N). now exists (kv :: l1), x, l2.
  - destruct I as [I | I]; [ | contradiction ]. now exists [], kv, l.
Qed.
Lemma keep_last_lasts M l : forall i, good M i l -> keep_last M i l = lasts l.
Proof.
  induction l as [ | kv l IH ]; intros i G; [ reflexivity | ]. cbn [keep_last lasts].
  assert (G' : good M (S i) l). { intros l1 x l2 E N. rewrite (G (kv :: l1) x l2); [ f_equal; cbn [length]; lia | now rewrite E | exact N ]. }
  destruct (in_dec str_eq_dec (kview kv) (map kview l)) as [I | I].
  - destruct (last_split _ _ I) as (l1 & x & l2 & -> & Ek & N). rewrite <- Ek. rewrite (G' l1 x l2 eq_refl ltac:(now rewrite Ek)).
    replace (i =? S i + length l1)%nat with false by (symmetry; apply Nat.eqb_neq; lia). now apply IH.
  - rewrite (G [] kv l eq_refl I). cbn [length]. rewrite Nat.add_0_r, Nat.eqb_refl. f_equal. now apply IH.
Qed.
Lemma lasts_nodup l : NoDup (map kview l) -> lasts l = l.
Proof. induction l as [ | kv l IH ]; intros N; [ reflexivity | ]. inversion N; subst. cbn [lasts]. destruct (in_dec str_eq_dec (kview kv) (map kview l)); [ contradiction | ]. now rewrite IH. Qed.
Lemma lasts_empty l : lasts l = [] -> l = [].
Proof.
  induction l as [ | kv l IH ]; intros E; [ reflexivity | ]. cbn [lasts] in E. destruct (in_dec str_eq_dec (kview kv) (map kview l)) as [I | I]; [ | discriminate ].
  apply IH in E. subst. destruct I.
Qed.
Lemma dedup_lasts l : dedup_items l = lasts l.
Proof.
  unfold dedup_items. set (m := last_indices 0 l []). assert (K : keyed m) by (apply last_indices_keyed, keyed_nil).
  destruct (Nat.eqb_spec (length m) (length l)) as [E | E].
  - symmetry. apply lasts_nodup. apply NoDup_incl_NoDup with (map fst m).
    + now apply keyed_nodup.
    + rewrite !map_length. lia.
    + intros k I. apply last_indices_keys in I as [[] | I]. exact I.
  - rewrite (keep_last_lasts m l 0) by (apply last_indices_good, keyed_nil). destruct (lasts l) eqn:Q; [ | reflexivity ]. now apply lasts_empty in Q.
Qed.

(** Members named by strings. *)
Definition named {A} (f : A -> value) (kt : str * A) : value * value := (VString (fst kt), f (snd kt)).
Fixpoint lasts_of {A} (l : list (str * A)) : list (str * A) :=
  match l with [] => [] | kt :: l' => if in_dec str_eq_dec (fst kt) (map fst l') then lasts_of l' else kt :: lasts_of l' end.
Lemma lasts_named {A} (f : A -> value) l : lasts (map (named f) l) = map (named f) (lasts_of l).
Proof.
  induction l as [ | kt l IH ]; [ reflexivity | ]. cbn [map lasts lasts_of]. rewrite map_map. cbn [named item_key_view fst].
  destruct (in_dec str_eq_dec (fst kt) (map fst l)) as [I | I]; destruct (in_dec str_eq_dec (fst kt) (map (fun x => fst x) l)); try contradiction; [ exact IH | cbn [map]; now rewrite IH ].
Qed.
Lemma last_of_cons {A} k t (kt : str * A) l : last_of k (kt :: l) t <-> last_of k l t \/ (kt = (k, t) /\ ~ In k (map fst l)).
Proof.
  split.
  - intros ([ | x l1 ] & l2 & E & N); cbn [app] in E; injection E as -> ->; [ now right | left; now exists l1, l2 ].
  - intros [(l1 & l2 & -> & N) | [-> N]]; [ now exists (kt :: l1), l2 | now exists [], l ].
Qed.
Lemma last_of_in {A} k t (l : list (str * A)) : last_of k l t -> In k (map fst l).
Proof. intros (l1 & l2 & -> & _). rewrite map_app. apply in_or_app. right. now left. Qed.
Lemma lasts_of_spec {A} (l : list (str * A)) : last_members l (lasts_of l).
Proof.
  induction l as [ | kt l (Q & N & H) ]; [ split; [ constructor | ]; split; [ constructor | ]; intros k t; split; [ intros [] | intros (l1 & l2 & E & _); destruct l1; discriminate ] | ].
  cbn [lasts_of]. destruct (in_dec str_eq_dec (fst kt) (map fst l)) as [I | I].
  - split; [ now constructor | ]. split; [ exact N | ]. intros k t. rewrite H, last_of_cons. split; [ now left | ]. intros [X | [-> X]]; [ exact X | contradiction ].
  - split; [ now constructor | ]. split.
    + cbn [map]. constructor; [ | exact N ]. intros J. apply I. apply in_map_iff in J as ([k t] & E & J). cbn [fst] in E. rewrite <- E. apply H in J. eapply last_of_in; eassumption.
    + intros k t. cbn [In]. rewrite H, last_of_cons. split; [ intros [-> | X]; auto | intros [X | [-> X]]; auto ].
Qed.

(** ** Reading *)
Fixpoint mapo {A B} (f : A -> option B) (l : list A) : option (list B) :=
  match l with [] => Some [] | x :: l' => match f x, mapo f l' with Some y, Some r => Some (y :: r) | _, _ => None end end.
Definition member (kt : str * jtree) : option (value * value) := option_map (pair (VString (fst kt))) (from_json (snd kt)).
Lemma from_array l : from_json (JArray l) = option_map VArray (mapo from_json l).
Proof. cbn [from_json]. f_equal. induction l as [ | t l IH ]; [ reflexivity | ]. cbn [mapo]. now rewrite IH. Qed.
Lemma from_object l : from_json (JObject l) = option_map VObject (mapo member l).
Proof. cbn [from_json]. f_equal. induction l as [ | [k t] l IH ]; [ reflexivity | ]. cbn [mapo]. rewrite IH. unfold member at 2. cbn [fst snd]. now destruct (from_json t). Qed.
Lemma mapo_some {A B} (f : A -> option B) l r : mapo f l = Some r <-> Forall2 (fun x y => f x = Some y) l r.
Proof.
  revert r. induction l as [ | x l IH ]; intros r; cbn [mapo].
  - split; [ intros E; injection E as <-; constructor | now inversion 1 ].
  - split.
    + destruct (f x) as [y | ] eqn:E1; [ | discriminate ]. destruct (mapo f l) as [r' | ]; [ | discriminate ]. intros E. injection E as <-. constructor; auto. now apply IH.
    + inversion 1; subst. rewrite H2. assert (E : mapo f l = Some l') by (now apply IH). now rewrite E.
Qed.
Lemma mapo_none {A B} (f : A -> option B) l : mapo f l = None -> exists x, In x l /\ f x = None.
Proof.
  induction l as [ | x l IH ]; cbn [mapo]; [ discriminate | ]. destruct (f x) eqn:E; [ | intros _; exists x; split; [ now left | exact E ] ].
  destruct (mapo f l); [ discriminate | ]. intros _. destruct (IH eq_refl) as (y & I & Q). exists y. split; [ now right | exact Q ].
Qed.
Lemma strip_quoted s : strip_quotes (34 :: s ++ [34]) = s.
Proof.
  unfold strip_quotes. replace (is_quoted (34 :: s ++ [34])) with true; [ cbn [tl]; now rewrite removelast_last | ].
  unfold is_quoted. destruct (s ++ [34]) eqn:E; [ now destruct s | ]. rewrite <- E. now rewrite last_last.
Qed.
Lemma read_spec t : readable t -> exists v, from_json t = Some v /\ denotes t (dedup v).
Proof.
  revert t. apply (jtree_induction (fun t => readable t -> exists v, from_json t = Some v /\ denotes t (dedup v))); intros.
  - exists VNull. split; [ reflexivity | constructor ].
  - exists VTrue. split; [ reflexivity | constructor ].
  - exists VFalse. split; [ reflexivity | constructor ].
  - inversion H; subst. cbn [from_json]. pose proof (from_number_spec t) as S. destruct (from_number t) as [v | ]; [ | tauto ]. exists v. split; [ reflexivity | ].
    destruct S as [[-> S] | [-> S]]; now constructor.
  - inversion H; subst. eexists. split; [ reflexivity | ]. rewrite strip_quoted. constructor.
  - inversion H0; subst. rewrite from_array.
    assert (E : exists r, mapo from_json l = Some r /\ Forall2 denotes l (map dedup r)).
    { clear H0. induction H as [ | t l Ht _ IH ]; [ exists []; split; [ reflexivity | constructor ] | ]. inversion H2; subst. destruct (Ht H1) as (v & Ev & Dv). destruct (IH H3) as (r & Er & Dr).
      exists (v :: r). cbn [mapo map]. rewrite Ev, Er. split; [ reflexivity | now constructor ]. }
    destruct E as (r & -> & D). exists (VArray r). split; [ reflexivity | ]. cbn [dedup]. now constructor.
  - inversion H0; subst. rewrite from_object.
    assert (E : exists vs : list (str * (jtree * value)), mapo member l = Some (map (named snd) vs) /\ l = map (fun x => (fst x, fst (snd x))) vs /\ Forall (fun x => denotes (fst (snd x)) (dedup (snd (snd x)))) vs).
    { clear H0. induction H as [ | [k t] l Ht _ IH ]; [ exists []; repeat split; constructor | ]. inversion H2; subst. destruct (Ht H1) as (v & Ev & Dv). destruct (IH H3) as (r & Er & El & Dr).
      exists ((k, (t, v)) :: r). cbn [mapo map]. unfold member at 1. cbn [fst snd] in *. rewrite Ev, Er. cbn [option_map]. split; [ reflexivity | ]. split; [ now rewrite El at 1 | now constructor ]. }
    destruct E as (vs & -> & El & D). exists (VObject (map (named snd) vs)). split; [ reflexivity | ]. cbn [dedup]. rewrite dedup_lasts, map_map.
    rewrite (map_ext _ (named (fun x : jtree * value => dedup (snd x)))) by (intros [k [t v]]; reflexivity). rewrite lasts_named.
    set (l0 := lasts_of vs).
    assert (Eq : map (named (fun x : jtree * value => dedup (snd x))) l0 = combine (map (fun kt => VString (fst kt)) (map (fun x : str * (jtree * value) => (fst x, fst (snd x))) l0)) (map (fun x => dedup (snd (snd x))) l0)).
    { clear. induction l0 as [ | [k [t v]] l0 IH ]; [ reflexivity | ]. cbn [map combine named fst snd]. now rewrite IH. }
    rewrite Eq. apply dn_object with (l0 := map (fun x : str * (jtree * value) => (fst x, fst (snd x))) l0).
    + rewrite El. subst l0. clear. replace (map (fun x => (fst x, fst (snd x))) (lasts_of vs)) with (lasts_of (map (fun x : str * (jtree * value) => (fst x, fst (snd x))) vs)); [ apply lasts_of_spec | ].
      induction vs as [ | x vs IH ]; [ reflexivity | ]. cbn [map lasts_of fst]. rewrite map_map. cbn [fst].
      destruct (in_dec str_eq_dec (fst x) (map fst vs)); destruct (in_dec str_eq_dec (fst x) (map (fun x => fst x) vs)); try contradiction; [ exact IH | cbn [map]; now rewrite IH ].
    + assert (D0 : Forall (fun x => denotes (fst (snd x)) (dedup (snd (snd x)))) l0).
      { rewrite Forall_forall in *. intros x I. apply D. destruct (lasts_of_spec vs) as (Q & _). clear -Q I. subst l0. revert I. induction Q; cbn [In]; intuition. }
      clear -D0. induction D0 as [ | [k [t v]] l0 Hx _ IH ]; cbn [map]; constructor; auto.
Qed.
Lemma read_none t : from_json t = None <-> bad_number t.
Proof.
  revert t. apply (jtree_induction (fun t => from_json t = None <-> bad_number t)); try (intros; split; [ discriminate | now inversion 1 ]).
  - intros t. cbn [from_json]. pose proof (from_number_spec t) as S. split.
    + intros E. rewrite E in S. now constructor.
    + inversion 1; subst. destruct (from_number t); [ tauto | reflexivity ].
  - intros l IH. rewrite from_array. rewrite Forall_forall in IH. split.
    + destruct (mapo from_json l) as [r | ] eqn:E; [ discriminate | ]. intros _. apply mapo_none in E as (x & I & E). apply bn_array with x; auto. now apply IH.
    + inversion 1; subst. destruct (mapo from_json l) as [r | ] eqn:E; [ exfalso | reflexivity ]. apply mapo_some in E. apply (IH t) in H2; auto.
      clear -E H1 H2. induction E; [ destruct H1 | ]. destruct H1 as [-> | I]; [ congruence | auto ].
  - intros l IH. rewrite from_object. rewrite Forall_forall in IH. split.
    + destruct (mapo member l) as [r | ] eqn:E; [ discriminate | ]. intros _. apply mapo_none in E as ([k t] & I & E). apply bn_object with k t; auto. apply (IH (k, t)); auto.
      unfold member in E. cbn [fst snd] in *. now destruct (from_json t).
    + inversion 1; subst. destruct (mapo member l) as [r | ] eqn:E; [ exfalso | reflexivity ]. apply mapo_some in E. apply (IH (k, t)) in H2; auto. cbn [snd] in H2.
      clear -E H1 H2. induction E; [ destruct H1 | ]. destruct H1 as [-> | I]; [ | auto ]. unfold member in H. cbn [fst snd] in H. rewrite H2 in H. discriminate.
Qed.

(** ** Printing *)
Section Printing.
Variable L : json_lib.
Hypothesis PS : prints_strings L.
Definition member_json (kv : value * value) : option (str * jtree) :=
  match rego_to_json L (fst kv), rego_to_json L (snd kv) with Some k, Some t => Some (strip_quotes (jl_print L k), t) | _, _ => None end.
Lemma to_array l : rego_to_json L (VArray l) = option_map JArray (mapo (rego_to_json L) l).
Proof. cbn [rego_to_json]. f_equal. induction l as [ | t l IH ]; [ reflexivity | ]. cbn [mapo]. now rewrite IH. Qed.
Lemma to_set l : rego_to_json L (VSet l) = option_map (fun l => JArray (sort_by (by_text L) l)) (mapo (rego_to_json L) l).
Proof. cbn [rego_to_json]. f_equal. induction l as [ | t l IH ]; [ reflexivity | ]. cbn [mapo]. now rewrite IH. Qed.
Lemma to_object l : rego_to_json L (VObject l) = option_map (fun l => JObject (sort_by by_name l)) (mapo member_json l).
Proof.
  cbn [rego_to_json]. f_equal. induction l as [ | [k t] l IH ]; [ reflexivity | ]. cbn [mapo]. rewrite IH. unfold member_json at 2. cbn [fst snd].
  destruct (rego_to_json L k); [ | reflexivity ]. now destruct (rego_to_json L t).
Qed.
Lemma escaped_plain t : escaped t = true -> is_quoted t = false.
Proof. intros H. destruct t as [ | c [ | d t ] ]; auto. cbn [is_quoted]. destruct (c =? 34) eqn:E; auto. exfalso. revert H. cbn [escaped]. rewrite E. discriminate. Qed.
Lemma string_json t : escaped t = true -> rego_to_json L (VString t) = Some (JString (34 :: t ++ [34])).
Proof. intros H. cbn [rego_to_json]. unfold add_quotes. now rewrite (escaped_plain t H). Qed.
Lemma member_json_string k v : escaped k = true -> member_json (VString k, v) = option_map (pair k) (rego_to_json L v).
Proof. intros H. unfold member_json. cbn [fst snd]. rewrite (string_json k H). cbn [option_map]. rewrite PS, strip_quoted. now destruct (rego_to_json L v). Qed.
Lemma sorted_names {A} (l : list (str * A)) : NoDup (map fst l) -> StronglySorted name_order (map fst (sort_by (fun a b => str_ltb (fst a) (fst b)) l)).
Proof.
  intros N. rewrite (sort_by_map fst _ str_ltb) by reflexivity.
  assert (Q : StronglySorted (fun a b => str_ltb b a = false) (sort_by str_ltb (map fst l))).
  { apply sort_by_sorted with (S := fun _ => True).
    - intros x _. apply str_ltb_irrefl.
    - intros x y z _ _ _. apply str_ltb_trans.
    - intros x y _ _. apply str_ltb_total.
    - rewrite Forall_forall. auto. }
  assert (N' : NoDup (sort_by str_ltb (map fst l))) by (eapply Permutation_NoDup; [ apply Permutation_sym, sort_by_perm | exact N ]).
  clear N. induction Q as [ | x r Hr IH Hx ]; constructor; inversion N'; subst; auto. rewrite Forall_forall in *. intros y Hy. specialize (Hx y Hy).
  unfold name_order. destruct (str_ltb x y) eqn:E; auto. exfalso. apply H1. now rewrite (str_ltb_total x y E Hx).
Qed.

(** A value, its document, and what is read from it. *)
Definition through (v : value) (x : jtree * value) : Prop :=
  rego_to_json L v = Some (fst x) /\ from_json (fst x) = Some (snd x) /\ readable (fst x) /\ through_json v (dedup (snd x)).
Lemma through_list l : Forall (fun v => exists x, through v x) l ->
  exists xs : list (value * (jtree * value)), l = map fst xs /\ Forall (fun x => through (fst x) (snd x)) xs.
Proof. induction 1 as [ | v l (x & H) _ (xs & -> & IH) ]; [ now exists [] | ]. exists ((v, x) :: xs). split; [ reflexivity | now constructor ]. Qed.
Lemma mapo_map {A B C} (f : B -> option C) (g : A -> B) (h : A -> C) l : Forall (fun x => f (g x) = Some (h x)) l -> mapo f (map g l) = Some (map h l).
Proof. induction 1 as [ | x l E _ IH ]; [ reflexivity | ]. cbn [map mapo]. now rewrite E, IH. Qed.
Lemma expressible_through : forall v, expressible v -> exists x, through v x.
Proof.
  apply (value_rect' (fun v => expressible v -> exists x, through v x)); intros.
  - exists (JNull, VNull). repeat split; try reflexivity; constructor.
  - exists (JTrue, VTrue). repeat split; try reflexivity; constructor.
  - exists (JFalse, VFalse). repeat split; try reflexivity; constructor.
  - inversion H; subst. exists (JNumber t, VInt t). pose proof (from_number_spec t) as Q. assert (NF : ~ float_number t) by (now apply int_not_float).
    repeat split; [ | constructor; auto | constructor ]. cbn [fst snd from_json]. destruct (from_number t) as [v | ]; [ | tauto ]. destruct Q as [[-> _] | [_ Q]]; [ reflexivity | contradiction ].
  - inversion H; subst. exists (JNumber t, VFloat t). pose proof (from_number_spec t) as Q.
    repeat split; [ | constructor; auto | constructor ]. cbn [fst snd from_json]. destruct (from_number t) as [v | ]; [ | tauto ]. destruct Q as [[_ Q] | [-> _]]; [ | reflexivity ]. now apply int_not_float in Q.
  - inversion H; subst. exists (JString (34 :: t ++ [34]), VString t). split; [ now apply string_json | ]. cbn [fst snd from_json]. rewrite strip_quoted. repeat split; constructor.
  - inversion H0; subst. destruct (through_list l) as (xs & -> & T).
    { rewrite Forall_forall in *. auto. }
    exists (JArray (map (fun x => fst (snd x)) xs), VArray (map (fun x => snd (snd x)) xs)). unfold through. cbn [fst snd]. rewrite to_array, from_array.
    rewrite (mapo_map _ fst (fun x => fst (snd x))) by (eapply Forall_impl; [ | exact T ]; intros a Ha; apply Ha).
    rewrite (mapo_map _ (fun x : value * (jtree * value) => fst (snd x)) (fun x => snd (snd x))) by (eapply Forall_impl; [ | exact T ]; intros a Ha; apply Ha).
    split; [ reflexivity | ]. split; [ reflexivity | ]. split.
    + constructor. clear -T. induction T as [ | x xs Hx T IH ]; constructor; auto. apply Hx.
    + cbn [dedup]. constructor. rewrite map_map. clear -T. induction T as [ | x xs Hx T IH ]; constructor; auto. apply Hx.
  - inversion H0; subst.
    assert (X : exists xs : list (str * (value * (jtree * value))), l0 = map (fun x => (fst x, fst (snd x))) xs /\ Forall (fun x => escaped (fst x) = true /\ through (fst (snd x)) (snd (snd x))) xs).
    { clear H0 H2. rewrite Forall_map in H. induction l0 as [ | [k v] l IH ]; [ now exists [] | ]. inversion H; inversion H3; inversion H4; subst. cbn [fst snd] in *. destruct H2 as [_ H2]. destruct (H2 H12) as (x & Hx).
      destruct IH as (xs & -> & T); auto. exists ((k, (v, x)) :: xs). split; [ reflexivity | now constructor ]. }
    destruct X as (xs & -> & T).
    set (lt := fun a b : str * (value * (jtree * value)) => str_ltb (fst a) (fst b)).
    set (ys := sort_by lt xs).
    assert (Ty : Forall (fun x => escaped (fst x) = true /\ through (fst (snd x)) (snd (snd x))) ys) by (rewrite Forall_forall in *; intros y Hy; apply T; now apply sort_by_in in Hy).
    assert (N : NoDup (map fst xs)) by (rewrite map_map in H2; exact H2).
    exists (JObject (map (fun x => (fst x, fst (snd (snd x)))) ys), VObject (map (fun x => (VString (fst x), snd (snd (snd x)))) ys)). unfold through. cbn [fst snd]. rewrite to_object, from_object.
    rewrite map_map. cbn [fst snd].
    rewrite (mapo_map member_json (fun x => (VString (fst x), fst (snd x))) (fun x => (fst x, fst (snd (snd x))))).
    2: { eapply Forall_impl; [ | exact T ]. intros a [Ea Ha]. rewrite member_json_string by exact Ea. destruct Ha as (-> & _). reflexivity. }
    rewrite (mapo_map member _ (fun x => (VString (fst x), snd (snd (snd x))))).
    2: { eapply Forall_impl; [ | exact Ty ]. intros a [Ea Ha]. unfold member. cbn [fst snd]. destruct Ha as (_ & -> & _). reflexivity. }
    split; [ | split; [ reflexivity | split ] ].
    + cbn [option_map]. do 2 f_equal. subst ys. symmetry. apply sort_by_map. reflexivity.
    + constructor. rewrite Forall_map. eapply Forall_impl; [ | exact Ty ]. intros a [_ Ha]. apply Ha.
    + cbn [dedup]. rewrite map_map. cbn [fst snd]. rewrite dedup_lasts.
      assert (Ny : NoDup (map fst ys)) by (eapply Permutation_NoDup; [ apply Permutation_map, Permutation_sym, sort_by_perm | exact N ]).
      rewrite lasts_nodup by (rewrite map_map; cbn [item_key_view fst]; exact Ny).
      replace (map (fun x => (VString (fst x), dedup (snd (snd (snd x))))) ys) with (combine (map (fun kv => VString (fst kv)) (map (fun x : str * (value * (jtree * value)) => (fst x, fst (snd x))) ys)) (map (fun x => dedup (snd (snd (snd x)))) ys)).
      2: { clear. induction ys as [ | x ys IH ]; [ reflexivity | ]. cbn [map combine fst snd]. now rewrite IH. }
      match goal with |- through_json ?v _ => replace v with (VObject (map (fun kv : str * value => (VString (fst kv), snd kv)) (map (fun x : str * (value * (jtree * value)) => (fst x, fst (snd x))) xs))) by (now rewrite map_map) end.
      apply tj_object.
      * apply Permutation_map, Permutation_sym, sort_by_perm.
      * rewrite map_map. cbn [fst]. apply (sorted_names xs N).
      * clear -Ty. induction Ty as [ | x ys [_ Hx] T IH ]; constructor; auto. apply Hx.
  - inversion H0; subst. destruct (through_list l) as (xs & -> & T).
    { rewrite Forall_forall in *. auto. }
    set (ys := sort_by (fun a b => by_text L (fst (snd a)) (fst (snd b))) xs).
    assert (Ty : Forall (fun x => through (fst x) (snd x)) ys) by (rewrite Forall_forall in *; intros y Hy; apply T; now apply sort_by_in in Hy).
    exists (JArray (map (fun x => fst (snd x)) ys), VArray (map (fun x => snd (snd x)) ys)). unfold through. cbn [fst snd]. rewrite to_set, from_array.
    rewrite (mapo_map _ fst (fun x => fst (snd x))) by (eapply Forall_impl; [ | exact T ]; intros a Ha; apply Ha).
    rewrite (mapo_map _ (fun x : value * (jtree * value) => fst (snd x)) (fun x => snd (snd x)) ys) by (eapply Forall_impl; [ | exact Ty ]; intros a Ha; apply Ha).
    split; [ | split; [ reflexivity | split ] ].
    + cbn [option_map]. do 2 f_equal. subst ys. symmetry. apply sort_by_map. reflexivity.
    + constructor. rewrite Forall_map. eapply Forall_impl; [ | exact Ty ]. intros a Ha. apply Ha.
    + cbn [dedup]. rewrite map_map. apply tj_set with (map fst ys).
      * apply Permutation_map, Permutation_sym, sort_by_perm.
      * clear -Ty. induction Ty as [ | x ys Hx T IH ]; constructor; auto. apply Hx.
  - inversion H.
Qed.
End Printing.

(** ** Order *)
Lemma mapo_perm {A B} (f : A -> option B) l l0 : Permutation l l0 -> forall r, mapo f l = Some r -> exists r0, mapo f l0 = Some r0 /\ Permutation r r0.
Proof.
  induction 1; intros r E.
  - exists r. split; [ exact E | apply Permutation_refl ].
  - cbn [mapo] in *. destruct (f x); [ | discriminate ]. destruct (mapo f l) as [r1 | ] eqn:E1; [ | discriminate ]. injection E as <-. destruct (IHPermutation _ eq_refl) as (r2 & -> & P). exists (b :: r2). split; [ reflexivity | now constructor ].
  - cbn [mapo] in *. destruct (f y), (f x), (mapo f l); try discriminate. injection E as <-. eexists. split; [ reflexivity | constructor ].
  - destruct (IHPermutation1 _ E) as (r1 & E1 & P1). destruct (IHPermutation2 _ E1) as (r2 & E2 & P2). exists r2. split; [ exact E2 | now transitivity r1 ].
Qed.
Lemma mapo_ext2 {A B} (f : A -> option B) l l' : Forall2 (fun x y => f x = f y) l l' -> mapo f l = mapo f l'.
Proof. induction 1 as [ | x y l l' E _ IH ]; [ reflexivity | ]. cbn [mapo]. now rewrite E, IH. Qed.
Lemma Forall2_in_l {A B} (R S : A -> B -> Prop) l l' : (forall x y, In x l -> R x y -> S x y) -> Forall2 R l l' -> Forall2 S l l'.
Proof. intros H F. induction F as [ | x y l l' E F IH ]; constructor; [ apply H; [ now left | exact E ] | ]. apply IH. intros a b I. apply H. now right. Qed.
Lemma fst_inj_nodup {A B} (l : list (A * B)) x y : NoDup (map fst l) -> In x l -> In y l -> fst x = fst y -> x = y.
Proof.
  induction l as [ | z l IH ]; intros N X Y E; [ destruct X | ]. cbn [map] in N. inversion N; subst. destruct X as [<- | X], Y as [<- | Y]; auto.
  - elim H1. rewrite E. now apply in_map.
  - elim H1. rewrite <- E. now apply in_map.
Qed.
Section Order.
Variable L : json_lib.
Hypotheses (PS : prints_strings L) (PA : prints_apart L).
Lemma to_json_some v : expressible v -> exists t, rego_to_json L v = Some t /\ readable t.
Proof. intros E. destruct (expressible_through L PS v E) as (x & H1 & _ & H2 & _). eauto. Qed.
Lemma reordered_json : forall v, expressible v -> forall v', reordered v v' -> rego_to_json L v = rego_to_json L v'.
Proof.
  apply (value_rect' (fun v => expressible v -> forall v', reordered v v' -> rego_to_json L v = rego_to_json L v')); intros; try (match goal with H : reordered _ _ |- _ => inversion H; subst; reflexivity end).
  - inversion H1; subst; [ now elim (H2 l) | ]. inversion H0; subst. rewrite !to_array. f_equal. apply mapo_ext2.
    rewrite Forall_forall in *. eapply Forall2_in_l; [ | exact H3 ]. cbn. intros x y I R. now apply H; auto.
  - inversion H1; subst; [ now elim (H3 l) | ]. inversion H0; subst. rewrite !to_object.
    assert (E : mapo (member_json L) l1 = mapo (member_json L) l').
    { apply mapo_ext2. eapply Forall2_in_l; [ | exact H4 ]. intros [k v] [k' v''] I [Ek R]. cbn [fst snd] in *. subst k'. unfold member_json. cbn [fst snd].
      apply (Permutation_in _ (Permutation_sym H3)) in I. rewrite Forall_forall in *. specialize (H (k, v) I). cbn [fst snd] in H. destruct H as [_ H].
      apply in_map_iff in I as ([k0 v0] & E & I). injection E as <- <-. rewrite (H (H7 _ I) _ R). reflexivity. }
    rewrite <- E. clear E H4 H1.
    assert (X : exists r, mapo (member_json L) (map (fun kv : str * value => (VString (fst kv), snd kv)) l0) = Some r /\ map fst r = map fst l0).
    { clear -H6 H7 PS. induction l0 as [ | [k v] l IH ]; [ now exists [] | ]. inversion H6; inversion H7; subst. cbn [fst snd] in *. destruct IH as (r & Er & En); auto. destruct (to_json_some v H5) as (t & Et & _).
      exists ((k, t) :: r). cbn [map mapo fst snd]. rewrite member_json_string, Et by assumption. cbn [option_map]. rewrite Er. cbn [map fst]. rewrite En. now split. }
    destruct X as (r & Er & En). destruct (mapo_perm _ _ _ H3 _ Er) as (r0 & Er0 & P). rewrite Er, Er0. cbn [option_map]. do 2 f_equal.
    assert (N : NoDup (map fst r)) by (rewrite En; assumption).
    apply sort_by_perm_eq with (S := fun x => In x r); [ | | | rewrite Forall_forall; auto | exact P ].
    + intros x _. apply str_ltb_irrefl.
    + intros x y z _ _ _. apply str_ltb_trans.
    + intros x y Ix Iy E1 E2. apply (fst_inj_nodup r); auto. now apply str_ltb_total.
  - inversion H1; subst; [ now elim (H4 l) | ]. inversion H0; subst. rewrite !to_set.
    assert (E : mapo (rego_to_json L) l1 = mapo (rego_to_json L) l').
    { apply mapo_ext2. rewrite Forall_forall in *. eapply Forall2_in_l; [ | exact H4 ]. cbn. intros x y I R. apply (Permutation_in _ (Permutation_sym H3)) in I. now apply H; auto. }
    rewrite <- E. clear E H4 H1.
    assert (X : exists r, mapo (rego_to_json L) l = Some r /\ Forall readable r).
    { clear -H5 PS. induction H5 as [ | v l Hv _ (r & Er & Rr) ]; [ now exists [] | ]. destruct (to_json_some v Hv) as (t & Et & Rt). exists (t :: r). cbn [mapo]. rewrite Et, Er. split; [ reflexivity | now constructor ]. }
    destruct X as (r & Er & Rr). destruct (mapo_perm _ _ _ H3 _ Er) as (r0 & Er0 & P). rewrite Er, Er0. cbn [option_map]. do 2 f_equal.
    apply sort_by_perm_eq with (S := readable); [ | | | exact Rr | exact P ].
    + intros x _. apply str_ltb_irrefl.
    + intros x y z _ _ _. apply str_ltb_trans.
    + intros x y Ix Iy E1 E2. apply PA; auto. now apply str_ltb_total.
Qed.
End Order.

(** ** Equal values *)
Lemma through_veq F : forall v v', no_sets v -> through_json v v' -> veq F v v'.
Proof.
  apply (value_rect' (fun v => forall v', no_sets v -> through_json v v' -> veq F v v')); intros; try (match goal with H : through_json _ _ |- _ => inversion H; subst; try (now constructor); try (now econstructor) end).
  - inversion H0; subst; [ | now elim (H2 l) ]. constructor. rewrite Forall_forall in *. eapply Forall2_in_l; [ | exact H3 ]. cbn. intros x y I R. apply H; auto.
  - inversion H0; subst; [ | exfalso; match goal with H : forall l, VObject _ <> VObject l |- _ => now eapply H end ]. rewrite Forall_forall in *. constructor.
    + intros k v I. apply in_map_iff in I as ([k0 v0] & E & I). injection E as <- <-. cbn [fst snd].
      assert (I1 : In (k0, v0) l1) by (eapply Permutation_in; eassumption).
      assert (J : exists w, In (VString k0, w) (combine (map (fun kv : str * value => VString (fst kv)) l1) l') /\ through_json v0 w).
      { clear -I1 H5. induction H5 as [ | [k v] w l1 l' Hw _ IH ]; [ destruct I1 | ]. cbn [map combine fst]. destruct I1 as [E | I1]; [ injection E as -> ->; exists w; split; [ now left | exact Hw ] | ]. destruct (IH I1) as (w' & J & T). exists w'. split; [ now right | exact T ]. }
      destruct J as (w & J & T). exists (VString k0), w. split; [ exact J | ]. split; [ constructor | ].
      assert (I2 : In (VString k0, v0) (map (fun kv : str * value => (VString (fst kv), snd kv)) l0)) by (apply in_map_iff; now exists (k0, v0)).
      apply (H (VString k0, v0) I2); [ apply (H6 (VString k0, v0) I2) | exact T ].
    + intros k' v' J.
      assert (I : exists k0 v0, k' = VString k0 /\ In (k0, v0) l1 /\ through_json v0 v').
      { clear -J H5. induction H5 as [ | [k v] w l1 l' Hw _ IH ]; [ destruct J | ]. cbn [map combine fst] in J. destruct J as [E | J]; [ injection E as <- <-; exists k, v; split; [ reflexivity | split; [ now left | exact Hw ] ] | ]. destruct (IH J) as (k0 & v0 & E & I & T). exists k0, v0. split; [ exact E | split; [ now right | exact T ] ]. }
      destruct I as (k0 & v0 & -> & I & T). apply (Permutation_in _ (Permutation_sym H3)) in I.
      assert (I2 : In (VString k0, v0) (map (fun kv : str * value => (VString (fst kv), snd kv)) l0)) by (apply in_map_iff; now exists (k0, v0)).
      exists (VString k0), v0. split; [ exact I2 | ]. split; [ constructor | ]. apply (H (VString k0, v0) I2); [ apply (H6 (VString k0, v0) I2) | exact T ].
  - inversion H0; subst. exfalso. match goal with H : forall l, VSet _ <> VSet l |- _ => now eapply H end.
Qed.

(** ** Options *)
Fixpoint lookup (k : str) (l : list (value * value)) : option value :=
  match l with [] => None | (VString k', v) :: l' => if str_eqb k k' then Some v else lookup k l' | _ :: l' => lookup k l' end.
Lemma lookup_given l k v : NoDup (map fst l) -> Forall option_member l -> (lookup k l = Some v <-> given l k v).
Proof.
  unfold given. induction l as [ | [k' v'] l IH ]; intros N F; [ split; [ discriminate | intros [] ] | ]. cbn [map fst] in N. inversion N; inversion F; subst. cbn [lookup].
  assert (K : exists s, k' = VString s) by (match goal with H : option_member _ |- _ => inversion H; eauto end). destruct K as (s & ->).
  destruct (str_eqb k s) eqn:E.
  - apply str_eqb_eq in E. subst s. split; [ intros Q; injection Q as ->; now left | ]. intros [Q | I]; [ now injection Q as -> | ]. elim H1. now apply (in_map fst) in I.
  - rewrite IH by auto. split; [ now right | ]. intros [Q | I]; [ | exact I ]. injection Q as -> _. now rewrite str_eqb_refl in E.
Qed.
Definition text_or (d : str) (o : option value) : str := match o with Some (VString t) => t | _ => d end.
Definition is_some {A} (o : option A) : bool := match o with Some _ => true | None => false end.
Ltac closed_eqb := repeat match goal with |- context [str_eqb ?a ?b] => let c := eval vm_compute in (str_eqb a b) in change (str_eqb a b) with c end; cbv iota.
Lemma read_options_spec l : NoDup (map fst l) -> Forall option_member l -> forall o, read_options l o = inr
  {| op_pretty := match lookup $"pretty" l with
       | Some VTrue => Some true | Some _ => Some false
       | None => if is_some (lookup $"indent" l) || is_some (lookup $"prefix" l) then set_default (op_pretty o) else op_pretty o end;
     op_indent := text_or (op_indent o) (lookup $"indent" l); op_prefix := text_or (op_prefix o) (lookup $"prefix" l) |}.
Proof.
  induction l as [ | [k v] l IH ]; intros N F o; [ now destruct o | ]. cbn [map fst] in N. inversion N as [ | ? ? Nk Nl ]; inversion F as [ | ? ? Hm Fl ]; subst.
  assert (NK : forall s, VString s = k -> lookup s l = None).
  { intros s E. destruct (lookup s l) as [w | ] eqn:Q; [ | reflexivity ]. apply lookup_given in Q; auto. elim Nk. apply (in_map fst) in Q. cbn [fst] in Q. now rewrite E in Q. }
  inversion Hm; subst; cbn [read_options lookup].
  - closed_eqb.
    assert (E : lookup $"pretty" l = None) by (apply NK; reflexivity). destruct b; cbn [vbool]; rewrite IH by auto; rewrite E; cbn [op_pretty op_indent op_prefix set_default]; destruct (is_some _ || is_some _); reflexivity.
  - closed_eqb.
    assert (E : lookup $"indent" l = None) by (apply NK; reflexivity). rewrite IH by auto. rewrite E. cbn [op_pretty op_indent op_prefix is_some text_or orb].
    rewrite strip_no_quote by (match goal with H : harmless _ |- _ => apply H end). do 2 f_equal.
    destruct (lookup $"pretty" l); [ reflexivity | ]. repeat match goal with |- context [is_some ?x] => destruct (is_some x) end; destruct (op_pretty o); reflexivity.
  - closed_eqb.
    assert (E : lookup $"prefix" l = None) by (apply NK; reflexivity). rewrite IH by auto. rewrite E. cbn [op_pretty op_indent op_prefix is_some text_or orb].
    rewrite strip_no_quote by (match goal with H : harmless _ |- _ => apply H end). do 2 f_equal.
    destruct (lookup $"pretty" l); [ reflexivity | ]. repeat match goal with |- context [is_some ?x] => destruct (is_some x) end; destruct (op_pretty o); reflexivity.
Qed.
Lemma bool_iff (a b : bool) (P : Prop) : (a = true <-> P) -> (b = true <-> P) -> a = b.
Proof. intros A B. destruct a, b; auto; [ symmetry; apply B, A; reflexivity | apply A, B; reflexivity ]. Qed.
Lemma chosen_read l pretty indent prefix : chosen l pretty indent prefix ->
  exists o, read_options l {| op_pretty := None; op_indent := [9]; op_prefix := [] |} = inr o /\ value_or (op_pretty o) = pretty /\ op_indent o = indent /\ op_prefix o = prefix.
Proof.
  intros (N & F & Pr & In_ & Px). eexists. split; [ apply read_options_spec; auto | ]. cbn [op_pretty op_indent op_prefix set_default].
  assert (T : forall k v, lookup k l = Some v -> k = $"pretty" /\ (exists b, v = vbool b) \/ In k [$"indent"; $"prefix"] /\ (exists t, v = VString t)).
  { intros k v E. apply lookup_given in E; auto. unfold given in E. rewrite Forall_forall in F. apply F in E. inversion E; subst; [ left; eauto | right; split; [ now left | eauto ] | right; split; [ right; now left | eauto ] ]. }
  split; [ | split ].
  - eapply bool_iff; [ | exact Pr ]. destruct (lookup $"pretty" l) as [v | ] eqn:E.
    + destruct (T _ _ E) as [[_ (b & ->)] | [[Q | [Q | []]] _]]; try discriminate Q. apply lookup_given in E; auto. destruct b; cbn [vbool value_or] in *; [ tauto | ]. split; [ discriminate | ].
      intros [G | [G _]]; [ | contradiction ]. apply lookup_given in G; auto. apply lookup_given in E; auto. congruence.
    + assert (NV : forall v, ~ given l $"pretty" v) by (intros v G; apply lookup_given in G; auto; congruence).
      destruct (lookup $"indent" l) as [v | ] eqn:Ei; cbn [is_some orb value_or].
      * destruct (T _ _ Ei) as [[Q _] | [_ (t & ->)]]; [ discriminate Q | ]. apply lookup_given in Ei; auto. split; auto. intros _. right. split; [ apply NV | ]. exists $"indent", t. split; [ now left | exact Ei ].
      * destruct (lookup $"prefix" l) as [v | ] eqn:Ep; cbn [is_some orb value_or].
        -- destruct (T _ _ Ep) as [[Q _] | [_ (t & ->)]]; [ discriminate Q | ]. apply lookup_given in Ep; auto. split; auto. intros _. right. split; [ apply NV | ]. exists $"prefix", t. split; [ right; now left | exact Ep ].
        -- split; [ discriminate | ]. intros [G | (_ & k & t & [<- | [<- | []]] & G)]; [ now apply NV in G | | ]; apply lookup_given in G; auto; congruence.
  - destruct In_ as [G | [G ->]]; [ apply lookup_given in G; auto; now rewrite G | ]. destruct (lookup $"indent" l) as [v | ] eqn:E; [ | reflexivity ]. destruct (T _ _ E) as [[Q _] | [_ (t & ->)]]; [ discriminate Q | ]. apply lookup_given in E; auto. now elim (G t).
  - destruct Px as [G | [G ->]]; [ apply lookup_given in G; auto; now rewrite G | ]. destruct (lookup $"prefix" l) as [v | ] eqn:E; [ | reflexivity ]. destruct (T _ _ E) as [[Q _] | [_ (t & ->)]]; [ discriminate Q | ]. apply lookup_given in E; auto. now elim (G t).
Qed.

Lemma prefix_lines_spec p x ps : pieces [10] x ps -> forall a fuel, (length ps <= fuel)%nat ->
  p ++ prefix_lines fuel p (a ++ x) (length a) = intercalate [10] (map (app p) ps).
Proof.
  induction 1 as [x N | q x ps M H IH]; intros a [ | k ] Lk; cbn [length] in Lk; try lia; cbn [prefix_lines]; unfold str, byte in *.
  - now rewrite find_from_none, skipn_app_length.
  - rewrite find_from_some by exact M. cbn [map]. pose proof (pieces_nonempty _ _ _ H) as Ne.
    replace (intercalate [10] ((p ++ q) :: map (app p) ps)) with ((p ++ q) ++ [10] ++ intercalate [10] (map (app p) ps)) by (destruct ps; [ congruence | reflexivity ]).
    rewrite <- (IH (a ++ q ++ [10]) k) by lia. rewrite <- !app_assoc. f_equal. f_equal.
    + unfold substr. rewrite skipn_app_length. replace (length a + length q - length a)%nat with (length q) by lia. apply firstn_app_length.
    + do 2 f_equal. rewrite !app_length. cbn [length]. f_equal. lia.
Qed.
Lemma prefixed_spec p t : with_prefix p t (prefixed p t).
Proof.
  destruct (pieces_exist [10] t) as (ps & P & Len); [ discriminate | ]. exists ps. split; [ exact P | ]. unfold prefixed. now apply (prefix_lines_spec p t ps P []).
Qed.

Lemma subsequence_in {A} (l l' : list A) x : subsequence l l' -> In x l -> In x l'.
Proof. induction 1; cbn [In]; intuition. Qed.
Lemma denotes_distinct : forall t v, denotes t v -> distinct_names v.
Proof.
  apply (jtree_induction (fun t => forall v, denotes t v -> distinct_names v)).
  1-5: intros; match goal with H : denotes _ _ |- _ => inversion H; subst end; apply dm_scalar; discriminate.
  - intros l IH v D. inversion D as [ | | | | | | ? ? F | ]; subst. constructor. rewrite Forall_forall in IH. clear D. induction F as [ | t v l l' Hd _ IHF ]; constructor.
    + apply (IH t); [ now left | exact Hd ].
    + apply IHF. intros x I. apply IH. now right.
  - intros l IH v D. inversion D as [ | | | | | | | ? l0 l' (Sq & N & _) F ]; subst. rewrite Forall_forall in IH.
    assert (IH0 : forall kt, In kt l0 -> forall v, denotes (snd kt) v -> distinct_names v) by (intros kt I; apply IH; eapply subsequence_in; eauto).
    clear -N F IH0.
    assert (X : exists l1 : list (str * value), combine (map (fun kt : str * jtree => VString (fst kt)) l0) l' = map (fun kv => (VString (fst kv), snd kv)) l1 /\ map fst l1 = map fst l0 /\ Forall (fun kv => distinct_names (snd kv)) l1).
    { clear N. induction F as [ | kt v l0 l' Hd _ IHF ]; [ now exists [] | ]. destruct IHF as (l1 & E & En & Fn); [ intros x I; apply IH0; now right | ].
      exists ((fst kt, v) :: l1). cbn [map combine fst snd]. rewrite E, En. repeat split. constructor; [ | exact Fn ]. apply (IH0 kt); [ now left | exact Hd ]. }
    destruct X as (l1 & -> & En & Fn). constructor; [ now rewrite En | exact Fn ].
Qed.
