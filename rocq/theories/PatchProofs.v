(** Lemmas about json.patch, json.filter and json.remove. *)
From Coq Require Import String ZArith List Bool Lia.
From Verif Require Import Base SMap SMapFacts BigIntSpec BigIntModel DecFacts BigIntProofs ValueModel ValueSpec ResolverModel VmModel
  StrModel StrSpec StrProofs EncModel EncSpec EncProofs UriProofs MiscModel MiscSpec MiscProofs KeyProofs CoreProofs PatchModel PatchSpec.
Import ListNotations.
Local Open Scope Z_scope.
Local Open Scope list_scope.

(** ** Pointers *)

Lemma escape_no_slash t : ~ In 47 (escape_token t).
Proof.
  unfold escape_token. rewrite in_flat_map. intros (c & _ & H). destruct (Z.eqb_spec c 126); [ cbn in H; lia | ].
  destruct (Z.eqb_spec c 47); cbn in H; lia.
Qed.
Lemma unescape_escape t : unescape_key (escape_token t) = Some t.
Proof.
  induction t as [ | c t IH ]; [ reflexivity | ]. unfold escape_token in *. cbn [flat_map].
  destruct (Z.eqb_spec c 126) as [-> | N].
  - change ($"~0" ++ ?x) with (126 :: 48 :: x). cbn [app unescape_key Z.eqb Pos.eqb]. now rewrite IH.
  - destruct (Z.eqb_spec c 47) as [-> | N'].
    + change ($"~1" ++ ?x) with (126 :: 49 :: x). cbn [app unescape_key Z.eqb Pos.eqb]. now rewrite IH.
    + cbn [app unescape_key]. apply Z.eqb_neq in N. now rewrite N, IH.
Qed.
Lemma escape_plain t : ~ In 126 (escape_token t) -> escape_token t = t.
Proof.
  induction t as [ | c t IH ]; [ reflexivity | ]. unfold escape_token in *. cbn [flat_map]. intros H.
  destruct (Z.eqb_spec c 126) as [-> | N]; [ elim H; now left | ]. destruct (Z.eqb_spec c 47) as [-> | N']; [ elim H; now left | ].
  cbn [app] in *. rewrite IH; auto. intros I. apply H. now right.
Qed.
Lemma key_unescape t : (if existsb (Z.eqb 126) (escape_token t) then unescape_key (escape_token t) else Some (escape_token t)) = Some t.
Proof.
  destruct (existsb (Z.eqb 126) (escape_token t)) eqn:E; [ apply unescape_escape | ]. rewrite escape_plain; auto.
  intros I. apply existsb_eqb in I. congruence.
Qed.
Lemma pointer_text_head ts c u : pointer_text ts = c :: u -> c = 47.
Proof. destruct ts as [ | t ts ]; [ discriminate | ]. cbn. intros E. now injection E. Qed.
Lemma pointer_token t ts : span (none_of [47]) (escape_token t ++ pointer_text ts) = (escape_token t, pointer_text ts).
Proof.
  apply span_eq.
  - apply none_of_all. intros x [<- | []]. apply escape_no_slash.
  - intros c u E. apply pointer_text_head in E. subst. reflexivity.
Qed.
Lemma pointer_loop_text ts : forall fuel a, (length (pointer_text ts) <= fuel)%nat ->
  pointer_loop fuel (a ++ pointer_text ts) (length a) = Ok (Some ts).
Proof.
  induction ts as [ | t ts IH ]; intros fuel a Hf.
  - cbn [pointer_text flat_map]. rewrite app_nil_r. destruct fuel; cbn [pointer_loop]; replace (nth_error a (length a)) with (@None Z); auto;
      symmetry; apply nth_error_None; apply le_n.
  - cbn [pointer_text flat_map] in *. fold (pointer_text ts) in *. change ($"/" ++ escape_token t) with (47 :: escape_token t) in *.
    cbn [app] in *. destruct fuel as [ | fuel ]; [ cbn [length] in Hf; lia | ]. cbn [pointer_loop].
    assert (N : nth_error (a ++ 47 :: escape_token t ++ pointer_text ts) (length a) = Some 47).
    { rewrite nth_error_app2 by lia. now rewrite Nat.sub_diag. }
    unfold str, byte in *. rewrite N. cbn [Z.eqb Pos.eqb negb andb].
    assert (S1 : skipn (S (length a)) (a ++ 47 :: escape_token t ++ pointer_text ts) = escape_token t ++ pointer_text ts).
    { replace (S (length a)) with (length (a ++ [47])) by (rewrite app_length; cbn; lia).
      replace (a ++ 47 :: escape_token t ++ pointer_text ts) with ((a ++ [47]) ++ escape_token t ++ pointer_text ts) by (now rewrite <- app_assoc).
      apply skipn_app_length. }
    unfold str, byte in *. rewrite S1, pointer_token. cbn [fst]. rewrite key_unescape.
    assert (Q : pointer_loop fuel (a ++ 47 :: escape_token t ++ pointer_text ts) (S (length a) + length (escape_token t)) = Ok (Some ts)).
    { pose proof (IH fuel (a ++ [47] ++ escape_token t)) as Q. rewrite !app_length in Q. rewrite <- !app_assoc in Q. cbn [app length] in *.
      replace (S (length a) + length (escape_token t))%nat with (length a + S (length (escape_token t)))%nat by lia. apply Q.
      rewrite app_length in Hf. lia. }
    unfold str, byte in *. rewrite Q. reflexivity.
Qed.
Lemma pointer_of_text ts : pointer (pointer_text ts) = Ok (Some ts).
Proof. unfold pointer. change (pointer_text ts) with ([] ++ pointer_text ts). rewrite (pointer_loop_text ts) by (cbn [app]; lia). reflexivity. Qed.
Lemma pointer_text_inj ts ts' : pointer_text ts = pointer_text ts' -> ts = ts'.
Proof. intros E. pose proof (pointer_of_text ts) as P. rewrite E, pointer_of_text in P. congruence. Qed.

Lemma unescape_inv n : forall s t, (length s <= n)%nat -> ~ In 47 s -> unescape_key s = Some t -> s = escape_token t.
Proof.
  induction n as [ | n IH ]; intros s t L H E; (destruct s as [ | c s ]; [ injection E as <-; reflexivity | ]); [ cbn in L; lia | ].
  cbn [unescape_key] in E. cbn [length] in L. destruct (Z.eqb_spec c 126) as [-> | N].
  - destruct s as [ | i s ]; [ discriminate | ]. cbn [length] in L. destruct (Z.eqb_spec i 48) as [-> | N0].
    + destruct (unescape_key s) as [u | ] eqn:U; [ | discriminate ]. injection E as <-. unfold escape_token. cbn [flat_map Z.eqb Pos.eqb].
      change ($"~0" ++ ?x) with (126 :: 48 :: x). do 2 f_equal. apply IH; auto; [ lia | ]. intros I. apply H. right. now right.
    + destruct (Z.eqb_spec i 49) as [-> | N1]; [ | discriminate ]. destruct (unescape_key s) as [u | ] eqn:U; [ | discriminate ]. injection E as <-.
      unfold escape_token. cbn [flat_map Z.eqb Pos.eqb]. change ($"~1" ++ ?x) with (126 :: 49 :: x). do 2 f_equal.
      apply IH; auto; [ lia | ]. intros I. apply H. right. now right.
  - destruct (unescape_key s) as [u | ] eqn:U; [ | discriminate ]. injection E as <-. unfold escape_token. cbn [flat_map].
    assert (c <> 47) by (intros ->; apply H; now left). replace (c =? 126) with false by lia. replace (c =? 47) with false by lia. cbn [app]. f_equal.
    apply IH; auto; [ lia | ]. intros I. apply H. now right.
Qed.
Lemma pointer_loop_inv fuel : forall a s ts, pointer_loop fuel (a ++ s) (length a) = Ok (Some ts) ->
  s = pointer_text ts \/ a = [] /\ s <> [] /\ (forall u, s <> 47 :: u) /\ 47 :: s = pointer_text ts.
Proof.
  assert (C : forall a (s : list Z), nth_error (a ++ s) (length a) = nth_error s 0).
  { intros a s. rewrite nth_error_app2 by lia. now rewrite Nat.sub_diag. }
  induction fuel as [ | fuel IH ]; intros a s ts E; unfold str, byte in *; cbn [pointer_loop] in E; unfold str, byte in E; rewrite C in E;
    (destruct s as [ | c s ]; cbn [nth_error] in E; [ injection E as <-; now left | ]); [ discriminate | ].
  destruct (negb (c =? 47) && (0 <? length a)%nat) eqn:B; [ discriminate | ].
  assert (G : forall b w, a ++ c :: s = b ++ w -> (b = a /\ c <> 47 /\ w = c :: s \/ b = a ++ [47] /\ c = 47 /\ w = s) ->
    (if c =? 47 then S (length a) else length a) = length b ->
    exists k ts', ts = k :: ts' /\ w = escape_token k ++ pointer_text ts').
  { intros b w Eb Hb Lb. unfold str, byte in *. rewrite Lb, Eb, skipn_app_length in E. destruct (span (none_of [47]) w) as [key rest] eqn:Sp.
    apply span_spec in Sp as (-> & K & Rs). cbn [fst] in E.
    assert (Nk : ~ In 47 key) by (rewrite none_of_all in K; apply K; now left).
    match type of E with match ?x with _ => _ end = _ => destruct x as [k | ] eqn:Uk; [ | discriminate E ] end.
    assert (Ek : key = escape_token k).
    { destruct (existsb (Z.eqb 126) key) eqn:Ex; [ now apply (unescape_inv (length key)) | ]. injection Uk as <-.
      symmetry. apply escape_plain.
      assert (Hk : forall y, In y key -> y <> 126 /\ y <> 47).
      { intros y Iy. split; intros ->; [ apply existsb_eqb in Iy; congruence | auto ]. }
      clear - Hk. unfold escape_token. rewrite in_flat_map. intros (y & Iy & H). destruct (Hk y Iy). replace (y =? 126) with false in H by lia.
      replace (y =? 47) with false in H by lia. destruct H as [-> | []]. congruence. }
    match type of E with obind ?x _ = _ => destruct x as [[ts' | ] | | | ] eqn:P; try discriminate E end. cbn [obind option_map] in E. injection E as <-.
    exists k, ts'. split; auto. assert (P' : pointer_loop fuel ((b ++ key) ++ rest) (length (b ++ key)) = Ok (Some ts')) by (rewrite <- app_assoc, app_length; exact P).
    apply IH in P'. destruct P' as [-> | (Nb & Rn & Rh & _)]; [ now rewrite <- Ek | ].
    exfalso. destruct rest as [ | r rest ]; [ elim Rn; reflexivity | ]. specialize (Rs r rest eq_refl). apply none_of_false in Rs. destruct Rs as [<- | []]. now elim (Rh rest). }
  destruct (Z.eqb_spec c 47) as [-> | N].
  - destruct (G (a ++ [47]) s) as (k & ts' & -> & ->).
    + now rewrite <- app_assoc.
    + right. auto.
    + rewrite app_length. cbn [length]. lia.
    + left. reflexivity.
  - assert (Ea : a = []) by (destruct a; [ reflexivity | discriminate B ]). subst a. right.
    destruct (G [] (c :: s) eq_refl) as (k & ts' & -> & Ew).
    + left. auto.
    + reflexivity.
    + split; [ reflexivity | ]. split; [ discriminate | ]. split; [ intros u Eu; congruence | ]. rewrite Ew. reflexivity.
Qed.

(** ** Objects and arrays *)

Definition members (l : list (value * value)) : Prop :=
  NoDup (map fst l) /\ Forall (fun kv => (exists k, fst kv = VString k) /\ json (snd kv)) l.
Lemma json_object l : json (VObject l) <-> members l.
Proof.
  split.
  - intros H. inversion H; subst. split.
    + rewrite map_map. cbn [fst]. rewrite <- (map_map fst VString). apply FinFun.Injective_map_NoDup; auto. intros x y E. congruence.
    + rewrite Forall_map. eapply Forall_impl; [ | eassumption ]. cbn [fst snd]. eauto.
  - intros [N H]. assert (E : exists l', l = map (fun kv : str * value => (VString (fst kv), snd kv)) l').
    { clear N. induction H as [ | [k w] l ((s & E) & _) _ (l' & ->) ]; [ now exists [] | ]. cbn [fst] in E. subst k. now exists ((s, w) :: l'). }
    destruct E as [l' ->]. constructor.
    + rewrite map_map in N. cbn [fst] in N. rewrite <- (map_map fst VString) in N. now apply NoDup_map_inv in N.
    + rewrite Forall_map in H. eapply Forall_impl; [ | exact H ]. cbn [fst snd]. tauto.
Qed.
Lemma json_array l : json (VArray l) <-> Forall json l.
Proof. split; [ now inversion 1 | now constructor ]. Qed.
Lemma json_not_error v : json v -> is_error v = false.
Proof. now destruct 1. Qed.
Lemma members_mid l1 k w l2 : members (l1 ++ (VString k, w) :: l2) ->
  json w /\ (forall x, ~ In (VString k, x) l1) /\ (forall x, ~ In (VString k, x) l2) /\ members (l1 ++ l2) /\
  forall w', json w' -> members (l1 ++ (VString k, w') :: l2).
Proof.
  intros [N H]. rewrite map_app in N. cbn [map fst] in N. pose proof (NoDup_remove_1 _ _ _ N) as N1. pose proof (NoDup_remove_2 _ _ _ N) as N2.
  rewrite in_app_iff in N2. apply Forall_app in H as [H1 H2]. inversion H2 as [ | ? ? H0 H3 ]; subst. cbn [fst snd] in H0. split; [ tauto | ].
  split; [ intros x I; apply N2; left; apply in_map_iff; now exists (VString k, x) | ].
  split; [ intros x I; apply N2; right; apply in_map_iff; now exists (VString k, x) | ]. split.
  - split; [ now rewrite map_app | now apply Forall_app ].
  - intros w' J. split; [ now rewrite map_app | ]. apply Forall_app. split; auto. constructor; auto. cbn [fst snd]. eauto.
Qed.
Lemma split_item_some k l l1 w l2 : split_item k l = Some (l1, w, l2) -> l = l1 ++ (VString k, w) :: l2.
Proof.
  revert l1 w l2. induction l as [ | [k' x] l IH ]; intros l1 w l2 E; [ discriminate | ]. cbn [split_item] in E.
  assert (G : match split_item k l with Some (l1, x0, l2) => Some ((k', x) :: l1, x0, l2) | None => None end = Some (l1, w, l2) ->
    (k', x) :: l = l1 ++ (VString k, w) :: l2).
  { destruct (split_item k l) as [[[a y] b] | ] eqn:S; [ | discriminate ]. intros Q. injection Q as <- <- <-. cbn [app]. f_equal. now apply IH. }
  destruct k'; try (now apply G). destruct (str_eqb t k) eqn:Q; [ | now apply G ]. apply str_eqb_eq in Q. subst. injection E as <- <- <-. reflexivity.
Qed.
Lemma split_item_none k l : split_item k l = None -> forall w, ~ In (VString k, w) l.
Proof.
  induction l as [ | [k' x] l IH ]; intros E w I; [ destruct I | ]. cbn [split_item] in E.
  assert (G : match split_item k l with Some (l1, x0, l2) => Some ((k', x) :: l1, x0, l2) | None => None end = None -> k' <> VString k -> False).
  { destruct (split_item k l) as [[[a y] b] | ] eqn:S; [ discriminate | ]. intros _ Nk. destruct I as [I | I]; [ congruence | ]. now apply (IH eq_refl w). }
  destruct k'; try (apply G; [ exact E | discriminate ]). destruct (str_eqb t k) eqn:Q; [ discriminate | ]. apply G; auto.
  intros H. injection H as ->. rewrite str_eqb_refl in Q. discriminate.
Qed.
Lemma split_item_mid k l1 w l2 : (forall x, ~ In (VString k, x) l1) -> split_item k (l1 ++ (VString k, w) :: l2) = Some (l1, w, l2).
Proof.
  induction l1 as [ | [k' x] l1 IH ]; intros N; cbn [app split_item]; [ now rewrite str_eqb_refl | ].
  rewrite IH by (intros y I; apply (N y); now right). destruct k'; try reflexivity. destruct (str_eqb t k) eqn:Q; [ | reflexivity ].
  apply str_eqb_eq in Q. subst. elim (N x). now left.
Qed.

Lemma digits_index s : Forall digit s -> forall i, 0 <= i -> 
  index_digits s (i mod 2 ^ 64) = Ok (true, fold_left (fun acc c => acc * 10 + (c - 48)) s i mod 2 ^ 64).
Proof.
  induction 1 as [ | c s D _ IH ]; intros i Hi; cbn [index_digits fold_left]; [ reflexivity | ].
  unfold digit in D. unfold negative_char, EncModel.is_digit. replace ((128 <=? c) && (c <? 255)) with false by lia.
  replace ((48 <=? c) && (c <=? 57)) with true by lia.
  replace ((i mod 2 ^ 64 * 10 + c - 48) mod 2 ^ 64) with ((i * 10 + (c - 48)) mod 2 ^ 64).
  - apply IH. lia.
  - replace (i mod 2 ^ 64 * 10 + c - 48) with (i mod 2 ^ 64 * 10 + (c - 48)) by lia. rewrite (Z.add_mod (i * 10)), (Z.add_mod (i mod 2 ^ 64 * 10)) by lia.
    rewrite Z.mul_mod_idemp_l by lia. reflexivity.
Qed.
Lemma index_dec n i : 0 <= i < 2 ^ 64 -> array_index n (dec i) = Ok (i <? Z.of_nat n, i).
Proof.
  intros H. unfold array_index. destruct (dec_cons_digit i ltac:(lia)) as (c & t & E & D). unfold digit in D.
  replace (str_eqb (dec i) [45]) with false.
  2:{ rewrite E. cbn [str_eqb]. now replace (c =? 45) with false by lia. }
  destruct (dec i) as [ | c' t' ] eqn:E'; [ discriminate | ]. injection E as -> ->. replace (c =? 45) with false by lia.
  replace ((c =? 48) && negb match t with [] => true | _ => false end) with false.
  2:{ destruct (dec_canon i ltac:(lia)) as [_ [C | (c1 & t1 & C & N)]]; rewrite E' in C; injection C as -> ->; [ reflexivity | ].
      now replace (c1 =? 48) with false by lia. }
  rewrite <- E'. pose proof (dec_canon i ltac:(lia)) as [Fd _]. pose proof (digits_index (dec i) Fd 0 ltac:(lia)) as P.
  change (0 mod 2 ^ 64) with 0 in P. rewrite P. cbn [obind]. change (fold_left _ (dec i) 0) with (zval_digits (dec i)).
  rewrite zval_dec by lia. rewrite Z.mod_small by lia. reflexivity.
Qed.
Lemma index_end n : array_index n $"-" = Ok (false, Z.of_nat n).
Proof. reflexivity. Qed.

(** ** One operation *)

Lemma addr_member l k ts w : addressable (VObject l) (k :: ts) -> In (VString k, w) l -> addressable w ts.
Proof. intros A I p t q x E L. apply (A (k :: p) t q x); [ now rewrite E | econstructor; eauto ]. Qed.
Lemma addr_token l k ts : addressable (VArray l) (k :: ts) -> index_token k.
Proof. intros A. apply (A [] k ts l); [ reflexivity | constructor ]. Qed.
Lemma addr_element l n ts w : addressable (VArray l) (dec (Z.of_nat n) :: ts) -> nth_error l n = Some w -> addressable w ts.
Proof. intros A I p t q x E L. apply (A (dec (Z.of_nat n) :: p) t q x); [ now rewrite E | econstructor; eauto ]. Qed.
Lemma nth_split_mid {A} (l : list A) n w : nth_error l n = Some w -> l = firstn n l ++ w :: skipn (S n) l /\ length (firstn n l) = n.
Proof.
  intros H. destruct (nth_error_split _ _ H) as (l1 & l2 & -> & L). subst n. split.
  - rewrite firstn_app, Nat.sub_diag, firstn_all. cbn [firstn]. rewrite app_nil_r. f_equal. f_equal.
    replace (l1 ++ w :: l2) with ((l1 ++ [w]) ++ l2) by (now rewrite <- app_assoc).
    replace (S (length l1)) with (length (l1 ++ [w])) by (rewrite app_length; cbn; lia). now rewrite skipn_app, skipn_all, Nat.sub_diag.
  - rewrite firstn_app, Nat.sub_diag, firstn_all. cbn [firstn]. now rewrite app_nil_r.
Qed.
Lemma firstn_mid {A} (l1 : list A) l2 : firstn (length l1) (l1 ++ l2) = l1.
Proof. rewrite firstn_app, Nat.sub_diag, firstn_all. cbn [firstn]. now rewrite app_nil_r. Qed.
Lemma skipn_mid {A} (l1 : list A) l2 : skipn (length l1) (l1 ++ l2) = l2.
Proof. rewrite skipn_app, skipn_all, Nat.sub_diag. reflexivity. Qed.
Lemma skipn_mid1 {A} (l1 : list A) w l2 : skipn (S (length l1)) (l1 ++ w :: l2) = l2.
Proof.
  replace (l1 ++ w :: l2) with ((l1 ++ [w]) ++ l2) by (now rewrite <- app_assoc).
  replace (S (length l1)) with (length (l1 ++ [w])) by (rewrite app_length; cbn; lia). apply skipn_mid.
Qed.
Lemma nth_mid {A} (l1 : list A) w l2 : nth_error (l1 ++ w :: l2) (length l1) = Some w.
Proof. rewrite nth_error_app2 by lia. now rewrite Nat.sub_diag. Qed.
Lemma dec_not_end n : dec (Z.of_nat n) <> $"-".
Proof. intros E. destruct (dec_cons_digit (Z.of_nat n) ltac:(lia)) as (c & t & E' & D). rewrite E in E'. injection E' as <- _. unfold digit in D. lia. Qed.

Section Ops.
Variable F : fops.
Notation key := (to_key F).

Definition sem (act : action) (v : value) (doc : value) (k : str) (doc' : value) : Prop :=
  match act with
  | AInsert => adds v doc k doc'
  | ARemove => removes doc k doc'
  | AReplace => replaces v doc k doc'
  | ARead => doc' = doc /\ exists w, located doc [k] w
  | ACompare => doc' = doc /\ exists w, located doc [k] w /\ key w = key v
  end.
Definition meets (act : action) (v doc : value) (keys : list str) (r : opres) : Prop :=
  exists o, r = Ok o /\
  (forall ret doc', o = Some (ret, doc') -> changed (sem act v) doc keys doc' /\ (act <> AInsert -> located doc keys ret)) /\
  (forall doc', changed (sem act v) doc keys doc' -> exists ret, o = Some (ret, doc')).
Lemma key_eqb a b : str_eqb (key a) (key b) = true <-> key a = key b.
Proof. split; [ apply str_eqb_eq | intros ->; apply str_eqb_refl ]. Qed.
Lemma changed_one R doc k doc' : changed R doc [k] doc' -> (forall d d', ~ changed R d [] d') -> R doc k doc'.
Proof. intros H N. inversion H; subst; auto; exfalso; eapply N; eassumption. Qed.
Lemma changed_nil R d d' : ~ changed R d [] d'.
Proof. inversion 1. Qed.

Lemma object_last act v l k : members l -> meets act v (VObject l) [k] (object_action F act v l k).
Proof.
  intros M. unfold object_action. destruct (split_item k l) as [[[l1 w] l2] | ] eqn:S.
  - apply split_item_some in S. subst l. destruct (members_mid _ _ _ _ M) as (J & N1 & N2 & _). rewrite (json_not_error w J).
    assert (Lo : located (VObject (l1 ++ (VString k, w) :: l2)) [k] w).
    { econstructor; [ apply in_or_app; right; now left | constructor ]. }
    assert (U : forall x, located (VObject (l1 ++ (VString k, w) :: l2)) [k] x -> x = w).
    { intros x H. inversion H as [ | ? ? y ? ? I Hl | ]; subst. inversion Hl; subst. apply in_app_or in I as [I | [I | I]]; [ elim (N1 _ I) | congruence | elim (N2 _ I) ]. }
    assert (Sp : forall a y b, a ++ (VString k, y) :: b = l1 ++ (VString k, w) :: l2 -> a = l1 /\ y = w /\ b = l2).
    { intros a y b E. symmetry in E. assert (Na : forall x, ~ In (VString k, x) a).
      { intros x I. rewrite E in M. now apply (proj1 (proj2 (members_mid _ _ _ _ M)) x). }
      pose proof (split_item_mid k l1 w l2 N1) as S1. rewrite E, (split_item_mid k a y b Na) in S1. split; [ congruence | split; congruence ]. }
    destruct act; [ .. | unfold compare; rewrite ?(json_not_error w J); destruct (str_eqb (key w) (key v)) eqn:Q ]; (eexists; split; [ reflexivity | ]); (split; [ intros ret doc' E | intros doc' H ]).
    + injection E as <- <-. split; [ constructor; apply ad_old | congruence ].
    + apply changed_one in H; [ | apply changed_nil ]. cbn [sem] in H. inversion H as [ l k' Nn | a k' y b | | ]; subst; [ elim (Nn w); apply in_or_app; right; now left | ].
      apply Sp in H0 as (-> & -> & ->). eauto.
    + injection E as <- <-. split; [ constructor; cbn; eauto | auto ].
    + apply changed_one in H; [ | apply changed_nil ]. destruct H as [-> _]. eauto.
    + injection E as <- <-. split; [ constructor; constructor | auto ].
    + apply changed_one in H; [ | apply changed_nil ]. cbn [sem] in H. inversion H as [ a k' y b | ]; subst. apply Sp in H0 as (-> & -> & ->). eauto.
    + injection E as <- <-. split; [ constructor; constructor | auto ].
    + apply changed_one in H; [ | apply changed_nil ]. cbn [sem] in H. inversion H as [ a k' y b | ]; subst. apply Sp in H0 as (-> & -> & ->). eauto.
    + injection E as <- <-. apply key_eqb in Q. split; [ constructor; cbn; eauto | auto ].
    + apply changed_one in H; [ | apply changed_nil ]. destruct H as [-> _]. eauto.
    + discriminate.
    + apply changed_one in H; [ | apply changed_nil ]. destruct H as [-> (x & Hx & Kx)]. apply U in Hx. subst x. apply key_eqb in Kx. congruence.
  - pose proof (split_item_none _ _ S) as N.
    assert (Nm : forall a y b, l <> a ++ (VString k, y) :: b). { intros a y b ->. apply (N y). apply in_or_app. right. now left. }
    destruct act; (eexists; split; [ reflexivity | ]); (split; [ intros ret doc' E | intros doc' H; apply changed_one in H; [ | apply changed_nil ]; cbn [sem] in H ]); try discriminate.
    + injection E as <- <-. split; [ constructor; now constructor | congruence ].
    + inversion H; subst; [ eauto | elim (Nm l1 w l2); auto ].
    + destruct H as [_ (w & H)]. inversion H; subst. elim (N w0); auto.
    + inversion H; subst. elim (Nm l1 w l2); auto.
    + inversion H; subst. elim (Nm l1 w l2); auto.
    + destruct H as [_ (w & H & _)]. inversion H; subst. elim (N w0); auto.
Qed.
Lemma array_last act v l k : Forall json l -> index_token k -> meets act v (VArray l) [k] (array_action F act v l k).
Proof.
  intros J [-> | (n & Hn & ->)]; unfold array_action.
  - rewrite index_end. cbn [obind]. rewrite Z.eqb_refl.
    assert (Nl : forall w, ~ located (VArray l) [$"-"] w). { intros w H. inversion H. now apply dec_not_end with n. }
    destruct act; (eexists; split; [ reflexivity | ]); (split; [ intros ret doc' E | intros doc' H; apply changed_one in H; [ | apply changed_nil ]; cbn [sem] in H ]); try discriminate.
    + injection E as <- <-. split; [ constructor; apply ad_end | congruence ].
    + inversion H; subst; [ exfalso; eapply dec_not_end; eassumption | eauto ].
    + destruct H as [_ (w & H)]. elim (Nl w H).
    + inversion H. exfalso; eapply dec_not_end; eassumption.
    + inversion H. exfalso; eapply dec_not_end; eassumption.
    + destruct H as [_ (w & H & _)]. elim (Nl w H).
  - rewrite index_dec by exact Hn. cbn [obind].
    assert (Dn : forall a : list value, dec (Z.of_nat (length a)) = dec n -> length a = Z.to_nat n). { intros a E. apply dec_inj in E. lia. }
    assert (Ln : forall w, located (VArray l) [dec n] w <-> nth_error l (Z.to_nat n) = Some w).
    { intros w. split.
      - intros H. inversion H as [ | | ? m ? ? ? E Hl ]; subst. inversion Hl; subst. match goal with Q : dec _ = dec n |- _ => apply dec_inj in Q; subst n end. now rewrite Nat2Z.id.
      - intros E. replace n with (Z.of_nat (Z.to_nat n)) by lia. econstructor; [ eassumption | constructor ]. }
    destruct (nth_error l (Z.to_nat n)) as [e | ] eqn:E.
    + assert (Lt : n <? Z.of_nat (length l) = true). { assert (Z.to_nat n < length l)%nat by (apply nth_error_Some; congruence). lia. }
      rewrite Lt. replace (n =? Z.of_nat (length l)) with false by lia.
      assert (Je : json e) by (rewrite Forall_forall in J; apply J; eapply nth_error_In; eassumption). rewrite (json_not_error e Je).
      destruct (nth_split_mid _ _ _ E) as [El Ll].
      assert (Sp : forall a y b, l = a ++ y :: b -> length a = Z.to_nat n -> a = firstn (Z.to_nat n) l /\ y = e /\ b = skipn (S (Z.to_nat n)) l).
      { intros a y b -> La. rewrite <- La. rewrite firstn_mid, skipn_mid1. rewrite <- La, nth_mid in E. split; [ reflexivity | ]. split; congruence. }
      assert (En : dec n = dec (Z.of_nat (length (firstn (Z.to_nat n) l)))) by (f_equal; lia).
      destruct act; [ .. | unfold compare; rewrite ?(json_not_error e Je); destruct (str_eqb (key e) (key v)) eqn:Qk ]; (eexists; split; [ reflexivity | ]); (split; [ intros ret doc' Q | intros doc' H; apply changed_one in H; [ | apply changed_nil ]; cbn [sem] in H ]).
      * injection Q as <- <-. split; [ | congruence ]. constructor. cbn [sem].
        pose proof (ad_insert v (firstn (Z.to_nat n) l) (skipn (Z.to_nat n) l)) as P. rewrite firstn_skipn, Ll, Z2Nat.id in P by lia. exact P.
      * inversion H as [ | | l1 l2 Ea Ed | l0 Ea Ed ]; subst.
        -- apply Dn in Ed. rewrite <- Ed. rewrite firstn_mid, skipn_mid. eauto.
        -- exfalso. symmetry in Ed. revert Ed. replace n with (Z.of_nat (Z.to_nat n)) by lia. apply dec_not_end.
      * injection Q as <- <-. split; [ constructor; cbn; split; auto; exists e; now apply Ln | intros _; now apply Ln ].
      * destruct H as [-> _]. eauto.
      * injection Q as <- <-. split; [ | intros _; now apply Ln ]. constructor. cbn [sem].
        pose proof (rp_element v (firstn (Z.to_nat n) l) e (skipn (S (Z.to_nat n)) l)) as P. rewrite <- El, Ll, Z2Nat.id in P by lia. exact P.
      * inversion H as [ | l1 w l2 Ea Ed ]; subst. apply Dn in Ed. destruct (Sp _ _ _ eq_refl Ed) as (Ha & -> & Hb). rewrite <- Ha, <- Hb. eauto.
      * injection Q as <- <-. split; [ | intros _; now apply Ln ]. constructor. cbn [sem].
        pose proof (rm_element (firstn (Z.to_nat n) l) e (skipn (S (Z.to_nat n)) l)) as P. rewrite <- El, Ll, Z2Nat.id in P by lia. exact P.
      * inversion H as [ | l1 w l2 Ea Ed ]; subst. apply Dn in Ed. destruct (Sp _ _ _ eq_refl Ed) as (Ha & -> & Hb). rewrite <- Ha, <- Hb. eauto.
      * injection Q as <- <-. apply key_eqb in Qk.
        split; [ constructor; cbn; split; auto; exists e; split; auto; now apply Ln | intros _; now apply Ln ].
      * destruct H as [-> _]. eauto.
      * discriminate.
      * destruct H as [-> (x & Hx & Kx)]. apply Ln in Hx. injection Hx as <-. apply key_eqb in Kx. congruence.
    + apply nth_error_None in E. assert (Lt : n <? Z.of_nat (length l) = false) by lia. rewrite Lt.
      assert (Sp : forall a (y : value) b, l = a ++ y :: b -> length a = Z.to_nat n -> False). { intros a y b -> La. rewrite app_length in E. cbn [length] in E. lia. }
      destruct act; [ destruct (Z.eqb_spec n (Z.of_nat (length l))) as [En | Nn] | .. ]; (eexists; split; [ reflexivity | ]);
        (split; [ intros ret doc' Q | intros doc' H; apply changed_one in H; [ | apply changed_nil ]; cbn [sem] in H ]); try discriminate.
      * injection Q as <- <-. split; [ | congruence ]. constructor. cbn [sem]. rewrite En. rewrite <- (app_nil_r l) at 1. constructor.
      * inversion H as [ | | l1 l2 Ea Ed | l0 Ea Ed ]; subst.
        -- apply Dn in Ed. rewrite app_length in *. assert (length l2 = O) by lia. destruct l2; [ | discriminate ]. rewrite app_nil_r. eauto.
        -- exfalso. eapply dec_not_end. symmetry. eassumption.
      * inversion H as [ | | l1 l2 Ea Ed | l0 Ea Ed ]; subst.
        -- apply Dn in Ed. rewrite app_length in *. lia.
        -- exfalso. symmetry in Ed. revert Ed. replace n with (Z.of_nat (Z.to_nat n)) by lia. apply dec_not_end.
      * destruct H as [_ (w & H)]. apply Ln in H. congruence.
      * inversion H as [ | l1 w l2 Ea Ed ]; subst. apply Dn in Ed. elim (Sp _ _ _ eq_refl Ed).
      * inversion H as [ | l1 w l2 Ea Ed ]; subst. apply Dn in Ed. elim (Sp _ _ _ eq_refl Ed).
      * destruct H as [_ (w & H & _)]. apply Ln in H. congruence.
Qed.
Lemma changed_member R l k k2 ks d' : changed R (VObject l) (k :: k2 :: ks) d' ->
  exists l1 w w' l2, l = l1 ++ (VString k, w) :: l2 /\ d' = VObject (l1 ++ (VString k, w') :: l2) /\ changed R w (k2 :: ks) w'.
Proof. inversion 1; subst. eauto 10. Qed.
Lemma changed_element R l k k2 ks d' : changed R (VArray l) (k :: k2 :: ks) d' ->
  exists l1 w w' l2, l = l1 ++ w :: l2 /\ d' = VArray (l1 ++ w' :: l2) /\ k = dec (Z.of_nat (length l1)) /\ changed R w (k2 :: ks) w'.
Proof. inversion 1; subst. eauto 10. Qed.
Lemma changed_container R d k ks d' : changed R d (k :: ks) d' -> (forall d k d', R d k d' -> indexable d = true) -> indexable d = true.
Proof. intros H HR. inversion H; subst; eauto. Qed.
Lemma sem_container act v d k d' : sem act v d k d' -> indexable d = true.
Proof.
  destruct act; cbn [sem]; intros H; [ now inversion H | destruct H as [_ (w & H)]; now inversion H | now inversion H | now inversion H | destruct H as [_ (w & H & _)]; now inversion H ].
Qed.
Lemma failed_meets act v doc keys : (forall doc', ~ changed (sem act v) doc keys doc') -> meets act v doc keys failed.
Proof. intros N. exists None. split; [ reflexivity | ]. split; [ discriminate | intros d H; elim (N d H) ]. Qed.

Lemma run_meets keys : forall act v doc, keys <> [] -> json doc -> addressable doc keys -> meets act v doc keys (run F keys act v doc).
Proof.
  induction keys as [ | k keys IH ]; intros act v doc N J A; [ congruence | ].
  destruct (indexable doc) eqn:Ix.
  2:{ assert (R : run F (k :: keys) act v doc = failed) by (destruct doc, keys; try discriminate; reflexivity). rewrite R. apply failed_meets. intros d' H.
      apply changed_container in H; [ congruence | apply sem_container ]. }
  destruct keys as [ | k2 ks ].
  - destruct doc; try discriminate; cbn [run].
    + apply array_last; [ now apply json_array | eapply addr_token; eassumption ].
    + apply object_last. now apply json_object.
    + inversion J.
  - assert (NN : k2 :: ks <> []) by discriminate.
    destruct doc as [ | | | | | | l | l | l | ]; try discriminate; [ .. | inversion J ];
      change (run F (k :: k2 :: ks)) with (fun act v doc => run F (k :: k2 :: ks) act v doc); cbv beta.
    + (* array *) apply json_array in J. pose proof (addr_token _ _ _ A) as T.
      assert (E : run F (k :: k2 :: ks) act v (VArray l) =
        let! r := array_index (length l) k in let '(found, index) := r in let i := Z.to_nat index in
        match (if found then nth_error l i else None) with
        | Some w => if is_error w then failed else let! r := run F (k2 :: ks) act v w in
             Ok (match r with Some (ret, w') => Some (ret, VArray (firstn i l ++ w' :: skipn (S i) l)) | None => None end)
        | None => failed end) by reflexivity.
      rewrite E. clear E. destruct T as [-> | (n & Hn & ->)].
      * rewrite index_end. cbn [obind]. apply failed_meets. intros d' H. apply changed_element in H as (l1 & w & w' & l2 & _ & _ & Q & _). symmetry in Q. now apply dec_not_end in Q.
      * rewrite index_dec by exact Hn. cbn [obind]. cbv zeta.
        destruct (n <? Z.of_nat (length l)) eqn:Lt.
        2:{ apply failed_meets. intros d' H. apply changed_element in H as (l1 & w & w' & l2 & -> & _ & Q & _). apply dec_inj in Q. rewrite app_length in Lt. cbn [length] in Lt. apply Z.ltb_ge in Lt. lia. }
        destruct (nth_error l (Z.to_nat n)) as [e | ] eqn:E; [ | apply nth_error_None in E; lia ].
        destruct (nth_split_mid _ _ _ E) as [El Ll].
        assert (Je : json e) by (rewrite Forall_forall in J; apply J; eapply nth_error_In; eassumption). rewrite (json_not_error e Je).
        assert (Ae : addressable e (k2 :: ks)). { eapply addr_element; [ | exact E ]. rewrite Z2Nat.id by lia. exact A. }
        destruct (IH act v e NN Je Ae) as (o & Ro & B & C). rewrite Ro. cbn [obind]. eexists; split; [ reflexivity | ]. split.
        -- intros ret doc' Q. destruct o as [[r w'] | ]; [ | discriminate ]. injection Q as -> <-. destruct (B _ _ eq_refl) as [B1 B2]. split.
           ++ pose proof (ch_element (sem act v) (firstn (Z.to_nat n) l) e w' (skipn (S (Z.to_nat n)) l) _ B1) as P. rewrite <- El, Ll, Z2Nat.id in P by lia. exact P.
           ++ intros Na. replace n with (Z.of_nat (Z.to_nat n)) by lia. econstructor; [ exact E | auto ].
        -- intros doc' H. apply changed_element in H as (l1 & w & w' & l2 & Eq & -> & Q & H). apply dec_inj in Q. subst l n. rewrite Nat2Z.id in *. rewrite nth_mid in E. injection E as <-.
           destruct (C _ H) as (ret & ->). rewrite firstn_mid, skipn_mid1. eauto.
    + (* object *) apply json_object in J.
      assert (E : run F (k :: k2 :: ks) act v (VObject l) =
        match split_item k l with
        | Some (l1, w, l2) => if is_error w then failed else let! r := run F (k2 :: ks) act v w in
             Ok (match r with Some (ret, w') => Some (ret, VObject (l1 ++ (VString k, w') :: l2)) | None => None end)
        | None => failed end) by reflexivity.
      rewrite E. clear E. destruct (split_item k l) as [[[l1 w] l2] | ] eqn:S.
      2:{ apply failed_meets. intros d' H. apply changed_member in H as (l1 & w & w' & l2 & -> & _). apply split_item_none with (w := w) in S. apply S. apply in_or_app. right. now left. }
      apply split_item_some in S. subst l. destruct (members_mid _ _ _ _ J) as (Jw & N1 & N2 & _). rewrite (json_not_error w Jw).
      assert (I : In (VString k, w) (l1 ++ (VString k, w) :: l2)) by (apply in_or_app; right; now left).
      destruct (IH act v w NN Jw (addr_member _ _ _ _ A I)) as (o & Ro & B & C). rewrite Ro. cbn [obind]. eexists; split; [ reflexivity | ]. split.
      * intros ret doc' Q. destruct o as [[r w'] | ]; [ | discriminate ]. injection Q as -> <-. destruct (B _ _ eq_refl) as [B1 B2]. split; [ now constructor | ].
        intros Na. econstructor; [ exact I | auto ].
      * intros doc' H. apply changed_member in H as (a & y & w' & b & Eq & -> & H).
        pose proof (split_item_mid k l1 w l2 N1) as S1. rewrite Eq in S1, J. rewrite (split_item_mid k a y b) in S1 by (apply (members_mid _ _ _ _ J)).
        injection S1 as -> -> ->. destruct (C _ H) as (ret & ->). eauto.
Qed.

(** ** Reading, comparing, and what stays JSON *)
Lemma located_member l k ts v : located (VObject l) (k :: ts) v -> exists w, In (VString k, w) l /\ located w ts v.
Proof. inversion 1; subst; eauto. Qed.
Lemma located_element l k ts v : located (VArray l) (k :: ts) v -> exists n w, k = dec (Z.of_nat n) /\ nth_error l n = Some w /\ located w ts v.
Proof. inversion 1; subst; eauto. Qed.
Lemma members_fun l k w w' : members l -> In (VString k, w) l -> In (VString k, w') l -> w = w'.
Proof.
  intros M I I'. apply in_split in I as (l1 & l2 & ->). destruct (members_mid _ _ _ _ M) as (_ & N1 & N2 & _).
  apply in_app_or in I' as [I' | [I' | I']]; [ elim (N1 _ I') | congruence | elim (N2 _ I') ].
Qed.
Lemma members_json l k w : members l -> In (VString k, w) l -> json w.
Proof. intros [_ M] I. rewrite Forall_forall in M. apply M in I. apply I. Qed.
Lemma located_json doc ts v : located doc ts v -> json doc -> json v.
Proof.
  induction 1; intros J; auto; apply IHlocated.
  - apply json_object in J. eapply members_json; eassumption.
  - apply json_array in J. rewrite Forall_forall in J. apply J. eapply nth_error_In; eassumption.
Qed.
Lemma located_fun doc ts v v' : located doc ts v -> json doc -> located doc ts v' -> v = v'.
Proof.
  intros H. revert v'. induction H; intros v' J H'.
  - now inversion H'.
  - apply json_object in J. apply located_member in H' as (w' & I' & H'). rewrite (members_fun _ _ _ _ J I' H) in H'. apply IHlocated; auto. eapply members_json; eassumption.
  - apply json_array in J. apply located_element in H' as (m & w' & E & I' & H'). apply dec_inj in E. apply Nat2Z.inj in E. subst m. rewrite I' in H. injection H as ->. apply IHlocated; auto.
    rewrite Forall_forall in J. apply J. eapply nth_error_In; eassumption.
Qed.
Lemma changed_same (R : value -> str -> value -> Prop) doc ts doc' : (forall d k d', R d k d' -> d' = d) -> changed R doc ts doc' -> doc' = doc.
Proof. intros HR. induction 1; eauto; now subst. Qed.
Lemma located_changed (P : value -> Prop) doc ts w : ts <> [] -> located doc ts w -> P w ->
  changed (fun d k d' => d' = d /\ exists w, located d [k] w /\ P w) doc ts doc.
Proof.
  intros N H. revert N. induction H; intros N Pv; [ congruence | | ].
  - destruct ts as [ | t ts ].
    + inversion H0; subst. apply ch_here. split; [ reflexivity | ]. exists v. split; auto. econstructor; [ eassumption | constructor ].
    + apply in_split in H as (l1 & l2 & ->). constructor. apply IHlocated; [ discriminate | auto ].
  - destruct ts as [ | t ts ].
    + inversion H0; subst. apply ch_here. split; [ reflexivity | ]. exists v. split; auto. econstructor; [ eassumption | constructor ].
    + destruct (nth_error_split _ _ H) as (l1 & l2 & -> & <-). constructor. apply IHlocated; [ discriminate | auto ].
Qed.
Lemma changed_located (P : value -> Prop) doc ts doc' :
  changed (fun d k d' => d' = d /\ exists w, located d [k] w /\ P w) doc ts doc' -> exists w, located doc ts w /\ P w.
Proof.
  induction 1.
  - destruct H as [_ H]. exact H.
  - destruct IHchanged as (x & Hx & Px). exists x. split; auto. econstructor; [ | exact Hx ]. apply in_or_app. right. now left.
  - destruct IHchanged as (x & Hx & Px). exists x. split; auto. econstructor; [ apply nth_mid | exact Hx ].
Qed.
Lemma changed_impl (R R' : value -> str -> value -> Prop) doc ts doc' : (forall d k d', R d k d' -> R' d k d') -> changed R doc ts doc' -> changed R' doc ts doc'.
Proof. intros H. induction 1; constructor; auto. Qed.

Lemma json_changed (R : value -> str -> value -> Prop) doc ts doc' : (forall d k d', R d k d' -> json d -> json d') -> changed R doc ts doc' -> json doc -> json doc'.
Proof.
  intros HR. induction 1; intros J; eauto.
  - apply json_object in J. apply json_object. destruct (members_mid _ _ _ _ J) as (Jw & _ & _ & X). now apply X, IHchanged.
  - apply json_array in J. apply json_array. apply Forall_app in J as [J1 J2]. inversion J2; subst. apply Forall_app. split; auto.
Qed.
Lemma NoDup_snoc {A} (p : list A) a : NoDup (p ++ [a]) <-> NoDup p /\ ~ In a p.
Proof.
  split; [ intros N; pose proof (NoDup_remove_1 _ _ _ N); pose proof (NoDup_remove_2 _ _ _ N); rewrite app_nil_r in *; tauto | ].
  intros [N I]. apply NoDup_Add with a p; auto. pose proof (Add_app a p []) as Ad. rewrite app_nil_r in Ad. exact Ad.
Qed.
Lemma adds_json v d k d' : json v -> adds v d k d' -> json d -> json d'.
Proof.
  intros Jv H J. inversion H; subst.
  - apply json_object in J as [N M]. apply json_object. split.
    + rewrite map_app. cbn [map fst]. apply NoDup_snoc. split; auto. intros I. apply in_map_iff in I as ([k' w] & E & I). cbn [fst] in E. subst k'. now apply (H0 w).
    + apply Forall_app. split; auto. constructor; [ | constructor ]. cbn [fst snd]. eauto.
  - apply json_object in J. apply json_object. destruct (members_mid _ _ _ _ J) as (_ & _ & _ & _ & X). auto.
  - apply json_array in J. apply json_array. apply Forall_app in J as [J1 J2]. apply Forall_app. auto.
  - apply json_array in J. apply json_array. apply Forall_app. auto.
Qed.
Lemma removes_json d k d' : removes d k d' -> json d -> json d'.
Proof.
  intros H J. inversion H; subst.
  - apply json_object in J. apply json_object. destruct (members_mid _ _ _ _ J) as (_ & _ & _ & X & _). auto.
  - apply json_array in J. apply json_array. apply Forall_app in J as [J1 J2]. inversion J2; subst. apply Forall_app. auto.
Qed.
Lemma replaces_json v d k d' : json v -> replaces v d k d' -> json d -> json d'.
Proof.
  intros Jv H J. inversion H; subst.
  - apply json_object in J. apply json_object. destruct (members_mid _ _ _ _ J) as (_ & _ & _ & _ & X). auto.
  - apply json_array in J. apply json_array. apply Forall_app in J as [J1 J2]. inversion J2; subst. apply Forall_app. auto.
Qed.
Definition op_json (op : rfc_op) : Prop := match op with RTest _ v | RAdd _ v | RReplace _ v => json v | _ => True end.
Lemma step_json op doc doc' : step F op doc doc' -> op_json op -> json doc -> json doc'.
Proof.
  induction 1; cbn [op_json] in *; intros Jo J; auto.
  - eapply json_changed; [ | eassumption | assumption ]. intros d k d' A1 A2. exact (adds_json _ _ _ _ Jo A1 A2).
  - eapply json_changed; [ | eassumption | assumption ]. intros d k d' ? ?. eapply removes_json; eassumption.
  - eapply json_changed; [ | eassumption | assumption ]. intros d k d' A1 A2. exact (replaces_json _ _ _ _ Jo A1 A2).
  - apply IHstep; auto. eapply located_json; eauto.
  - apply IHstep2; auto. eapply located_json; eauto.
Qed.

(** ** The object of an operation *)

Definition op_text (op : rfc_op) : patch_op :=
  match op with
  | RTest ts v => OTest (pointer_text ts) v
  | RAdd ts v => OAdd (pointer_text ts) v
  | RRemove ts => ORemove (pointer_text ts)
  | RReplace ts v => OReplace (pointer_text ts) v
  | RCopy ts from => OCopy (pointer_text ts) (pointer_text from)
  | RMove ts from => OMove (pointer_text ts) (pointer_text from)
  end.
Lemma select_has o name path w : json (VObject o) -> path = pointer_text [name] -> has o name w -> select F (VObject o) path = Ok (Some w).
Proof.
  intros J -> H. unfold select, operation. rewrite pointer_of_text. cbn [obind run]. unfold object_action. apply json_object in J.
  apply in_split in H as (l1 & l2 & ->). destruct (members_mid _ _ _ _ J) as (Jw & N1 & _). rewrite split_item_mid by exact N1.
  rewrite (json_not_error w Jw). reflexivity.
Qed.
Lemma describes_op node op : describes node op -> op_of F node = Ok (Some (op_text op)) /\ op_json op.
Proof.
  intros (o & -> & J & H).
  assert (E : forall name path w, path = pointer_text [name] -> has o name w -> select F (VObject o) path = Ok (Some w)).
  { intros name path w P Hw. eapply select_has; eassumption. }
  assert (Jm : forall name w, has o name w -> json w). { intros name w Hw. apply json_object in J. eapply members_json; eassumption. }
  unfold op_of, select_string. destruct op as [ ts v | ts v | ts | ts v | ts from | ts from ]; cbn [op_text op_json];
    [ destruct H as (Ho & Hp & Hv) | destruct H as (Ho & Hp & Hv) | destruct H as (Ho & Hp) | destruct H as (Ho & Hp & Hv) | destruct H as (Ho & Hp & Hv) | destruct H as (Ho & Hp & Hv) ];
    rewrite (E $"op" $"/op" _ eq_refl Ho); cbn [obind]; match goal with |- context [negb ?b] => change b with true end; cbn [negb];
    rewrite (E $"path" $"/path" _ eq_refl Hp); cbn [obind op_path];
    repeat match goal with |- context [str_eqb $?a $?b] => let r := eval vm_compute in (str_eqb $a $b) in change (str_eqb $a $b) with r end; cbn [orb];
    (split; [ | eauto ]); try reflexivity;
    first [ rewrite (E $"value" $"/value" _ eq_refl Hv) | rewrite (E $"from" $"/from" _ eq_refl Hv) ]; cbn [obind]; reflexivity.
Qed.

(** ** Every operation *)

Lemma operation_run ts act v doc : ts <> [] -> operation F (pointer_text ts) act v doc = run F ts act v doc.
Proof. intros N. unfold operation. rewrite pointer_of_text. cbn [obind]. destruct ts; [ congruence | reflexivity ]. Qed.
Lemma operation_root act v doc : operation F (pointer_text []) act v doc =
  match act with ARead => done doc doc | AReplace | AInsert => done v doc | ARemove => failed | ACompare => compare F doc v doc end.
Proof. destruct act; reflexivity. Qed.
Lemma pointer_text_nil ts : pointer_text ts = [] -> ts = [].
Proof. destruct ts; [ reflexivity | discriminate ]. Qed.
Definition decides (r : outcome (option value)) (P : value -> Prop) : Prop :=
  exists o, r = Ok o /\ forall doc', o = Some doc' <-> P doc'.
Lemma run_decides ts act v doc : ts <> [] -> json doc -> addressable doc ts ->
  decides (changed_doc (operation F (pointer_text ts) act v doc)) (changed (sem act v) doc ts).
Proof.
  intros N J A. rewrite operation_run by exact N. destruct (run_meets ts act v doc N J A) as (o & E & B & C). unfold changed_doc. rewrite E. cbn [obind].
  exists (option_map snd o). split; [ reflexivity | ]. intros doc'. split.
  - destruct o as [[ret d] | ]; [ | discriminate ]. intros Q. injection Q as <-. now apply (B _ _ eq_refl).
  - intros H. destruct (C _ H) as (ret & ->). reflexivity.
Qed.
Lemma read_decides from doc : json doc -> addressable doc from ->
  exists o, operation F (pointer_text from) ARead VNull doc = Ok o /\
  (forall v d, o = Some (v, d) -> d = doc /\ located doc from v) /\ (o = None -> forall v, ~ located doc from v).
Proof.
  intros J A. destruct from as [ | t from ].
  - rewrite operation_root. eexists. split; [ reflexivity | ]. split; [ intros v d E; injection E as <- <-; split; [ reflexivity | constructor ] | discriminate ].
  - rewrite operation_run by discriminate. destruct (run_meets (t :: from) ARead VNull doc ltac:(discriminate) J A) as (o & E & B & C). exists o. split; [ exact E | ]. split.
    + intros v d ->. destruct (B _ _ eq_refl) as [B1 B2]. split; [ | apply B2; discriminate ]. eapply changed_same; [ | exact B1 ]. now intros x k x' [-> _].
    + intros -> v L. destruct (C doc) as (ret & Q); [ | discriminate ]. eapply changed_impl; [ | apply (located_changed (fun _ => True) doc (t :: from) v); [ discriminate | exact L | exact I ] ].
      intros d k d' [-> (w & Hw & _)]. cbn [sem]. eauto.
Qed.
Lemma test_decides NI NF ts v doc : num_domain F NI NF -> json doc -> wfv F NI NF doc -> wfv F NI NF v -> addressable doc ts ->
  decides (apply F (OTest (pointer_text ts) v) doc) (step F (RTest ts v) doc).
Proof.
  intros D J W Wv A. cbn [apply].
  assert (Wl : forall w, located doc ts w -> wfv F NI NF w).
  { clear -W. intros w L. induction L; auto; apply IHL.
    - inversion W; subst. apply in_map_iff in H as ([k' x] & E & I). cbn [fst snd] in E. injection E as -> ->. rewrite Forall_forall in *. apply (H2 _ I).
    - inversion W; subst. rewrite Forall_forall in *. apply H1. eapply nth_error_In; eassumption. }
  assert (St : forall doc', step F (RTest ts v) doc doc' <-> doc' = doc /\ exists w, located doc ts w /\ key w = key v).
  { intros doc'. split.
    - inversion 1; subst. split; [ reflexivity | ]. exists w. split; auto. apply (key_iff F NI NF D); auto.
    - intros [-> (w & L & K)]. apply (key_iff F NI NF D) in K; auto. econstructor; eassumption. }
  destruct ts as [ | t ts ].
  - rewrite operation_root. unfold compare, changed_doc. rewrite (json_not_error doc J). destruct (str_eqb (key doc) (key v)) eqn:Q; (eexists; split; [ reflexivity | ]); intros doc'; rewrite St.
    + apply key_eqb in Q. split; [ intros E; injection E as <-; split; auto; exists doc; split; auto; constructor | intros [-> _]; reflexivity ].
    + split; [ discriminate | ]. intros [_ (w & L & K)]. inversion L; subst. apply key_eqb in K. congruence.
  - destruct (run_decides (t :: ts) ACompare v doc ltac:(discriminate) J A) as (o & E & H). exists o. split; [ exact E | ]. intros doc'. rewrite H, St. split.
    + intros C. split; [ eapply changed_same; [ | exact C ]; now intros x k x' [-> _] | ]. apply (changed_located (fun w => key w = key v)) with (doc' := doc'). exact C.
    + intros [-> (w & L & K)]. apply (located_changed (fun w => key w = key v) doc (t :: ts) w); auto; discriminate.
Qed.
Lemma add_decides ts v doc : ts <> [] -> json doc -> addressable doc ts ->
  decides (changed_doc (operation F (pointer_text ts) AInsert v doc)) (step F (RAdd ts v) doc).
Proof.
  intros N J A. destruct (run_decides ts AInsert v doc N J A) as (o & E & H). exists o. split; [ exact E | ]. intros doc'. rewrite H. cbn [sem]. split.
  - now constructor.
  - inversion 1; subst; [ congruence | assumption ].
Qed.
Lemma decides_ext r (P Q : value -> Prop) : (forall d, P d <-> Q d) -> decides r P -> decides r Q.
Proof. intros H (o & E & D). exists o. split; [ exact E | ]. intros d. now rewrite D. Qed.
Lemma pointer_eqb ts from : str_eqb (pointer_text ts) (pointer_text from) = true -> ts = from.
Proof. intros E. apply str_eqb_eq in E. now apply pointer_text_inj. Qed.
Lemma apply_decides op doc : json doc -> regular_op doc op -> ~ is_test op -> decides (apply F (op_text op) doc) (step F op doc).
Proof.
  intros J R T. destruct op as [ ts v | ts v | ts | ts v | ts from | ts from ]; cbn [op_text apply regular_op] in *.
  - elim T. red. eauto.
  - destruct (pointer_text ts) as [ | c p ] eqn:Ep.
    + apply pointer_text_nil in Ep. subst ts. eexists; split; [ reflexivity | ]. intros doc'. split; [ intros E; injection E as <-; constructor | ].
      inversion 1; subst; [ reflexivity | exfalso; eapply changed_nil; eassumption ].
    + rewrite <- Ep. apply add_decides; auto. intros ->. discriminate.
  - destruct ts as [ | t ts ].
    + rewrite operation_root. eexists; split; [ reflexivity | ]. intros doc'. split; [ discriminate | ]. inversion 1; subst. exfalso; eapply changed_nil; eassumption.
    + eapply decides_ext; [ | apply run_decides; [ discriminate | exact J | exact R ] ]. intros d. split; [ now constructor | now inversion 1 ].
  - destruct (pointer_text ts) as [ | c p ] eqn:Ep.
    + apply pointer_text_nil in Ep. subst ts. eexists; split; [ reflexivity | ]. intros doc'. split; [ intros E; injection E as <-; constructor | ].
      inversion 1; subst; [ reflexivity | exfalso; eapply changed_nil; eassumption ].
    + rewrite <- Ep. assert (N : ts <> []) by (intros ->; discriminate).
      eapply decides_ext; [ | apply run_decides; [ exact N | exact J | exact R ] ]. intros d. split; [ now constructor | inversion 1; subst; [ congruence | assumption ] ].
  - destruct R as (Af & At & N & Nf). destruct (str_eqb (pointer_text ts) (pointer_text from)) eqn:Q; [ now apply pointer_eqb in Q | ].
    destruct (read_decides from doc J Af) as (o & E & B & C). rewrite E. cbn [obind]. destruct o as [[v d] | ].
    + destruct (B _ _ eq_refl) as [-> L]. eapply decides_ext; [ | apply add_decides; eassumption ]. intros d. split; [ intros S; econstructor; eassumption | ].
      inversion 1; subst. match goal with H : located doc from ?x |- _ => tryif constr_eq x v then fail else rewrite (located_fun _ _ _ _ L J H) end. assumption.
    + eexists; split; [ reflexivity | ]. intros doc'. split; [ discriminate | ]. inversion 1; subst. elim (C eq_refl v). assumption.
  - destruct R as (Af & N & Nf & Np & A1). destruct (str_eqb (pointer_text ts) (pointer_text from)) eqn:Q; [ now apply pointer_eqb in Q | ].
    destruct from as [ | t from ].
    { rewrite operation_root. eexists; split; [ reflexivity | ]. intros doc'. split; [ discriminate | ]. inversion 1; subst; [ | congruence ].
      match goal with H : step F (RRemove []) _ _ |- _ => inversion H; subst end. exfalso; eapply changed_nil; eassumption. }
    rewrite operation_run by discriminate. destruct (run_meets (t :: from) ARemove VNull doc ltac:(discriminate) J Af) as (o & E & B & C). rewrite E. cbn [obind].
    destruct o as [[v d] | ].
    + destruct (B _ _ eq_refl) as [B1 B2]. specialize (B2 ltac:(discriminate)). cbn [sem] in B1.
      assert (Jd : json d). { eapply json_changed; [ | exact B1 | exact J ]. intros x k x' ? ?. eapply removes_json; eassumption. }
      eapply decides_ext; [ | apply add_decides; [ exact N | exact Jd | now apply A1 ] ]. intros d'. split.
      * intros S. econstructor; try eassumption. now constructor.
      * inversion 1; subst; [ | congruence ]. match goal with H : step F (RRemove _) _ _ |- _ => inversion H; subst end.
        destruct (C doc1) as (ret & Q1); [ assumption | ]. injection Q1 as -> ->. match goal with H : located doc _ v0 |- _ => now rewrite (located_fun _ _ _ _ B2 J H) end.
    + eexists; split; [ reflexivity | ]. intros doc'. split; [ discriminate | ]. inversion 1; subst; [ | congruence ].
      match goal with H : step F (RRemove _) _ _ |- _ => inversion H; subst end. destruct (C doc1) as (ret & Q1); [ assumption | discriminate ].
Qed.

(** ** The list of operations *)

Lemma read_rest doc nodes ops : Forall2 describes nodes ops -> Forall (fun op => ~ is_test op) ops -> read_ops F doc nodes = Ok (Some (map op_text ops)).
Proof.
  induction 1 as [ | node op nodes ops D _ IH ]; intros N; [ reflexivity | ]. inversion N as [ | ? ? N1 N2 ]; subst. apply describes_op in D as [D _]. cbn [read_ops map].
  rewrite D. cbn [obind]. rewrite (IH N2). cbn [obind option_map]. destruct op; cbn [op_text]; try reflexivity. elim N1. red. eauto.
Qed.
Lemma apply_rest nodes ops : Forall2 describes nodes ops -> Forall (fun op => ~ is_test op) ops -> forall doc, json doc -> regular F doc ops ->
  decides (apply_all F doc (map op_text ops)) (steps F ops doc).
Proof.
  induction 1 as [ | node op nodes ops D _ IH ]; intros N doc J R.
  - eexists; split; [ reflexivity | ]. intros d. split; [ intros E; injection E as <-; constructor | now inversion 1 ].
  - inversion N as [ | ? ? N1 N2 ]; subst. destruct R as [R1 R2]. apply describes_op in D as [_ Jo]. cbn [apply_all map].
    destruct (apply_decides op doc J R1 N1) as (o & E & H). rewrite E. cbn [obind]. destruct o as [d1 | ].
    + assert (S1 : step F op doc d1) by (now apply H). destruct (IH N2 d1 (step_json _ _ _ S1 Jo J) (R2 _ S1)) as (o & E' & H'). exists o. split; [ exact E' | ]. intros d'. rewrite H'. split.
      * intros S2. econstructor; eassumption.
      * inversion 1; subst. match goal with S2 : step F op doc ?d |- _ => apply H in S2; injection S2 as -> end. assumption.
    + eexists; split; [ reflexivity | ]. intros d'. split; [ discriminate | ]. inversion 1; subst. match goal with S2 : step F op doc ?d |- _ => apply H in S2; discriminate end.
Qed.
Lemma patch_decides NI NF doc nodes tests others : num_domain F NI NF -> json doc -> wfv F NI NF doc ->
  Forall2 describes nodes (tests ++ others) -> Forall is_test tests -> Forall (fun op => ~ is_test op) others ->
  (forall ts v, In (RTest ts v) tests -> wfv F NI NF v) -> regular F doc (tests ++ others) ->
  exists o, json_patch F doc (VArray nodes) = Ok (match o with Some d => RVal d | None => RErr WellFormedError end) /\
  forall d, o = Some d <-> steps F (tests ++ others) doc d.
Proof.
  intros D J W Ds T N Wt R. unfold json_patch.
  assert (G : exists o, (read_ops F doc nodes = Ok (Some (map op_text others)) /\ (decides (apply_all F doc (map op_text others)) (steps F (tests ++ others) doc)) /\ o = true) \/
    (read_ops F doc nodes = Ok None /\ (forall d, ~ steps F (tests ++ others) doc d) /\ o = false)).
  { revert nodes Ds Wt R. induction T as [ | op tests (ts & v & ->) _ IH ]; intros nodes Ds Wt R.
    - exists true. left. split; [ eapply read_rest; eassumption | ]. split; [ eapply apply_rest; eassumption | reflexivity ].
    - cbn [app] in *. inversion Ds as [ | node ? nodes' ? D1 D2 ]; subst. apply describes_op in D1 as [D1 _]. cbn [read_ops]. rewrite D1. cbn [obind op_text].
      destruct R as [R1 R2]. destruct (test_decides NI NF ts v doc D J W (Wt _ _ (or_introl eq_refl)) R1) as (o & E & H). rewrite E. cbn [obind]. destruct o as [d1 | ].
      + assert (S1 : step F (RTest ts v) doc d1) by (now apply H). assert (d1 = doc) by (now inversion S1). subst d1.
        destruct (IH _ D2 (fun a b I => Wt a b (or_intror I)) (R2 _ S1)) as (o & [(E1 & (o' & E2 & H2) & Eo) | (E1 & H2 & Eo)]).
        * exists o. left. split; [ exact E1 | ]. split; [ | exact Eo ]. exists o'. split; [ exact E2 | ]. intros d. rewrite H2. split; [ intros S2; econstructor; eassumption | ].
          inversion 1; subst. match goal with S2 : step F (RTest ts v) doc ?d |- _ => apply H in S2; injection S2 as -> end. assumption.
        * exists o. right. split; [ exact E1 | ]. split; [ | exact Eo ]. intros d S2. inversion S2; subst. apply (H2 d).
          match goal with S3 : step F (RTest ts v) doc ?d |- _ => apply H in S3; injection S3 as -> end. assumption.
      + exists false. right. split; [ reflexivity | ]. split; [ | reflexivity ]. intros d S2. inversion S2; subst. match goal with S3 : step F (RTest ts v) doc ?d |- _ => apply H in S3; discriminate end. }
  destruct G as (_ & [(-> & (o & E & H) & _) | (-> & H & _)]); cbn [obind].
  - rewrite E. cbn [obind]. exists o. split; [ reflexivity | exact H ].
  - exists None. split; [ reflexivity | ]. intros d. split; [ discriminate | intros S2; elim (H d S2) ].
Qed.
End Ops.

(** ** The tree of paths *)

Inductive tkeyed : ptree -> Prop :=
| tk_node b cs : keyed cs -> (forall k c, sm_find k cs = Some c -> tkeyed c) -> tkeyed (PNode b cs).
Fixpoint node (t : ptree) (ts : list str) : option ptree :=
  match ts with
  | [] => Some t
  | k :: ts' => match sm_find k (p_children t) with Some c => node c ts' | None => None end
  end.
Definition reach (t : ptree) (ts : list str) : Prop := exists c, node t ts = Some c.
Definition marked (t : ptree) (ts : list str) : Prop := exists c, node t ts = Some c /\ p_terminal c = true.
Lemma empty_keyed : tkeyed p_empty.
Proof. constructor; [ constructor | discriminate ]. Qed.
Lemma insert_keyed p : forall t, tkeyed t -> tkeyed (p_insert p t).
Proof.
  induction p as [ | k p IH ]; intros t [b cs K C]; cbn [p_insert p_children p_terminal]; [ now constructor | ].
  constructor; [ now apply sm_set_keyed | ]. intros k' c E. rewrite sm_find_set in E by exact K. destruct (str_eqb k' k); [ | now apply (C k') ].
  injection E as <-. apply IH. destruct (sm_find k cs) eqn:E; [ now apply (C k) | apply empty_keyed ].
Qed.
Lemma node_empty ts : ts <> [] -> node p_empty ts = None.
Proof. destruct ts; [ congruence | reflexivity ]. Qed.
Lemma insert_reach p : forall t ts, tkeyed t -> (reach (p_insert p t) ts <-> reach t ts \/ prefix ts p).
Proof.
  induction p as [ | k p IH ]; intros t ts [b cs K C].
  - cbn [p_insert p_children]. destruct ts as [ | k' ts ].
    + split; [ intros _; right; exists []; reflexivity | intros _; eexists; reflexivity ].
    + unfold reach. cbn [node p_children]. split; [ now left | ]. intros [H | (r & H)]; [ exact H | discriminate ].
  - cbn [p_insert p_children p_terminal]. destruct ts as [ | k' ts ].
    + split; [ intros _; left; eexists; reflexivity | intros _; eexists; reflexivity ].
    + unfold reach. cbn [node p_children]. rewrite sm_find_set by exact K. destruct (str_eqb k' k) eqn:Q.
      * apply str_eqb_eq in Q. subst k'. set (ch := match sm_find k cs with Some c => c | None => p_empty end).
        assert (Kc : tkeyed ch) by (subst ch; destruct (sm_find k cs) eqn:E; [ now apply (C k) | apply empty_keyed ]).
        specialize (IH ch ts Kc). unfold reach in IH. rewrite IH. subst ch. split.
        -- intros [H | (r & ->)]; [ | right; now exists r ]. destruct (sm_find k cs); [ now left | ]. right. destruct ts; [ now exists p | ]. rewrite node_empty in H by discriminate. now destruct H.
        -- intros [H | (r & H)]; [ | right; exists r; cbn [app] in H; congruence ]. left. destruct (sm_find k cs); [ exact H | now destruct H ].
      * split; [ now left | ]. intros [H | (r & H)]; [ exact H | ]. cbn [app] in H. injection H as -> _. rewrite str_eqb_refl in Q. discriminate.
Qed.
Lemma insert_marked p : forall t ts, tkeyed t -> (marked (p_insert p t) ts <-> marked t ts \/ ts = p).
Proof.
  induction p as [ | k p IH ]; intros t ts [b cs K C].
  - cbn [p_insert p_children]. unfold marked. destruct ts as [ | k' ts ].
    + split; [ now right | intros _; eexists; split; reflexivity ].
    + cbn [node p_children]. split; [ now left | ]. intros [H | H]; [ exact H | discriminate ].
  - cbn [p_insert p_children p_terminal]. unfold marked. destruct ts as [ | k' ts ].
    + cbn [node]. split; [ intros (c & E & T); injection E as <-; left; now eexists | ]. intros [(c & E & T) | H]; [ injection E as <-; now eexists | discriminate ].
    + cbn [node p_children]. rewrite sm_find_set by exact K. destruct (str_eqb k' k) eqn:Q.
      * apply str_eqb_eq in Q. subst k'. set (ch := match sm_find k cs with Some c => c | None => p_empty end).
        assert (Kc : tkeyed ch) by (subst ch; destruct (sm_find k cs) eqn:E; [ now apply (C k) | apply empty_keyed ]).
        specialize (IH ch ts Kc). unfold marked in IH. rewrite IH. subst ch. split.
        -- intros [H | ->]; [ | now right ]. left. destruct (sm_find k cs); [ exact H | ]. destruct ts; [ destruct H as (c & E & T); injection E as <-; discriminate | ].
           rewrite node_empty in H by discriminate. now destruct H as (c & E & _).
        -- intros [H | H]; [ | right; congruence ]. left. destruct (sm_find k cs); [ exact H | now destruct H ].
      * split; [ now left | ]. intros [H | H]; [ exact H | ]. injection H as -> _. rewrite str_eqb_refl in Q. discriminate.
Qed.
Lemma insert_all F vs : forall ps t t', Forall2 (fun v p => path_of F v = Some p) vs ps -> tkeyed t -> insert_paths F vs t = Some t' ->
  tkeyed t' /\ (forall ts, reach t' ts <-> reach t ts \/ exists p, In p ps /\ prefix ts p) /\ (forall ts, marked t' ts <-> marked t ts \/ In ts ps).
Proof.
  induction vs as [ | v vs IH ]; intros ps t t' H K E; inversion H as [ | ? p ? ps' H1 H2 ]; subst; cbn [insert_paths] in E.
  - injection E as <-. split; [ exact K | ]. split; intros ts; split; auto; [ intros [R | (p & [] & _)] | intros [M | []] ]; assumption.
  - rewrite H1 in E. destruct (IH ps' _ _ H2 (insert_keyed p _ K) E) as (K' & R & M). split; [ exact K' | ]. split; intros ts.
    + rewrite R, insert_reach by exact K. split; [ intros [[A | A] | (q & A & B)] | intros [A | (q & [-> | A] & B)] ]; auto.
      * right. exists p. split; [ now left | assumption ].
      * right. exists q. split; [ now right | assumption ].
      * right. now exists q.
    + rewrite M, insert_marked by exact K. cbn [In]. split; [ intros [[A | A] | A] | intros [A | [A | A]] ]; auto.
Qed.
Lemma insert_defined F vs : forall ps t, Forall2 (fun v p => path_of F v = Some p) vs ps -> exists t', insert_paths F vs t = Some t'.
Proof. induction vs as [ | v vs IH ]; intros ps t H; inversion H as [ | ? p ? ps' H1 H2 ]; subst; cbn [insert_paths]; [ eauto | ]. rewrite H1. eauto. Qed.

(** ** Selection *)

Definition strings (l : list (value * value)) : Prop :=
  NoDup (map fst l) /\ Forall (fun kv => (exists k, fst kv = VString k) /\ string_keyed (snd kv)) l.
Lemma keyed_strings l : string_keyed (VObject l) <-> strings l.
Proof.
  split.
  - intros H. inversion H; subst; [ now elim (H0 l) | ]. split.
    + rewrite map_map. cbn [fst]. rewrite <- (map_map fst VString). apply FinFun.Injective_map_NoDup; auto. intros x y E. congruence.
    + rewrite Forall_map. eapply Forall_impl; [ | eassumption ]. cbn [fst snd]. eauto.
  - intros [N H]. assert (E : exists l', l = map (fun kv : str * value => (VString (fst kv), snd kv)) l').
    { clear N. induction H as [ | [k w] l ((s & E) & _) _ (l' & ->) ]; [ now exists [] | ]. cbn [fst] in E. subst k. now exists ((s, w) :: l'). }
    destruct E as [l' ->]. apply sk_object.
    + rewrite map_map in N. cbn [fst] in N. rewrite <- (map_map fst VString) in N. now apply NoDup_map_inv in N.
    + rewrite Forall_map in H. eapply Forall_impl; [ | exact H ]. cbn [fst snd]. tauto.
Qed.
Lemma strings_fun l k w w' : strings l -> In (k, w) l -> In (k, w') l -> w = w'.
Proof. intros [N _] I I'. eapply nodup_fst_inj; eassumption. Qed.
Lemma strings_in l k w : strings l -> In (k, w) l -> string_keyed w.
Proof. intros [_ H] I. rewrite Forall_forall in H. apply H in I. apply I. Qed.
Lemma leads_cons v k ts x : leads v (k :: ts) x <-> exists l w, v = VObject l /\ In (VString k, w) l /\ leads w ts x.
Proof. split; [ inversion 1; subst; eauto 6 | intros (l & w & -> & I & H); econstructor; eassumption ]. Qed.
Lemma leads_nil v x : leads v [] x <-> x = v.
Proof. split; [ now inversion 1 | intros ->; constructor ]. Qed.
Lemma leads_fun v ts x : leads v ts x -> string_keyed v -> forall y, leads v ts y -> x = y.
Proof.
  induction 1; intros K y Hy.
  - apply leads_nil in Hy. now subst.
  - apply leads_cons in Hy as (l' & w' & E & I & Hy). injection E as <-. apply keyed_strings in K. rewrite (strings_fun _ _ _ _ K I H) in Hy. apply IHleads; auto. eapply strings_in; eassumption.
Qed.

Section Prune.
Variables (F : fops) (keep : bool).
Notation prune := (prune F keep).
Definition item (t : ptree) (kv : value * value) : list (value * value) :=
  let '(k, w) := kv in
  match k with
  | VString s =>
      match sm_find s (p_children t) with
      | None => if_not_selected keep (k, w)
      | Some c => if p_terminal c then if_selected keep (k, w) else if indexable w then [(k, prune c w)] else if_selected keep (k, w)
      end
  | _ => []
  end.
Lemma prune_object t l : prune t (VObject l) = VObject (flat_map (item t) l).
Proof. reflexivity. Qed.
Definition becomes (t : ptree) (k : str) (w x : value) : Prop :=
  match sm_find k (p_children t) with
  | None => keep = false /\ x = w
  | Some c => if p_terminal c then keep = true /\ x = w else if indexable w then x = prune c w else keep = true /\ x = w
  end.
Lemma item_in t l k x : In (VString k, x) (flat_map (item t) l) <-> exists w, In (VString k, w) l /\ becomes t k w x.
Proof.
  rewrite in_flat_map. split.
  - intros ([k' w] & I & H). cbn [item] in H. destruct k'; try (now destruct H).
    assert (E : t0 = k /\ becomes t k w x).
    { unfold becomes, if_selected, if_not_selected in *. destruct (sm_find t0 (p_children t)) as [c | ] eqn:Ec.
      - destruct (p_terminal c) eqn:Et; [ | destruct (indexable w) eqn:Ei ].
        + destruct keep; [ | now destruct H ]. destruct H as [H | []]. injection H as -> ->. rewrite Ec, Et. auto.
        + destruct H as [H | []]. injection H as -> <-. rewrite Ec, Et, ?Ei. auto.
        + destruct keep; [ | now destruct H ]. destruct H as [H | []]. injection H as -> ->. rewrite Ec, Et, ?Ei. auto.
      - destruct keep; [ now destruct H | ]. destruct H as [H | []]. injection H as -> ->. rewrite Ec. auto. }
    destruct E as [-> B]. eauto.
  - intros (w & I & B). exists (VString k, w). split; [ exact I | ]. cbn [item]. unfold becomes, if_selected, if_not_selected in *. destruct (sm_find k (p_children t)) as [c | ].
    + destruct (p_terminal c); [ | destruct (indexable w) ]; [ destruct B as [-> ->] | subst x | destruct B as [-> ->] ]; now left.
    + destruct B as [-> ->]. now left.
Qed.
Lemma item_keys t l : strings l -> NoDup (map fst (flat_map (item t) l)) /\ Forall (fun kv => exists k, fst kv = VString k) (flat_map (item t) l).
Proof.
  intros [N H]. split.
  - induction l as [ | [k w] l IH ]; [ constructor | ]. cbn [flat_map]. rewrite map_app. cbn [map fst] in N. inversion N as [ | ? ? N1 N2 ]; subst. inversion H as [ | ? ? H1 H2 ]; subst.
    specialize (IH N2 H2). assert (E : item t (k, w) = [] \/ exists x, item t (k, w) = [(k, x)]).
    { cbn [item]. unfold if_selected, if_not_selected. destruct k; auto. destruct (sm_find t0 (p_children t)); [ destruct (p_terminal p); [ | destruct (indexable w) ] | ]; destruct keep; eauto. }
    destruct E as [-> | (x & ->)]; [ exact IH | ]. cbn [map fst app]. constructor; [ | exact IH ]. intros I. apply N1. clear -I. apply in_map_iff in I as ([k' y] & E & I). cbn [fst] in E. subst k'.
    apply in_flat_map in I as ([k' w'] & I & J). apply in_map_iff. exists (k', w'). split; [ | exact I ]. cbn [fst item] in *.
    unfold if_selected, if_not_selected in J. destruct k'; try (now destruct J). destruct (sm_find t0 (p_children t)); [ destruct (p_terminal p); [ | destruct (indexable w') ] | ]; destruct keep; cbn [In] in J; intuition congruence.
  - clear N. apply Forall_forall. intros [k x] I. apply in_flat_map in I as ([k' w'] & I & J). cbn [fst item] in *. destruct k'; try (now destruct J). exists t0.
    unfold if_selected, if_not_selected in J. destruct (sm_find t0 (p_children t)); [ destruct (p_terminal p); [ | destruct (indexable w') ] | ]; destruct keep; cbn [In] in J; intuition congruence.
Qed.

Definition wt (t : ptree) (doc : value) : Prop :=
  forall p v c, p <> [] -> leads doc p v -> node t p = Some c -> (exists l, v = VArray l) \/ (exists l, v = VSet l) -> p_terminal c = true.
Definition pcovered (t : ptree) (ts : list str) : Prop := exists p, p <> [] /\ prefix p ts /\ marked t p.
Lemma wt_member t l k w c : wt t (VObject l) -> In (VString k, w) l -> sm_find k (p_children t) = Some c -> wt c w.
Proof. intros W I E p v c' N L Nd A. apply (W (k :: p) v c'); auto; [ discriminate | econstructor; eassumption | cbn [node]; now rewrite E ]. Qed.
Lemma wt_object t l k w c : wt t (VObject l) -> In (VString k, w) l -> sm_find k (p_children t) = Some c -> p_terminal c = false -> indexable w = true -> exists m, w = VObject m.
Proof.
  intros W I E T Ix. assert (C : (exists l, w = VArray l) \/ (exists l, w = VSet l) -> p_terminal c = true).
  { intros A. apply (W [k] w c); auto; [ discriminate | econstructor; [ eassumption | constructor ] | cbn [node]; now rewrite E ]. }
  destruct w; try discriminate; eauto; rewrite C in T by eauto; discriminate.
Qed.
Lemma pcovered_cons t k ts c : sm_find k (p_children t) = Some c -> (pcovered t (k :: ts) <-> p_terminal c = true \/ pcovered c ts).
Proof.
  intros E. split.
  - intros ([ | k' p ] & N & (r & P) & (c' & Nd & T)); [ congruence | ]. cbn [app] in P. injection P as <- ->. cbn [node] in Nd. rewrite E in Nd. destruct p as [ | k2 p ].
    + injection Nd as ->. now left.
    + right. exists (k2 :: p). split; [ discriminate | ]. split; [ now exists r | ]. now exists c'.
  - intros [T | (p & N & (r & ->) & (c' & Nd & T))].
    + exists [k]. split; [ discriminate | ]. split; [ now exists ts | ]. exists c. split; [ cbn [node]; now rewrite E | exact T ].
    + exists (k :: p). split; [ discriminate | ]. split; [ now exists r | ]. exists c'. split; [ cbn [node]; now rewrite E | exact T ].
Qed.
Lemma pcovered_none t k ts : sm_find k (p_children t) = None -> ~ pcovered t (k :: ts).
Proof. intros E ([ | k' p ] & N & (r & P) & (c' & Nd & T)); [ congruence | ]. cbn [app] in P. injection P as <- ->. cbn [node] in Nd. now rewrite E in Nd. Qed.
Lemma pcovered_nil t : ~ pcovered t [].
Proof. intros ([ | k p ] & N & (r & P) & _); [ congruence | discriminate ]. Qed.
Lemma reach_cons t k ts c : sm_find k (p_children t) = Some c -> (reach t (k :: ts) <-> reach c ts).
Proof. intros E. unfold reach. cbn [node]. now rewrite E. Qed.
Lemma reach_none t k ts : sm_find k (p_children t) = None -> ~ reach t (k :: ts).
Proof. intros E (c & H). cbn [node] in H. now rewrite E in H. Qed.
Lemma not_leaf v : indexable v = false -> leaf v.
Proof. intros H l ->. discriminate. Qed.
End Prune.

Lemma leads_scalar v ts x : indexable v = false -> leads v ts x -> ts = [] /\ x = v.
Proof. intros H L. inversion L; subst; auto. discriminate. Qed.

Lemma filter_leads F ts : forall t l, ts <> [] -> string_keyed (VObject l) -> wt t (VObject l) ->
  ((exists x, leads (prune F true t (VObject l)) ts x) <-> (exists v, leads (VObject l) ts v) /\ (pcovered t ts \/ reach t ts)) /\
  (forall v x, leads (VObject l) ts v -> leads (prune F true t (VObject l)) ts x -> (leaf v \/ pcovered t ts -> x = v) /\ (leaf x -> leaf v)).
Proof.
  induction ts as [ | k ts IH ]; intros t l N K W; [ congruence | ]. clear N. rewrite prune_object. apply keyed_strings in K.
  assert (P : forall w, In (VString k, w) l -> forall x, In (VString k, x) (flat_map (item F true t) l) <-> becomes F true t k w x).
  { intros w I x. rewrite item_in. split; [ intros (w' & I' & B); now rewrite (strings_fun _ _ _ _ K I I') | intros B; eauto ]. }
  split.
  - split.
    + intros (x & L). apply leads_cons in L as (l' & y & E & I & L). injection E as <-. apply item_in in I as (w & I & B). unfold becomes in B.
      destruct (sm_find k (p_children t)) as [c | ] eqn:Ec; [ | now destruct B ]. rewrite (pcovered_cons _ _ _ _ Ec), (reach_cons _ _ _ _ Ec).
      destruct (p_terminal c) eqn:Et; [ destruct B as [_ ->]; split; [ exists x; econstructor; eassumption | auto ] | ]. destruct (indexable w) eqn:Ei.
      * subst y. destruct (wt_object _ _ _ _ _ W I Ec Et Ei) as (m & ->). destruct ts as [ | k2 ts ].
        -- split; [ exists (VObject m); econstructor; [ eassumption | constructor ] | ]. right. now exists c.
        -- destruct (IH c m ltac:(discriminate) (strings_in _ _ _ K I) (wt_member _ _ _ _ _ W I Ec)) as [D _]. destruct (proj1 D (ex_intro _ x L)) as [(v & Lv) Q].
           split; [ exists v; econstructor; eassumption | ]. destruct Q as [Q | Q]; [ left; now right | now right ].
      * destruct B as [_ ->]. destruct (leads_scalar _ _ _ Ei L) as [-> ->]. split; [ exists w; econstructor; eassumption | ]. right. now exists c.
    + intros [(v & L) Q]. apply leads_cons in L as (l' & w & E & I & L). injection E as <-. destruct (sm_find k (p_children t)) as [c | ] eqn:Ec.
      2:{ destruct Q as [Q | Q]; [ elim (pcovered_none _ _ _ Ec Q) | elim (reach_none _ _ _ Ec Q) ]. }
      rewrite (pcovered_cons _ _ _ _ Ec), (reach_cons _ _ _ _ Ec) in Q. specialize (P w I). unfold becomes in P. rewrite Ec in P. destruct (p_terminal c) eqn:Et.
      * exists v. econstructor; [ apply P; auto | exact L ].
      * destruct (indexable w) eqn:Ei.
        -- destruct (wt_object _ _ _ _ _ W I Ec Et Ei) as (m & ->). destruct ts as [ | k2 ts ]; [ eexists; econstructor; [ apply P; reflexivity | constructor ] | ].
           destruct (IH c m ltac:(discriminate) (strings_in _ _ _ K I) (wt_member _ _ _ _ _ W I Ec)) as [D _]. destruct (proj2 D) as (x & Lx).
           ++ split; [ now exists v | ]. destruct Q as [[Q | Q] | Q]; [ discriminate | now left | now right ].
           ++ exists x. econstructor; [ apply P; reflexivity | exact Lx ].
        -- exists v. econstructor; [ apply P; auto | exact L ].
  - intros v x Lv Lx. apply leads_cons in Lv as (l' & w & E & I & Lv). injection E as <-. apply leads_cons in Lx as (l' & y & E & I' & Lx). injection E as <-.
    apply (P w I) in I'. unfold becomes in I'. destruct (sm_find k (p_children t)) as [c | ] eqn:Ec; [ | now destruct I' ]. rewrite (pcovered_cons _ _ _ _ Ec).
    pose proof (strings_in _ _ _ K I) as Kw.
    assert (Same : y = w -> (leaf v \/ (p_terminal c = true \/ pcovered c ts) -> x = v) /\ (leaf x -> leaf v)).
    { intros ->. rewrite (leads_fun _ _ _ Lx Kw _ Lv). auto. }
    destruct (p_terminal c) eqn:Et; [ now apply Same | ]. destruct (indexable w) eqn:Ei; [ | now apply Same ]. subst y. destruct (wt_object _ _ _ _ _ W I Ec Et Ei) as (m & ->).
    destruct ts as [ | k2 ts ].
    + apply leads_nil in Lv. apply leads_nil in Lx. subst v x. split.
      * intros [Q | [Q | Q]]; [ now elim (Q m) | discriminate | elim (pcovered_nil _ Q) ].
      * intros Q. rewrite prune_object in Q. now elim (Q (flat_map (item F true c) m)).
    + destruct (IH c m ltac:(discriminate) Kw (wt_member _ _ _ _ _ W I Ec)) as [_ D]. destruct (D v x Lv Lx) as [D1 D2]. split; [ | exact D2 ].
      intros [Q | [Q | Q]]; [ apply D1; now left | discriminate | apply D1; now right ].
Qed.

Lemma remove_leads F ts : forall t l, ts <> [] -> string_keyed (VObject l) -> wt t (VObject l) ->
  ((exists x, leads (prune F false t (VObject l)) ts x) <-> exists v, leads (VObject l) ts v /\ ~ pcovered t ts /\ (leaf v -> ~ reach t ts)) /\
  (forall v x, leads (VObject l) ts v -> leads (prune F false t (VObject l)) ts x -> (~ reach t ts -> x = v) /\ (leaf x -> x = v)).
Proof.
  induction ts as [ | k ts IH ]; intros t l N K W; [ congruence | ]. clear N. rewrite prune_object. apply keyed_strings in K.
  assert (P : forall w, In (VString k, w) l -> forall x, In (VString k, x) (flat_map (item F false t) l) <-> becomes F false t k w x).
  { intros w I x. rewrite item_in. split; [ intros (w' & I' & B); now rewrite (strings_fun _ _ _ _ K I I') | intros B; eauto ]. }
  split.
  - split.
    + intros (x & L). apply leads_cons in L as (l' & y & E & I & L). injection E as <-. apply item_in in I as (w & I & B). unfold becomes in B.
      destruct (sm_find k (p_children t)) as [c | ] eqn:Ec.
      2:{ destruct B as [_ ->]. exists x. split; [ econstructor; eassumption | ]. split; [ now apply pcovered_none | intros _; now apply reach_none ]. }
      destruct (p_terminal c) eqn:Et; [ now destruct B | ]. destruct (indexable w) eqn:Ei; [ | now destruct B ].
      subst y. destruct (wt_object _ _ _ _ _ W I Ec Et Ei) as (m & ->). destruct ts as [ | k2 ts ].
      * exists (VObject m). split; [ econstructor; [ eassumption | constructor ] | ]. rewrite (pcovered_cons _ _ _ _ Ec). split.
        -- rewrite Et. intros [Q | Q]; [ discriminate | elim (pcovered_nil _ Q) ].
        -- intros Q. now elim (Q m).
      * destruct (IH c m ltac:(discriminate) (strings_in _ _ _ K I) (wt_member _ _ _ _ _ W I Ec)) as [D _]. destruct (proj1 D (ex_intro _ x L)) as (v & Lv & Q1 & Q2).
        exists v. split; [ econstructor; eassumption | ]. rewrite (pcovered_cons _ _ _ _ Ec), (reach_cons _ _ _ _ Ec), Et. split; [ intros [Q | Q]; [ discriminate | auto ] | exact Q2 ].
    + intros (v & L & Q1 & Q2). apply leads_cons in L as (l' & w & E & I & L). injection E as <-. specialize (P w I). unfold becomes in P. destruct (sm_find k (p_children t)) as [c | ] eqn:Ec.
      2:{ exists v. econstructor; [ apply P; auto | exact L ]. }
      rewrite (pcovered_cons _ _ _ _ Ec) in Q1. rewrite (reach_cons _ _ _ _ Ec) in Q2. destruct (p_terminal c) eqn:Et; [ elim Q1; now left | ]. destruct (indexable w) eqn:Ei.
      * destruct (wt_object _ _ _ _ _ W I Ec Et Ei) as (m & ->). destruct ts as [ | k2 ts ]; [ eexists; econstructor; [ apply P; reflexivity | constructor ] | ].
        destruct (IH c m ltac:(discriminate) (strings_in _ _ _ K I) (wt_member _ _ _ _ _ W I Ec)) as [D _]. destruct (proj2 D) as (x & Lx).
        -- exists v. split; [ exact L | ]. split; [ intros Q; apply Q1; now right | exact Q2 ].
        -- exists x. econstructor; [ apply P; reflexivity | exact Lx ].
      * destruct (leads_scalar _ _ _ Ei L) as [-> ->]. elim Q2; [ now apply not_leaf | now exists c ].
  - intros v x Lv Lx. apply leads_cons in Lv as (l' & w & E & I & Lv). injection E as <-. apply leads_cons in Lx as (l' & y & E & I' & Lx). injection E as <-.
    apply (P w I) in I'. unfold becomes in I'. pose proof (strings_in _ _ _ K I) as Kw. destruct (sm_find k (p_children t)) as [c | ] eqn:Ec.
    2:{ destruct I' as [_ ->]. rewrite (leads_fun _ _ _ Lx Kw _ Lv). auto. }
    rewrite (reach_cons _ _ _ _ Ec).
    destruct (p_terminal c) eqn:Et; [ now destruct I' | ]. destruct (indexable w) eqn:Ei; [ | now destruct I' ]. subst y. destruct (wt_object _ _ _ _ _ W I Ec Et Ei) as (m & ->).
    destruct ts as [ | k2 ts ].
    + apply leads_nil in Lv. apply leads_nil in Lx. subst v x. split; [ intros Q; elim Q; now exists c | ]. intros Q. rewrite prune_object in Q. now elim (Q (flat_map (item F false c) m)).
    + destruct (IH c m ltac:(discriminate) Kw (wt_member _ _ _ _ _ W I Ec)) as [_ D]. destruct (D v x Lv Lx) as [D1 D2]. auto.
Qed.

(** ** Paths *)

Lemma slashed_cons t u ts : slashed (t :: u :: ts) = t ++ [47] ++ slashed (u :: ts).
Proof. unfold slashed. cbn [flat_map]. change ($"/") with [47]. cbn [app]. reflexivity. Qed.
Lemma occurs_char c (x : str) i : occurs_at [c] x i -> nth_error x i = Some c.
Proof. intros (p & q & -> & <-). rewrite nth_error_app2 by lia. now rewrite Nat.sub_diag. Qed.
Lemma parts_slashed ts : ts <> [] -> Forall (fun t => ~ In 47 t) ts -> forall fuel a, (length (slashed ts) < fuel)%nat -> path_parts fuel (a ++ slashed ts) (length a) = ts.
Proof.
  induction ts as [ | t ts IH ]; intros N H fuel a L; [ congruence | ]. inversion H as [ | ? ? H1 H2 ]; subst. destruct fuel as [ | fuel ]; [ lia | ]. destruct ts as [ | u ts ].
  - unfold slashed in *. cbn [flat_map] in *. rewrite app_nil_r in *. cbn [path_parts]. rewrite find_from_none.
    + f_equal. apply skipn_app_length.
    + intros (i & O). apply occurs_char, nth_error_In in O. auto.
  - rewrite slashed_cons in *. cbn [path_parts]. rewrite find_from_some.
    2:{ intros i O. apply occurs_char in O. destruct (Nat.lt_ge_cases i (length t)) as [Li | Li]; [ | exact Li ]. rewrite nth_error_app1 in O by exact Li. apply nth_error_In in O. elim (H1 O). }
    f_equal.
    + unfold substr. rewrite skipn_app_length. unfold str, byte in *. match goal with |- firstn ?n _ = _ => replace n with (length t) by lia end. apply firstn_app_length.
    + rewrite !app_length in L. cbn [length] in L. specialize (IH ltac:(discriminate) H2 fuel (a ++ t ++ [47]) ltac:(unfold str, byte in *; lia)).
      rewrite !app_length, <- !app_assoc in IH. cbn [length] in IH. rewrite <- Nat.add_assoc. exact IH.
Qed.
Lemma names_path_of F v ts : names_path v ts -> path_of F v = Some ts /\ ts <> [].
Proof.
  intros [ ts' N H | l ts' N H ]; (split; [ | exact N ]); cbn [path_of].
  - f_equal. apply (parts_slashed ts' N H (S (length (slashed ts'))) []). lia.
  - f_equal. clear N. induction H as [ | y t l ts' E _ IH ]; [ reflexivity | ]. cbn [map]. f_equal; [ | exact IH ]. now destruct E as [-> | ->].
Qed.
Lemma paths_tree F vs ps : Forall2 names_path vs ps -> exists t, insert_paths F vs p_empty = Some t /\ tkeyed t /\
  (forall ts, ts <> [] -> (reach t ts <-> exists p, In p ps /\ prefix ts p)) /\ (forall ts, marked t ts <-> In ts ps) /\ ~ In [] ps.
Proof.
  intros H. assert (H' : Forall2 (fun v p => path_of F v = Some p) vs ps). { clear -H. induction H as [ | v p vs ps N _ IH ]; constructor; auto. now apply (names_path_of F) in N. }
  destruct (insert_defined F vs ps p_empty H') as (t & E). exists t. split; [ exact E | ]. destruct (insert_all F vs ps p_empty t H' empty_keyed E) as (K & R & M). split; [ exact K | ]. split; [ | split ].
  - intros ts N. rewrite R. split; [ intros [(c & Q) | Q]; [ rewrite node_empty in Q by exact N; discriminate | exact Q ] | auto ].
  - intros ts. rewrite M. split; [ intros [(c & Q & T) | Q]; [ | exact Q ] | auto ]. destruct ts; [ injection Q as <-; discriminate | now rewrite node_empty in Q by discriminate ].
  - intros I. clear -H I. induction H as [ | v p vs ps N _ IH ]; [ destruct I | ]. destruct I as [-> | I]; [ | auto ]. now apply (names_path_of fops0) in N.
Qed.
Lemma tree_wt t ps doc : (forall ts, ts <> [] -> (reach t ts <-> exists p, In p ps /\ prefix ts p)) -> (forall ts, marked t ts <-> In ts ps) -> within_objects doc ps -> wt t doc.
Proof.
  intros R M W p v c N L E A. destruct (proj1 (R p N) (ex_intro _ c E)) as (q & I & (r & ->)). assert (r = []) by (eapply W; eassumption). subst r. rewrite app_nil_r in I.
  apply M in I as (c' & E' & T). congruence.
Qed.
Lemma tree_covered t ps ts : (forall ts, marked t ts <-> In ts ps) -> ~ In [] ps -> (pcovered t ts <-> covered ps ts).
Proof.
  intros M N. split.
  - intros (p & _ & P & Q). apply M in Q. now exists p.
  - intros (p & I & P). exists p. split; [ intros ->; auto | ]. split; [ exact P | now apply M ].
Qed.
(** ** Elements of arrays *)

Section Elements.
Variables (F : fops) (keep : bool).
Definition element (t : ptree) (i : nat) (w : value) : list value :=
  match sm_find (dec (Z.of_nat i)) (p_children t) with
  | None => if_not_selected keep w
  | Some c => if p_terminal c then if_selected keep w else if indexable w then [prune F keep c w] else if_selected keep w
  end.
Fixpoint elements (t : ptree) (i : nat) (l : list value) : list value :=
  match l with [] => [] | w :: l' => element t i w ++ elements t (S i) l' end.
Lemma prune_array t l : prune F keep t (VArray l) = VArray (elements t O l).
Proof. cbn [prune]. f_equal. generalize O. induction l as [ | w l IH ]; intros n; [ reflexivity | ]. cbn [elements]. unfold element. now rewrite <- IH. Qed.
Lemma elements_spec t f : (forall i, match sm_find (dec (Z.of_nat i)) (p_children t) with Some c => p_terminal c = true /\ f i = true | None => f i = false end) ->
  forall l n, elements t n l = map snd (filter (fun iw => if keep then f (fst iw) else negb (f (fst iw))) (combine (seq n (length l)) l)).
Proof.
  intros H. induction l as [ | w l IH ]; intros n; [ reflexivity | ]. cbn [elements length seq combine filter fst]. rewrite IH. unfold element, if_selected, if_not_selected. specialize (H n).
  destruct (sm_find (dec (Z.of_nat n)) (p_children t)) as [c | ]; [ destruct H as [-> ->] | rewrite H ]; destruct keep; reflexivity.
Qed.
End Elements.
