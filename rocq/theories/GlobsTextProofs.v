(** Proofs about reading, simplifying and trimming the globs of regex.globs_match. *)
From Coq Require Import String ZArith List Bool Arith Lia Sorting.Sorted.
From Verif Require Import Base SMap GlobsModel GlobsSpec GlobsProofs GlobsLoopProofs.
Import ListNotations.
Local Open Scope Z_scope.

(** *** Simplifying *)
Lemma kind_equal_eq a b : kind_equal a b = true <-> a = b.
Proof.
  destruct a, b; simpl; split; intros H; try discriminate; auto.
  - apply Z.eqb_eq in H. now subst.
  - injection H as ->. apply Z.eqb_refl.
  - apply str_eqb_eq in H. now subst.
  - injection H as ->. apply str_eqb_refl.
Qed.

Lemma merge_none g : forall t, needs_merge (t :: g) = false -> merge t g = t :: g.
Proof.
  induction g as [|b g IH]; intros t H; auto. cbn [needs_merge] in H. apply orb_false_iff in H as [H1 H2]. cbn [merge]. rewrite H1. f_equal. now apply IH.
Qed.
Lemma simplify_merge t g : simplify (t :: g) = merge t g.
Proof. unfold simplify. destruct (needs_merge (t :: g)) eqn:E; auto. symmetry. now apply merge_none. Qed.

Lemma merge_cases t g b : exists f, merge b (t :: g) = (if negb (is_none (t_flag t)) && negb (is_none (t_flag b)) && kind_equal (t_kind t) (t_kind b)
  then merge (Tok (t_kind b) f) g else b :: merge t g) /\ (f = FPlus /\ (t_flag t = FPlus \/ t_flag b = FPlus) \/ f = FStar /\ t_flag t <> FPlus /\ t_flag b <> FPlus).
Proof.
  eexists. split; [reflexivity|]. destruct (t_flag t), (t_flag b); simpl; auto; try (left; auto; fail); right; repeat split; auto; discriminate.
Qed.
Lemma merging t b : negb (is_none (t_flag t)) && negb (is_none (t_flag b)) && kind_equal (t_kind t) (t_kind b) = true ->
  t_flag t <> FNone /\ t_flag b <> FNone /\ t_kind t = t_kind b.
Proof.
  intros H. apply andb_true_iff in H as [H K]. apply andb_true_iff in H as [A B]. apply kind_equal_eq in K.
  destruct (t_flag t), (t_flag b); simpl in *; try discriminate; repeat split; auto; discriminate.
Qed.

Lemma merge_forall (P : gkind -> Prop) g : forall b, P (t_kind b) -> Forall (fun t => P (t_kind t)) g -> Forall (fun t => P (t_kind t)) (merge b g).
Proof.
  induction g as [|t g IH]; intros b Hb Hg; [constructor; auto|]. inversion Hg; subst. destruct (merge_cases t g b) as (f & -> & _).
  destruct (_ && _ && _); auto.
Qed.
Lemma simplify_forall (P : gkind -> Prop) g : Forall (fun t => P (t_kind t)) g -> Forall (fun t => P (t_kind t)) (simplify g).
Proof. destruct g as [|t g]; auto. intros H. rewrite simplify_merge. inversion H; subst. now apply merge_forall. Qed.

Lemma simplify_sorted g : sets_sorted g -> sets_sorted (simplify g).
Proof. apply (simplify_forall (fun k => match k with KSet rs => StronglySorted Z.lt rs | _ => True end)). Qed.
Lemma simplify_nonempty g : no_empty_set g -> no_empty_set (simplify g).
Proof.
  intros H. assert (X : Forall (fun t => t_kind t <> KSet []) (simplify g)).
  { apply (simplify_forall (fun k => k <> KSet [])). apply Forall_forall. exact H. }
  rewrite Forall_forall in X. exact X.
Qed.

Lemma merge_matches g : forall b s, matches (b :: g) s -> matches (merge b g) s.
Proof.
  induction g as [|t g IH]; intros b s M; auto. destruct (merge_cases t g b) as (f & -> & Hf).
  apply matches_inv in M as (u & v & -> & Fu & Tu & Mv). destruct (_ && _ && _) eqn:E.
  - apply merging in E as (Nt & Nb & K). apply matches_inv in Mv as (w & z & -> & Fw & Tw & Mz). apply IH. rewrite app_assoc.
    constructor; auto; cbn [t_kind t_flag]. { apply Forall_app. rewrite <- K. split; auto. now rewrite K. }
    rewrite app_length. destruct Hf as [[-> [H|H]]|[-> _]]; cbn [times]; auto; rewrite H in *; simpl in *; lia.
  - constructor; auto.
Qed.
Lemma merge_used g : forall b s, matches_used (b :: g) s -> matches_used (merge b g) s.
Proof.
  induction g as [|t g IH]; intros b s M; auto. destruct (merge_cases t g b) as (f & -> & Hf).
  apply used_inv in M as (u & v & -> & Fu & Tu & Uu & Mv). destruct (_ && _ && _) eqn:E.
  - apply merging in E as (Nt & Nb & K). apply used_inv in Mv as (w & z & -> & Fw & Tw & Uw & Mz). apply IH. rewrite app_assoc.
    constructor; auto; cbn [t_kind t_flag]. { apply Forall_app. rewrite <- K. split; auto. now rewrite K. }
    + rewrite app_length. destruct Hf as [[-> [H|H]]|[-> _]]; cbn [times]; auto; rewrite H in *; simpl in *; lia.
    + intros X. apply app_eq_nil in X as [-> _]. congruence.
  - constructor; auto.
Qed.

Lemma lone_tail t g : lone_plus (t :: g) -> lone_plus g.
Proof. intros H a k m b E. apply (H (t :: a) k m b). now rewrite E. Qed.

Lemma merge_sound g : forall b s, lone_plus (b :: g) -> matches (merge b g) s -> matches (b :: g) s.
Proof.
  induction g as [|t g IH]; intros b s L M; auto. destruct (merge_cases t g b) as (f & Em & Hf). rewrite Em in M. destruct (_ && _ && _) eqn:E.
  - apply merging in E as (Nt & Nb & K). apply IH in M.
    + apply matches_inv in M as (u & v & -> & Fu & Tu & Mv). cbn [t_kind t_flag] in *.
      assert (NB : ~ (t_flag t = FPlus /\ t_flag b = FPlus)).
      { intros [A B]. destruct b as [kb fb], t as [kt ft]. cbn in *. subst. destruct (L [] kb [] g eq_refl) as (x & [] & _). }
      destruct (t_flag b) eqn:Fb; [congruence| |].
      * assert (t_flag t = FStar) by (destruct (t_flag t); auto; try congruence; exfalso; apply NB; auto).
        assert (f = FPlus) by (destruct Hf as [[? _]|(_ & _ & H')]; auto; congruence). subst f.
        change (u ++ v) with (u ++ [] ++ v). constructor; [auto|rewrite Fb; exact Tu|]. constructor; auto. rewrite H. simpl. auto.
      * change (u ++ v) with ([] ++ u ++ v). constructor; [constructor|rewrite Fb; simpl; auto|]. constructor; auto; [now rewrite K|].
        destruct (t_flag t) eqn:Ft; [congruence| |simpl; auto]. destruct Hf as [[-> _]|(_ & H' & _)]; [exact Tu|congruence].
    + intros a k m b' Eq. destruct a as [|a0 a].
      * cbn in Eq. injection Eq as Ek Ef Eg. subst k f. destruct Hf as [[_ [Hf|Hf]]|[? _]]; [| |discriminate].
        -- destruct t as [kt ft], b as [kb fb]. cbn in *. subst ft kt. apply (L [Tok kb fb] kb m b'). cbn. now rewrite Eg.
        -- destruct (L [] (t_kind b) (t :: m) b') as (x & I & X).
           { destruct b as [kb fb]. cbn in *. subst fb. now rewrite Eg. }
           destruct I as [<-|I]; [|eauto]. exfalso. destruct X; congruence.
      * cbn in Eq. injection Eq as <- Eg. apply (L (b :: t :: a) k m b'). cbn. now rewrite Eg.
  - apply matches_inv in M as (u & v & -> & Fu & Tu & Mv). constructor; auto. apply IH; auto. now apply lone_tail with b.
Qed.

Lemma inside_cons t g : star_inside (t :: g) <->
  (t_flag t <> FNone -> (t_flag t = FStar -> g <> []) /\ forall t' b', g = t' :: b' -> t_flag t' <> FStar) /\ star_inside g.
Proof.
  split.
  - intros H. split; [intros F; exact (H [] t g eq_refl F)|]. intros a x b E. apply (H (t :: a)). now rewrite E.
  - intros [H H'] a x b E. destruct a as [|y a]; cbn in E; injection E as <- E; [subst; auto|]. eapply H'; eauto.
Qed.
Lemma merge_head g : forall t, t_flag t <> FStar -> exists t' b', merge t g = t' :: b' /\ t_flag t' <> FStar.
Proof.
  induction g as [|x g IH]; intros t H; [exists t, []; auto|]. destruct (merge_cases x g t) as (f & -> & Hf). destruct (_ && _ && _) eqn:E; eauto.
  apply merging in E as (_ & N & _). apply IH. cbn. destruct Hf as [[-> _]|(-> & _ & P)]; [discriminate|]. destruct (t_flag t); congruence.
Qed.
Lemma merge_nonempty g t : merge t g <> [].
Proof. revert t. induction g as [|x g IH]; intros t; simpl; [discriminate|]. destruct (_ && _ && _); auto. discriminate. Qed.
Lemma merge_inside g : forall b, star_inside (b :: g) -> star_inside (merge b g).
Proof.
  induction g as [|t g IH]; intros b H; auto. destruct (merge_cases t g b) as (f & -> & Hf). apply inside_cons in H as [Hb Ht]. destruct (_ && _ && _) eqn:E.
  - apply merging in E as (Nt & Nb & K). apply IH. apply inside_cons in Ht as [Ht Hg]. apply inside_cons. split; auto. cbn [t_flag]. intros _.
    destruct (Hb Nb) as [_ HN]. specialize (HN t g eq_refl). destruct Hf as [[-> _]|(-> & P & _)]; [|destruct (t_flag t); congruence].
    split; [discriminate|]. now apply Ht.
  - apply inside_cons. split; [|now apply IH]. intros F. destruct (Hb F) as [_ HN]. specialize (HN t g eq_refl).
    destruct (merge_head g t HN) as (t' & b' & -> & Q). split; [discriminate|]. intros t2 b2 [= <- <-]. exact Q.
Qed.
Lemma plain_merge g : forall b, no_flags (b :: g) -> merge b g = b :: g.
Proof.
  intros b H. apply merge_none. revert b H. induction g as [|t g IH]; intros b H; auto.
  assert (E := IH t (fun x I => H x (or_intror I))). assert (Ft : t_flag t = FNone) by (apply H; simpl; auto).
  change (negb (is_none (t_flag t)) && negb (is_none (t_flag b)) && kind_equal (t_kind t) (t_kind b) || needs_merge (t :: g) = false).
  rewrite E, Ft. reflexivity.
Qed.

Lemma simplify_matches g s : matches g s -> matches (simplify g) s.
Proof. destruct g as [|t g]; auto. rewrite simplify_merge. apply merge_matches. Qed.
Lemma simplify_used g s : matches_used g s -> matches_used (simplify g) s.
Proof. destruct g as [|t g]; auto. rewrite simplify_merge. apply merge_used. Qed.
Lemma simplify_sound g s : lone_plus g -> matches (simplify g) s -> matches g s.
Proof. destruct g as [|t g]; auto. rewrite simplify_merge. apply merge_sound. Qed.
Lemma simplify_inside g : star_inside g -> star_inside (simplify g).
Proof. destruct g as [|t g]; auto. rewrite simplify_merge. apply merge_inside. Qed.
Lemma simplify_plain g : no_flags g -> simplify g = g.
Proof. destruct g as [|t g]; auto. rewrite simplify_merge. apply plain_merge. Qed.
Lemma simplify_nil g : simplify g = [] -> g = [].
Proof. destruct g as [|t g]; auto. rewrite simplify_merge. intros H. now apply merge_nonempty in H. Qed.

(** *** Trimming *)
Definition pair_ok (a b : gtoken) : Prop := t_flag a = FNone /\ t_flag b = FNone /\ gmatch a b = true.
Definition paired := Forall2 pair_ok.

Lemma paired_length a b : paired a b -> length a = length b.
Proof. induction 1; simpl; auto. Qed.
Lemma paired_plain a b : paired a b -> no_flags a /\ no_flags b.
Proof. induction 1 as [|x y a b (A & B & _) H [IH1 IH2]]; split; intros t []; subst; auto. Qed.

Section Splitting.
  Variable R : glob -> list Z -> Prop.
  Hypothesis R_app : forall a b s, R (a ++ b) s <-> exists u v, s = u ++ v /\ R a u /\ R b v.
  Hypothesis R_length : forall g s, no_flags g -> R g s -> length s = length g.
  Lemma split_prefix p1 p2 a b s : no_flags p1 -> no_flags p2 -> length p1 = length p2 -> R (p1 ++ a) s -> R (p2 ++ b) s ->
    exists u v, s = u ++ v /\ R p1 u /\ R p2 u /\ R a v /\ R b v.
  Proof.
    intros N1 N2 L A B. apply R_app in A as (u & v & -> & A1 & A2). apply R_app in B as (u' & v' & E & B1 & B2).
    assert (u = u' /\ v = v') as [<- <-]; [|eauto 8]. apply (R_length _ _ N1) in A1. apply (R_length _ _ N2) in B1.
    assert (LL : length u = length u') by congruence. clear - E LL. revert u' E LL. induction u as [|x u IH]; intros [|y u'] E L; simpl in *; try lia; auto.
    injection E as -> E. destruct (IH u' E ltac:(lia)) as [-> ->]. auto.
  Qed.
  Lemma split_suffix p1 p2 a b s : no_flags p1 -> no_flags p2 -> length p1 = length p2 -> R (a ++ p1) s -> R (b ++ p2) s ->
    exists u v, s = u ++ v /\ R p1 v /\ R p2 v /\ R a u /\ R b u.
  Proof.
    intros N1 N2 L A B. apply R_app in A as (u & v & -> & A1 & A2). apply R_app in B as (u' & v' & E & B1 & B2).
    assert (u = u' /\ v = v') as [<- <-]; [|eauto 8]. apply (R_length _ _ N1) in A2. apply (R_length _ _ N2) in B2.
    assert (LL : length u = length u'). { apply (f_equal (@length Z)) in E. rewrite !app_length in E. lia. }
    clear - E LL. revert u' E LL. induction u as [|x u IH]; intros [|y u'] E L; simpl in *; try lia; auto.
    injection E as -> E. destruct (IH u' E ltac:(lia)) as [-> ->]. auto.
  Qed.
End Splitting.

Lemma used_length g s : no_flags g -> matches_used g s -> length s = length g.
Proof. intros N M. apply plain_length; auto. now apply used_matches. Qed.

Lemma heads_differ a b s x y : t_flag a = FNone -> t_flag b = FNone -> set_sorted a -> set_sorted b -> gmatch a b = false ->
  matches (a :: x) s -> matches (b :: y) s -> False.
Proof.
  intros Fa Fb Sa Sb M A B. apply head_plain in A as (c & s1 & -> & A & _); auto. apply head_plain in B as (c' & s2 & E & B & _); auto. injection E as <- _.
  rewrite gmatch_complete in M; [discriminate|auto|auto|]. exists c. auto.
Qed.

Lemma firstn_step A (l : list A) i x : nth_error l i = Some x -> firstn (S i) l = firstn i l ++ [x].
Proof. revert i. induction l as [|y l IH]; intros [|i] H; simpl in *; try discriminate; [congruence|]. f_equal. now apply IH. Qed.

Lemma trim_left_spec g1 g2 : sets_sorted g1 -> sets_sorted g2 -> forall fuel l, (length g1 < l + fuel)%nat -> (l <= length g1)%nat -> (l <= length g2)%nat ->
  paired (firstn l g1) (firstn l g2) ->
  match trim_left fuel g1 g2 l with
  | Ok None => ~ meet g1 g2
  | Ok (Some l') => (l <= l')%nat /\ (l' <= length g1)%nat /\ (l' <= length g2)%nat /\ paired (firstn l' g1) (firstn l' g2)
  | _ => False
  end.
Proof.
  intros S1 S2. induction fuel as [|fuel IH]; intros l F L1 L2 P; [lia|]. cbn [trim_left].
  destruct (Nat.ltb_spec l (length g1)) as [A1|A1]; cbn [andb]; [|repeat split; auto].
  destruct (Nat.ltb_spec l (length g2)) as [A2|A2]; [|repeat split; auto].
  unfold tok_at. destruct (nth_error g1 l) as [a|] eqn:Ea; [|apply nth_error_None in Ea; lia].
  destruct (nth_error g2 l) as [b|] eqn:Eb; [|apply nth_error_None in Eb; lia]. cbn [obind].
  destruct (is_none (t_flag a)) eqn:Fa; cbn [andb]; [|repeat split; auto]. destruct (is_none (t_flag b)) eqn:Fb; [|repeat split; auto].
  apply is_none_ok in Fa, Fb. destruct (gmatch a b) eqn:M; cbn [negb].
  - specialize (IH (S l) ltac:(lia) ltac:(lia) ltac:(lia)). rewrite (firstn_step _ _ _ _ Ea), (firstn_step _ _ _ _ Eb) in IH.
    assert (X : paired (firstn l g1 ++ [a]) (firstn l g2 ++ [b])). { apply Forall2_app; auto. constructor; [repeat split; auto|constructor]. }
    specialize (IH X). destruct (trim_left fuel g1 g2 (S l)) as [[l'|]| | |]; auto. destruct IH as (Y & Z). split; [lia|exact Z].
  - intros (s & A & B). rewrite (nth_split_skipn _ _ _ _ Ea) in A. rewrite (nth_split_skipn _ _ _ _ Eb) in B. destruct (paired_plain _ _ P) as [N1 N2].
    destruct (split_prefix matches matches_app plain_length _ _ _ _ _ N1 N2 (paired_length _ _ P) A B) as (u & v & -> & _ & _ & A' & B').
    eapply (heads_differ a b); eauto; [exact (sorted_at _ _ _ S1 Ea)|exact (sorted_at _ _ _ S2 Eb)].
Qed.

Lemma trim_right_spec g1 g2 l : sets_sorted g1 -> sets_sorted g2 -> forall fuel r1 r2, (r1 < fuel)%nat -> (l <= r1 <= length g1)%nat -> (l <= r2 <= length g2)%nat ->
  paired (skipn r1 g1) (skipn r2 g2) ->
  match trim_right fuel g1 g2 l r1 r2 with
  | Ok None => ~ meet g1 g2
  | Ok (Some (r1', r2')) => (l <= r1' <= length g1)%nat /\ (l <= r2' <= length g2)%nat /\ paired (skipn r1' g1) (skipn r2' g2)
  | _ => False
  end.
Proof.
  intros S1 S2. induction fuel as [|fuel IH]; intros r1 r2 F L1 L2 P; [lia|]. cbn [trim_right].
  destruct (Nat.ltb_spec (l + 1) r1) as [A1|A1]; cbn [andb]; [|auto]. destruct (Nat.ltb_spec (l + 1) r2) as [A2|A2]; [|auto].
  unfold tok_at. destruct (nth_error g1 (r1 - 1)) as [a|] eqn:Ea; [|apply nth_error_None in Ea; lia].
  destruct (nth_error g2 (r2 - 1)) as [b|] eqn:Eb; [|apply nth_error_None in Eb; lia]. cbn [obind].
  destruct (is_none (t_flag a)) eqn:Fa; cbn [andb]; [|auto]. destruct (is_none (t_flag b)) eqn:Fb; [|auto].
  apply is_none_ok in Fa, Fb.
  assert (X1 : skipn (r1 - 1) g1 = a :: skipn r1 g1). { rewrite (skipn_cons _ _ _ _ Ea). do 2 f_equal. lia. }
  assert (X2 : skipn (r2 - 1) g2 = b :: skipn r2 g2). { rewrite (skipn_cons _ _ _ _ Eb). do 2 f_equal. lia. }
  destruct (gmatch a b) eqn:M; cbn [negb].
  - apply IH; try lia. rewrite X1, X2. constructor; [repeat split; auto|exact P].
  - intros (s & A & B). destruct (paired_plain _ _ P) as [N1 N2].
    rewrite <- (firstn_skipn (r1 - 1) g1), X1 in A. rewrite <- (firstn_skipn (r2 - 1) g2), X2 in B.
    assert (Q1 : no_flags (a :: skipn r1 g1)) by (intros t [<-|I]; auto). assert (Q2 : no_flags (b :: skipn r2 g2)) by (intros t [<-|I]; auto).
    destruct (split_suffix matches matches_app plain_length _ _ _ _ _ Q1 Q2 ltac:(simpl; f_equal; apply (paired_length _ _ P)) A B) as (u & v & -> & A' & B' & _).
    eapply (heads_differ a b); eauto; [exact (sorted_at _ _ _ S1 Ea)|exact (sorted_at _ _ _ S2 Eb)].
Qed.

Lemma skipn_twice A (l : list A) : forall a b, skipn a (skipn b l) = skipn (b + a) l.
Proof. intros a b. revert l. induction b as [|b IH]; intros l; auto. destruct l as [|x l]; simpl; auto. now rewrite skipn_nil. Qed.
Lemma nth_skipn A (l : list A) : forall a b, nth_error (skipn a l) b = nth_error l (a + b).
Proof. intros a. revert l. induction a as [|a IH]; intros l b; auto. destruct l as [|x l]; simpl; auto. now destruct b. Qed.

Definition core (g : glob) (l r : nat) : glob := firstn (r - l) (skipn l g).
Lemma core_split g l r : (l <= r)%nat -> g = firstn l g ++ core g l r ++ skipn r g.
Proof.
  intros L. rewrite <- (firstn_skipn l g) at 1. f_equal. unfold core. rewrite <- (firstn_skipn (r - l) (skipn l g)) at 1. f_equal.
  rewrite skipn_twice. f_equal. lia.
Qed.

Lemma paired_prefix : forall l0 l g1 g2, (l <= l0)%nat -> paired (firstn l0 g1) (firstn l0 g2) -> paired (firstn l g1) (firstn l g2).
Proof.
  induction l0 as [|l0 IH]; intros l g1 g2 LL P. { replace l with 0%nat by lia. constructor. }
  destruct l as [|l]; [constructor|]. destruct g1 as [|a g1], g2 as [|b g2]; simpl in *; auto; inversion P; subst. constructor; auto. apply IH; auto. lia.
Qed.

Lemma trim_spec g1 g2 : sets_sorted g1 -> sets_sorted g2 ->
  match trim g1 g2 with
  | Ok None => ~ meet g1 g2
  | Ok (Some (l, r1, r2)) => (l <= r1 <= length g1)%nat /\ (l <= r2 <= length g2)%nat /\ paired (firstn l g1) (firstn l g2) /\
      paired (skipn r1 g1) (skipn r2 g2) /\ (r1 = length g1 \/ exists a b, core g1 l r1 = a ++ [b] /\ t_flag b = FNone)
  | _ => False
  end.
Proof.
  intros S1 S2. unfold trim. pose proof (trim_left_spec g1 g2 S1 S2 (S (length g1)) 0 ltac:(lia) ltac:(lia) ltac:(lia) (Forall2_nil _)) as TL.
  destruct (trim_left (S (length g1)) g1 g2 0) as [[l0|]| | |]; try contradiction; auto. cbn [obind]. destruct TL as (_ & L1 & L2 & P).
  set (l := if (0 <? l0)%nat then (l0 - 1)%nat else l0). assert (LL : (l <= l0)%nat) by (unfold l; destruct (Nat.ltb_spec 0 l0); lia).
  assert (PL : paired (firstn l g1) (firstn l g2)).
  { eapply paired_prefix; eauto. }
  pose proof (trim_right_spec g1 g2 l S1 S2 (S (length g1)) (length g1) (length g2) ltac:(lia) ltac:(lia) ltac:(lia)) as TR.
  rewrite !skipn_all in TR. specialize (TR (Forall2_nil _)).
  destruct (trim_right (S (length g1)) g1 g2 l (length g1) (length g2)) as [[[r1 r2]|]| | |]; try contradiction; auto. cbn [obind].
  destruct TR as (R1 & R2 & PR). destruct (Nat.ltb_spec r1 (length g1)) as [A|A].
  - assert (r2 < length g2)%nat. { apply paired_length in PR. rewrite !skipn_length in PR. lia. }
    destruct (Nat.leb_spec l (S r1)); [|lia]. destruct (Nat.leb_spec l (S r2)); [|lia]. cbn [andb].
    destruct (nth_error g1 r1) as [a|] eqn:Ea; [|apply nth_error_None in Ea; lia].
    destruct (nth_error g2 r2) as [b|] eqn:Eb; [|apply nth_error_None in Eb; lia].
    rewrite (skipn_cons _ _ _ _ Ea), (skipn_cons _ _ _ _ Eb) in PR. inversion PR as [|? ? ? ? (Fa & Fb & _) PR']; subst.
    repeat split; auto; try lia. right. exists (core g1 l r1), a. split; auto. unfold core.
    replace (S r1 - l)%nat with (S (r1 - l)) by lia. apply firstn_step. rewrite nth_skipn. replace (l + (r1 - l))%nat with r1 by lia. exact Ea.
  - destruct (Nat.leb_spec l r1); [|lia]. destruct (Nat.leb_spec l r2); [|lia]. cbn [andb]. repeat split; auto; try lia.
Qed.

(** *** Sets *)
Lemma insert_in x y l : In y (insert_by Z.ltb x l) <-> y = x \/ In y l.
Proof.
  induction l as [|z l IH]; simpl; [intuition congruence|]. destruct (z <? x); simpl; rewrite ?IH; intuition congruence.
Qed.

Lemma sort_in y l : In y (sort_by Z.ltb l) <-> In y l.
Proof. induction l as [|x l IH]; simpl; [tauto|]. unfold sort_by in *. rewrite insert_in, IH. intuition congruence. Qed.
Lemma insert_sorted x l : StronglySorted Z.le l -> StronglySorted Z.le (insert_by Z.ltb x l).
Proof.
  induction 1 as [|y l H IH F]; simpl; [repeat constructor|]. destruct (Z.ltb_spec y x).
  - constructor; auto. apply Forall_forall. intros z I. apply insert_in in I as [->|I]; [lia|]. rewrite Forall_forall in F. auto.
  - constructor; [constructor; auto|]. constructor; auto. eapply Forall_impl; [|exact F]. intros; simpl in *; lia.
Qed.
Lemma sort_sorted l : StronglySorted Z.le (sort_by Z.ltb l).
Proof. induction l as [|x l IH]; simpl; [constructor|]. now apply insert_sorted. Qed.
Lemma unique_in y l : In y (unique l) <-> In y l.
Proof.
  induction l as [|x l IH]; [tauto|]. destruct l as [|z l]; [tauto|]. change (unique (x :: z :: l)) with (if x =? z then unique (z :: l) else x :: unique (z :: l)).
  destruct (Z.eqb_spec x z) as [->|N]; [rewrite IH; simpl; tauto|]. change (In y (x :: unique (z :: l))) with (x = y \/ In y (unique (z :: l))). rewrite IH. simpl. tauto.
Qed.
Lemma unique_sorted l : StronglySorted Z.le l -> StronglySorted Z.lt (unique l).
Proof.
  induction 1 as [|x l H IH F]; [constructor|]. destruct l as [|z l]; [repeat constructor|].
  change (unique (x :: z :: l)) with (if x =? z then unique (z :: l) else x :: unique (z :: l)).
  destruct (Z.eqb_spec x z) as [->|N]; auto. constructor; auto. apply Forall_forall. intros y I. apply (proj1 (unique_in _ _)) in I.
  rewrite Forall_forall in F. inversion H as [|? ? _ Fz]; subst. rewrite Forall_forall in Fz. assert (x <= z) by (apply F; simpl; auto).
  destruct I as [<-|I]; [lia|]. apply Fz in I. lia.
Qed.
Lemma sorted_ext a : forall b, StronglySorted Z.lt a -> StronglySorted Z.lt b -> (forall c, In c a <-> In c b) -> a = b.
Proof.
  induction a as [|x a IH]; intros [|y b] Ha Hb E; auto.
  - exfalso. apply (E y). simpl. auto.
  - exfalso. apply (E x). simpl. auto.
  - inversion Ha as [|? ? Ha' Fa]; inversion Hb as [|? ? Hb' Fb]; subst. rewrite Forall_forall in Fa, Fb.
    assert (x = y).
    { assert (A : In x (y :: b)) by (apply E; simpl; auto). assert (B : In y (x :: a)) by (apply E; simpl; auto).
      destruct A as [A|A]; auto. destruct B as [B|B]; auto. apply Fa in B. apply Fb in A. lia. }
    subst y. f_equal. apply IH; auto. intros c. split; intros I.
    + assert (A : In c (x :: b)) by (apply E; simpl; auto). destruct A as [->|A]; auto. apply Fa in I. lia.
    + assert (A : In c (x :: a)) by (apply E; simpl; auto). destruct A as [->|A]; auto. apply Fb in I. lia.
Qed.
Lemma upto_in a b c : In c (upto a b) <-> a <= c <= b.
Proof.
  unfold upto. rewrite in_map_iff. split.
  - intros (k & <- & I). apply in_seq in I. lia.
  - intros R. exists (Z.to_nat (c - a)). split; [lia|]. apply in_seq. lia.
Qed.

(** *** Reading *)
Lemma at_skipn (l : list Z) i x r : skipn i l = x :: r -> rune_at l i = Ok x /\ skipn (S i) l = r /\ (i < length l)%nat.
Proof.
  intros E. unfold rune_at. destruct (nth_error l i) as [y|] eqn:N.
  - rewrite (skipn_cons _ _ _ _ N) in E. injection E as -> <-. split; auto. split; auto. apply nth_error_Some. congruence.
  - apply nth_error_None in N. rewrite skipn_all2 in E by lia. discriminate.
Qed.
Lemma skipn_len (l : list Z) i r : skipn i l = r -> (i <= length l)%nat -> (length l = i + length r)%nat.
Proof. intros <- L. rewrite skipn_length. lia. Qed.

Lemma set_range_spec runes i p acc total rest : skipn i runes = MINUS :: rest -> (i < length runes)%nat ->
  match set_range runes i p acc total with
  | Ok (Fine (i', acc', total')) => exists u b, (set_char u b \/ (i' = length runes)%nat) /\ rest = u ++ skipn i' runes /\ (i < i' <= length runes)%nat /\
      p <= b <= p + 65536 /\ acc' = acc ++ upto p b /\ total' = total + (b - p + 1) /\ total' <= max_total_set_runes
  | Ok (Bad _ _) => True
  | _ => False
  end.
Proof.
  intros E L. unfold set_range. destruct (Nat.leb_spec (length runes - 1) i) as [H|H]; auto.
  pose proof (at_skipn _ _ _ _ E) as (_ & E1 & _). destruct rest as [|r0 rest].
  { apply skipn_len in E1; [|lia]. simpl in E1. lia. }
  destruct (at_skipn _ _ _ _ E1) as (A1 & E2 & L1). rewrite A1. cbn [obind].
  destruct ((r0 =? BSL) && (S i <? length runes - 1)%nat) eqn:B.
  - apply andb_true_iff in B as [B1 B2]. apply Z.eqb_eq in B1. apply Nat.ltb_lt in B2. subst r0.
    destruct rest as [|r1 rest]. { apply skipn_len in E2; [|lia]. simpl in E2. lia. }
    destruct (at_skipn _ _ _ _ E2) as (A2 & E3 & L2). rewrite A2. cbn [obind negb andb].
    destruct (Z.ltb_spec r1 p); auto. destruct (Z.ltb_spec 65536 (r1 - p)); auto.
    destruct (Z.ltb_spec max_total_set_runes (total + (r1 - p + 1))); auto.
    exists [BSL; r1], r1. split; [left; constructor|]. split; [now rewrite E3|]. repeat split; auto; lia.
  - cbn [obind negb andb]. destruct (Z.eqb_spec r0 RSQ) as [?|NR]; [exact I|]. destruct (Z.eqb_spec r0 MINUS) as [?|NM]; [exact I|]. cbn [orb].
    destruct (Z.ltb_spec r0 p); auto. destruct (Z.ltb_spec 65536 (r0 - p)); auto.
    destruct (Z.ltb_spec max_total_set_runes (total + (r0 - p + 1))); auto.
    exists [r0], r0. split; [|split; [now rewrite E2|repeat split; auto; lia]].
    apply andb_false_iff in B as [B|B].
    + left. apply Z.eqb_neq in B. now constructor.
    + right. apply Nat.ltb_ge in B. lia.
Qed.

(** What is still to be read of a set whose last character is [prev]. *)
Definition items_after (prev : option Z) (t : list Z) (l : list (Z * Z)) (n : Z) : Prop :=
  match prev with
  | None => set_items t l n
  | Some p => (exists l', l = (p, p) :: l' /\ set_items t l' n) \/
      exists u b r l' n', t = MINUS :: u ++ r /\ set_char u b /\ p <= b <= p + 65536 /\ set_items r l' n' /\ l = (p, b) :: l' /\ n = (b - p + 1) + n'
  end.

Lemma items_head a b l c : in_items ((a, b) :: l) c <-> a <= c <= b \/ in_items l c.
Proof.
  unfold in_items. split.
  - intros (x & y & [E|I] & R); [injection E as -> ->; auto|]. right. eauto.
  - intros [R|(x & y & I & R)]; [exists a, b; simpl; auto|exists x, y; simpl; auto].
Qed.
Lemma items_after_char p tp t l n : set_char tp p -> items_after (Some p) t l n -> set_items (tp ++ t) l (1 + n) /\ in_items l p.
Proof.
  intros C [(l' & -> & S)|(u & b & r & l' & n' & -> & Cu & R & S & -> & ->)].
  - split; [now constructor|]. apply items_head. lia.
  - split; [|apply items_head; lia]. replace (1 + (b - p + 1 + n')) with (1 + (b - p + 1) + n') by lia. now constructor.
Qed.

Definition bounded (total : Z) (i : nat) : Prop := total <= max_total_set_runes + Z.of_nat i.

(** A step over an ordinary character, plain or escaped. *)
Lemma set_char_step runes fuel i prev acc total tr r rest : set_char tr r -> skipn i runes = tr ++ rest ->
  tokenize_set (S fuel) runes i prev acc total = tokenize_set fuel runes (i + length tr) (Some r) (acc ++ [r]) (total + 1) /\
  skipn (i + length tr) runes = rest /\ (i + length tr <= length runes)%nat.
Proof.
  intros C E. cbn [tokenize_set]. destruct C as [c N1 N2 N3|c]; cbn [app] in E.
  - destruct (at_skipn _ _ _ _ E) as (A & E1 & L). destruct (Nat.ltb_spec i (length runes)); [|lia]. rewrite A. cbn [obind].
    destruct (Z.eqb_spec c BSL); [congruence|]. cbn [andb obind negb]. destruct (Z.eqb_spec c MINUS); [congruence|]. destruct (Z.eqb_spec c RSQ); [congruence|].
    cbn [length]. rewrite Nat.add_1_r. auto.
  - destruct (at_skipn _ _ _ _ E) as (A & E1 & L). destruct (at_skipn _ _ _ _ E1) as (A1 & E2 & L1).
    destruct (Nat.ltb_spec i (length runes)); [|lia]. rewrite A. cbn [obind]. rewrite Z.eqb_refl. destruct (Nat.ltb_spec i (length runes - 1)); [|lia].
    cbn [andb negb]. rewrite A1. cbn [obind negb andb length]. replace (i + 2)%nat with (S (S i)) by lia. auto.
Qed.

Lemma tokenize_set_spec runes : forall fuel i prev acc total, (length runes < i + fuel)%nat -> (i <= length runes)%nat ->
  (forall p, prev = Some p -> In p acc) ->
  match tokenize_set fuel runes i prev acc total with
  | Ok (Fine (i', acc', total')) => (i < i' <= length runes)%nat /\ exists t l n, skipn i runes = t ++ RSQ :: skipn i' runes /\
      items_after prev t l n /\ (forall c, In c acc' <-> In c acc \/ in_items l c) /\ total' = total + n /\
      (bounded total i -> bounded total' i')
  | Ok (Bad _ _) => True
  | _ => False
  end.
Proof.
  induction fuel as [|fuel IH]; intros i prev acc total F L PA; [lia|].
  destruct (Nat.ltb_spec i (length runes)) as [Li|Li].
  2:{ cbn [tokenize_set]. destruct (Nat.ltb_spec i (length runes)); [lia|exact I]. }
  destruct (skipn i runes) as [|r0 rest] eqn:E. { apply skipn_len in E; auto. simpl in E. lia. }
  destruct (at_skipn _ _ _ _ E) as (A0 & E1 & _).
  assert (CH : forall r tr rest', set_char tr r -> skipn i runes = tr ++ rest' ->
    match tokenize_set (S fuel) runes i prev acc total with
    | Ok (Fine (i', acc', total')) => (i < i' <= length runes)%nat /\ exists t l n, r0 :: rest = t ++ RSQ :: skipn i' runes /\
        items_after prev t l n /\ (forall c, In c acc' <-> In c acc \/ in_items l c) /\ total' = total + n /\
      (bounded total i -> bounded total' i')
    | Ok (Bad _ _) => True
    | _ => False
    end).
  { intros r tr rest' C Er. destruct (set_char_step runes fuel i prev acc total tr r rest' C Er) as (-> & Er' & Ls).
    assert (Lt : (1 <= length tr)%nat) by (destruct C; simpl; lia).
    specialize (IH (i + length tr)%nat (Some r) (acc ++ [r]) (total + 1) ltac:(lia) Ls).
    assert (X : forall p, Some r = Some p -> In p (acc ++ [r])) by (intros p [= <-]; apply in_or_app; simpl; auto). specialize (IH X).
    destruct (tokenize_set fuel runes (i + length tr) (Some r) (acc ++ [r]) (total + 1)) as [[[[i' acc'] total']|]| | |]; auto.
    destruct IH as (Li' & t & l & n & Et & It & Ia & Tn & Bd). split; [lia|]. destruct (items_after_char _ _ _ _ _ C It) as [SI Ir].
    assert (BD : bounded total i -> bounded total' i') by (intros B; apply Bd; unfold bounded in *; lia).
    assert (MB : forall c, In c acc' <-> In c acc \/ in_items l c).
    { intros c. rewrite Ia, in_app_iff. simpl. split; [|tauto]. intros [[I|[->|[]]]|I]; auto. }
    assert (Et' : r0 :: rest = (tr ++ t) ++ RSQ :: skipn i' runes) by (rewrite <- E, Er, <- Er', Et; now rewrite <- app_assoc).
    destruct prev as [p|].
    - exists (tr ++ t), ((p, p) :: l), (1 + n). split; [exact Et'|]. split; [left; eauto|]. split; [|split; [lia|exact BD]].
      intros c. rewrite MB, items_head. split; [tauto|]. intros [I|[R|I]]; auto. left. replace c with p by lia. auto.
    - exists (tr ++ t), l, (1 + n). split; [exact Et'|]. split; [exact SI|]. split; [exact MB|]. split; [lia|exact BD]. }
  destruct (Z.eq_dec r0 BSL) as [->|N1].
  { destruct rest as [|r1 rest].
    - cbn [tokenize_set]. destruct (Nat.ltb_spec i (length runes)); [|lia]. rewrite A0. cbn [obind]. rewrite Z.eqb_refl.
      apply skipn_len in E; [|lia]. simpl in E. destruct (Nat.ltb_spec i (length runes - 1)); [lia|]. exact I.
    - apply (CH r1 [BSL; r1] rest); [constructor|]. exact E. }
  destruct (Z.eq_dec r0 RSQ) as [->|N2].
  { cbn [tokenize_set]. destruct (Nat.ltb_spec i (length runes)); [|lia]. rewrite A0. cbn [obind].
    change (RSQ =? BSL) with false. cbn [andb obind negb]. change (RSQ =? MINUS) with false. rewrite Z.eqb_refl. cbn [andb].
    split; [lia|]. destruct prev as [p|].
    - exists [], [(p, p)], 0. split; [now rewrite E1|]. split; [left; exists []; split; [auto|constructor]|]. split; [|split; [lia|unfold bounded; lia]].
      intros c. rewrite items_head. split; [auto|]. intros [I|[R|(a & b & [] & _)]]; auto. replace c with p by lia. auto.
    - exists [], [], 0. split; [now rewrite E1|]. split; [constructor|]. split; [|split; [lia|unfold bounded; lia]].
      intros c. split; [auto|]. intros [I|(a & b & [] & _)]; auto. }
  destruct (Z.eq_dec r0 MINUS) as [->|N3].
  { cbn [tokenize_set]. destruct (Nat.ltb_spec i (length runes)); [|lia]. rewrite A0. cbn [obind].
    change (MINUS =? BSL) with false. cbn [andb obind negb]. rewrite Z.eqb_refl. destruct prev as [p|]; [|exact I].
    pose proof (set_range_spec runes i p acc total rest E Li) as SR. destruct (set_range runes i p acc total) as [[[[i1 acc1] total1]|]| | |]; try contradiction; auto.
    cbn [obind]. destruct SR as (u & b & C & Er & Li1 & R & -> & -> & B1).
    destruct C as [C| ->].
    2:{ destruct fuel as [|fuel]; [lia|]. cbn [tokenize_set]. rewrite Nat.ltb_irrefl. exact I. }
    specialize (IH i1 None (acc ++ upto p b) (total + (b - p + 1)) ltac:(lia) ltac:(lia) ltac:(discriminate)).
    destruct (tokenize_set fuel runes i1 None (acc ++ upto p b) (total + (b - p + 1))) as [[[[i' acc'] total']|]| | |]; auto.
    destruct IH as (Li' & t & l & n & Et & It & Ia & Tn & Bd). split; [lia|]. cbn [items_after] in It.
    exists (MINUS :: u ++ t), ((p, b) :: l), ((b - p + 1) + n). split; [rewrite Er, Et; cbn [app]; now rewrite <- app_assoc|].
    split; [right; exists u, b, t, l, n; auto 10|]. split; [|split; [lia|]].
    - intros c. rewrite Ia, in_app_iff, upto_in, items_head. tauto.
    - intros _. apply Bd. unfold bounded. lia. }
  apply (CH r0 [r0] rest); [now constructor|]. exact E.
Qed.

Lemma set_range_complete runes i p acc total u b rest : set_char u b -> skipn i runes = MINUS :: u ++ rest -> p <= b <= p + 65536 ->
  total + (b - p + 1) <= max_total_set_runes ->
  set_range runes i p acc total = Ok (Fine ((i + 1 + length u)%nat, acc ++ upto p b, total + (b - p + 1))) /\
  skipn (i + 1 + length u) runes = rest /\ (i + 1 + length u <= length runes)%nat.
Proof.
  intros C E R T. destruct (at_skipn _ _ _ _ E) as (_ & E1 & L). unfold set_range. destruct C as [c N1 N2 N3|c]; cbn [app length] in *.
  - destruct (at_skipn _ _ _ _ E1) as (A1 & E2 & L1). destruct (Nat.leb_spec (length runes - 1) i); [lia|]. rewrite A1. cbn [obind].
    destruct (Z.eqb_spec c BSL); [congruence|]. cbn [andb obind negb]. destruct (Z.eqb_spec c RSQ); [congruence|]. destruct (Z.eqb_spec c MINUS); [congruence|].
    cbn [orb]. destruct (Z.ltb_spec c p); [lia|]. destruct (Z.ltb_spec 65536 (c - p)); [lia|]. destruct (Z.ltb_spec max_total_set_runes (total + (c - p + 1))); [lia|].
    replace (i + 1 + 1)%nat with (S (S i)) by lia. auto.
  - destruct (at_skipn _ _ _ _ E1) as (A1 & E2 & L1). destruct (at_skipn _ _ _ _ E2) as (A2 & E3 & L2).
    destruct (Nat.leb_spec (length runes - 1) i); [lia|]. rewrite A1. cbn [obind]. rewrite Z.eqb_refl. destruct (Nat.ltb_spec (S i) (length runes - 1)); [|lia].
    cbn [andb]. rewrite A2. cbn [obind negb andb]. destruct (Z.ltb_spec c p); [lia|]. destruct (Z.ltb_spec 65536 (c - p)); [lia|].
    destruct (Z.ltb_spec max_total_set_runes (total + (c - p + 1))); [lia|]. replace (i + 1 + 2)%nat with (S (S (S i))) by lia. auto.
Qed.

Lemma items_pos t l n : set_items t l n -> 0 <= n.
Proof. induction 1; lia. Qed.

Lemma tokenize_set_complete runes rest t l n : set_items t l n -> forall fuel i prev acc total, (length runes < i + fuel)%nat ->
  skipn i runes = t ++ RSQ :: rest -> total + n <= max_total_set_runes ->
  exists i' acc', tokenize_set fuel runes i prev acc total = Ok (Fine (i', acc', total + n)) /\ skipn i' runes = rest /\ (i < i' <= length runes)%nat /\
    forall c, In c acc' <-> In c acc \/ in_items l c.
Proof.
  induction 1 as [|t c r l n C SI IH|t a u b r l n Ca Cb R SI IH]; intros fuel i prev acc total F E T.
  - cbn [app] in E. destruct (at_skipn _ _ _ _ E) as (A & E1 & L). destruct fuel as [|fuel]; [lia|]. cbn [tokenize_set].
    destruct (Nat.ltb_spec i (length runes)); [|lia]. rewrite A. cbn [obind]. change (RSQ =? BSL) with false. cbn [andb obind negb].
    change (RSQ =? MINUS) with false. rewrite Z.eqb_refl. cbn [andb]. exists (S i), acc. rewrite Z.add_0_r. split; [auto|]. split; [auto|]. split; [lia|].
    intros c. split; [auto|]. intros [I|(x & y & [] & _)]; auto.
  - rewrite <- app_assoc in E. assert (Lf : (i <= length runes)%nat).
    { destruct (le_lt_dec i (length runes)); auto. rewrite skipn_all2 in E by lia. destruct C; discriminate. }
    destruct fuel as [|fuel]; [lia|]. destruct (set_char_step runes fuel i prev acc total t c _ C E) as (-> & E' & L').
    assert (1 <= length t)%nat by (destruct C; simpl; lia).
    destruct (IH fuel (i + length t)%nat (Some c) (acc ++ [c]) (total + 1) ltac:(lia) E' ltac:(lia)) as (i' & acc' & -> & Er & Li & M).
    exists i', acc'. split; [do 3 f_equal; lia|]. split; [auto|]. split; [lia|]. intros x. rewrite M, in_app_iff, items_head. simpl. split.
    + intros [[I|[->|[]]]|I]; auto. right. left. lia.
    + intros [I|[I|I]]; auto. left. right. left. lia.
  - rewrite <- app_assoc in E. cbn [app] in E. rewrite <- app_assoc in E. pose proof (items_pos _ _ _ SI) as NP. assert (Lf : (i <= length runes)%nat).
    { destruct (le_lt_dec i (length runes)); auto. rewrite skipn_all2 in E by lia. destruct Ca; discriminate. }
    destruct fuel as [|fuel]; [lia|]. destruct (set_char_step runes fuel i prev acc total t a _ Ca E) as (-> & E' & L').
    assert (1 <= length t)%nat by (destruct Ca; simpl; lia).
    destruct (at_skipn _ _ _ _ E') as (A & _ & L2).
    destruct (set_range_complete runes (i + length t) a (acc ++ [a]) (total + 1) u b _ Cb E' R ltac:(lia)) as (SR & E2 & L3).
    destruct fuel as [|fuel]; [lia|]. cbn [tokenize_set]. destruct (Nat.ltb_spec (i + length t) (length runes)); [|lia]. rewrite A. cbn [obind].
    change (MINUS =? BSL) with false. cbn [andb obind negb]. rewrite Z.eqb_refl. rewrite SR. cbn [obind].
    destruct (IH fuel (i + length t + 1 + length u)%nat None ((acc ++ [a]) ++ upto a b) (total + 1 + (b - a + 1)) ltac:(lia) E2 ltac:(lia)) as (i' & acc' & -> & Er & Li & M).
    exists i', acc'. split; [do 3 f_equal; lia|]. split; [auto|]. split; [lia|]. intros x. rewrite M, !in_app_iff, upto_in, items_head. simpl. split.
    + intros [[[I|[->|[]]]|I]|I]; auto. right. left. lia.
    + intros [I|[I|I]]; auto.
Qed.

(** *** Globs *)
Lemma apply_flag_spec runes i : (i <= length runes)%nat ->
  exists f i', apply_flag runes i = Ok (f, i') /\ skipn i runes = flag_text f ++ skipn i' runes /\ (i <= i' <= length runes)%nat.
Proof.
  intros L. unfold apply_flag. destruct (Nat.ltb_spec i (length runes)) as [Li|Li]; [|exists FNone, i; auto].
  destruct (skipn i runes) as [|r rest] eqn:E. { apply skipn_len in E; auto. simpl in E. lia. }
  destruct (at_skipn _ _ _ _ E) as (-> & E1 & _). cbn [obind]. destruct (Z.eqb_spec r PLUS) as [->|N]; cbn [orb].
  - exists FPlus, (S i). split; [auto|]. split; [now rewrite E1|lia].
  - destruct (Z.eqb_spec r STAR) as [->|N'].
    + exists FStar, (S i). split; [auto|]. split; [now rewrite E1|lia].
    + exists FNone, i. auto.
Qed.
Definition no_flag_start (r : list Z) : Prop := match r with c :: _ => c <> PLUS /\ c <> STAR | [] => True end.
Lemma apply_flag_complete runes i f r : skipn i runes = flag_text f ++ r -> (i <= length runes)%nat -> no_flag_start r ->
  apply_flag runes i = Ok (f, (i + length (flag_text f))%nat) /\ skipn (i + length (flag_text f)) runes = r /\ (i + length (flag_text f) <= length runes)%nat.
Proof.
  intros E L N. unfold apply_flag. destruct f; cbn [flag_text app length] in *.
  - rewrite Nat.add_0_r. split; [|auto]. destruct (Nat.ltb_spec i (length runes)) as [Li|Li]; auto.
    destruct r as [|c r]. { apply skipn_len in E; auto. simpl in E. lia. }
    destruct (at_skipn _ _ _ _ E) as (-> & _ & _). cbn [obind]. destruct N as [N1 N2].
    destruct (Z.eqb_spec c PLUS); [congruence|]. destruct (Z.eqb_spec c STAR); [congruence|]. reflexivity.
  - destruct (at_skipn _ _ _ _ E) as (-> & E1 & Li). destruct (Nat.ltb_spec i (length runes)); [|lia]. rewrite Nat.add_1_r. auto.
  - destruct (at_skipn _ _ _ _ E) as (-> & E1 & Li). destruct (Nat.ltb_spec i (length runes)); [|lia]. rewrite Nat.add_1_r. auto.
Qed.
Lemma glob_text_start r g n : glob_text r g n -> no_flag_start r.
Proof.
  destruct 1 as [|t k f r g n m T G]; simpl; auto. destruct T; simpl; try (split; discriminate). split; intros ->; apply H; simpl; tauto.
Qed.

Lemma tokenize_from_spec runes : forall fuel i total tokens, (length runes < i + fuel)%nat -> (i <= length runes)%nat -> bounded total i ->
  match tokenize_from fuel runes i total tokens with
  | Ok (Fine (g, total')) => exists g' n, g = tokens ++ g' /\ glob_text (skipn i runes) g' n /\ total' = total + n /\ bounded total' (length runes)
  | Ok (Bad _ _) => True
  | _ => False
  end.
Proof.
  induction fuel as [|fuel IH]; intros i total tokens F L B; [lia|]. cbn [tokenize_from].
  destruct (Nat.ltb_spec i (length runes)) as [Li|Li].
  2:{ exists [], 0. rewrite app_nil_r, skipn_all2 by lia. split; [auto|]. split; [constructor|]. split; [lia|]. unfold bounded in *. lia. }
  destruct (skipn i runes) as [|r rest] eqn:E. { apply skipn_len in E; auto. simpl in E. lia. }
  destruct (at_skipn _ _ _ _ E) as (A & E1 & _). rewrite A. cbn [obind].
  (* a token was read up to [i1] *)
  assert (ST : forall i1 t k total1 n, (i < i1 <= length runes)%nat -> token_text t k n -> skipn i runes = t ++ skipn i1 runes ->
    total1 = total + n -> bounded total1 i1 ->
    match (let! '(f, i2) := apply_flag runes i1 in tokenize_from fuel runes i2 total1 (tokens ++ [Tok k f])) with
    | Ok (Fine (g, total')) => exists g' n, g = tokens ++ g' /\ glob_text (r :: rest) g' n /\ total' = total + n /\ bounded total' (length runes)
    | Ok (Bad _ _) => True
    | _ => False
    end).
  { intros i1 t k total1 n Li1 T Et -> Bt. destruct (apply_flag_spec runes i1 ltac:(lia)) as (f & i2 & -> & Ef & Li2). cbn [obind].
    specialize (IH i2 (total + n) (tokens ++ [Tok k f]) ltac:(lia) ltac:(lia) ltac:(unfold bounded in *; lia)).
    destruct (tokenize_from fuel runes i2 (total + n) (tokens ++ [Tok k f])) as [[[g total']|]| | |]; auto.
    destruct IH as (g' & m & -> & G & -> & Bt'). exists (Tok k f :: g'), (n + m). split; [now rewrite <- app_assoc|]. split; [|split; [lia|auto]].
    rewrite <- E, Et, Ef. now constructor. }
  destruct (Z.eqb_spec r BSL) as [->|N1].
  { destruct (Nat.eqb_spec i (length runes - 1)) as [?|Ni]; [exact I|]. destruct rest as [|c rest]. { apply skipn_len in E1; [|lia]. simpl in E1. lia. }
    destruct (at_skipn _ _ _ _ E1) as (A1 & E2 & L1). rewrite A1. cbn [obind].
    apply (ST (S (S i)) [BSL; c] (KChar c) total 0); [lia|constructor| |lia|unfold bounded in *; lia]. now rewrite E, <- E2. }
  destruct (Z.eqb_spec r DOT) as [->|N2].
  { apply (ST (S i) [DOT] KDot total 0); [lia|constructor| |lia|unfold bounded in *; lia]. now rewrite E, <- E1. }
  destruct (Z.eqb_spec r RSQ) as [->|N3]; [exact I|].
  destruct (Z.eqb_spec r LSQ) as [->|N4].
  { pose proof (tokenize_set_spec runes (S (length runes)) (S i) None [] total ltac:(lia) ltac:(lia) ltac:(discriminate)) as TS.
    destruct (tokenize_set (S (length runes)) runes (S i) None [] total) as [[[[i1 acc] total1]|]| | |]; try contradiction; auto. cbn [obind].
    destruct TS as (Li1 & t & l & n & Et & It & Ia & Tn & Bd). cbn [items_after] in It.
    apply (ST i1 (LSQ :: t ++ [RSQ]) (KSet (unique (sort_by Z.ltb acc))) total1 n); [lia| | |lia|apply Bd; unfold bounded in *; lia].
    - apply tt_set with l; auto; [apply unique_sorted, sort_sorted|]. intros c. rewrite unique_in, sort_in, Ia. simpl. tauto.
    - rewrite E, <- E1, Et. cbn [app]. now rewrite <- app_assoc. }
  destruct (Z.eqb_spec r PLUS) as [->|N5]; [exact I|]. destruct (Z.eqb_spec r STAR) as [->|N6]; [exact I|]. cbn [orb].
  apply (ST (S i) [r] (KChar r) total 0); [lia|constructor| |lia|unfold bounded in *; lia].
  - simpl. intros [?|[?|[?|[?|[?|[?|[]]]]]]]; congruence.
  - now rewrite E, <- E1.
Qed.

Lemma token_pos t k n : token_text t k n -> 0 <= n.
Proof. destruct 1; try lia. now apply items_pos in H. Qed.
Lemma glob_pos r g n : glob_text r g n -> 0 <= n.
Proof. induction 1 as [|t k f r g n m T G IH]; try lia. apply token_pos in T. lia. Qed.

Lemma tokenize_from_complete runes r g n : glob_text r g n -> forall fuel i total tokens, (length runes < i + fuel)%nat -> (i <= length runes)%nat ->
  skipn i runes = r -> total + n <= max_total_set_runes -> tokenize_from fuel runes i total tokens = Ok (Fine (tokens ++ g, total + n)).
Proof.
  induction 1 as [|t k f r g n m T G IH]; intros fuel i total tokens F L E B; (destruct fuel as [|fuel]; [lia|]); cbn [tokenize_from].
  - assert (length runes = i) by (apply skipn_len in E; auto; simpl in E; lia). subst i. rewrite Nat.ltb_irrefl, app_nil_r, Z.add_0_r. reflexivity.
  - pose proof (glob_pos _ _ _ G) as GP. pose proof (token_pos _ _ _ T) as TP. pose proof (glob_text_start _ _ _ G) as NS.
    assert (ST : forall i1, (i < i1 <= length runes)%nat -> skipn i1 runes = flag_text f ++ r ->
      (let! '(f, i2) := apply_flag runes i1 in tokenize_from fuel runes i2 (total + n) (tokens ++ [Tok k f])) = Ok (Fine (tokens ++ Tok k f :: g, total + (n + m)))).
    { intros i1 L1 E1. destruct (apply_flag_complete runes i1 f r E1 ltac:(lia) NS) as (-> & E2 & L2). cbn [obind].
      rewrite (IH fuel (i1 + length (flag_text f))%nat (total + n) (tokens ++ [Tok k f]) ltac:(lia) L2 E2 ltac:(lia)).
      rewrite <- app_assoc. cbn [app]. do 3 f_equal. lia. }
    destruct T as [c N|c| |t l rs n SI SS MB]; cbn [app] in E.
    + destruct (at_skipn _ _ _ _ E) as (-> & E1 & Li). destruct (Nat.ltb_spec i (length runes)); [|lia]. cbn [obind]. rewrite Z.add_0_r in ST. simpl in N.
      destruct (Z.eqb_spec c BSL); [exfalso; apply N; auto|]. destruct (Z.eqb_spec c DOT); [exfalso; apply N; auto|].
      destruct (Z.eqb_spec c RSQ); [exfalso; apply N; auto 8|]. destruct (Z.eqb_spec c LSQ); [exfalso; apply N; auto 8|].
      destruct (Z.eqb_spec c PLUS); [exfalso; apply N; auto 8|]. destruct (Z.eqb_spec c STAR); [exfalso; apply N; auto 8|]. cbn [orb].
      apply ST; [lia|auto].
    + destruct (at_skipn _ _ _ _ E) as (-> & E1 & Li). destruct (at_skipn _ _ _ _ E1) as (A1 & E2 & Li1). destruct (Nat.ltb_spec i (length runes)); [|lia]. cbn [obind].
      rewrite Z.eqb_refl. destruct (Nat.eqb_spec i (length runes - 1)); [lia|]. rewrite A1. cbn [obind]. rewrite Z.add_0_r in ST. apply ST; [lia|auto].
    + destruct (at_skipn _ _ _ _ E) as (-> & E1 & Li). destruct (Nat.ltb_spec i (length runes)); [|lia]. cbn [obind]. rewrite Z.add_0_r in ST.
      change (DOT =? BSL) with false. rewrite Z.eqb_refl. apply ST; [lia|auto].
    + destruct (at_skipn _ _ _ _ E) as (-> & E1 & Li). destruct (Nat.ltb_spec i (length runes)); [|lia]. cbn [obind].
      change (LSQ =? BSL) with false. change (LSQ =? DOT) with false. change (LSQ =? RSQ) with false. rewrite Z.eqb_refl.
      rewrite <- app_assoc in E1. cbn [app] in E1.
      destruct (tokenize_set_complete runes _ t l n SI (S (length runes)) (S i) None [] total ltac:(lia) E1 ltac:(lia)) as (i1 & acc & -> & E2 & L2 & M2).
      cbn [obind]. replace (unique (sort_by Z.ltb acc)) with rs; [apply ST; [lia|auto]|].
      apply sorted_ext; auto; [apply unique_sorted, sort_sorted|]. intros c. rewrite MB, unique_in, sort_in, M2. simpl. tauto.
Qed.

Lemma glob_text_sorted r g n : glob_text r g n -> sets_sorted g.
Proof. induction 1 as [|t k f r g n m T G IH]; constructor; auto. unfold set_sorted. cbn. now destruct T. Qed.

Lemma tokenize_spec runes :
  match tokenize runes with Ok (Fine g) => exists n, glob_text runes g n | Ok (Bad _ _) => True | _ => False end.
Proof.
  unfold tokenize, tokenize_total. pose proof (tokenize_from_spec runes (S (length runes)) 0 0 [] ltac:(lia) ltac:(lia) ltac:(unfold bounded, max_total_set_runes; lia)) as S.
  destruct (tokenize_from (Datatypes.S (length runes)) runes 0 0 []) as [[[g n]|]| | |]; try contradiction; auto. cbn [obind].
  destruct S as (g' & m & -> & G & _). exists m. exact G.
Qed.
