(** Proofs about the loop of the intersection test: completeness, termination. *)
From Coq Require Import String ZArith List Bool Arith Lia Sorting.Sorted.
From Verif Require Import Base SMap GlobsModel GlobsSpec GlobsProofs.
Import ListNotations.
Local Open Scope Z_scope.

Lemma app_longer A (u v w z : list A) : u ++ v = w ++ z -> (length w <= length u)%nat -> exists u', u = w ++ u' /\ z = u' ++ v.
Proof.
  revert u. induction w as [|x w IH]; intros u E L; simpl in *; [exists u; auto|]. destruct u as [|y u]; [simpl in L; lia|].
  simpl in *. injection E as -> E. destruct (IH u E ltac:(lia)) as (u' & -> & ->). eauto.
Qed.

Lemma used_inv t g s : matches_used (t :: g) s ->
  exists u v, s = u ++ v /\ Forall (has (t_kind t)) u /\ times (t_flag t) (length u) /\ u <> [] /\ matches_used g v.
Proof. intros M. inversion M; subst. eauto 8. Qed.
Lemma matches_inv t g s : matches (t :: g) s ->
  exists u v, s = u ++ v /\ Forall (has (t_kind t)) u /\ times (t_flag t) (length u) /\ matches g v.
Proof. intros M. inversion M; subst. eauto 8. Qed.

Lemma head_plain t g s : matches (t :: g) s -> t_flag t = FNone -> exists c s', s = c :: s' /\ has (t_kind t) c /\ matches g s'.
Proof.
  intros M F. inversion M as [|? ? u v H T M']; subst. rewrite F in T. simpl in T. destruct u as [|c [|d u]]; simpl in T; try lia.
  inversion H; subst. exists c, v. auto.
Qed.
Lemma head_used t g s : matches_used (t :: g) s -> exists c s', s = c :: s' /\ has (t_kind t) c.
Proof.
  intros M. inversion M as [|? ? u v H T U M']; subst. destruct u as [|c u]; [congruence|]. inversion H; subst. simpl. eauto.
Qed.
Lemma head_used_plain t g s : matches_used (t :: g) s -> t_flag t = FNone -> exists c s', s = c :: s' /\ has (t_kind t) c /\ matches_used g s'.
Proof.
  intros M F. inversion M as [|? ? u v H T U M']; subst. rewrite F in T. simpl in T. destruct u as [|c [|d u]]; simpl in T; try lia.
  inversion H; subst. exists c, v. auto.
Qed.
Lemma head_nonstar t g s : matches (t :: g) s -> t_flag t <> FStar -> exists c s', s = c :: s' /\ has (t_kind t) c.
Proof.
  intros M F. inversion M as [|? ? u v H T M']; subst. destruct u as [|c u]; [destruct (t_flag t); simpl in T; try lia; congruence|].
  inversion H; subst. simpl. eauto.
Qed.

(** *** What a star may leave behind *)
Lemma split_used t other v : forall n k u, (length other - k <= n)%nat -> (k <= length other)%nat -> Forall (has t) u -> matches_used (skipn k other) (u ++ v) ->
  exists k', (k <= k' <= length other)%nat /\ matches_used (skipn k' other) v /\
    forall q o, (k <= q < k')%nat -> nth_error other q = Some o -> exists c, has (t_kind o) c /\ has t c.
Proof.
  induction n as [|n IH]; intros k u Ln Lk F M.
  - rewrite skipn_all2 in M by lia. inversion M as [E0 E|]. symmetry in E. apply app_eq_nil in E as [-> ->]. exists k. split; [lia|].
    rewrite skipn_all2 by lia. split; [constructor|intros; lia].
  - destruct u as [|c u].
    { exists k. split; [lia|]. split; [exact M|intros; lia]. }
    destruct (nth_error other k) as [o|] eqn:Eo.
    2:{ apply nth_error_None in Eo. rewrite skipn_all2 in M by lia. inversion M. }
    assert (Lo : (k < length other)%nat) by (apply nth_error_Some; congruence).
    rewrite (skipn_cons _ _ _ _ Eo) in M. apply used_inv in M as (w & z & E & Hw & Tw & Uw & Mz).
    destruct (le_lt_dec (length w) (length (c :: u))) as [L|L].
    + destruct (app_longer _ _ _ _ _ E L) as (u' & Eu & ->).
      assert (Fu : Forall (has t) u') by (rewrite Eu in F; apply Forall_app in F; apply F).
      destruct (IH (S k) u' ltac:(lia) Lo Fu Mz) as (k' & R & M' & P). exists k'. split; [lia|]. split; [exact M'|].
      intros q o' Q Eq. destruct (Nat.eq_dec q k) as [->|]; [|eapply P; eauto; lia]. rewrite Eo in Eq. injection Eq as <-.
      destruct w as [|x w]; [congruence|]. simpl in Eu. injection Eu as -> _. inversion Hw; inversion F; subst. eauto.
    + symmetry in E. destruct (app_longer _ _ _ _ _ E ltac:(lia)) as (w' & -> & ->).
      exists k. split; [lia|]. split; [|intros; lia]. rewrite (skipn_cons _ _ _ _ Eo). apply Forall_app in Hw as [_ Hw].
      rewrite app_length in L, Tw. cbn [length] in L, Tw.
      constructor; auto; [destruct (t_flag o); simpl in *; lia|]. intros ->. simpl in L. lia.
Qed.

Lemma star_hit flagged fi other oi win ks t u v (RA : list Z -> Prop) : sets_sorted flagged -> sets_sorted other -> (oi <= length other)%nat ->
  star_result flagged fi other oi win ks -> nth_error flagged fi = Some t ->
  (forall v, RA v -> skipn (S fi) flagged = [] /\ v = [] \/ exists a A' c v', skipn (S fi) flagged = a :: A' /\ v = c :: v' /\ has (t_kind a) c) ->
  Forall (has (t_kind t)) u -> RA v -> matches_used (skipn oi other) (u ++ v) ->
  win = true \/ win = false /\ exists k, In k ks /\ matches_used (skipn k other) v.
Proof.
  intros SF SO L (token & e & Et & R & P & W1 & W2 & W3 & K & _) E HA F Hv M. rewrite Et in E. injection E as ->.
  destruct (split_used _ _ _ _ _ _ (le_n _) L F M) as (k & Rk & Mk & Ov).
  assert (St : set_sorted t) by exact (sorted_at _ _ _ SF Et).
  assert (KE : (k <= e)%nat).
  { destruct (le_lt_dec k e); auto. destruct (W3 ltac:(lia)) as (o & Eo & G). rewrite gmatch_complete in G; [discriminate|exact (sorted_at _ _ _ SO Eo)|exact St|].
    destruct (Ov e o ltac:(lia) Eo) as (c & A & B). exists c. auto. }
  destruct win; auto. right. split; auto. destruct (HA v Hv) as [[EA ->]|(a & A' & c & v' & EA & -> & Ha)].
  - exfalso. assert (k = length other).
    { destruct (nth_error other k) as [o|] eqn:Eo; [|apply nth_error_None in Eo; lia]. rewrite (skipn_cons _ _ _ _ Eo) in Mk.
      apply head_used in Mk as (x & y & Z & _). discriminate. }
    assert (length flagged <= fi + 1)%nat.
    { destruct (le_lt_dec (length flagged) (fi + 1)); auto. destruct (nth_error flagged (S fi)) as [n|] eqn:En; [|apply nth_error_None in En; lia].
      rewrite (skipn_cons _ _ _ _ En) in EA. discriminate. }
    discriminate W2; auto; lia.
  - exists k. split; [|exact Mk]. apply K; auto. split; [lia|].
    destruct (nth_error other k) as [o|] eqn:Eo; [|apply nth_error_None in Eo; rewrite skipn_all2 in Mk by lia; inversion Mk].
    destruct (nth_error flagged (S fi)) as [n|] eqn:En; [|apply nth_error_None in En; rewrite skipn_all2 in EA by lia; discriminate].
    rewrite (skipn_cons _ _ _ _ En) in EA. injection EA as <- _. exists o, n. rewrite Nat.add_1_r. split; [auto|]. split; [auto|].
    rewrite (skipn_cons _ _ _ _ Eo) in Mk. apply head_used in Mk as (x & y & Z & Hx). injection Z as -> _.
    apply gmatch_complete; [exact (sorted_at _ _ _ SO Eo)|exact (sorted_at _ _ _ SF En)|]. exists x. auto.
Qed.

(** *** Texts that use every star *)
Definition fhit (f : frame) : Prop := meet_used (skipn (fr_i f) (fr_1 f)) (skipn (fr_j f) (fr_2 f)).
Definition sorted_frame (f : frame) : Prop := sets_sorted (fr_1 f) /\ sets_sorted (fr_2 f).

Lemma walked_hit g1 g2 i j i' j' : walked g1 g2 i j i' j' -> meet_used (skipn i g1) (skipn j g2) -> meet_used (skipn i' g1) (skipn j' g2).
Proof.
  induction 1 as [|i j i' j' a b Ea Eb Fa Fb M W IH]; auto. intros (s & A & B). apply IH.
  rewrite (skipn_cons _ _ _ _ Ea) in A. rewrite (skipn_cons _ _ _ _ Eb) in B.
  apply head_used_plain in A as (c & s1 & -> & _ & A); auto. apply head_used_plain in B as (c' & s2 & E & _ & B); auto. injection E as <- <-.
  exists s1. auto.
Qed.

Lemma oriented_hit g1 i g2 j flagged fi other oi : oriented g1 i g2 j flagged fi other oi -> meet_used (skipn i g1) (skipn j g2) ->
  meet_used (skipn fi flagged) (skipn oi other).
Proof. intros ([(-> & -> & -> & ->)|(-> & -> & -> & -> & _)] & _) (s & A & B); exists s; auto. Qed.

Lemma oriented_sorted f i j flagged fi other oi : sorted_frame f -> oriented (fr_1 f) i (fr_2 f) j flagged fi other oi ->
  sets_sorted flagged /\ sets_sorted other.
Proof. intros (A & B) ([(-> & -> & -> & ->)|(-> & -> & -> & -> & _)] & _); auto. Qed.

Lemma used_heads A v : matches_used A v -> A = [] /\ v = [] \/ exists a A' c v', A = a :: A' /\ v = c :: v' /\ has (t_kind a) c.
Proof.
  destruct A as [|a A']; intros M; [left; inversion M; auto|]. right. destruct (head_used _ _ _ M) as (c & v' & -> & H). eauto 8.
Qed.

Lemma visited_hit f win ch : sorted_frame f -> visited f win ch -> fhit f -> win = true \/ win = false /\ exists c, In c ch /\ fhit c.
Proof.
  intros G V H. unfold fhit in H.
  destruct V as [i j a b W Ea Eb Fa Fb M|W|i j W Li Lj E|i j flagged fi other oi t o W O Et Ft Eo M
                |i j flagged fi other oi t o win ks W O Et Ft Eo M SR|i j flagged fi other oi t win ks W O Et Ft SR]; auto.
  - exfalso. apply (walked_hit _ _ _ _ _ _ W) in H. destruct H as (s & A & B).
    rewrite (skipn_cons _ _ _ _ Ea) in A. rewrite (skipn_cons _ _ _ _ Eb) in B.
    apply head_used in A as (c & s1 & -> & A). apply head_used in B as (c' & s2 & E & B). injection E as <- _.
    destruct G as [G1 G2]. rewrite gmatch_complete in M; [discriminate|exact (sorted_at _ _ _ G1 Ea)|exact (sorted_at _ _ _ G2 Eb)|]. exists c. auto.
  - exfalso. apply (walked_hit _ _ _ _ _ _ W) in H. destruct H as (s & A & B).
    destruct E as [[-> L]|[L ->]].
    + rewrite skipn_all in A. inversion A; subst. destruct (nth_error (fr_2 f) j) as [o|] eqn:Eo; [|apply nth_error_None in Eo; lia].
      rewrite (skipn_cons _ _ _ _ Eo) in B. apply head_used in B as (? & ? & ? & _). discriminate.
    + rewrite skipn_all in B. inversion B; subst. destruct (nth_error (fr_1 f) i) as [o|] eqn:Eo; [|apply nth_error_None in Eo; lia].
      rewrite (skipn_cons _ _ _ _ Eo) in A. apply head_used in A as (? & ? & ? & _). discriminate.
  - exfalso. apply (walked_hit _ _ _ _ _ _ W) in H. apply (oriented_hit _ _ _ _ _ _ _ _ O) in H. destruct H as (s & A & B).
    destruct (oriented_sorted _ _ _ _ _ _ _ G O) as [SF SO].
    rewrite (skipn_cons _ _ _ _ Et) in A. rewrite (skipn_cons _ _ _ _ Eo) in B.
    apply head_used in A as (c & s1 & -> & A). apply head_used in B as (c' & s2 & E & B). injection E as <- _.
    rewrite gmatch_complete in M; [discriminate|exact (sorted_at _ _ _ SF Et)|exact (sorted_at _ _ _ SO Eo)|]. exists c. auto.
  - apply (walked_hit _ _ _ _ _ _ W) in H. apply (oriented_hit _ _ _ _ _ _ _ _ O) in H. destruct H as (s & A & B).
    destruct (oriented_sorted _ _ _ _ _ _ _ G O) as [SF SO]. assert (LO : (oi < length other)%nat) by apply O.
    rewrite (skipn_cons _ _ _ _ Et) in A. apply used_inv in A as (u & v & -> & Hu & Tu & Uu & Mv).
    rewrite (skipn_cons _ _ _ _ Eo) in B. apply used_inv in B as (w & z & E & Hw & Tw & Uw & Mz).
    destruct (le_lt_dec (length w) (length u)) as [L|L].
    + destruct (app_longer _ _ _ _ _ E L) as (u' & -> & ->). apply Forall_app in Hu as [_ Hu].
      destruct (star_hit flagged fi other (S oi) win ks t u' v _ SF SO LO SR Et (used_heads _) Hu Mv Mz) as [?|(-> & k & I & Mk)]; auto.
      right. split; auto. exists (Frame flagged (fi + 1) other k). split; [apply in_or_app; left; now apply in_map|].
      unfold fhit. cbn [fr_i fr_j fr_1 fr_2]. rewrite Nat.add_1_r. exists v. auto.
    + symmetry in E. destruct (app_longer _ _ _ _ _ E ltac:(lia)) as (w' & -> & ->). apply Forall_app in Hw as [_ Hw].
      rewrite app_length in L, Tw. assert (w' <> []) by (intros ->; simpl in L; lia).
      destruct win; auto. right. split; auto. exists (Frame flagged (fi + 1) other oi). split.
      * apply in_or_app. right. destruct (t_flag o); simpl in *; auto. destruct u; [congruence|]. simpl in Tw. lia.
      * unfold fhit. cbn [fr_i fr_j fr_1 fr_2]. rewrite Nat.add_1_r. exists (w' ++ z). split; auto.
        rewrite (skipn_cons _ _ _ _ Eo). constructor; auto. destruct (t_flag o); simpl in *; auto.
        -- destruct u; [congruence|]. simpl in Tw. lia.
        -- destruct w'; [congruence|]. simpl. lia.
  - apply (walked_hit _ _ _ _ _ _ W) in H. apply (oriented_hit _ _ _ _ _ _ _ _ O) in H. destruct H as (s & A & B).
    destruct (oriented_sorted _ _ _ _ _ _ _ G O) as [SF SO]. assert (LO : (oi < length other)%nat) by apply O.
    rewrite (skipn_cons _ _ _ _ Et) in A. apply used_inv in A as (u & v & -> & Hu & Tu & Uu & Mv).
    destruct (star_hit flagged fi other oi win ks t u v _ SF SO (Nat.lt_le_incl _ _ LO) SR Et (used_heads _) Hu Mv B) as [?|(-> & k & I & Mk)]; auto.
    right. split; auto. exists (Frame flagged (fi + 1) other k). split; [now apply in_map|].
    unfold fhit. cbn [fr_i fr_j fr_1 fr_2]. rewrite Nat.add_1_r. exists v. auto.
Qed.

(** *** A glob without flags on the right *)
Definition fplain (f : frame) : Prop := sorted_frame f /\ star_inside (fr_1 f) /\ no_flags (fr_2 f).
Definition fmeet (f : frame) : Prop := meet (skipn (fr_i f) (fr_1 f)) (skipn (fr_j f) (fr_2 f)).

Lemma walked_meet g1 g2 i j i' j' : walked g1 g2 i j i' j' -> meet (skipn i g1) (skipn j g2) -> meet (skipn i' g1) (skipn j' g2).
Proof.
  induction 1 as [|i j i' j' a b Ea Eb Fa Fb M W IH]; auto. intros (s & A & B). apply IH.
  rewrite (skipn_cons _ _ _ _ Ea) in A. rewrite (skipn_cons _ _ _ _ Eb) in B.
  apply head_plain in A as (c & s1 & -> & _ & A); auto. apply head_plain in B as (c' & s2 & E & _ & B); auto. injection E as <- <-.
  exists s1. auto.
Qed.

Lemma nth_split_skipn A (l : list A) i t : nth_error l i = Some t -> l = firstn i l ++ t :: skipn (S i) l.
Proof. intros E. rewrite <- (skipn_cons _ _ _ _ E). symmetry. apply firstn_skipn. Qed.

Lemma inside_next g i t : star_inside g -> nth_error g i = Some t -> t_flag t <> FNone ->
  (t_flag t = FStar -> skipn (S i) g <> []) /\ forall t' b', skipn (S i) g = t' :: b' -> t_flag t' <> FStar.
Proof. intros H E F. eapply H; [exact (nth_split_skipn _ _ _ _ E)|exact F]. Qed.
Lemma inside_heads g i t v : star_inside g -> nth_error g i = Some t -> t_flag t <> FNone -> matches (skipn (S i) g) v ->
  skipn (S i) g = [] /\ v = [] \/ exists a A' c v', skipn (S i) g = a :: A' /\ v = c :: v' /\ has (t_kind a) c.
Proof.
  intros H E F M. destruct (inside_next _ _ _ H E F) as [_ N]. destruct (skipn (S i) g) as [|a A']; [left; inversion M; auto|].
  right. destruct (head_nonstar _ _ _ M (N _ _ eq_refl)) as (c & v' & -> & Hc). eauto 8.
Qed.

(** A rest with a star inside needs at least one character. *)
Lemma inside_nonempty g i : star_inside g -> (i < length g)%nat -> ~ matches (skipn i g) [].
Proof.
  intros H L M. destruct (nth_error g i) as [t|] eqn:E; [|apply nth_error_None in E; lia]. rewrite (skipn_cons _ _ _ _ E) in M.
  destruct (t_flag t) eqn:F.
  - apply head_plain in M as (? & ? & ? & _); auto. discriminate.
  - apply head_nonstar in M as (? & ? & ? & _); [discriminate|congruence].
  - apply matches_inv in M as (u & v & E' & Hu & Tu & M'). symmetry in E'. apply app_eq_nil in E' as [-> ->].
    destruct (inside_heads g i t [] H E ltac:(congruence) M') as [[X _]|(? & ? & ? & ? & _ & ? & _)]; [|discriminate].
    destruct (inside_next _ _ _ H E ltac:(congruence)) as [Y _]. now apply Y.
Qed.

Lemma no_flags_skipn g k : no_flags g -> no_flags (skipn k g).
Proof. intros H t I. apply H. rewrite <- (firstn_skipn k g). apply in_or_app. now right. Qed.

Lemma visited_plain f win ch : fplain f -> visited f win ch -> (win = false -> forall c, In c ch -> fplain c) /\
  (fmeet f -> win = true \/ win = false /\ exists c, In c ch /\ fmeet c).
Proof.
  intros (G & SI & NF) V. unfold fmeet.
  assert (OR : forall i j flagged fi other oi, oriented (fr_1 f) i (fr_2 f) j flagged fi other oi -> flagged = fr_1 f /\ fi = i /\ other = fr_2 f /\ oi = j).
  { intros i j flagged fi other oi ([E|(-> & -> & -> & -> & _)] & _ & _ & t & Et & Ft); auto. exfalso. apply Ft, NF, nth_error_In with j. exact Et. }
  destruct V as [i j a b W Ea Eb Fa Fb M|W|i j W Li Lj E|i j flagged fi other oi t o W O Et Ft Eo M
                |i j flagged fi other oi t o win ks W O Et Ft Eo M SR|i j flagged fi other oi t win ks W O Et Ft SR]; auto.
  - split; [intros _ c []|]. intros H. exfalso. apply (walked_meet _ _ _ _ _ _ W) in H. destruct H as (s & A & B).
    rewrite (skipn_cons _ _ _ _ Ea) in A. rewrite (skipn_cons _ _ _ _ Eb) in B.
    apply head_plain in A as (c & s1 & -> & A & _); auto. apply head_plain in B as (c' & s2 & E & B & _); auto. injection E as <- _.
    destruct G as [G1 G2]. rewrite gmatch_complete in M; [discriminate|exact (sorted_at _ _ _ G1 Ea)|exact (sorted_at _ _ _ G2 Eb)|]. exists c. auto.
  - split; [discriminate|auto].
  - split; [intros _ c []|]. intros H. exfalso. apply (walked_meet _ _ _ _ _ _ W) in H. destruct H as (s & A & B).
    destruct E as [[-> L]|[L ->]].
    + rewrite skipn_all in A. inversion A; subst. apply plain_length in B; [|now apply no_flags_skipn]. rewrite skipn_length in B. simpl in B. lia.
    + rewrite skipn_all in B. inversion B; subst. exact (inside_nonempty _ _ SI L A).
  - split; [intros _ c []|]. intros H. exfalso. apply (walked_meet _ _ _ _ _ _ W) in H. destruct H as (s & A & B).
    destruct (OR _ _ _ _ _ _ O) as (-> & -> & -> & ->). destruct G as [SF SO].
    rewrite (skipn_cons _ _ _ _ Et) in A. rewrite (skipn_cons _ _ _ _ Eo) in B.
    apply head_nonstar in A as (c & s1 & -> & A); [|congruence]. apply head_nonstar in B as (c' & s2 & E & B).
    2:{ rewrite (NF o (nth_error_In _ _ Eo)). discriminate. }
    injection E as <- _. rewrite gmatch_complete in M; [discriminate|exact (sorted_at _ _ _ SF Et)|exact (sorted_at _ _ _ SO Eo)|]. exists c. auto.
  - destruct (OR _ _ _ _ _ _ O) as (-> & -> & -> & ->).
    assert (No : t_flag o = FNone) by (apply NF, nth_error_In with j; exact Eo). rewrite No. cbn [is_none]. rewrite app_nil_r.
    split. { intros _ c I. apply in_map_iff in I as (k & <- & _). unfold fplain. cbn. auto. }
    intros H. apply (walked_meet _ _ _ _ _ _ W) in H. destruct H as (s & A & B). destruct G as [SF SO].
    assert (LO : (j < length (fr_2 f))%nat) by apply O.
    rewrite (skipn_cons _ _ _ _ Et) in A. apply matches_inv in A as (u & v & -> & Hu & Tu & Mv). rewrite Ft in Tu. cbn in Tu.
    rewrite (skipn_cons _ _ _ _ Eo) in B. apply head_plain in B as (c & z & E & Hc & Mz); auto.
    destruct u as [|x u]; [simpl in Tu; lia|]. simpl in E. injection E as -> <-. inversion Hu as [|? ? Hx Hu']; subst.
    assert (Mz' : matches_used (skipn (S j) (fr_2 f)) (u ++ v)) by (apply plain_used; auto; apply no_flags_no_star, no_flags_skipn, NF).
    destruct (star_hit (fr_1 f) i (fr_2 f) (S j) win ks t u v (matches (skipn (S i) (fr_1 f))) SF SO LO SR Et) as [?|(-> & k & I & Mk)]; auto.
    { intros w. apply inside_heads with t; auto. congruence. }
    right. split; auto. exists (Frame (fr_1 f) (i + 1) (fr_2 f) k). split; [now apply in_map|].
    cbn [fr_i fr_j fr_1 fr_2]. rewrite Nat.add_1_r. exists v. split; auto. now apply used_matches.
  - destruct (OR _ _ _ _ _ _ O) as (-> & -> & -> & ->).
    split. { intros _ c I. apply in_map_iff in I as (k & <- & _). unfold fplain. cbn. auto. }
    intros H. apply (walked_meet _ _ _ _ _ _ W) in H. destruct H as (s & A & B). destruct G as [SF SO].
    assert (LO : (j < length (fr_2 f))%nat) by apply O.
    rewrite (skipn_cons _ _ _ _ Et) in A. apply matches_inv in A as (u & v & -> & Hu & Tu & Mv).
    assert (Mz' : matches_used (skipn j (fr_2 f)) (u ++ v)) by (apply plain_used; auto; apply no_flags_no_star, no_flags_skipn, NF).
    destruct (star_hit (fr_1 f) i (fr_2 f) j win ks t u v (matches (skipn (S i) (fr_1 f))) SF SO (Nat.lt_le_incl _ _ LO) SR Et) as [?|(-> & k & I & Mk)]; auto.
    { intros w. apply inside_heads with t; auto. congruence. }
    right. split; auto. exists (Frame (fr_1 f) (i + 1) (fr_2 f) k). split; [now apply in_map|].
    cbn [fr_i fr_j fr_1 fr_2]. rewrite Nat.add_1_r. exists v. split; auto. now apply used_matches.
Qed.

(** *** Termination *)
Definition rem (f : frame) : nat := (length (fr_1 f) - fr_i f) + (length (fr_2 f) - fr_j f).
Definition sizes (f : frame) : nat := length (fr_1 f) + length (fr_2 f).

Lemma walked_le g1 g2 i j i' j' : walked g1 g2 i j i' j' -> (i <= i' /\ j <= j')%nat.
Proof. induction 1; lia. Qed.

Lemma visited_small f win ch : wf_frame f -> visited f win ch -> win = false ->
  (length ch <= sizes f + 1)%nat /\ forall c, In c ch -> wf_frame c /\ sizes c = sizes f /\ (rem c < rem f)%nat.
Proof.
  intros [Wi Wj] V E.
  assert (OR : forall i j flagged fi other oi, walked (fr_1 f) (fr_2 f) (fr_i f) (fr_j f) i j -> oriented (fr_1 f) i (fr_2 f) j flagged fi other oi ->
    (length other <= sizes f)%nat /\ forall k, (oi <= k <= length other)%nat -> wf_frame (Frame flagged (fi + 1) other k) /\
      sizes (Frame flagged (fi + 1) other k) = sizes f /\ (rem (Frame flagged (fi + 1) other k) < rem f)%nat).
  { intros i j flagged fi other oi W (O & Lf & Lo & _). apply walked_le in W as [W1 W2]. unfold wf_frame, sizes, rem. cbn [fr_i fr_j fr_1 fr_2].
    destruct O as [(-> & -> & -> & ->)|(-> & -> & -> & -> & _)]; (split; [lia|]); intros k K; lia. }
  destruct V as [i j a b W Ea Eb Fa Fb M|W|i j W Li Lj E'|i j flagged fi other oi t o W O Et Ft Eo M
                |i j flagged fi other oi t o win ks W O Et Ft Eo M SR|i j flagged fi other oi t win ks W O Et Ft SR];
    try (split; [simpl; lia|intros c []]).
  - destruct (OR _ _ _ _ _ _ W O) as [L R]. assert (LO : (oi < length other)%nat) by apply O.
    destruct SR as (token & e & _ & Re & _ & _ & _ & _ & K & LK). specialize (K E). split.
    + rewrite app_length, map_length. destruct (is_none (t_flag o)); simpl; lia.
    + intros c I. apply in_app_or in I as [I|I].
      * apply in_map_iff in I as (k & <- & I). apply K in I as (Q & _). apply R. lia.
      * destruct (is_none (t_flag o)); [destruct I|]. destruct I as [<-|[]]. apply R. lia.
  - destruct (OR _ _ _ _ _ _ W O) as [L R]. assert (LO : (oi < length other)%nat) by apply O.
    destruct SR as (token & e & _ & Re & _ & _ & _ & _ & K & LK). specialize (K E). split.
    + rewrite map_length. lia.
    + intros c I. apply in_map_iff in I as (k & <- & I). apply K in I as (Q & _). apply R. lia.
Qed.

(** The weight of a stack decreases. *)
Definition weight (n : nat) (f : frame) : nat := (n + 2) ^ rem f.
Definition total (n : nat) (st : list frame) : nat := fold_right (fun f a => weight n f + a)%nat 0%nat st.

Lemma total_app n a b : total n (a ++ b) = (total n a + total n b)%nat.
Proof. induction a as [|f a IH]; simpl; auto. rewrite IH. lia. Qed.

Lemma total_small n ch m : (forall c, In c ch -> rem c <= m)%nat -> (total n ch <= length ch * (n + 2) ^ m)%nat.
Proof.
  induction ch as [|c ch IH]; intros H; simpl; auto. assert (weight n c <= (n + 2) ^ m)%nat.
  { unfold weight. apply Nat.pow_le_mono_r; [lia|]. apply H. now left. }
  specialize (IH (fun x I => H x (or_intror I))). lia.
Qed.

Definition wf_stack (n : nat) (st : list frame) : Prop := Forall (fun f => wf_frame f /\ sizes f = n) st.

Lemma loop_terminates n : forall w st, (total n st < w)%nat -> wf_stack n st ->
  exists k x, forall m, (k <= m)%nat -> intersect_loop m st = Ok x.
Proof.
  induction w as [|w IH]; intros st T WF; [lia|]. destruct st as [|f st].
  { exists 1%nat, (Some false). intros [|m] L; [lia|reflexivity]. }
  inversion WF as [|? ? [Wf Sf] WF']; subst. pose proof (visit_spec f st Wf) as V.
  destruct (visit f st) as [[[win st']|]| | |] eqn:EV; try contradiction.
  2:{ exists 1%nat, None. intros [|m] L; [lia|]. cbn [intersect_loop]. rewrite EV. reflexivity. }
  destruct V as (ch & V & ST). destruct win.
  { exists 1%nat, (Some true). intros [|m] L; [lia|]. cbn [intersect_loop]. rewrite EV. reflexivity. }
  specialize (ST eq_refl). subst st'. destruct (visited_small _ _ _ Wf V eq_refl) as [LC CH].
  destruct (IH (ch ++ st)) as (k & x & K).
  - rewrite total_app. cbn [total fold_right] in T. fold (total (sizes f) st) in T.
    assert (total (sizes f) ch < weight (sizes f) f)%nat; [|lia].
    destruct ch as [|c ch]. { cbn. unfold weight. apply Nat.neq_0_lt_0, Nat.pow_nonzero. lia. }
    assert (R : (0 < rem f)%nat) by (destruct (CH c (or_introl eq_refl)) as (_ & _ & R); lia).
    pose proof (total_small (sizes f) (c :: ch) (rem f - 1)) as TS.
    assert (X : forall d, In d (c :: ch) -> (rem d <= rem f - 1)%nat) by (intros d I; destruct (CH d I) as (_ & _ & ?); lia).
    specialize (TS X). unfold weight. replace (rem f) with (S (rem f - 1)) at 1 by lia. rewrite Nat.pow_succ_r'.
    assert (0 < (sizes f + 2) ^ (rem f - 1))%nat by (apply Nat.neq_0_lt_0, Nat.pow_nonzero; lia).
    eapply Nat.le_lt_trans; [exact TS|]. apply Nat.mul_lt_mono_pos_r; auto. lia.
  - apply Forall_app. split; auto. apply Forall_forall. intros c I. destruct (CH c I) as (A & B & _). auto.
  - exists (S k), x. intros [|m] L; [lia|]. cbn [intersect_loop]. rewrite EV. apply K. lia.
Qed.

(** *** The loop's answers *)
Lemma visited_globs f win ch c : visited f win ch -> In c ch -> (fr_1 c = fr_1 f /\ fr_2 c = fr_2 f) \/ (fr_1 c = fr_2 f /\ fr_2 c = fr_1 f).
Proof.
  intros V I.
  assert (OR : forall i j flagged fi other oi k, oriented (fr_1 f) i (fr_2 f) j flagged fi other oi ->
    let c := Frame flagged (fi + 1) other k in (fr_1 c = fr_1 f /\ fr_2 c = fr_2 f) \/ (fr_1 c = fr_2 f /\ fr_2 c = fr_1 f)).
  { intros i j flagged fi other oi k (O & _). cbn. destruct O as [(-> & -> & -> & ->)|(-> & -> & -> & -> & _)]; auto. }
  destruct V as [| | | |i j flagged fi other oi t o win ks W O Et Ft Eo M SR|i j flagged fi other oi t win ks W O Et Ft SR]; try destruct I.
  - apply in_app_or in I as [I|I].
    + apply in_map_iff in I as (k & <- & I). eapply OR; eauto.
    + destruct (is_none (t_flag o)); [destruct I|]. destruct I as [<-|[]]. eapply OR; eauto.
  - apply in_map_iff in I as (k & <- & I). eapply OR; eauto.
Qed.

Lemma loop_sound : forall m st, Forall (fun f => wf_frame f /\ good_globs f) st -> intersect_loop m st = Ok (Some true) ->
  exists f, In f st /\ fjoint f.
Proof.
  induction m as [|m IH]; intros st WF E; [discriminate|]. cbn [intersect_loop] in E. destruct st as [|f st]; [discriminate|].
  inversion WF as [|? ? [Wf Gf] WF']; subst. pose proof (visit_spec f st Wf) as V.
  destruct (visit f st) as [[[win st']|]| | |]; try contradiction; try discriminate. cbn [obind] in E.
  destruct V as (ch & V & ST). destruct win.
  - exists f. split; [now left|]. eapply visited_joint; eauto.
  - specialize (ST eq_refl). subst st'. destruct (IH (ch ++ st)) as (g & I & J); auto.
    + apply Forall_app. split; auto. apply Forall_forall. intros c I. split; [apply (visited_small _ _ _ Wf V eq_refl); auto|].
      destruct Gf as (A & B & C & D). unfold good_globs. destruct (visited_globs _ _ _ _ V I) as [[-> ->]|[-> ->]]; auto.
    + apply in_app_or in I as [I|I]; [|exists g; split; auto; now right]. exists f. split; [now left|]. eapply visited_joint; eauto.
Qed.

Lemma loop_complete : forall m st f, Forall (fun f => wf_frame f /\ sorted_frame f) st -> In f st -> fhit f ->
  intersect_loop m st <> Ok (Some false).
Proof.
  induction m as [|m IH]; intros st f0 WF I0 H E; [discriminate|]. cbn [intersect_loop] in E. destruct st as [|f st]; [destruct I0|].
  inversion WF as [|? ? [Wf Gf] WF']; subst. pose proof (visit_spec f st Wf) as V.
  destruct (visit f st) as [[[win st']|]| | |]; try contradiction; try discriminate. cbn [obind] in E.
  destruct V as (ch & V & ST). destruct win; [discriminate|]. specialize (ST eq_refl). subst st'.
  assert (FA : Forall (fun f => wf_frame f /\ sorted_frame f) (ch ++ st)).
  { apply Forall_app. split; auto. apply Forall_forall. intros c I. split; [apply (visited_small _ _ _ Wf V eq_refl); auto|].
    destruct Gf as (A & B). unfold sorted_frame. destruct (visited_globs _ _ _ _ V I) as [[-> ->]|[-> ->]]; auto. }
  destruct I0 as [->|I0].
  - destruct (visited_hit _ _ _ Gf V H) as [?|(_ & c & I & Hc)]; [discriminate|]. eapply (IH _ c); eauto. apply in_or_app. auto.
  - eapply (IH _ f0); eauto. apply in_or_app. auto.
Qed.

Lemma loop_complete_plain : forall m st f, Forall (fun f => wf_frame f /\ fplain f) st -> In f st -> fmeet f ->
  intersect_loop m st <> Ok (Some false).
Proof.
  induction m as [|m IH]; intros st f0 WF I0 H E; [discriminate|]. cbn [intersect_loop] in E. destruct st as [|f st]; [destruct I0|].
  inversion WF as [|? ? [Wf Gf] WF']; subst. pose proof (visit_spec f st Wf) as V.
  destruct (visit f st) as [[[win st']|]| | |]; try contradiction; try discriminate. cbn [obind] in E.
  destruct V as (ch & V & ST). destruct win; [discriminate|]. specialize (ST eq_refl). subst st'. destruct (visited_plain _ _ _ Gf V) as [VP VM].
  assert (FA : Forall (fun f => wf_frame f /\ fplain f) (ch ++ st)).
  { apply Forall_app. split; auto. apply Forall_forall. intros c I. split; [apply (visited_small _ _ _ Wf V eq_refl); auto|]. auto. }
  destruct I0 as [->|I0].
  - destruct (VM H) as [?|(_ & c & I & Hc)]; [discriminate|]. eapply (IH _ c); eauto. apply in_or_app. auto.
  - eapply (IH _ f0); eauto. apply in_or_app. auto.
Qed.
