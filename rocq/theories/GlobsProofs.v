(** Proofs about the intersection test of regex.globs_match. *)
From Coq Require Import String ZArith List Bool Arith Lia Sorting.Sorted.
From Verif Require Import Base SMap GlobsModel GlobsSpec.
Import ListNotations.
Local Open Scope Z_scope.

(** *** Sorted sets *)
Definition set_sorted (t : gtoken) : Prop := match t_kind t with KSet rs => StronglySorted Z.lt rs | _ => True end.
Definition sets_sorted (g : glob) : Prop := Forall set_sorted g.

Lemma binary_search_ok l x : StronglySorted Z.lt l -> (binary_search l x = true <-> In x l).
Proof.
  induction 1 as [|y l H IH F]; simpl; [split; [discriminate|tauto]|]. destruct (Z.ltb_spec y x).
  - rewrite IH. split; [auto|intros [->|I]; [lia|auto]].
  - destruct (Z.ltb_spec x y); simpl; split; try discriminate; auto.
    + intros [->|I]; [lia|]. rewrite Forall_forall in F. apply F in I. lia.
    + intros _. left. lia.
Qed.

Lemma share_ok a : forall b, StronglySorted Z.lt a -> StronglySorted Z.lt b -> (share a b = true <-> exists c, In c a /\ In c b).
Proof.
  induction a as [|x a IHa]; intros b Ha Hb.
  - destruct b; simpl; split; try discriminate; intros (c & [] & _).
  - induction b as [|y b IHb].
    + simpl. split; [discriminate|]. intros (c & _ & []).
    + inversion Ha as [|? ? Ha' Fa]; subst. inversion Hb as [|? ? Hb' Fb]; subst. rewrite Forall_forall in Fa, Fb.
      cbn [share]. destruct (Z.eqb_spec x y) as [->|N]; [split; [exists y; simpl; auto|reflexivity]|].
      destruct (Z.ltb_spec x y).
      * rewrite IHa by auto. split; intros (c & I & J).
        -- exists c. simpl. auto.
        -- destruct I as [<-|I]; [|eauto]. destruct J as [J|J]; [lia|]. apply Fb in J. lia.
      * specialize (IHb Hb'). cbn [share] in IHb. etransitivity; [exact IHb|]. split; intros (c & I & J).
        -- exists c. simpl in *. auto.
        -- destruct J as [<-|J]; [|eauto]. destruct I as [I|I]; [lia|]. apply Fa in I. lia.
Qed.

Definition overlap (t1 t2 : gtoken) : Prop := exists c, has (t_kind t1) c /\ has (t_kind t2) c.

Lemma gmatch_complete t1 t2 : set_sorted t1 -> set_sorted t2 -> overlap t1 t2 -> gmatch t1 t2 = true.
Proof.
  unfold set_sorted, overlap, gmatch. intros S1 S2 (c & H1 & H2). destruct (t_kind t1), (t_kind t2); simpl in *; subst; auto.
  - apply Z.eqb_refl.
  - now apply binary_search_ok.
  - now apply binary_search_ok.
  - apply share_ok; eauto.
Qed.

Lemma gmatch_sound t1 t2 : set_sorted t1 -> set_sorted t2 -> t_kind t1 <> KSet [] -> t_kind t2 <> KSet [] ->
  gmatch t1 t2 = true -> overlap t1 t2.
Proof.
  unfold set_sorted, overlap, gmatch. intros S1 S2 E1 E2 H. destruct (t_kind t1) as [x| |xs], (t_kind t2) as [y| |ys]; simpl in *.
  - apply Z.eqb_eq in H. subst. eauto.
  - eauto.
  - exists x. split; auto. now apply binary_search_ok.
  - eauto.
  - exists 0. auto.
  - destruct ys as [|y ys]; [congruence|]. exists y. simpl. auto.
  - exists y. split; auto. now apply binary_search_ok.
  - destruct xs as [|x xs]; [congruence|]. exists x. simpl. auto.
  - apply share_ok in H; auto.
Qed.

(** *** Matches *)
Lemma used_matches g s : matches_used g s -> matches g s.
Proof. induction 1; constructor; auto. Qed.
Lemma plain_used g s : matches g s -> no_star g -> matches_used g s.
Proof.
  induction 1 as [|t g u s F T M IH]; intros N; constructor; auto.
  - intros ->. specialize (N t (or_introl eq_refl)). destruct (t_flag t); simpl in T; try lia; congruence.
  - apply IH. intros x I. apply N. now right.
Qed.
Lemma no_flags_no_star g : no_flags g -> no_star g.
Proof. intros H t I. rewrite (H t I). discriminate. Qed.

Lemma matches_app a b s : matches (a ++ b) s <-> exists u v, s = u ++ v /\ matches a u /\ matches b v.
Proof.
  revert s. induction a as [|t a IH]; intros s; simpl; split.
  - intros H. exists [], s. repeat split; auto. constructor.
  - intros (u & v & -> & H & H'). inversion H; subst. auto.
  - intros H. inversion H; subst. apply IH in H5 as (x & y & -> & A & B). exists (u ++ x), y. rewrite app_assoc. repeat split; auto. now constructor.
  - intros (u & v & -> & H & H'). inversion H; subst. rewrite <- app_assoc. constructor; auto. apply IH. eauto.
Qed.
Lemma used_app a b s : matches_used (a ++ b) s <-> exists u v, s = u ++ v /\ matches_used a u /\ matches_used b v.
Proof.
  revert s. induction a as [|t a IH]; intros s; simpl; split.
  - intros H. exists [], s. repeat split; auto. constructor.
  - intros (u & v & -> & H & H'). inversion H; subst. auto.
  - intros H. inversion H; subst. apply IH in H6 as (x & y & -> & A & B). exists (u ++ x), y. rewrite app_assoc. repeat split; auto. now constructor.
  - intros (u & v & -> & H & H'). inversion H; subst. rewrite <- app_assoc. constructor; auto. apply IH. eauto.
Qed.
Lemma plain_length g s : no_flags g -> matches g s -> length s = length g.
Proof.
  intros N M. induction M as [|t g u s F T M IH]; auto. rewrite app_length, IH; [|intros x I; apply N; now right].
  rewrite (N t (or_introl eq_refl)) in T. simpl in *. lia.
Qed.

Lemma skipn_cons A (l : list A) i x : nth_error l i = Some x -> skipn i l = x :: skipn (S i) l.
Proof. revert i. induction l as [|y l IH]; intros [|i] H; simpl in *; try discriminate; [congruence|]. now apply IH. Qed.

(** *** Advancing *)
Definition ok_span (g : span) : Prop := sets_sorted g.

Lemma sorted_at g i t : sets_sorted g -> nth_error g i = Some t -> set_sorted t.
Proof. intros H E. unfold sets_sorted in H. rewrite Forall_forall in H. eapply H, nth_error_In, E. Qed.

(** What [advance] did: matched equally many unflagged tokens. *)
Inductive walked (g1 g2 : span) : nat -> nat -> nat -> nat -> Prop :=
| w_here i j : walked g1 g2 i j i j
| w_step i j i' j' a b : nth_error g1 i = Some a -> nth_error g2 j = Some b -> t_flag a = FNone -> t_flag b = FNone ->
    gmatch a b = true -> walked g1 g2 (S i) (S j) i' j' -> walked g1 g2 i j i' j'.

Lemma is_none_ok f : is_none f = true <-> f = FNone.
Proof. destruct f; simpl; split; congruence. Qed.

Lemma advance_spec g1 g2 : forall fuel i j, (length g1 < i + fuel)%nat -> (i <= length g1)%nat -> (j <= length g2)%nat ->
  match advance fuel g1 i g2 j with
  | Ok None => exists i' j' a b, walked g1 g2 i j i' j' /\ nth_error g1 i' = Some a /\ nth_error g2 j' = Some b /\
      t_flag a = FNone /\ t_flag b = FNone /\ gmatch a b = false
  | Ok (Some (i', j')) => walked g1 g2 i j i' j' /\ (i <= i' <= length g1)%nat /\ (j <= j' <= length g2)%nat /\
      (i' = length g1 \/ j' = length g2 \/
       exists a b, nth_error g1 i' = Some a /\ nth_error g2 j' = Some b /\ (t_flag a <> FNone \/ t_flag b <> FNone))
  | _ => False
  end.
Proof.
  induction fuel as [|fuel IH]; intros i j F Hi Hj; [lia|]. cbn [advance].
  destruct (Nat.ltb_spec i (length g1)) as [Li|Li]; cbn [andb].
  2:{ split; [constructor|]. split; [lia|]. split; [lia|]. left. lia. }
  destruct (Nat.ltb_spec j (length g2)) as [Lj|Lj].
  2:{ split; [constructor|]. split; [lia|]. split; [lia|]. right. left. lia. }
  unfold tok_at. destruct (nth_error g1 i) as [a|] eqn:Ea; [|apply nth_error_None in Ea; lia].
  destruct (nth_error g2 j) as [b|] eqn:Eb; [|apply nth_error_None in Eb; lia]. cbn [obind].
  destruct (is_none (t_flag a)) eqn:Fa; cbn [negb orb].
  2:{ split; [constructor|]. split; [lia|]. split; [lia|]. right. right. exists a, b. repeat split; auto. left.
      intros E. rewrite E in Fa. discriminate. }
  destruct (is_none (t_flag b)) eqn:Fb; cbn [negb orb].
  2:{ split; [constructor|]. split; [lia|]. split; [lia|]. right. right. exists a, b. repeat split; auto. right.
      intros E. rewrite E in Fb. discriminate. }
  apply is_none_ok in Fa, Fb. destruct (gmatch a b) eqn:M; cbn [negb].
  - specialize (IH (S i) (S j) ltac:(lia) ltac:(lia) ltac:(lia)). destruct (advance fuel g1 (S i) g2 (S j)) as [[[i' j']|]| | |]; auto.
    + destruct IH as (W & I1 & I2 & I3). split; [econstructor; eauto|]. split; [lia|]. split; [lia|]. exact I3.
    + destruct IH as (i' & j' & a' & b' & W & R). exists i', j', a', b'. split; [econstructor; eauto|]. exact R.
  - exists i, j, a, b. repeat split; auto. constructor.
Qed.

(** *** Candidates *)
Definition opt_match (o : gtoken) (next : option gtoken) : bool := match next with Some n => gmatch o n | None => false end.

Lemma candidates_spec token next other : forall fuel k acc, (length other < k + fuel)%nat -> (k <= length other)%nat ->
  match candidates fuel token next other k acc with
  | Ok (ks, done) => exists e, (k <= e <= length other)%nat /\
      (forall q o, (k <= q < e)%nat -> nth_error other q = Some o -> gmatch o token = true) /\
      (done = true -> e = length other) /\
      (done = false -> exists o, nth_error other e = Some o /\ gmatch o token = false) /\
      (forall q, In q ks <-> In q acc \/ (k <= q <= e)%nat /\ exists o, nth_error other q = Some o /\ opt_match o next = true)
      /\ (length ks <= length acc + (length other - k))%nat
  | _ => False
  end.
Proof.
  induction fuel as [|fuel IH]; intros k acc F K; [lia|]. cbn [candidates]. destruct (Nat.ltb_spec k (length other)) as [L|L].
  2:{ assert (k = length other) by lia. subst. exists (length other). split; [lia|]. split; [intros; lia|]. split; [auto|]. split; [discriminate|].
      split; [|lia]. intros q. split; [auto|]. intros [I|(R & o & E & _)]; auto.
      assert (q < length other)%nat by (apply nth_error_Some; congruence). lia. }
  unfold tok_at. destruct (nth_error other k) as [o|] eqn:E; [|apply nth_error_None in E; lia]. cbn [obind].
  set (acc' := match next with Some n => if gmatch o n then acc ++ [k] else acc | None => acc end).
  assert (A : forall q, In q acc' <-> In q acc \/ q = k /\ opt_match o next = true).
  { intros q. unfold acc', opt_match. destruct next as [n|]; [destruct (gmatch o n)|]; rewrite ?in_app_iff; simpl; intuition congruence. }
  assert (AL : (length acc' <= length acc + 1)%nat).
  { unfold acc'. destruct next as [n|]; [destruct (gmatch o n)|]; rewrite ?app_length; simpl; lia. }
  destruct (gmatch o token) eqn:M; cbn [negb].
  - specialize (IH (S k) acc' ltac:(lia) ltac:(lia)). destruct (candidates fuel token next other (S k) acc') as [[ks done]| | |]; auto.
    destruct IH as (e & R & P & D & N & C & LK). exists e. split; [lia|]. split; [|split; [exact D|split; [exact N|split; [|lia]]]].
    + intros q o' Q E'. destruct (Nat.eq_dec q k) as [->|]; [congruence|]. eapply P; eauto. lia.
    + intros q. rewrite C, A. split.
      * intros [[I|[-> O]]|(Q & O)]; auto; right; [split; [lia|eauto]|split; [lia|auto]].
      * intros [I|(Q & o' & E' & O)]; auto. destruct (Nat.eq_dec q k) as [->|]; [left; right; split; auto; congruence|].
        right. split; [lia|eauto].
  - exists k. split; [lia|]. split; [intros; lia|]. split; [discriminate|]. split; [eauto|]. split; [|lia].
    intros q. rewrite A. split.
    + intros [I|[-> O]]; auto. right. split; [lia|eauto].
    + intros [I|(Q & o' & E' & O)]; auto. assert (q = k) by lia. subst. right. split; auto. congruence.
Qed.

(** *** Visiting a frame *)
Lemma push_all_spec flagged fi other : forall ks stack,
  match push_all flagged fi other ks stack with
  | Some st => st = map (Frame flagged (fi + 1) other) (rev ks) ++ stack
  | None => True
  end.
Proof.
  induction ks as [|k ks IH]; intros stack; cbn [push_all]; auto. destruct (gi_max_frames <=? length stack)%nat; auto.
  specialize (IH (Frame flagged (fi + 1) other k :: stack)). destruct (push_all _ _ _ ks _); auto. rewrite IH. cbn [rev]. rewrite map_app, <- app_assoc. reflexivity.
Qed.

(** What [expand_star] finds, without the stack. *)
Definition star_result (flagged : span) (fi : nat) (other : span) (oi : nat) (win : bool) (ks : list nat) : Prop :=
  exists token e, nth_error flagged fi = Some token /\ (oi <= e <= length other)%nat /\
    (forall q o, (oi <= q < e)%nat -> nth_error other q = Some o -> gmatch o token = true) /\
    (win = true <-> e = length other /\ (length flagged <= fi + 1)%nat /\ win = true) /\
    (e = length other -> (length flagged <= fi + 1)%nat -> win = true) /\
    (e < length other -> exists o, nth_error other e = Some o /\ gmatch o token = false)%nat /\
    (win = false -> forall q, In q ks <-> (oi <= q <= e)%nat /\ exists o n, nth_error other q = Some o /\ nth_error flagged (fi + 1) = Some n /\ gmatch o n = true) /\
    (length ks <= length other - oi)%nat.

Lemma expand_star_spec flagged fi other oi stack : (fi < length flagged)%nat -> (oi <= length other)%nat ->
  match expand_star flagged fi other oi stack with
  | Ok (Some (win, st)) => exists ks, star_result flagged fi other oi win ks /\
      (win = false -> st = map (Frame flagged (fi + 1) other) ks ++ stack)
  | Ok None => exists ks, star_result flagged fi other oi false ks
  | _ => False
  end.
Proof.
  intros Hf Ho. unfold expand_star, tok_at. destruct (nth_error flagged fi) as [token|] eqn:Et; [|apply nth_error_None in Et; lia]. cbn [obind].
  set (has_next := (fi + 1 <? length flagged)%nat).
  assert (HN : exists next, (if has_next then let! n := match nth_error flagged (fi + 1) with Some t => Ok t | None => Ub end in Ok (Some n) else Ok None)
     = Ok next /\ nth_error flagged (fi + 1) = next).
  { unfold has_next. destruct (Nat.ltb_spec (fi + 1) (length flagged)) as [L|L].
    - destruct (nth_error flagged (fi + 1)) as [n|] eqn:E; [|apply nth_error_None in E; lia]. exists (Some n). auto.
    - exists None. split; auto. now apply nth_error_None. }
  destruct HN as (next & -> & EN). cbn [obind].
  pose proof (candidates_spec token next other (S (length other)) oi [] ltac:(lia) ltac:(lia)) as C.
  destruct (candidates (S (length other)) token next other oi []) as [[ks done]| | |]; try contradiction. cbn [obind].
  destruct C as (e & R & P & D & N & C & LK).
  assert (CE : e = length other -> done = true).
  { intros E. destruct done; auto. destruct (N eq_refl) as (o & Eo & _). assert (e < length other)%nat by (apply nth_error_Some; congruence). lia. }
  assert (SR : forall win, (win = true <-> done = true /\ has_next = false) -> star_result flagged fi other oi win ks).
  { intros win W. exists token, e. split; [auto|]. split; [auto|]. split; [auto|].
    assert (HH : has_next = false <-> (length flagged <= fi + 1)%nat).
    { unfold has_next. destruct (Nat.ltb_spec (fi + 1) (length flagged)); split; intros; try discriminate; try lia; auto. }
    split; [|split; [|split; [|split]]].
    - split; [|tauto]. intros T. apply W in T as T2. destruct T2 as [T1 T2]. split; [auto|]. split; [now apply HH|auto].
    - intros E L. apply W. split; [now apply CE|now apply HH].
    - intros L. destruct done; [specialize (D eq_refl); lia|]. auto.
    - intros _ q. rewrite C. split.
      + intros [[]|(Q & o & Eo & O)]. split; auto. unfold opt_match in O. destruct next as [n|]; [|discriminate]. exists o, n. auto.
      + intros (Q & o & n & Eo & En & O). right. split; auto. exists o. split; auto. rewrite <- EN, En. exact O.
    - simpl in LK. lia. }
  destruct done eqn:ED, has_next eqn:EH; cbn [andb negb].
  2:{ exists ks. split; [apply SR; tauto|discriminate]. }
  all: pose proof (push_all_spec flagged fi other (rev ks) stack) as PA; destruct (push_all flagged fi other (rev ks) stack) as [st|].
  all: exists ks; try (split; [apply SR; split; [discriminate|intros [? ?]; discriminate]|intros _; rewrite PA, rev_involutive; reflexivity]).
  all: apply SR; split; [discriminate|intros [? ?]; discriminate].
Qed.

(** The span with the flagged token first. *)
Definition oriented (g1 : span) (i : nat) (g2 : span) (j : nat) (flagged : span) (fi : nat) (other : span) (oi : nat) : Prop :=
  ((flagged = g1 /\ fi = i /\ other = g2 /\ oi = j) \/
   (flagged = g2 /\ fi = j /\ other = g1 /\ oi = i /\ exists a, nth_error g1 i = Some a /\ t_flag a = FNone)) /\
  (fi < length flagged)%nat /\ (oi < length other)%nat /\ exists t, nth_error flagged fi = Some t /\ t_flag t <> FNone.

Inductive visited (f : frame) : bool -> list frame -> Prop :=
| v_mismatch i j a b : walked (fr_1 f) (fr_2 f) (fr_i f) (fr_j f) i j -> nth_error (fr_1 f) i = Some a -> nth_error (fr_2 f) j = Some b ->
    t_flag a = FNone -> t_flag b = FNone -> gmatch a b = false -> visited f false []
| v_end : walked (fr_1 f) (fr_2 f) (fr_i f) (fr_j f) (length (fr_1 f)) (length (fr_2 f)) -> visited f true []
| v_short i j : walked (fr_1 f) (fr_2 f) (fr_i f) (fr_j f) i j -> (i <= length (fr_1 f))%nat -> (j <= length (fr_2 f))%nat ->
    (i = length (fr_1 f) /\ j < length (fr_2 f) \/ i < length (fr_1 f) /\ j = length (fr_2 f))%nat -> visited f false []
| v_plus_mismatch i j flagged fi other oi t o : walked (fr_1 f) (fr_2 f) (fr_i f) (fr_j f) i j ->
    oriented (fr_1 f) i (fr_2 f) j flagged fi other oi -> nth_error flagged fi = Some t -> t_flag t = FPlus ->
    nth_error other oi = Some o -> gmatch t o = false -> visited f false []
| v_plus i j flagged fi other oi t o win ks : walked (fr_1 f) (fr_2 f) (fr_i f) (fr_j f) i j ->
    oriented (fr_1 f) i (fr_2 f) j flagged fi other oi -> nth_error flagged fi = Some t -> t_flag t = FPlus ->
    nth_error other oi = Some o -> gmatch t o = true -> star_result flagged fi other (S oi) win ks ->
    visited f win (map (Frame flagged (fi + 1) other) ks ++ if is_none (t_flag o) then [] else [Frame flagged (fi + 1) other oi])
| v_star i j flagged fi other oi t win ks : walked (fr_1 f) (fr_2 f) (fr_i f) (fr_j f) i j ->
    oriented (fr_1 f) i (fr_2 f) j flagged fi other oi -> nth_error flagged fi = Some t -> t_flag t = FStar ->
    star_result flagged fi other oi win ks -> visited f win (map (Frame flagged (fi + 1) other) ks).

Definition wf_frame (f : frame) : Prop := (fr_i f <= length (fr_1 f))%nat /\ (fr_j f <= length (fr_2 f))%nat.

Lemma visit_spec f stack : wf_frame f ->
  match visit f stack with
  | Ok (Some (win, st)) => exists ch, visited f win ch /\ (win = false -> st = ch ++ stack)
  | Ok None => True
  | _ => False
  end.
Proof.
  intros [Wi Wj]. unfold visit. destruct f as [g1 i0 g2 j0]. cbn [fr_1 fr_2 fr_i fr_j] in *.
  pose proof (advance_spec g1 g2 (S (length g1)) i0 j0 ltac:(lia) Wi Wj) as A.
  destruct (advance (S (length g1)) g1 i0 g2 j0) as [[[i j]|]| | |]; try contradiction; cbn [obind].
  2:{ destruct A as (i & j & a & b & W & Ea & Eb & Fa & Fb & M). exists []. split; [eapply v_mismatch; eauto|auto]. }
  destruct A as (W & Ri & Rj & A).
  destruct (Nat.eqb_spec i (length g1)) as [Ei|Ei], (Nat.eqb_spec j (length g2)) as [Ej|Ej]; cbn [andb].
  - exists []. split; [|discriminate]. apply v_end. cbn. congruence.
  - destruct (Nat.leb_spec (length g1) i) as [L|L]; [|lia]. exists []. split; [|auto]. eapply v_short; cbn; eauto; lia.
  - destruct (Nat.leb_spec (length g2) j) as [L|L]; [|lia]. rewrite orb_true_r. exists []. split; [|auto]. eapply v_short; cbn; eauto; lia.
  - destruct (Nat.leb_spec (length g1) i) as [L|L]; [lia|]. destruct (Nat.leb_spec (length g2) j) as [L'|L']; [lia|]. cbn [orb].
    unfold tok_at at 1. destruct A as [A|[A|(a & b & Ea & Eb & FL)]]; [lia|lia|]. rewrite Ea. cbn [obind].
    set (flagged1 := negb (is_none (t_flag a))).
    assert (O : exists t, oriented g1 i g2 j (if flagged1 then g1 else g2) (if flagged1 then i else j) (if flagged1 then g2 else g1) (if flagged1 then j else i)
      /\ nth_error ((if flagged1 then g1 else g2) : span) (if flagged1 then i else j) = Some t /\ t_flag t <> FNone).
    { unfold flagged1, oriented. destruct (is_none (t_flag a)) eqn:N; cbn [negb].
      - apply is_none_ok in N. assert (t_flag b <> FNone) by tauto. exists b. split; [|auto]. split; [right; repeat split; eauto|].
        split; [lia|]. split; [lia|]. eauto.
      - assert (t_flag a <> FNone) by (intros E; rewrite E in N; discriminate). exists a. split; [|auto]. split; [left; auto|].
        split; [lia|]. split; [lia|]. eauto. }
    revert O. generalize ((if flagged1 then g1 else g2) : span) as flagged, (if flagged1 then i else j) as fi, ((if flagged1 then g2 else g1) : span) as other,
      (if flagged1 then j else i) as oi. intros flagged fi other oi (t & O & Et & Ft).
    assert (OO := O). destruct OO as (_ & Lf & Lo & _). unfold tok_at at 1. rewrite Et. cbn [obind].
    destruct (t_flag t) eqn:FT; [congruence| |]; cbn [is_plus].
    + destruct (Nat.leb_spec (length other) oi) as [?|_]; [lia|]. unfold tok_at at 1.
      destruct (nth_error other oi) as [o|] eqn:Eo; [|apply nth_error_None in Eo; lia]. cbn [obind].
      destruct (gmatch t o) eqn:M; cbn [negb].
      2:{ exists []. split; [|auto]. eapply v_plus_mismatch; cbn; eauto. }
      destruct (is_none (t_flag o)) eqn:N; cbn [negb].
      * pose proof (expand_star_spec flagged fi other (S oi) stack Lf ltac:(lia)) as X.
        destruct (expand_star flagged fi other (S oi) stack) as [[[win st]|]| | |]; try contradiction; auto.
        destruct X as (ks & SR & ST). eexists. split; [eapply v_plus; cbn; eauto|]. rewrite N, app_nil_r. exact ST.
      * destruct (gi_max_frames <=? length stack)%nat; [auto|].
        pose proof (expand_star_spec flagged fi other (S oi) (Frame flagged (fi + 1) other oi :: stack) Lf ltac:(lia)) as X.
        destruct (expand_star flagged fi other (S oi) (Frame flagged (fi + 1) other oi :: stack)) as [[[win st]|]| | |]; try contradiction; auto.
        destruct X as (ks & SR & ST). eexists. split; [eapply v_plus; cbn; eauto|]. rewrite N, <- app_assoc. exact ST.
    + pose proof (expand_star_spec flagged fi other oi stack Lf ltac:(lia)) as X.
      destruct (expand_star flagged fi other oi stack) as [[[win st]|]| | |]; try contradiction; auto.
      destruct X as (ks & SR & ST). eexists. split; [eapply v_star; cbn; eauto|]. exact ST.
Qed.

(** *** Soundness *)
(** Both rests match a text, which is empty only if both are at their end. *)
Definition joint (a b : glob) : Prop := exists s, matches a s /\ matches b s /\ (s = [] -> a = [] /\ b = []).
Definition fjoint (f : frame) : Prop := joint (skipn (fr_i f) (fr_1 f)) (skipn (fr_j f) (fr_2 f)).

Lemma joint_sym a b : joint a b -> joint b a.
Proof. intros (s & A & B & E). exists s. tauto. Qed.

Lemma match_one t g c s : has (t_kind t) c -> matches g s -> matches (t :: g) (c :: s).
Proof.
  intros H M. change (c :: s) with ([c] ++ s). constructor; auto. destruct (t_flag t); simpl; auto.
Qed.

Lemma walked_joint g1 g2 i j i' j' : sets_sorted g1 -> sets_sorted g2 -> no_empty_set g1 -> no_empty_set g2 ->
  walked g1 g2 i j i' j' -> joint (skipn i' g1) (skipn j' g2) -> joint (skipn i g1) (skipn j g2).
Proof.
  intros S1 S2 N1 N2 W. induction W as [|i j i' j' a b Ea Eb Fa Fb M W IH]; auto. intros J. destruct (IH J) as (s & A & B & E).
  destruct (gmatch_sound a b (sorted_at _ _ _ S1 Ea) (sorted_at _ _ _ S2 Eb) (N1 _ (nth_error_In _ _ Ea)) (N2 _ (nth_error_In _ _ Eb)) M) as (c & Ha & Hb).
  rewrite (skipn_cons _ _ _ _ Ea), (skipn_cons _ _ _ _ Eb). exists (c :: s). split; [now apply match_one|]. split; [now apply match_one|discriminate].
Qed.

(** A token that overlaps with all the tokens of a part of the other span covers a text of it. *)
Lemma cover token other : set_sorted token -> t_kind token <> KSet [] -> sets_sorted other -> no_empty_set other -> forall d k, (k + d <= length other)%nat ->
  (forall q o, (k <= q < k + d)%nat -> nth_error other q = Some o -> gmatch o token = true) ->
  exists u, Forall (has (t_kind token)) u /\ length u = d /\ forall s, matches (skipn (k + d) other) s -> matches (skipn k other) (u ++ s).
Proof.
  intros ST NT SO NO. induction d as [|d IH]; intros k L P.
  - exists []. rewrite Nat.add_0_r. auto.
  - destruct (IH (S k) ltac:(lia)) as (u & F & Lu & M). { intros q o Q. apply P. lia. }
    destruct (nth_error other k) as [o|] eqn:Eo; [|apply nth_error_None in Eo; lia].
    assert (M0 : gmatch o token = true) by (eapply P; [|exact Eo]; lia).
    destruct (gmatch_sound o token (sorted_at _ _ _ SO Eo) ST (NO _ (nth_error_In _ _ Eo)) NT M0) as (c & Ho & Ht).
    exists (c :: u). split; [constructor; auto|]. split; [simpl; lia|]. intros s H. rewrite (skipn_cons _ _ _ _ Eo). simpl. apply match_one; auto.
    apply M. now replace (S k + d)%nat with (k + S d)%nat by lia.
Qed.

Lemma star_joint flagged fi other oi win ks t : sets_sorted flagged -> sets_sorted other -> no_empty_set flagged -> no_empty_set other ->
  (oi <= length other)%nat -> star_result flagged fi other oi win ks -> nth_error flagged fi = Some t ->
  (win = true \/ exists k, win = false /\ In k ks /\ fjoint (Frame flagged (fi + 1) other k)) ->
  exists u s, Forall (has (t_kind t)) u /\ matches (skipn (S fi) flagged) s /\ matches (skipn oi other) (u ++ s) /\
    (u ++ s = [] -> oi = length other).
Proof.
  intros SF SO NF NO L (token & e & Et & R & P & W1 & W2 & W3 & K & _) E H. rewrite Et in E. injection E as ->.
  assert (St : set_sorted t) by exact (sorted_at _ _ _ SF Et). assert (Nt : t_kind t <> KSet []) by exact (NF _ (nth_error_In _ _ Et)).
  destruct H as [->|(k & -> & I & J)].
  - destruct (proj1 W1 eq_refl) as (-> & Lf & _).
    destruct (cover t other St Nt SO NO (length other - oi) oi ltac:(lia)) as (u & F & Lu & M). { intros q o Q. apply P. lia. }
    exists u, []. split; [auto|]. rewrite skipn_all2 by lia. split; [constructor|]. split.
    + apply M. rewrite skipn_all2 by lia. constructor.
    + rewrite app_nil_r. intros ->. simpl in Lu. lia.
  - apply K in I as (Q & o & n & Eo & En & G); auto. assert (k < length other)%nat by (apply nth_error_Some; congruence).
    destruct (cover t other St Nt SO NO (k - oi) oi ltac:(lia)) as (u & F & Lu & M). { intros q o' Q'. apply P. lia. }
    destruct J as (s & A & B & Z). cbn [fr_i fr_j fr_1 fr_2] in *. exists u, s. split; [auto|]. rewrite Nat.add_1_r in A. split; [auto|]. split.
    + apply M. now replace (oi + (k - oi))%nat with k by lia.
    + intros X. apply app_eq_nil in X as [_ X]. destruct (Z X) as [_ Y]. rewrite (skipn_cons _ _ _ _ Eo) in Y. discriminate.
Qed.

Lemma oriented_joint g1 i g2 j flagged fi other oi : oriented g1 i g2 j flagged fi other oi ->
  joint (skipn fi flagged) (skipn oi other) -> joint (skipn i g1) (skipn j g2).
Proof. intros ([(-> & -> & -> & ->)|(-> & -> & -> & -> & _)] & _) J; auto. now apply joint_sym. Qed.

Definition good_globs (f : frame) : Prop := sets_sorted (fr_1 f) /\ sets_sorted (fr_2 f) /\ no_empty_set (fr_1 f) /\ no_empty_set (fr_2 f).

Lemma oriented_good f i j flagged fi other oi : good_globs f -> oriented (fr_1 f) i (fr_2 f) j flagged fi other oi ->
  sets_sorted flagged /\ sets_sorted other /\ no_empty_set flagged /\ no_empty_set other.
Proof. intros (A & B & C & D) ([(-> & -> & -> & ->)|(-> & -> & -> & -> & _)] & _); auto. Qed.

Lemma visited_joint f win ch : good_globs f -> visited f win ch ->
  (win = true \/ win = false /\ exists c, In c ch /\ fjoint c) -> fjoint f.
Proof.
  intros G V H. assert (GG := G). destruct GG as (S1 & S2 & N1 & N2). unfold fjoint.
  destruct V as [i j a b W Ea Eb Fa Fb M|W|i j W Li Lj E|i j flagged fi other oi t o W O Et Ft Eo M
                |i j flagged fi other oi t o win ks W O Et Ft Eo M SR|i j flagged fi other oi t win ks W O Et Ft SR].
  - destruct H as [?|[_ (c & [] & _)]]; discriminate.
  - eapply walked_joint; eauto. rewrite !skipn_all. exists []. repeat split; constructor.
  - destruct H as [?|[_ (c & [] & _)]]; discriminate.
  - destruct H as [?|[_ (c & [] & _)]]; discriminate.
  - eapply walked_joint; eauto. eapply oriented_joint; eauto. destruct (oriented_good _ _ _ _ _ _ _ G O) as (SF & SO & NF & NO).
    assert (LO : (oi < length other)%nat) by apply O.
    destruct (gmatch_sound t o (sorted_at _ _ _ SF Et) (sorted_at _ _ _ SO Eo) (NF _ (nth_error_In _ _ Et)) (NO _ (nth_error_In _ _ Eo)) M) as (c & Ht & Ho).
    rewrite (skipn_cons _ _ _ _ Et).
    assert (C1 : (win = true \/ exists k, win = false /\ In k ks /\ fjoint (Frame flagged (fi + 1) other k)) ->
      joint (t :: skipn (S fi) flagged) (skipn oi other)).
    { intros X. destruct (star_joint _ _ _ _ _ _ _ SF SO NF NO LO SR Et X) as (u & s & F & A & B & _).
      exists ((c :: u) ++ s). split; [|split; [|discriminate]].
      - constructor; auto. rewrite Ft. simpl. lia.
      - rewrite (skipn_cons _ _ _ _ Eo). simpl. now apply match_one. }
    destruct H as [->|[-> (f' & I & J)]]; [auto|]. apply in_app_or in I. destruct I as [I|I].
    + apply in_map_iff in I as (k & <- & I). apply C1. right. eauto.
    + destruct (is_none (t_flag o)) eqn:N; [destruct I|]. destruct I as [<-|[]]. destruct J as (s & A & B & Z). cbn [fr_i fr_j fr_1 fr_2] in *.
      rewrite Nat.add_1_r in A. exists (c :: s). split; [now apply match_one|]. split; [|discriminate].
      rewrite (skipn_cons _ _ _ _ Eo) in *. inversion B as [|? ? u v F T B']; subst. change (c :: u ++ v) with ((c :: u) ++ v). constructor; auto.
      destruct (t_flag o); simpl in *; try lia; discriminate.
  - eapply walked_joint; eauto. eapply oriented_joint; eauto. destruct (oriented_good _ _ _ _ _ _ _ G O) as (SF & SO & NF & NO).
    assert (LO : (oi < length other)%nat) by apply O.
    assert (X : win = true \/ exists k, win = false /\ In k ks /\ fjoint (Frame flagged (fi + 1) other k)).
    { destruct H as [->|[-> (f' & I & J)]]; [auto|]. apply in_map_iff in I as (k & <- & I). right. eauto. }
    destruct (star_joint _ _ _ _ _ _ _ SF SO NF NO (Nat.lt_le_incl _ _ LO) SR Et X) as (u & s & F & A & B & Z).
    rewrite (skipn_cons _ _ _ _ Et). exists (u ++ s). split; [|split; [exact B|]].
    + constructor; auto. rewrite Ft. simpl. auto.
    + intros Y. specialize (Z Y). lia.
Qed.
