(** Lemmas about the digit-text arithmetic of [BigIntModel]. *)
From Coq Require Import String ZArith List Bool Lia.
From Verif Require Import Base BigIntSpec BigIntModel DecFacts.
Import ListNotations.
Local Open Scope Z_scope.

(** Value of a reversed (least significant first) digit text. *)
Fixpoint vle (l : list byte) : Z :=
  match l with [] => 0 | x :: l' => (x - 48) + 10 * vle l' end.

Definition p10 (n : nat) : Z := 10 ^ Z.of_nat n.

Lemma p10_S n : p10 (S n) = 10 * p10 n.
Proof. unfold p10. rewrite Nat2Z.inj_succ, Z.pow_succ_r by lia. lia. Qed.
Lemma p10_0 : p10 0 = 1.
Proof. reflexivity. Qed.
Lemma p10_pos n : 0 < p10 n.
Proof. unfold p10. apply Z.pow_pos_nonneg; lia. Qed.
Lemma p10_add a b : p10 (a + b) = p10 a * p10 b.
Proof. unfold p10. rewrite Nat2Z.inj_add, Z.pow_add_r by lia. lia. Qed.
Lemma p10_mono a b : (a <= b)%nat -> p10 a <= p10 b.
Proof. intro H. unfold p10. apply Z.pow_le_mono_r; lia. Qed.

Lemma vle_app a b : vle (a ++ b) = vle a + p10 (length a) * vle b.
Proof.
  induction a as [|x a IH].
  - cbn [app vle length]. rewrite p10_0. lia.
  - cbn [app vle length]. rewrite IH, p10_S. lia.
Qed.

Lemma zval_vle t : zval_digits t = vle (rev t).
Proof.
  induction t as [|c t IH] using rev_ind; [reflexivity|].
  assert (E : zval_digits (t ++ [c]) = zval_digits t * 10 + (c - c0)).
  { unfold zval_digits. rewrite fold_left_app. reflexivity. }
  rewrite E, rev_app_distr. cbn [rev app vle]. rewrite IH. unfold c0. lia.
Qed.

Lemma digit_bound c : digit c -> 0 <= c - 48 <= 9.
Proof. unfold digit; lia. Qed.

Lemma vle_bound l : Forall digit l -> 0 <= vle l < p10 (length l).
Proof.
  induction 1 as [|c l Hc Hl IH]; cbn [vle length].
  - rewrite p10_0. lia.
  - apply digit_bound in Hc. rewrite p10_S. lia.
Qed.

Lemma zval_bound t : Forall digit t -> 0 <= zval_digits t < p10 (length t).
Proof. intro H. rewrite zval_vle, <- rev_length. apply vle_bound. now apply Forall_rev. Qed.

Lemma zval_cons c t : zval_digits (c :: t) = (c - 48) * p10 (length t) + zval_digits t.
Proof.
  rewrite !zval_vle. cbn [rev]. rewrite vle_app, rev_length. cbn [vle]. lia.
Qed.

Lemma zval_app a b : zval_digits (a ++ b) = zval_digits a * p10 (length b) + zval_digits b.
Proof. rewrite !zval_vle, rev_app_distr, vle_app, rev_length. lia. Qed.

Lemma canon_iff t : canonD t <->
  (Forall digit t /\ (t = [48] \/ (t <> [] /\ p10 (length t - 1) <= zval_digits t))).
Proof.
  split; intros [Hd Hc]; (split; [exact Hd|]); destruct Hc as [Hc|Hc]; auto; right.
  - destruct Hc as (c & t' & -> & Hne). split; [congruence|].
    inversion Hd; subst. cbn [length]. rewrite Nat.sub_succ, Nat.sub_0_r, zval_cons.
    pose proof (zval_bound t' H2). apply digit_bound in H1.
    pose proof (p10_pos (length t')). nia.
  - destruct Hc as [Hne Hc]. destruct t as [|c t]; [congruence|].
    exists c, t. split; auto. intros ->. inversion Hd; subst.
    cbn [length] in Hc. rewrite Nat.sub_succ, Nat.sub_0_r, zval_cons in Hc.
    pose proof (zval_bound t H2). lia.
Qed.

(** Same-length digit texts: lexicographic order is numeric order. *)
Lemma ltb_same_len a b : Forall digit a -> Forall digit b -> length a = length b ->
  str_ltb a b = (zval_digits a <? zval_digits b).
Proof.
  intro Ha; revert b; induction Ha as [|x a Hx Ha IH]; intros b Hb Hl.
  - destruct b; [reflexivity|discriminate].
  - destruct b as [|y b]; [discriminate|]. inversion Hb; subst. injection Hl as Hl.
    cbn [str_ltb]. rewrite !zval_cons, Hl, IH; auto.
    pose proof (zval_bound a Ha). pose proof (zval_bound b H2). rewrite Hl in H.
    pose proof (p10_pos (length b)).
    destruct (Z.ltb_spec x y); [symmetry; apply Z.ltb_lt; nia|].
    destruct (Z.ltb_spec y x); [symmetry; apply Z.ltb_ge; nia|].
    assert (x = y) by lia. subst.
    destruct (Z.ltb_spec (zval_digits a) (zval_digits b)); symmetry; [apply Z.ltb_lt|apply Z.ltb_ge]; lia.
Qed.


Lemma canon_nonempty a : canonD a -> a <> [].
Proof. intros [_ [->|(c & t & -> & _)]]; discriminate. Qed.

Lemma canon_len_lt a b : canonD a -> canonD b -> (length a < length b)%nat -> zval_digits a < zval_digits b.
Proof.
  intros Ha Hb Hl. pose proof (canon_nonempty a Ha).
  apply canon_iff in Ha as [Hda _]. apply canon_iff in Hb as [Hdb Hb].
  pose proof (zval_bound a Hda).
  destruct Hb as [->|[Hne Hb]].
  - destruct a; simpl in Hl; [congruence|lia].
  - assert (p10 (length a) <= p10 (length b - 1)) by (apply p10_mono; lia). lia.
Qed.

Lemma less_than_spec a b : canonD a -> canonD b -> less_than a b = (zval_digits a <? zval_digits b).
Proof.
  intros Ha Hb. unfold less_than.
  destruct (Nat.ltb_spec (length a) (length b)).
  - symmetry. apply Z.ltb_lt. now apply canon_len_lt.
  - destruct (Nat.ltb_spec (length b) (length a)).
    + symmetry. apply Z.ltb_ge. apply Z.lt_le_incl. now apply canon_len_lt.
    + apply ltb_same_len; [apply Ha|apply Hb|lia].
Qed.

Lemma greater_than_spec a b : canonD a -> canonD b -> greater_than a b = (zval_digits b <? zval_digits a).
Proof. intros Ha Hb. change (greater_than a b) with (less_than b a). now apply less_than_spec. Qed.

(** Addition. *)
Lemma add_loop_spec l r c : Forall digit l -> Forall digit r -> (length r <= length l)%nat -> 0 <= c <= 1 ->
  let res := add_loop l r c in
  Forall digit res /\ vle res = vle l + vle r + c /\
  (length res = length l \/ (length res = S (length l) /\ p10 (length l) <= vle res)).
Proof.
  intro Hl; revert r c; induction Hl as [|x l Hx Hl IH]; intros r c Hr Hlen Hc.
  - destruct r; [|simpl in Hlen; lia]. cbn [add_loop vle].
    destruct (Z.ltb_spec 0 c); cbn [vle length]; split; try (repeat constructor; unfold digit; lia);
      split; try lia; rewrite ?p10_0; lia.
  - apply digit_bound in Hx. destruct r as [|y r]; cbn [add_loop].
    + unfold c0. destruct (Z.ltb_spec 9 (x - 48 + c)).
      * destruct (IH [] 1) as (H1 & H2 & H3); [constructor|simpl; lia|lia|].
        cbn [vle length] in *. rewrite H2, p10_S. split; [constructor; auto; unfold digit; lia|].
        split; [lia|]. destruct H3 as [H3|[H3 H4]]; [left|right]; lia.
      * destruct (IH [] 0) as (H1 & H2 & H3); [constructor|simpl; lia|lia|].
        cbn [vle length] in *. rewrite H2, p10_S. split; [constructor; auto; unfold digit; lia|].
        split; [lia|]. destruct H3 as [H3|[H3 H4]]; [left|right]; lia.
    + inversion Hr; subst. apply digit_bound in H1. simpl in Hlen.
      unfold c0. destruct (Z.ltb_spec 9 (x - 48 + (y - 48) + c)).
      * destruct (IH r 1) as (H3 & H4 & H5); [auto|lia|lia|].
        cbn [vle length] in *. rewrite H4, p10_S. split; [constructor; auto; unfold digit; lia|].
        split; [lia|]. destruct H5 as [H5|[H5 H6]]; [left|right]; lia.
      * destruct (IH r 0) as (H3 & H4 & H5); [auto|lia|lia|].
        cbn [vle length] in *. rewrite H4, p10_S. split; [constructor; auto; unfold digit; lia|].
        split; [lia|]. destruct H5 as [H5|[H5 H6]]; [left|right]; lia.
Qed.

Lemma is_zero_text t : str_eqb t [c0] = true <-> t = [48].
Proof. rewrite str_eqb_eq. reflexivity. Qed.

(** [add] on arbitrary (possibly zero-padded) digit texts: value and length. *)
Lemma add_ordered_spec l r : Forall digit l -> Forall digit r -> (length r <= length l)%nat ->
  let res := add_ordered l r false in
  Forall digit res /\ zval_digits res = zval_digits l + zval_digits r /\
  (length res = length l \/ (length res = S (length l) /\ p10 (length l) <= zval_digits res)).
Proof.
  intros Hl Hr Hlen. unfold add_ordered.
  destruct (str_eqb r [c0]) eqn:E.
  - apply is_zero_text in E. subst r. cbn. split; [auto|]. split; [|auto]. unfold zval_digits. simpl. lia.
  - rewrite app_nil_r.
    destruct (add_loop_spec (rev l) (rev r) 0) as (H1 & H2 & H3);
      [now apply Forall_rev|now apply Forall_rev|rewrite !rev_length; lia|lia|].
    split; [now apply Forall_rev|]. rewrite !zval_vle, rev_involutive, H2, !rev_length. split; [lia|].
    rewrite rev_length in *. destruct H3 as [H3|[H3 H4]]; [left|right]; lia.
Qed.

Lemma less_than_len a b : less_than a b = true -> (length a <= length b)%nat.
Proof.
  unfold less_than. destruct (Nat.ltb_spec (length a) (length b)); [lia|].
  destruct (Nat.ltb_spec (length b) (length a)); [discriminate|lia].
Qed.
Lemma not_less_than_len a b : less_than a b = false -> (length b <= length a)%nat.
Proof.
  unfold less_than. destruct (Nat.ltb_spec (length a) (length b)); [discriminate|lia].
Qed.

Lemma add_digits_spec l r : Forall digit l -> Forall digit r ->
  let res := add_digits l r false in
  Forall digit res /\ zval_digits res = zval_digits l + zval_digits r /\
  (length res = Nat.max (length l) (length r) \/
    (length res = S (Nat.max (length l) (length r)) /\ p10 (Nat.max (length l) (length r)) <= zval_digits res)).
Proof.
  intros Hl Hr. unfold add_digits. destruct (less_than l r) eqn:E.
  - apply less_than_len in E. destruct (add_ordered_spec r l) as (H1 & H2 & H3); auto.
    rewrite (Nat.max_r (length l) (length r)) by lia. split; [auto|]. split; [lia|auto].
  - apply not_less_than_len in E. destruct (add_ordered_spec l r) as (H1 & H2 & H3); auto.
    rewrite (Nat.max_l (length l) (length r)) by lia. split; auto.
Qed.

Lemma add_digits_canon l r : canonD l -> canonD r -> canonD (add_digits l r false).
Proof.
  intros Hl Hr. pose proof (canon_nonempty l Hl) as Nl. pose proof (canon_nonempty r Hr) as Nr.
  unfold add_digits. rewrite less_than_spec by auto.
  assert (G : forall l r, canonD l -> canonD r -> zval_digits r <= zval_digits l -> canonD (add_ordered l r false)).
  { clear. intros l r Hl Hr Hle. unfold add_ordered at 1. destruct (str_eqb r [c0]) eqn:E; auto.
    assert (Hlen : (length r <= length l)%nat).
    { destruct (Nat.le_gt_cases (length r) (length l)); auto.
      pose proof (canon_len_lt l r Hl Hr H). lia. }
    destruct (add_ordered_spec l r) as (H1 & H2 & H3); [apply Hl|apply Hr|auto|].
    unfold add_ordered in H1, H2, H3. rewrite E in H1, H2, H3.
    set (res := rev (add_loop (rev l) (rev r) 0 ++ [])) in *.
    apply canon_iff. split; [exact H1|]. right.
    apply canon_iff in Hl as [Hdl Hl]. apply canon_iff in Hr as [Hdr Hr].
    pose proof (zval_bound r Hdr).
    assert (Hr0 : 0 < zval_digits r).
    { destruct Hr as [->|[_ Hr]]; [cbn in E; discriminate|]. pose proof (p10_pos (length r - 1)). lia. }
    assert (l <> []) by (destruct Hl as [->|[? _]]; [discriminate|auto]).
    assert (length l <> 0%nat) by (destruct l; [congruence|discriminate]).
    split; [intro E0; rewrite E0 in H3; simpl in H3; lia|].
    destruct H3 as [H3|[H3 HH4]].
    - rewrite H3, H2. destruct Hl as [->|[_ Hl]]; [cbn in *; lia|lia].
    - rewrite H3. rewrite Nat.sub_succ, Nat.sub_0_r. auto. }
  destruct (Z.ltb_spec (zval_digits l) (zval_digits r)); apply G; auto; lia.
Qed.

Lemma add_digits_dec a b : 0 <= a -> 0 <= b -> add_digits (dec a) (dec b) false = dec (a + b).
Proof.
  intros Ha Hb. pose proof (dec_canon a Ha). pose proof (dec_canon b Hb).
  rewrite <- (dec_zval (add_digits _ _ _)) by now apply add_digits_canon.
  f_equal. destruct (add_digits_spec (dec a) (dec b)) as (_ & E & _); [apply H|apply H0|].
  rewrite E, !zval_dec by auto. reflexivity.
Qed.

Lemma add_digits_neg l r : str_eqb l [c0] = false -> str_eqb r [c0] = false ->
  add_digits l r true = cminus :: add_digits l r false.
Proof.
  intros Hl Hr. unfold add_digits, add_ordered.
  destruct (less_than l r); rewrite ?Hl, ?Hr, rev_app_distr, app_nil_r; reflexivity.
Qed.

(** Subtraction. *)
Lemma sub_loop_spec l r b : Forall digit l -> Forall digit r -> (length r <= length l)%nat ->
  let '(res, b') := sub_loop l r b in
  Forall digit res /\ length res = length l /\
  vle res = vle l - vle r - Z.b2z b + (if b' then p10 (length l) else 0).
Proof.
  intro Hl; revert r b; induction Hl as [|x l Hx Hl IH]; intros r b Hr Hlen.
  - destruct r; [|simpl in Hlen; lia]. cbn [sub_loop]. cbn [length vle]. rewrite p10_0.
    destruct b; simpl; repeat split; auto.
  - apply digit_bound in Hx. destruct r as [|y r]; cbn [sub_loop].
    + unfold c0. destruct (Z.ltb_spec (x - 48 - (if b then 1 else 0)) 0).
      * specialize (IH [] true). destruct (sub_loop l [] true) as [res b'].
        destruct IH as (H1 & H2 & H3); [constructor|simpl; lia|].
        cbn [vle length] in *. rewrite p10_S. rewrite H3.
        split; [constructor; auto; unfold digit; destruct b; lia|]. split; [lia|].
        destruct b, b'; simpl Z.b2z in *; lia.
      * specialize (IH [] false). destruct (sub_loop l [] false) as [res b'].
        destruct IH as (H1 & H2 & H3); [constructor|simpl; lia|].
        cbn [vle length] in *. rewrite p10_S. rewrite H3.
        split; [constructor; auto; unfold digit; destruct b; lia|]. split; [lia|].
        destruct b, b'; simpl Z.b2z in *; lia.
    + inversion Hr; subst. apply digit_bound in H1. simpl in Hlen.
      unfold c0. destruct (Z.ltb_spec (x - 48 - (if b then 1 else 0)) (y - 48)).
      * specialize (IH r true). destruct (sub_loop l r true) as [res b'].
        destruct IH as (G3 & G4 & G5); [auto|lia|].
        cbn [vle length] in *. rewrite p10_S. rewrite G5.
        split; [constructor; auto; unfold digit; destruct b; lia|]. split; [lia|].
        destruct b, b'; simpl Z.b2z in *; lia.
      * specialize (IH r false). destruct (sub_loop l r false) as [res b'].
        destruct IH as (G3 & G4 & G5); [auto|lia|].
        cbn [vle length] in *. rewrite p10_S. rewrite G5.
        split; [constructor; auto; unfold digit; destruct b; lia|]. split; [lia|].
        destruct b, b'; simpl Z.b2z in *; lia.
Qed.

Lemma strip_zeros_spec t : t <> [] -> Forall digit t ->
  canonD (strip_zeros t) /\ zval_digits (strip_zeros t) = zval_digits t.
Proof.
  induction t as [|c t IH]; intros Hn Hd; [congruence|].
  inversion Hd; subst. destruct t as [|c' t].
  - cbn [strip_zeros]. split; auto. split; auto.
    destruct (Z.eq_dec c 48) as [->|]; [left; reflexivity|right; eauto].
  - change (strip_zeros (c :: c' :: t)) with (if c =? c0 then strip_zeros (c' :: t) else c :: c' :: t).
    destruct (Z.eqb_spec c c0) as [->|Hne].
    + destruct IH as [IH1 IH2]; [discriminate|auto|]. split; [exact IH1|].
      rewrite IH2, (zval_cons c0). unfold c0. lia.
    + split; auto. split; auto. right. exists c, (c' :: t). split; auto.
Qed.

Lemma sub_digits_gen l r neg : Forall digit l -> Forall digit r -> l <> [] ->
  less_than l r = false -> zval_digits r <= zval_digits l ->
  sub_digits l r neg =
    Ok (if neg && (0 <? zval_digits l - zval_digits r)
        then cminus :: dec (zval_digits l - zval_digits r) else dec (zval_digits l - zval_digits r)).
Proof.
  intros Hl Hr Hne Hlt Hle. unfold sub_digits. rewrite Hlt.
  pose proof (not_less_than_len _ _ Hlt) as Hlen.
  pose proof (sub_loop_spec (rev l) (rev r) false) as H.
  destruct (sub_loop (rev l) (rev r) false) as [res b].
  destruct H as (H1 & H2 & H3); [now apply Forall_rev|now apply Forall_rev|rewrite !rev_length; lia|].
  rewrite <- !zval_vle in H3. simpl Z.b2z in H3.
  pose proof (vle_bound _ H1) as Hb. rewrite H2 in Hb.
  destruct b.
  { lia. }
  assert (Hrn : rev res <> []).
  { intro E. apply (f_equal (@length _)) in E. rewrite !rev_length in *. destruct l; [congruence|simpl in *; lia]. }
  destruct (strip_zeros_spec (rev res)) as [Hc Hv]; [auto|now apply Forall_rev|].
  rewrite (zval_vle (rev res)), rev_involutive, H3 in Hv.
  assert (E : strip_zeros (rev res) = dec (zval_digits l - zval_digits r)).
  { rewrite <- (dec_zval _ Hc), Hv. f_equal. lia. }
  rewrite E. f_equal. change [c0] with (dec 0).
  destruct (Z.ltb_spec 0 (zval_digits l - zval_digits r)).
  - assert (str_eqb (dec (zval_digits l - zval_digits r)) (dec 0) = false) as ->; [|reflexivity].
    apply str_eqb_neq. intro EE. apply dec_inj in EE. lia.
  - replace (zval_digits l - zval_digits r) with 0 by lia. rewrite str_eqb_refl. reflexivity.
Qed.

Lemma sub_digits_dec a b neg : 0 <= b <= a ->
  sub_digits (dec a) (dec b) neg = Ok (if neg && (0 <? a - b) then cminus :: dec (a - b) else dec (a - b)).
Proof.
  intros H. pose proof (dec_canon a ltac:(lia)) as Ha. pose proof (dec_canon b ltac:(lia)) as Hb.
  rewrite sub_digits_gen; [|apply Ha|apply Hb|now apply canon_nonempty| |]; rewrite ?less_than_spec by auto;
    rewrite ?zval_dec by lia; auto; [|lia].
  apply Z.ltb_ge. lia.
Qed.

Lemma lt_dec a b : 0 <= a -> 0 <= b -> less_than (dec a) (dec b) = (a <? b).
Proof. intros. rewrite less_than_spec, !zval_dec; auto using dec_canon. Qed.
Lemma gt_dec a b : 0 <= a -> 0 <= b -> greater_than (dec a) (dec b) = (b <? a).
Proof. intros. rewrite greater_than_spec, !zval_dec; auto using dec_canon. Qed.

Lemma dec_nz a : a <> 0 -> str_eqb (dec a) [c0] = false.
Proof. intro H. change [c0] with (dec 0). apply str_eqb_neq. intro E. apply dec_inj in E. lia. Qed.

Lemma dec_neg' a : a < 0 -> cminus :: dec (- a) = dec a.
Proof. intro. rewrite <- dec_neg by lia. f_equal. lia. Qed.

Lemma sub_nonneg f a b : 0 <= a -> 0 <= b -> bi_addsub (S (S f)) false (dec a) (dec b) = Ok (dec (a - b)).
Proof.
  intros Ha Hb. assert (G : forall f a b, 0 <= b <= a -> bi_addsub (S f) false (dec a) (dec b) = Ok (dec (a - b))).
  { clear. intros f a b H. cbn [bi_addsub]. rewrite is_zero_dec, !is_negative_dec, !digits_dec, lt_dec by lia.
    destruct (Z.eqb_spec b 0) as [->|]; [f_equal; f_equal; lia|].
    destruct (Z.ltb_spec a 0); [lia|]. destruct (Z.ltb_spec b 0); [lia|].
    rewrite !Z.abs_eq by lia. destruct (Z.ltb_spec a b); [lia|].
    rewrite sub_digits_dec by lia. reflexivity. }
  destruct (Z.le_gt_cases b a); [apply G; lia|].
  remember (S f) as f'. cbn [bi_addsub]. subst f'.
  rewrite is_zero_dec, !is_negative_dec, !digits_dec, lt_dec by lia.
  destruct (Z.eqb_spec b 0) as [->|]; [lia|].
  destruct (Z.ltb_spec a 0); [lia|]. destruct (Z.ltb_spec b 0); [lia|].
  rewrite !Z.abs_eq by lia. destruct (Z.ltb_spec a b); [|lia].
  rewrite G by lia. cbn [obind]. rewrite negate_dec by lia. f_equal. f_equal. lia.
Qed.

Lemma add_same f a b : (a < 0 /\ b < 0) \/ (0 <= a /\ 0 <= b) ->
  bi_addsub (S f) true (dec a) (dec b) = Ok (dec (a + b)).
Proof.
  intros [[Ha Hb]|[Ha Hb]]; cbn [bi_addsub]; rewrite !is_negative_dec, !digits_dec.
  - destruct (Z.ltb_spec a 0); [|lia]. destruct (Z.ltb_spec b 0); [|lia].
    rewrite add_digits_neg by (apply dec_nz; lia). rewrite add_digits_dec by lia.
    replace (Z.abs a + Z.abs b) with (- (a + b)) by lia. rewrite dec_neg' by lia. reflexivity.
  - destruct (Z.ltb_spec a 0); [lia|]. destruct (Z.ltb_spec b 0); [lia|].
    rewrite add_digits_dec by lia. rewrite !Z.abs_eq by lia. reflexivity.
Qed.

Lemma addsub_spec f is_add a b :
  bi_addsub (S (S (S f))) is_add (dec a) (dec b) = Ok (dec (if is_add then a + b else a - b)).
Proof.
  destruct is_add.
  - destruct (Z.ltb_spec a 0), (Z.ltb_spec b 0).
    + apply add_same; lia.
    + remember (S (S f)) as f'. cbn [bi_addsub]. subst f'. rewrite !is_negative_dec.
      destruct (Z.ltb_spec a 0); [|lia]. destruct (Z.ltb_spec b 0); [lia|].
      rewrite negate_dec by lia. rewrite sub_nonneg by lia. f_equal. f_equal. lia.
    + remember (S (S f)) as f'. cbn [bi_addsub]. subst f'. rewrite !is_negative_dec.
      destruct (Z.ltb_spec a 0); [lia|]. destruct (Z.ltb_spec b 0); [|lia].
      rewrite negate_dec by lia. rewrite sub_nonneg by lia. f_equal. f_equal. lia.
    + apply add_same; lia.
  - destruct (Z.eq_dec b 0) as [->|Hb0].
    { cbn [bi_addsub]. rewrite is_zero_dec. simpl. f_equal. f_equal. lia. }
    destruct (Z.ltb_spec a 0), (Z.ltb_spec b 0).
    + remember (S (S f)) as f'. cbn [bi_addsub]. subst f'.
      rewrite is_zero_dec, !is_negative_dec, !digits_dec, gt_dec by lia.
      destruct (Z.eqb_spec b 0); [lia|].
      destruct (Z.ltb_spec a 0); [|lia]. destruct (Z.ltb_spec b 0); [|lia].
      destruct (Z.ltb_spec (Z.abs b) (Z.abs a)).
      * rewrite sub_digits_dec by lia. destruct (Z.ltb_spec 0 (Z.abs a - Z.abs b)); [|lia].
        cbn [andb]. f_equal. replace (Z.abs a - Z.abs b) with (- (a - b)) by lia. apply dec_neg'. lia.
      * rewrite !negate_dec by lia. rewrite sub_nonneg by lia. f_equal. f_equal. lia.
    + remember (S (S f)) as f'. cbn [bi_addsub]. subst f'.
      rewrite is_zero_dec, !is_negative_dec.
      destruct (Z.eqb_spec b 0); [lia|].
      destruct (Z.ltb_spec a 0); [|lia]. destruct (Z.ltb_spec b 0); [lia|].
      rewrite negate_dec by lia. rewrite add_same by lia. f_equal.
    + remember (S (S f)) as f'. cbn [bi_addsub]. subst f'.
      rewrite is_zero_dec, !is_negative_dec.
      destruct (Z.eqb_spec b 0); [lia|].
      destruct (Z.ltb_spec a 0); [lia|]. destruct (Z.ltb_spec b 0); [|lia].
      rewrite negate_dec by lia. rewrite add_same by lia. f_equal.
    + apply sub_nonneg; lia.
Qed.

Lemma bi_add_spec a b : bi_add (dec a) (dec b) = Ok (dec (a + b)).
Proof. apply (addsub_spec 1 true). Qed.
Lemma bi_sub_spec a b : bi_sub (dec a) (dec b) = Ok (dec (a - b)).
Proof. apply (addsub_spec 1 false). Qed.

(** Multiplication. *)
Lemma mul_row_spec d r c : 0 <= d <= 9 -> Forall digit r -> 0 <= c <= 9 ->
  let res := mul_row d r c in
  Forall digit res /\ vle res = d * vle r + c /\
  (length res = length r \/ (length res = S (length r) /\ p10 (length r) <= vle res)).
Proof.
  intros Hd Hr; revert c; induction Hr as [|y r Hy Hr IH]; intros c Hc.
  - cbn [mul_row vle]. destruct (Z.ltb_spec 0 c); cbn [vle length]; unfold c0; rewrite ?p10_0;
      (split; [repeat constructor; unfold digit; lia|]); split; lia.
  - apply digit_bound in Hy. cbn [mul_row]. unfold c0.
    assert (0 <= d * (y - 48) + c <= 90) by nia.
    destruct (Z.ltb_spec 9 (d * (y - 48) + c)).
    + pose proof (Z.div_mod (d * (y - 48) + c) 10 ltac:(lia)).
      pose proof (Z.mod_pos_bound (d * (y - 48) + c) 10 ltac:(lia)).
      destruct (IH ((d * (y - 48) + c) / 10)) as (G3 & G4 & G5).
      { split; [apply Z.div_pos; lia|apply Z.div_le_upper_bound; lia]. }
      cbn [vle length]. rewrite G4, p10_S. split; [constructor; auto; unfold digit; lia|].
      split; [lia|]. destruct G5 as [G5|[G5 G6]]; [left; lia|right; split; [lia|]]. lia.
    + destruct (IH 0) as (G3 & G4 & G5); [lia|].
      cbn [vle length]. rewrite G4, p10_S. split; [constructor; auto; unfold digit; lia|].
      split; [lia|]. destruct G5 as [G5|[G5 G6]]; [left; lia|right; split; [lia|]]. lia.
Qed.

Lemma vle_zeros n : vle (repeat c0 n) = 0.
Proof. induction n; cbn [repeat vle]; [lia|]. rewrite IHn. unfold c0. lia. Qed.

Lemma digit_zeros n : Forall digit (repeat c0 n).
Proof. induction n; simpl; constructor; auto. unfold digit, c0; lia. Qed.

(** [n] digits of [l] processed so far; [m] digits in [r]. *)
Lemma mul_loop_spec l r n res :
  Forall digit l -> Forall digit r -> r <> [] -> canonD (rev r) -> vle r <> 0 ->
  Forall digit res -> (1 <= length res <= length r + n)%nat ->
  let out := mul_loop l r (repeat c0 n) res in
  Forall digit out /\ zval_digits out = zval_digits res + p10 n * vle l * vle r /\
  (l <> [] -> last l 0 <> 48 ->
     p10 (length out - 1) <= zval_digits out /\ out <> []).
Proof.
  intros Hl Hr Hrn Hrc Hr0. revert n res. induction Hl as [|x l Hx Hl IH]; intros n res Hres Hlen.
  - cbn [mul_loop vle]. split; [auto|]. split; [lia|]. congruence.
  - cbn [mul_loop]. replace (repeat c0 n ++ [c0]) with (repeat c0 (S n))
      by (rewrite <- (repeat_cons n c0); reflexivity).
    pose proof (digit_bound _ Hx) as Hxb.
    destruct (mul_row_spec (x - 48) r 0) as (R1 & R2 & R3); [lia|auto|lia|].
    change (x - c0) with (x - 48). set (row := mul_row (x - 48) r 0) in *.
    set (inter := rev (repeat c0 n ++ row)).
    assert (I1 : Forall digit inter).
    { apply Forall_rev, Forall_app. split; auto. apply (digit_zeros n). }
    assert (I2 : zval_digits inter = p10 n * ((x - 48) * vle r)).
    { unfold inter. rewrite zval_vle, rev_involutive, vle_app, repeat_length.
      rewrite vle_zeros, R2. lia. }
    assert (I3 : length inter = (n + length row)%nat).
    { unfold inter. rewrite rev_length, app_length, repeat_length. reflexivity. }
    destruct (add_digits_spec res inter) as (A1 & A2 & A3); auto.
    set (res' := add_digits res inter false) in *.
    assert (L' : (1 <= length res' <= length r + S n)%nat).
    { split; [lia|].
      pose proof (zval_bound _ A1) as B. pose proof (zval_bound _ Hres) as B2.
      destruct (Nat.le_gt_cases (length res') (length r + S n)); [auto|exfalso].
      destruct A3 as [A3|[A3 A4]]; [lia|].
      (* a carry out of max(..) = length r + S n digits is impossible by value *)
      assert (Hmax : Nat.max (length res) (length inter) = (length r + S n)%nat) by lia.
      rewrite Hmax in A4.
      pose proof (vle_bound r Hr) as Br.
      assert (zval_digits inter <= p10 n * (9 * (p10 (length r) - 1))).
      { rewrite I2. apply Z.mul_le_mono_nonneg_l; [pose proof (p10_pos n); lia|]. nia. }
      assert (p10 (length res) <= p10 (length r + n)) by (apply p10_mono; lia).
      rewrite p10_add in H1. rewrite p10_add, p10_S in A4. pose proof (p10_pos n). nia. }
    destruct (IH (S n) res' A1 L') as (O1 & O2 & O3).
    split; [exact O1|]. split.
    { rewrite O2, A2, I2, p10_S. cbn [vle]. ring. }
    intros _ Hlast. destruct l as [|x' l].
    + cbn [mul_loop] in *. cbn [last] in Hlast.
      (* last digit: intermediate has a non-zero leading digit and at least as many digits as res *)
      assert (Hv : p10 (length inter - 1) <= zval_digits inter).
      { rewrite I2, I3. pose proof (p10_pos n). apply canon_iff in Hrc as [_ Hrc].
        rewrite rev_length, zval_vle, rev_involutive in Hrc.
        assert (p10 (length r - 1) <= vle r).
        { destruct Hrc as [Hrc|[_ Hrc]]; auto. exfalso. apply Hr0.
          apply (f_equal (@rev _)) in Hrc. rewrite rev_involutive in Hrc. subst r. reflexivity. }
        assert (length r <> 0)%nat by (destruct r; [congruence|discriminate]).
        destruct R3 as [R3|[R3 R4]].
        - rewrite R3. replace (n + length r - 1)%nat with (n + (length r - 1))%nat by lia.
          rewrite p10_add. apply Z.mul_le_mono_nonneg_l; [lia|].
          assert (1 <= x - 48) by lia. pose proof (p10_pos (length r - 1)). nia.
        - rewrite R3. replace (n + S (length r) - 1)%nat with (n + length r)%nat by lia.
          rewrite p10_add. apply Z.mul_le_mono_nonneg_l; [lia|]. lia. }
      assert (Hri : (length res <= length inter)%nat) by lia.
      rewrite Nat.max_r in A3 by auto.
      pose proof (zval_bound _ Hres).
      split; [|intro E; rewrite E in L'; simpl in L'; lia].
      destruct A3 as [A3|[A3 A4]].
      * rewrite A3, A2. lia.
      * rewrite A3, Nat.sub_succ, Nat.sub_0_r. auto.
    + apply O3; [discriminate|exact Hlast].
Qed.

Lemma last_rev (t : str) c d : last (rev (c :: t)) d = c.
Proof. simpl. apply last_last. Qed.

Lemma mul_digits_dec a b : 0 <= a -> 0 <= b -> mul_digits (dec a) (dec b) = dec (a * b).
Proof.
  intros Ha Hb. unfold mul_digits.
  destruct (Z.eq_dec a 0) as [->|Na]; [reflexivity|].
  destruct (Z.eq_dec b 0) as [->|Nb].
  { rewrite (dec_nz a Na). cbn. f_equal. rewrite Z.mul_0_r. reflexivity. }
  rewrite !dec_nz by auto. cbn [orb]. rewrite gt_dec by auto.
  assert (G : forall a b, 0 < a -> 0 < b -> mul_loop (rev (dec a)) (rev (dec b)) [] [c0] = dec (a * b)).
  { clear. intros a b Ha Hb.
    pose proof (dec_canon a ltac:(lia)) as Ca. pose proof (dec_canon b ltac:(lia)) as Cb.
    destruct Ca as [Da Ca]. assert (exists c t, dec a = c :: t /\ c <> 48) as (c & t & Ea & Hc).
    { destruct Ca as [E|E]; auto. exfalso. change [48] with (dec 0) in E. apply dec_inj in E. lia. }
    assert (Vb : vle (rev (dec b)) = b) by (rewrite <- zval_vle; apply zval_dec; lia).
    assert (Va : vle (rev (dec a)) = a) by (rewrite <- zval_vle; apply zval_dec; lia).
    pose proof (canon_nonempty _ Cb) as Nb.
    destruct (mul_loop_spec (rev (dec a)) (rev (dec b)) 0 [c0]) as (O1 & O2 & O3).
    - now apply Forall_rev.
    - apply Forall_rev. apply Cb.
    - intro E. apply Nb. apply (f_equal (@rev _)) in E. rewrite rev_involutive in E. exact E.
    - now rewrite rev_involutive.
    - lia.
    - apply (digit_zeros 1).
    - rewrite rev_length. simpl. destruct (dec b); [congruence|simpl; lia].
    - cbn [repeat] in *. rewrite Va, Vb, p10_0 in O2. change (zval_digits [c0]) with 0 in O2.
      destruct O3 as [O3 O4].
      + rewrite Ea. intro E. apply (f_equal (@rev _)) in E. rewrite rev_involutive in E. discriminate.
      + rewrite Ea, last_rev. exact Hc.
      + rewrite <- (dec_zval (mul_loop _ _ _ _)).
        * rewrite O2. f_equal. lia.
        * apply canon_iff. split; auto. }
  destruct (Z.ltb_spec b a).
  - rewrite G by lia. f_equal. lia.
  - apply G; lia.
Qed.

Lemma bi_mul_spec a b : bi_mul (dec a) (dec b) = dec (a * b).
Proof.
  unfold bi_mul. rewrite !digits_dec, !is_negative_dec, mul_digits_dec by lia.
  rewrite <- Z.abs_mul.
  destruct (Z.eq_dec (a * b) 0) as [E|E].
  - rewrite E. reflexivity.
  - rewrite dec_nz by lia.
    destruct (Z.ltb_spec a 0), (Z.ltb_spec b 0); cbn [xorb].
    + f_equal. nia.
    + rewrite Z.abs_neq by nia. apply dec_neg'. nia.
    + rewrite Z.abs_neq by nia. apply dec_neg'. nia.
    + f_equal. nia.
Qed.

(** Comparisons. *)
Lemma bi_lt_spec a b : bi_lt (dec a) (dec b) = (a <? b).
Proof.
  unfold bi_lt. rewrite !digits_dec, !is_negative_dec, lt_dec, gt_dec by lia.
  destruct (Z.ltb_spec a 0), (Z.ltb_spec b 0); symmetry;
    try (apply Z.ltb_lt; lia); try (apply Z.ltb_ge; lia);
    destruct (Z.ltb_spec a b), (Z.ltb_spec (Z.abs b) (Z.abs a)), (Z.ltb_spec (Z.abs a) (Z.abs b)); try lia; reflexivity.
Qed.
Lemma bi_gt_spec a b : bi_gt (dec a) (dec b) = (b <? a).
Proof.
  unfold bi_gt. rewrite !digits_dec, !is_negative_dec, lt_dec, gt_dec by lia.
  destruct (Z.ltb_spec a 0), (Z.ltb_spec b 0); symmetry;
    try (apply Z.ltb_lt; lia); try (apply Z.ltb_ge; lia);
    destruct (Z.ltb_spec b a), (Z.ltb_spec (Z.abs b) (Z.abs a)), (Z.ltb_spec (Z.abs a) (Z.abs b)); try lia; reflexivity.
Qed.
Lemma bi_le_spec a b : bi_le (dec a) (dec b) = (a <=? b).
Proof. unfold bi_le. rewrite bi_gt_spec. rewrite Z.leb_antisym. reflexivity. Qed.
Lemma bi_ge_spec a b : bi_ge (dec a) (dec b) = (b <=? a).
Proof. unfold bi_ge. rewrite bi_lt_spec. rewrite Z.leb_antisym. reflexivity. Qed.
Lemma bi_eq_spec a b : bi_eq (dec a) (dec b) = (a =? b).
Proof.
  unfold bi_eq. destruct (Z.eqb_spec a b) as [->|H]; [apply str_eqb_refl|].
  apply str_eqb_neq. intro E. apply dec_inj in E. congruence.
Qed.

Lemma bi_abs_spec a : bi_abs (dec a) = dec (Z.abs a).
Proof.
  unfold bi_abs. rewrite is_negative_dec. destruct (Z.ltb_spec a 0).
  - rewrite negate_dec by lia. f_equal. lia.
  - f_equal. lia.
Qed.

Lemma bi_to_int_spec a :
  bi_to_int (dec a) = if (int64_min <=? a) && (a <=? int64_max) then Some a else None.
Proof. unfold bi_to_int. rewrite zval_dec_all. reflexivity. Qed.

(** Division, when no partial remainder vanishes before the last digit. *)
Lemma div_inner_spec f a b d : 0 <= a -> 0 < b -> a / b < Z.of_nat f -> 
  div_inner f (dec a) (dec b) d = Ok (dec (a mod b), d + a / b).
Proof.
  revert a d; induction f as [|f IH]; intros a d Ha Hb Hf.
  - pose proof (Z.div_pos a b ltac:(lia) ltac:(lia)). lia.
  - cbn [div_inner]. rewrite lt_dec by lia. destruct (Z.ltb_spec a b).
    + rewrite Z.mod_small, Z.div_small by lia. f_equal. f_equal. lia.
    + rewrite sub_digits_dec by lia. cbn [andb obind].
      assert (E : a = (a - b) + 1 * b) by lia.
      assert (Ed : a / b = (a - b) / b + 1) by (rewrite E at 1; apply Z.div_add; lia).
      assert (Em : a mod b = (a - b) mod b) by (rewrite E at 1; apply Z.mod_add; lia).
      rewrite IH by lia. rewrite Em, Ed. f_equal. f_equal. lia.
Qed.

Lemma dec_snoc a c : 0 < a -> digit c -> dec a ++ [c] = dec (10 * a + (c - 48)).
Proof.
  intros Ha Hc. pose proof (dec_canon a ltac:(lia)) as [Hd Hcan].
  assert (canonD (dec a ++ [c])).
  { split; [apply Forall_app; split; auto|]. right.
    destruct Hcan as [E|(x & t & E & Hx)].
    - change [48] with (dec 0) in E. apply dec_inj in E. lia.
    - rewrite E. exists x, (t ++ [c]). auto. }
  rewrite <- (dec_zval _ H). f_equal. rewrite zval_app, zval_dec by lia.
  change (length [c]) with 1%nat. change (p10 1) with 10.
  assert (zval_digits [c] = c - 48) by (unfold zval_digits, c0; cbn [fold_left]; lia). lia.
Qed.

Lemma dec_single c : digit c -> [c] = dec (c - 48).
Proof.
  intro Hc. assert (canonD [c]).
  { split; [auto|]. destruct (Z.eq_dec c 48) as [->|]; [auto|right; eauto]. }
  rewrite <- (dec_zval _ H) at 1. f_equal.
Qed.

(** [pre] is the prefix already consumed, with remainder [zval pre mod b]. *)
Lemma div_loop_spec f l b pre q leading :
  (10 < f)%nat -> Forall digit l -> 0 < b -> Forall digit pre -> pre <> [] ->
  (forall l1 l2, l = l1 ++ l2 -> l2 <> [] -> zval_digits (pre ++ l1) mod b <> 0) ->
  exists q', div_loop f l (dec b) (dec (zval_digits pre mod b)) q leading
             = Ok (q', dec (zval_digits (pre ++ l) mod b)).
Proof.
  intros Hf Hl Hb. revert pre q leading. induction Hl as [|c l Hc Hl IH]; intros pre q leading Hp Hn Hz.
  - cbn [div_loop]. rewrite app_nil_r. eauto.
  - cbn [div_loop].
    assert (N0 : zval_digits pre mod b <> 0).
    { specialize (Hz [] (c :: l) eq_refl ltac:(discriminate)). now rewrite app_nil_r in Hz. }
    pose proof (Z.mod_pos_bound (zval_digits pre) b Hb).
    pose proof (digit_bound c Hc).
    rewrite dec_snoc by (auto; lia).
    rewrite div_inner_spec; [|lia|lia|].
    2:{ apply Z.div_lt_upper_bound; [lia|]. nia. }
    cbn [obind].
    assert (E : (10 * (zval_digits pre mod b) + (c - 48)) mod b = zval_digits (pre ++ [c]) mod b).
    { rewrite zval_app. change (p10 (length [c])) with 10.
      replace (zval_digits [c]) with (c - 48) by (unfold zval_digits, c0; cbn [fold_left]; lia).
      rewrite Zplus_mod, Zmult_mod, Z.mod_mod, <- Zmult_mod, <- Zplus_mod by lia.
      f_equal. lia. }
    rewrite E.
    assert (G : forall q lead, exists q', div_loop f l (dec b) (dec (zval_digits (pre ++ [c]) mod b)) q lead
                 = Ok (q', dec (zval_digits (pre ++ c :: l) mod b))).
    { intros q0 lead. destruct (IH (pre ++ [c]) q0 lead) as [q' Hq'].
      - apply Forall_app; auto.
      - destruct pre; discriminate.
      - intros l1 l2 El Nl. rewrite <- app_assoc. apply (Hz (c :: l1) l2); auto. simpl. congruence.
      - rewrite <- app_assoc in Hq'. eauto. }
    destruct ((_ =? 0) && leading); apply G.
Qed.

Lemma zval_prefix a b : Forall digit b -> zval_digits a = zval_digits (a ++ b) / p10 (length b).
Proof.
  intro Hb. rewrite zval_app. pose proof (zval_bound b Hb). pose proof (p10_pos (length b)).
  rewrite Z.add_comm, Z.div_add by lia. rewrite Z.div_small by lia. lia.
Qed.

Lemma bi_divide_rem x y : 0 <= x -> 0 < y ->
  (forall k, 0 < k -> 10 ^ k <= x -> (x / 10 ^ k) mod y <> 0) ->
  exists q, bi_divide (dec x) (dec y) = Ok (q, dec (x mod y)).
Proof.
  intros Hx Hy Hz. unfold bi_divide. pose proof (dec_canon x Hx) as Hc.
  pose proof (zval_dec x Hx) as Hv.
  destruct (dec x) as [|c l] eqn:E; [now apply canon_nonempty in Hc|].
  pose proof Hc as Hc2. apply canon_iff in Hc2 as [Hd Hb].
  assert (Hdc : digit c) by now inversion Hd. assert (Hdl : Forall digit l) by now inversion Hd.
  cbn [div_loop app]. rewrite (dec_single c Hdc).
  pose proof (digit_bound c Hdc).
  rewrite div_inner_spec; [|lia|lia|unfold div_fuel; apply Z.div_lt_upper_bound; nia].
  cbn [obind].
  assert (Ev : zval_digits [c] = c - 48) by (unfold zval_digits, c0; cbn [fold_left]; lia).
  rewrite <- Ev.
  assert (G : forall q lead, exists q', div_loop div_fuel l (dec y) (dec (zval_digits [c] mod y)) q lead
             = Ok (q', dec (zval_digits ([c] ++ l) mod y))).
  { intros. apply div_loop_spec; auto; [unfold div_fuel; lia|discriminate|].
    intros l1 l2 El N2. assert (Hd2 : Forall digit l2) by (subst l; now apply Forall_app in Hdl as [_ ?]).
    rewrite (zval_prefix ([c] ++ l1) l2 Hd2). rewrite <- app_assoc, <- El. cbn [app]. rewrite Hv.
    unfold p10. apply Hz; [destruct l2; [congruence|simpl; lia]|].
    fold (p10 (length l2)). destruct Hb as [Hb|[_ Hb]].
    - injection Hb as -> ->. destruct l1; [|discriminate]. destruct l2; [congruence|discriminate].
    - rewrite Hv in Hb. etransitivity; [|exact Hb]. apply p10_mono. subst l. cbn [length].
      rewrite app_length. lia. }
  cbn [app] in G. rewrite Hv in G.
  destruct (_ && true); apply G.
Qed.

Lemma bi_mod_spec x y : y <> 0 ->
  (forall k, 0 < k -> 10 ^ k <= Z.abs x -> (Z.abs x / 10 ^ k) mod Z.abs y <> 0) \/ Z.abs x < Z.abs y ->
  bi_mod (dec x) (dec y) = Ok (dec (Z.rem x y)).
Proof.
  intros Hy Hz. unfold bi_mod. rewrite !digits_dec, lt_dec, is_zero_dec, is_negative_dec by lia.
  destruct (Z.ltb_spec (Z.abs x) (Z.abs y)).
  { f_equal. f_equal. symmetry. apply Z.rem_small_iff; auto. }
  destruct (Z.eqb_spec y 0); [lia|].
  destruct Hz as [Hz|?]; [|lia].
  destruct (bi_divide_rem (Z.abs x) (Z.abs y)) as [q ->]; [lia|lia|auto|].
  cbn [obind]. f_equal.
  pose proof (Z.mod_pos_bound (Z.abs x) (Z.abs y) ltac:(lia)).
  assert (R : Z.rem (Z.abs x) (Z.abs y) = Z.abs x mod Z.abs y) by (apply Z.rem_mod_nonneg; lia).
  assert (R2 : Z.rem x y = Z.rem x (Z.abs y)).
  { destruct (Z.abs_eq_or_opp y) as [->| ->]; auto. now rewrite Z.rem_opp_r. }
  destruct (Z.ltb_spec x 0).
  - assert (Z.rem x y = - (Z.abs x mod Z.abs y)).
    { rewrite R2, <- R. replace x with (- Z.abs x) at 1 by lia. apply Z.rem_opp_l. lia. }
    destruct (Z.eq_dec (Z.abs x mod Z.abs y) 0) as [E|E].
    + rewrite H2, E. reflexivity.
    + rewrite dec_nz by auto. cbn [andb negb]. rewrite H2, dec_neg by lia. reflexivity.
  - cbn [andb]. f_equal. rewrite R2, <- R. f_equal. lia.
Qed.

Lemma bi_mod_zero x : bi_mod (dec x) (dec 0) = Throw.
Proof.
  unfold bi_mod. rewrite !digits_dec, lt_dec, is_zero_dec by lia.
  destruct (Z.ltb_spec (Z.abs x) (Z.abs 0)); [lia|]. reflexivity.
Qed.

(** What an Int text may look like after the parser: an optional minus sign and digits without redundant zeros. *)
Lemma is_int_dec z : is_int (dec z) = true.
Proof.
  assert (G : forall z, 0 <= z -> forallb is_digit (dec z) = true).
  { intros w Hw. apply forallb_forall. intros c Hc. apply is_digit_spec.
    pose proof (dec_canon w Hw) as [Hd _]. rewrite Forall_forall in Hd. auto. }
  destruct (Z.ltb_spec z 0).
  - replace z with (- - z) by lia. rewrite dec_neg by lia. cbn. apply G. lia.
  - pose proof (G z H). destruct (dec_cons_digit z H) as (c & t & E & Hc). rewrite E in *.
    unfold is_int. destruct (Z.eqb_spec c cminus) as [->|]; auto.
    unfold digit, cminus in Hc. lia.
Qed.
