(** Facts about the specification's canonical decimal text [dec]: it is exactly the digit texts without leading zeros. *)
From Coq Require Import String ZArith List Bool Lia DecimalString DecimalZ Decimal.
From Verif Require Import Base BigIntSpec BigIntModel.
Import ListNotations.
Local Open Scope Z_scope.

Definition digit (c : byte) : Prop := 48 <= c <= 57.

(** Canonical digit text of a natural number. *)
Definition canonD (t : str) : Prop :=
  Forall digit t /\ (t = [48] \/ exists c t', t = c :: t' /\ c <> 48).

Definition ub (d : uint) : str := bytes_of (NilEmpty.string_of_uint d).

Lemma ub_digit d : Forall digit (ub d).
Proof. induction d; unfold ub in *; simpl; constructor; auto; unfold digit; simpl; lia. Qed.

Lemma fold_ub_acc d a :
  fold_left (fun a c => a * 10 + (c - c0)) (ub d) (Zpos a) = Zpos (Pos.of_uint_acc d a).
Proof.
  revert a; induction d; intro a; unfold ub in *; [reflexivity| ..];
    cbn [NilEmpty.string_of_uint bytes_of fold_left];
    cbn [Pos.of_uint_acc]; rewrite <- IHd; f_equal; unfold c0;
    match goal with |- context [Z.of_N ?x] =>
      let v := eval vm_compute in (Z.of_N x) in change (Z.of_N x) with v end;
    rewrite ?Pos2Z.inj_add, ?Pos2Z.inj_mul; lia.
Qed.

Lemma fold_ub d : zval_digits (ub d) = Z.of_uint d.
Proof.
  unfold zval_digits, Z.of_uint. induction d; [reflexivity| ..].
  - exact IHd.
  - cbn -[Z.add Z.mul]. exact (fold_ub_acc d 1).
  - exact (fold_ub_acc d 2).
  - exact (fold_ub_acc d 3).
  - exact (fold_ub_acc d 4).
  - exact (fold_ub_acc d 5).
  - exact (fold_ub_acc d 6).
  - exact (fold_ub_acc d 7).
  - exact (fold_ub_acc d 8).
  - exact (fold_ub_acc d 9).
Qed.

Lemma digits_uint t : Forall digit t -> exists d, ub d = t.
Proof.
  induction 1 as [|c t Hc Ht [d Hd]].
  - exists Nil. reflexivity.
  - unfold digit in Hc.
    assert (c = 48 \/ c = 49 \/ c = 50 \/ c = 51 \/ c = 52 \/ c = 53 \/ c = 54 \/ c = 55 \/ c = 56 \/ c = 57)
      as HH by lia.
    unfold ub in *.
    destruct HH as [->|[->|[->|[->|[->|[->|[->|[->|[->| ->]]]]]]]]];
    [exists (D0 d)|exists (D1 d)|exists (D2 d)|exists (D3 d)|exists (D4 d)|exists (D5 d)
    |exists (D6 d)|exists (D7 d)|exists (D8 d)|exists (D9 d)];
    simpl; rewrite Hd; reflexivity.
Qed.

Lemma ub_nonnil d : d <> Nil -> NilZero.string_of_uint d = NilEmpty.string_of_uint d.
Proof. destruct d; auto; congruence. Qed.

Lemma dec_of_uint d : d <> Nil -> (d = D0 Nil \/ forall d', d <> D0 d') ->
  dec (Z.of_uint d) = ub d.
Proof.
  intros Hn Hd. unfold dec.
  change (Z.of_uint d) with (Z.of_int (Pos d)). rewrite DecimalZ.to_of.
  unfold norm. cbn [NilZero.string_of_int].
  assert (unorm d = d) as ->.
  { destruct Hd as [-> | Hd]; [reflexivity|]. destruct d; try reflexivity; [congruence|].
    exfalso; eapply Hd; reflexivity. }
  rewrite ub_nonnil by auto. reflexivity.
Qed.

Lemma dec_zval t : canonD t -> dec (zval_digits t) = t.
Proof.
  intros [Hd Hc]. destruct (digits_uint t Hd) as [d Hu]. subst t.
  rewrite fold_ub. apply dec_of_uint.
  - intros ->. destruct Hc as [Hc|(c & t' & Hc & _)]; discriminate Hc.
  - destruct Hc as [Hc|(c & t' & Hc & Hne)].
    + left. destruct d; try discriminate Hc. f_equal.
      unfold ub in Hc. simpl in Hc. injection Hc as Hc. destruct d; try discriminate Hc. reflexivity.
    + right. intros d' ->. unfold ub in Hc. simpl in Hc. congruence.
Qed.

Lemma dec_neg z : 0 < z -> dec (- z) = cminus :: dec z.
Proof. destruct z; try lia. intros _. reflexivity. Qed.

Lemma nzhead_to_uint p : unorm (Pos.to_uint p) = Pos.to_uint p /\ Pos.to_uint p <> Nil.
Proof.
  pose proof (DecimalZ.to_of (Pos (Pos.to_uint p))) as H.
  change (Pos (Pos.to_uint p)) with (Z.to_int (Zpos p)) in H at 1.
  rewrite DecimalZ.of_to in H. simpl in H. injection H as H.
  split; [congruence|]. intro HN. rewrite HN in H. discriminate.
Qed.

Lemma dec_canon z : 0 <= z -> canonD (dec z).
Proof.
  destruct z as [|p|p]; intro Hz; try lia.
  - split; [repeat constructor; unfold digit; simpl; lia|left; reflexivity].
  - destruct (nzhead_to_uint p) as [H1 H2].
    assert (dec (Zpos p) = ub (Pos.to_uint p)) as ->.
    { unfold dec. cbn [Z.to_int NilZero.string_of_int]. rewrite ub_nonnil; auto. }
    split; [apply ub_digit|].
    unfold unorm in H1.
    destruct (nzhead (Pos.to_uint p)) as [|d|d|d|d|d|d|d|d|d|d] eqn:E; rewrite <- H1; unfold ub; simpl;
      try (right; do 2 eexists; split; [reflexivity|lia]).
    + left; reflexivity.
    + exfalso. clear -E. remember (Pos.to_uint p) as u. clear Hequ. induction u; simpl in E; try discriminate. auto.
Qed.

Lemma zval_dec z : 0 <= z -> zval_digits (dec z) = z.
Proof.
  destruct z as [|p|p]; intro Hz; try lia; [reflexivity|].
  unfold dec. cbn [Z.to_int NilZero.string_of_int].
  destruct (nzhead_to_uint p) as [H1 H2]. rewrite ub_nonnil by auto.
  fold (ub (Pos.to_uint p)). rewrite fold_ub.
  exact (DecimalZ.of_to (Zpos p)).
Qed.

Lemma dec_inj a b : dec a = dec b -> a = b.
Proof.
  assert (HD : forall z, 0 <= z -> exists c t, dec z = c :: t /\ digit c).
  { intros z Hz. destruct (dec_canon z Hz) as [Hf Hc].
    destruct Hc as [Hc|(c & t & Hc & _)]; rewrite Hc in *; do 2 eexists; (split; [reflexivity|]);
      [unfold digit; lia | inversion Hf; subst; assumption]. }
  intro H.
  destruct (Z.le_gt_cases 0 a), (Z.le_gt_cases 0 b).
  - rewrite <- (zval_dec a), <- (zval_dec b) by auto. congruence.
  - replace b with (- (- b)) in H by lia. rewrite dec_neg in H by lia.
    destruct (HD a) as (c & t & Ha & Hc); auto. rewrite Ha in H. injection H as -> _.
    unfold digit, cminus in Hc. lia.
  - replace a with (- (- a)) in H by lia. rewrite dec_neg in H by lia.
    destruct (HD b) as (c & t & Ha & Hc); auto. rewrite Ha in H. injection H as <- _.
    unfold digit, cminus in Hc. lia.
  - replace b with (- (- b)) in H by lia. replace a with (- (- a)) in H by lia.
    rewrite (dec_neg (- a)), (dec_neg (- b)) in H by lia. assert (dec (- a) = dec (- b)) as H' by congruence.
    cut (- a = - b); [lia|]. rewrite <- (zval_dec (-a)), <- (zval_dec (-b)) by lia. congruence.
Qed.

Lemma is_digit_spec c : is_digit c = true <-> digit c.
Proof. unfold is_digit, digit. rewrite andb_true_iff, !Z.leb_le. lia. Qed.

Lemma dec_cons_digit z : 0 <= z -> exists c t, dec z = c :: t /\ digit c.
Proof.
  intros Hz. destruct (dec_canon z Hz) as [Hf Hc].
  destruct Hc as [Hc|(c & t & Hc & _)]; rewrite Hc in *; do 2 eexists; (split; [reflexivity|]);
    [unfold digit; lia | inversion Hf; subst; assumption].
Qed.

Lemma is_negative_dec z : is_negative (dec z) = (z <? 0).
Proof.
  destruct (Z.ltb_spec z 0).
  - replace z with (- (- z)) by lia. rewrite dec_neg by lia. reflexivity.
  - destruct (dec_cons_digit z) as (c & t & -> & Hc); auto. simpl. unfold digit, cminus in *.
    apply Z.eqb_neq. lia.
Qed.

Lemma digits_dec z : digits (dec z) = dec (Z.abs z).
Proof.
  unfold digits. rewrite is_negative_dec. destruct (Z.ltb_spec z 0).
  - replace z with (- (- z)) at 1 by lia. rewrite dec_neg by lia. simpl. f_equal. lia.
  - f_equal. lia.
Qed.

Lemma negate_dec z : z <> 0 -> bi_negate (dec z) = dec (- z).
Proof.
  intro Hz. unfold bi_negate. rewrite is_negative_dec. destruct (Z.ltb_spec z 0).
  - replace z with (- (- z)) at 1 by lia. rewrite dec_neg by lia. reflexivity.
  - rewrite dec_neg by lia. reflexivity.
Qed.

Lemma is_zero_dec z : is_zero (dec z) = (z =? 0).
Proof.
  unfold is_zero. destruct (Z.eqb_spec z 0) as [->|H]; [reflexivity|].
  apply str_eqb_neq. change [c0] with (dec 0). intro E. apply dec_inj in E. congruence.
Qed.

Lemma zval_dec_all z : zval (dec z) = z.
Proof.
  unfold zval. rewrite is_negative_dec. destruct (Z.ltb_spec z 0).
  - replace z with (- (- z)) at 1 by lia. rewrite dec_neg by lia. simpl. rewrite zval_dec; lia.
  - apply zval_dec; lia.
Qed.
