(** Facts about the checksum of the binary bundle format: it is a bitwise CRC, and it tells apart any two payloads that differ
    in a window of at most 32 bits. *)
From Coq Require Import String ZArith List Bool Lia.
From Verif Require Import Base BigIntSpec BigIntModel SMap ValueModel ValueSpec ResolverModel VmModel BinModel.
Import ListNotations.
Local Open Scope Z_scope.
Local Open Scope list_scope.

Definition poly : Z := 0xedb88320.
Definition bitstep (c : Z) (b : bool) : Z := Z.lxor (Z.shiftr c 1) (if xorb (Z.odd c) b then poly else 0).
Definition bits4 (n : Z) : list bool := map (Z.testbit n) [0; 1; 2; 3].
Definition bits8 (n : Z) : list bool := map (Z.testbit n) [0; 1; 2; 3; 4; 5; 6; 7].

Definition u32 (c : Z) : Prop := 0 <= c < 2 ^ 32.

Lemma lxor_u32 a b : u32 a -> u32 b -> u32 (Z.lxor a b).
Proof.
  unfold u32. intros Ha Hb.
  assert (N : 0 <= Z.lxor a b) by (apply Z.lxor_nonneg; lia).
  split; auto.
  destruct (Z.eq_dec (Z.lxor a b) 0) as [E|E]; [rewrite E; lia|].
  apply Z.log2_lt_pow2; [lia|].
  eapply Z.le_lt_trans; [apply Z.log2_lxor; lia|].
  destruct (Z.eq_dec a 0), (Z.eq_dec b 0); subst; simpl Z.log2; try lia;
    apply Z.max_lub_lt; try lia; apply Z.log2_lt_pow2; lia.
Qed.

Lemma bitstep_u32 c b : u32 c -> u32 (bitstep c b).
Proof.
  intro H. apply lxor_u32.
  - unfold u32 in *. rewrite Z.shiftr_div_pow2 by lia. change (2 ^ 1) with 2.
    split; [apply Z.div_pos; lia | apply Z.div_lt_upper_bound; lia].
  - destruct (xorb _ _); unfold u32, poly; lia.
Qed.

Lemma fold_u32 w : forall c, u32 c -> u32 (fold_left bitstep w c).
Proof. induction w; simpl; intros; auto. apply IHw, bitstep_u32; auto. Qed.

Lemma odd_lxor a b : Z.odd (Z.lxor a b) = xorb (Z.odd a) (Z.odd b).
Proof. rewrite <- !Z.bit0_odd. apply Z.lxor_spec. Qed.

Lemma bitstep_lxor c c' b b' : bitstep (Z.lxor c c') (xorb b b') = Z.lxor (bitstep c b) (bitstep c' b').
Proof.
  unfold bitstep. rewrite Z.shiftr_lxor, odd_lxor.
  set (x := Z.shiftr c 1). set (y := Z.shiftr c' 1).
  destruct (Z.odd c), (Z.odd c'), b, b'; cbn [xorb];
    apply Z.bits_inj'; intros n Hn; rewrite ?Z.lxor_spec, ?Z.bits_0;
    destruct (Z.testbit x n), (Z.testbit y n), (Z.testbit poly n); reflexivity.
Qed.

Lemma fold_lxor : forall w c c',
  fold_left bitstep w (Z.lxor c c') =
  Z.lxor (fold_left bitstep w c) (fold_left bitstep (map (fun _ => false) w) c').
Proof.
  induction w as [|b w IH]; intros c c'; simpl; auto.
  rewrite <- IH. f_equal. rewrite <- bitstep_lxor. f_equal. destruct b; reflexivity.
Qed.

Lemma bitstep_double x : bitstep (2 * x) false = x.
Proof.
  unfold bitstep. rewrite Z.odd_mul. simpl (Z.odd 2). simpl (false && _). cbn [xorb].
  rewrite Z.lxor_0_r, Z.shiftr_div_pow2 by lia. change (2 ^ 1) with 2.
  rewrite Z.mul_comm. apply Z.div_mul. lia.
Qed.

Lemma table_ok : forallb (fun l => forallb (fun n =>
   (fold_left bitstep (bits4 n) l =? nth (Z.to_nat (Z.lxor l n)) crc_table 0))
   (map Z.of_nat (seq 0 16))) (map Z.of_nat (seq 0 16)) = true.
Proof. vm_compute. reflexivity. Qed.

Lemma table_at l n : 0 <= l < 16 -> 0 <= n < 16 ->
  fold_left bitstep (bits4 n) l = nth (Z.to_nat (Z.lxor l n)) crc_table 0.
Proof.
  intros Hl Hn. pose proof table_ok as T. rewrite forallb_forall in T.
  assert (I : forall z, 0 <= z < 16 -> In z (map Z.of_nat (seq 0 16))).
  { intros z Hz. apply in_map_iff. exists (Z.to_nat z). split; [lia|]. apply in_seq. lia. }
  specialize (T l (I l Hl)). rewrite forallb_forall in T.
  specialize (T n (I n Hn)). now apply Z.eqb_eq in T.
Qed.

Lemma nibble_bits c n : 0 <= c -> 0 <= n < 16 -> crc_nibble c n = fold_left bitstep (bits4 n) c.
Proof.
  intros Hc Hn. unfold crc_nibble.
  assert (L : Z.land c 15 = c mod 16) by (change 15 with (Z.ones 4); rewrite Z.land_ones by lia; reflexivity).
  assert (B : 0 <= c mod 16 < 16) by (apply Z.mod_pos_bound; lia).
  rewrite L, <- table_at by auto.
  assert (E : c = Z.lxor (c mod 16) (16 * Z.shiftr c 4)).
  { apply Z.bits_inj'; intros i Hi. rewrite Z.lxor_spec.
    change 16 with (2 ^ 4) at 2. rewrite (Z.mul_comm (2 ^ 4)), <- Z.shiftl_mul_pow2 by lia.
    change (c mod 16) with (c mod 2 ^ 4).
    destruct (Z.lt_ge_cases i 4).
    - rewrite Z.mod_pow2_bits_low, Z.shiftl_spec_low by lia. now destruct (Z.testbit c i).
    - rewrite Z.mod_pow2_bits_high, Z.shiftl_spec, Z.shiftr_spec by lia.
      rewrite xorb_false_l. f_equal. ring. }
  rewrite E at 3. rewrite fold_lxor. rewrite Z.lxor_comm. f_equal.
  cbn [bits4 map fold_left].
  replace (16 * Z.shiftr c 4) with (2 * (2 * (2 * (2 * Z.shiftr c 4)))) by ring.
  now rewrite !bitstep_double.
Qed.

Lemma byte_bits c b : u32 c -> is_byte b -> crc_byte c b = fold_left bitstep (bits8 b) c.
Proof.
  intros Hc Hb. unfold crc_byte, is_byte in *.
  assert (A : 0 <= Z.land b 15 < 16).
  { change 15 with (Z.ones 4). rewrite Z.land_ones by lia. apply Z.mod_pos_bound. lia. }
  assert (B : 0 <= Z.shiftr b 4 < 16).
  { rewrite Z.shiftr_div_pow2 by lia. change (2 ^ 4) with 16.
    split; [apply Z.div_pos; lia | apply Z.div_lt_upper_bound; lia]. }
  rewrite (nibble_bits c) by (unfold u32 in *; lia).
  rewrite nibble_bits; auto.
  2:{ pose proof (fold_u32 (bits4 (Z.land b 15)) c Hc) as U. unfold u32 in U. lia. }
  rewrite <- fold_left_app. f_equal. unfold bits4, bits8. cbn [map app].
  rewrite !Z.land_spec, !Z.shiftr_spec by lia.
  change (Z.testbit 15 0) with true. change (Z.testbit 15 1) with true.
  change (Z.testbit 15 2) with true. change (Z.testbit 15 3) with true.
  rewrite !andb_true_r. reflexivity.
Qed.

Lemma bytes_bits p : wf_str p -> forall c, u32 c ->
  fold_left crc_byte p c = fold_left bitstep (concat (map bits8 p)) c.
Proof.
  induction 1 as [|b p Hb Hp IH]; intros c Hc; cbn [fold_left map concat]; auto.
  rewrite fold_left_app, <- byte_bits by auto. apply IH.
  rewrite byte_bits by auto. now apply fold_u32.
Qed.

(** ** Going back *)

Lemma lxor_cancel a b x : Z.lxor a x = Z.lxor b x -> a = b.
Proof.
  intro H. assert (E : Z.lxor (Z.lxor a x) x = Z.lxor (Z.lxor b x) x) by now rewrite H.
  now rewrite !Z.lxor_assoc, Z.lxor_nilpotent, !Z.lxor_0_r in E.
Qed.

Lemma bitstep_top c b : u32 c -> Z.testbit (bitstep c b) 31 = xorb (Z.odd c) b.
Proof.
  intro H. unfold bitstep. rewrite Z.lxor_spec, Z.shiftr_spec by lia.
  rewrite (Z.bits_above_log2 c (31 + 1)).
  - rewrite xorb_false_l. destruct (xorb (Z.odd c) b); reflexivity.
  - unfold u32 in H; lia.
  - unfold u32 in H. destruct (Z.eq_dec c 0); [subst; simpl; lia|]. apply Z.log2_lt_pow2; lia.
Qed.

Lemma back c c' b b' m : u32 c -> u32 c' -> 0 <= m <= 31 ->
  Z.shiftr (bitstep c b) m = Z.shiftr (bitstep c' b') m ->
  xorb (Z.odd c) b = xorb (Z.odd c') b' /\ Z.shiftr c (m + 1) = Z.shiftr c' (m + 1).
Proof.
  intros H H' Hm E.
  assert (T : xorb (Z.odd c) b = xorb (Z.odd c') b').
  { rewrite <- !bitstep_top by auto.
    replace 31 with ((31 - m) + m) by lia. rewrite <- !Z.shiftr_spec by lia. now rewrite E. }
  split; auto. unfold bitstep in E. rewrite T, !Z.shiftr_lxor in E. apply lxor_cancel in E.
  rewrite !Z.shiftr_shiftr in E by lia. replace (m + 1) with (1 + m) by lia. exact E.
Qed.

Lemma odd_shiftr c c' : Z.odd c = Z.odd c' -> Z.shiftr c 1 = Z.shiftr c' 1 -> c = c'.
Proof.
  intros O E. apply Z.bits_inj'. intros n Hn.
  destruct (Z.eq_dec n 0) as [->|N]; [now rewrite !Z.bit0_odd|].
  replace n with ((n - 1) + 1) by lia. rewrite <- !Z.shiftr_spec by lia. now rewrite E.
Qed.

Lemma bitstep_inj c c' b : u32 c -> u32 c' -> bitstep c b = bitstep c' b -> c = c'.
Proof.
  intros H H' E. destruct (back c c' b b 0 H H') as [O S]; [lia | now rewrite E |].
  apply odd_shiftr; auto. destruct (Z.odd c), (Z.odd c'), b; simpl in O; congruence.
Qed.

Lemma fold_inj w : forall c c', u32 c -> u32 c' ->
  fold_left bitstep w c = fold_left bitstep w c' -> c = c'.
Proof.
  induction w as [|b w IH]; intros c c' H H' E; simpl in E; auto.
  apply IH in E; try (apply bitstep_u32; auto). now apply bitstep_inj in E.
Qed.

Lemma window : forall w w' c m, u32 c -> length w = length w' -> (0 <= m) ->
  m + Z.of_nat (length w) <= 32 ->
  Z.shiftr (fold_left bitstep w c) m = Z.shiftr (fold_left bitstep w' c) m -> w = w'.
Proof.
  induction w as [|b w IH] using rev_ind; intros w' c m Hc L Hm B E.
  - destruct w'; auto; discriminate.
  - destruct w' as [|b' w' _] using rev_ind. { rewrite app_length in L; simpl in L; lia. }
    rewrite !app_length in L; simpl in L. rewrite app_length in B; simpl in B.
    rewrite !fold_left_app in E. cbn [fold_left] in E.
    apply back in E as [O S]; try (apply fold_u32; auto); try lia.
    assert (W : w = w') by (eapply (IH w' c (m + 1)); eauto; lia).
    subst w'. f_equal. f_equal. destruct (Z.odd _), b, b'; simpl in O; congruence.
Qed.

Lemma burst_bits a w w' t c : u32 c -> length w = length w' -> (length w <= 32)%nat ->
  fold_left bitstep (a ++ w ++ t) c = fold_left bitstep (a ++ w' ++ t) c -> w = w'.
Proof.
  intros Hc L B E. rewrite !fold_left_app in E.
  apply fold_inj in E; try (repeat apply fold_u32; auto).
  apply (window w w' (fold_left bitstep a c) 0); try lia.
  - now apply fold_u32.
  - now rewrite E.
Qed.

Lemma crc32_bits p : wf_str p -> crc32 p = crc_not (fold_left bitstep (concat (map bits8 p)) (crc_not 0)).
Proof. intro H. unfold crc32. rewrite bytes_bits; auto. unfold u32; vm_compute; split; congruence. Qed.

Lemma crc32_u32 p : wf_str p -> u32 (crc32 p).
Proof.
  intro H. rewrite crc32_bits by auto. apply lxor_u32.
  - apply fold_u32. unfold u32; vm_compute; split; congruence.
  - unfold u32. lia.
Qed.

Lemma crc_burst p p' a w w' t : wf_str p -> wf_str p' ->
  concat (map bits8 p) = a ++ w ++ t -> concat (map bits8 p') = a ++ w' ++ t ->
  length w = length w' -> (length w <= 32)%nat -> w <> w' -> crc32 p <> crc32 p'.
Proof.
  intros Hp Hp' E E' L B N C. apply N.
  rewrite !crc32_bits, E, E' in C by auto. apply lxor_cancel in C.
  eapply burst_bits; eauto. unfold u32; vm_compute; split; congruence.
Qed.

(** ** Bytes *)

Lemma bits8_length p : length (concat (map bits8 p)) = (8 * length p)%nat.
Proof. induction p; simpl; auto. rewrite IHp. lia. Qed.

Lemma bits8_inj b b' : is_byte b -> is_byte b' -> bits8 b = bits8 b' -> b = b'.
Proof.
  unfold is_byte. intros H H' E. unfold bits8 in E. cbn [map] in E. injection E; clear E; intros E7 E6 E5 E4 E3 E2 E1 E0.
  apply Z.bits_inj'. intros n Hn.
  destruct (Z.lt_ge_cases n 8) as [L|L].
  - assert (n = 0 \/ n = 1 \/ n = 2 \/ n = 3 \/ n = 4 \/ n = 5 \/ n = 6 \/ n = 7) as C by lia.
    repeat destruct C as [->|C]; auto. subst; auto.
  - assert (HH : forall x, 0 <= x < 256 -> Z.testbit x n = false).
    { intros x Hx. destruct (Z.eq_dec x 0); [subst; apply Z.bits_0|].
      apply Z.bits_above_log2; [lia|]. assert (Z.log2 x < 8) by (apply Z.log2_lt_pow2; lia). lia. }
    now rewrite !HH.
Qed.

Lemma bits_inj : forall p p', wf_str p -> wf_str p' -> concat (map bits8 p) = concat (map bits8 p') -> p = p'.
Proof.
  induction p as [|b p IH]; intros [|b' p'] H H' E; auto.
  - apply (f_equal (@length bool)) in E. rewrite !bits8_length in E. simpl in E; lia.
  - apply (f_equal (@length bool)) in E. rewrite !bits8_length in E. simpl in E; lia.
  - inversion H; inversion H'; subst. cbn [map concat] in E.
    assert (L : bits8 b = bits8 b' /\ concat (map bits8 p) = concat (map bits8 p')).
    { split; [exact (f_equal (firstn 8) E) | exact (f_equal (skipn 8) E)]. }
    destruct L as [L1 L2]. f_equal; [apply bits8_inj; auto | apply IH; auto].
Qed.
