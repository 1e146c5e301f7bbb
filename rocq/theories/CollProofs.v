(** Lemmas about the collection builtins. *)
From Coq Require Import String ZArith List Bool Lia Permutation Sorted.
From Verif Require Import Base BigIntSpec BigIntModel DecFacts BigIntProofs SMap SMapFacts ValueModel ValueSpec KeyProofs
  ResolverModel ResolverProofs CollModel CollSpec.
Import ListNotations.
Local Open Scope Z_scope.

(** ** Ranges *)
Lemma range_loop_up s fuel : 0 < s -> forall next, (forall z, next (dec z) = Ok (dec (z + s))) -> forall a b,
  (Z.to_nat (b - a) < fuel)%nat ->
  let n := if a <? b then Z.to_nat ((b - a + s - 1) / s) else O in
  range_loop fuel true next (dec a) (dec b) = Ok (map dec (progression a s n), dec (a + Z.of_nat n * s)).
Proof.
  intros Hs next Hn. induction fuel as [|fuel IH]; intros a b Hf; [lia|]. cbn [range_loop]. rewrite bi_lt_spec.
  destruct (Z.ltb_spec a b) as [H|H]; cbn zeta.
  - rewrite Hn. cbn [obind]. rewrite IH by lia. cbn [obind].
    assert (Hd : (b - a + s - 1) / s = 1 + (b - a - 1) / s).
    { replace (b - a + s - 1) with (1 * s + (b - a - 1)) by lia. now rewrite Z.div_add_l by lia. }
    assert (Hp : 0 <= (b - a - 1) / s) by (apply Z.div_pos; lia).
    set (n1 := if a + s <? b then Z.to_nat ((b - (a + s) + s - 1) / s) else O).
    assert (Hn1 : n1 = Z.to_nat ((b - a - 1) / s)).
    { unfold n1. destruct (Z.ltb_spec (a + s) b); [f_equal; f_equal; lia|].
      rewrite Z.div_small by lia. reflexivity. }
    rewrite Hn1, Hd, Z2Nat.inj_add by lia. change (Z.to_nat 1) with 1%nat. cbn [Nat.add]. unfold progression.
    cbn [seq map]. rewrite <- seq_shift, !map_map. f_equal. f_equal.
    + f_equal; [f_equal; lia|]. apply map_ext. intro i. f_equal. lia.
    + f_equal. lia.
  - unfold progression. cbn. f_equal. f_equal. f_equal. lia.
Qed.
Lemma range_loop_down s fuel : 0 < s -> forall next, (forall z, next (dec z) = Ok (dec (z - s))) -> forall a b,
  (Z.to_nat (a - b) < fuel)%nat ->
  let n := if b <? a then Z.to_nat ((a - b + s - 1) / s) else O in
  range_loop fuel false next (dec a) (dec b) = Ok (map dec (progression a (- s) n), dec (a - Z.of_nat n * s)).
Proof.
  intros Hs next Hn. induction fuel as [|fuel IH]; intros a b Hf; [lia|]. cbn [range_loop]. rewrite bi_gt_spec.
  destruct (Z.ltb_spec b a) as [H|H]; cbn zeta.
  - rewrite Hn. cbn [obind]. rewrite IH by lia. cbn [obind].
    assert (Hd : (a - b + s - 1) / s = 1 + (a - b - 1) / s).
    { replace (a - b + s - 1) with (1 * s + (a - b - 1)) by lia. now rewrite Z.div_add_l by lia. }
    assert (Hp : 0 <= (a - b - 1) / s) by (apply Z.div_pos; lia).
    set (n1 := if b <? a - s then Z.to_nat ((a - s - b + s - 1) / s) else O).
    assert (Hn1 : n1 = Z.to_nat ((a - b - 1) / s)).
    { unfold n1. destruct (Z.ltb_spec b (a - s)); [f_equal; f_equal; lia|].
      rewrite Z.div_small by lia. reflexivity. }
    rewrite Hn1, Hd, Z2Nat.inj_add by lia. change (Z.to_nat 1) with 1%nat. cbn [Nat.add]. unfold progression.
    cbn [seq map]. rewrite <- seq_shift, !map_map. f_equal. f_equal.
    + f_equal; [f_equal; lia|]. apply map_ext. intro i. f_equal. lia.
    + f_equal. lia.
  - unfold progression. cbn. f_equal. f_equal. f_equal. lia.
Qed.

Lemma progression_snoc a s n : (progression a s n ++ [a + Z.of_nat n * s] = progression a s (S n))%list.
Proof. unfold progression. rewrite seq_S, map_app. reflexivity. Qed.
Lemma map_snoc l x : (map dec l ++ [dec x])%list = map dec (l ++ [x]).
Proof. now rewrite map_app. Qed.
Lemma vints_map l : vints (map dec l) = VArray (ints l).
Proof. unfold vints, ints. now rewrite map_map. Qed.

Lemma range_spec a b : numbers_range (VInt (dec a)) (VInt (dec b)) = Ok (RVal (VArray (ints (interval a b)))).
Proof.
  unfold numbers_range, range_fuel. rewrite bi_lt_spec, !zval_dec_all.
  unfold interval, stepped. destruct (Z.ltb_spec a b) as [H|H].
  - rewrite (range_loop_up 1) by (lia || intro z; apply (bi_add_spec z 1)).
    destruct (Z.ltb_spec a b); [|lia]. cbn [obind]. rewrite map_snoc, vints_map.
    rewrite progression_snoc. destruct (Z.leb_spec a b); [|lia]. rewrite !Z.div_1_r. do 6 f_equal. lia.
  - rewrite (range_loop_down 1) by (lia || intro z; apply (bi_sub_spec z 1)). cbn [obind].
    rewrite map_snoc, vints_map.
    replace (a - Z.of_nat (if b <? a then Z.to_nat ((a - b + 1 - 1) / 1) else 0%nat) * 1) with
      (a + Z.of_nat (if b <? a then Z.to_nat ((a - b + 1 - 1) / 1) else 0%nat) * - (1)) by lia.
    rewrite progression_snoc. rewrite !Z.div_1_r.
    destruct (Z.ltb_spec b a), (Z.leb_spec a b); try lia; cbn [Nat.add].
    + do 6 f_equal. lia.
    + assert (a = b) by lia. subst. rewrite Z.sub_diag. reflexivity.
Qed.

Lemma range_step_spec a b s : 0 < s ->
  numbers_range_step (VInt (dec a)) (VInt (dec b)) (VInt (dec s)) = Ok (RVal (VArray (ints (stepped a b s)))).
Proof.
  intro Hs. unfold numbers_range_step, range_fuel. change ($"1") with (dec 1). rewrite !bi_lt_spec, !zval_dec_all.
  destruct (Z.ltb_spec s 1); [lia|]. unfold stepped.
  assert (HD : forall d, 0 < d -> (d mod s = 0 -> (d + s - 1) / s = d / s) /\ (d mod s <> 0 -> (d + s - 1) / s = 1 + d / s)).
  { intros d Hd. pose proof (Z.div_mod d s ltac:(lia)). pose proof (Z.mod_pos_bound d s ltac:(lia)). split; intro Hm.
    - symmetry. apply Z.div_unique with (s - 1); lia.
    - symmetry. apply Z.div_unique with (d mod s - 1); lia. }
  assert (HP : forall d, 0 < d -> 0 <= d / s) by (intros; apply Z.div_pos; lia).
  destruct (Z.ltb_spec a b) as [H1|H1].
  - rewrite (range_loop_up s) by (lia || intro z; apply (bi_add_spec z s)).
    destruct (Z.ltb_spec a b); [|lia]. cbn [obind]. destruct (Z.leb_spec a b); [|lia].
    rewrite bi_eq_spec. destruct (HD (b - a) ltac:(lia)) as [D1 D2]. specialize (HP (b - a) ltac:(lia)).
    pose proof (Z.div_mod (b - a) s ltac:(lia)) as DM. pose proof (Z.mod_pos_bound (b - a) s ltac:(lia)) as MB.
    destruct (Z.eq_dec ((b - a) mod s) 0) as [E|E].
    + rewrite (D1 E), Z2Nat.id by lia. replace (a + (b - a) / s * s =? b) with true by (symmetry; apply Z.eqb_eq; nia).
      replace (dec (a + (b - a) / s * s)) with (dec (a + Z.of_nat (Z.to_nat ((b - a) / s)) * s)) by (f_equal; lia).
      rewrite map_snoc, progression_snoc, vints_map. reflexivity.
    + rewrite (D2 E), Z2Nat.id by lia. replace (a + (1 + (b - a) / s) * s =? b) with false by (symmetry; apply Z.eqb_neq; nia).
      rewrite vints_map. do 5 f_equal. lia.
  - rewrite (range_loop_down s) by (lia || intro z; apply (bi_sub_spec z s)). cbn [obind]. rewrite bi_eq_spec.
    destruct (Z.eq_dec a b) as [->|Hne].
    + rewrite Z.ltb_irrefl, Z.leb_refl. change (Z.of_nat 0 * s) with 0. rewrite Z.sub_0_r, Z.eqb_refl, Z.sub_diag, Z.div_0_l by lia.
      unfold progression, ints, vints. cbn [map seq app Z.to_nat]. change (Z.of_nat 0 * s) with 0. now rewrite Z.add_0_r.
    + destruct (Z.ltb_spec b a); [|lia]. destruct (Z.leb_spec a b); [lia|].
      destruct (HD (a - b) ltac:(lia)) as [D1 D2]. specialize (HP (a - b) ltac:(lia)).
      pose proof (Z.div_mod (a - b) s ltac:(lia)) as DM. pose proof (Z.mod_pos_bound (a - b) s ltac:(lia)) as MB.
      destruct (Z.eq_dec ((a - b) mod s) 0) as [E|E].
      * rewrite (D1 E), Z2Nat.id by lia. replace (a - (a - b) / s * s =? b) with true by (symmetry; apply Z.eqb_eq; nia).
        replace (dec (a - (a - b) / s * s)) with (dec (a + Z.of_nat (Z.to_nat ((a - b) / s)) * - s)) by (f_equal; lia).
        rewrite map_snoc, progression_snoc, vints_map. reflexivity.
      * rewrite (D2 E), Z2Nat.id by lia. replace (a - (1 + (a - b) / s) * s =? b) with false by (symmetry; apply Z.eqb_neq; nia).
        rewrite vints_map. do 5 f_equal. lia.
Qed.

(** ** 64-bit integers *)
Lemma to_int_in z : int64 z -> bi_to_int (dec z) = Some z.
Proof.
  intro H. rewrite bi_to_int_spec. unfold int64 in H. replace ((int64_min <=? z) && (z <=? int64_max)) with true; auto.
  symmetry. apply andb_true_iff. split; apply Z.leb_le; unfold int64_min, int64_max; lia.
Qed.
Lemma to_int_out z : ~ int64 z -> bi_to_int (dec z) = None.
Proof.
  intro H. rewrite bi_to_int_spec. unfold int64 in H. destruct (_ && _) eqn:E; auto. exfalso. apply H.
  apply andb_true_iff in E as [E1 E2]. apply Z.leb_le in E1, E2. unfold int64_min, int64_max in *. lia.
Qed.
