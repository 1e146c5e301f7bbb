(** Properties C25 to C30: array, bits, numbers, object and graph builtins. *)
From Coq Require Import String ZArith List Bool Lia.
From Verif Require Import Base BigIntSpec BigIntModel DecFacts BigIntProofs SMap SMapFacts ValueModel ValueSpec KeyProofs
  ResolverModel ResolverProofs CollModel CollSpec CollProofs CollObjProofs CollGraphProofs.
Import ListNotations.
Local Open Scope Z_scope.

(** ** C25: array builtins *)
Theorem C25_concat : forall a b, exists r, array_concat (VArray a) (VArray b) = RVal (VArray r) /\
  length r = (length a + length b)%nat /\
  forall i, nth_error r i = if (i <? length a)%nat then nth_error a i else nth_error b (i - length a).
Proof.
  intros a b. exists (a ++ b)%list. split; [reflexivity|]. split; [apply app_length|]. intro i.
  destruct (Nat.ltb_spec i (length a)); [now apply nth_error_app1|now apply nth_error_app2].
Qed.
Theorem C25_reverse : forall l, exists r, array_reverse (VArray l) = RVal (VArray r) /\
  length r = length l /\
  (forall i, (i < length l)%nat -> nth_error r i = nth_error l (length l - 1 - i)) /\
  array_reverse (VArray r) = RVal (VArray l).
Proof.
  intro l. exists (rev l). split; [reflexivity|]. split; [apply rev_length|]. split.
  - intros i Hi. destruct l as [|d l']; [simpl in Hi; lia|]. rewrite (nth_error_nth' (rev (d :: l')) d) by (rewrite rev_length; auto).
    rewrite rev_nth by auto. rewrite (nth_error_nth' (d :: l') d) by lia. do 2 f_equal. lia.
  - cbn [array_reverse]. now rewrite rev_involutive.
Qed.
Theorem C25_flatten : forall l, exists r, array_flatten (VArray l) = RVal (VArray r) /\ flattens l r.
Proof.
  intro l. eexists. split; [reflexivity|]. induction l as [|v l IH]; cbn [flat_map]; [constructor|].
  destruct v; cbn [app]; try (apply fl_other; [discriminate|exact IH]). now apply fl_array.
Qed.
Theorem C25_slice_partial : forall l s e, int64 s -> int64 e ->
  exists r, array_slice (VArray l) (VInt (dec s)) (VInt (dec e)) = Ok (RVal (VArray r)) /\ part_of l s e r.
Proof.
  intros l s e Hs He. unfold array_slice. rewrite !bi_to_int_spec. unfold int64 in *.
  replace ((int64_min <=? s) && (s <=? int64_max)) with true
    by (symmetry; apply andb_true_iff; split; apply Z.leb_le; unfold int64_min, int64_max; lia).
  replace ((int64_min <=? e) && (e <=? int64_max)) with true
    by (symmetry; apply andb_true_iff; split; apply Z.leb_le; unfold int64_min, int64_max; lia).
  cbn zeta. set (n := Z.of_nat (length l)). unfold clamp, part_of. fold n.
  destruct (Z.leb_spec (if e <? 0 then 0 else Z.min e n) (if s <? 0 then 0 else Z.min s n)) as [H|H].
  - exists []. split; [reflexivity|]. cbn [length]. split; [|intros i Hi; lia].
    destruct (Z.ltb_spec s 0), (Z.ltb_spec e 0); lia.
  - eexists. split; [reflexivity|]. unfold slice_of.
    assert (Elo : Z.max 0 s = (if s <? 0 then 0 else Z.min s n)) by (destruct (Z.ltb_spec s 0), (Z.ltb_spec e 0); lia).
    assert (Ehi : Z.min e n = (if e <? 0 then 0 else Z.min e n)) by (destruct (Z.ltb_spec s 0), (Z.ltb_spec e 0); lia).
    rewrite <- Elo, <- Ehi in *. clear Elo Ehi.
    assert (L : length (firstn (Z.to_nat (Z.min e n - Z.max 0 s)) (skipn (Z.to_nat (Z.max 0 s)) l)) = Z.to_nat (Z.min e n - Z.max 0 s))
      by (rewrite firstn_length, skipn_length; lia).
    split; [exact L|]. rewrite L. intros i Hi.
    assert (Fn : forall m (x : list value), (i < m)%nat -> nth_error (firstn m x) i = nth_error x i).
    { clear. induction i as [|i IH]; intros [|m] [|y x] H; try lia; cbn; auto. apply IH. lia. }
    assert (Sk : forall k (x : list value), nth_error (skipn k x) i = nth_error x (k + i)).
    { clear. induction k as [|k IH]; intros [|y x]; cbn; auto; try (now destruct i). }
    rewrite Fn by lia. apply Sk.
Qed.
Theorem C25_wrong_type : forall v, (forall l, v <> VArray l) -> forall w,
  array_concat v w = RErr EvalTypeError /\ array_concat w v = RErr EvalTypeError /\
  array_reverse v = RErr EvalTypeError /\ array_flatten v = RErr EvalTypeError.
Proof. intros v H w. destruct v; try (exfalso; eapply H; reflexivity); repeat split; destruct w; reflexivity. Qed.
Example C25_example :
  array_concat (VArray [VNull]) (VArray [VTrue; VFalse]) = RVal (VArray [VNull; VTrue; VFalse]) /\
  array_reverse (VArray [VNull; VTrue; VFalse]) = RVal (VArray [VFalse; VTrue; VNull]) /\
  array_flatten (VArray [VArray [VNull; VArray [VTrue]]; VFalse]) = RVal (VArray [VNull; VArray [VTrue]; VFalse]) /\
  array_slice (VArray [VNull; VTrue; VFalse]) (VInt (dec 1)) (VInt (dec 7)) = Ok (RVal (VArray [VTrue; VFalse])) /\
  array_slice (VArray [VNull; VTrue; VFalse]) (VInt (dec (-3))) (VInt (dec 1)) = Ok (RVal (VArray [VNull])) /\ int64 (-3).
Proof. unfold int64. repeat split; try reflexivity; lia. Qed.
(** What fails: integers beyond 64 bits are an error instead of being clamped, a bound of the wrong type makes an exception escape,
    and something that is no array is read as if it were one. *)
Theorem C25_refuted :
  array_slice (VArray [VNull]) (VInt (dec 0)) (VInt (dec (10 ^ 30))) = Ok (RErr EvalBuiltInError) /\
  array_slice (VArray [VNull]) (VString $"0") (VInt (dec 1)) = Throw /\
  array_slice VNull (VInt (dec 0)) (VInt (dec 1)) = Ub.
Proof. repeat split; vm_compute; reflexivity. Qed.
Print Assumptions C25_concat. Print Assumptions C25_reverse. Print Assumptions C25_flatten. Print Assumptions C25_slice_partial.
Print Assumptions C25_wrong_type. Print Assumptions C25_refuted.

(** ** C26: bitwise builtins *)
Theorem C26_bitwise : forall x y, int64 x -> int64 y ->
  (exists z, bits_and (VInt (dec x)) (VInt (dec y)) = Ok (RVal (VInt (dec z))) /\
     forall n, 0 <= n -> Z.testbit z n = Z.testbit x n && Z.testbit y n) /\
  (exists z, bits_or (VInt (dec x)) (VInt (dec y)) = Ok (RVal (VInt (dec z))) /\
     forall n, 0 <= n -> Z.testbit z n = Z.testbit x n || Z.testbit y n) /\
  (exists z, bits_xor (VInt (dec x)) (VInt (dec y)) = Ok (RVal (VInt (dec z))) /\
     forall n, 0 <= n -> Z.testbit z n = xorb (Z.testbit x n) (Z.testbit y n)) /\
  (exists z, bits_negate (VInt (dec x)) = Ok (RVal (VInt (dec z))) /\
     forall n, 0 <= n -> Z.testbit z n = negb (Z.testbit x n)).
Proof.
  intros x y Hx Hy. unfold bits_and, bits_or, bits_xor, bits_negate, two_ints. rewrite !to_int_in by auto.
  repeat split; eexists; (split; [reflexivity|]); intros n Hn.
  - apply Z.land_spec.
  - apply Z.lor_spec.
  - apply Z.lxor_spec.
  - now apply Z.lnot_spec.
Qed.
Theorem C26_reject : forall x y, ~ int64 x \/ ~ int64 y ->
  bits_and (VInt (dec x)) (VInt (dec y)) = Ok (RErr EvalTypeError) /\
  bits_or (VInt (dec x)) (VInt (dec y)) = Ok (RErr EvalTypeError) /\
  bits_xor (VInt (dec x)) (VInt (dec y)) = Ok (RErr EvalTypeError) /\
  (~ int64 x -> bits_negate (VInt (dec x)) = Ok (RErr EvalTypeError) /\
                bits_rsh (VInt (dec x)) (VInt (dec y)) = Ok (RErr EvalTypeError)) /\
  (~ int64 y -> bits_lsh (VInt (dec x)) (VInt (dec y)) = Ok (RErr EvalTypeError)).
Proof.
  intros x y H. unfold bits_and, bits_or, bits_xor, bits_negate, bits_rsh, bits_lsh, two_ints.
  assert (G : bi_to_int (dec x) = None \/ bi_to_int (dec y) = None) by (destruct H; [left|right]; now apply to_int_out).
  destruct G as [G|G]; rewrite G; repeat split; intros; try (destruct (bi_to_int (dec x)); reflexivity); try reflexivity;
    rewrite ?to_int_out by auto; auto.
Qed.
Theorem C26_shift_partial : forall x s,
  (0 <= s <= 62 -> bits_lsh (VInt (dec x)) (VInt (dec s)) = Ok (RVal (VInt (dec (x * 2 ^ s))))) /\
  (int64 x -> 0 <= s < 64 -> bits_rsh (VInt (dec x)) (VInt (dec s)) = Ok (RVal (VInt (dec (x / 2 ^ s))))) /\
  (s < 0 -> bits_lsh (VInt (dec x)) (VInt (dec s)) = Ok (RErr EvalTypeError) /\
            bits_rsh (VInt (dec x)) (VInt (dec s)) = Ok (RErr EvalTypeError)).
Proof.
  intros x s. split; [|split].
  - intro H. unfold bits_lsh. rewrite to_int_in by (unfold int64; lia). destruct (Z.ltb_spec s 0); [lia|].
    destruct (Z.leb_spec 64 s); [lia|]. unfold to_int64.
    assert (2 ^ s < 2 ^ 63) by (apply Z.pow_lt_mono_r; lia). destruct (Z.ltb_spec (2 ^ s) (2 ^ 63)); [|lia]. now rewrite bi_mul_spec.
  - intros Hx H. unfold bits_rsh, two_ints. rewrite !to_int_in by (auto; unfold int64; lia). destruct (Z.ltb_spec s 0); [lia|].
    destruct (Z.leb_spec 64 s); [lia|]. unfold int_res. now rewrite Z.shiftr_div_pow2 by lia.
  - intro H. unfold bits_rsh, bits_lsh, two_ints. split.
    + rewrite bi_to_int_spec. destruct (_ && _); auto. destruct (Z.ltb_spec s 0); [auto|lia].
    + destruct (bi_to_int (dec x)); auto. rewrite bi_to_int_spec. destruct (_ && _); auto. destruct (Z.ltb_spec s 0); [auto|lia].
Qed.
Theorem C26_wrong_type : forall v, (forall t, v <> VInt t) -> forall w,
  Forall (fun r => r = Ok (RErr EvalTypeError))
    [bits_and v w; bits_and w v; bits_or v w; bits_or w v; bits_xor v w; bits_xor w v; bits_negate v;
     bits_lsh v w; bits_lsh w v; bits_rsh v w; bits_rsh w v].
Proof.
  intros v H w. destruct v; try (exfalso; eapply H; reflexivity); repeat constructor; destruct w; reflexivity.
Qed.
Example C26_example :
  bits_and (VInt (dec (-2))) (VInt (dec 255)) = Ok (RVal (VInt (dec 254))) /\
  bits_lsh (VInt (dec (10 ^ 20))) (VInt (dec 62)) = Ok (RVal (VInt (dec (10 ^ 20 * 2 ^ 62)))) /\
  bits_rsh (VInt (dec (-5))) (VInt (dec 1)) = Ok (RVal (VInt (dec (-3)))) /\
  int64 (- 2 ^ 63) /\ ~ int64 (2 ^ 63) /\ (forall t, VString $"1" <> VInt t).
Proof. repeat split; try (vm_compute; reflexivity); unfold int64; try lia; discriminate. Qed.
(** A left shift by 63 yields a wrong number (the factor is negative); a shift by 64 is undefined behaviour. *)
Theorem C26_refuted :
  bits_lsh (VInt (dec 1)) (VInt (dec 63)) = Ok (RVal (VInt (dec (- 2 ^ 63)))) /\ 1 * 2 ^ 63 <> - 2 ^ 63 /\
  bits_lsh (VInt (dec 1)) (VInt (dec 64)) = Ub /\ bits_rsh (VInt (dec 1)) (VInt (dec 64)) = Ub.
Proof. repeat split; try (vm_compute; reflexivity). lia. Qed.
Print Assumptions C26_bitwise. Print Assumptions C26_reject. Print Assumptions C26_shift_partial. Print Assumptions C26_wrong_type.
Print Assumptions C26_refuted.

(** ** C27: numbers.range and numbers.range_step *)
Theorem C27_range : forall a b,
  numbers_range (VInt (dec a)) (VInt (dec b)) = Ok (RVal (VArray (ints (interval a b)))).
Proof. exact range_spec. Qed.
Theorem C27_range_step : forall a b s,
  (0 < s -> numbers_range_step (VInt (dec a)) (VInt (dec b)) (VInt (dec s)) = Ok (RVal (VArray (ints (stepped a b s))))) /\
  (s <= 0 -> numbers_range_step (VInt (dec a)) (VInt (dec b)) (VInt (dec s)) = Ok (RErr EvalBuiltInError)).
Proof.
  intros a b s. split; [apply range_step_spec|]. intro H. unfold numbers_range_step. change ($"1") with (dec 1).
  rewrite bi_lt_spec. destruct (Z.ltb_spec s 1); [reflexivity|lia].
Qed.
(** What the two lists are: the first element is the start, neighbours are a step apart, every integer that is on a step between the
    ends is there, and nothing else. *)
Theorem C27_stepped_meaning : forall a b s z, 0 < s ->
  (In z (stepped a b s) <-> exists i, 0 <= i /\ ((a <= b /\ z = a + i * s /\ z <= b) \/ (b < a /\ z = a - i * s /\ b <= z))).
Proof.
  intros a b s z Hs. unfold stepped, progression. destruct (Z.leb_spec a b) as [H|H]; rewrite in_map_iff; split.
  - intros (i & <- & Hi). apply in_seq in Hi. exists (Z.of_nat i). split; [lia|]. left. split; auto. split; auto.
    pose proof (Z.mul_div_le (b - a) s Hs). pose proof (Z.div_pos (b - a) s ltac:(lia) Hs).
    assert (Z.of_nat i <= (b - a) / s) by lia. nia.
  - intros (i & Hi & [(_ & -> & Hz)|(C & _)]); [|lia]. exists (Z.to_nat i). split; [lia|]. apply in_seq. split; [lia|].
    assert (i <= (b - a) / s) by (apply Z.div_le_lower_bound; lia). lia.
  - intros (i & <- & Hi). apply in_seq in Hi. exists (Z.of_nat i). split; [lia|]. right. split; auto. split; [lia|].
    pose proof (Z.mul_div_le (a - b) s Hs). pose proof (Z.div_pos (a - b) s ltac:(lia) Hs).
    assert (Z.of_nat i <= (a - b) / s) by lia. nia.
  - intros (i & Hi & [(C & _)|(_ & -> & Hz)]); [lia|]. exists (Z.to_nat i). split; [lia|]. apply in_seq. split; [lia|].
    assert (i <= (a - b) / s) by (apply Z.div_le_lower_bound; lia). lia.
Qed.
Example C27_example :
  numbers_range (VInt (dec 3)) (VInt (dec (-1))) = Ok (RVal (VArray (ints [3; 2; 1; 0; -1]))) /\
  numbers_range_step (VInt (dec 1)) (VInt (dec 8)) (VInt (dec 3)) = Ok (RVal (VArray (ints [1; 4; 7]))) /\
  numbers_range_step (VInt (dec 8)) (VInt (dec 2)) (VInt (dec 3)) = Ok (RVal (VArray (ints [8; 5; 2]))) /\
  interval (10 ^ 30) (10 ^ 30 + 2) = [10 ^ 30; 10 ^ 30 + 1; 10 ^ 30 + 2] /\ stepped 1 8 3 = [1; 4; 7].
Proof. repeat split; vm_compute; reflexivity. Qed.
Print Assumptions C27_range. Print Assumptions C27_range_step. Print Assumptions C27_stepped_meaning.

(** ** C28: object builtins *)

(** The keys a key collection stands for. *)
Definition key_collection (ks : value) (l : list value) : Prop :=
  ks = VArray l \/ ks = VSet l \/ exists o, ks = VObject o /\ l = map fst o.
Lemma coll_keys_spec F ks kl : key_collection ks kl -> coll_keys F ks = Some (map (to_key F) kl).
Proof. intros [->|[->|(o & -> & ->)]]; auto. cbn [coll_keys]. now rewrite map_map. Qed.

Theorem C28_filter_remove : forall F NI NF, num_domain F NI NF -> forall l ks kl,
  Forall (fun kv => wfv F NI NF (fst kv)) l -> Forall (wfv F NI NF) kl -> key_collection ks kl ->
  (exists l', object_filter F (VObject l) ks = RVal (VObject l') /\
     (forall k v, In (k, v) l' <-> In (k, v) l /\ mem F k kl) /\ (distinct_keys F l -> distinct_keys F l')) /\
  (exists l', object_remove F (VObject l) ks = RVal (VObject l') /\
     (forall k v, In (k, v) l' <-> In (k, v) l /\ ~ mem F k kl) /\ (distinct_keys F l -> distinct_keys F l')).
Proof.
  intros F NI NF HD l ks kl W Wk C. unfold object_filter, object_remove. rewrite (coll_keys_spec F ks kl C).
  split; (eexists; split; [reflexivity|]; split; [intros; first [now apply (filter_items F NI NF HD)|now apply (remove_items F NI NF HD)]|]);
    intro D; apply (distinct_nodup F NI NF HD) in D; auto; apply (distinct_nodup F NI NF HD); try (now apply wfi_filter); now apply nodup_filter_map.
Qed.
Theorem C28_keys : forall F NI NF, num_domain F NI NF -> forall l,
  Forall (fun kv => wfv F NI NF (fst kv)) l -> distinct_keys F l ->
  exists s, object_keys (VObject l) = RVal (VSet s) /\ wfv F NI NF (VSet s) /\
  forall k, mem F k s <-> exists k' v, In (k', v) l /\ veq F k k'.
Proof.
  intros F NI NF HD l W D. exists (map fst l). split; [reflexivity|]. split.
  - apply (nodup_wf_set F NI NF HD); [now apply wfi_fst|]. rewrite <- ikey_map. now apply (distinct_nodup F NI NF HD).
  - intro k. unfold mem. split.
    + intros (y & H & V). apply in_map_iff in H as ([k' v] & <- & H). eauto.
    + intros (k' & v & H & V). exists k'. split; auto. apply in_map_iff. exists (k', v). auto.
Qed.
(** The right operand wins. *)
Theorem C28_union : forall F NI NF, num_domain F NI NF -> forall l r,
  Forall (fun kv => wfv F NI NF (fst kv)) l -> Forall (fun kv => wfv F NI NF (fst kv)) r -> distinct_keys F l -> distinct_keys F r ->
  exists u, object_union F (VObject l) (VObject r) = RVal (VObject u) /\ distinct_keys F u /\
  forall k v, In (k, v) u <-> In (k, v) r \/ (In (k, v) l /\ ~ mem F k (map fst r)).
Proof.
  intros F NI NF HD l r Wl Wr Dl Dr. eexists. split; [reflexivity|]. split.
  - apply (distinct_nodup F NI NF HD); [now apply union_wfi|]. apply union_nodup; now apply (distinct_nodup F NI NF HD).
  - now apply (union_items_in F NI NF HD).
Qed.
(** An item is that of the last object that has its key. *)
Theorem C28_union_n : forall F NI NF, num_domain F NI NF -> forall os,
  Forall (Forall (fun kv => wfv F NI NF (fst kv))) os -> Forall (distinct_keys F) os ->
  exists u, object_union_n F (VArray (map VObject os)) = RVal (VObject u) /\ distinct_keys F u /\
  forall k v, In (k, v) u <-> exists before o after, os = (before ++ o :: after)%list /\ In (k, v) o /\
    Forall (fun o' => ~ mem F k (map fst o')) after.
Proof.
  intros F NI NF HD os W D.
  destruct (union_n_spec F NI NF HD os W) with (acc := @nil (value * value)) as (u & E & Wu & Nu & S).
  - rewrite Forall_forall in *. intros o Ho. apply (distinct_nodup F NI NF HD); auto. now apply W.
  - constructor.
  - constructor.
  - exists u. split; auto. split; [now apply (distinct_nodup F NI NF HD)|]. intros k v. rewrite S. simpl. tauto.
Qed.
Theorem C28_get_partial : forall F NI NF, num_domain F NI NF -> forall l k path d,
  wfv F NI NF (VObject l) -> Forall (wfv F NI NF) path -> in_range F (VObject l) path ->
  (k = VArray path \/ (path = [k] /\ forall a, k <> VArray a)) ->
  exists v, object_get F (VObject l) k d = Ok (RVal v) /\
  (forall x, addresses F (VObject l) path x -> v = x) /\ ((forall x, ~ addresses F (VObject l) path x) -> v = d).
Proof.
  intros F NI NF HD l k path d W Wp R Hk.
  assert (Ep : match k with VArray l => l | _ => [k] end = path).
  { destruct Hk as [->|[-> G]]; auto. destruct k; auto. exfalso. eapply G. reflexivity. }
  destruct (get_key_spec F NI NF HD path Wp (VObject l) W R) as (r & E & S).
  unfold object_get. rewrite Ep, E. cbn [obind]. destruct r as [x|].
  - destruct S as [S1 S2]. exists x. split; auto. split; [intros y Hy; symmetry; auto|]. intro G. exfalso. eapply G; eauto.
  - exists d. split; auto. split; auto. intros x Hx. exfalso. eapply S; eauto.
Qed.
Section C28_examples.
Let o1 := [(VString $"a", VInt (dec 1)); (VString $"b", VArray [VTrue; VInt (dec 2)])].
Let o2 := [(VString $"b", VNull); (VString $"c", VFalse)].
Example C28_example :
  object_filter fops0 (VObject o1) (VSet [VString $"b"; VString $"z"]) = RVal (VObject [(VString $"b", VArray [VTrue; VInt (dec 2)])]) /\
  object_remove fops0 (VObject o1) (VArray [VString $"b"]) = RVal (VObject [(VString $"a", VInt (dec 1))]) /\
  object_union fops0 (VObject o1) (VObject o2) = RVal (VObject [(VString $"b", VNull); (VString $"c", VFalse); (VString $"a", VInt (dec 1))]) /\
  object_get fops0 (VObject o1) (VArray [VString $"b"; VInt (dec 1)]) VNull = Ok (RVal (VInt (dec 2))) /\
  object_get fops0 (VObject o1) (VString $"q") VNull = Ok (RVal VNull) /\
  wfv fops0 any_int no_float (VObject o1) /\ distinct_keys fops0 o1 /\ in_range fops0 (VObject o1) [VString $"b"; VInt (dec 1)].
Proof.
  repeat split; try (vm_compute; reflexivity).
  - apply (wf_object fops0 any_int no_float [($"a", VInt (dec 1)); ($"b", VArray [VTrue; VInt (dec 2)])]).
    + repeat constructor.
    + repeat constructor; eexists; reflexivity.
    + repeat constructor; simpl; intuition discriminate.
  - apply (distinct_nodup fops0 any_int no_float (int_domain fops0)); [repeat constructor|]. repeat constructor; simpl; intuition discriminate.
  - apply ir_object. intros k' v [H|[H|[]]] V; injection H as <- <-.
    + inversion V; discriminate.
    + apply (ir_index fops0 _ 1 (VInt (dec 2))); [reflexivity|lia|constructor].
Qed.
End C28_examples.
(** An index beyond the end of an array makes an exception escape instead of returning the default; so does a negative index,
    except that an index just above -2^64 addresses an element. *)
Theorem C28_refuted :
  object_get fops0 (VObject [(VString $"a", VArray [VTrue])]) (VArray [VString $"a"; VInt (dec 1)]) VNull = Throw /\
  object_get fops0 (VObject [(VString $"a", VArray [VTrue])]) (VArray [VString $"a"; VInt (dec (-1))]) VNull = Throw /\
  object_get fops0 (VObject [(VString $"a", VArray [VTrue; VFalse])]) (VArray [VString $"a"; VInt (dec (1 - 2 ^ 64))]) VNull = Ok (RVal VFalse).
Proof. repeat split; vm_compute; reflexivity. Qed.
Print Assumptions C28_filter_remove. Print Assumptions C28_keys. Print Assumptions C28_union. Print Assumptions C28_union_n.
Print Assumptions C28_get_partial. Print Assumptions C28_refuted.

(** ** C29: object.subset *)
Theorem C29_subset_partial : forall F NI NF, num_domain F NI NF -> forall super sub,
  wfv F NI NF super -> wfv F NI NF sub -> ~ scalar super -> ~ scalar sub -> no_empty_array sub ->
  exists b, object_subset F super sub = Ok (RVal (vbool b)) /\ (b = true <-> contained F super sub).
Proof.
  intros F NI NF HD super sub Wp Wb Sp Sb NE. unfold object_subset.
  replace (is_scalar super) with false by (destruct super; simpl in *; tauto).
  replace (is_scalar sub) with false by (destruct sub; simpl in *; tauto). cbn [orb].
  destruct (is_subset_spec F NI NF HD (S (odepth sub)) super sub Wp Wb NE ltac:(lia)) as (b & E & H). rewrite E. cbn [obind]. eauto.
Qed.
Theorem C29_scalar_rejected : forall F super sub, scalar super \/ scalar sub -> object_subset F super sub = Ok (RErr EvalTypeError).
Proof.
  intros F super sub H. unfold object_subset.
  assert (G : is_scalar super || is_scalar sub = true).
  { apply orb_true_iff. destruct H as [H|H]; [left; destruct super|right; destruct sub]; simpl in *; tauto. }
  now rewrite G.
Qed.
Section C29_examples.
Let super := VObject [(VString $"a", VArray [VInt (dec 1); VInt (dec 2); VInt (dec 3)]); (VString $"b", VSet [VTrue; VNull]); (VString $"c", VNull)].
Let sub := VObject [(VString $"b", VSet [VNull]); (VString $"a", VArray [VInt (dec 2); VInt (dec 3)])].
Example C29_example :
  object_subset fops0 super sub = Ok (RVal VTrue) /\
  object_subset fops0 (VArray [VInt (dec 1); VInt (dec 2); VInt (dec 3)]) (VArray [VInt (dec 1); VInt (dec 3)]) = Ok (RVal VFalse) /\
  contained fops0 super sub /\ no_empty_array sub /\ ~ scalar super.
Proof.
  split; [vm_compute; reflexivity|]. split; [vm_compute; reflexivity|]. split; [|split].
  - constructor. intros k v [H|[H|[]]]; injection H as <- <-.
    + exists (VString $"b"), (VSet [VTrue; VNull]). split; [right; left; auto|]. split; [constructor|].
      constructor. intros x [<-|[]]. exists VNull. split; [right; left; auto|constructor].
    + exists (VString $"a"), (VArray [VInt (dec 1); VInt (dec 2); VInt (dec 3)]). split; [left; auto|]. split; [constructor|].
      apply (ct_array fops0 [VInt (dec 1)] [VInt (dec 2); VInt (dec 3)] []). repeat constructor; eapply veq_num; reflexivity.
  - constructor. intros k v [H|[H|[]]]; injection H as <- <-; apply ne_other; discriminate.
  - simpl. tauto.
Qed.
End C29_examples.
(** The empty array as the sub-array is undefined behaviour (the first element of an empty vector is read). *)
Theorem C29_refuted :
  object_subset fops0 (VArray [VTrue]) (VArray []) = Ub /\ contained fops0 (VArray [VTrue]) (VArray []).
Proof. split; [reflexivity|]. apply (ct_array fops0 [] [] [VTrue]). constructor. Qed.
Print Assumptions C29_subset_partial. Print Assumptions C29_scalar_rejected. Print Assumptions C29_refuted.

(** ** C30: graph builtins *)
Theorem C30_reachable : forall F NI NF, num_domain F NI NF -> forall g start,
  wfv F NI NF (VObject g) -> graph_shaped g -> Forall (wfv F NI NF) start -> forall sv, sv = VArray start \/ sv = VSet start ->
  exists l, graph_reachable F (VObject g) sv = Ok (RVal (VSet l)) /\ wfv F NI NF (VSet l) /\
  forall v, mem F v l <-> reaches F g start v.
Proof.
  intros F NI NF HD g start W S Ws sv Hs. apply (graph_reachable_spec F NI NF HD g W S start Ws). destruct Hs as [->| ->]; reflexivity.
Qed.
Theorem C30_paths : forall F NI NF, num_domain F NI NF -> forall g start,
  wfv F NI NF (VObject g) -> graph_shaped g -> Forall (wfv F NI NF) start -> forall sv, sv = VArray start \/ sv = VSet start ->
  exists l, graph_reachable_paths F (VObject g) sv = Ok (RVal (VSet l)) /\ wfv F NI NF (VSet l) /\
  (forall v, In v l -> exists p, v = VArray p) /\ forall p, mem F (VArray p) l <-> maximal_path F g start p.
Proof.
  intros F NI NF HD g start W S Ws sv Hs. apply (graph_paths_spec F NI NF HD g W S start Ws). destruct Hs as [->| ->]; reflexivity.
Qed.
Section C30_examples.
Let a := VString $"a". Let b := VString $"b". Let c := VString $"c". Let d := VString $"d".
(** A cycle a -> b -> a, and b -> c; d is on its own. *)
Let g := [(a, VArray [b]); (b, VSet [a; c]); (c, VNull); (d, VArray [])].
Example C30_example :
  graph_reachable fops0 (VObject g) (VArray [a]) = Ok (RVal (VSet [a; b; c])) /\
  graph_reachable_paths fops0 (VObject g) (VSet [a; c]) = Ok (RVal (VSet [VArray [a; b; c]; VArray [c]])) /\
  wfv fops0 any_int no_float (VObject g) /\ graph_shaped g /\ reaches fops0 g [a] c.
Proof.
  split; [vm_compute; reflexivity|]. split; [vm_compute; reflexivity|]. split; [|split].
  - apply (wf_object fops0 any_int no_float [($"a", VArray [b]); ($"b", VSet [a; c]); ($"c", VNull); ($"d", VArray [])]).
    + repeat constructor.
    + constructor; [repeat constructor|]. constructor; [|repeat constructor].
      apply (nodup_wf_set fops0 any_int no_float (int_domain fops0)); [repeat constructor|].
      repeat constructor; simpl; intuition discriminate.
    + repeat constructor; simpl; intuition discriminate.
  - intros k v [H|[H|[H|[H|[]]]]]; injection H as <- <-; eauto.
  - apply (rc_step fops0 g [a] b c).
    + apply (rc_step fops0 g [a] a b).
      * constructor; [exists a; split; [left; auto|constructor]|exists a, (VArray [b]); split; [left; auto|constructor]].
      * exists a, (VArray [b]), [b]. split; [left; auto|]. split; [constructor|]. split; auto. exists b. split; [left; auto|constructor].
      * exists b, (VSet [a; c]). split; [right; left; auto|constructor].
    + exists b, (VSet [a; c]), [a; c]. split; [right; left; auto|]. split; [constructor|]. split; auto. exists c. split; [right; left; auto|constructor].
    + exists c, VNull. split; [right; right; left; auto|constructor].
Qed.
End C30_examples.
Print Assumptions C30_reachable. Print Assumptions C30_paths.
