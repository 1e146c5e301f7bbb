From Coq Require Import String ZArith List Bool Lia Permutation Sorted QArith.
From Verif Require Import Base BigIntSpec BigIntModel DecFacts BigIntProofs SMap SMapFacts ValueModel ValueSpec KeyProofs ResolverModel ResolverProofs.
Import ListNotations.
Local Open Scope Z_scope.

Section Wf.
Variable F : fops.
Variables NI NF : str -> Prop.
Hypothesis Hdom : num_domain F NI NF.
Hypothesis Hok : forall t u, NI t \/ NF t -> NF t \/ NF u -> NI u \/ NF u -> f_ok F t = true /\ f_ok F u = true.
Notation wf := (wfv F NI NF).
Notation key := (to_key F).

Definition cls (v : value) : Z :=
  match v with
  | VString _ => 0 | VInt _ | VFloat _ => 1 | VSet _ => 2 | VArray _ => 3
  | VFalse => 4 | VNull => 5 | VTrue => 6 | VObject _ => 7 | VErr _ => 8
  end.

Lemma cls_num v : is_num v = (cls v =? 1).
Proof. destruct v; reflexivity. Qed.

Lemma cls_lt a b : wf a -> wf b -> cls a < cls b -> str_ltb (key a) (key b) = true.
Proof.
  intros Ha Hb H. destruct (key_start F NI NF Hdom a Ha) as (c & k & E & Hc).
  destruct (key_start F NI NF Hdom b Hb) as (c' & k' & E' & Hc'). rewrite E, E'. cbn [str_ltb].
  assert (c < c') by (destruct a, b; try solve [inversion Ha | inversion Hb]; cbn [cls] in H; lia).
  destruct (Z.ltb_spec c c'); auto; lia.
Qed.

Definition kl (q : str -> Q) (a b : value) : bool :=
  if is_num a && is_num b then qltb q (key a) (key b) else str_ltb (key a) (key b).

Lemma kl_cls q a b : wf a -> wf b -> kl q a b = true -> cls a <= cls b.
Proof.
  intros Ha Hb. unfold kl. rewrite !cls_num. destruct (Z.eqb_spec (cls a) 1), (Z.eqb_spec (cls b) 1); simpl; try lia;
  intro H; (destruct (Z.le_gt_cases (cls a) (cls b)); [assumption|]);
  pose proof (cls_lt b a Hb Ha ltac:(lia)) as G; apply str_ltb_asym in G; congruence.
Qed.
Lemma cls_kl q a b : wf a -> wf b -> cls a < cls b -> kl q a b = true.
Proof. intros Ha Hb H. unfold kl. rewrite !cls_num. destruct (Z.eqb_spec (cls a) 1), (Z.eqb_spec (cls b) 1); simpl; try lia;
  now apply cls_lt. Qed.

Lemma kl_trans q a b c : wf a -> wf b -> wf c -> kl q a b = true -> kl q b c = true -> kl q a c = true.
Proof.
  intros Ha Hb Hc H1 H2. pose proof (kl_cls q a b Ha Hb H1). pose proof (kl_cls q b c Hb Hc H2).
  destruct (Z.lt_ge_cases (cls a) (cls c)); [now apply cls_kl|].
  unfold kl in *. rewrite !cls_num in *. assert (cls a = cls b) as Ea by lia. assert (cls b = cls c) as Eb by lia.
  rewrite Ea, Eb in *. destruct (cls c =? 1); simpl in *.
  - rewrite qltb_lt in *. eapply Qlt_trans; eauto.
  - eapply str_ltb_trans; eauto.
Qed.
Lemma kl_irrefl q a : kl q a a = false.
Proof.
  unfold kl. destruct (is_num a && is_num a); [|apply str_ltb_irrefl].
  destruct (qltb q (key a) (key a)) eqn:E; auto. apply qltb_lt in E. now apply Qlt_irrefl in E.
Qed.

(** The result of a comparison, in terms of the strict order [kl]. *)
Lemma num_key_dom a : wf a -> is_num a = true -> NI (key a) \/ NF (key a).
Proof. intros Ha H. destruct a; try discriminate; inversion Ha; subst; auto. Qed.

Definition bres (op : bool_op) (lt eq gt : bool) : bool :=
  match op with OpEq => eq | OpNe => negb eq | OpLt => lt | OpLe => negb gt | OpGt => gt | OpGe => negb lt end.

Lemma qcmp_qltb q a b : qltb q a b = match Qcompare (q a) (q b) with Lt => true | _ => false end.
Proof. reflexivity. Qed.

Lemma compare_kl : exists q : str -> Q,
  (forall op a b, wf a -> wf b ->
    bi_compare F op a b = Ok (RVal (vbool (bres op (kl q a b) (str_eqb (key a) (key b)) (kl q b a))))) /\
  (forall a b, wf a -> wf b ->
    (kl q a b = true /\ str_eqb (key a) (key b) = false /\ kl q b a = false) \/
    (kl q a b = false /\ str_eqb (key a) (key b) = true /\ kl q b a = false) \/
    (kl q a b = false /\ str_eqb (key a) (key b) = false /\ kl q b a = true)).
Proof.
  destruct Hdom as (HI & HF & q & Q1 & Q2 & Q3). exists q.
  assert (Deq : forall a b, wf a -> wf b -> is_num a = true -> is_num b = true ->
    str_eqb (key a) (key b) = match Qcompare (q (key a)) (q (key b)) with Eq => true | _ => false end).
  { intros a b Ha Hb Na Nb. pose proof (num_key_dom a Ha Na) as Da. pose proof (num_key_dom b Hb Nb) as Db.
    destruct (Qcompare (q (key a)) (q (key b))) eqn:C.
    - apply Qeq_alt in C. apply str_eqb_eq. auto.
    - apply str_eqb_neq. intro E. rewrite E in C. apply Qlt_alt in C. now apply Qlt_irrefl in C.
    - apply str_eqb_neq. intro E. rewrite E in C. apply Qgt_alt in C. now apply Qlt_irrefl in C. }
  assert (K1 : forall a b, is_num a = true -> is_num b = true -> kl q a b = match Qcompare (q (key a)) (q (key b)) with Lt => true | _ => false end)
    by (intros a b Na Nb; unfold kl; rewrite Na, Nb; reflexivity).
  assert (K2 : forall a b, is_num a = true -> is_num b = true -> kl q b a = match Qcompare (q (key a)) (q (key b)) with Gt => true | _ => false end).
  { intros a b Na Nb. unfold kl. rewrite Na, Nb. cbn [andb]. rewrite qcmp_qltb, <- Qcompare_antisym.
    destruct (Qcompare (q (key a)) (q (key b))); reflexivity. }
  split; [intros op|].
  2:{ intros a b Ha Hb. destruct (is_num a && is_num b) eqn:N.
      - apply andb_true_iff in N as [Na Nb]. rewrite (Deq a b), (K1 a b), (K2 a b) by auto.
        destruct (Qcompare (q (key a)) (q (key b))); auto.
      - unfold kl. rewrite (andb_comm (is_num b)), N.
        destruct (str_ltb_trichotomy (key a) (key b)) as [(A & B & C)|[(A & B & C)|(A & B & C)]]; rewrite A, C.
        + apply str_eqb_neq in B. auto.
        + apply str_eqb_eq in B. auto.
        + apply str_eqb_neq in B. auto. }
  intros a b Ha Hb.
  assert (G : is_num a && is_num b = false ->
     bi_compare F op a b = Ok (RVal (vbool (do_bool_key op (key a) (key b))))).
  { intros E. unfold bi_compare, boolinfix. destruct a, b; try discriminate; rewrite E; reflexivity. }
  assert (G2 : is_num a && is_num b = false ->
     bi_compare F op a b = Ok (RVal (vbool (bres op (kl q a b) (str_eqb (key a) (key b)) (kl q b a))))).
  { intros E. rewrite G by auto. unfold kl. rewrite (andb_comm (is_num b)), E. destruct op; cbn [do_bool_key bres]; auto. }
  destruct (is_num a && is_num b) eqn:N; [|apply G2; auto].
  apply andb_true_iff in N as [Na Nb].
  pose proof (num_key_dom a Ha Na) as Da. pose proof (num_key_dom b Hb Nb) as Db.
  rewrite (Deq a b), (K1 a b), (K2 a b) by auto. unfold bi_compare, boolinfix.
  assert (GF : (NF (key a) \/ NF (key b)) -> 
    (let! dx := get_double F a in let! dy := get_double F b in Ok (RVal (vbool (do_bool_float F op dx dy))))
    = Ok (RVal (vbool (bres op match Qcompare (q (key a)) (q (key b)) with Lt => true | _ => false end
        match Qcompare (q (key a)) (q (key b)) with Eq => true | _ => false end
        match Qcompare (q (key a)) (q (key b)) with Gt => true | _ => false end)))).
  { intro HF'. unfold get_double. destruct (Hok (key a) (key b) Da HF' Db) as [-> ->]. cbn [obind].
    unfold do_bool_float. rewrite Q2 by auto. destruct op, (Qcompare (q (key a)) (q (key b))); reflexivity. }
  destruct a, b; try discriminate.
  - inversion Ha; subst. inversion Hb; subst. cbn [to_key] in *.
    destruct (HI t H0) as [x ->]. destruct (HI t0 H1) as [y ->].
    rewrite !Q1 by auto.
    assert (C : Qcompare (inject_Z x) (inject_Z y) = Z.compare x y).
    { unfold Qcompare. simpl. now rewrite !Z.mul_1_r. }
    rewrite C. do 3 f_equal.
    destruct op; cbn [do_bool_int bres]; unfold bi_ne; fold (bi_eq (dec x) (dec y));
      rewrite ?bi_eq_spec, ?bi_lt_spec, ?bi_le_spec, ?bi_gt_spec, ?bi_ge_spec;
      rewrite ?Z.eqb_compare, ?Z.ltb_compare, ?Z.leb_compare, ?(Z.compare_antisym x y); destruct (Z.compare x y); reflexivity.
  - cbn [is_num andb]. apply GF. inversion Hb; subst; auto.
  - cbn [is_num andb]. apply GF. inversion Ha; subst; auto.
  - cbn [is_num andb]. apply GF. inversion Ha; subst; auto.
Qed.

Definition holds (op : bool_op) (a b : value) : Prop := bi_compare F op a b = Ok (RVal VTrue).
Definition fails (op : bool_op) (a b : value) : Prop := bi_compare F op a b = Ok (RVal VFalse).

Lemma holds_b op a b x : bi_compare F op a b = Ok (RVal (vbool x)) -> (holds op a b <-> x = true) /\ (fails op a b <-> x = false).
Proof. unfold holds, fails. intros ->. destruct x; simpl; repeat split; congruence. Qed.

Lemma order_facts :
  (forall op a b, wf a -> wf b -> (holds op a b /\ ~ fails op a b) \/ (fails op a b /\ ~ holds op a b)) /\
  (forall a b, wf a -> wf b ->
     (holds OpLt a b /\ ~ holds OpEq a b /\ ~ holds OpGt a b) \/
     (~ holds OpLt a b /\ holds OpEq a b /\ ~ holds OpGt a b) \/
     (~ holds OpLt a b /\ ~ holds OpEq a b /\ holds OpGt a b)) /\
  (forall a b, wf a -> wf b ->
     (holds OpLe a b <-> holds OpLt a b \/ holds OpEq a b) /\
     (holds OpGe a b <-> holds OpGt a b \/ holds OpEq a b) /\
     (holds OpNe a b <-> ~ holds OpEq a b) /\
     (holds OpGt a b <-> holds OpLt b a) /\
     (holds OpEq a b <-> veq F a b)) /\
  (forall a b c, wf a -> wf b -> wf c -> holds OpLt a b -> holds OpLt b c -> holds OpLt a c).
Proof.
  destruct compare_kl as (q & H & T).
  assert (B : forall op a b, wf a -> wf b -> 
     (holds op a b <-> bres op (kl q a b) (str_eqb (key a) (key b)) (kl q b a) = true) /\
     (fails op a b <-> bres op (kl q a b) (str_eqb (key a) (key b)) (kl q b a) = false)).
  { intros op a b Ha Hb. apply holds_b. auto. }
  split; [|split; [|split]].
  - intros op a b Ha Hb. destruct (B op a b Ha Hb) as [B1 B2]. rewrite B1, B2. destruct (bres _ _ _ _); intuition congruence.
  - intros a b Ha Hb. rewrite !(fun op => proj1 (B op a b Ha Hb)). cbn [bres].
    destruct (T a b Ha Hb) as [(-> & -> & ->)|[(-> & -> & ->)|(-> & -> & ->)]]; intuition congruence.
  - intros a b Ha Hb. rewrite !(fun op => proj1 (B op a b Ha Hb)), (proj1 (B OpLt b a Hb Ha)). cbn [bres].
    rewrite <- (key_iff F NI NF Hdom a b Ha Hb), <- (str_eqb_eq (key a)).
    destruct (T a b Ha Hb) as [(-> & -> & ->)|[(-> & -> & ->)|(-> & -> & ->)]]; cbn [negb]; intuition congruence.
  - intros a b c Ha Hb Hc. rewrite !(fun x y Hx Hy => proj1 (B OpLt x y Hx Hy)) by auto. cbn [bres]. now apply kl_trans.
Qed.
End Wf.

Section Members.
Variable F : fops.
Variables NI NF : str -> Prop.
Hypothesis Hdom : num_domain F NI NF.
Notation wf := (wfv F NI NF).
Notation key := (to_key F).

Lemma array_find_in l s i d :
  In d (array_find_from F i l s) <-> exists n y, nth_error l n = Some y /\ key y = s /\ d = dec (i + Z.of_nat n).
Proof.
  revert i. induction l as [|x l IH]; intro i; simpl.
  - split; [tauto|]. intros (n & y & H & _). destruct n; discriminate.
  - assert (T : In d (array_find_from F (i + 1) l s) <-> exists n y, nth_error (x :: l) (S n) = Some y /\ key y = s /\ d = dec (i + Z.of_nat (S n))).
    { rewrite IH. split; intros (n & y & A & B & C); exists n, y; repeat split; auto; rewrite C; f_equal; lia. }
    destruct (str_eqb (key x) s) eqn:E; [apply str_eqb_eq in E|apply str_eqb_neq in E]; simpl; rewrite T; split.
    + intros [<-|(n & y & A)]; [exists O, x; simpl; repeat split; auto; f_equal; lia|exists (S n), y; auto].
    + intros (n & y & A & B & C). destruct n; [left; rewrite C; f_equal; lia|right; exists n, y; auto].
    + intros (n & y & A). exists (S n), y; auto.
    + intros (n & y & A & B & C). destruct n; [simpl in A; congruence|exists n, y; auto].
Qed.

Lemma member2_nonempty x xs : member_2 F x xs = true <-> exists d, In d (find_indices F x xs).
Proof. unfold member_2. destruct (find_indices F x xs) as [|d l]; split; auto.
  - discriminate.
  - intros (d & []).
  - intros _. exists d. simpl; auto. Qed.

Lemma member2_seq x l : wf x -> Forall wf l ->
  (member_2 F x (VArray l) = true <-> mem F x l) /\ (member_2 F x (VSet l) = true <-> mem F x l).
Proof.
  intros Hx Hl. assert (G : (exists d, In d (array_find F l (key x))) <-> mem F x l).
  { rewrite (mem_key F NI NF Hdom) by auto. split.
    - intros (d & H). apply array_find_in in H as (n & y & A & B & _). rewrite <- B. apply in_map. eapply nth_error_In; eauto.
    - intro H. apply in_map_iff in H as (y & E & H). apply In_nth_error in H as (n & H).
      exists (dec (0 + Z.of_nat n)). apply array_find_in. exists n, y. auto. }
  split; rewrite member2_nonempty; apply G.
Qed.

Lemma member2_object x l : wf x -> Forall (fun kv => wf (snd kv)) l ->
  (member_2 F x (VObject l) = true <-> exists k v, In (k, v) l /\ veq F x v).
Proof.
  intros Hx Hl. rewrite member2_nonempty. cbn [find_indices]. unfold object_find. rewrite Forall_forall in Hl. split.
  - intros (d & H). apply in_map_iff in H as ([k v] & <- & H). apply filter_In in H as [H E]. cbn [snd] in E. apply str_eqb_eq in E.
    exists k, v. split; auto. apply (key_veq F NI NF); auto; apply (Hl _ H).
  - intros (k & v & H & E). exists (key k). apply in_map_iff. exists (k, v). split; auto. apply filter_In. split; auto.
    apply str_eqb_eq. symmetry. apply (veq_key F NI NF); auto; apply (Hl _ H).
Qed.

Lemma member3_in i x xs : member_3 F i x xs = true <-> In (key i) (find_indices F x xs).
Proof. unfold member_3. rewrite existsb_exists. split.
  - intros (d & H & E). apply str_eqb_eq in E. now subst.
  - intro H. exists (key i). split; auto. apply str_eqb_refl. Qed.

Lemma member3_array n x l : wf x -> Forall wf l -> (forall n, NI (dec (Z.of_nat n))) ->
  (forall i, wf i -> (member_3 F i x (VArray l) = true <-> exists n y, veq F i (VInt (dec (Z.of_nat n))) /\ nth_error l n = Some y /\ veq F x y)) /\
  (member_3 F (VInt (dec (Z.of_nat n))) x (VArray l) = true <-> exists y, nth_error l n = Some y /\ veq F x y).
Proof.
  intros Hx Hl HN. rewrite Forall_forall in Hl.
  assert (G : forall i, wf i -> (member_3 F i x (VArray l) = true <-> exists n y, veq F i (VInt (dec (Z.of_nat n))) /\ nth_error l n = Some y /\ veq F x y)).
  { intros i Hi. rewrite member3_in. cbn [find_indices]. unfold array_find. rewrite array_find_in. split.
    - intros (m & y & A & B & C). exists m, y. split; [|split; auto].
      + apply (key_veq F NI NF); auto. constructor; apply HN.
      + apply (key_veq F NI NF); auto. apply Hl. eapply nth_error_In; eauto.
    - intros (m & y & A & B & C). exists m, y. split; auto. split.
      + symmetry. apply (veq_key F NI NF); auto. apply Hl. eapply nth_error_In; eauto.
      + apply (veq_key F NI NF) in A; auto. constructor; apply HN. }
  split; auto. rewrite G by (constructor; apply HN). split.
  - intros (m & y & A & B & C). apply (veq_key F NI NF) in A; auto; try (constructor; apply HN).
    cbn [to_key] in A. apply dec_inj in A. apply Nat2Z.inj in A. subst. exists y. auto.
  - intros (y & A & B). exists n, y. split; auto. eapply veq_num; reflexivity.
Qed.

Lemma member3_object i x l : wf i -> wf x -> Forall (fun kv => wf (fst kv) /\ wf (snd kv)) l ->
  (member_3 F i x (VObject l) = true <-> exists k v, In (k, v) l /\ veq F i k /\ veq F x v).
Proof.
  intros Hi Hx Hl. rewrite member3_in. cbn [find_indices]. unfold object_find. rewrite Forall_forall in Hl. split.
  - intro H. apply in_map_iff in H as ([k v] & E1 & H). apply filter_In in H as [H E]. cbn [fst snd] in *. apply str_eqb_eq in E.
    exists k, v. destruct (Hl _ H). split; auto. split; apply (key_veq F NI NF); auto.
  - intros (k & v & H & E1 & E2). destruct (Hl _ H). cbn [fst snd] in *. apply in_map_iff. exists (k, v). split.
    + symmetry. apply (veq_key F NI NF); auto.
    + apply filter_In. split; auto. apply str_eqb_eq. symmetry. apply (veq_key F NI NF); auto.
Qed.

(** Sorting *)
Lemma sort_vals_keys l : map key (sort_vals F l) = sort_by str_ltb (map key l).
Proof. unfold sort_vals. apply sort_by_map. auto. Qed.

Lemma sort_vals_sorted l : StronglySorted (fun a b => str_ltb (key b) (key a) = false) (sort_vals F l).
Proof.
  assert (H : StronglySorted (fun a b => str_ltb b a = false) (map key (sort_vals F l))).
  { rewrite sort_vals_keys. apply (sort_by_sorted str_ltb (fun _ => True)).
    - intros x _. apply str_ltb_irrefl.
    - intros x y z _ _ _. apply str_ltb_trans.
    - intros x y _ _. apply str_ltb_total.
    - apply Forall_forall. auto. }
  induction (sort_vals F l) as [|x m IH]; [constructor|]. simpl in H. inversion H; subst. constructor; auto.
  rewrite Forall_forall in *. intros y Hy. apply H3. now apply in_map.
Qed.

Lemma max_elem_spec l b : (max_elem F b l = b \/ In (max_elem F b l) l) /\
  forall x, x = b \/ In x l -> str_ltb (key (max_elem F b l)) (key x) = false.
Proof.
  revert b. induction l as [|y l IH]; intro b; simpl.
  - split; auto. intros x [->|[]]. apply str_ltb_irrefl.
  - destruct (IH (if str_ltb (key b) (key y) then y else b)) as [A B]. split.
    + destruct (str_ltb (key b) (key y)); destruct A as [A|A]; rewrite ?A; auto.
    + assert (T : forall p q r, str_ltb p q = false -> str_ltb q r = false -> str_ltb p r = false).
      { intros p q r H1 H2. destruct (str_ltb p r) eqn:E; auto. 
        destruct (str_ltb_trichotomy q r) as [(X & _)|[(_ & X & _)|(_ & _ & X)]]; try congruence.
        pose proof (str_ltb_trans _ _ _ E X). congruence. }
      intros x Hx. destruct (str_ltb (key b) (key y)) eqn:E.
      * destruct Hx as [->|[->|Hx]]; auto. eapply T; [apply B; left; reflexivity|]. now apply str_ltb_asym.
      * destruct Hx as [->|[->|Hx]]; auto. eapply T; [apply B; left; reflexivity|]. auto.
Qed.
Lemma min_elem_spec l b : (min_elem F b l = b \/ In (min_elem F b l) l) /\
  forall x, x = b \/ In x l -> str_ltb (key x) (key (min_elem F b l)) = false.
Proof.
  revert b. induction l as [|y l IH]; intro b; simpl.
  - split; auto. intros x [->|[]]. apply str_ltb_irrefl.
  - destruct (IH (if str_ltb (key y) (key b) then y else b)) as [A B]. split.
    + destruct (str_ltb (key y) (key b)); destruct A as [A|A]; rewrite ?A; auto.
    + assert (T : forall p q r, str_ltb p q = false -> str_ltb q r = false -> str_ltb p r = false).
      { intros p q r H1 H2. destruct (str_ltb p r) eqn:E; auto. 
        destruct (str_ltb_trichotomy q r) as [(X & _)|[(_ & X & _)|(_ & _ & X)]]; try congruence.
        pose proof (str_ltb_trans _ _ _ E X). congruence. }
      intros x Hx. destruct (str_ltb (key y) (key b)) eqn:E.
      * destruct Hx as [->|[->|Hx]]; auto. eapply T; [|apply B; left; reflexivity]. now apply str_ltb_asym.
      * destruct Hx as [->|[->|Hx]]; auto. eapply T; [|apply B; left; reflexivity]. auto.
Qed.

(** Where the key order is the order of the language. *)
Lemma key_le_holds a b : is_num a && is_num b = false -> str_ltb (key b) (key a) = false -> holds F OpLe a b.
Proof.
  intros N H. unfold holds, bi_compare, boolinfix. destruct a, b; try discriminate; rewrite N; cbn [do_bool_key]; rewrite H; reflexivity.
Qed.
Lemma key_le_int x y : 0 <= x -> 0 <= y -> length (dec x) = length (dec y) ->
  str_ltb (dec y) (dec x) = false -> holds F OpLe (VInt (dec x)) (VInt (dec y)).
Proof.
  intros Hx Hy L H. unfold holds. apply compare_spec. cbn [zrel].
  pose proof (dec_canon x Hx) as [Dx _]. pose proof (dec_canon y Hy) as [Dy _].
  rewrite ltb_same_len in H by auto. rewrite !zval_dec in H by auto. apply Z.ltb_ge in H. lia.
Qed.
End Members.
