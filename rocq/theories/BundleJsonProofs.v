(** Proofs for BundleJsonTheorems: what the rules do to plain documents, and reading back what was written. *)
From Coq Require Import String ZArith List Bool Lia.
From Verif Require Import Base SMap ValueModel ResolverModel VmModel StrModel EncModel EncSpec EncProofs JsonModel JsonSpec JsonProofs PlanModel PlanProofs BundleJsonModel BundleJsonSpec.
Import ListNotations.
Local Open Scope Z_scope.
Local Open Scope list_scope.

Lemma mapm_some {A B} (g : A -> option B) l r : mapm g l = Some r <-> Forall2 (fun a b => g a = Some b) l r.
Proof.
  revert r. induction l as [ | a l IH ]; intros r; cbn [mapm].
  - split; [ intros E; injection E as <-; constructor | intros F; inversion F; reflexivity ].
  - destruct (g a) as [ b | ] eqn:G; [ destruct (mapm g l) as [ q | ] eqn:Q | ]; split; intros H; try discriminate.
    + injection H as <-. constructor; auto. now apply IH.
    + inversion H; subst. assert (b = y) by congruence. subst. assert (E : Some q = Some l') by now apply IH. now injection E as <-.
    + inversion H; subst. assert (E : None = Some l') by now apply IH. discriminate.
    + inversion H; subst. congruence.
Qed.
Lemma mapm_map {A B C} (g : B -> option C) (f : A -> B) (h : A -> C) l : Forall (fun a => g (f a) = Some (h a)) l -> mapm g (map f l) = Some (map h l).
Proof. intros F. apply mapm_some. induction F; constructor; auto. Qed.

(** ** Plain documents *)
Fixpoint embed (t : jtree) : bj :=
  match t with
  | JNull => BNull | JTrue => BTrue | JFalse => BFalse
  | JNumber t => BNumber t
  | JString q => BString q
  | JArray l => BArray (map embed l)
  | JObject l => BObject (map (fun kv => BMember (fst kv) (embed (snd kv))) l)
  end.
Lemma plain_embed : forall t, plain (embed t) = Some t.
Proof.
  apply (jtree_induction (fun t => plain (embed t) = Some t)); try reflexivity.
  - intros l F. cbn [embed plain]. rewrite (mapm_map plain embed (fun t => t) l F), map_id. reflexivity.
  - intros l F. cbn [embed plain]. rewrite (mapm_map _ (fun kv => BMember (fst kv) (embed (snd kv))) (fun kv => kv) l), map_id; [ reflexivity | ].
    eapply Forall_impl; [ | exact F ]. intros [k v] E. cbn [fst snd] in *. now rewrite E.
Qed.
Lemma embed_string v q : embed v = BString q -> v = JString q.
Proof. destruct v; cbn; congruence. Qed.
Lemma embed_number v n : embed v = BNumber n -> v = JNumber n.
Proof. destruct v; cbn; congruence. Qed.

Section Conv.
Variable J : json_ops.
Variable P : paths.
Notation conv := (conv J P).
Notation members l := (map (fun kv => member_rules J P (fst kv) (conv InMember (snd kv))) l).
Definition embeds (l : list (str * jtree)) : list bm := map (fun kv => BMember (fst kv) (embed (snd kv))) l.

Lemma first_type_embeds l q : first_type (embeds l) = Some q <-> exists r, l = ($"type", JString q) :: r.
Proof.
  split.
  - destruct l as [ | [k v] r ]; cbn [embeds map first_type fst snd]; [ discriminate | ]. destruct (embed v) eqn:E; try discriminate.
    destruct (str_eqb k $"type") eqn:K; [ | discriminate ]. intros H. injection H as <-. apply str_eqb_eq in K as ->. apply embed_string in E as ->. eauto.
  - intros (r & ->). reflexivity.
Qed.
Lemma operand_embeds l : operand_rule (embeds l) = None <-> ~ like_operand l.
Proof.
  split.
  - intros H (q & v & r & -> & C). unfold operand_rule in H. cbn [embeds map fst snd first_type embed] in H. rewrite str_eqb_refl in H. cbv iota in H. change (str_eqb $"value" $"value") with true in H. cbv iota in H.
    destruct C as [([-> | ->] & n & ->) | (-> & [-> | ->])]; vm_compute in H; discriminate.
  - intros N. destruct (operand_rule (embeds l)) as [ o | ] eqn:H; [ exfalso; apply N | reflexivity ].
    unfold operand_rule in H. destruct (first_type (embeds l)) as [ q | ] eqn:F; [ | discriminate ]. apply first_type_embeds in F as (r & ->).
    destruct r as [ | [k v] r ]; cbn [embeds map fst snd] in H; [ discriminate | ]. destruct (str_eqb k $"value") eqn:K; [ | discriminate ]. apply str_eqb_eq in K as ->.
    exists q, v, r. split; [ reflexivity | ]. destruct (embed v) eqn:E; try discriminate.
    + right. destruct (str_eqb q (add_quotes $"bool")) eqn:Q; [ | discriminate ]. apply str_eqb_eq in Q as ->. split; [ reflexivity | ]. destruct v; try discriminate. auto.
    + right. destruct (str_eqb q (add_quotes $"bool")) eqn:Q; [ | discriminate ]. apply str_eqb_eq in Q as ->. split; [ reflexivity | ]. destruct v; try discriminate. auto.
    + left. apply embed_number in E as ->. split; [ | eauto ]. destruct (str_eqb q (add_quotes $"local")) eqn:Q; [ apply str_eqb_eq in Q; now left | ].
      destruct (str_eqb q (add_quotes $"string_index")) eqn:Q2; [ apply str_eqb_eq in Q2; now right | discriminate ].
Qed.
Lemma find_reader q : (exists r, sm_find q (map (fun x => (add_quotes (fst x), snd x)) (readers J)) = Some r) <-> In q (map in_quotes statement_names).
Proof.
  assert (E : map fst (map (fun x => (add_quotes (fst x), snd x)) (readers J)) = map in_quotes statement_names) by reflexivity.
  rewrite <- E. generalize (map (fun x => (add_quotes (fst x), snd x)) (readers J)). intros m. induction m as [ | [k a] m IH ]; cbn [map fst sm_find In].
  - split; [ intros (r & H); discriminate | intros [] ].
  - destruct (str_eqb q k) eqn:K.
    + apply str_eqb_eq in K as ->. split; eauto.
    + apply str_eqb_neq in K. rewrite IH. intuition congruence.
Qed.
Lemma stmt_embeds l : stmt_rule J (embeds l) = None <-> ~ like_statement l.
Proof.
  split.
  - intros H (name & r & I & ->). unfold stmt_rule in H. assert (F : first_type (embeds (($"type", JString (in_quotes name)) :: r)) = Some (in_quotes name)) by reflexivity. rewrite F in H.
    destruct (proj2 (find_reader (in_quotes name)) (in_map _ _ _ I)) as (x & X). rewrite X in H. discriminate.
  - intros N. unfold stmt_rule. destruct (first_type (embeds l)) as [ q | ] eqn:F; [ | reflexivity ]. apply first_type_embeds in F as (r & ->).
    destruct (sm_find q _) as [ x | ] eqn:X; [ | reflexivity ]. exfalso. apply N. assert (I : In q (map in_quotes statement_names)) by (apply find_reader; eauto).
    apply in_map_iff in I as (name & <- & I). exists name, r. auto.
Qed.
Lemma block_embeds l : block_rule (embeds l) = None <-> ~ like_block l.
Proof.
  split.
  - intros H (a & r & ->). discriminate.
  - intros N. destruct l as [ | [k v] r ]; [ reflexivity | ]. cbn [embeds map fst snd block_rule]. destruct (embed v) eqn:E; try reflexivity.
    destruct (str_eqb k $"stmts") eqn:K; [ | reflexivity ]. apply str_eqb_eq in K as ->. destruct v; try discriminate. exfalso. apply N. eexists. eauto.
Qed.
Lemma member_embeds k v : ~ like_part k v -> member_rules J P k (embed v) = BMember k (embed v).
Proof.
  intros N. destruct v as [ | | | t | s | l | l ]; try reflexivity; cbn [embed member_rules].
  - assert (K : forall x, In x [$"blocks"; $"strings"; $"builtin_funcs"; $"files"] -> str_eqb k x = false).
    { intros x I. apply str_eqb_neq. intros ->. apply N. left. split; eauto. }
    rewrite !K by (cbn; tauto). reflexivity.
  - assert (K : forall x, In x [$"plans"; $"funcs"; $"static"] -> str_eqb k x = false).
    { intros x I. apply str_eqb_neq. intros ->. apply N. right. split; eauto. }
    rewrite !K by (cbn; tauto). reflexivity.
Qed.

Definition here (a : bool) : place := if a then InArray else InMember.
Lemma object_rules_embeds a l : object_rules J (here a) (embeds l) = BObject (embeds l) <-> ~ like_operand l /\ (a = true -> ~ like_statement l) /\ ~ like_block l.
Proof.
  rewrite <- operand_embeds, <- block_embeds, <- stmt_embeds. unfold object_rules. destruct (operand_rule (embeds l)) eqn:O; [ split; [ discriminate | intros (X & _); discriminate ] | ].
  destruct (match here a with InMember => None | InArray => stmt_rule J (embeds l) end) as [ n | ] eqn:S.
  - destruct a; [ | discriminate ]. cbn [here] in S. split.
    + intros ->. unfold stmt_rule in S. destruct (first_type _); [ | discriminate ]. destruct (sm_find _ _) as [ rd | ]; [ | discriminate ]. injection S as S. destruct (get_object _ _) as [ ob | ]; [ destruct (rd ob) | ]; discriminate.
    + intros (_ & X & _). rewrite X in S; auto. discriminate.
  - destruct (block_rule (embeds l)) as [ n | ] eqn:B.
    + split; [ | intros (_ & _ & X); discriminate ]. intros ->. unfold block_rule in B. destruct (embeds l) as [ | [k v | | | | | | | ] r ]; try discriminate. destruct v; try discriminate.
      destruct (str_eqb k _); [ | discriminate ]. destruct (mapm as_stmt l0); discriminate.
    + split; [ | reflexivity ]. intros _. repeat split. intros ->. exact S.
Qed.

Lemma conv_tame : forall t a, tame a t -> conv (here a) t = embed t.
Proof.
  apply (jtree_induction (fun t => forall a, tame a t -> conv (here a) t = embed t)); try reflexivity.
  - intros l F a H. inversion H; subst. cbn [BundleJsonModel.conv embed]. f_equal. apply map_ext_in. intros t I. rewrite Forall_forall in *. apply (F t I true). auto.
  - intros l F a H. inversion H; subst. cbn [BundleJsonModel.conv embed].
    assert (E : members l = embeds l).
    { unfold embeds. apply map_ext_in. intros kv I. rewrite Forall_forall in *. destruct (H1 kv I) as (T & N). rewrite (F kv I false T : conv InMember (snd kv) = _). now apply member_embeds. }
    rewrite E. apply object_rules_embeds. auto.
Qed.

Lemma plain_object_rules p l t : plain (object_rules J p l) = Some t -> object_rules J p l = BObject l.
Proof.
  unfold object_rules. destruct (operand_rule l); [ discriminate | ].
  assert (S : forall n, stmt_rule J l = Some n -> plain n = None).
  { intros n S. unfold stmt_rule in S. destruct (first_type l); [ | discriminate ]. destruct (sm_find _ _) as [ rd | ]; [ | discriminate ]. injection S as <-.
    destruct (get_object _ _) as [ ob | ]; [ destruct (rd ob) | ]; reflexivity. }
  assert (B : forall n, block_rule l = Some n -> plain n = None).
  { intros n B. unfold block_rule in B. destruct l as [ | [k v | | | | | | | ] r ]; try discriminate. destruct v; try discriminate. destruct (str_eqb k _); [ | discriminate ]. injection B as <-.
    destruct (mapm as_stmt l); reflexivity. }
  destruct p.
  - destruct (block_rule l) eqn:X; [ | reflexivity ]. rewrite B by reflexivity. discriminate.
  - destruct (stmt_rule J l) eqn:Y; [ rewrite S by reflexivity; discriminate | ]. destruct (block_rule l) eqn:X; [ | reflexivity ]. rewrite B by reflexivity. discriminate.
Qed.
(** Exactly the tame documents stay JSON. *)
Lemma plain_conv : forall t a t', plain (conv (here a) t) = Some t' -> tame a t.
Proof.
  apply (jtree_induction (fun t => forall a t', plain (conv (here a) t) = Some t' -> tame a t)); try (intros; now constructor).
  - intros l F a t' H. cbn [BundleJsonModel.conv plain] in H. destruct (mapm plain (map (conv InArray) l)) as [ r | ] eqn:E; [ | discriminate ]. constructor.
    apply mapm_some in E. clear H. remember (map (conv InArray) l) as m eqn:M. revert l F M. induction E as [ | x y m r Q _ IH ]; intros [ | t l ] F M; try discriminate; constructor.
    + inversion F; subst. injection M as -> ->. eauto.
    + inversion F; subst. injection M as -> ->. eapply IH; eauto.
  - intros l F a t' H. cbn [BundleJsonModel.conv] in H. pose proof (plain_object_rules _ _ _ H) as R. rewrite R in H. cbn [plain] in H.
    destruct (mapm _ (members l)) as [ r | ] eqn:E in H; [ | discriminate ].
    assert (X : Forall (fun kv => tame false (snd kv) /\ ~ like_part (fst kv) (snd kv)) l).
    { apply mapm_some in E. clear H R. remember (members l) as m eqn:M. revert l F M. induction E as [ | x y m r Q _ IH ]; intros [ | [k v] l ] F M; try discriminate; constructor.
      2: { inversion F; subst. injection M as -> ->. now apply IH. }
      inversion F; subst. injection M as -> ->. cbn [fst snd] in *. clear IH F H2.
      destruct (member_rules J P k (conv InMember v)) as [ k' w | | | | | | | ] eqn:MR; try discriminate. destruct (plain w) as [ u | ] eqn:W; [ | discriminate ].
      assert (K : w = conv InMember v).
      { unfold member_rules in MR. destruct (conv InMember v) as [ | | | | | ll | ll | | | | | ]; try congruence.
        - destruct (str_eqb k $"blocks"); [ injection MR as <- <-; destruct (mapm as_block ll); discriminate | ]. destruct (str_eqb k _); [ discriminate | ]. destruct (str_eqb k _); [ discriminate | ].
          destruct (str_eqb k _); [ destruct (to_paths J P ll); discriminate | congruence ].
        - destruct (str_eqb k _); [ unfold to_plans in MR; destruct (get_array _ _); discriminate | ]. destruct (str_eqb k _); [ unfold to_functions in MR; destruct (get_array _ _); discriminate | ].
          destruct (str_eqb k _); [ unfold to_static in MR; destruct (last_kind is_strings ll); discriminate | congruence ]. }
      subst w. assert (T : tame false v) by (apply (H1 false u); exact W). split; [ exact T | ].
      intros [(I & ll & ->) | (I & ll & ->)].
      - change (conv InMember (JArray ll)) with (BArray (map (conv InArray) ll)) in MR. cbn [In] in I. destruct I as [<- | [<- | [<- | [<- | []]]]]; cbn in MR.
        + injection MR as _ MR. destruct (mapm as_block _); discriminate.
        + discriminate.
        + discriminate.
        + destruct (to_paths J P _); discriminate.
      - rewrite (conv_tame _ false T : conv InMember (JObject ll) = _) in MR. cbn [In] in I. destruct I as [<- | [<- | [<- | []]]]; cbn in MR.
        + unfold to_plans in MR. destruct (get_array _ _); discriminate.
        + unfold to_functions in MR. destruct (get_array _ _); discriminate.
        + unfold to_static in MR. destruct (last_kind _ _); discriminate. }
    assert (E2 : members l = embeds l).
    { unfold embeds. apply map_ext_in. intros kv I. rewrite Forall_forall in X. destruct (X kv I) as (T & N). rewrite (conv_tame _ false T : conv InMember (snd kv) = _). now apply member_embeds. }
    rewrite E2 in R. apply object_rules_embeds in R as (R1 & R2 & R3). now constructor.
Qed.
Lemma tame_calm : forall t a, tame a t -> crashes J P t = false.
Proof.
  apply (jtree_induction (fun t => forall a, tame a t -> crashes J P t = false)); try reflexivity.
  - intros l F a H. inversion H; subst. cbn [crashes]. apply not_true_is_false. intros E. apply existsb_exists in E as (t & I & E). rewrite Forall_forall in *. rewrite (F t I true) in E; auto. discriminate.
  - intros l F a H. inversion H; subst. cbn [crashes]. apply not_true_is_false. intros E. apply existsb_exists in E as ([k v] & I & E). cbn [fst snd] in E. rewrite Forall_forall in *.
    destruct (H1 _ I) as (T & N). cbn [fst snd] in *. apply orb_true_iff in E as [E | E]; [ rewrite (F _ I false T : crashes J P v = false) in E; discriminate | ].
    unfold null_static in E. apply andb_true_iff in E as (K & E). apply str_eqb_eq in K as ->. rewrite (conv_tame _ false T : conv InMember v = _) in E.
    destruct v; try discriminate. apply N. right. split; [ cbn; tauto | eauto ].
Qed.

(** ** Statements *)
Variable loc : list nat -> location.
Hypothesis JOK : json_ok J.
Notation ir_json := (ir_json J loc).

Lemma quoted_text s : quoted J s = JString (in_quotes (j_escape J s)).
Proof. unfold quoted, add_quotes. destruct JOK as (_ & H & _). now rewrite (json_text_plain _ (H s)). Qed.
Lemma strip_in_quotes s : strip_node (in_quotes s) = s.
Proof. unfold in_quotes, strip_node. destruct (s ++ [34]) as [ | c r ] eqn:E; [ destruct s; discriminate | ]. rewrite Z.eqb_refl, <- E. apply removelast_last. Qed.
Lemma in_quotes_inj a b : in_quotes a = in_quotes b -> a = b.
Proof. intros E. apply (f_equal strip_node) in E. now rewrite !strip_in_quotes in E. Qed.
Lemma irstring_back s : to_irstring J (in_quotes (j_escape J s)) = s.
Proof. unfold to_irstring. rewrite strip_in_quotes. apply JOK. Qed.

Lemma conv_operand p o : conv p (operand_json o) = BOperand o.
Proof. destruct o as [ t | t | [ | ] ]; destruct p; reflexivity. Qed.
Lemma conv_operands p l : conv p (operands_json l) = BArray (map BOperand l).
Proof. cbn [operands_json BundleJsonModel.conv]. rewrite map_map. f_equal. apply map_ext. apply conv_operand. Qed.
Lemma operands_back l : mapm as_operand (map BOperand l) = Some l.
Proof. rewrite (mapm_map as_operand BOperand (fun o => o) l), map_id; [ reflexivity | ]. apply Forall_forall. reflexivity. Qed.
Lemma numbers_back l : mapm as_number (map BNumber l) = Some l.
Proof. rewrite (mapm_map as_number BNumber (fun o => o) l), map_id; [ reflexivity | ]. apply Forall_forall. reflexivity. Qed.
Lemma conv_numbers p l : conv p (JArray (map JNumber l)) = BArray (map BNumber l).
Proof. cbn [BundleJsonModel.conv]. now rewrite map_map. Qed.

Lemma mapi_back {A B C} (g : nat -> A -> B) (c : B -> C) (w : A -> C) l i : Forall (fun a => forall i, c (g i a) = w a) l -> map c (mapi g i l) = map w l.
Proof. intros F. revert i. induction F as [ | a l H _ IH ]; intros i; cbn [mapi map]; [ reflexivity | ]. now rewrite H, IH. Qed.
Definition reads (s : ir str str) : Prop := forall pos, conv InArray (ir_json pos s) = BStmt s.
Lemma conv_block b : Forall reads b -> forall p pos, conv p (block_json J loc pos b) = BBlock b.
Proof.
  intros F p pos. cbn [block_json BundleJsonModel.conv map fst snd].
  rewrite (mapi_back (fun i s => ir_json (i :: pos) s) (conv InArray) BStmt).
  2: { eapply Forall_impl; [ | exact F ]. intros s R i. apply R. }
  assert (K : mapm as_stmt (map BStmt b) = Some b) by (rewrite (mapm_map as_stmt BStmt (fun o => o) b), map_id; [ reflexivity | apply Forall_forall; reflexivity ]).
  assert (E : member_rules J P $"stmts" (BArray (map BStmt b)) = BMember $"stmts" (BArray (map BStmt b))) by reflexivity. rewrite E.
  unfold object_rules. change (operand_rule [BMember $"stmts" (BArray (map BStmt b))]) with (@None (op str str)). cbv iota.
  change (stmt_rule J [BMember $"stmts" (BArray (map BStmt b))]) with (@None bj).
  assert (B : block_rule [BMember $"stmts" (BArray (map BStmt b))] = Some (BBlock b)) by (cbn [block_rule]; change (str_eqb $"stmts" $"stmts") with true; cbv iota; now rewrite K).
  rewrite B. now destruct p.
Qed.
Lemma conv_blocks bs : Forall (Forall reads) bs -> forall p pos, conv p (blocks_json J loc pos bs) = BArray (map BBlock bs).
Proof.
  intros F p pos. cbn [blocks_json BundleJsonModel.conv]. f_equal. apply mapi_back. eapply Forall_impl; [ | exact F ]. intros b R i. now apply conv_block.
Qed.
Lemma blocks_back bs : member_rules J P $"blocks" (BArray (map BBlock bs)) = BMember $"blocks" (BBlocks bs).
Proof.
  cbn [member_rules]. change (str_eqb $"blocks" $"blocks") with true. cbv iota. rewrite (mapm_map as_block BBlock (fun o => o) bs), map_id; [ reflexivity | ]. apply Forall_forall. reflexivity.
Qed.

Lemma conv_object p l : conv p (JObject l) = object_rules J p (members l).
Proof. reflexivity. Qed.
Lemma members_cons k v l : members ((k, v) :: l) = member_rules J P k (conv InMember v) :: members l.
Proof. reflexivity. Qed.
Lemma conv_stmt name x fields r fs s :
  sm_find (add_quotes name) (map (fun x => (add_quotes (fst x), snd x)) (readers J)) = Some r ->
  operand_rule [BMember $"type" (BString (add_quotes name)); BMember $"stmt" (BObject fs)] = None ->
  members (fields ++ loc_members x) = fs -> operand_rule fs = None -> block_rule fs = None -> r (BObject fs) = Some s ->
  conv InArray (stmt_json name x fields) = BStmt s.
Proof.
  intros R O M O1 B1 E. unfold stmt_json. rewrite conv_object, members_cons, members_cons, conv_object, M. unfold object_rules at 2. rewrite O1, B1. cbv iota. cbn [fst snd map].
  assert (T : conv InMember (tag name) = BString (add_quotes name)) by reflexivity. rewrite T.
  assert (E1 : member_rules J P $"type" (BString (add_quotes name)) = BMember $"type" (BString (add_quotes name))) by reflexivity.
  assert (E2 : member_rules J P $"stmt" (BObject fs) = BMember $"stmt" (BObject fs)) by reflexivity. rewrite E1, E2.
  unfold object_rules. rewrite O. unfold stmt_rule. assert (FT : first_type [BMember $"type" (BString (add_quotes name)); BMember $"stmt" (BObject fs)] = Some (add_quotes name)) by reflexivity.
  rewrite FT, R. assert (G : get_object (BObject [BMember $"type" (BString (add_quotes name)); BMember $"stmt" (BObject fs)]) $"stmt" = Some (BObject fs)) by reflexivity.
  now rewrite G, E.
Qed.

Ltac fold_blocks :=
  repeat match goal with |- context [JObject [(?k, JArray (mapi (fun i s => BundleJsonModel.ir_json J loc (i :: ?q) s) 0 ?b))]] =>
    change (JObject [(k, JArray (mapi (fun i s => BundleJsonModel.ir_json J loc (i :: q) s) 0 b))]) with (block_json J loc q b) end;
  try match goal with H : list nat |- context [(_, JArray (mapi ?g 0 ?bs))] => change (JArray (mapi g 0 bs)) with (blocks_json J loc H bs) end.
Lemma ir_reads : forall s, reads s.
Proof.
  intros s. induction s as [s IH] using ir_ind'. intros pos.
  destruct s; cbn [inner] in IH; cbn [BundleJsonModel.ir_json].
  all: destruct (loc pos) as [ [ [ lf lr ] lc ] | ].
  all: try (eapply conv_stmt; [ reflexivity | reflexivity | cbn [app loc_members map fst snd]; rewrite ?conv_operand, ?conv_operands, ?quoted_text; reflexivity
    | reflexivity | reflexivity | reflexivity ]).
  all: try (eapply conv_stmt; [ reflexivity | reflexivity | cbn [app loc_members map fst snd]; rewrite ?conv_operand, ?conv_operands, ?quoted_text; reflexivity
    | reflexivity | reflexivity | cbn -[to_irstring]; rewrite ?operands_back, ?irstring_back; reflexivity ]).
  all: fold_blocks.
  all: eapply conv_stmt; [ reflexivity | reflexivity |
    cbn [app loc_members map fst snd]; rewrite ?conv_operand, ?conv_operands, ?conv_numbers, ?conv_block, ?conv_blocks, ?blocks_back by (try exact IH; now apply Forall_concat_elim);
    reflexivity
    | reflexivity | reflexivity | cbn; rewrite ?numbers_back; reflexivity ].
Qed.

Lemma existsb_false {A} (f : A -> bool) l : Forall (fun a => f a = false) l -> existsb f l = false.
Proof. induction 1 as [ | a l H _ IH ]; cbn [existsb]; [ reflexivity | ]. now rewrite H, IH. Qed.
Lemma mapi_forall {A B} (g : nat -> A -> B) (Q : B -> Prop) l i : Forall (fun a => forall i, Q (g i a)) l -> Forall Q (mapi g i l).
Proof. intros F. revert i. induction F as [ | a l H _ IH ]; intros i; cbn [mapi]; constructor; auto. Qed.
Lemma calm_object l : Forall (fun kv => crashes J P (snd kv) = false /\ fst kv <> $"static") l -> crashes J P (JObject l) = false.
Proof.
  intros F. cbn [crashes]. apply existsb_false. eapply Forall_impl; [ | exact F ]. intros [k v] (C & N). cbn [fst snd] in *. rewrite C. unfold null_static.
  apply str_eqb_neq in N. now rewrite N.
Qed.
Lemma calm_operand o : crashes J P (operand_json o) = false.
Proof. destruct o as [ t | t | [ | ] ]; reflexivity. Qed.
Lemma calm_operands l : crashes J P (operands_json l) = false.
Proof. cbn [operands_json crashes]. apply existsb_false, Forall_map, Forall_forall. intros o _. apply calm_operand. Qed.
Lemma calm_numbers l : crashes J P (JArray (map JNumber l)) = false.
Proof. cbn [crashes]. apply existsb_false, Forall_map, Forall_forall. reflexivity. Qed.
Definition calm (s : ir str str) : Prop := forall pos, crashes J P (ir_json pos s) = false.
Lemma calm_block b pos : Forall calm b -> crashes J P (block_json J loc pos b) = false.
Proof.
  intros F. apply calm_object. constructor; [ | constructor ]. split; [ | discriminate ]. cbn [snd crashes]. apply existsb_false. apply mapi_forall. eapply Forall_impl; [ | exact F ].
  intros s C i. apply C.
Qed.
Lemma calm_blocks bs pos : Forall (Forall calm) bs -> crashes J P (blocks_json J loc pos bs) = false.
Proof. intros F. cbn [blocks_json crashes]. apply existsb_false, mapi_forall. eapply Forall_impl; [ | exact F ]. intros b C i. now apply calm_block. Qed.
Lemma calm_stmt name x fields : Forall (fun kv => crashes J P (snd kv) = false /\ fst kv <> $"static") fields -> crashes J P (stmt_json name x fields) = false.
Proof.
  intros F. apply calm_object. constructor; [ split; [ reflexivity | discriminate ] | ]. constructor; [ | constructor ]. split; [ | discriminate ].
  apply calm_object. cbn [snd]. apply Forall_app. split; [ exact F | ]. destruct x as [ [ [ f r ] c ] | ]; repeat constructor; discriminate.
Qed.
Lemma ir_calm : forall s, calm s.
Proof.
  intros s. induction s as [s IH] using ir_ind'. intros pos.
  destruct s; cbn [inner] in IH; cbn [BundleJsonModel.ir_json]; apply calm_stmt.
  all: fold_blocks.
  all: repeat (apply Forall_cons; [ split; [ cbn [snd]; first [ reflexivity | apply calm_operand | apply calm_operands | apply calm_numbers | now apply calm_block | apply calm_blocks; now apply Forall_concat_elim ] | cbn [fst]; discriminate ] | ]); try apply Forall_nil.
Qed.

(** ** Declarations *)
Lemma no_part k v : ~ In k [$"blocks"; $"strings"; $"builtin_funcs"; $"files"; $"plans"; $"funcs"; $"static"] -> ~ like_part k v.
Proof. intros N [(I & _) | (I & _)]; apply N; cbn [In] in *; tauto. Qed.
Lemma static_array l : ~ like_part $"static" (JArray l).
Proof. intros [(I & _) | (_ & ll & E)]; [ cbn [In] in I; repeat destruct I as [ I | I ]; try discriminate; contradiction | discriminate ]. Qed.
Lemma args_part v : forall k, In k [$"type"; $"dynamic"; $"of"; $"key"; $"value"; $"name"; $"description"; $"args"; $"result"; $"decl"] -> ~ like_part k v.
Proof.
  intros k I. apply no_part. intros I2. assert (B : existsb (str_eqb k) [$"blocks"; $"strings"; $"builtin_funcs"; $"files"; $"plans"; $"funcs"; $"static"] = true).
  { apply existsb_exists. exists k. split; [ exact I2 | apply str_eqb_refl ]. }
  cbn [In] in I. repeat destruct I as [ <- | I ]; try discriminate; contradiction.
Qed.
Definition type_names : list str := [$"any"; $"string"; $"number"; $"boolean"; $"null"; $"array"; $"object"; $"set"].
Definition quiet (kv : str * jtree) : Prop := tame false (snd kv) /\ ~ like_part (fst kv) (snd kv).
Lemma tame_type a q r : In q type_names -> Forall quiet r -> tame a (JObject (($"type", tag q) :: r)).
Proof.
  intros I F. assert (T : tag q = JString (in_quotes q)). { unfold tag, add_quotes. cbn [type_names In] in I. repeat destruct I as [ <- | I ]; try reflexivity; contradiction. }
  rewrite T. constructor.
  - constructor; [ | exact F ]. split; [ constructor | apply args_part; cbn; tauto ].
  - intros (q' & v & r' & E & C). injection E as <- ->. assert (X : q = $"local" \/ q = $"string_index" \/ q = $"bool").
    { destruct C as [([C | C] & _) | (C & _)]; apply in_quotes_inj in C; auto. }
    cbn [type_names In] in I. repeat destruct I as [ <- | I ]; try contradiction; destruct X as [ X | [ X | X ] ]; discriminate.
  - intros _ (name & r' & I2 & E). assert (E2 : in_quotes q = in_quotes name) by congruence. apply in_quotes_inj in E2. subst name.
    assert (B : existsb (str_eqb q) statement_names = true) by (apply existsb_exists; exists q; split; [ exact I2 | apply str_eqb_refl ]).
    cbn [type_names In] in I. repeat destruct I as [ <- | I ]; try contradiction; vm_compute in B; discriminate.
  - intros (l & r' & E). discriminate.
Qed.
Lemma tame_other a l : (match l with (k, _) :: _ => k <> $"type" /\ k <> $"stmts" | [] => True end) -> Forall quiet l -> tame a (JObject l).
Proof.
  intros N F. constructor; auto.
  - intros (q & v & r & -> & _). now destruct N.
  - intros _ (name & r & _ & ->). now destruct N.
  - intros (l' & r & ->). now destruct N.
Qed.

Section TypeInd.
Variable Q : btype -> Prop.
Hypothesis H0 : forall t, In t [TyAny; TyString; TyNumber; TyBoolean; TyNull] -> Q t.
Hypothesis H1 : forall t, Q t -> Q (TyDynArray t).
Hypothesis H2 : forall l, Forall Q l -> Q (TyStaticArray l).
Hypothesis H3 : forall k v, Q k -> Q v -> Q (TyDynObject k v).
Hypothesis H4 : forall l, Forall (fun x => Q (snd x)) l -> Q (TyStaticObject l).
Hypothesis H5 : forall k v l, Q k -> Q v -> Forall (fun x => Q (snd x)) l -> Q (TyHybrid k v l).
Hypothesis H6 : forall t, Q t -> Q (TySet t).
Hypothesis H7 : forall l, Forall Q l -> Q (TySeq l).
Fixpoint btype_induction (t : btype) : Q t :=
  let many := fix go (l : list btype) : Forall Q l := match l with [] => Forall_nil _ | t :: l' => Forall_cons t (btype_induction t) (go l') end in
  let items := fix go (l : list (str * btype)) : Forall (fun x => Q (snd x)) l := match l with [] => Forall_nil _ | x :: l' => Forall_cons x (btype_induction (snd x)) (go l') end in
  match t with
  | TyAny => H0 TyAny (or_introl eq_refl)
  | TyString => H0 TyString (or_intror (or_introl eq_refl))
  | TyNumber => H0 TyNumber (or_intror (or_intror (or_introl eq_refl)))
  | TyBoolean => H0 TyBoolean (or_intror (or_intror (or_intror (or_introl eq_refl))))
  | TyNull => H0 TyNull (or_intror (or_intror (or_intror (or_intror (or_introl eq_refl)))))
  | TyDynArray t => H1 t (btype_induction t)
  | TyStaticArray l => H2 l (many l)
  | TyDynObject k v => H3 k v (btype_induction k) (btype_induction v)
  | TyStaticObject l => H4 l (items l)
  | TyHybrid k v l => H5 k v l (btype_induction k) (btype_induction v) (items l)
  | TySet t => H6 t (btype_induction t)
  | TySeq l => H7 l (many l)
  end.
End TypeInd.

Notation type_json := (type_json J).
Definition items (l : list (str * btype)) : jtree := JArray (map (fun x => JObject [($"key", quoted J (fst x)); ($"value", JObject (type_json (snd x)))]) l).
Ltac quiet := split; [ | first [ apply args_part; cbn; tauto | apply static_array ] ].
Lemma type_tame : forall t a extra, Forall quiet extra -> tame a (JObject (type_json t ++ extra)).
Proof.
  assert (K : forall t, (forall a extra, Forall quiet extra -> tame a (JObject (type_json t ++ extra))) -> tame false (JObject (type_json t)) /\ tame true (JObject (type_json t))).
  { intros t H. split; [ specialize (H false []) | specialize (H true []) ]; rewrite app_nil_r in H; apply H; constructor. }
  assert (IT : forall l, Forall (fun x : str * btype => forall a extra, Forall quiet extra -> tame a (JObject (type_json (snd x) ++ extra))) l -> tame false (items l)).
  { intros l F. unfold items. constructor. apply Forall_map. eapply Forall_impl; [ | exact F ]. intros [k t] H. cbn [fst snd] in *. apply tame_other; [ split; discriminate | ].
    repeat (apply Forall_cons; [ quiet | ]); try apply Forall_nil; cbn [snd]; [ rewrite quoted_text; constructor | now apply K ]. }
  apply (btype_induction (fun t => forall a extra, Forall quiet extra -> tame a (JObject (type_json t ++ extra)))).
  - intros t I a extra X. cbn [In] in I. repeat destruct I as [ <- | I ]; try contradiction; (apply tame_type; [ cbn; tauto | exact X ]).
  - intros t H a extra X. apply tame_type; [ cbn; tauto | ]. apply Forall_cons; [ quiet; now apply K | exact X ].
  - intros l H a extra X. apply tame_type; [ cbn; tauto | ]. apply Forall_cons; [ quiet | exact X ]. cbn [snd]. constructor. apply Forall_map. eapply Forall_impl; [ | exact H ]. intros t T. now apply K.
  - intros k v H H' a extra X. apply tame_type; [ cbn; tauto | ]. apply Forall_cons; [ quiet | exact X ]. cbn [snd]. apply tame_other; [ split; discriminate | ].
    repeat (apply Forall_cons; [ quiet; now apply K | ]); constructor.
  - intros l H a extra X. apply tame_type; [ cbn; tauto | ]. apply Forall_cons; [ quiet; now apply IT | exact X ].
  - intros k v l H H' H'' a extra X. apply tame_type; [ cbn; tauto | ]. apply Forall_cons; [ quiet | apply Forall_cons; [ quiet; now apply IT | exact X ] ].
    cbn [snd]. apply tame_other; [ split; discriminate | ]. repeat (apply Forall_cons; [ quiet; now apply K | ]); constructor.
  - intros t H a extra X. apply tame_type; [ cbn; tauto | ]. apply Forall_cons; [ quiet; now apply K | exact X ].
  - intros l H a extra X. apply tame_type; [ cbn; tauto | ]. apply Forall_cons; [ quiet | exact X ]. cbn [snd]. constructor. apply Forall_map. eapply Forall_impl; [ | exact H ]. intros t T. now apply K.
Qed.

(** Further members change nothing, unless they have one of the names that are looked up. *)
Definition extra_ok (extra : list (str * jtree)) : Prop := Forall (fun kv => fst kv = $"name" \/ fst kv = $"description") extra.
Lemma embeds_app l r : embeds (l ++ r) = embeds l ++ embeds r.
Proof. unfold embeds. apply map_app. Qed.
Lemma first_extra k extra : extra_ok extra -> k <> $"name" -> k <> $"description" -> first_member k (embeds extra) = None.
Proof.
  intros X N N'. induction X as [ | [k' v] l E _ IH ]; [ reflexivity | ]. cbn [embeds map first_member fst snd] in *. destruct (str_eqb k k') eqn:K; [ | exact IH ].
  apply str_eqb_eq in K as ->. tauto.
Qed.
Lemma first_app k l r : first_member k (embeds (l ++ r)) = match first_member k (embeds l) with Some v => Some v | None => first_member k (embeds r) end.
Proof. rewrite embeds_app. induction l as [ | [k' v] l IH ]; [ reflexivity | ]. cbn [embeds map first_member fst snd app] in *. destruct (str_eqb k k'); auto. Qed.
Lemma lookdown_extra k l extra : extra_ok extra -> In k [$"type"; $"of"; $"static"; $"dynamic"; $"key"; $"value"] ->
  lookdown (BObject (embeds (l ++ extra))) k = lookdown (BObject (embeds l)) k.
Proof.
  intros X I. cbn [lookdown]. unfold member_of. rewrite !first_app, !(first_extra _ extra X);
    try (intros ->; cbn [In] in I; repeat destruct I as [ I | I ]; try discriminate; contradiction);
    try (intros E; cbn [In] in I; repeat destruct I as [ <- | I ]; try discriminate; contradiction).
  destruct (first_member k (embeds l)); [ reflexivity | ]. now destruct (first_member (capital k) (embeds l)).
Qed.
Lemma to_type_extra fuel l extra : extra_ok extra -> to_type fuel (BObject (embeds (l ++ extra))) = to_type fuel (BObject (embeds l)).
Proof.
  intros X. destruct fuel as [ | fuel ]; [ reflexivity | ]. cbn [to_type]. unfold get_string, get_array, get_object. now rewrite !(lookdown_extra _ l extra X) by (cbn; tauto).
Qed.

Definition sizes (l : list (str * jtree)) : nat := fold_right (fun kv r => S (size (embed (snd kv)) + r)) 0%nat l.
Lemma size_object l : size (embed (JObject l)) = S (sizes l).
Proof. cbn [embed size]. f_equal. induction l as [ | [k v] l IH ]; [ reflexivity | ]. cbn [map fold_right sizes fst snd]. now rewrite IH. Qed.
Lemma size_array l : size (embed (JArray l)) = S (fold_right (fun x r => size (embed x) + r)%nat 0%nat l).
Proof. cbn [embed size]. f_equal. induction l as [ | v l IH ]; [ reflexivity | ]. cbn [map fold_right]. now rewrite IH. Qed.
Lemma sizes_app l r : sizes (l ++ r) = (sizes l + sizes r)%nat.
Proof. induction l as [ | kv l IH ]; [ reflexivity | ]. cbn [app sizes fold_right]. fold (sizes (l ++ r)). rewrite IH. fold (sizes l). lia. Qed.
Lemma sum_in {A} (f : A -> nat) l x : In x l -> (f x <= fold_right (fun x r => f x + r) 0 l)%nat.
Proof. induction l as [ | y l IH ]; [ intros [] | ]. intros [ -> | I ]; cbn [fold_right]; [ lia | specialize (IH I); lia ]. Qed.

Definition tobj (t : btype) : jtree := JObject (type_json t).
Definition kept (s : str) : Prop := j_escape J s = s.
Definition back (t : btype) : Prop := type_texts kept t -> forall fuel, (size (embed (tobj t)) <= fuel)%nat -> to_type fuel (embed (tobj t)) = Some t.
Lemma back_list l : Forall back l -> Forall (type_texts kept) l -> forall fuel, (size (embed (JArray (map tobj l))) <= fuel)%nat ->
  mapm (to_type fuel) (map embed (map tobj l)) = Some l.
Proof.
  intros F T fuel Le. rewrite map_map. rewrite (mapm_map (to_type fuel) (fun t => embed (tobj t)) (fun t => t) l), map_id; [ reflexivity | ].
  rewrite size_array in Le. apply Forall_forall. intros t I. rewrite Forall_forall in F, T. apply F; auto.
  pose proof (sum_in (fun x => size (embed x)) (map tobj l) (tobj t) (in_map tobj l t I)). cbv beta in H. lia.
Qed.
Definition item_json (x : str * btype) : jtree := JObject [($"key", quoted J (fst x)); ($"value", tobj (snd x))].
Definition item_read (fuel : nat) (x : bj) : option (str * btype) :=
  match get_string x $"key" with Some k => match get_object x $"value" with Some v => match to_type fuel v with Some t => Some (strip_node k, t) | None => None end | None => None end | None => None end.
Lemma back_items l : Forall (fun x => back (snd x)) l -> Forall (fun x => kept (fst x) /\ type_texts kept (snd x)) l -> forall fuel, (size (embed (items l)) <= fuel)%nat ->
  mapm (item_read fuel) (map embed (map item_json l)) = Some l.
Proof.
  intros F T fuel Le. rewrite map_map. rewrite (mapm_map (item_read fuel) (fun t => embed (item_json t)) (fun t => t) l), map_id; [ reflexivity | ].
  unfold items in Le. rewrite size_array in Le. apply Forall_forall. intros [k t] I. rewrite Forall_forall in F, T. destruct (T _ I) as (K & Tt). cbn [fst snd] in *.
  pose proof (sum_in (fun x => size (embed x)) (map item_json l) (item_json (k, t)) (in_map item_json l _ I)) as Q. cbv beta in Q. fold item_json in Le.
  change (map (fun x : str * btype => JObject [($"key", quoted J (fst x)); ($"value", JObject (type_json (snd x)))]) l) with (map item_json l) in Le.
  assert (Z1 : (size (embed (tobj t)) <= fuel)%nat). { unfold item_json in Q. rewrite size_object in Q. cbn [sizes fold_right fst snd] in Q. unfold item_json in Le. lia. }
  unfold item_read, item_json. cbn [fst snd]. rewrite quoted_text.
  assert (E1 : get_string (embed (JObject [($"key", JString (in_quotes (j_escape J k))); ($"value", tobj t)])) $"key" = Some (in_quotes (j_escape J k))) by reflexivity.
  assert (E2 : get_object (embed (JObject [($"key", JString (in_quotes (j_escape J k))); ($"value", tobj t)])) $"value" = Some (embed (tobj t))) by reflexivity.
  rewrite E1, E2, (F _ I Tt fuel Z1 : to_type fuel (embed (tobj t)) = Some t), strip_in_quotes, K. reflexivity.
Qed.
Lemma type_back : forall t, back t.
Proof.
  apply (btype_induction back); unfold back; fold kept.
  - intros t I _ [ | fuel ] Le; [ unfold tobj in Le; rewrite size_object in Le; lia | ]. cbn [In] in I. repeat destruct I as [ <- | I ]; try contradiction; reflexivity.
  - intros t H T [ | fuel ] Le; unfold tobj in Le; rewrite size_object in Le; cbn [BundleJsonModel.type_json sizes fold_right fst snd] in Le; [ lia | ]. inversion T; subst.
    change (to_type (S fuel) (embed (tobj (TyDynArray t)))) with (match to_type fuel (embed (tobj t)) with Some x => Some (TyDynArray x) | None => None end).
    rewrite H; auto. unfold tobj. lia.
  - intros l H T [ | fuel ] Le; unfold tobj in Le; rewrite size_object in Le; cbn [BundleJsonModel.type_json sizes fold_right fst snd] in Le; [ lia | ]. inversion T; subst.
    change (to_type (S fuel) (embed (tobj (TyStaticArray l)))) with (match mapm (to_type fuel) (map embed (map tobj l)) with Some x => Some (TyStaticArray x) | None => None end).
    rewrite back_list; auto. change (map (fun t => JObject (type_json t)) l) with (map tobj l) in Le. lia.
  - intros k v H H' T [ | fuel ] Le; unfold tobj in Le; rewrite size_object in Le; cbn [BundleJsonModel.type_json sizes fold_right fst snd] in Le; [ lia | ]. inversion T; subst. rewrite size_object in Le. cbn [sizes fold_right fst snd] in Le.
    change (to_type (S fuel) (embed (tobj (TyDynObject k v)))) with
      (match to_type fuel (embed (tobj k)) with Some x => match to_type fuel (embed (tobj v)) with Some y => Some (TyDynObject x y) | None => None end | None => None end).
    rewrite H, H'; auto; unfold tobj; lia.
  - intros l H T [ | fuel ] Le; unfold tobj in Le; rewrite size_object in Le; cbn [BundleJsonModel.type_json sizes fold_right fst snd] in Le; [ lia | ]. inversion T; subst.
    change (to_type (S fuel) (embed (tobj (TyStaticObject l)))) with (match mapm (item_read fuel) (map embed (map item_json l)) with Some x => Some (TyStaticObject x) | None => None end).
    rewrite back_items; auto. unfold items. lia.
  - intros k v l H H' H'' T [ | fuel ] Le; unfold tobj in Le; rewrite size_object in Le; cbn [BundleJsonModel.type_json sizes fold_right fst snd] in Le; [ lia | ]. inversion T; subst. rewrite size_object in Le. cbn [sizes fold_right fst snd] in Le.
    change (to_type (S fuel) (embed (tobj (TyHybrid k v l)))) with
      (match mapm (item_read fuel) (map embed (map item_json l)) with
       | Some z => match to_type fuel (embed (tobj k)) with Some x => match to_type fuel (embed (tobj v)) with Some y => Some (TyHybrid x y z) | None => None end | None => None end | None => None end).
    rewrite back_items, H, H'; auto; unfold tobj, items; lia.
  - intros t H T [ | fuel ] Le; unfold tobj in Le; rewrite size_object in Le; cbn [BundleJsonModel.type_json sizes fold_right fst snd] in Le; [ lia | ]. inversion T; subst.
    change (to_type (S fuel) (embed (tobj (TySet t)))) with (match to_type fuel (embed (tobj t)) with Some x => Some (TySet x) | None => None end).
    rewrite H; auto. unfold tobj. lia.
  - intros l H T [ | fuel ] Le; unfold tobj in Le; rewrite size_object in Le; cbn [BundleJsonModel.type_json sizes fold_right fst snd] in Le; [ lia | ]. inversion T; subst.
    change (to_type (S fuel) (embed (tobj (TySeq l)))) with (match mapm (to_type fuel) (map embed (map tobj l)) with Some x => Some (TySeq x) | None => None end).
    rewrite back_list; auto. change (map (fun t => JObject (type_json t)) l) with (map tobj l) in Le. lia.
Qed.

Lemma optional_text k s : kept s -> optional J k s = match s with [] => [] | _ => [(k, JString (in_quotes s))] end.
Proof.
  intros K. unfold optional. rewrite quoted_text, K. unfold in_quotes. destruct s as [ | c s ]; [ reflexivity | ]. cbn [length app]. rewrite app_length. cbn [length].
  destruct (Z.ltb_spec 2 (Z.of_nat (S (S (length s + 1))))); [ reflexivity | lia ].
Qed.
Lemma arg_tame a x : tame a (arg_json J x).
Proof.
  unfold arg_json. apply type_tame. assert (Q : forall k s, In k [$"name"; $"description"] -> Forall quiet (optional J k s)).
  { intros k s I. unfold optional. rewrite quoted_text. destruct (2 <? _); [ | apply Forall_nil ]. apply Forall_cons; [ | apply Forall_nil ]. split; [ cbn [snd]; constructor | ]. apply args_part. cbn [In] in *. tauto. }
  apply Forall_app. split; apply Q; cbn; tauto.
Qed.
Lemma type_keys t k : ~ In k [$"type"; $"dynamic"; $"static"; $"of"] -> first_member k (embeds (type_json t)) = None.
Proof.
  intros N. assert (F : Forall (fun kv => In (fst kv) [$"type"; $"dynamic"; $"static"; $"of"]) (type_json t)) by (destruct t; repeat (apply Forall_cons; [ cbn [fst]; cbn; tauto | ]); apply Forall_nil).
  induction F as [ | [k' v] l I _ IH ]; [ reflexivity | ]. cbn [embeds map first_member fst snd] in *. destruct (str_eqb k k') eqn:K; [ | exact IH ]. apply str_eqb_eq in K as ->. contradiction.
Qed.
Lemma arg_text_back t e1 e2 k s : In k [$"name"; $"description"] -> kept s ->
  (forall k', In k' [k; capital k] -> first_member k' (embeds e1) = None /\ first_member k' (embeds e2) = None) ->
  text_or_empty (BObject (embeds (type_json t ++ e1 ++ optional J k s ++ e2))) k = s.
Proof.
  intros I K E. unfold text_or_empty, get_string. cbn [lookdown]. unfold member_of.
  assert (N : forall k', In k' [k; capital k] -> first_member k' (embeds (type_json t)) = None).
  { intros k' I'. apply type_keys. intros I2. assert (B : existsb (str_eqb k') [$"type"; $"dynamic"; $"static"; $"of"] = true) by (apply existsb_exists; exists k'; split; [ exact I2 | apply str_eqb_refl ]).
    cbn [In] in I, I'. repeat destruct I as [ <- | I ]; try contradiction; repeat destruct I' as [ <- | I' ]; try contradiction; vm_compute in B; discriminate. }
  rewrite !first_app, !N by (cbn; tauto). destruct (E k) as [E1 E2]; [ cbn; tauto | ]. destruct (E (capital k)) as [E3 E4]; [ cbn; tauto | ]. rewrite E1, E2, E3, E4.
  rewrite (optional_text k s K). destruct s as [ | c s ]; [ reflexivity | ]. cbn [embeds map first_member fst snd embed]. rewrite str_eqb_refl. apply strip_in_quotes.
Qed.
Lemma arg_back x : arg_texts kept x -> to_arg (embed (arg_json J x)) = Some x.
Proof.
  destruct x as [name desc t]. intros (K1 & K2 & T). cbn [a_name a_desc a_type] in *. unfold to_arg.
  assert (X : extra_ok (optional J $"name" name ++ optional J $"description" desc)).
  { rewrite !optional_text by assumption. apply Forall_app. split; [ destruct name | destruct desc ]; try apply Forall_nil; (apply Forall_cons; [ cbn [fst]; auto | apply Forall_nil ]). }
  unfold arg_json. cbn [a_name a_desc a_type]. set (l := type_json t ++ _) in *. change (embed (JObject l)) with (BObject (embeds l)). subst l.
  rewrite (to_type_extra _ (type_json t) _ X). change (BObject (embeds (type_json t))) with (embed (tobj t)). rewrite (type_back t T).
  2: { change (BObject (embeds (type_json t ++ optional J $"name" name ++ optional J $"description" desc))) with (embed (JObject (type_json t ++ optional J $"name" name ++ optional J $"description" desc))).
       unfold tobj. rewrite !size_object, sizes_app. lia. }
  f_equal. f_equal.
  - apply (arg_text_back t [] (optional J $"description" desc) $"name" name); [ cbn; tauto | exact K1 | ]. intros k' I. split; [ reflexivity | ]. rewrite (optional_text _ desc K2).
    destruct desc; [ reflexivity | ]. cbn [In] in I. repeat destruct I as [ <- | I ]; try contradiction; reflexivity.
  - rewrite <- (app_nil_r (optional J $"description" desc)). apply (arg_text_back t (optional J $"name" name) [] $"description" desc); [ cbn; tauto | exact K2 | ]. intros k' I. split; [ | reflexivity ]. rewrite (optional_text _ name K1).
    destruct name; [ reflexivity | ]. cbn [In] in I. repeat destruct I as [ <- | I ]; try contradiction; reflexivity.
Qed.
Lemma decl_tame a d : tame a (decl_json J d).
Proof.
  unfold decl_json. apply tame_other; [ destruct (d_args d), (d_result d); try split; try discriminate; exact I | ]. apply Forall_app. split.
  - destruct (d_args d) as [ l | ]; [ | apply Forall_nil ]. apply Forall_cons; [ | apply Forall_nil ]. split; [ | apply args_part; cbn; tauto ]. cbn [snd]. constructor. apply Forall_map, Forall_forall. intros x _. apply arg_tame.
  - destruct (d_result d) as [ r | ]; [ | apply Forall_nil ]. apply Forall_cons; [ | apply Forall_nil ]. split; [ | apply args_part; cbn; tauto ]. apply arg_tame.
Qed.
Lemma decl_back d : (forall l, d_args d = Some l -> Forall (arg_texts kept) l) -> (forall r, d_result d = Some r -> arg_texts kept r) -> to_decl (embed (decl_json J d)) = Some d.
Proof.
  intros A R. destruct d as [args result]. cbn [d_args d_result] in *. unfold to_decl, decl_json. cbn [d_args d_result].
  assert (M : forall l, args = Some l -> mapm to_arg (map embed (map (arg_json J) l)) = Some l).
  { intros l ->. rewrite map_map, (mapm_map to_arg (fun x => embed (arg_json J x)) (fun x => x) l), map_id; [ reflexivity | ]. eapply Forall_impl; [ | exact (A l eq_refl) ]. apply arg_back. }
  assert (G : forall r l, get_object (BObject (embeds (($"result", arg_json J r) :: l))) $"result" = Some (embed (arg_json J r))) by reflexivity.
  destruct args as [ l | ], result as [ r | ]; cbn [app].
  - change (match match mapm to_arg (map embed (map (arg_json J) l)) with Some a => Some (Some a) | None => None end with
            | Some a => match match to_arg (embed (arg_json J r)) with Some b => Some (Some b) | None => None end with Some b => Some (Decl a b) | None => None end | None => None end = Some (Decl (Some l) (Some r))).
    now rewrite (M l eq_refl), (arg_back r (R r eq_refl)).
  - change (match match mapm to_arg (map embed (map (arg_json J) l)) with Some a => Some (Some a) | None => None end with Some a => Some (Decl a None) | None => None end = Some (Decl (Some l) None)).
    now rewrite (M l eq_refl).
  - change (match match to_arg (embed (arg_json J r)) with Some b => Some (Some b) | None => None end with Some b => Some (Decl None b) | None => None end = Some (Decl None (Some r))).
    now rewrite (arg_back r (R r eq_refl)).
  - reflexivity.
Qed.

(** ** The parts of the policy *)
Lemma bfun_tame a f : tame a (bfun_json J f).
Proof.
  unfold bfun_json. apply tame_other; [ split; discriminate | ]. repeat (apply Forall_cons; [ quiet | ]); try apply Forall_nil; cbn [snd]; [ rewrite quoted_text; constructor | apply decl_tame | constructor ].
Qed.
Lemma bfun_back f : fun_texts kept f -> (fun c => match get_string c $"name" with Some q => match get_object c $"decl" with Some d => match to_decl d with Some d => Some (BFun (to_irstring J q) d) | None => None end | None => None end | None => None end) (embed (bfun_json J f)) = Some f.
Proof.
  intros (A & R). cbv beta. unfold bfun_json. rewrite quoted_text.
  set (n := embed (JObject _)). assert (E1 : get_string n $"name" = Some (in_quotes (j_escape J (f_name f)))) by reflexivity.
  assert (E2 : get_object n $"decl" = Some (embed (decl_json J (f_decl f)))) by reflexivity. rewrite E1, E2, (decl_back _ A R), irstring_back. now destruct f.
Qed.
Definition file_json (f : str) : jtree := JObject [($"value", JString (add_quotes (p_filename P f)))].
Lemma harmless_kept s : harmless_text s -> kept s.
Proof. intros H. apply JOK. exact H. Qed.
Lemma harmless_quotes s : harmless_text s -> add_quotes s = in_quotes s.
Proof. intros H. unfold add_quotes. destruct JOK as (_ & T & _). specialize (T s). rewrite (harmless_kept s H) in T. now rewrite (json_text_plain _ T). Qed.
Lemma conv_tame_list l : Forall (tame true) l -> conv InMember (JArray l) = BArray (map embed l).
Proof. intros F. apply (conv_tame (JArray l) false). now constructor. Qed.
Lemma value_tame a q : tame a (JObject [($"value", JString q)]).
Proof. apply tame_other; [ split; discriminate | ]. apply Forall_cons; [ quiet; constructor | apply Forall_nil ]. Qed.
Lemma conv_static s files' : Forall (fun_texts kept) (s_funcs s) -> Forall (fun f => harmless_text (p_filename P f)) (s_files s) -> moved P (s_files s) files' ->
  conv InMember (static_json J P s) = BObject [BStrings (Some (s_strings s)); BFuncs (Some (s_funcs s)); BPaths files'].
Proof.
  intros F H M. unfold static_json. rewrite conv_object, !members_cons. cbn [map].
  unfold strings_json. rewrite (conv_tame_list (map (fun x => JObject [($"value", quoted J x)]) (s_strings s))) by (apply Forall_map, Forall_forall; intros x _; rewrite quoted_text; apply value_tame).
  rewrite (conv_tame_list (map (bfun_json J) (s_funcs s))) by (apply Forall_map, Forall_forall; intros x _; apply bfun_tame).
  rewrite (conv_tame_list (map (fun f => JObject [($"value", JString (add_quotes (p_filename P f)))]) (s_files s))) by (apply Forall_map, Forall_forall; intros x _; apply value_tame).
  assert (E1 : member_rules J P $"strings" (BArray (map embed (map (fun x => JObject [($"value", quoted J x)]) (s_strings s)))) = BStrings (Some (s_strings s))).
  { change (BStrings (to_strings J (map embed (map (fun x => JObject [($"value", quoted J x)]) (s_strings s)))) = BStrings (Some (s_strings s))). f_equal. unfold to_strings. rewrite map_map.
    rewrite (mapm_map _ (fun x => embed (JObject [($"value", quoted J x)])) (fun x => x)), map_id; [ reflexivity | ]. apply Forall_forall. intros x _. rewrite quoted_text.
    change (Some (to_irstring J (in_quotes (j_escape J x))) = Some x). now rewrite irstring_back. }
  assert (E2 : member_rules J P $"builtin_funcs" (BArray (map embed (map (bfun_json J) (s_funcs s)))) = BFuncs (Some (s_funcs s))).
  { change (BFuncs (to_bfuns J (map embed (map (bfun_json J) (s_funcs s)))) = BFuncs (Some (s_funcs s))). f_equal. unfold to_bfuns. rewrite map_map.
    rewrite (mapm_map _ (fun x => embed (bfun_json J x)) (fun x => x)), map_id; [ reflexivity | ]. eapply Forall_impl; [ | exact F ]. intros f. apply bfun_back. }
  assert (E3 : member_rules J P $"files" (BArray (map embed (map (fun f => JObject [($"value", JString (add_quotes (p_filename P f)))]) (s_files s)))) = BPaths files').
  { change (match to_paths J P (map embed (map (fun f => JObject [($"value", JString (add_quotes (p_filename P f)))]) (s_files s))) with Some ps => BPaths ps | None => BError end = BPaths files').
    assert (T : to_paths J P (map embed (map (fun f => JObject [($"value", JString (add_quotes (p_filename P f)))]) (s_files s))) = Some files'); [ | now rewrite T ].
    unfold to_paths. apply mapm_some. rewrite map_map. clear E1 E2. revert H. induction M as [ | f f' l l' R _ IH ]; intros H; cbn [map]; constructor; inversion H; subst; auto.
    change (p_resolve P (to_irstring J (add_quotes (p_filename P f))) = Some f'). rewrite harmless_quotes by assumption.
    rewrite <- (harmless_kept (p_filename P f)) at 1 by assumption. now rewrite irstring_back. }
  rewrite E1, E2, E3. reflexivity.
Qed.
Lemma calm_static s : crashes J P (static_json J P s) = false.
Proof.
  apply calm_object. repeat (apply Forall_cons; [ split; [ | discriminate ] | ]); try apply Forall_nil; cbn [snd].
  - cbn [strings_json crashes]. apply existsb_false, Forall_map, Forall_forall. intros x _. rewrite quoted_text. reflexivity.
  - cbn [crashes]. apply existsb_false, Forall_map, Forall_forall. intros x _. apply (tame_calm _ true), bfun_tame.
  - cbn [crashes]. apply existsb_false, Forall_map, Forall_forall. reflexivity.
Qed.

Definition plan_node (p : pl str str) : bj := BObject [BMember $"name" (BString (in_quotes (j_escape J (l_name p)))); BMember $"blocks" (BBlocks (l_blocks p))].
Lemma all_reads bs : Forall (Forall reads) bs.
Proof. apply Forall_forall. intros b _. apply Forall_forall. intros s _. apply ir_reads. Qed.
Lemma all_calm bs : Forall (Forall calm) bs.
Proof. apply Forall_forall. intros b _. apply Forall_forall. intros s _. apply ir_calm. Qed.
Lemma conv_plan pos p : conv InArray (plan_json J loc pos p) = plan_node p.
Proof.
  unfold plan_json. rewrite conv_object, !members_cons, quoted_text, (conv_blocks _ (all_reads (l_blocks p))), blocks_back. reflexivity.
Qed.
Lemma conv_plans ps : member_rules J P $"plans" (conv InMember (JObject [($"plans", JArray (mapi (fun i p => plan_json J loc [i; 0%nat] p) 0 ps))])) = BPlans (Some ps).
Proof.
  rewrite conv_object, members_cons. cbn [BundleJsonModel.conv map]. rewrite (mapi_back (fun i p => plan_json J loc [i; 0%nat] p) (conv InArray) plan_node) by (apply Forall_forall; intros p _ i; apply conv_plan).
  change (BPlans (mapm (fun c => match get_string c $"name" with Some q => match get_blocks c $"blocks" with Some b => Some (Pl str str (to_irstring J q) b) | None => None end | None => None end) (map plan_node ps)) = BPlans (Some ps)).
  f_equal. rewrite (mapm_map _ plan_node (fun p => p)), map_id; [ reflexivity | ]. apply Forall_forall. intros p _.
  change (Some (Pl str str (to_irstring J (in_quotes (j_escape J (l_name p)))) (l_blocks p)) = Some p). rewrite irstring_back. now destruct p.
Qed.
Definition func_node (f : func) : bj :=
  BObject [BMember $"name" (BString (in_quotes (j_escape J (u_name f)))); BMember $"path" (BArray (map (fun x => BString (in_quotes (j_escape J x))) (u_path f)));
           BMember $"params" (BArray (map BNumber (u_params f))); BMember $"return" (BNumber (u_result f)); BMember $"blocks" (BBlocks (u_blocks f))].
Lemma conv_func pos f : conv InArray (func_json J loc pos f) = func_node f.
Proof.
  unfold func_json. rewrite conv_object, !members_cons, quoted_text, (conv_blocks _ (all_reads (u_blocks f))), blocks_back, conv_numbers.
  assert (E : conv InMember (JArray (map (quoted J) (u_path f))) = BArray (map (fun x => BString (in_quotes (j_escape J x))) (u_path f))).
  { cbn [BundleJsonModel.conv]. rewrite map_map. f_equal. apply map_ext. intros x. now rewrite quoted_text. }
  rewrite E. reflexivity.
Qed.
Lemma conv_funcs fs : (forall f, In f fs -> u_path f <> []) ->
  member_rules J P $"funcs" (conv InMember (JObject [($"funcs", JArray (mapi (fun i f => func_json J loc [i; 1%nat] f) 0 fs))])) = BFunctions (Some fs).
Proof.
  intros N. rewrite conv_object, members_cons. cbn [BundleJsonModel.conv map]. rewrite (mapi_back (fun i p => func_json J loc [i; 1%nat] p) (conv InArray) func_node) by (apply Forall_forall; intros p _ i; apply conv_func).
  set (r := fun c => match get_string c $"name" with None => None | Some q => match get_array c $"path" with None => None | Some ps =>
      match mapm (fun x => match leaf_text x with Some t => Some (to_irstring J t) | None => None end) ps with None => None | Some path =>
      match get_array c $"params" with None => None | Some xs => match mapm leaf_text xs with None => None | Some params =>
      match get_number c $"return" with None => None | Some rr => match get_blocks c $"blocks" with None => None | Some b =>
      match path with [] => None | _ => Some (Func (to_irstring J q) path params rr b) end end end end end end end end).
  change (BFunctions (mapm r (map func_node fs)) = BFunctions (Some fs)). f_equal. rewrite (mapm_map r func_node (fun f => f)), map_id; [ reflexivity | ].
  apply Forall_forall. intros f I. specialize (N f I).
  change (match mapm (fun x => match leaf_text x with Some t => Some (to_irstring J t) | None => None end) (map (fun x => BString (in_quotes (j_escape J x))) (u_path f)) with None => None | Some path =>
          match mapm leaf_text (map BNumber (u_params f)) with None => None | Some params =>
          match path with [] => None | _ => Some (Func (to_irstring J (in_quotes (j_escape J (u_name f)))) path params (u_result f) (u_blocks f)) end end end = Some f).
  rewrite (mapm_map _ (fun x => BString (in_quotes (j_escape J x))) (fun x => x)), map_id by (apply Forall_forall; intros x _; cbn [leaf_text]; now rewrite irstring_back).
  rewrite (mapm_map _ BNumber (fun x => x)), map_id by (apply Forall_forall; reflexivity). rewrite irstring_back. destruct f as [n [ | x path] ps rr b]; [ now elim N | reflexivity ].
Qed.

Definition policy_node (b : jbundle) (files' : list str) : list bm :=
  [BStatic (Some (Static (s_strings (j_static b)) files' (s_funcs (j_static b)))); BPlans (Some (j_plans b)); BFunctions (Some (j_functions b))] ++
  match j_query b with Some q => [BMember $"query" (BString (in_quotes (j_escape J q)))] | None => [] end.
Lemma conv_policy b files' : Forall (fun_texts kept) (s_funcs (j_static b)) -> Forall (fun f => harmless_text (p_filename P f)) (s_files (j_static b)) -> moved P (s_files (j_static b)) files' ->
  (forall f, In f (j_functions b) -> u_path f <> []) -> conv InMember (policy_json J P loc b) = BObject (policy_node b files').
Proof.
  intros F H M N. unfold policy_json. rewrite conv_object. cbn [app]. rewrite !members_cons, (conv_static _ _ F H M), conv_plans, (conv_funcs _ N). unfold policy_node.
  destruct (j_query b) as [ q | ]; [ rewrite quoted_text | ]; reflexivity.
Qed.
Lemma crashes_object ms : crashes J P (JObject ms) = existsb (fun kv => crashes J P (snd kv) || null_static J P (fst kv) (snd kv)) ms.
Proof. reflexivity. Qed.
Lemma calm_policy b files' : Forall (fun_texts kept) (s_funcs (j_static b)) -> Forall (fun f => harmless_text (p_filename P f)) (s_files (j_static b)) -> moved P (s_files (j_static b)) files' ->
  crashes J P (policy_json J P loc b) = false.
Proof.
  intros F H M. unfold policy_json. rewrite crashes_object. cbn [app existsb fst snd]. rewrite calm_static. unfold null_static at 1. rewrite (conv_static _ _ F H M). cbn [last_kind].
  assert (E : forall k v, k <> $"static" -> null_static J P k v = false). { intros k v Nk. unfold null_static. apply str_eqb_neq in Nk. now rewrite Nk. }
  rewrite (E $"plans"), (E $"funcs") by discriminate.
  assert (Q : existsb (fun kv => crashes J P (snd kv) || null_static J P (fst kv) (snd kv)) match j_query b with Some q => [($"query", quoted J q)] | None => [] end = false).
  { destruct (j_query b); [ rewrite quoted_text | ]; reflexivity. }
  rewrite Q. assert (A : forall k l, k <> $"static" -> Forall (fun t => crashes J P t = false) l -> crashes J P (JObject [(k, JArray l)]) = false).
  { intros k l Nk Fl. apply calm_object. apply Forall_cons; [ | apply Forall_nil ]. split; [ | exact Nk ]. cbn [snd crashes]. now apply existsb_false. }
  rewrite (A $"plans"), (A $"funcs"); try discriminate; [ reflexivity | | ].
  - apply mapi_forall, Forall_forall. intros f _ i. apply calm_object. repeat (apply Forall_cons; [ split; [ | discriminate ] | ]); try apply Forall_nil; cbn [snd].
    + now rewrite quoted_text.
    + cbn [crashes]. apply existsb_false, Forall_map, Forall_forall. intros x _. now rewrite quoted_text.
    + apply calm_numbers.
    + reflexivity.
    + apply calm_blocks, all_calm.
  - apply mapi_forall, Forall_forall. intros p _ i. apply calm_object. repeat (apply Forall_cons; [ split; [ | discriminate ] | ]); try apply Forall_nil; cbn [snd].
    + now rewrite quoted_text.
    + apply calm_blocks, all_calm.
Qed.
Lemma policy_bundle b files' data : j_plans b <> [] -> to_bundle J data (policy_node b files') =
  match plain data with Some t => match json_to_rego t with Some d => Some (JBundle d (Static (s_strings (j_static b)) files' (s_funcs (j_static b))) (j_plans b) (j_query b) (j_functions b)) | None => None end | None => None end.
Proof.
  intros N. unfold to_bundle, policy_node. destruct (j_query b) as [ q | ].
  - change (match plain data with Some t => match json_to_rego t with Some d => match j_plans b with [] => None | _ => Some (JBundle d (Static (s_strings (j_static b)) files' (s_funcs (j_static b))) (j_plans b) (Some (to_irstring J (in_quotes (j_escape J q)))) (j_functions b)) end | None => None end | None => None end =
      match plain data with Some t => match json_to_rego t with Some d => Some (JBundle d (Static (s_strings (j_static b)) files' (s_funcs (j_static b))) (j_plans b) (Some q) (j_functions b)) | None => None end | None => None end).
    rewrite irstring_back. destruct (j_plans b); [ now elim N | reflexivity ].
  - change (match plain data with Some t => match json_to_rego t with Some d => match j_plans b with [] => None | _ => Some (JBundle d (Static (s_strings (j_static b)) files' (s_funcs (j_static b))) (j_plans b) None (j_functions b)) end | None => None end | None => None end =
      match plain data with Some t => match json_to_rego t with Some d => Some (JBundle d (Static (s_strings (j_static b)) files' (s_funcs (j_static b))) (j_plans b) None (j_functions b)) | None => None end | None => None end).
    destruct (j_plans b); [ now elim N | reflexivity ].
Qed.
End Conv.
