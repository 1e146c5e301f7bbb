(** Proofs about reading answers. *)
From Coq Require Import String ZArith NArith List Bool Lia.
From Verif Require Import Base BigIntSpec ValueModel VmModel CApiModel OutputModel OutputSpec.
Import ListNotations.
Local Open Scope Z_scope.

Scheme shows_mut := Induction for shows Sort Prop
with shows_list_mut := Induction for shows_list Sort Prop
with shows_items_mut := Induction for shows_items Sort Prop.
Combined Scheme shows_comb from shows_mut, shows_list_mut, shows_items_mut.
Scheme reads_mut := Induction for reads Sort Prop
with reads_list_mut := Induction for reads_list Sort Prop
with reads_items_mut := Induction for reads_items Sort Prop.
Combined Scheme reads_comb from reads_mut, reads_list_mut, reads_items_mut.

Lemma forall2_length {A B} (R : A -> B -> Prop) l l' : Forall2 R l l' -> length l = length l'.
Proof. induction 1; cbn; congruence. Qed.
Definition all_readable (l : list value) : Prop := Forall readable l.
Definition items_readable (l : list (value * value)) : Prop := Forall (fun x => readable (fst x) /\ readable (snd x)) l.
Lemma readable_list l : (fix all l := match l with [] => True | x :: l' => readable x /\ all l' end) l -> all_readable l.
Proof. unfold all_readable. induction l as [|x l IH]; [constructor|]. intros [H1 H2]. constructor; auto. Qed.
Lemma readable_items l : (fix all l := match l with [] => True | x :: l' => (readable (fst x) /\ readable (snd x)) /\ all l' end) l -> items_readable l.
Proof. unfold items_readable. induction l as [|x l IH]; [constructor|]. intros [H1 H2]. constructor; auto. Qed.
Lemma last_app_one {A} (l : list A) x d : last (l ++ [x]) d = x.
Proof. induction l as [|a l IH]; [reflexivity|]. cbn [app]. destruct (l ++ [x]) eqn:E; [destruct l; discriminate|exact IH]. Qed.
Lemma bare_quote t : bare (quote t) = t.
Proof.
  unfold bare, quote. assert (Q : is_quoted ([34] ++ t ++ [34]) = true).
  { cbn [app]. unfold is_quoted. destruct (t ++ [34]) as [|c r] eqn:E; [destruct t; discriminate|]. rewrite <- E, last_app_one. reflexivity. }
  rewrite Q. cbn [app tl]. apply removelast_last.
Qed.
Lemma bare_plain t : is_quoted t = false -> bare t = t.
Proof. unfold bare. now intros ->. Qed.

(** The node inside a Term. *)
Definition inside (n d : node) : Prop := exists c, n = Node KTerm [] [c] /\ is KTerm n = true /\ into KScalar c = Ok d.
Lemma inside_get h i n d : nth_error (n_kids h) i = Some n -> inside n d -> node_get h (Z.of_nat i) = Ok (Some d).
Proof.
  intros H (c & -> & _ & S). unfold node_get. rewrite Nat2Z.id, H. change (into KTerm (Node KTerm [] [c])) with (@Ok node c). cbn [obind]. rewrite S. reflexivity.
Qed.
Lemma inside_children h ds : Z.of_nat (length (n_kids h)) < 2 ^ 32 -> Forall2 inside (n_kids h) ds -> children h ds.
Proof.
  intros L F. pose proof (forall2_length _ _ _ F) as E. split.
  - unfold node_size, to_size, zlen. rewrite Z.mod_small by lia. now rewrite E.
  - intros i d H. assert (G : exists n, nth_error (n_kids h) i = Some n /\ inside n d).
    { clear L E. revert i H. induction F as [|n d' ns ds I F IH]; intros i H; [destruct i; discriminate|]. destruct i as [|i]; [injection H as <-; now exists n|exact (IH i H)]. }
    destruct G as (n & G & I). now apply (inside_get h i n d).
Qed.
Lemma get_plain h i n : nth_error (n_kids h) i = Some n -> is KTerm n = false -> is KScalar n = false -> node_get h (Z.of_nat i) = Ok (Some n).
Proof. intros H T S. unfold node_get, into. rewrite Nat2Z.id, H, T. cbn [obind]. now rewrite S. Qed.

Lemma shows_reads :
  (forall v n, shows v n -> readable v -> exists c d, n = Node KTerm [] [c] /\ inside n d /\ reads d v /\ reads c v) /\
  (forall l ns, shows_list l ns -> all_readable l -> exists ds, Forall2 inside ns ds /\ reads_list ds l) /\
  (forall l ns, shows_items l ns -> items_readable l -> Forall (fun n => is KTerm n = false /\ is KScalar n = false) ns /\ reads_items ns l).
Proof.
  assert (SC : forall v d, n_kids d = [] \/ True -> is KTerm d = false -> is KScalar d = false -> reads d v -> exists c d', Node KTerm [] [Node KScalar [] [d]] = Node KTerm [] [c] /\ inside (Node KTerm [] [Node KScalar [] [d]]) d' /\ reads d' v /\ reads c v).
  { intros v d _ T S R. exists (Node KScalar [] [d]), d. split; [reflexivity|]. split; [exists (Node KScalar [] [d]); repeat split|]. split; [exact R|].
    apply (reads_inside _ d); [now right| |exact R]. split; [reflexivity|]. intros [|[|i]] c H; try discriminate. injection H as <-. apply (get_plain _ 0); auto. }
  assert (CO : forall v d, is KScalar d = false -> reads d v -> exists c d', Node KTerm [] [d] = Node KTerm [] [c] /\ inside (Node KTerm [] [d]) d' /\ reads d' v /\ reads c v).
  { intros v d S R. exists d, d. split; [reflexivity|]. split; [exists d; repeat split; unfold into; now rewrite S|]. now split. }
  apply shows_comb.
  - intros t _. apply SC; auto. now apply reads_null.
  - intros t _. apply SC; auto. now apply reads_true.
  - intros t _. apply SC; auto. now apply reads_false.
  - intros t _. apply SC; auto. now apply (reads_int (Node KInt t [])).
  - intros t _. apply SC; auto. now apply (reads_float (Node KFloat t [])).
  - intros t H. apply SC; auto. rewrite <- (bare_plain t H) at 2. now apply (reads_string (Node KString t [])).
  - intros t H. apply SC; auto. rewrite <- (bare_quote t) at 2. now apply (reads_string (Node KString (quote t) [])).
  - intros l ns S IH [L H]. destruct (IH (readable_list _ H)) as (ds & F & R). apply CO; [reflexivity|]. apply (reads_array _ ds); [reflexivity| |exact R].
    apply inside_children; [|exact F]. cbn [n_kids]. enough (length ns = length l) by lia. clear -S. induction S; cbn; congruence.
  - intros l ns S IH [L H]. destruct (IH (readable_list _ H)) as (ds & F & R). apply CO; [reflexivity|]. apply (reads_set _ ds); [reflexivity| |exact R].
    apply inside_children; [|exact F]. cbn [n_kids]. enough (length ns = length l) by lia. clear -S. induction S; cbn; congruence.
  - intros l ns S IH [L H]. destruct (IH (readable_items _ H)) as (F & R). apply CO; [reflexivity|]. apply (reads_object _ ns); [reflexivity| |exact R].
    split.
    + unfold node_size, to_size, zlen. cbn [n_kids]. apply Z.mod_small. enough (length ns = length l) by lia. clear -S. induction S; cbn; congruence.
    + intros i c G. rewrite Forall_forall in F. destruct (F c (nth_error_In _ _ G)). now apply get_plain.
  - intros c m a [].
  - intros _. exists []. split; constructor.
  - intros v l n ns S IH SL IHl H. inversion H as [|? ? H1 H2]; subst. destruct (IH H1) as (c & d & _ & I & R & _). destruct (IHl H2) as (ds & F & RL). exists (d :: ds). split; constructor; assumption.
  - intros _. split; constructor.
  - intros k v l a b ns S1 IH1 S2 IH2 SL IHl H. inversion H as [|? ? [H1 H2] H3]; subst. destruct (IH1 H1) as (c1 & d1 & _ & I1 & R1 & _). destruct (IH2 H2) as (c2 & d2 & _ & I2 & R2 & _).
    destruct (IHl H3) as (F & RL). split; [constructor; [split; reflexivity|exact F]|]. apply (reads_item _ d1 d2); auto.
    apply inside_children; [reflexivity|]. repeat constructor; assumption.
Qed.

Lemma children_unique h cs cs' : children h cs -> children h cs' -> cs = cs'.
Proof.
  intros [L1 G1] [L2 G2]. assert (E : length cs = length cs') by lia. apply (nth_ext cs cs' (Node KNull [] []) (Node KNull [] []) E). intros n Hn.
  pose proof (nth_error_nth' cs (Node KNull [] []) Hn) as A. pose proof (nth_error_nth' cs' (Node KNull [] []) (eq_ind _ (fun k => (n < k)%nat) Hn _ E)) as B.
  apply G1 in A. apply G2 in B. congruence.
Qed.
Lemma reads_unique :
  (forall h v, reads h v -> forall v', reads h v' -> v = v') /\
  (forall cs l, reads_list cs l -> forall l', reads_list cs l' -> l = l') /\
  (forall cs l, reads_items cs l -> forall l', reads_items cs l' -> l = l').
Proof.
  assert (TY : forall h a b, node_type h = a -> node_type h = b -> a = b) by congruence.
  apply reads_comb.
  - intros h c v T C R IH v' R'. inversion R' as [h' c' v'' T' C' R''|? T'|? T'|? T'|? T'|? T'|? T'|? ? ? T' C' R''|? ? ? T' C' R''|? ? ? T' C' R'']; subst;
      try (exfalso; destruct T as [T|T]; pose proof (TY _ _ _ T T') as D; discriminate D).
    pose proof (children_unique _ _ _ C C') as E. injection E as <-. now apply IH.
  - intros h T v' R'. inversion R' as [h' c' v'' T' C' R''|? T'|? T'|? T'|? T'|? T'|? T'|? ? ? T' C' R''|? ? ? T' C' R''|? ? ? T' C' R'']; subst; try reflexivity;
      exfalso; try destruct T' as [T'|T']; pose proof (TY _ _ _ T T') as D; discriminate D.
  - intros h T v' R'. inversion R' as [h' c' v'' T' C' R''|? T'|? T'|? T'|? T'|? T'|? T'|? ? ? T' C' R''|? ? ? T' C' R''|? ? ? T' C' R'']; subst; try reflexivity;
      exfalso; try destruct T' as [T'|T']; pose proof (TY _ _ _ T T') as D; discriminate D.
  - intros h T v' R'. inversion R' as [h' c' v'' T' C' R''|? T'|? T'|? T'|? T'|? T'|? T'|? ? ? T' C' R''|? ? ? T' C' R''|? ? ? T' C' R'']; subst; try reflexivity;
      exfalso; try destruct T' as [T'|T']; pose proof (TY _ _ _ T T') as D; discriminate D.
  - intros h T v' R'. inversion R' as [h' c' v'' T' C' R''|? T'|? T'|? T'|? T'|? T'|? T'|? ? ? T' C' R''|? ? ? T' C' R''|? ? ? T' C' R'']; subst; try reflexivity;
      exfalso; try destruct T' as [T'|T']; pose proof (TY _ _ _ T T') as D; discriminate D.
  - intros h T v' R'. inversion R' as [h' c' v'' T' C' R''|? T'|? T'|? T'|? T'|? T'|? T'|? ? ? T' C' R''|? ? ? T' C' R''|? ? ? T' C' R'']; subst; try reflexivity;
      exfalso; try destruct T' as [T'|T']; pose proof (TY _ _ _ T T') as D; discriminate D.
  - intros h T v' R'. inversion R' as [h' c' v'' T' C' R''|? T'|? T'|? T'|? T'|? T'|? T'|? ? ? T' C' R''|? ? ? T' C' R''|? ? ? T' C' R'']; subst; try reflexivity;
      exfalso; try destruct T' as [T'|T']; pose proof (TY _ _ _ T T') as D; discriminate D.
  - intros h cs l T C R IH v' R'. inversion R' as [h' c' v'' T' C' R''|? T'|? T'|? T'|? T'|? T'|? T'|? ? ? T' C' R''|? ? ? T' C' R''|? ? ? T' C' R'']; subst;
      try (exfalso; try destruct T' as [T'|T']; pose proof (TY _ _ _ T T') as D; discriminate D).
    rewrite <- (children_unique _ _ _ C C') in R''. f_equal. now apply IH.
  - intros h cs l T C R IH v' R'. inversion R' as [h' c' v'' T' C' R''|? T'|? T'|? T'|? T'|? T'|? T'|? ? ? T' C' R''|? ? ? T' C' R''|? ? ? T' C' R'']; subst;
      try (exfalso; try destruct T' as [T'|T']; pose proof (TY _ _ _ T T') as D; discriminate D).
    rewrite <- (children_unique _ _ _ C C') in R''. f_equal. now apply IH.
  - intros h cs l T C R IH v' R'. inversion R' as [h' c' v'' T' C' R''|? T'|? T'|? T'|? T'|? T'|? T'|? ? ? T' C' R''|? ? ? T' C' R''|? ? ? T' C' R'']; subst;
      try (exfalso; try destruct T' as [T'|T']; pose proof (TY _ _ _ T T') as D; discriminate D).
    rewrite <- (children_unique _ _ _ C C') in R''. f_equal. now apply IH.
  - intros l' R'. now inversion R'.
  - intros c cs v l R IH RL IHl l' R'. inversion R'; subst. f_equal; auto.
  - intros l' R'. now inversion R'.
  - intros c a b cs k v l T C R1 IH1 R2 IH2 RL IHl l' R'. inversion R' as [|? a' b' ? k' v' l2 T' C' Ra Rb RL']; subst.
    pose proof (children_unique _ _ _ C C') as E. injection E as <- <-. rewrite (IH1 _ Ra), (IH2 _ Rb), (IHl _ RL'). reflexivity.
Qed.

(** ** Results *)
Lemma forall2_nth {A B} (R : A -> B -> Prop) l l' : Forall2 R l l' -> forall i, match nth_error l i, nth_error l' i with Some a, Some b => R a b | None, None => True | _, _ => False end.
Proof. induction 1 as [|a b l l' H F IH]; intros [|i]; cbn; auto. exact (IH i). Qed.
Lemma result_node rs n i r : shows_output (QResults rs) n -> nth_error rs i = Some r ->
  exists m, result_at (Some n) (Z.of_nat i) = Ok m /\ shows_result r m.
Proof.
  intros S H. inversion S as [| |rs' ns F|]; subst. pose proof (forall2_nth _ _ _ F i) as G. rewrite H in G. destruct (nth_error ns i) as [m|] eqn:E; [|contradiction].
  exists m. split; [|exact G]. unfold result_at. change (is KErrorSeq (Node KResults [] ns)) with false. cbn iota. cbn [n_kids]. now rewrite Nat2Z.id, E.
Qed.
Lemma result_beyond rs n i : shows_output (QResults rs) n -> (length rs <= i)%nat -> result_at (Some n) (Z.of_nat i) = Throw.
Proof.
  intros S H. inversion S as [| |rs' ns F|]; subst. unfold result_at. change (is KErrorSeq (Node KResults [] ns)) with false. cbn iota. cbn [n_kids]. rewrite Nat2Z.id.
  assert (E : nth_error ns i = None) by (apply nth_error_None; rewrite <- (forall2_length _ _ _ F); exact H). now rewrite E.
Qed.
Lemma expressions_read r m : shows_result r m -> Z.of_nat (length (r_terms r)) < 2 ^ 32 -> Forall readable (r_terms r) ->
  exists h ds, field m KTerms = Ok h /\ node_type h = REGO_NODE_TERMS /\ children h ds /\ reads_list ds (r_terms r).
Proof.
  intros S L H. destruct S as [ts bs ns ms S SB]. cbn [r_terms] in *. destruct (proj1 (proj2 shows_reads) ts ns S H) as (ds & F & R).
  exists (Node KTerms [] ns), ds. split; [reflexivity|]. split; [reflexivity|]. split; [|exact R]. apply inside_children; [|exact F].
  cbn [n_kids]. enough (length ns = length ts) by lia. clear -S. induction S; cbn; congruence.
Qed.
Lemma look_bindings t1 ns ms x : look (Node KResult t1 [Node KTerms [] ns; Node KBindings [] ms]) x = filter (binds_name x) ms.
Proof. unfold look. cbn [n_kids]. change (filter (is KBindings) [Node KTerms [] ns; Node KBindings [] ms]) with [Node KBindings [] ms]. cbn [flat_map n_kids]. apply app_nil_r. Qed.
Lemma binding_read r m x : shows_result r m -> Forall (fun b => readable (snd b)) (r_bindings r) ->
  match bound x (r_bindings r) with
  | Some v => exists w val l h, look m x = Node KBinding [] [w; val] :: l /\ n_kids val = [h] /\ reads h v
  | None => look m x = []
  end.
Proof.
  intros S. destruct S as [ts bs ns ms S SB]. cbn [r_bindings]. rewrite look_bindings. clear S ts ns. intro H.
  induction SB as [|y v l n ns' S SB IH]; [reflexivity|]. inversion H as [|? ? H1 H2]; subst. cbn [snd] in H1. cbn [bound filter].
  change (binds_name x (Node KBinding [] [Node KVar y []; n])) with (str_eqb y x). destruct (str_eqb y x) eqn:E; [|now apply IH].
  destruct (proj1 shows_reads v n S H1) as (c & d & -> & _ & _ & R). exists (Node KVar y []), (Node KTerm [] [c]), (filter (binds_name x) ns'), c. repeat split. exact R.
Qed.
Lemma error_texts_of cs ns : Forall2 error_node cs ns -> exists l, error_texts ns = Ok l /\ map snd l = cs.
Proof.
  induction 1 as [|c n cs ns (m & a & ->) F (l & E & M)]; [exists []; split; reflexivity|]. exists ((m, c) :: l). cbn [error_texts map]. rewrite E. now rewrite M.
Qed.

Lemma plain_children h : Z.of_nat (length (n_kids h)) < 2 ^ 32 -> Forall (fun n => is KTerm n = false /\ is KScalar n = false) (n_kids h) -> children h (n_kids h).
Proof.
  intros L F. split; [unfold node_size, to_size, zlen; apply Z.mod_small; lia|]. intros i c G. rewrite Forall_forall in F. destruct (F c (nth_error_In _ _ G)). now apply get_plain.
Qed.
Lemma bindings_read bs ms : shows_bindings bs ms -> Forall (fun b => readable (snd b)) bs ->
  length ms = length bs /\ Forall (fun n => is KTerm n = false /\ is KScalar n = false) ms /\ reads_bindings ms bs.
Proof.
  induction 1 as [|x v l n ns S SB IH]; intro H; [repeat split; constructor|]. inversion H as [|? ? H1 H2]; subst. cbn [snd] in H1. destruct (IH H2) as (L & F & R).
  split; [cbn; congruence|]. split; [constructor; [split; reflexivity|exact F]|]. destruct (proj1 shows_reads v n S H1) as (c & d & _ & I & R1 & _).
  apply (reads_bound _ (Node KVar x []) d); auto. split; [reflexivity|]. intros [|[|[|i]]] e G; try discriminate; injection G as <-.
  - apply (get_plain _ 0); reflexivity.
  - apply (inside_get _ 1 n d); [reflexivity|exact I].
Qed.
Lemma result_read r m : shows_result r m -> readable_result r -> reads_result m r.
Proof.
  intros S (L1 & L2 & H1 & H2). pose proof S as S0. destruct S as [ts bs ns ms S SB]. cbn [r_terms r_bindings] in *.
  destruct (expressions_read _ _ S0 L1 H1) as (h & ds & E & _ & C & R). injection E as <-.
  destruct (bindings_read bs ms SB H2) as (LB & F & RB).
  apply (reads_row _ (Node KTerms [] ns) (Node KBindings [] ms) ds ms); auto.
  - apply (plain_children (Node KResult [] [Node KTerms [] ns; Node KBindings [] ms])); [reflexivity|]. repeat constructor.
  - apply (plain_children (Node KBindings [] ms)); [cbn [n_kids]; lia|exact F].
Qed.
Lemma results_read rs n : shows_output (QResults rs) n -> Z.of_nat (length rs) < 2 ^ 32 -> Forall readable_result rs -> reads_results n rs.
Proof.
  intros S L H. inversion S as [| |rs' ns F|]; subst. split; [reflexivity|]. exists ns. split.
  - apply (plain_children (Node KResults [] ns)); [cbn [n_kids]; rewrite <- (forall2_length _ _ _ F); exact L|]. cbn [n_kids]. clear -F. induction F as [|r m rs ns S F IH]; constructor; [|exact IH]. destruct S. split; reflexivity.
  - clear -F H. induction F as [|r m rs ns S F IH]; [constructor|]. inversion H; subst. constructor; [now apply result_read|now apply IH].
Qed.
Lemma reads_bindings_unique cs l : reads_bindings cs l -> forall l', reads_bindings cs l' -> l = l'.
Proof.
  induction 1 as [|c x a cs v l T C TX R RB IH]; intros l' R'; inversion R' as [|? x' a' ? v' l2 T' C' TX' Ra RB']; subst; [reflexivity|].
  pose proof (children_unique _ _ _ C C') as E. injection E as <- <-. rewrite (proj1 reads_unique _ _ R _ Ra), (IH _ RB'). reflexivity.
Qed.
Lemma reads_result_unique h r r' : reads_result h r -> reads_result h r' -> r = r'.
Proof.
  intros H H'. destruct H as [h t b ts bs l m T C TT TB CT RT CB RB]. inversion H' as [? t' b' ts' bs' l' m' T' C' TT' TB' CT' RT' CB' RB']; subst.
  pose proof (children_unique _ _ _ C C') as E. injection E as <- <-. rewrite <- (children_unique _ _ _ CT CT') in RT'. rewrite <- (children_unique _ _ _ CB CB') in RB'.
  now rewrite (proj1 (proj2 reads_unique) _ _ RT _ RT'), (reads_bindings_unique _ _ RB _ RB').
Qed.
Lemma reads_results_unique h rs rs' : reads_results h rs -> reads_results h rs' -> rs = rs'.
Proof.
  intros (_ & cs & C & F) (_ & cs' & C' & F'). rewrite <- (children_unique _ _ _ C C') in F'. clear C C' cs'. revert rs' F'.
  induction F as [|c r cs rs R F IH]; intros rs' F'; inversion F'; subst; [reflexivity|]. f_equal; [eapply reads_result_unique; eassumption|now apply IH].
Qed.
