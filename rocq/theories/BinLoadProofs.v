(** The binary bundle format: sections, data, header. *)
From Coq Require Import String ZArith List Bool Lia.
From Verif Require Import Base BigIntSpec BigIntModel DecFacts SMap SMapFacts ValueModel ValueSpec KeyProofs ResolverModel VmModel BinModel
  BinSpec CrcProofs BinProofs.
Import ListNotations.
Local Open Scope Z_scope.
Local Open Scope list_scope.

Ltac zlia := unfold str, byte in *; lia.

(** ** Sections *)

Lemma sm_set_len {A} k (a : A) m : zlen (sm_set k a m) <= zlen m + 1.
Proof.
  induction m as [|[k' a'] m IH]; cbn [sm_set]; [unfold zlen; simpl; lia|].
  crush_cases; rewrite ?zlen_cons in *; pose proof (zlen_nonneg m); lia.
Qed.
Lemma sm_set_fst {A} k (a : A) m x : In x (map fst (sm_set k a m)) -> x = k \/ In x (map fst m).
Proof.
  induction m as [|[k' a'] m IH]; cbn [sm_set]; [simpl; intuition auto|].
  destruct (str_ltb k k'); [simpl; intuition auto|]. destruct (str_eqb k k'); simpl; intuition auto.
Qed.
Lemma w_named_all {A} (name : A -> str) (w : A -> outcome str) : forall l pos locs x,
  w_all w l = Ok x ->
  exists locs', w_named name w pos l locs = Ok (x, locs') /\ zlen locs' <= zlen locs + zlen l /\
    (forall n, In n (map fst locs') -> In n (map fst locs) \/ In n (map name l)).
Proof.
  induction l as [|a l IH]; intros pos locs x E; cbn [w_all w_named] in *.
  - inversion E; subst. exists locs. split; auto. split; [unfold zlen; simpl; lia|]. auto.
  - fold (w_all w l) in E. destruct (w a) as [y| | |] eqn:Ea; try discriminate. cbn [obind] in *.
    destruct (w_all w l) as [z| | |] eqn:El; try discriminate. cbn [obind] in E. inversion E; subst.
    destruct (IH (pos + zlen y) (sm_set (name a) pos locs) z eq_refl) as (locs' & E' & L & I).
    rewrite E'. cbn [obind]. exists locs'. split; auto. split.
    + pose proof (sm_set_len (name a) pos locs). rewrite zlen_cons. lia.
    + intros n Hn. destruct (I n Hn) as [H|H]; [|right; right; auto].
      apply sm_set_fst in H as [->|H]; [right; left; auto | auto].
Qed.
Lemma skip_table_reads pos locs : many locs -> Forall short (map fst locs) -> reads skip_table (w_table pos locs) tt.
Proof.
  intros M S. unfold skip_table, w_table.
  eapply reads_bind; [apply skip_uint64_reads|].
  set (r := read! u := skip_string in skip_uint64).
  set (w := fun e : str * Z => w_string (fst e) ++ le 8 (snd e)).
  eapply (reads_last (r_list32 r) (fun _ => tt) _ (map (fun _ => tt) locs)); auto.
  apply r_list32_reads; auto.
  - rewrite Forall_map in S. eapply Forall_impl; [|exact S]. intros [n p] Hn.
    unfold r, w. eapply reads_bind; [now apply skip_string_reads|]. apply skip_uint64_reads.
  - apply Forall_forall. intros [n p] _. unfold w. rewrite zlen_app. pose proof (w_string_len (fst (n, p))).
    match goal with |- 1 <= _ + zlen ?l => pose proof (zlen_nonneg l) end. lia.
Qed.
Lemma section_enc {A B} id (name : A -> str) (w : A -> outcome str) (r : rdr B) (f : A -> B) pos l :
  -128 <= id < 128 -> many l -> Forall (enc w r f) l -> Forall (fun a => short (name a)) l ->
  exists x t, w_section id name w pos l = Ok (x, t) /\ reads (r_section id r) x (map f l).
Proof.
  intros Hid M H S.
  destruct (counted_enc w r f l M H) as (x & E & R).
  destruct (w_named_all name w l (pos + 5) [] x E) as (locs & E' & L & I).
  exists (w_byte id ++ w_size (zlen l) ++ x ++ w_table pos locs), (pos + 5 + zlen x). split.
  - unfold w_section. rewrite E'. reflexivity.
  - unfold r_section. eapply reads_bind; [now apply assert_id_reads|].
    rewrite app_assoc. eapply reads_bind; [exact R|].
    eapply reads_last; [|reflexivity]. apply skip_table_reads.
    + unfold many in *. change (zlen (@nil (str * Z))) with 0 in L. lia.
    + apply Forall_forall. intros n Hn. destruct (I n Hn) as [[]|Hn'].
      apply in_map_iff in Hn' as (a & <- & Ha). rewrite Forall_forall in S. auto.
Qed.

(** ** Names *)

Lemma index_names_find : forall l i m n, keyed m ->
  sm_find n (index_names i l m) =
    match (fix last k l := match l with [] => None | x :: l' =>
             match last (k + 1) l' with Some j => Some j | None => if str_eqb n x then Some k else None end end) i l with
    | Some j => Some j
    | None => sm_find n m
    end.
Proof.
  induction l as [|x l IH]; intros i m n K; cbn [index_names]; auto.
  rewrite IH by now apply sm_set_keyed. rewrite sm_find_set by auto.
  destruct ((fix last k l := match l with [] => None | x :: l' =>
             match last (k + 1) l' with Some j => Some j | None => if str_eqb n x then Some k else None end end) (i + 1) l); auto.
  destruct (str_eqb n x); auto.
Qed.
Lemma index_names_keyed : forall l i m, keyed m -> keyed (index_names i l m).
Proof. induction l; simpl; intros; auto. apply IHl. now apply sm_set_keyed. Qed.

Lemma last_spec n : forall l i j,
  (fix last k l := match l with [] => None | x :: l' =>
     match last (k + 1) l' with Some j => Some j | None => if str_eqb n x then Some k else None end end) i l = Some j <->
  (exists k, nth_error l k = Some n /\ j = i + Z.of_nat k /\ forall q, (k < q)%nat -> nth_error l q <> Some n).
Proof.
  induction l as [|x l IH]; intros i j.
  - split; [discriminate|]. intros (k & E & _). destruct k; discriminate.
  - set (lst := (fix last k l := match l with [] => None | x :: l' =>
      match last (k + 1) l' with Some j => Some j | None => if str_eqb n x then Some k else None end end) (i + 1) l).
    change ((match lst with Some j => Some j | None => if str_eqb n x then Some i else None end) = Some j <->
      (exists k, nth_error (x :: l) k = Some n /\ j = i + Z.of_nat k /\ forall q, (k < q)%nat -> nth_error (x :: l) q <> Some n)).
    specialize (IH (i + 1)). fold lst in IH.
    destruct lst as [j'|] eqn:E.
    + split.
      * intro H. inversion H; subst j'. destruct (proj1 (IH j) eq_refl) as (k & A & B & C).
        exists (S k). split; [exact A|]. split; [lia|]. intros [|q] Hq; [lia|]. apply C. lia.
      * intros (k & A & B & C). destruct (proj1 (IH j') eq_refl) as (k' & A' & B' & C').
        destruct k as [|k]; [exfalso; apply (C (S k')); [lia | exact A']|].
        f_equal. destruct (Nat.lt_trichotomy k k') as [H|[H|H]].
        -- exfalso. apply (C (S k')); [lia | exact A'].
        -- subst. lia.
        -- exfalso. apply (C' k); [lia | exact A].
    + split.
      * destruct (str_eqb n x) eqn:En; [|discriminate]. intro H; inversion H; subst j. apply str_eqb_eq in En; subst x.
        exists O. split; auto. split; [lia|]. intros [|q] Hq; [lia|]. intro Q.
        (* there is a last occurrence *)
        assert (X : exists k, nth_error l k = Some n /\ forall q, (k < q)%nat -> nth_error l q <> Some n).
        { clear -Q. revert q Q. induction l as [|y l IHl]; intros q Q; [destruct q; discriminate|].
          destruct (in_dec str_eq_dec n l) as [I|I].
          - apply In_nth_error in I as (q' & Hq'). destruct (IHl q' Hq') as (k & A & B).
            exists (S k). split; auto. intros [|r] Hr; [lia|]. apply B; lia.
          - destruct q as [|q]; simpl in Q.
            + inversion Q; subst y. exists O. split; auto. intros [|r] Hr; [lia|]. simpl. intro Z.
              apply nth_error_In in Z. auto.
            + apply nth_error_In in Q. tauto. }
        destruct X as (k & A & B).
        assert (Y : @None Z = Some (i + 1 + Z.of_nat k)) by (apply IH; exists k; auto). discriminate.
      * intros (k & A & B & C). destruct k as [|k].
        -- simpl in A. inversion A; subst x. rewrite str_eqb_refl. f_equal. lia.
        -- assert (Y : @None Z = Some j).
           { apply IH. exists k. split; [exact A|]. split; [lia|]. intros q Hq. apply (C (S q)). lia. }
           discriminate.
Qed.
Lemma numbering_eq names m : numbering names m -> m = index_names 0 names [].
Proof.
  intros [K H]. apply keyed_ext; auto. { apply index_names_keyed, keyed_nil. }
  intro n. rewrite index_names_find by apply keyed_nil.
  set (lst := (fix last k l := match l with [] => None | x :: l' =>
      match last (k + 1) l' with Some j => Some j | None => if str_eqb n x then Some k else None end end)).
  pose proof (fun j => last_spec n names 0 j) as L.
  change ((fix last k l := match l with [] => None | x :: l' =>
      match last (k + 1) l' with Some j => Some j | None => if str_eqb n x then Some k else None end end)) with lst in L.
  destruct (lst 0 names) as [j|] eqn:E.
  - apply keyed_in; auto. apply H. destruct (proj1 (L j) eq_refl) as (k & A & B & C). exists k. repeat split; auto.
  - simpl. destruct (sm_find n m) as [i|] eqn:F; auto. apply keyed_in in F; auto. apply H in F as (k & A & B & C).
    assert (X : @None Z = Some i) by (apply L; exists k; repeat split; auto; lia). discriminate.
Qed.
Lemma map_of_find {A} : forall (l m : list (str * A)) n, keyed m -> NoDup (map fst l) ->
  sm_find n (fold_left (fun m e => sm_set (fst e) (snd e) m) l m) =
    match sm_find n l with Some a => Some a | None => sm_find n m end.
Proof.
  induction l as [|[k a] l IH]; intros m n K N; cbn [fold_left fst snd sm_find]; auto.
  inversion N; subst. rewrite IH by auto using sm_set_keyed. rewrite sm_find_set by auto.
  destruct (str_eqb n k) eqn:E.
  - apply str_eqb_eq in E; subst. destruct (sm_find k l) eqn:F; auto.
    apply sm_find_in in F. exfalso. apply H1. apply in_map_iff. exists (k, a0). auto.
  - destruct (sm_find n l); auto.
Qed.
Lemma map_of_keyed {A} : forall (l m : list (str * A)), keyed m -> keyed (fold_left (fun m e => sm_set (fst e) (snd e) m) l m).
Proof. induction l; simpl; intros; auto. apply IHl. now apply sm_set_keyed. Qed.
Lemma map_of_id {A} (l : list (str * A)) : keyed l -> map_of l = l.
Proof.
  intro K. unfold map_of. apply keyed_ext; auto. { apply map_of_keyed, keyed_nil. }
  intro n. rewrite map_of_find by auto using keyed_nil, keyed_nodup. destruct (sm_find n l); auto.
Qed.

(** ** Data *)

Section Data.
Variable F : fops.

Inductive docs (rdoc : rdr (list (str * dnode))) : str -> list (str * dnode) -> Prop :=
| docs_nil : docs rdoc [] []
| docs_cons id key body node content l :
    1 <= id < 128 -> ~ In 0 key -> reads (r_element rdoc id) body node -> docs rdoc content l ->
    docs rdoc (w_byte id ++ w_cstring key ++ body ++ content) ((key, node) :: l).

Lemma cstring_app key rest : ~ In 0 key -> cstring (w_cstring key ++ rest) = (key, rest).
Proof.
  unfold w_cstring. rewrite <- app_assoc. cbn [app]. induction key as [|b key IH]; intro H; cbn [app cstring].
  - reflexivity.
  - destruct (Z.eqb_spec b 0) as [->|N]; [exfalso; apply H; now left|].
    rewrite IH; auto. intro; apply H; now right.
Qed.
Lemma r_cstring_reads key : ~ In 0 key -> reads r_cstring (w_cstring key) key.
Proof. intros H rest o. unfold r_cstring. cbn [rs_rest rs_over]. now rewrite cstring_app. Qed.

Lemma doc_loop_reads rdoc content l : docs rdoc content l ->
  forall fuel size rest o, zlen content <= size -> (length content < fuel)%nat ->
  doc_loop rdoc fuel (size + 1 + zlen rest) size (RS (content ++ [0] ++ rest) o) = Ok (l, RS rest o).
Proof.
  induction 1 as [|id key body node content l Hid Hk Hb Hd IH]; intros fuel size rest o S L.
  - destruct fuel as [|n]; [simpl in L; lia|]. reflexivity.
  - destruct fuel as [|n]; [simpl in L; lia|]. cbn [doc_loop]. unfold rbind at 1.
    unfold w_byte in *. rewrite Z.mod_small in * by lia. rewrite <- !app_assoc. cbn [app get rs_rest rs_over].
    cbn [app] in S, L. rewrite zlen_cons in S. cbn [length] in L.
    destruct (Z.eqb_spec id 0) as [->|N0]; [lia|]. cbn [negb andb].
    assert (LEN : size + 1 + zlen rest - zlen (w_cstring key ++ body ++ content ++ 0 :: rest) <? size + 1 = true).
    { apply Z.ltb_lt. rewrite !app_assoc, zlen_app, zlen_cons.
      match goal with |- _ - (zlen ?x + _) < _ => pose proof (zlen_nonneg x) end. unfold byte in *. lia. }
    rewrite LEN.
    assert (SG : signed 8 id = id).
    { unfold signed. change (2 ^ (8 - 1)) with 128. destruct (Z.ltb_spec id 128); lia. }
    rewrite SG.
    unfold rbind. rewrite (r_cstring_reads key Hk (body ++ content ++ 0 :: rest) o).
    rewrite (Hb (content ++ 0 :: rest) o).
    rewrite !zlen_app in S. rewrite !app_length in L.
    pose proof (zlen_nonneg (w_cstring key)). pose proof (zlen_nonneg body).
    specialize (IH n size rest o). cbn [app] in IH. rewrite IH; [reflexivity | lia | lia].
Qed.
Lemma r_doc_reads d content l : docs (r_doc d) content l -> zlen content < 2 ^ 32 ->
  reads (r_doc (S d)) (w_doc content) l.
Proof.
  intros H L rest o. cbn [r_doc]. unfold w_doc. rewrite <- !app_assoc. unfold rbind at 1.
  rewrite (r_size_reads (zlen content)) by (unfold fits32; pose proof (zlen_nonneg content); lia).
  cbn [rs_rest].
  assert (EQ : zlen (content ++ [0] ++ rest) = zlen content + 1 + zlen rest).
  { rewrite !zlen_app. change (zlen [0]) with 1. unfold byte in *. lia. }
  pose proof (doc_loop_reads (r_doc d) content l H (S (length (content ++ [0] ++ rest))) (zlen content) rest o) as Q.
  unfold byte in *. rewrite <- EQ in Q. apply Q; [lia|]. rewrite app_length. lia.
Qed.

Lemma r_padded_reads t : reads (r_padded (zlen t)) t t.
Proof.
  intros rest o. unfold r_padded, rbind, room. cbn [rs_rest].
  pose proof (zlen_nonneg rest).
  destruct (Z.leb_spec (zlen t) (zlen (t ++ rest))) as [G|G]; [|rewrite zlen_app in G; lia].
  rewrite zlen_to_nat, take_app by auto. unfold rret. rewrite Nat.sub_diag. cbn [repeat]. now rewrite app_nil_r.
Qed.
Lemma get_reads b : reads get [b] (Some b).
Proof. intros rest o. reflexivity. Qed.
Lemma r_bson_string_reads t : zlen t + 1 < 2 ^ 32 -> reads r_bson_string (w_bson_string t) t.
Proof.
  intro L. unfold r_bson_string, w_bson_string. pose proof (zlen_nonneg t).
  eapply reads_bind; [apply r_size_reads; unfold fits32; lia|].
  destruct (Z.eqb_spec (zlen t + 1) 0); [lia|].
  replace (zlen t + 1 - 1) with (zlen t) by lia.
  eapply reads_bind; [apply r_padded_reads|]. eapply reads_last; [apply get_reads | reflexivity].
Qed.

Lemma strip_quotes_in t x : In x (strip_quotes t) -> In x t.
Proof.
  unfold strip_quotes. destruct (is_quoted t); auto. intro H.
  destruct t as [|y t]; simpl in *; auto. right.
  assert (R : forall l : str, In x (removelast l) -> In x l).
  { induction l as [|z l IH]; simpl; auto. destruct l; simpl in *; [tauto|]. intros [|]; auto. }
  auto.
Qed.
Lemma strip_quote t : strip_quotes (quote t) = t.
Proof.
  unfold strip_quotes. rewrite KeyProofs.is_quoted_quote. unfold quote. cbn [app tl]. apply removelast_last.
Qed.

(** The element an array writes and the ones an object writes. *)
Fixpoint w_elems (i : Z) (l : list dnode) : outcome str :=
  match l with
  | [] => Ok []
  | d :: l' => let! a := w_term F (dec i) d in let! b := w_elems (i + 1) l' in Ok (a ++ b)
  end.
Lemma w_term_array key l :
  w_term F key (NTerm (NArray l)) =
  let! x := (let! x := w_elems 0 l in Ok (w_doc x)) in Ok (w_byte 4 ++ w_cstring (strip_quotes key) ++ x).
Proof. reflexivity. Qed.
Lemma w_term_object key l :
  w_term F key (NTerm (NObject l)) =
  let! x := (let! x := w_items F l in Ok (w_doc x)) in Ok (w_byte 3 ++ w_cstring (strip_quotes key) ++ x).
Proof. reflexivity. Qed.

Definition elem_ok (d : nat) (v : value) : Prop :=
  forall key, exists id body node,
    w_term F key (value_node v) = Ok (w_byte id ++ w_cstring (strip_quotes key) ++ body) /\
    1 <= id < 128 /\ node_value node = v /\ (zlen body < 2 ^ 32 -> reads (r_element (r_doc d) id) body node).

Lemma dec_no_zero i : 0 <= i -> ~ In 0 (dec i).
Proof.
  intros Hi H. destruct (dec_canon i Hi) as [D _]. rewrite Forall_forall in D. specialize (D _ H). unfold digit in D. lia.
Qed.
Lemma elems_docs d vs : Forall (elem_ok d) vs -> forall i, 0 <= i ->
  exists x l, w_elems i (map value_node vs) = Ok x /\ map node_value (map snd l) = vs /\
              (zlen x < 2 ^ 32 -> docs (r_doc d) x l).
Proof.
  induction 1 as [|v vs Hv Hvs IH]; intros i Hi; cbn [map w_elems].
  - exists [], []. repeat split; auto. intro; constructor.
  - destruct (Hv (dec i)) as (id & body & node & E & Hid & N & R).
    destruct (IH (i + 1) ltac:(lia)) as (x & l & E' & N' & R').
    rewrite E, E'. cbn [obind].
    exists ((w_byte id ++ w_cstring (strip_quotes (dec i)) ++ body) ++ x), ((strip_quotes (dec i), node) :: l).
    split; auto. split; [cbn [map snd]; now rewrite N, N'|].
    intro L. rewrite <- !app_assoc in *. rewrite !zlen_app in L.
    pose proof (zlen_nonneg (w_byte id)). pose proof (zlen_nonneg (w_cstring (strip_quotes (dec i)))).
    pose proof (zlen_nonneg body). pose proof (zlen_nonneg x).
    constructor; auto.
    + intro Z. apply strip_quotes_in in Z. exact (dec_no_zero i Hi Z).
    + apply R. lia.
    + apply R'. lia.
Qed.
Lemma items_docs d vs :
  Forall (fun kv : value * value => (exists t, fst kv = VString t /\ ~ In 0 t) /\ elem_ok d (snd kv)) vs ->
  exists x l, w_items F (map (fun kv : value * value => let '(k, x) := kv in (value_node k, value_node x)) vs) = Ok x /\
              map (fun kv : str * dnode => (VString (fst kv), node_value (snd kv))) l = vs /\
              (zlen x < 2 ^ 32 -> docs (r_doc d) x l).
Proof.
  induction 1 as [|[k v] vs [(t & Hk & Ht) Hv] Hvs IH]; cbn [map w_items].
  - exists [], []. repeat split; auto. intro; constructor.
  - cbn [fst snd] in *. subst k. cbn [value_node node_value to_key].
    destruct (Hv (quote t)) as (id & body & node & E & Hid & N & R).
    destruct IH as (x & l & E' & N' & R').
    rewrite strip_quote in E. rewrite E, E'. cbn [obind].
    exists ((w_byte id ++ w_cstring t ++ body) ++ x), ((t, node) :: l).
    split; auto. split; [cbn [map fst snd]; now rewrite N, N'|].
    intro L. rewrite <- !app_assoc in *. rewrite !zlen_app in L.
    pose proof (zlen_nonneg (w_byte id)). pose proof (zlen_nonneg (w_cstring t)).
    pose proof (zlen_nonneg body). pose proof (zlen_nonneg x).
    constructor; auto.
    + apply R. lia.
    + apply R'. lia.
Qed.
Definition wrap (kv : str * dnode) : dnode * dnode :=
  (NTerm (NScalar (NString (fst kv))),
   match snd kv with
   | NScalar d => NTerm (NScalar d)
   | NArray _ | NSet _ | NObject _ => NTerm (snd kv)
   | d => NTerm (NScalar d)
   end).
Lemma wrap_value l :
  map (fun kv : dnode * dnode => let '(k, x) := kv in (node_value k, node_value x)) (map wrap l) =
  map (fun kv : str * dnode => (VString (fst kv), node_value (snd kv))) l.
Proof.
  rewrite map_map. apply map_ext. intros [k d]. unfold wrap. cbn [fst snd node_value]. f_equal.
  destruct d; reflexivity.
Qed.
Lemma zlen_doc x : zlen (w_doc x) = zlen x + 5.
Proof. unfold w_doc. rewrite !zlen_app. unfold zlen at 1. rewrite le_length. change (zlen [0]) with 1. lia. Qed.

Lemma json_elem : forall d v, json_ok d v -> elem_ok d v.
Proof.
  assert (SC : forall d, (forall t, elem_ok d (VInt t)) /\ (forall t, elem_ok d (VFloat t)) /\
                         (forall t, elem_ok d (VString t)) /\ elem_ok d VTrue /\ elem_ok d VFalse /\ elem_ok d VNull).
  { intro d. unfold elem_ok. repeat split.
    - intros t key. exists 5, (le 4 (zlen t) ++ w_byte 128 ++ t), (NScalar (NInt t)). split; [reflexivity|]. split; [lia|]. split; [reflexivity|].
      intro L. unfold r_element. cbn [Z.eqb Pos.eqb].
      pose proof (zlen_nonneg t). rewrite !zlen_app in L. pose proof (zlen_nonneg (w_byte 128)). pose proof (zlen_nonneg (w_byte 129)).
      unfold zlen in L at 1. rewrite le_length in L.
      eapply reads_bind; [apply r_size_reads; unfold fits32; zlia|].
      eapply reads_bind; [apply r_byte_reads; lia|]. cbn [Z.eqb Pos.eqb orb].
      eapply reads_last; [apply r_padded_reads | reflexivity].
    - intros t key. exists 5, (le 4 (zlen t) ++ w_byte 129 ++ t), (NScalar (NFloat t)). split; [reflexivity|]. split; [lia|]. split; [reflexivity|].
      intro L. unfold r_element. cbn [Z.eqb Pos.eqb].
      pose proof (zlen_nonneg t). rewrite !zlen_app in L. pose proof (zlen_nonneg (w_byte 128)). pose proof (zlen_nonneg (w_byte 129)).
      unfold zlen in L at 1. rewrite le_length in L.
      eapply reads_bind; [apply r_size_reads; unfold fits32; zlia|].
      eapply reads_bind; [apply r_byte_reads; lia|]. cbn [Z.eqb Pos.eqb orb].
      eapply reads_last; [apply r_padded_reads | reflexivity].
    - intros t key. exists 2, (w_bson_string t), (NString t). split; [reflexivity|]. split; [lia|]. split; [reflexivity|].
      intro L. unfold r_element. cbn [Z.eqb Pos.eqb].
      eapply reads_last; [apply r_bson_string_reads | reflexivity].
      unfold w_bson_string in L. rewrite !zlen_app in L. unfold zlen in L at 1. rewrite le_length in L.
      change (zlen [0]) with 1 in L. zlia.
    - intros key. exists 8, (w_byte 1), NTrue. split; [reflexivity|]. split; [lia|]. split; [reflexivity|].
      intros _. unfold r_element. cbn [Z.eqb Pos.eqb].
      rewrite <- (app_nil_r (w_byte 1)). eapply reads_bind; [apply r_byte_reads; lia|]. apply reads_ret.
    - intros key. exists 8, (w_byte 0), NFalse. split; [reflexivity|]. split; [lia|]. split; [reflexivity|].
      intros _. unfold r_element. cbn [Z.eqb Pos.eqb].
      rewrite <- (app_nil_r (w_byte 0)). eapply reads_bind; [apply r_byte_reads; lia|]. apply reads_ret.
    - intros key. exists 10, [], NNull. split; [cbn [value_node w_term]; now rewrite app_nil_r|]. split; [lia|]. split; [reflexivity|].
      intros _. unfold r_element. cbn [Z.eqb Pos.eqb]. apply reads_ret. }
  induction d as [|d IH]; intros v H.
  - destruct (SC O) as (A & B & C & D & E & G). destruct v; simpl in H; try contradiction; auto.
  - destruct (SC (S d)) as (A & B & C & D & E & G). destruct v; cbn [json_ok] in H; try contradiction; auto.
    + intro key. cbn [value_node]. rewrite w_term_array.
      destruct (elems_docs d l) with (i := 0) as (x & k & E' & N & R); try lia.
      { eapply Forall_impl; [|exact H]. exact IH. }
      rewrite E'. cbn [obind].
      exists 4, (w_doc x), (NArray (map snd k)). split; [reflexivity|]. split; [lia|]. split.
      * cbn [node_value]. now rewrite N.
      * intro L. rewrite zlen_doc in L. unfold r_element. cbn [Z.eqb Pos.eqb].
        eapply reads_last; [apply r_doc_reads; [apply R; lia | lia] | reflexivity].
    + intro key. cbn [value_node]. rewrite w_term_object.
      destruct (items_docs d l) as (x & k & E' & N & R).
      { eapply Forall_impl; [|exact H]. intros [a b] [P Q]. split; auto. }
      rewrite E'. cbn [obind].
      exists 3, (w_doc x), (NObject (map wrap k)). split; [reflexivity|]. split; [lia|]. split.
      * cbn [node_value]. now rewrite wrap_value, N.
      * intro L. rewrite zlen_doc in L. unfold r_element. cbn [Z.eqb Pos.eqb].
        eapply reads_last; [apply r_doc_reads; [apply R; lia | lia] | reflexivity].
Qed.

Lemma data_enc_at n d l : NTerm d = value_node (VObject l) -> json_ok (S n) (VObject l) ->
  exists x node, w_data F d = Ok x /\ node_value node = node_value d /\
    (zlen x < 2 ^ 32 -> reads (read! u := assert_id 4 in r_element (r_doc (S n)) 3) x node).
Proof.
  intros E J. cbn [value_node] in E. injection E as ->. cbn [json_ok] in J.
  destruct (items_docs n l) as (x & k & E' & N & R).
  { eapply Forall_impl; [|exact J]. intros [a b] [P Q]. split; auto. now apply json_elem. }
  exists (w_byte 4 ++ w_doc x), (NObject (map wrap k)). split; [|split].
  - unfold w_data. now rewrite E'.
  - cbn [node_value]. rewrite wrap_value, N. f_equal.
    rewrite map_map. rewrite <- (map_id l) at 1. apply map_ext_in. intros [a b] Hab.
    rewrite Forall_forall in J. destruct (J _ Hab) as [(t & Ht & _) Q]. cbn [fst snd] in *. subst a.
    cbn [value_node node_value]. f_equal.
    clear -Q.
    revert b Q. induction n as [|n IH]; intros b Q.
    + destruct b; simpl in Q; try contradiction; reflexivity.
    + destruct b; cbn [json_ok] in Q; try contradiction; try reflexivity; cbn [value_node node_value]; f_equal.
      * rewrite map_map. rewrite <- (map_id l) at 1. apply map_ext_in. intros c Hc. rewrite Forall_forall in Q. auto.
      * rewrite map_map. rewrite <- (map_id l) at 1. apply map_ext_in. intros [c e] Hc. rewrite Forall_forall in Q.
        destruct (Q _ Hc) as [(t & Ht & _) Q']. cbn [fst snd] in *. subst c. cbn [value_node node_value]. f_equal. auto.
  - intro L. rewrite zlen_app, zlen_doc in L. eapply reads_bind; [apply assert_id_reads; lia|].
    unfold r_element. cbn [Z.eqb Pos.eqb].
    pose proof (zlen_nonneg (w_byte 4)).
    eapply reads_last; [apply (r_doc_reads n); [apply R; lia | lia] | reflexivity].
Qed.
Lemma data_enc d l : NTerm d = value_node (VObject l) -> json_ok 256 (VObject l) ->
  exists x node, w_data F d = Ok x /\ node_value node = node_value d /\ (zlen x < 2 ^ 32 -> reads r_data x node).
Proof. exact (data_enc_at 255 d l). Qed.
End Data.

(** ** Header *)

Definition qp_code (q : option Z) : Z := match q with Some q => q | None => -1 end.

Section Header.
Variable utf8 : str -> bool.
Variables (locals crc size a b c d : Z) (q : option Z) (p : str).
Let file := w_header locals q crc size [a; b; c; d] ++ p.

Lemma file_len : zlen file = 64 + zlen p.
Proof. unfold file. rewrite zlen_app. reflexivity. Qed.
Lemma file_magic : firstn 8 file = Magic.
Proof. reflexivity. Qed.
Lemma file_at8 : znth file 8 = Some 1.
Proof.
  unfold znth. rewrite file_len. pose proof (zlen_nonneg p).
  destruct (Z.ltb_spec 8 (64 + zlen p)); [reflexivity | zlia].
Qed.
Lemma file_at9 : znth file 9 = Some 1.
Proof.
  unfold znth. rewrite file_len. pose proof (zlen_nonneg p).
  destruct (Z.ltb_spec 9 (64 + zlen p)); [reflexivity | zlia].
Qed.
Lemma file_at10 : znth file 10 = Some (qp_code q mod 256).
Proof.
  unfold znth. rewrite file_len. pose proof (zlen_nonneg p).
  destruct (Z.ltb_spec 10 (64 + zlen p)); [reflexivity | zlia].
Qed.
Lemma file_locals : field file 16 4 = unle (le 4 locals).
Proof. reflexivity. Qed.
Lemma file_crc : field file 20 4 = unle (le 4 crc).
Proof. reflexivity. Qed.
Lemma file_size : field file 24 8 = unle (le 8 size).
Proof. reflexivity. Qed.
Lemma file_payload : skipn 64 file = p.
Proof. reflexivity. Qed.

Lemma header_load : u32 crc -> 0 <= size < 2 ^ 64 ->
  load_state utf8 file =
    (let payload := firstn (Z.to_nat size) p in
     if MaxBundleSize <? size then Throw
     else if zlen payload <? size then Throw
     else if negb (crc32 payload =? crc) then Throw
     else r_bundle utf8 (locals mod 2 ^ 32) (signed 8 (qp_code q mod 256)) (RS payload 0)).
Proof.
  intros Hc Hs. unfold load_state.
  rewrite file_magic, file_at8, file_at9, file_at10, file_locals, file_crc, file_size, file_payload, file_len.
  change (proper_prefix Magic Magic) with false. change (str_eqb Magic Magic) with true.
  cbn [negb Z.eqb Pos.eqb]. pose proof (zlen_nonneg p). unfold header_size.
  destruct (Z.ltb_spec (64 + zlen p) 32); [zlia|].
  destruct (Z.ltb_spec (64 + zlen p) 64); [zlia|].
  rewrite !unle_le. change (256 ^ Z.of_nat 4) with (2 ^ 32). change (256 ^ Z.of_nat 8) with (2 ^ 64).
  rewrite (Z.mod_small crc), (Z.mod_small size) by (unfold u32 in *; lia).
  reflexivity.
Qed.
End Header.

(** ** Whole bundles *)

Section Bundle.
Variable F : fops.
Variable utf8 : str -> bool.

Lemma static_reads {X} b (k : list source -> list str -> list (str * bdecl) -> option str -> rdr X) w y : saveable utf8 b ->
  reads (k (bb_files b) (bb_strings b) (bb_builtins b) (bb_query b)) w y ->
  reads (read! u := assert_id 1 in
         read! files := r_list32 r_file in
         read! strings := r_list32 (r_utf8 utf8) in
         read! builtins := r_list32 r_builtin in
         read! q := r_sbyte in
         read! query := (if q =? 2 then read! t := r_string in rret (Some t) else rret None) in
         k files strings builtins query)
    (w_static b ++ w) y.
Proof.
  intros S K. unfold w_static. rewrite <- !app_assoc.
  eapply reads_bind; [apply assert_id_reads; lia|].
  destruct (sv_files _ _ S) as [Fm Ff].
  eapply reads_bind.
  { eapply (r_list32_reads r_file _ (fun f => f)); auto.
    - eapply Forall_impl; [|exact Ff]. intros [o t] [Ho Ht]. cbn [src_origin src_text] in *.
      unfold r_file. eapply reads_bind; [now apply r_string_reads|].
      eapply reads_last; [now apply r_string_reads | reflexivity].
    - apply Forall_forall. intros f _. rewrite zlen_app. pose proof (w_string_len (src_origin f)).
      pose proof (w_string_len (src_text f)). lia. }
  destruct (sv_strings _ _ S) as [Sm Ss].
  eapply reads_bind.
  { eapply (r_list32_reads (r_utf8 utf8) _ (fun f => f)); auto.
    - eapply Forall_impl; [|exact Ss]. intros t [Ht Hu]. unfold r_utf8. rewrite <- (app_nil_r (w_string t)).
      eapply reads_bind; [now apply r_string_reads|]. rewrite Hu. apply reads_ret.
    - apply Forall_forall. intros t _. pose proof (w_string_len t). lia. }
  destruct (sv_builtins _ _ S) as (Bm & _ & Bs).
  eapply reads_bind.
  { eapply (r_list32_reads r_builtin _ (fun f => f)); auto.
    - eapply Forall_impl; [|exact Bs]. intros [n t] [Hn Ht]. cbn [fst snd] in *. unfold r_builtin.
      eapply reads_bind; [now apply r_string_reads|]. eapply reads_last; [now apply r_bdecl_reads | reflexivity].
    - apply Forall_forall. intros [n t] _. rewrite zlen_app. pose proof (w_string_len (fst (n, t))).
      match goal with |- 1 <= _ + zlen ?l => pose proof (zlen_nonneg l) end. lia. }
  rewrite !map_id. pose proof (sv_query _ _ S) as Q. destruct (bb_query b) as [t|].
  - rewrite <- !app_assoc. eapply reads_bind; [apply r_sbyte_reads; lia|]. cbn [Z.eqb Pos.eqb].
    eapply reads_bind; [|exact K].
    eapply reads_last; [now apply r_string_reads | reflexivity].
  - eapply reads_bind; [apply r_sbyte_reads; lia|]. cbn [Z.eqb Pos.eqb].
    change w with ([] ++ w). eapply reads_bind; [apply reads_ret | exact K].
Qed.

Definition loaded (b : bbundle) (data : dnode) : bbundle :=
  {| bb_data := data;
     bb_name_to_func := bb_name_to_func b;
     bb_name_to_plan := bb_name_to_plan b;
     bb_builtins := bb_builtins b;
     bb_plans := map same_plan (bb_plans b);
     bb_functions := map same_func (bb_functions b);
     bb_strings := bb_strings b;
     bb_files := bb_files b;
     bb_query := bb_query b;
     bb_locals := bb_locals b;
     bb_query_plan := bb_query_plan b |}.

Lemma payload_enc b : saveable utf8 b ->
  exists p t1 t2 t3 node,
    save F b = Ok (w_header (bb_locals b) (bb_query_plan b) (crc32 p) (zlen p) [header_size; t1; t2; t3] ++ p) /\
    node_value node = node_value (bb_data b) /\
    (zlen p < 2 ^ 32 -> reads (r_bundle utf8 (bb_locals b) (qp_code (bb_query_plan b))) p (loaded b node)).
Proof.
  intro S.
  destruct (sv_plans _ _ S) as [Pm Pp]. destruct (sv_funcs _ _ S) as [Fm Ff].
  set (p1 := header_size + zlen (w_static b)).
  destruct (section_enc 2 bp_name w_plan (r_plan (bb_files b)) same_plan p1 (bb_plans b)) as (x1 & t1 & E1 & R1); auto.
  { lia. } { eapply Forall_impl; [|exact Pp]. apply plan_enc. } { eapply Forall_impl; [|exact Pp]. now intros p [H _]. }
  set (p2 := p1 + zlen x1).
  destruct (section_enc 3 bf_name w_func (r_func (bb_files b)) same_func p2 (bb_functions b)) as (x2 & t2 & E2 & R2); auto.
  { lia. } { eapply Forall_impl; [|exact Ff]. apply func_enc. } { eapply Forall_impl; [|exact Ff]. now intros p [H _]. }
  destruct (sv_data _ _ S) as (l & D & J).
  destruct (data_enc F (bb_data b) l D J) as (x3 & node & E3 & N & R3).
  exists (w_static b ++ x1 ++ x2 ++ x3), t1, t2, (p2 + zlen x2), node. split; [|split; auto].
  - unfold save. fold p1. rewrite E1. cbn [obind]. fold p2. rewrite E2. cbn [obind]. rewrite E3. reflexivity.
  - intro L.
    assert (L3 : zlen x3 < 2 ^ 32).
    { rewrite !zlen_app in L. pose proof (zlen_nonneg (w_static b)). pose proof (zlen_nonneg x1).
      pose proof (zlen_nonneg x2). zlia. }
    specialize (R3 L3). unfold r_bundle. apply (static_reads b (fun files strings builtins query =>
      read! plans := r_section 2 (r_plan files) in
      read! funcs := r_section 3 (r_func files) in
      read! data := r_data in
      rret _) _ _ S).
    eapply reads_bind; [exact R1|]. eapply reads_bind; [exact R2|].
    eapply reads_last; [exact R3|]. cbv beta. unfold loaded.
    assert (N1 : map bf_name (map same_func (bb_functions b)) = map bf_name (bb_functions b)).
    { rewrite map_map. apply map_ext. now intros []. }
    assert (N2 : map bp_name (map same_plan (bb_plans b)) = map bp_name (bb_plans b)).
    { rewrite map_map. apply map_ext. now intros []. }
    rewrite N1, N2, <- (numbering_eq _ _ (sv_name_to_func _ _ S)), <- (numbering_eq _ _ (sv_name_to_plan _ _ S)).
    rewrite map_of_id by apply (sv_builtins _ _ S).
    f_equal. pose proof (sv_query_plan _ _ S) as Q. destruct (bb_query_plan b) as [q|]; cbn [qp_code]; [|reflexivity].
    destruct (Z.leb_spec 0 q); [reflexivity | lia].
Qed.

(** Saving and loading a bundle. *)
Lemma save_load b : saveable utf8 b ->
  exists bytes, save F b = Ok bytes /\
    (wf_str bytes -> zlen bytes <= 64 + MaxBundleSize ->
     exists node, load utf8 bytes = Ok (loaded b node) /\ node_value node = node_value (bb_data b)).
Proof.
  intro S. destruct (payload_enc b S) as (p & t1 & t2 & t3 & node & E & N & R).
  eexists. split; [exact E|]. intros W L. exists node. split; auto.
  assert (Wp : wf_str p). { apply Forall_app in W. tauto. }
  rewrite zlen_app in L.
  match type of L with zlen ?h + _ <= _ => change (zlen h) with 64 in L end.
  pose proof (zlen_nonneg p).
  assert (Lp : zlen p <= MaxBundleSize) by zlia.
  assert (M : MaxBundleSize < 2 ^ 32) by reflexivity.
  unfold load. rewrite header_load; cycle 1.
  - now apply crc32_u32.
  - zlia.
  - cbv zeta. destruct (Z.ltb_spec MaxBundleSize (zlen p)); [zlia|].
    replace (firstn (Z.to_nat (zlen p)) p) with p
      by (unfold zlen; now rewrite Nat2Z.id, firstn_all).
    rewrite Z.ltb_irrefl, Z.eqb_refl. cbn [negb].
    rewrite Z.mod_small by apply (sv_locals _ _ S).
    replace (signed 8 (qp_code (bb_query_plan b) mod 256)) with (qp_code (bb_query_plan b)).
    2: { symmetry. apply (signed_mod 8); [lia|]. pose proof (sv_query_plan _ _ S) as Q. unfold qp_code.
         destruct (bb_query_plan b); lia. }
    assert (Rp := R ltac:(zlia) [] 0). rewrite app_nil_r in Rp. rewrite Rp. reflexivity.
Qed.
End Bundle.

(** What the same bundle is: equality up to what the fields mean. *)
Lemma same_op_idem o : same_op (same_op o) = same_op o.
Proof. destruct o as [[] ?]; reflexivity. Qed.
Lemma o_value_idem ty o : o_value (Op ty (o_value o)) = o_value o.
Proof.
  unfold o_value. cbn [o_word]. set (w := o_word o mod 2 ^ 64).
  assert (Hw : 0 <= w < 2 ^ 64) by (apply Z.mod_pos_bound; lia).
  destruct (Z.ltb_spec w (2 ^ 63)).
  - rewrite Z.mod_small by lia. destruct (Z.ltb_spec w (2 ^ 63)); lia.
  - replace ((w - 2 ^ 64) mod 2 ^ 64) with w.
    + destruct (Z.ltb_spec w (2 ^ 63)); lia.
    + apply (Z.mod_unique _ _ (-1)); lia.
Qed.
Lemma same_field_idem u o : same_field u (same_field u o) = same_field u o.
Proof.
  destruct u; cbn [same_field]; auto.
  - apply same_op_idem.
  - unfold o_index. cbn [o_word]. now rewrite Zmod_mod.
  - now rewrite o_value_idem.
Qed.
Lemma same_ops_idem l : map same_op (map same_op l) = map same_op l.
Proof. rewrite map_map. apply map_ext, same_op_idem. Qed.
Lemma same_stmt_idem : forall s, same_stmt (same_stmt s) = same_stmt s.
Proof.
  fix IH 1. intros [ty loc o0 o1 t e].
  assert (E : match e with
              | Some (BWith _ b) | Some (BBlock b) => map same_stmt (map same_stmt b) = map same_stmt b
              | Some (BBlocks bs) => map (map same_stmt) (map (map same_stmt) bs) = map (map same_stmt) bs
              | _ => True
              end).
  { destruct e as [[| |path b|bs|b]|]; try exact I.
    - revert b. fix go 1. intros [|x b]; [reflexivity|]. cbn [map]. f_equal; [apply IH | apply go].
    - revert bs. fix go 1. intros [|b bs]; [reflexivity|]. cbn [map]. f_equal; [|apply go].
      revert b. fix go2 1. intros [|x b]; [reflexivity|]. cbn [map]. f_equal; [apply IH | apply go2].
    - revert b. fix go 1. intros [|x b]; [reflexivity|]. cbn [map]. f_equal; [apply IH | apply go]. }
  clear IH.
  destruct ty; cbn [same_stmt fields]; rewrite ?same_field_idem; try reflexivity;
    destruct e as [[| |path b|bs|b]|]; rewrite ?same_ops_idem, ?E; reflexivity.
Qed.
Lemma same_blocks_idem l : map (map same_stmt) (map (map same_stmt) l) = map (map same_stmt) l.
Proof. rewrite map_map. apply map_ext. intro b. rewrite map_map. apply map_ext, same_stmt_idem. Qed.
Lemma same_loaded b node : node_value node = node_value (bb_data b) -> same_bundle b (loaded b node).
Proof.
  intro N. constructor; cbn; auto.
  - rewrite map_map. apply map_ext. intros [n l]. unfold same_plan. cbn. now rewrite same_blocks_idem.
  - rewrite map_map. apply map_ext. intros []. unfold same_func. cbn. now rewrite same_blocks_idem.
Qed.

(** ** Corrupted files *)

Lemma app_inv_both {A} (a b c d : list A) : length a = length c -> a ++ b = c ++ d -> a = c /\ b = d.
Proof.
  revert c. induction a as [|x a IH]; intros [|y c] L E; try discriminate L; cbn in *; auto.
  injection E as -> E. injection L as L. destruct (IH c L E). now subst.
Qed.
Lemma Ok_inj {A} (a b : A) : Ok a = Ok b -> a = b.
Proof. intro E. now injection E. Qed.
Lemma corrupt_load utf8 F b hdr p p' : save F b = Ok (hdr ++ p) -> length hdr = 64%nat ->
  wf_str p -> zlen p < 2 ^ 64 -> length p' = length p -> crc32 p' <> crc32 p -> load utf8 (hdr ++ p') = Throw.
Proof.
  unfold save. intros E H64 W L Lp N.
  destruct (w_section 2 _ _ _ _) as [[x1 t1]| | |]; try discriminate E. cbn [obind] in E.
  destruct (w_section 3 _ _ _ _) as [[x2 t2]| | |]; try discriminate E. cbn [obind] in E.
  destruct (w_data _ _) as [x3| | |]; try discriminate E. cbn [obind] in E.
  apply Ok_inj in E. set (q := w_static b ++ x1 ++ x2 ++ x3) in E.
  match type of E with ?h ++ _ = _ => assert (H : h = hdr /\ q = p) end.
  { apply app_inv_both; [now rewrite H64 | exact E]. }
  destruct H as [<- ->]. unfold load. rewrite header_load.
  - cbv zeta. destruct (_ <? _); [reflexivity|].
    replace (firstn (Z.to_nat (zlen p)) p') with p'
      by (unfold zlen; now rewrite Nat2Z.id, <- Lp, firstn_all).
    destruct (_ <? _); [reflexivity|].
    destruct (Z.eqb_spec (crc32 p') (crc32 p)); [contradiction | reflexivity].
  - now apply crc32_u32.
  - pose proof (zlen_nonneg p). zlia.
Qed.

(** ** Files cut short *)
Lemma firstn_app_le {A} k (a b : list A) : (k <= length a)%nat -> firstn k (a ++ b) = firstn k a.
Proof. intro L. rewrite firstn_app. replace (k - length a)%nat with 0%nat by lia. cbn. apply app_nil_r. Qed.
Lemma znth_firstn {A} k (l : list A) i : i < Z.of_nat k -> (k <= length l)%nat -> znth (firstn k l) i = znth l i.
Proof.
  intros Hi Hk. unfold znth, zlen. rewrite firstn_length, Nat.min_l by auto.
  destruct (Z.leb_spec 0 i); cbn [andb]; [|reflexivity].
  destruct (Z.ltb_spec i (Z.of_nat k)); [|lia]. destruct (Z.ltb_spec i (Z.of_nat (length l))); [|lia].
  rewrite <- (firstn_skipn k l) at 2. rewrite nth_error_app1; [reflexivity|]. rewrite firstn_length. lia.
Qed.
Lemma cut_load utf8 F b bytes k : save F b = Ok bytes -> wf_str bytes -> zlen bytes < 2 ^ 64 ->
  (32 <= k < length bytes)%nat -> load utf8 (firstn k bytes) = Throw.
Proof.
  unfold save. intros E W L K.
  destruct (w_section 2 _ _ _ _) as [[x1 t1]| | |]; try discriminate E. cbn [obind] in E.
  destruct (w_section 3 _ _ _ _) as [[x2 t2]| | |]; try discriminate E. cbn [obind] in E.
  destruct (w_data _ _) as [x3| | |]; try discriminate E. cbn [obind] in E.
  apply Ok_inj in E. set (p := w_static b ++ x1 ++ x2 ++ x3) in E. subst bytes.
  match goal with |- context [firstn k (?h ++ p)] => set (hdr := h) in * end.
  assert (H64 : length hdr = 64%nat) by reflexivity.
  assert (Wp : wf_str p) by (apply Forall_app in W; tauto).
  assert (Lp : zlen p < 2 ^ 64). { rewrite zlen_app in L. pose proof (zlen_nonneg hdr). zlia. }
  destruct (Nat.leb_spec 64 k).
  - replace (firstn k (hdr ++ p)) with (hdr ++ firstn (k - 64) p).
    2: { rewrite firstn_app, H64. f_equal. symmetry. apply firstn_all2. lia. }
    unfold load, hdr. rewrite header_load.
    + cbv zeta. destruct (_ <? _); [reflexivity|].
      match goal with |- context [zlen ?x <? _] => assert (S : zlen x < zlen p) end.
      { unfold zlen. rewrite !firstn_length. rewrite app_length, H64 in K. lia. }
      destruct (Z.ltb_spec (zlen (firstn (Z.to_nat (zlen p)) (firstn (k - 64) p))) (zlen p)); [reflexivity | lia].
    + now apply crc32_u32.
    + pose proof (zlen_nonneg p). zlia.
  - assert (S : firstn k (hdr ++ p) = firstn k hdr) by (apply firstn_app_le; lia).
    assert (Z1 : zlen (firstn k hdr) = Z.of_nat k) by (unfold zlen; rewrite firstn_length, H64; lia).
    rewrite S. unfold load, load_state.
    assert (M : firstn 8 (firstn k hdr) = Magic).
    { rewrite firstn_firstn. replace (Nat.min 8 k) with 8%nat by lia. reflexivity. }
    rewrite M. change (proper_prefix Magic Magic) with false. change (str_eqb Magic Magic) with true. cbn [negb].
    rewrite !znth_firstn by (try lia; rewrite H64; lia).
    change (znth hdr 8) with (Some 1). change (znth hdr 9) with (Some 1). cbn [negb Z.eqb Pos.eqb].
    rewrite Z1. destruct (Z.ltb_spec (Z.of_nat k) 32); [lia|].
    destruct (_ <? _); [reflexivity|]. unfold header_size. destruct (Z.ltb_spec (Z.of_nat k) 64); [reflexivity | lia].
Qed.
