From Coq Require Import String ZArith List Bool Lia.
From Verif Require Import Base SMap GlobModel GlobSpec.
Import ListNotations.
Local Open Scope Z_scope.
Local Open Scope list_scope.

Ltac eqbs := repeat match goal with
  | H : (?a =? ?b) = true |- _ => apply Z.eqb_eq in H
  | H : (?a =? ?b) = false |- _ => apply Z.eqb_neq in H
  end.

Ltac li := unfold str, byte in *; cbn [length] in *; lia.

(** ** Classes *)
Lemma signed_order c : signed c = order c. Proof. reflexivity. Qed.
Definition coverb (items : list (Z * Z)) (c : Z) : bool := existsb (fun i => (order (fst i) <=? order c) && (order c <=? order (snd i))) items.
Lemma coverb_iff items c : coverb items c = true <-> covered items c.
Proof.
  unfold coverb, covered. rewrite existsb_exists. split.
  - intros ([lo hi] & I & H). exists lo, hi. split; [ exact I | ]. cbn [fst snd] in H. apply andb_prop in H. lia.
  - intros (lo & hi & I & H). exists (lo, hi). split; [ exact I | ]. cbn [fst snd]. apply andb_true_intro. lia.
Qed.
Definition octet (c : Z) := 0 <= c < 256.
Lemma order_inj a b : octet a -> octet b -> order a = order b -> a = b.
Proof. unfold octet, order. intros. destruct (a <? 128) eqn:A, (b <? 128) eqn:B; lia. Qed.
Lemma read_char_some p c r : read_char p = Some (c, r) -> r <> [] -> exists t, class_char t c /\ p = t ++ r /\ head t = head p.
Proof.
  destruct p as [ | x p ]; [ discriminate | ]. cbn [read_char]. destruct (x =? 92) eqn:E; eqbs.
  - subst x. destruct p as [ | y p ]; intros H; injection H as <- <-; [ congruence | ]. intros _. exists [92; y]. repeat split. constructor.
  - intros H. injection H as <- <-. intros _. exists [x]. repeat split. now constructor.
Qed.
Lemma read_char_char t c r : class_char t c -> (r <> [] \/ t = [c] /\ c <> 92) -> read_char (t ++ r) = Some (c, r).
Proof.
  intros [x Hx | x] H; cbn [app read_char].
  - destruct (x =? 92) eqn:E; eqbs; [ congruence | reflexivity ].
  - reflexivity.
Qed.
Lemma read_char_len p c r : read_char p = Some (c, r) -> (length r < length p)%nat.
Proof. destruct p as [ | x [ | y p ] ]; cbn [read_char]; [ discriminate | | ]; destruct (x =? 92); intros H; injection H as <- <-; cbn; lia. Qed.
Lemma range_end_spec r r' : range_end r = Some r' <-> r = 45 :: r' /\ exists y q, r' = y :: q /\ y <> 93.
Proof.
  destruct r as [ | d [ | y q ] ]; cbn [range_end].
  - split; [ discriminate | intros [H _]; discriminate ].
  - split; [ discriminate | intros (H & y & q & E & _)]. rewrite E in H. discriminate.
  - destruct ((d =? 45) && negb (y =? 93)) eqn:E.
    + apply andb_prop in E. destruct E as [E1 E2]. apply Z.eqb_eq in E1. apply negb_true_iff, Z.eqb_neq in E2. subst d. split.
      * intros H. injection H as <-. eauto.
      * intros [H _]. now injection H as <-.
    + split; [ discriminate | ]. intros (H & y' & q' & E' & N). subst r'. injection H as -> -> ->. cbn in E.
      rewrite <- Z.eqb_neq in N. rewrite N in E. discriminate.
Qed.
Lemma app_head {A} (a b : list A) : a <> [] -> head (a ++ b) = head a. Proof. destruct a; cbn; congruence. Qed.
Lemma class_char_ne t c : class_char t c -> t <> []. Proof. now intros []. Qed.
(** The characters compared by equality, and the bounds by their order, agree for bytes. *)
Lemma class_sound n : forall p first found c b r, octet c -> Forall octet p ->
  class_loop n p first found c = Ok (Some (b, r)) ->
  exists body items, p = body ++ 93 :: r /\ class_items first body items /\ b = found || coverb items c.
Proof.
  induction n as [ | n IH ]; intros p first found c b r Hc Hp H; [ discriminate | ]. cbn [class_loop] in H.
  destruct p as [ | x r0 ]; [ discriminate | ]. destruct (negb first && (x =? 93)) eqn:E.
  - injection H as <- <-. apply andb_prop in E. destruct E as [E1 E2]. eqbs. subst x. destruct first; [ discriminate | ].
    exists [], []. repeat split; [ constructor | now rewrite orb_false_r ].
  - assert (Hfirst : first = false -> x <> 93) by (intros ->; cbn in E; now apply Z.eqb_neq).
    destruct (read_char (x :: r0)) as [[lo r1] | ] eqn:R; [ | discriminate ].
    destruct (range_end r1) as [r2 | ] eqn:Re.
    + apply range_end_spec in Re. destruct Re as (-> & y & q & -> & Ny).
      destruct (read_char (y :: q)) as [[hi r3] | ] eqn:R2; [ | discriminate ].
      destruct (signed hi <? signed lo) eqn:Lt; [ discriminate | ].
      apply read_char_some in R as (t & Ct & Et & Ht); [ | discriminate ].
      assert (N3 : r3 <> []) by (intros ->; destruct n; discriminate).
      apply read_char_some in R2 as (u & Cu & Eu & Hu); [ | exact N3 ].
      rewrite Et in Hp. apply Forall_app in Hp. destruct Hp as [Hp1 Hp2]. inversion Hp2 as [ | ? ? _ Hp3 ]; subst. rewrite Eu in Hp3. apply Forall_app in Hp3. destruct Hp3 as [_ Hp3].
      apply IH in H; auto. destruct H as (body & items & -> & Hi & ->).
      exists (t ++ [45] ++ u ++ body), ((lo, hi) :: items). split; [ | split ].
      * rewrite Et, Eu. now rewrite <- ?app_assoc.
      * constructor; auto.
        -- intros F. rewrite Ht. cbn. specialize (Hfirst F). congruence.
        -- rewrite Hu. cbn. congruence.
        -- now apply Z.ltb_ge in Lt.
      * cbn [coverb existsb fst snd]. now rewrite orb_assoc.
    + assert (N1 : r1 <> []) by (intros ->; destruct n; discriminate).
      apply read_char_some in R as (t & Ct & Et & Ht); [ | exact N1 ]. pose proof Hp as Hp0.
      rewrite Et in Hp. apply Forall_app in Hp. destruct Hp as [Hp1 Hp2].
      assert (Ol : octet lo) by (destruct Ct; [ now inversion Hp1 | inversion Hp1 as [ | ? ? _ Q ]; now inversion Q ]).
      apply IH in H; auto. destruct H as (body & items & Er & Hi & ->). exists (t ++ body), ((lo, lo) :: items). split; [ | split ].
      * rewrite Et, Er. now rewrite <- app_assoc.
      * constructor; auto.
        -- intros F. rewrite Ht. cbn. specialize (Hfirst F). congruence.
        -- intros y q ->. destruct (Z.eq_dec y 93) as [ | N ]; [ assumption | ]. exfalso.
           assert (range_end r1 = Some ((y :: q) ++ 93 :: r)); [ | congruence ]. apply range_end_spec. rewrite Er. split; [ reflexivity | ]. now exists y, (q ++ 93 :: r).
      * cbn [coverb existsb fst snd]. rewrite orb_assoc. f_equal. f_equal. destruct (c =? lo) eqn:Ec; eqbs.
        -- subst. symmetry. apply andb_true_intro. lia.
        -- symmetry. apply andb_false_iff. assert (order c <> order lo) by (intros K; apply Ec; now apply order_inj). lia.
Qed.
Lemma class_complete first body items : class_items first body items -> forall c r n found, octet c -> Forall octet body ->
  (length body < n)%nat -> class_loop n (body ++ 93 :: r) first found c = Ok (Some (found || coverb items c, r)).
Proof.
  induction 1 as [ | first t x rest items Ct Hf Hr Hi IH | first t lo u hi rest items Ct Hf Cu Hu Ho Hi IH ]; intros c r n found Hc Hb Hn.
  - destruct n as [ | n ]; [ cbn in Hn; lia | ]. cbn. now rewrite orb_false_r.
  - destruct n as [ | n ]; [ cbn in Hn; lia | ]. pose proof (class_char_ne _ _ Ct) as Nt. rewrite app_length in Hn.
    destruct t as [ | t0 t' ] eqn:Et; [ congruence | ]. rewrite <- Et in *.
    assert (Ep : (t ++ rest) ++ 93 :: r = t0 :: t' ++ rest ++ 93 :: r) by (rewrite Et; cbn; now rewrite <- app_assoc).
    cbn [class_loop]. rewrite Ep. replace (negb first && (t0 =? 93)) with false.
    2:{ destruct first; [ reflexivity | ]. cbn. symmetry. apply Z.eqb_neq. specialize (Hf eq_refl). intros ->.
      rewrite Et in Hf. now apply Hf. }
    rewrite <- Ep, <- app_assoc. rewrite (read_char_char _ _ _ Ct) by (left; now destruct rest).
    assert (Re : range_end (rest ++ 93 :: r) = None).
    { destruct (range_end (rest ++ 93 :: r)) as [r' | ] eqn:Re; [ exfalso | reflexivity ]. apply range_end_spec in Re. destruct Re as (Er & y & q & -> & Ny). destruct rest as [ | a [ | b rest' ] ]; cbn [app] in Er.
      - discriminate.
      - injection Er as -> <- <-. congruence.
      - injection Er as -> <- <-. now specialize (Hr b rest' eq_refl). }
    match goal with |- context [range_end ?q] => change q with (rest ++ 93 :: r) end. rewrite Re.
    apply Forall_app in Hb. destruct Hb as [Hb1 Hb2]. rewrite IH; auto.
    2:{ rewrite Et in Hn. cbn [length] in Hn. lia. }
    assert (Ox : octet x) by (destruct Ct; [ now inversion Hb1 | inversion Hb1 as [ | ? ? _ Q ]; now inversion Q ]).
    cbn [coverb existsb fst snd]. rewrite orb_assoc. do 5 f_equal. destruct (c =? x) eqn:Ec; eqbs.
    + subst. symmetry. apply andb_true_intro. lia.
    + symmetry. apply andb_false_iff. assert (order c <> order x) by (intros K; apply Ec; now apply order_inj). lia.
  - destruct n as [ | n ]; [ cbn in Hn; lia | ]. pose proof (class_char_ne _ _ Ct) as Nt. pose proof (class_char_ne _ _ Cu) as Nu. rewrite !app_length in Hn.
    destruct t as [ | t0 t' ] eqn:Et; [ congruence | ]. rewrite <- Et in *.
    assert (Ep : (t ++ [45] ++ u ++ rest) ++ 93 :: r = t0 :: t' ++ [45] ++ u ++ rest ++ 93 :: r) by (rewrite Et; cbn; now rewrite <- ?app_assoc; cbn; rewrite <- app_assoc).
    assert (Ep' : (t ++ [45] ++ u ++ rest) ++ 93 :: r = t ++ 45 :: u ++ rest ++ 93 :: r) by (rewrite <- ?app_assoc; cbn; now rewrite <- ?app_assoc).
    cbn [class_loop]. rewrite Ep. replace (negb first && (t0 =? 93)) with false.
    2:{ destruct first; [ reflexivity | ]. cbn. symmetry. apply Z.eqb_neq. specialize (Hf eq_refl). intros ->.
      rewrite Et in Hf. now apply Hf. }
    rewrite <- Ep, Ep'. rewrite (read_char_char _ _ _ Ct) by (left; discriminate).
    assert (Re : range_end (45 :: u ++ rest ++ 93 :: r) = Some (u ++ rest ++ 93 :: r)).
    { apply range_end_spec. split; [ reflexivity | ]. destruct u as [ | y u' ]; [ congruence | ]. exists y, (u' ++ rest ++ 93 :: r). split; [ reflexivity | ]. intros ->. now apply Hu. }
    rewrite Re. rewrite (read_char_char _ _ _ Cu) by (left; now destruct rest).
    destruct (signed hi <? signed lo) eqn:Lt; [ apply Z.ltb_lt in Lt; unfold signed, order in *; lia | ].
    apply Forall_app in Hb. destruct Hb as [_ Hb]. apply Forall_app in Hb. destruct Hb as [_ Hb]. apply Forall_app in Hb. destruct Hb as [_ Hb].
    rewrite IH; auto.
    2:{ rewrite Et in Hn. cbn [length] in Hn. lia. }
    cbn [coverb existsb fst snd]. now rewrite orb_assoc, !signed_order.
Qed.
Lemma class_ok n : forall p first found c, (length p < n)%nat -> exists r, class_loop n p first found c = Ok r.
Proof.
  induction n as [ | n IH ]; intros p first found c H; [ lia | ]. cbn [class_loop]. destruct p as [ | x r0 ]; [ eauto | ].
  destruct (negb first && (x =? 93)); [ eauto | ]. destruct (read_char (x :: r0)) as [[lo r1] | ] eqn:R; [ | eauto ]. apply read_char_len in R.
  destruct (range_end r1) as [r2 | ] eqn:Re.
  - apply range_end_spec in Re. destruct Re as (-> & _). destruct (read_char r2) as [[hi r3] | ] eqn:R2; [ | eauto ]. apply read_char_len in R2.
    destruct (signed hi <? signed lo); [ eauto | ]. apply IH. cbn [length] in *. lia.
  - apply IH. lia.
Qed.
Lemma match_class_ok (p : str) c : exists r, match_char_class p c = Ok r.
Proof.
  destruct p as [ | x p ]; cbn [match_char_class]; [ eauto | ]. destruct (x =? 33).
  - destruct (class_ok (S (length p)) p true false c) as [r ->]; [ lia | ]. cbn. eauto.
  - apply class_ok. lia.
Qed.
Lemma in_class_neg b c : in_class (33 :: b) c <-> exists items, class_items true b items /\ ~ covered items c. Proof. reflexivity. Qed.
Lemma in_class_pos x b c : x <> 33 -> (in_class (x :: b) c <-> exists items, class_items true (x :: b) items /\ covered items c).
Proof.
  intros N. unfold in_class. destruct x as [ | x | x ]; try reflexivity. do 6 (destruct x as [ x | x | ]; try reflexivity). congruence.
Qed.
Lemma class_items_det first body items1 items2 : class_items first body items1 -> class_items first body items2 -> Forall octet body -> forall c, octet c -> coverb items1 c = coverb items2 c.
Proof.
  intros H1 H2 Hb c Hc. pose proof (class_complete _ _ _ H1 c [] (S (length body)) false Hc Hb ltac:(lia)) as E1.
  pose proof (class_complete _ _ _ H2 c [] (S (length body)) false Hc Hb ltac:(lia)) as E2. rewrite E1 in E2. now injection E2.
Qed.
Lemma match_class_sound (p : str) c b r : octet c -> Forall octet p -> match_char_class p c = Ok (Some (b, r)) ->
  exists body, p = body ++ 93 :: r /\ (b = true <-> in_class body c).
Proof.
  intros Hc Hp. destruct p as [ | x p ]; cbn [match_char_class]; [ discriminate | ]. destruct (x =? 33) eqn:E; eqbs.
  - subst x. destruct (class_loop (S (length p)) p true false c) as [[[found r'] | ] | | | ] eqn:R; intros H; try discriminate H.
    assert (b = negb found /\ r = r') as [-> ->] by (cbn in H; split; congruence). clear H.
    inversion Hp as [ | ? ? _ H2 ]; subst. pose proof (class_sound _ _ _ _ _ _ _ Hc H2 R) as (body & items & -> & Hi & ->). exists (33 :: body). split; [ reflexivity | ]. rewrite in_class_neg. cbn [orb]. split.
    + intros K. exists items. split; [ exact Hi | ]. rewrite <- coverb_iff. now destruct (coverb items c).
    + intros (items' & Hi' & K). rewrite <- coverb_iff in K. apply Forall_app in H2. rewrite (class_items_det _ _ _ _ Hi Hi') by tauto. now destruct (coverb items' c).
  - intros R. pose proof (class_sound _ _ _ _ _ _ _ Hc Hp R) as (body & items & Ep & Hi & ->).
    destruct body as [ | y body ]; [ inversion Hi as [ | ? ? ? ? ? A _ _ _ Z | ? ? ? ? ? ? ? A _ _ _ _ _ Z ]; apply class_char_ne in A; destruct t; discriminate || congruence | ].
    injection Ep as <- ->. exists (x :: body). split; [ reflexivity | ]. rewrite in_class_pos by assumption. cbn [orb]. split.
    + intros K. exists items. now rewrite <- coverb_iff.
    + intros (items' & Hi' & K). rewrite <- coverb_iff in K. rewrite (class_items_det _ _ _ _ Hi Hi'); auto. change (x :: body ++ 93 :: r) with ((x :: body) ++ 93 :: r) in Hp. apply Forall_app in Hp. tauto.
Qed.
Lemma match_class_complete (body : str) c r : octet c -> Forall octet body -> in_class body c -> match_char_class (body ++ 93 :: r) c = Ok (Some (true, r)).
Proof.
  intros Hc Hb. destruct body as [ | x body ].
  - intros (items & Hi & _). inversion Hi as [ | ? ? ? ? ? A _ _ _ Z | ? ? ? ? ? ? ? A _ _ _ _ _ Z ]; apply class_char_ne in A; destruct t; discriminate || congruence.
  - cbn [app match_char_class]. inversion Hb; subst. destruct (x =? 33) eqn:E; eqbs.
    + subst x. rewrite in_class_neg. intros (items & Hi & K). rewrite (class_complete _ _ _ Hi); auto; [ | rewrite app_length; cbn; lia ].
      cbn. rewrite <- coverb_iff in K. now destruct (coverb items c).
    + rewrite in_class_pos by assumption. intros (items & Hi & K). change (x :: body ++ 93 :: r) with ((x :: body) ++ 93 :: r). rewrite (class_complete _ _ _ Hi); auto.
      * apply coverb_iff in K. now rewrite K.
      * rewrite app_length. cbn. lia.
Qed.

(** ** Alternatives *)
Lemma count_app c (a b : str) : count_byte c (a ++ b) = (count_byte c a + count_byte c b)%nat. Proof. apply count_occ_app. Qed.
Lemma count_cons c x (a : str) : count_byte c (x :: a) = ((if Z.eq_dec x c then 1 else 0) + count_byte c a)%nat.
Proof. unfold count_byte. cbn [count_occ]. destruct (Z.eq_dec x c); reflexivity. Qed.
Lemma parse_byte c (r : str) d cur alts : c <> 92 -> c <> 123 -> c <> 125 -> (c <> 44 \/ d <> 1%nat) ->
  parse_alternatives (c :: r) d cur alts = parse_alternatives r d (cur ++ [c]) alts.
Proof.
  intros A B C D. cbn [parse_alternatives]. rewrite (proj2 (Z.eqb_neq c 92) A), (proj2 (Z.eqb_neq c 123) B), (proj2 (Z.eqb_neq c 125) C).
  replace ((c =? 44) && (d =? 1)%nat) with false; [ reflexivity | ]. symmetry. apply andb_false_iff. destruct D; [ left; now apply Z.eqb_neq | right; now apply Nat.eqb_neq ].
Qed.
Lemma parse_escape x (r : str) d cur alts : parse_alternatives (92 :: x :: r) d cur alts = parse_alternatives r d (cur ++ [92; x]) alts. Proof. reflexivity. Qed.
Lemma parse_open (r : str) d cur alts : parse_alternatives (123 :: r) d cur alts = if (64 <? S d)%nat then None else parse_alternatives r (S d) (cur ++ [123]) alts.
Proof. reflexivity. Qed.
Lemma parse_close (r : str) d cur alts : parse_alternatives (125 :: r) (S (S d)) cur alts = parse_alternatives r (S d) (cur ++ [125]) alts. Proof. reflexivity. Qed.
Lemma parse_comma (r : str) cur acc : parse_alternatives (44 :: r) 1 cur acc = if glob_max_frames <? Z.of_nat (length (acc ++ [cur])) then None else parse_alternatives r 1 [] (acc ++ [cur]).
Proof. reflexivity. Qed.
Lemma balanced_parse s : balanced s -> forall (r : str) d cur alts, (S (S d) + count_byte 123 s <= 64)%nat ->
  parse_alternatives (s ++ r) (S (S d)) cur alts = parse_alternatives r (S (S d)) (cur ++ s) alts.
Proof.
  induction 1 as [ | x s Hs IH | c s N1 N2 N3 Hs IH | a s Ha IHa Hs IHs ]; intros r d cur alts L.
  - now rewrite app_nil_r.
  - cbn [app]. rewrite parse_escape, IH, <- app_assoc; [ reflexivity | ]. rewrite !count_cons in L. lia.
  - cbn [app]. rewrite parse_byte, IH, <- app_assoc by (auto || (rewrite count_cons in L; lia)). reflexivity.
  - rewrite !count_app in L. change (count_byte 123 [123]) with 1%nat in L. change (count_byte 123 [125]) with 0%nat in L.
    rewrite <- !app_assoc. cbn [app]. rewrite parse_open. replace (64 <? S (S (S d)))%nat with false by (symmetry; apply Nat.ltb_ge; lia).
    rewrite IHa by lia. rewrite parse_close, IHs by lia. now rewrite <- !app_assoc.
Qed.
Lemma alternative_parse s : alternative s -> forall (r : str) cur alts, (1 + count_byte 123 s <= 64)%nat ->
  parse_alternatives (s ++ r) 1 cur alts = parse_alternatives r 1 (cur ++ s) alts.
Proof.
  induction 1 as [ | x s Hs IH | c s N1 N2 N3 N4 Hs IH | a s Ha Hs IHs ]; intros r cur alts L.
  - now rewrite app_nil_r.
  - cbn [app]. rewrite parse_escape, IH, <- app_assoc; [ reflexivity | ]. rewrite !count_cons in L. lia.
  - cbn [app]. rewrite parse_byte, IH, <- app_assoc by (auto || (rewrite count_cons in L; lia)). reflexivity.
  - rewrite !count_app in L. change (count_byte 123 [123]) with 1%nat in L. change (count_byte 123 [125]) with 0%nat in L.
    rewrite <- !app_assoc. cbn [app]. rewrite parse_open. replace (64 <? 2)%nat with false by reflexivity.
    rewrite (balanced_parse a Ha) by lia. rewrite parse_close, IHs by lia. now rewrite <- !app_assoc.
Qed.
Lemma alternatives_complete alts : Forall alternative alts -> alts <> [] -> forall r acc,
  1 + Z.of_nat (count_byte 123 (join [44] alts)) <= 64 -> Z.of_nat (length acc) + Z.of_nat (count_byte 44 (join [44] alts)) <= 4096 ->
  parse_alternatives (join [44] alts ++ 125 :: r) 1 [] acc = Some (acc ++ alts, r).
Proof.
  induction 1 as [ | a l Ha Hl IH ]; intros N r acc L1 L2; [ congruence | ]. destruct l as [ | b l ].
  - cbn [join] in *. rewrite (alternative_parse a Ha); [ reflexivity | lia ].
  - assert (E : join [44] (a :: b :: l) = a ++ [44] ++ join [44] (b :: l)) by reflexivity. rewrite E in *. rewrite !count_app in *.
    change (count_byte 44 [44]) with 1%nat in L2. rewrite <- !app_assoc. rewrite (alternative_parse a Ha) by lia.
    cbn [app]. rewrite parse_comma. rewrite app_length. cbn [length]. replace (glob_max_frames <? _) with false by (symmetry; apply Z.ltb_ge; unfold glob_max_frames; lia).
    rewrite IH; [ now rewrite <- app_assoc | discriminate | lia | ]. rewrite app_length. cbn [length]. lia.
Qed.
Lemma parse_nested n : forall (p : str) d cur alts x, (length p <= n)%nat -> parse_alternatives p (S (S d)) cur alts = Some x ->
  exists s p', balanced s /\ p = s ++ 125 :: p' /\ parse_alternatives p' (S d) (cur ++ s ++ [125]) alts = Some x.
Proof.
  induction n as [ | n IH ]; intros p d cur alts x Hn H; [ destruct p; [ discriminate | cbn in Hn; lia ] | ].
  destruct p as [ | c r ]; [ discriminate | ]. cbn [length] in Hn.
  assert (Byte : c <> 92 -> c <> 123 -> c <> 125 -> exists s p', balanced s /\ c :: r = s ++ 125 :: p' /\ parse_alternatives p' (S d) (cur ++ s ++ [125]) alts = Some x).
  { intros A B C. rewrite parse_byte in H by auto. apply IH in H; [ | lia ]. destruct H as (s & p' & Hs & -> & H). exists (c :: s), p'. split; [ now constructor | ]. split; [ reflexivity | ].
    rewrite <- H. now rewrite <- app_assoc. }
  destruct (Z.eq_dec c 92) as [-> | N1]; [ | destruct (Z.eq_dec c 123) as [-> | N2]; [ | destruct (Z.eq_dec c 125) as [-> | N3]; [ | now apply Byte ] ] ].
  - destruct r as [ | y r ]; [ discriminate | ]. rewrite parse_escape in H. apply IH in H; [ | cbn in Hn; lia ].
    destruct H as (s & p' & Hs & -> & H). exists (92 :: y :: s), p'. split; [ now constructor | ]. split; [ reflexivity | ]. rewrite <- H. now rewrite <- app_assoc.
  - rewrite parse_open in H. destruct (64 <? S (S (S d)))%nat; [ discriminate | ]. apply IH in H; [ | lia ].
    destruct H as (a & p1 & Ha & -> & H). rewrite app_length in Hn. cbn [length] in Hn. apply IH in H; [ | lia ]. destruct H as (s & p' & Hs & -> & H).
    exists ([123] ++ a ++ [125] ++ s), p'. split; [ now constructor | ]. split; [ cbn; now rewrite <- ?app_assoc | ]. rewrite <- H. f_equal. now rewrite <- !app_assoc.
  - rewrite parse_close in H. exists [], r. split; [ constructor | ]. auto.
Qed.
Lemma alternatives_sound n : forall (p : str) cur acc res r, (length p <= n)%nat -> parse_alternatives p 1 cur acc = Some (res, r) ->
  exists a l, Forall alternative (a :: l) /\ p = join [44] (a :: l) ++ 125 :: r /\ res = acc ++ (cur ++ a) :: l.
Proof.
  induction n as [ | n IH ]; intros p cur acc res r Hn H; [ destruct p; [ discriminate | cbn in Hn; lia ] | ].
  destruct p as [ | c q ]; [ discriminate | ]. cbn [length] in Hn.
  assert (J : forall s a l, join [44] ((s ++ a) :: l) = s ++ join [44] (a :: l)) by (intros s a [ | b l ]; cbn [join]; now rewrite <- ?app_assoc).
  assert (Byte : c <> 92 -> c <> 123 -> c <> 125 -> c <> 44 -> exists a l, Forall alternative (a :: l) /\ c :: q = join [44] (a :: l) ++ 125 :: r /\ res = acc ++ (cur ++ a) :: l).
  { intros A B C D. rewrite parse_byte in H by auto. apply IH in H; [ | lia ]. destruct H as (a & l & Hl & -> & ->). exists ([c] ++ a), l. inversion Hl; subst.
    split; [ constructor; [ now constructor | assumption ] | ]. split; [ now rewrite J, <- app_assoc | now rewrite <- app_assoc ]. }
  destruct (Z.eq_dec c 92) as [-> | N1]; [ | destruct (Z.eq_dec c 123) as [-> | N2]; [ | destruct (Z.eq_dec c 125) as [-> | N3]; [ | destruct (Z.eq_dec c 44) as [-> | N4]; [ | now apply Byte ] ] ] ].
  - destruct q as [ | y q ]; [ discriminate | ]. rewrite parse_escape in H. apply IH in H; [ | cbn in Hn; lia ]. destruct H as (a & l & Hl & -> & ->). exists ([92; y] ++ a), l. inversion Hl; subst.
    split; [ constructor; [ now constructor | assumption ] | ]. split; [ now rewrite J, <- app_assoc | now rewrite <- app_assoc ].
  - rewrite parse_open in H. change (64 <? 2)%nat with false in H. cbv iota in H. apply (parse_nested (length q)) in H; [ | lia ]. destruct H as (s & p' & Hs & -> & H).
    rewrite app_length in Hn. cbn [length] in Hn. apply IH in H; [ | lia ]. destruct H as (a & l & Hl & -> & ->). exists (([123] ++ s ++ [125]) ++ a), l. inversion Hl; subst.
    split; [ constructor; [ | assumption ] | ].
    + rewrite <- !app_assoc. now constructor.
    + rewrite J. split; [ cbn; now rewrite <- ?app_assoc | now rewrite <- !app_assoc ].
  - change (parse_alternatives (125 :: q) 1 cur acc) with (Some (acc ++ [cur], q)) in H. injection H as <- <-. exists [], []. split; [ repeat constructor | ]. split; [ reflexivity | now rewrite app_nil_r ].
  - rewrite parse_comma in H.
    destruct (glob_max_frames <? _); [ discriminate | ]. apply IH in H; [ | lia ]. destruct H as (a & l & Hl & -> & ->). exists [], (a :: l).
    split; [ now repeat constructor; inversion Hl | ]. split; [ reflexivity | ]. rewrite app_nil_r. now rewrite <- app_assoc.
Qed.

(** ** The language *)
Section Language.
Variable D : Z -> Prop.
Variable stop : bool.
Notation den := (denotes D stop).
Lemma den_nil t : den [] t <-> t = [].
Proof. split; [ intros H; inversion H; reflexivity | intros ->; constructor ]. Qed.
Lemma den_byte c p t : ~ In c [92; 42; 63; 91; 123] -> (den (c :: p) t <-> exists t', t = c :: t' /\ den p t').
Proof.
  intros N. split.
  - intros H. inversion H; subst; try (exfalso; apply N; cbn; tauto). eauto.
  - intros (t' & -> & H). now constructor.
Qed.
Lemma den_any p t : den (63 :: p) t <-> exists c t', t = c :: t' /\ ~ D c /\ den p t'.
Proof.
  split.
  - intros H. inversion H; subst; [ exfalso; cbn in *; tauto | eauto ].
  - intros (c & t' & -> & N & H). now constructor.
Qed.
Lemma den_super p t : den (42 :: 42 :: p) t <-> exists u t', t = u ++ t' /\ den p t'.
Proof.
  split.
  - intros H. inversion H; subst; [ exfalso; cbn in *; tauto | exfalso; cbn in *; congruence | eauto ].
  - intros (u & t' & -> & H). now constructor.
Qed.
Lemma den_star p t : head p <> Some 42 -> (den (42 :: p) t <-> exists u t', t = u ++ t' /\ Forall (fun c => ~ D c) u /\ den p t').
Proof.
  intros N. split.
  - intros H. inversion H; subst; [ exfalso; cbn in *; tauto | eauto | exfalso; cbn in *; congruence ].
  - intros (u & t' & -> & F & H). now constructor.
Qed.
Lemma den_class p t : den (91 :: p) t <-> exists body c q t', p = body ++ 93 :: q /\ t = c :: t' /\ in_class body c /\ den q t'.
Proof.
  split.
  - intros H. inversion H; subst; [ exfalso; cbn in *; tauto | ]. eauto 10.
  - intros (body & c & q & t' & -> & -> & I & H). exact (d_class D stop body c q t' I H).
Qed.
Lemma den_brace p t : den (123 :: p) t <-> exists alts a q, Forall alternative alts /\ In a alts /\ p = join [44] alts ++ 125 :: q /\ den (a ++ q) t.
Proof.
  split.
  - intros H. inversion H; subst; [ exfalso; cbn in *; tauto | ]. eauto 10.
  - intros (alts & a & q & F & I & -> & H). exact (d_alternatives D stop alts a q t F I H).
Qed.
End Language.
Lemma den_escape_stop D p t : denotes D true (92 :: p) t <-> exists c q, p = c :: q /\ t = [c].
Proof.
  split.
  - intros H. inversion H; subst; [ exfalso; cbn in *; tauto | discriminate | eauto ].
  - intros (c & q & -> & ->). now constructor.
Qed.
Lemma den_escape D p t : denotes D false (92 :: p) t <-> exists c q t', p = c :: q /\ t = c :: t' /\ denotes D false q t'.
Proof.
  split.
  - intros H. inversion H; subst; [ exfalso; cbn in *; tauto | eauto 10 | discriminate ].
  - intros (c & q & t' & -> & -> & H). now constructor.
Qed.
Lemma join_part (a : str) alts : In a alts -> exists s1 s2, join [44] alts = s1 ++ a ++ s2.
Proof.
  induction alts as [ | b l IH ]; [ contradiction | ]. intros [-> | I].
  - destruct l as [ | c l ]; [ exists [], []; cbn; now rewrite app_nil_r | ]. exists [], ([44] ++ join [44] (c :: l)). reflexivity.
  - destruct (IH I) as (s1 & s2 & E). destruct l as [ | c l ]; [ contradiction | ]. exists (b ++ [44] ++ s1), s2.
    change (join [44] (b :: c :: l)) with (b ++ [44] ++ join [44] (c :: l)). rewrite E. now rewrite <- !app_assoc.
Qed.
Lemma join_length (alts : list str) : (length alts <= length (join [44%Z] alts) + 1)%nat.
Proof.
  induction alts as [ | b [ | c l ] IH ]; cbn [length]; try lia. change (join [44] (b :: c :: l)) with (b ++ [44] ++ join [44] (c :: l)). rewrite !app_length. unfold str, byte in *. cbn [length] in *. lia.
Qed.
(** Without backslashes both readings agree. *)
Lemma den_no_escape D p t s1 s2 : ~ In 92 p -> denotes D s1 p t -> denotes D s2 p t.
Proof.
  intros N H. induction H; try (exfalso; apply N; cbn; tauto).
  - constructor.
  - constructor; auto. apply IHdenotes. intros I. apply N. now right.
  - constructor; auto. apply IHdenotes. intros I. apply N. now right.
  - constructor; auto. apply IHdenotes. intros I. apply N. now right.
  - apply d_super. apply IHdenotes. intros I. apply N. now do 2 right.
  - constructor; auto. apply IHdenotes. intros I. apply N. rewrite !in_app_iff. tauto.
  - apply (d_alternatives D s2 alts a); auto. apply IHdenotes. intros I. apply N. destruct (join_part a alts H0) as (x & y & ->). rewrite !in_app_iff in *. tauto.
Qed.

(** ** The matcher *)
Fixpoint weight (N L : nat) : nat := match L with O => 1%nat | S l => (1 + (l + N + 3) * weight N l)%nat end.
Lemma weight_pos N L : (1 <= weight N L)%nat. Proof. destruct L; cbn [weight]; lia. Qed.
Lemma weight_mono N L M : (L <= M)%nat -> (weight N L <= weight N M)%nat.
Proof. induction 1 as [ | M H IH ]; [ lia | ]. cbn [weight]. nia. Qed.
Section Matcher.
Variable text : str.
Variable delimiters : Z -> bool.
Variable has : bool.
Hypothesis Ht : Forall octet text.
Definition delim (c : Z) : Prop := has = true /\ delimiters c = true.
Notation den := (denotes delim true).
Notation N := (length text).
Definition fm (f : frame) : Prop := exists k, (g_ti f <= k)%nat /\ ((k <= g_limit f)%nat \/ k = g_ti f) /\ den (g_pattern f) (skipn k text).
Definition frame_ok (f : frame) : Prop := (g_ti f <= N)%nat /\ (g_limit f <= N)%nat /\ Forall octet (g_pattern f).
Definition fw (f : frame) : nat := ((1 + (g_limit f - g_ti f)) * weight N (length (g_pattern f)))%nat.
Definition Sw (l : list frame) : nat := list_sum (map fw l).
Lemma Sw_app a b : Sw (a ++ b) = (Sw a + Sw b)%nat. Proof. unfold Sw. now rewrite map_app, list_sum_app. Qed.
Lemma skipn_nth ti c : nth_error text ti = Some c -> skipn ti text = c :: skipn (S ti) text /\ (S ti <= N)%nat.
Proof.
  intros H. split; [ | apply nth_error_Some; congruence ]. revert ti H. clear. induction text as [ | x l IH ]; intros [ | ti ] H; try discriminate.
  - now injection H as ->.
  - cbn [skipn]. now apply IH.
Qed.
Lemma skipn_end k : skipn k text = [] -> (k <= N)%nat -> k = N.
Proof. intros H L. pose proof (skipn_length k text) as K. rewrite H in K. cbn [length] in K. lia. Qed.
Lemma nth_skipn ti : nth_error text ti = None -> skipn ti text = [].
Proof. intros H. apply nth_error_None in H. now apply skipn_all2. Qed.
Lemma octet_nth ti c : nth_error text ti = Some c -> octet c.
Proof. intros H. apply nth_error_In in H. now apply (proj1 (Forall_forall _ _) Ht). Qed.
Lemma push_all_spec l : forall rest ti s s', push_all l rest ti s = Some s' ->
  fst s' = map (fun a => {| g_pattern := a ++ rest; g_ti := ti; g_limit := 0 |}) (rev l) ++ fst s.
Proof.
  induction l as [ | a l IH ]; intros rest ti s s' H; cbn [push_all] in H.
  - now injection H as <-.
  - destruct (full (fst s)); [ discriminate | ]. destruct (max_bytes <? _); [ discriminate | ]. apply IH in H. rewrite H. cbn [fst rev]. now rewrite map_app, <- app_assoc.
Qed.
Lemma reach_le t : (reach delimiters t <= length t)%nat.
Proof. induction t as [ | c t IH ]; cbn [reach length]; [ lia | ]. destruct (delimiters c); lia. Qed.
Lemma reach_spec u t : has = true -> Forall (fun c => ~ delim c) u -> (length u <= reach delimiters (u ++ t))%nat.
Proof.
  intros Hh. induction 1 as [ | c u Hc Hu IH ]; cbn [length app reach]; [ lia | ]. destruct (delimiters c) eqn:E; [ | lia ]. exfalso. apply Hc. now split.
Qed.
Lemma reach_free t k : (k <= reach delimiters t)%nat -> Forall (fun c => ~ delim c) (firstn k t).
Proof.
  revert k. induction t as [ | c t IH ]; intros [ | k ] H; cbn [firstn]; try constructor; cbn [reach] in H; destruct (delimiters c) eqn:E; try lia.
  - intros [_ K]. congruence.
  - apply IH. lia.
Qed.
Lemma small_tail c p : small (c :: p) -> small p.
Proof. unfold small. rewrite !count_cons. lia. Qed.
Lemma small_app p q : small (p ++ q) -> small q.
Proof. unfold small. rewrite !count_app. lia. Qed.
Lemma skipn_skipn' a b (l : str) : skipn a (skipn b l) = skipn (b + a) l.
Proof. revert a l. induction b as [ | b IH ]; intros a l; [ reflexivity | ]. destruct l; cbn [skipn plus]; [ apply skipn_nil | apply IH ]. Qed.
Lemma skipn_split ti u t : skipn ti text = u ++ t -> (ti <= N)%nat -> skipn (ti + length u) text = t /\ (ti + length u <= N)%nat.
Proof.
  intros H L. split.
  - rewrite <- skipn_skipn', H. now rewrite skipn_app, skipn_all, Nat.sub_diag.
  - pose proof (skipn_length ti text) as K. rewrite H, app_length in K. lia.
Qed.
Definition step_post (p : str) (ti : nat) (l : list frame) (r : glob_error + bool * nat * stack) : Prop :=
  match r with
  | inl _ => True
  | inr (b, ti', s) =>
      exists new, fst s = new ++ l /\ (Sw new + 1 <= weight N (length p))%nat /\ Forall frame_ok new /\
        ((b = true /\ ti' = N) \/ Exists fm new -> den p (skipn ti text)) /\
        (small p -> (den p (skipn ti text) -> (b = true /\ ti' = N) \/ Exists fm new) /\ Forall (fun f => small (g_pattern f)) new)
  end.
Lemma no_post p ti l s : fst s = l -> ~ den p (skipn ti text) -> step_post p ti l (inr (false, ti, s)).
Proof.
  intros E N'. exists []. split; [ exact E | ]. split; [ pose proof (weight_pos N (length p)); cbn; lia | ]. split; [ constructor | ]. split.
  - intros [[H _] | H]; [ discriminate | inversion H ].
  - intros _. split; [ tauto | constructor ].
Qed.
Lemma later_post p q ti l r : (length q < length p)%nat -> (small p -> small q) -> (den p (skipn ti text) <-> den q (skipn (S ti) text)) ->
  step_post q (S ti) l r -> step_post p ti l r.
Proof.
  intros Hl Hs Hd. destruct r as [ | [[b ti'] s] ]; [ trivial | ]. intros (new & E & W & F & H1 & H2). exists new. split; [ exact E | ]. split.
  - pose proof (weight_mono N (length q) (length p)). lia.
  - split; [ exact F | ]. rewrite Hd. split; [ exact H1 | ]. intros Q. apply H2. auto.
Qed.
Lemma step_spec n : forall (p : str) ti s, (length p <= n)%nat -> (ti <= N)%nat -> Forall octet p ->
  exists r, match_pattern_step text delimiters has n p ti s = Ok r /\ step_post p ti (fst s) r.
Proof.
  induction n as [ | n IH ]; intros p ti s Hn Hti Hp.
  - destruct p; [ | cbn in Hn; lia ]. cbn [match_pattern_step]. eexists. split; [ reflexivity | ]. exists []. split; [ reflexivity | ]. split; [ cbn; lia | ]. split; [ constructor | ].
    rewrite den_nil. split.
    + intros [[_ ->] | H]; [ now apply skipn_all | inversion H ].
    + intros _. split; [ | constructor ]. intros H. left. split; [ reflexivity | ]. now apply skipn_end.
  - destruct p as [ | pc p ].
    { cbn [match_pattern_step]. eexists. split; [ reflexivity | ]. exists []. split; [ reflexivity | ]. split; [ cbn; lia | ]. split; [ constructor | ].
      rewrite den_nil. split.
      + intros [[_ ->] | H]; [ now apply skipn_all | inversion H ].
      + intros _. split; [ | constructor ]. intros H. left. split; [ reflexivity | ]. now apply skipn_end. }
    cbn [length] in Hn. inversion Hp as [ | ? ? Hpc Hp' ]; subst. cbn [match_pattern_step].
    destruct (pc =? 92) eqn:E1; [ eqbs; subst pc | ].
    { destruct p as [ | x p ].
      { eexists. split; [ reflexivity | ]. apply no_post; [ reflexivity | ]. rewrite den_escape_stop. intros (c & q & E & _). discriminate. }
      destruct (nth_error text ti) as [c | ] eqn:En.
      - destruct (skipn_nth _ _ En) as [Es Hle]. destruct (c =? x) eqn:Ec; eqbs.
        + subst x. eexists. split; [ reflexivity | ]. exists []. split; [ reflexivity | ]. split; [ cbn [length weight]; pose proof (weight_pos N (length p)); cbn; lia | ]. split; [ constructor | ].
          rewrite den_escape_stop, Es. split.
          * intros [[_ H] | H]; [ | inversion H ]. exists c, p. split; [ reflexivity | ]. rewrite H. now rewrite skipn_all.
          * intros _. split; [ | constructor ]. intros (c' & q & _ & H). left. split; [ reflexivity | ]. injection H as _ H. now apply (skipn_end (S ti)).
        + eexists. split; [ reflexivity | ]. apply no_post; [ reflexivity | ]. rewrite den_escape_stop, Es. intros (c' & q & E & H). congruence.
      - eexists. split; [ reflexivity | ]. apply no_post; [ reflexivity | ]. rewrite den_escape_stop, (nth_skipn _ En). intros (c' & q & _ & H). discriminate. }
    destruct (pc =? 42) eqn:E2; [ eqbs; subst pc | ].
    { unfold push_wildcard.
      set (super := match p with c :: _ => c =? 42 | [] => false end).
      set (q := if super then tl p else p).
      set (lim := if negb super && has then (ti + reach delimiters (skipn ti text))%nat else N).
      assert (Hlim : (ti <= lim <= N)%nat).
      { unfold lim. destruct (negb super && has); [ | lia ]. pose proof (reach_le (skipn ti text)) as K. rewrite skipn_length in K. lia. }
      replace (ti <=? lim)%nat with true by (symmetry; apply Nat.leb_le; lia).
      destruct (full (fst s)); [ eexists; split; [ reflexivity | exact I ] | ]. eexists. split; [ reflexivity | ].
      set (f := {| g_pattern := q; g_ti := ti; g_limit := lim |}). exists [f]. split; [ reflexivity | ].
      assert (Hq : (length q <= length p)%nat) by (unfold q; destruct super; [ destruct p; cbn; lia | lia ]).
      assert (Hsuf : exists x, p = x ++ q) by (unfold q; destruct super; [ destruct p as [ | a p' ]; [ now exists [] | now exists [a] ] | now exists [] ]).
      split.
      { unfold Sw, fw, f. cbn [map list_sum fold_right g_limit g_ti g_pattern length weight]. pose proof (weight_mono N (length q) (length p) Hq). pose proof (weight_pos N (length p)).
        assert ((1 + (lim - ti)) * weight N (length q) <= (N + 1) * weight N (length p))%nat by (apply Nat.mul_le_mono; lia). nia. }
      assert (Hqo : Forall octet q) by (destruct Hsuf as [x E]; rewrite E in Hp'; now apply Forall_app in Hp').
      split; [ constructor; [ | constructor ]; unfold frame_ok, f; cbn; repeat split; lia || assumption | ].
      assert (Key : den (42 :: p) (skipn ti text) <-> fm f).
      { unfold fm, f. cbn [g_ti g_limit g_pattern]. destruct super eqn:Es.
        - unfold super in Es. destruct p as [ | c p' ]; [ discriminate | ]. eqbs. subst c. rewrite den_super. unfold q, lim. cbn [tl negb andb]. split.
          + intros (u & t' & E & H). destruct (skipn_split _ _ _ E Hti) as [E' L]. exists (ti + length u)%nat. rewrite E'. repeat split; [ lia | left; lia | exact H ].
          + intros (k & K1 & K2 & H). exists (firstn (k - ti) (skipn ti text)), (skipn k text). split; [ | exact H ].
            rewrite <- (firstn_skipn (k - ti) (skipn ti text)) at 1. f_equal. rewrite skipn_skipn'. f_equal. lia.
        - rewrite den_star.
          2:{ unfold super in Es. destruct p as [ | c p' ]; [ discriminate | ]. eqbs. cbn. congruence. }
          unfold q, lim. cbn [negb andb]. split.
          + intros (u & t' & E & F & H). destruct (skipn_split _ _ _ E Hti) as [E' L]. exists (ti + length u)%nat. rewrite E'. split; [ lia | ]. split; [ | exact H ]. left.
            destruct has eqn:Eh; [ | lia ]. apply Nat.add_le_mono_l. rewrite E. now apply reach_spec.
          + intros (k & K1 & K2 & H). exists (firstn (k - ti) (skipn ti text)), (skipn k text). split; [ | split; [ | exact H ] ].
            * rewrite <- (firstn_skipn (k - ti) (skipn ti text)) at 1. f_equal. rewrite skipn_skipn'. f_equal. lia.
            * destruct has eqn:Eh; [ apply reach_free; lia | ]. apply Forall_forall. intros c _ [K _]. congruence. }
      split.
      - intros [[H _] | H]; [ discriminate | ]. inversion H as [? ? H' | ? ? H']; [ now apply Key | inversion H' ].
      - intros Hs. split; [ intros H; right; left; now apply Key | ]. constructor; [ | constructor ]. cbn. apply small_tail in Hs. destruct Hsuf as [x E]. rewrite E in Hs. now apply small_app in Hs. }
    destruct (pc =? 63) eqn:E3; [ eqbs; subst pc | ].
    { destruct (nth_error text ti) as [c | ] eqn:En.
      - destruct (skipn_nth _ _ En) as [Es Hle]. destruct (has && delimiters c) eqn:Ed.
        + eexists. split; [ reflexivity | ]. apply no_post; [ reflexivity | ]. rewrite den_any, Es. intros (c' & t' & E & K & _). injection E as <- _. apply K. apply andb_prop in Ed. exact Ed.
        + destruct (IH p (S ti) s) as (r & Er & Hr); [ lia | lia | assumption | ]. exists r. split; [ exact Er | ]. refine (later_post _ _ _ _ _ _ _ _ Hr); [ cbn; lia | apply small_tail | ].
          rewrite den_any, Es. split.
          * intros (c' & t' & E & _ & H). injection E as _ <-. exact H.
          * intros H. exists c, (skipn (S ti) text). split; [ reflexivity | ]. split; [ | exact H ]. intros [K1 K2]. rewrite K1, K2 in Ed. discriminate.
      - eexists. split; [ reflexivity | ]. apply no_post; [ reflexivity | ]. rewrite den_any, (nth_skipn _ En). intros (c' & t' & E & _). discriminate. }
    destruct (pc =? 91) eqn:E4; [ eqbs; subst pc | ].
    { destruct (nth_error text ti) as [c | ] eqn:En.
      - destruct (skipn_nth _ _ En) as [Es Hle]. pose proof (octet_nth _ _ En) as Hc. destruct (match_class_ok p c) as [r Er]. rewrite Er. cbn [obind].
        destruct r as [[b next] | ]; [ | eexists; split; [ reflexivity | exact I ] ].
        pose proof (match_class_sound _ _ _ _ Hc Hp' Er) as (body & Ep & Hb). destruct b.
        + rewrite Ep in Hp'. apply Forall_app in Hp'. destruct Hp' as [Hbody Hp']. inversion Hp' as [ | ? ? _ Hnext ]; subst. rewrite app_length in Hn. cbn [length] in Hn.
          destruct (IH next (S ti) s) as (r & Er' & Hr); [ li | li | assumption | ]. exists r. split; [ exact Er' | ]. refine (later_post _ _ _ _ _ _ _ _ Hr).
          * cbn [length]. rewrite app_length. li.
          * intros Hs. apply small_tail, small_app, small_tail in Hs. exact Hs.
          * rewrite den_class, Es. split.
            -- intros (body' & c' & q & t' & E & E' & I' & H). injection E' as <- <-.
               assert (Ho : Forall octet body') by (inversion Hp as [ | ? ? _ Hall ]; subst; rewrite E in Hall; now apply Forall_app in Hall).
               pose proof (match_class_complete body' c q Hc Ho I') as Er2. assert (Eq : Ok (Some (true, next)) = Ok (Some (true, q))) by (rewrite <- Er, <- Er2; f_equal; exact E).
               injection Eq as ->. exact H.
            -- intros H. exists body, c, next, (skipn (S ti) text). repeat split; auto. now apply Hb.
        + eexists. split; [ reflexivity | ]. apply no_post; [ reflexivity | ]. rewrite den_class, Es. intros (body' & c' & q & t' & E & E' & I' & H). injection E' as <- <-.
          assert (Ho : Forall octet body') by (rewrite E in Hp'; now apply Forall_app in Hp').
          pose proof (match_class_complete body' c q Hc Ho I') as Er2. assert (Eq : Ok (Some (false, next)) = Ok (Some (true, q))) by (rewrite <- Er, <- Er2; f_equal; exact E). discriminate.
      - eexists. split; [ reflexivity | ]. apply no_post; [ reflexivity | ]. rewrite den_class, (nth_skipn _ En). intros (body' & c' & q & t' & _ & E' & _). discriminate. }
    destruct (pc =? 123) eqn:E5; [ eqbs; subst pc | ].
    { unfold push_alternatives. destruct (parse_alternatives p 1 [] []) as [[alts rest] | ] eqn:Ea.
      - pose proof (alternatives_sound _ _ _ _ _ _ (le_n _) Ea) as (a0 & l0 & Hal0 & Ep0 & El). cbn [app] in El.
        assert (Hal : Forall alternative alts) by (rewrite El; exact Hal0). assert (Ep : p = join [44] alts ++ 125 :: rest) by (rewrite El; exact Ep0). clear El Hal0 Ep0 a0 l0.
        destruct (push_all (rev alts) rest ti s) as [s' | ] eqn:Epush; [ | eexists; split; [ reflexivity | exact I ] ].
        eexists. split; [ reflexivity | ]. apply push_all_spec in Epush. rewrite rev_involutive in Epush. eexists. split; [ exact Epush | ].
        assert (Part : forall a, In a alts -> exists x y, p = x ++ a ++ y ++ 125 :: rest).
        { intros a Ia. destruct (join_part a alts Ia) as (x & y & E). exists x, y. rewrite Ep, E. now rewrite <- !app_assoc. }
        split; [ | split; [ | split ] ].
        + cbn [length weight].
          assert (G : forall l, incl l alts -> (Sw (map (fun a => {| g_pattern := a ++ rest; g_ti := ti; g_limit := 0 |}) l) <= length l * weight N (length p))%nat).
          { induction l as [ | a l IHl ]; intros Hin; [ cbn; lia | ]. unfold Sw in *. cbn [map list_sum fold_right length]. 
            assert (W : (weight N (length (a ++ rest)) <= weight N (length p))%nat).
            { apply weight_mono. destruct (Part a) as (x & y & ->); [ apply Hin; now left | ]. rewrite !app_length. li. }
            specialize (IHl (fun z Hz => Hin z (or_intror Hz))). unfold list_sum in IHl. unfold fw at 1. cbn [g_limit g_ti g_pattern]. rewrite Nat.sub_0_l, Nat.add_0_r, Nat.mul_1_l. lia. }
          specialize (G alts (incl_refl _)). pose proof (join_length alts) as J. assert (length alts <= length p)%nat by (rewrite Ep, app_length; cbn [length]; lia).
          pose proof (weight_pos N (length p)). nia.
        + apply Forall_forall. intros f Hf. apply in_map_iff in Hf. destruct Hf as (a & <- & Ia). destruct (Part a Ia) as (x & y & E). unfold frame_ok. cbn [g_ti g_limit g_pattern].
          split; [ assumption | ]. split; [ lia | ]. rewrite E in Hp'. rewrite !Forall_app in Hp'. apply Forall_app. destruct Hp' as (_ & ? & _ & K). inversion K; subst. tauto.
        + intros [[H _] | H]; [ discriminate | ]. apply Exists_exists in H. destruct H as (f & Hf & k & K1 & K2 & H). apply in_map_iff in Hf. destruct Hf as (a & <- & Ia). cbn [g_ti g_limit g_pattern] in *.
          assert (k = ti) by lia. subst k. rewrite den_brace. exists alts, a, rest. auto.
        + intros Hs. split.
          * rewrite den_brace. intros (alts' & a & q & F & Ia & E & H). right. rewrite E in Hs. unfold small in Hs. rewrite !count_cons, !count_app, !count_cons in Hs. change (if Z.eq_dec 123 123 then 1%nat else 0%nat) with 1%nat in Hs.
            assert (Ec : parse_alternatives p 1 [] [] = Some ([] ++ alts', q)).
            { rewrite E. apply alternatives_complete; [ exact F | intros ->; contradiction | lia | cbn [length]; lia ]. }
            rewrite Ec in Ea.
            cbn [app] in Ea. injection Ea as -> ->. apply Exists_exists. eexists. split; [ apply in_map; exact Ia | ]. exists ti. cbn [g_ti g_limit g_pattern]. split; [ lia | ]. split; [ now right | exact H ].
          * apply Forall_forall. intros f Hf. apply in_map_iff in Hf. destruct Hf as (a & <- & Ia). cbn [g_pattern]. destruct (Part a Ia) as (x & y & E). unfold small in *. rewrite E in Hs.
            rewrite !count_cons, !count_app, !count_cons in Hs. rewrite !count_app. lia.
      - eexists. split; [ reflexivity | ]. exists []. split; [ reflexivity | ]. split; [ pose proof (weight_pos N (length (123 :: p))); cbn [Sw map list_sum fold_right]; cbn; nia | ]. split; [ constructor | ]. split.
        + intros [[H _] | H]; [ discriminate | inversion H ].
        + intros Hs. split; [ | constructor ]. rewrite den_brace. intros (alts' & a & q & F & Ia & E & H). exfalso. rewrite E in Hs. unfold small in Hs. rewrite !count_cons, !count_app, !count_cons in Hs. cbn [Z.eq_dec] in Hs.
          change (if Z.eq_dec 123 123 then 1%nat else 0%nat) with 1%nat in Hs.
          assert (Ec : parse_alternatives p 1 [] [] = Some ([] ++ alts', q)).
          { rewrite E. apply alternatives_complete; [ exact F | intros ->; contradiction | lia | cbn [length]; lia ]. }
          congruence. }
    eqbs. assert (Nin : ~ In pc [92; 42; 63; 91; 123]) by (cbn; intuition congruence).
    destruct (nth_error text ti) as [c | ] eqn:En.
    + destruct (skipn_nth _ _ En) as [Es Hle]. destruct (c =? pc) eqn:Ec; eqbs.
      * subst pc. destruct (IH p (S ti) s) as (r & Er & Hr); [ lia | lia | assumption | ]. exists r. split; [ exact Er | ]. refine (later_post _ _ _ _ _ _ _ _ Hr); [ cbn; lia | apply small_tail | ].
        rewrite (den_byte _ _ _ _ _ Nin), Es. split; [ intros (t' & E & H); now injection E as <- | eauto ].
      * eexists. split; [ reflexivity | ]. apply no_post; [ reflexivity | ]. rewrite (den_byte _ _ _ _ _ Nin), Es. intros (t' & E & H). congruence.
    + eexists. split; [ reflexivity | ]. apply no_post; [ reflexivity | ]. rewrite (den_byte _ _ _ _ _ Nin), (nth_skipn _ En). intros (t' & E & H). discriminate.
Qed.
Lemma loop_spec n : forall s, (Sw (fst s) <= n)%nat -> Forall frame_ok (fst s) ->
  exists r, glob_loop text delimiters has n s = Ok r /\
    match r with
    | inl _ => True
    | inr true => Exists fm (fst s)
    | inr false => Forall (fun f => small (g_pattern f)) (fst s) -> ~ Exists fm (fst s)
    end.
Proof.
  induction n as [ | n IH ]; intros [l bytes] Hn Hok; cbn [fst] in *.
  - destruct l as [ | f l ].
    + exists (inr false). split; [ reflexivity | ]. intros _ H. inversion H.
    + exfalso. unfold Sw in Hn. cbn [map list_sum fold_right] in Hn. unfold fw in Hn. pose proof (weight_pos N (length (g_pattern f))). nia.
  - destruct l as [ | f l ]; cbn [glob_loop fst snd].
    { exists (inr false). split; [ reflexivity | ]. intros _ H. inversion H. }
    inversion Hok as [ | ? ? (F1 & F2 & F3) Hl ]; subst.
    set (l1 := if (0 <? g_limit f)%nat && (g_ti f <? g_limit f)%nat then {| g_pattern := g_pattern f; g_ti := S (g_ti f); g_limit := g_limit f |} :: l else l).
    assert (W1 : (Sw l1 + weight N (length (g_pattern f)) <= Sw (f :: l))%nat).
    { unfold l1, Sw. cbn [map list_sum fold_right]. fold (list_sum (map fw l)). destruct ((0 <? g_limit f)%nat && (g_ti f <? g_limit f)%nat) eqn:E.
      - apply andb_prop in E. destruct E as [_ E]. apply Nat.ltb_lt in E. cbn [map list_sum fold_right]. fold (list_sum (map fw l)). unfold fw. cbn [g_limit g_ti g_pattern]. nia.
      - unfold fw at 2. nia. }
    assert (O1 : Forall frame_ok l1).
    { unfold l1. destruct ((0 <? g_limit f)%nat && (g_ti f <? g_limit f)%nat) eqn:E; [ | exact Hl ]. apply andb_prop in E. destruct E as [_ E]. apply Nat.ltb_lt in E.
      constructor; [ | exact Hl ]. unfold frame_ok. cbn [g_limit g_ti g_pattern]. repeat split; try assumption. lia. }
    assert (X1 : Exists fm (f :: l) <-> den (g_pattern f) (skipn (g_ti f) text) \/ Exists fm l1).
    { rewrite Exists_cons. unfold l1. destruct ((0 <? g_limit f)%nat && (g_ti f <? g_limit f)%nat) eqn:E.
      - apply andb_prop in E. destruct E as [_ E]. apply Nat.ltb_lt in E. rewrite Exists_cons. unfold fm at 1 3. cbn [g_limit g_ti g_pattern]. split.
        + intros [(k & K1 & K2 & K3) | H]; [ | tauto ]. destruct (Nat.eq_dec k (g_ti f)) as [-> | Nk]; [ tauto | ]. right. left. exists k. split; [ lia | ]. split; [ left; lia | exact K3 ].
        + intros [H | [(k & K1 & K2 & K3) | H]]; [ | | tauto ].
          * left. exists (g_ti f). split; [ lia | ]. split; [ now right | exact H ].
          * left. exists k. split; [ lia | ]. split; [ left; lia | exact K3 ].
      - unfold fm at 1. split.
        + intros [(k & K1 & K2 & K3) | H]; [ | tauto ]. left. replace (g_ti f) with k; [ exact K3 | ].
          destruct K2 as [K2 | K2]; [ | exact K2 ]. apply andb_false_iff in E. rewrite !Nat.ltb_ge in E. lia.
        + intros [H | H]; [ | tauto ]. left. exists (g_ti f). split; [ lia | ]. split; [ now right | exact H ]. }
    assert (S1 : Forall (fun f => small (g_pattern f)) (f :: l) -> Forall (fun f => small (g_pattern f)) l1 /\ small (g_pattern f)).
    { intros H. inversion H; subst. split; [ | assumption ]. unfold l1. destruct (_ && _); [ now constructor | assumption ]. }
    clearbody l1. destruct (step_spec (length (g_pattern f)) (g_pattern f) (g_ti f) (l1, bytes)) as (r & Er & Hr); [ lia | exact F1 | exact F3 | ].
    rewrite Er. cbn [obind]. destruct r as [e | [[b ti'] s']]; [ now exists (inl e) | ]. destruct Hr as (new & E & W & Fn & Hs & Hc). cbn [fst] in E.
    destruct (b && (ti' =? N)%nat) eqn:Eb.
    + exists (inr true). split; [ reflexivity | ]. apply X1. left. apply Hs. left. apply andb_prop in Eb. destruct Eb as [-> Eb]. apply Nat.eqb_eq in Eb. auto.
    + destruct (IH s') as (r' & Er' & Hr').
      { rewrite E, Sw_app. lia. }
      { rewrite E. apply Forall_app. auto. }
      exists r'. split; [ exact Er' | ]. destruct r' as [e | [ | ]]; [ exact I | | ].
      * rewrite E, Exists_app in Hr'. apply X1. destruct Hr' as [H | H]; [ left; apply Hs; now right | now right ].
      * intros Hsm. apply S1 in Hsm. destruct Hsm as [Hsm1 Hsm2]. destruct (Hc Hsm2) as [Hc1 Hc2]. rewrite X1. intros H. apply Hr'; [ rewrite E; apply Forall_app; auto | ].
        rewrite E, Exists_app. destruct H as [H | H]; [ | now right ]. apply Hc1 in H. destruct H as [[-> ->] | H]; [ | now left ]. rewrite Nat.eqb_refl in Eb. discriminate.
Qed.
Lemma loop_more n : forall s r, glob_loop text delimiters has n s = Ok r -> forall m, (n <= m)%nat -> glob_loop text delimiters has m s = Ok r.
Proof.
  induction n as [ | n IH ]; intros [l bytes] r H m Hm.
  - destruct l as [ | f l ]; [ | discriminate ]. cbn in H. now destruct m.
  - destruct m as [ | m ]; [ lia | ]. destruct l as [ | f l ]; [ exact H | ]. cbn [glob_loop fst snd] in *. destruct (match_pattern_step _ _ _ _ _ _ _) as [r0 | | | ]; try discriminate. cbn [obind] in *.
    destruct r0 as [e | [[b ti] s']]; [ exact H | ]. destruct (_ && _); [ exact H | ]. apply IH; [ exact H | lia ].
Qed.
Lemma match_spec p : Forall octet p ->
  exists r, returns (fun n => glob_match_iterative text delimiters has n p) r /\
    match r with inl _ => True | inr true => den p text | inr false => small p -> ~ den p text end.
Proof.
  intros Hp. set (s0 := ([{| g_pattern := p; g_ti := 0; g_limit := 0 |}], 0) : stack).
  destruct (loop_spec (Sw (fst s0)) s0) as (r & Er & Hr); [ lia | constructor; [ | constructor ]; unfold frame_ok; cbn; repeat split; lia || assumption | ].
  exists r. split; [ exists (Sw (fst s0)); intros m Hm; exact (loop_more _ _ _ Er m Hm) | ].
  assert (X : Exists fm (fst s0) <-> den p text).
  { unfold s0. cbn [fst]. rewrite Exists_cons. unfold fm. cbn [g_ti g_limit g_pattern]. split.
    - intros [(k & _ & K & H) | H]; [ | inversion H ]. replace k with 0%nat in H by lia. exact H.
    - intros H. left. exists 0%nat. split; [ lia | ]. split; [ now left | exact H ]. }
  destruct r as [e | [ | ]]; [ exact I | now apply X | ]. intros Hsm. rewrite <- X. apply Hr. constructor; [ exact Hsm | constructor ].
Qed.

(** ** Errors *)
Lemma class_sub m : forall q first found c b r, class_loop m q first found c = Ok (Some (b, r)) -> exists z, q = z ++ r.
Proof.
  induction m as [ | m IHm ]; intros q first found c b r H; [ discriminate | ]. cbn [class_loop] in H. destruct q as [ | x0 r0 ]; [ discriminate | ]. destruct (negb first && (x0 =? 93)).
  - injection H as _ <-. now exists [x0].
  - assert (RC : forall q c r, read_char q = Some (c, r) -> exists z, q = z ++ r).
    { intros [ | y [ | z q ] ] c0 r1 R; cbn [read_char] in R; [ discriminate | | ]; destruct (y =? 92); injection R as <- <-; [ now exists [y] | now exists [y] | now exists [y; z] | now exists [y] ]. }
    destruct (read_char (x0 :: r0)) as [[lo r1] | ] eqn:R; [ | discriminate ]. apply RC in R as [z1 ->].
    destruct (range_end r1) as [r2 | ] eqn:Re.
    + apply range_end_spec in Re. destruct Re as (-> & _). destruct (read_char r2) as [[hi r3] | ] eqn:R2; [ | discriminate ]. apply RC in R2 as [z2 ->]. destruct (signed hi <? signed lo); [ discriminate | ].
      apply IHm in H. destruct H as [z3 ->]. exists (z1 ++ 45 :: z2 ++ z3). rewrite <- !app_assoc. cbn. now rewrite <- app_assoc.
    + apply IHm in H. destruct H as [z3 ->]. exists (z1 ++ z3). now rewrite <- app_assoc.
Qed.
Lemma class_suffix p c b next : match_char_class p c = Ok (Some (b, next)) -> exists y, p = y ++ next.
Proof.
  destruct p as [ | x p ]; cbn [match_char_class]; [ discriminate | ]. destruct (x =? 33).
  - intros H. match type of H with obind ?X _ = _ => destruct X as [[[found r'] | ] | | | ] eqn:R; try discriminate H end. cbn in H. injection H as _ <-. apply class_sub in R. destruct R as [z ->]. now exists (x :: z).
  - intros H. apply class_sub in H. exact H.
Qed.
Definition no_brace (f : frame) : Prop := ~ In 123 (g_pattern f).
Definition good (p : str) : Prop := well_formed p /\ small p /\ Forall octet p.
Definition good_frame (f : frame) : Prop := good (g_pattern f).
Lemma wf_wild c p : c = 42 \/ c = 63 -> well_formed (c :: p) -> well_formed p.
Proof. intros E H. inversion H; subst; try assumption; lia. Qed.
Lemma wf_byte c p : ~ In c [92; 42; 63; 91; 123] -> well_formed (c :: p) -> well_formed p.
Proof. intros E H. inversion H; subst; try assumption; exfalso; apply E; cbn; tauto. Qed.
Lemma wf_class p : well_formed (91 :: p) -> forall c, octet c -> Forall octet p -> exists b r, match_char_class p c = Ok (Some (b, r)) /\ well_formed r.
Proof.
  intros H c Hc Ho. inversion H as [ | ? ? K | | ? ? K | body items q Hh Hi Hq E | body items q Hi Hq E | ]; subst; [ exfalso; apply K; cbn; tauto | lia | | ].
  - pose proof (class_complete _ _ _ Hi c q) as Hcc. assert (Ho' : Forall octet body) by (apply Forall_app in Ho; tauto).
    assert (E' : match_char_class (body ++ [93] ++ q) c = class_loop (S (length (body ++ [93] ++ q))) (body ++ 93 :: q) true false c).
    { destruct body as [ | x body ]; [ reflexivity | ]. cbn [match_char_class app]. replace (x =? 33) with false; [ reflexivity | ]. symmetry. apply Z.eqb_neq. intros ->. now apply Hh. }
    eexists _, q. split; [ refine (eq_trans E' _); apply Hcc; auto; rewrite app_length; cbn [app]; li | exact Hq ].
  - assert (Ho' : Forall octet body) by (inversion Ho as [ | ? ? _ K ]; subst; apply Forall_app in K; tauto).
    change ([33] ++ body ++ [93] ++ q) with (33 :: body ++ 93 :: q). cbn [match_char_class]. change (33 =? 33) with true. cbn [app].
    rewrite (class_complete _ _ _ Hi); auto; [ cbn; eauto | ]. rewrite app_length. cbn [length]. lia.
Qed.
Lemma step_no_syntax n : forall p ti s e, good p -> Forall good_frame (fst s) -> match_pattern_step text delimiters has n p ti s = Ok e ->
  match e with inl SyntaxError => False | inl TooComplex => True | inr (_, _, s') => Forall good_frame (fst s') end.
Proof.
  induction n as [ | n IH ]; intros p ti s e (Wp & Sp & Op) Fs H.
  - destruct p; [ | discriminate ]. cbn in H. injection H as <-. exact Fs.
  - destruct p as [ | pc p ]; [ cbn in H; injection H as <-; exact Fs | ]. cbn [match_pattern_step] in H. pose proof (small_tail _ _ Sp) as Sp'. inversion Op as [ | ? ? _ Op' ]; subst.
    destruct (pc =? 92) eqn:E92. { destruct p as [ | x p ]; [ injection H as <-; exact Fs | ]. destruct (nth_error text ti) as [c0 | ]; [ destruct (c0 =? x) | ]; injection H as <-; exact Fs. }
    destruct (pc =? 42) eqn:E42.
    { eqbs. subst pc. apply wf_wild in Wp; [ | tauto ]. destruct (push_wildcard _ _ _ _ _ _) as [s' | ] eqn:E; injection H as <-; [ | exact I ]. unfold push_wildcard in E. destruct (ti <=? _)%nat; [ | injection E as <-; exact Fs ].
      destruct (full (fst s)); [ discriminate | ]. injection E as <-. cbn [fst]. constructor; [ | exact Fs ]. unfold good_frame, good. cbn [g_pattern].
      destruct p as [ | c p' ]; [ auto | ]. destruct (c =? 42) eqn:Ec; [ | auto ]. eqbs. subst c. cbn [tl]. split; [ apply wf_wild in Wp; tauto | ]. split; [ now apply small_tail in Sp' | now inversion Op' ]. }
    destruct (pc =? 63) eqn:E63. { eqbs. subst pc. apply wf_wild in Wp; [ | tauto ]. destruct (nth_error text ti); [ destruct (_ && _); [ injection H as <-; exact Fs | now apply (IH p (S ti) s) ] | injection H as <-; exact Fs ]. }
    destruct (pc =? 91) eqn:E91.
    { eqbs. subst pc. destruct (nth_error text ti) as [c | ] eqn:En; [ | injection H as <-; exact Fs ]. destruct (wf_class p Wp c (octet_nth _ _ En) Op') as (b & r & Em & Wr). rewrite Em in H. cbn [obind] in H.
      destruct b; [ | injection H as <-; exact Fs ]. apply class_suffix in Em. destruct Em as [y Ey]. refine (IH r (S ti) s _ _ Fs H). rewrite Ey in Sp', Op'. split; [ exact Wr | ]. split; [ now apply small_app in Sp' | now apply Forall_app in Op' ]. }
    destruct (pc =? 123) eqn:E123.
    { eqbs. subst pc. unfold push_alternatives in H. destruct (parse_alternatives p 1 [] []) as [[alts rest] | ] eqn:Ea; [ | injection H as <-; exact Fs ].
      assert (W : Forall good_frame (map (fun a => {| g_pattern := a ++ rest; g_ti := ti; g_limit := 0 |}) alts)).
      { assert (Hw : exists alts' q, alts' <> [] /\ Forall alternative alts' /\ (forall a, In a alts' -> well_formed (a ++ q)) /\ p = join [44] alts' ++ 125 :: q).
        { inversion Wp as [ | ? ? K | | ? ? K | | | alts' q Na Fa Wa E ]; subst; [ exfalso; apply K; cbn; tauto | lia | ]. exists alts', q. auto. }
        destruct Hw as (alts' & q & Na & Fa & Wa & E). pose proof Sp as Hs. rewrite E in Hs. unfold small in Hs. rewrite !count_cons, !count_app, !count_cons in Hs. change (if Z.eq_dec 123 123 then 1%nat else 0%nat) with 1%nat in Hs.
        assert (Ec : parse_alternatives p 1 [] [] = Some ([] ++ alts', q)) by (rewrite E; apply alternatives_complete; [ exact Fa | exact Na | lia | cbn [length]; lia ]).
        rewrite Ec in Ea. cbn [app] in Ea. injection Ea as -> ->. apply Forall_forall. intros f Hf. apply in_map_iff in Hf. destruct Hf as (a & <- & Ia). unfold good_frame, good. cbn [g_pattern]. split; [ now apply Wa | ].
        destruct (join_part a _ Ia) as (x & y & Ej). split.
        - unfold small. rewrite Ej in Hs. rewrite !count_app in Hs. rewrite !count_app. lia.
        - rewrite E, Ej, !Forall_app in Op'. apply Forall_app. destruct Op' as ((_ & ? & _) & K). inversion K; subst. tauto. }
      destruct (push_all (rev alts) rest ti s) as [s' | ] eqn:Epush; injection H as <-; [ | exact I ]. apply push_all_spec in Epush. rewrite rev_involutive in Epush. rewrite Epush. apply Forall_app. auto. }
    assert (Wp' : well_formed p) by (apply (wf_byte pc); [ eqbs; cbn; intuition lia | exact Wp ]).
    destruct (nth_error text ti) as [c0 | ]; [ destruct (c0 =? pc); [ now apply (IH p (S ti) s) | injection H as <-; exact Fs ] | injection H as <-; exact Fs ].
Qed.
Lemma loop_no_syntax n : forall s e, Forall good_frame (fst s) -> glob_loop text delimiters has n s = Ok e -> e <> inl SyntaxError.
Proof.
  induction n as [ | n IH ]; intros [l bytes] e Fs H; destruct l as [ | f l ]; try discriminate; try (cbn in H; injection H as <-; discriminate).
  cbn [glob_loop fst snd] in H, Fs. inversion Fs as [ | ? ? Ff Fl ]; subst. destruct (match_pattern_step _ _ _ _ _ _ _) as [r | | | ] eqn:Er; try discriminate. cbn [obind] in H.
  apply step_no_syntax in Er; [ | exact Ff | cbn [fst]; destruct (_ && _); [ now constructor | exact Fl ] ].
  destruct r as [ [ | ] | [[b ti] s']]; [ contradiction | injection H as <-; discriminate | ]. destruct (b && _); [ injection H as <-; discriminate | ]. now apply (IH s').
Qed.
Definition stars (f : frame) : nat := count_byte 42 (g_pattern f).
(** Every frame has fewer stars than the ones below it. *)
Inductive depth_ok (K : nat) : list frame -> Prop :=
| do_nil : depth_ok K []
| do_cons f l : (stars f + length (f :: l) <= K)%nat -> no_brace f -> depth_ok K l -> depth_ok K (f :: l).
Lemma step_no_complex n K : (Z.of_nat K <= 4096) -> forall p ti s e, ~ In 123 p -> (count_byte 42 p + length (fst s) <= K)%nat -> depth_ok K (fst s) ->
  match_pattern_step text delimiters has n p ti s = Ok e ->
  match e with inl SyntaxError => True | inl TooComplex => False | inr (_, _, s') => depth_ok K (fst s') end.
Proof.
  intros HK. induction n as [ | n IH ]; intros p ti s e Np Hl Fs H.
  - destruct p; [ | discriminate ]. cbn in H. injection H as <-. exact Fs.
  - destruct p as [ | pc p ]; [ cbn in H; injection H as <-; exact Fs | ]. cbn [match_pattern_step] in H. assert (Np' : ~ In 123 p) by (intros I; apply Np; now right).
    assert (Hl' : (count_byte 42 p + length (fst s) <= K)%nat) by (rewrite count_cons in Hl; lia).
    destruct (pc =? 92). { destruct p as [ | x p ]; [ injection H as <-; exact Fs | ]. destruct (nth_error text ti); [ destruct (_ =? _) | ]; injection H as <-; exact Fs. }
    destruct (pc =? 42) eqn:E42.
    { eqbs. subst pc. rewrite count_cons in Hl. change (if Z.eq_dec 42 42 then 1%nat else 0%nat) with 1%nat in Hl.
      unfold push_wildcard in H. destruct (ti <=? _)%nat; [ | injection H as <-; exact Fs ].
      replace (full (fst s)) with false in H by (symmetry; unfold full, glob_max_frames; apply Z.leb_gt; lia). injection H as <-. cbn [fst].
      assert (Q : forall q, (exists z, p = z ++ q) -> depth_ok K ({| g_pattern := q; g_ti := ti; g_limit := if negb (match p with c :: _ => c =? 42 | [] => false end) && has then (ti + reach delimiters (skipn ti text))%nat else N |} :: fst s)).
      { intros q [z ->]. constructor; [ | intros I; apply Np'; apply in_app_iff; now right | exact Fs ]. unfold stars. cbn [g_pattern length]. rewrite count_app in Hl. lia. }
      apply Q. destruct p as [ | c p' ]; [ now exists [] | ]. destruct (c =? 42); [ now exists [c] | now exists [] ]. }
    destruct (pc =? 63). { destruct (nth_error text ti); [ destruct (_ && _); [ injection H as <-; exact Fs | now apply (IH p (S ti) s) ] | injection H as <-; exact Fs ]. }
    destruct (pc =? 91) eqn:E91.
    { destruct (nth_error text ti) as [c | ]; [ | injection H as <-; exact Fs ]. destruct (match_char_class p c) as [[[b next] | ] | | | ] eqn:Em; try discriminate; cbn [obind] in H; [ | injection H as <-; exact I ].
      apply class_suffix in Em. destruct Em as [y Ey]. destruct b; [ | injection H as <-; exact Fs ]. apply (IH next (S ti) s); auto.
      - intros I. apply Np'. rewrite Ey. apply in_app_iff. now right.
      - rewrite Ey, count_app in Hl'. lia. }
    destruct (pc =? 123) eqn:E123; [ eqbs; subst; exfalso; apply Np; now left | ].
    destruct (nth_error text ti) as [c0 | ]; [ destruct (c0 =? pc); [ now apply (IH p (S ti) s) | injection H as <-; exact Fs ] | injection H as <-; exact Fs ].
Qed.
Lemma loop_no_complex n K : Z.of_nat K <= 4096 -> forall s e, depth_ok K (fst s) -> glob_loop text delimiters has n s = Ok e -> e <> inl TooComplex.
Proof.
  intros HK. induction n as [ | n IH ]; intros [l bytes] e Fs H; destruct l as [ | f l ]; try discriminate; try (cbn in H; injection H as <-; discriminate).
  cbn [glob_loop fst snd] in H, Fs. inversion Fs as [ | ? ? Hlen Nb Fl ]; subst. cbn [length] in Hlen. destruct (match_pattern_step _ _ _ _ _ _ _) as [r | | | ] eqn:Er; try discriminate. cbn [obind] in H.
  apply (step_no_complex _ K HK) in Er; [ | exact Nb | | ]; cbn [fst].
  - destruct r as [ [ | ] | [[b ti] s']]; [ injection H as <-; discriminate | contradiction | ]. destruct (b && _); [ injection H as <-; discriminate | ]. now apply (IH s').
  - unfold stars in Hlen. destruct (_ && _); cbn [length]; lia.
  - destruct (_ && _); [ | exact Fl ]. constructor; [ exact Hlen | exact Nb | exact Fl ].
Qed.
End Matcher.
