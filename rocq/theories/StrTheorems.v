(** C37: the string builtins compute the functions on character sequences their names say.  Strings of characters that stand for
    themselves in JSON (no quote, backslash or control character) are covered; for the others see the refuted statements. *)
From Coq Require Import String ZArith List Bool Lia Arith Sorted.
From Verif Require Import Base BigIntSpec BigIntModel DecFacts BigIntProofs SMap SMapFacts ValueModel ValueSpec ResolverModel VmModel
  CollModel CollSpec CollProofs CollObjProofs StrModel StrSpec StrProofs.
Import ListNotations.
Local Open Scope Z_scope.
Local Open Scope list_scope.

Definition bool_is (r : outcome res) (P : Prop) : Prop := exists b, r = Ok (RVal (vbool b)) /\ (b = true <-> P).
Definition demo_word : list Z := [0x1F600; 97; 98; 233; 97; 98].
Example demo_plain : plain demo_word.
Proof. unfold plain, demo_word, valid_rune. repeat constructor; lia. Qed.
Example codec_exists : codec_ok text_ops0.
Proof. exact codec0. Qed.

Lemma int64_dec z : - 2 ^ 63 <= z < 2 ^ 63 -> bi_to_int (dec z) = Some z.
Proof.
  intro B. rewrite bi_to_int_spec. unfold int64_min, int64_max.
  destruct (Z.leb_spec (-9223372036854775808) z), (Z.leb_spec z 9223372036854775807); auto; lia.
Qed.
Lemma firstn_in {A} (c : A) n l : In c (firstn n l) -> In c l.
Proof. rewrite <- (firstn_skipn n l) at 2. intro. apply in_or_app. now left. Qed.
Lemma skipn_in {A} (c : A) n l : In c (skipn n l) -> In c l.
Proof. rewrite <- (firstn_skipn n l) at 2. intro. apply in_or_app. now right. Qed.

(** ** Searching *)

Theorem C37_startswith : forall x y, plain x -> plain y -> bool_is (str_startswith (S_ x) (S_ y)) (exists t, x = y ++ t).
Proof.
  intros x y X Y. exists (prefixb (utf8 y) (utf8 x)). split; [reflexivity|]. rewrite prefixb_iff. split.
  - intros (b & E). destruct (utf8_prefix y (plain_valid _ Y) x b (plain_valid _ X) E) as (t & -> & _). eauto.
  - intros (t & ->). rewrite utf8_app. eauto.
Qed.
Theorem C37_endswith : forall x y, plain x -> plain y -> bool_is (str_endswith (S_ x) (S_ y)) (exists t, x = t ++ y).
Proof.
  intros x y X Y. exists (suffixb (utf8 y) (utf8 x)). split; [reflexivity|]. rewrite suffixb_iff. split.
  - intros (a & E). destruct y as [|c y]; [exists x; now rewrite app_nil_r|].
    destruct (utf8_sync x (plain_valid _ X) a (c :: y) []) as (x1 & x2 & -> & _ & E2); [now apply plain_valid|discriminate|now rewrite app_nil_r|].
    symmetry in E2. apply utf8_nil in E2 as ->. exists x1. now rewrite app_nil_r.
  - intros (t & ->). rewrite utf8_app. eauto.
Qed.
Theorem C37_contains : forall x y, plain x -> plain y -> bool_is (str_contains (S_ x) (S_ y)) (occurs y x).
Proof.
  intros x y X Y. exists (match find0 (utf8 y) (utf8 x) with Some _ => true | None => false end). split; [reflexivity|].
  rewrite <- utf8_occurs by (now apply plain_valid). rewrite <- find0_iff. destruct (find0 (utf8 y) (utf8 x)) as [i|]; split; eauto.
  - discriminate.
  - intros (i & E). discriminate.
Qed.
(** On the escaped text a line break contains the letter n. *)
Theorem C37_contains_escapes_refuted :
  ~ (forall a b, json_text a = true -> json_text b = true -> bool_is (str_contains (VString a) (VString b)) (occurs (unescaped b) (unescaped a))).
Proof.
  intro H. destruct (H [97; 92; 110; 98] [110] eq_refl eq_refl) as (b & E & I). cbn in E. injection E as E. destruct b; [|discriminate].
  destruct I as [I _]. destruct (I eq_refl) as (i & a & t & Ex & _). cbn in Ex.
  destruct a as [|? [|? [|? [|? ?]]]]; discriminate.
Qed.

Section Codec.
Variable T : text_ops.
Hypothesis HT : codec_ok T.

Let runes x : plain x -> t_runes T (utf8 x) = x.
Proof. intro P. apply HT. now apply plain_valid. Qed.
Let text x : plain x -> t_text T x = utf8 x.
Proof. intro P. apply HT. now apply plain_valid. Qed.

Theorem C37_indexof : forall x y, plain x -> plain y ->
  (exists i, occurs_at y x i /\ (forall j, (j < i)%nat -> ~ occurs_at y x j) /\
             indexof T (S_ x) (S_ y) = Ok (RVal (VInt (dec (Z.of_nat i))))) \/
  (~ occurs y x /\ indexof T (S_ x) (S_ y) = Ok (RVal (VInt (dec (-1))))).
Proof.
  intros x y X Y. unfold indexof, S_, vint. rewrite !runes by assumption. pose proof (find0_spec y x) as F.
  destruct (find0 y x) as [i|].
  - left. exists i. destruct F. auto.
  - right. split; [|reflexivity]. intros (i & O). now elim (F i).
Qed.
Theorem C37_indexof_n : forall x y, plain x -> plain y ->
  exists l, indexof_n T (S_ x) (S_ y) = Ok (RVal (VArray (map (fun i => VInt (dec (Z.of_nat i))) l))) /\
    StronglySorted lt l /\ forall i, In i l <-> occurs_at y x i.
Proof.
  intros x y X Y. unfold indexof_n, S_, vint. rewrite !runes by assumption.
  destruct (indexof_loop_spec y x (S (S (length x))) (find0 y x) 0) as (l & E & M & S).
  - lia.
  - rewrite find0_from. apply find_from_spec.
  - lia.
  - rewrite E. exists l. split; [reflexivity|]. split; auto. intro i. rewrite M. split; [tauto|]. split; auto. lia.
Qed.

(** ** Cutting and joining *)

Theorem C37_split : forall x d, plain x -> plain d -> d <> [] ->
  exists ps, pieces d x ps /\ str_split T (S_ x) (S_ d) = Ok (RVal (VArray (map S_ ps))).
Proof.
  intros x d X D Nd. destruct (pieces_exist d x Nd) as (ps & P & L). exists ps. split; auto.
  assert (P' := utf8_pieces d x ps (plain_valid _ D) (plain_valid _ X) Nd P).
  unfold str_split, S_. assert (Nu : utf8 d <> []) by (intro E; now apply utf8_nil in E).
  destruct (utf8 d) as [|b t] eqn:Ed; [congruence|]. rewrite <- Ed in *. rewrite find0_from.
  assert (Hs := split_loop_spec _ _ _ P' [] (S (S (length (utf8 x))))). cbn [app length] in Hs. rewrite Hs.
  - cbn [obind]. now rewrite (map_mkstr ps (pieces_plain d x ps X P)).
  - apply pieces_length in P'. unfold str, byte in *. lia.
Qed.
Theorem C37_split_empty : forall x, plain x ->
  str_split T (S_ x) (S_ []) = Ok (RVal (VArray (map (fun c => S_ [c]) x))).
Proof.
  intros x X. unfold str_split, S_. cbn [utf8 flat_map].
  assert (Hs := split_chars_spec T HT x (plain_valid _ X) [] (S (length (utf8 x)))). cbn [app length] in Hs.
  rewrite Hs by (pose proof (utf8_length x); lia). cbn [obind]. unfold ok. repeat f_equal. rewrite map_map. apply map_ext_in.
  intros c I. rewrite app_nil_r. assert (P : plain [c]).
  { unfold plain in X. rewrite Forall_forall in X. constructor; [now apply X|constructor]. }
  apply mkstr_plain in P. unfold S_ in P. cbn [utf8 flat_map] in P. now rewrite app_nil_r in P.
Qed.
Theorem C37_concat : forall d ps,
  str_concat (S_ d) (VArray (map S_ ps)) = Ok (RVal (S_ (intercalate d ps))) /\
  str_concat (S_ d) (VSet (map S_ ps)) = Ok (RVal (S_ (intercalate d ps))).
Proof.
  intros d ps. assert (U : unwrap_strings (map S_ ps) = Some (map utf8 ps)).
  { induction ps as [|p ps IH]; auto. cbn [map unwrap_strings]. unfold S_ at 1. now rewrite IH. }
  unfold str_concat, S_ at 1 3. fold S_. rewrite U. unfold S_. rewrite join_intercalate, utf8_intercalate. auto.
Qed.
Theorem C37_concat_errors : forall d l, (exists v, In v l /\ is_string v = false) -> forall c, c = VArray l \/ c = VSet l ->
  str_concat d c = Ok (RErr EvalTypeError).
Proof.
  intros d l (v & I & Hv) c Hc. assert (U : unwrap_strings l = None).
  { clear Hc. induction l as [|w l IH]; [destruct I|]. destruct I as [->|I].
    - destruct v; try reflexivity. discriminate.
    - cbn [unwrap_strings]. rewrite (IH I). now destruct w. }
  unfold str_concat. destruct Hc as [-> | ->]; destruct d; auto; now rewrite U.
Qed.
(** Joining what was split gives the string back. *)
Theorem C37_split_concat : forall x d l, plain x -> plain d -> d <> [] -> str_split T (S_ x) (S_ d) = Ok (RVal l) ->
  str_concat (S_ d) l = Ok (RVal (S_ x)).
Proof.
  intros x d l X D Nd E. destruct (C37_split x d X D Nd) as (ps & P & E'). rewrite E' in E. injection E as <-.
  rewrite (proj1 (C37_concat d ps)). now rewrite (pieces_join _ _ _ P).
Qed.
(** Splitting what was joined gives the parts back, if the delimiter's first character is in none of them. *)
Theorem C37_concat_split : forall c d ps x, plain (c :: d) -> Forall plain ps -> ps <> [] -> Forall (fun p => ~ In c p) ps ->
  str_concat (S_ (c :: d)) (VArray (map S_ ps)) = Ok (RVal x) ->
  str_split T x (S_ (c :: d)) = Ok (RVal (VArray (map S_ ps))).
Proof.
  intros c d ps x D P Np N E. rewrite (proj1 (C37_concat _ _)) in E. injection E as <-.
  assert (H : pieces (c :: d) (intercalate (c :: d) ps) ps).
  { clear P D. induction N as [|p ps Hp N IH]; [congruence|]. destruct ps as [|q ps].
    - apply pieces_last. intros (i & a & b & E & _). cbn [intercalate] in E. apply Hp. rewrite E. apply in_or_app. right. now left.
    - rewrite intercalate_cons by discriminate. apply pieces_cons; [|apply IH; discriminate].
      intros i (a & b & E & <-). destruct (Nat.le_gt_cases (length p) (length a)) as [|G]; auto. exfalso. apply Hp.
      apply (f_equal (fun l => nth (length a) l 0)) in E. rewrite app_nth1 in E by lia.
      cbn [app] in E. rewrite nth_middle in E. rewrite <- E. now apply nth_In. }
  assert (X : plain (intercalate (c :: d) ps)).
  { clear H N Np. induction P as [|p ps Hp P IH]; [constructor|]. destruct ps as [|q ps]; [exact Hp|].
    rewrite intercalate_cons by discriminate. apply plain_app. split; auto. apply plain_app. auto. }
  destruct (C37_split _ (c :: d) X D) as (qs & Q & E); [discriminate|].
  rewrite <- (pieces_fun _ _ _ H _ Q) in E. exact E.
Qed.

(** [replace] puts [new] in the place of every occurrence that splitting would cut at.  It ends; the bound is the number of rounds. *)
Theorem C37_replace : forall x old new_, plain x -> plain old -> old <> [] ->
  exists ps, pieces old x ps /\
    forall fuel, (S (length (utf8 x)) <= fuel)%nat -> str_replace fuel (S_ x) (S_ old) (S_ new_) = Ok (RVal (S_ (intercalate new_ ps))).
Proof.
  intros x old new_ X D Nd. destruct (pieces_exist old x Nd) as (ps & P & L). exists ps. split; auto. intros fuel F.
  assert (P' := utf8_pieces old x ps (plain_valid _ D) (plain_valid _ X) Nd P).
  unfold str_replace, do_replace, S_. rewrite find0_from.
  assert (Hs := replace_loop_spec _ (utf8 new_) _ _ P' [] fuel). cbn [app length] in Hs. rewrite Hs.
  - now rewrite utf8_intercalate.
  - apply pieces_length in P'. unfold str, byte in *. lia.
Qed.
(** With an empty [old] it never ends. *)
Theorem C37_replace_empty_refuted : forall fuel x new_, str_replace fuel (S_ x) (S_ []) (S_ new_) = OutOfFuel.
Proof.
  intros fuel x new_. unfold str_replace, do_replace, S_.
  assert (E : find0 (utf8 []) (utf8 x) = Some O) by now destruct (utf8 x). rewrite E. change (utf8 []) with (@nil Z).
  rewrite replace_empty_loop by lia. reflexivity.
Qed.
Theorem C37_strings_count : forall x s, plain x -> plain s -> s <> [] ->
  exists ps, pieces s x ps /\ strings_count (S_ x) (S_ s) = Ok (RVal (VInt (dec (Z.of_nat (length ps) - 1)))).
Proof.
  intros x d X D Nd. destruct (pieces_exist d x Nd) as (ps & P & L). exists ps. split; auto.
  assert (P' := utf8_pieces d x ps (plain_valid _ D) (plain_valid _ X) Nd P).
  unfold strings_count, S_. assert (Nu : utf8 d <> []) by (intro E; now apply utf8_nil in E).
  destruct (utf8 d) as [|b t] eqn:Ed; [congruence|]. rewrite <- Ed in *.
  assert (Hs := count_loop_spec _ _ _ Nu P' [] (S (length (utf8 x))) 0). cbn [app length] in Hs. rewrite Hs.
  - cbn [obind Nat.add]. rewrite map_length. unfold ok, vint. do 4 f_equal.
    pose proof (pieces_nonempty _ _ _ P). destruct ps; [congruence|cbn [length]]. lia.
  - apply pieces_length in P'. exact P'.
  - lia.
Qed.

(** ** Parts of a string *)

Theorem C37_substring : forall x o n, plain x -> - 2 ^ 63 <= o < 2 ^ 63 -> - 2 ^ 63 <= n < 2 ^ 63 ->
  substring T (S_ x) (VInt (dec o)) (VInt (dec n)) =
    if o <? 0 then Ok (RErr EvalBuiltInError)
    else Ok (RVal (S_ (let rest := skipn (Z.to_nat o) x in if n <? 0 then rest else firstn (Z.to_nat n) rest))).
Proof.
  intros x o n X O N. unfold substring, S_ at 1. rewrite runes by assumption.
  rewrite !int64_dec by assumption. destruct (Z.ltb_spec o 0); auto.
  destruct (Z.leb_spec (Z.of_nat (length x)) o).
  - rewrite skipn_all2 by lia. cbv zeta. rewrite firstn_nil. destruct (n <? 0); reflexivity.
  - cbv zeta. assert (Sub : forall k, plain (firstn k (skipn (Z.to_nat o) x))).
    { intro k. apply (plain_sub _ x); auto. intros c I. apply firstn_in in I. now apply skipn_in in I. }
    assert (E : forall a b, a = b -> plain b -> ok (mkstr (t_text T a)) = Ok (RVal (S_ b))).
    { intros a b -> P. unfold ok. now rewrite text, mkstr_plain. }
    assert (Lr : length (skipn (Z.to_nat o) x) = Z.to_nat (Z.of_nat (length x) - o)) by (rewrite skipn_length; lia).
    destruct (Z.ltb_spec n 0).
    + rewrite Z.ltb_irrefl. apply E.
      * unfold substr. apply firstn_all2. lia.
      * rewrite <- (firstn_all (skipn (Z.to_nat o) x)). apply Sub.
    + apply E; [|apply Sub]. unfold substr. destruct (Z.ltb_spec (Z.of_nat (length x) - o) n); auto.
      rewrite !firstn_all2 by lia. reflexivity.
Qed.
Theorem C37_count : forall x l kvs, plain x ->
  count T (S_ x) = Ok (RVal (VInt (dec (Z.of_nat (length x))))) /\
  count T (VArray l) = Ok (RVal (VInt (dec (Z.of_nat (length l))))) /\
  count T (VSet l) = Ok (RVal (VInt (dec (Z.of_nat (length l))))) /\
  count T (VObject kvs) = Ok (RVal (VInt (dec (Z.of_nat (length kvs))))).
Proof. intros x l kvs X. unfold count, S_. rewrite runes by assumption. repeat split; reflexivity. Qed.
Theorem C37_reverse : forall x, plain x -> str_reverse T (S_ x) = Ok (RVal (S_ (rev x))).
Proof.
  intros x X. unfold str_reverse, S_ at 1. rewrite runes by assumption. assert (P : plain (rev x)) by now apply Forall_rev.
  unfold ok. now rewrite text, mkstr_plain.
Qed.
Theorem C37_trim : forall left right x cut, left = true \/ right = true -> plain x -> plain cut -> Z.of_nat (length x) < 2 ^ 63 ->
  exists y, trimmed cut left right x y /\ str_trim T left right (S_ x) (S_ cut) = Ok (RVal (S_ y)).
Proof.
  intros left right x cut LR X C B.
  assert (U : forall z, plain z -> t_unescape T (utf8 z) = utf8 z) by (intros z Z; apply HT; apply plain_no; auto).
  destruct (do_trim_spec T (utf8 x) (utf8 cut) left right LR) as (y & E & E0 & Tr).
  - rewrite U, runes by assumption. exact B.
  - rewrite !U, !runes in Tr by assumption. exists y. split; auto. unfold str_trim, S_ at 1 2, ok.
    assert (Py : plain y).
    { destruct Tr as (a & b & -> & _). apply plain_app in X as [_ X]. now apply plain_app in X as [X _]. }
    assert (E' : do_trim T (utf8 x) (utf8 cut) left right = utf8 y).
    { destruct y as [|c y].
      - destruct (E0 eq_refl) as [-> | ->]; [apply text; constructor|reflexivity].
      - rewrite E. now apply text. }
    now rewrite E', mkstr_plain.
Qed.
Theorem C37_trim_space : forall x, plain x -> Z.of_nat (length x) < 2 ^ 63 ->
  exists y, trimmed [32] true true x y /\ trim_space T (S_ x) = Ok (RVal (S_ y)).
Proof.
  intros x X B.
  assert (U : forall z, plain z -> t_unescape T (utf8 z) = utf8 z) by (intros z Z; apply HT; apply plain_no; auto).
  set (ws := [32; 9; 10; 13; 11; 12]).
  destruct (do_trim_spec T (utf8 x) ws true true (or_introl eq_refl)) as (y & E & E0 & Tr).
  - rewrite U, runes by assumption. exact B.
  - assert (Uw : t_unescape T ws = ws).
    { apply HT. unfold ws. cbn. intuition discriminate. }
    assert (Rw : t_runes T ws = ws).
    { apply (proj1 HT ws). unfold ws. repeat constructor; lia. }
    rewrite U, runes in Tr by assumption. rewrite Uw, Rw in Tr.
    assert (In32 : forall c, In c x -> In c ws -> In c [32]).
    { intros c I W. unfold plain in X. rewrite Forall_forall in X. apply X in I. unfold ws in W. cbn [In] in *. lia. }
    exists y. destruct Tr as (a & b & -> & Fa & Fb & La & Rb & L & R). rewrite Forall_forall in Fa, Fb. split.
    + exists a, b. split; auto. rewrite !Forall_forall. split; [|split; [|split; [|split; [|split]]]]; auto.
      * intros c I. apply In32; auto. apply in_or_app. now left.
      * intros c I. apply In32; auto. apply in_or_app. right. apply in_or_app. now right.
      * intros H c t Ey I. apply (L H c t Ey). unfold ws. destruct I as [<-|[]]. now left.
      * intros H c t Ey I. apply (R H c t Ey). unfold ws. destruct I as [<-|[]]. now left.
    + assert (Py : plain y). { apply plain_app in X as [_ X]. now apply plain_app in X as [X _]. }
      assert (E' : do_trim T (utf8 (a ++ y ++ b)) ws true true = utf8 y).
      { destruct y as [|c y].
        - destruct (E0 eq_refl) as [H|H]; rewrite H; [apply text; constructor|reflexivity].
        - rewrite E. now apply text. }
      unfold trim_space, S_ at 1, ok. fold ws. now rewrite E', mkstr_plain.
Qed.
Theorem C37_trim_prefix_suffix : forall x p, plain x -> plain p ->
  (forall t, x = p ++ t -> trim_prefix (S_ x) (S_ p) = Ok (RVal (S_ t))) /\
  ((forall t, x <> p ++ t) -> trim_prefix (S_ x) (S_ p) = Ok (RVal (S_ x))) /\
  (forall t, x = t ++ p -> trim_suffix (S_ x) (S_ p) = Ok (RVal (S_ t))) /\
  ((forall t, x <> t ++ p) -> trim_suffix (S_ x) (S_ p) = Ok (RVal (S_ x))).
Proof.
  intros x p X P.
  destruct (C37_startswith x p X P) as (b1 & E1 & I1). destruct (C37_endswith x p X P) as (b2 & E2 & I2).
  assert (B1 : prefixb (utf8 p) (utf8 x) = b1) by (cbn in E1; now destruct (prefixb (utf8 p) (utf8 x)), b1).
  assert (B2 : suffixb (utf8 p) (utf8 x) = b2) by (cbn in E2; now destruct (suffixb (utf8 p) (utf8 x)), b2).
  change (trim_prefix (S_ x) (S_ p)) with (ok (if prefixb (utf8 p) (utf8 x) then mkstr (skipn (length (utf8 p)) (utf8 x)) else S_ x)).
  change (trim_suffix (S_ x) (S_ p)) with
    (ok (if suffixb (utf8 p) (utf8 x) then mkstr (firstn (length (utf8 x) - length (utf8 p)) (utf8 x)) else S_ x)).
  rewrite B1, B2. clear B1 B2 E1 E2. repeat split.
  - intros t E. destruct b1; [|destruct I1 as [_ I1]; assert (false = true) by eauto; discriminate].
    rewrite E in *. rewrite utf8_app, skipn_app_length. apply plain_app in X as [_ X]. unfold ok. now rewrite mkstr_plain.
  - intro N. destruct b1; auto. destruct I1 as [I1 _]. destruct (I1 eq_refl) as (t & E). now elim (N t).
  - intros t E. destruct b2; [|destruct I2 as [_ I2]; assert (false = true) by eauto; discriminate].
    rewrite E in *. rewrite utf8_app. rewrite app_length. replace (length (utf8 t) + length (utf8 p) - length (utf8 p))%nat with (length (utf8 t)) by lia.
    rewrite firstn_app_length. apply plain_app in X as [X _]. unfold ok. now rewrite mkstr_plain.
  - intro N. destruct b2; auto. destruct I2 as [I2 _]. destruct (I2 eq_refl) as (t & E). now elim (N t).
Qed.
End Codec.

(** ** Letters *)

(** A string of ASCII characters is mapped character by character. *)
Theorem C37_lower_upper_partial : forall x, plain x -> Forall (fun c => c < 128) x ->
  str_lower (S_ x) = Ok (RVal (S_ (map (fun c => if (65 <=? c) && (c <=? 90) then c + 32 else c) x))) /\
  str_upper (S_ x) = Ok (RVal (S_ (map (fun c => if (97 <=? c) && (c <=? 122) then c - 32 else c) x))).
Proof.
  intros x X A.
  assert (U : forall l, Forall (fun c => 0 <= c < 128) l -> utf8 l = l).
  { induction 1 as [|c l H _ IH]; auto. rewrite utf8_cons, IH. unfold enc. destruct (Z.ltb_spec c 128); [reflexivity|lia]. }
  assert (B : Forall (fun c => 0 <= c < 128) x).
  { unfold plain in X. rewrite Forall_forall in *. intros c I. specialize (X c I). specialize (A c I). lia. }
  assert (M : forall f, map_chars f x = Ok (map f x)).
  { intro f. unfold map_chars. replace (existsb _ x) with false; auto. symmetry. apply not_true_is_false. intro E.
    apply existsb_exists in E as (c & I & E). apply andb_true_iff in E as [E _]. apply Z.leb_le in E.
    rewrite Forall_forall in B. specialize (B c I). lia. }
  unfold str_lower, str_upper, S_. rewrite (U x B), !M. cbn [obind].
  rewrite !U; [split; reflexivity| |]; apply Forall_forall; intros d I; apply in_map_iff in I as (c & <- & I);
    rewrite Forall_forall in B; specialize (B c I).
  - destruct (97 <=? c) eqn:E1, (c <=? 122) eqn:E2; cbn [andb]; lia.
  - destruct (65 <=? c) eqn:E1, (c <=? 90) eqn:E2; cbn [andb]; lia.
Qed.
Example C37_lower_upper_partial_ex : str_upper (VString $"go 1!") = Ok (RVal (VString $"GO 1!")).
Proof. reflexivity. Qed.
(** Any other valid character makes both functions undefined. *)
Theorem C37_lower_upper_refuted : forall x, plain x -> (exists c, In c x /\ 128 <= c) ->
  str_lower (S_ x) = Ub /\ str_upper (S_ x) = Ub.
Proof.
  intros x X (c & I & C).
  assert (M : forall f, map_chars f (utf8 x) = Ub).
  { intro f. unfold map_chars. replace (existsb _ (utf8 x)) with true; auto. symmetry. apply existsb_exists.
    unfold plain in X. rewrite Forall_forall in X. destruct (X c I) as [V _].
    assert (H : exists b, In b (enc c) /\ 128 <= b < 255).
    { destruct (enc_cases c V) as [(? & ->)|[(? & a & b & -> & ? & ? & ?)|[(? & a & b & d & -> & ? & ? & ? & ?)|
        (? & a & b & d & e & -> & ? & ? & ? & ? & ?)]]]; [lia|exists (192 + a)|exists (224 + a)|exists (240 + a)];
        (split; [now left|lia]). }
    destruct H as (b & Ib & Hb). exists b. split.
    - unfold utf8. apply in_flat_map. eauto.
    - apply andb_true_iff. rewrite Z.leb_le, Z.ltb_lt. lia. }
  unfold str_lower, str_upper, S_. rewrite !M. auto.
Qed.

(** ** Any of several *)
Theorem C37_any_match : forall xs ys, Forall plain xs -> Forall plain ys ->
  bool_is (any_match prefixb (VArray (map S_ xs)) (VArray (map S_ ys))) (exists x y t, In x xs /\ In y ys /\ x = y ++ t) /\
  bool_is (any_match suffixb (VArray (map S_ xs)) (VArray (map S_ ys))) (exists x y t, In x xs /\ In y ys /\ x = t ++ y).
Proof.
  intros xs ys X Y. rewrite Forall_forall in X, Y.
  assert (U : forall ps, unwrap_strings (map S_ ps) = Some (map utf8 ps)).
  { induction ps as [|p ps IH]; auto. cbn [map unwrap_strings]. unfold S_ at 1. now rewrite IH. }
  assert (G : forall test (P : list Z -> list Z -> Prop), (forall x y, plain x -> plain y -> (test (utf8 y) (utf8 x) = true <-> P x y)) ->
    bool_is (any_match test (VArray (map S_ xs)) (VArray (map S_ ys))) (exists x y, In x xs /\ In y ys /\ P x y)).
  { intros test P H. unfold any_match, string_list. rewrite !U. eexists. split; [reflexivity|]. rewrite existsb_exists. split.
    - intros (x' & I & E). apply in_map_iff in I as (x & <- & I). apply existsb_exists in E as (y' & J & E).
      apply in_map_iff in J as (y & <- & J). exists x, y. split; auto. split; auto. apply H; auto.
    - intros (x & y & I & J & E). exists (utf8 x). split; [now apply in_map|]. apply existsb_exists. exists (utf8 y).
      split; [now apply in_map|]. apply H; auto. }
  split.
  - destruct (G prefixb (fun x y => exists t, x = y ++ t)) as (b & E & I).
    + intros x y Hx Hy. destruct (C37_startswith x y Hx Hy) as (b & E & I). cbn in E. now destruct (prefixb (utf8 y) (utf8 x)), b.
    + exists b. split; auto. rewrite I. split; [intros (x & y & Hx & Hy & t & Et)|intros (x & y & t & Hx & Hy & Et)]; exists x, y; eauto.
  - destruct (G suffixb (fun x y => exists t, x = t ++ y)) as (b & E & I).
    + intros x y Hx Hy. destruct (C37_endswith x y Hx Hy) as (b & E & I). cbn in E. now destruct (suffixb (utf8 y) (utf8 x)), b.
    + exists b. split; auto. rewrite I. split; [intros (x & y & Hx & Hy & t & Et)|intros (x & y & t & Hx & Hy & Et)]; exists x, y; eauto.
Qed.

(** ** Numbers as text *)
Theorem C37_format_int_partial : forall T z, - 2 ^ 63 <= z < 2 ^ 63 ->
  format_int T (VInt (dec z)) (VInt (dec 10)) = Ok (RVal (VString (dec z))) /\
  (0 <= z -> forall base, base = 8 \/ base = 16 ->
    exists t, format_int T (VInt (dec z)) (VInt (dec base)) = Ok (RVal (VString t)) /\ is_numeral base t /\ numeral_value base t = z).
Proof.
  intros T z B.
  assert (Sz : forall k, 0 <= k < 2 ^ 63 -> bi_to_size (dec k) = Some k).
  { intros k K. apply bi_to_size_spec. lia. }
  unfold format_int. rewrite int64_dec by assumption. cbn [obind]. split.
  - rewrite Sz by lia. reflexivity.
  - intros P base Hb. rewrite Sz by lia. rewrite (Z.mod_small z (2 ^ 64)) by lia. destruct Hb as [-> | ->]; cbn [Z.eqb Pos.eqb].
    + destruct (radix_spec 8 ltac:(lia) 22 z) as (N & V & _); [change (8 ^ Z.of_nat 22) with 73786976294838206464; lia|lia|].
      exists (radix 22 8 z). auto.
    + destruct (radix_spec 16 ltac:(lia) 16 z) as (N & V & _); [change (16 ^ Z.of_nat 16) with 18446744073709551616; lia|lia|].
      exists (radix 16 16 z). auto.
Qed.
(** In base 2 only the two lowest bits are printed, and in base 16 a negative number becomes the unsigned one. *)
Theorem C37_format_int_refuted : forall T,
  (forall z, 4 <= z < 2 ^ 63 -> exists t, format_int T (VInt (dec z)) (VInt (dec 2)) = Ok (RVal (VString t)) /\ numeral_value 2 t <> z) /\
  format_int T (VInt (dec (-1))) (VInt (dec 16)) = Ok (RVal (VString $"ffffffffffffffff")).
Proof.
  intro T. split.
  - intros z Z. unfold format_int. rewrite int64_dec by lia. cbn [obind]. change (bi_to_size (dec 2)) with (Some 2).
    cbn [Z.eqb Pos.eqb]. eexists. split; [reflexivity|]. unfold numeral_value, digit_value. cbn [fold_left].
    pose proof (Z.mod_pos_bound z 2 ltac:(lia)). pose proof (Z.mod_pos_bound (z / 2) 2 ltac:(lia)).
    repeat match goal with |- context [?a <? 58] => destruct (Z.ltb_spec a 58); try lia end.
  - reflexivity.
Qed.

(** ** Kinds of value *)
Definition is_err (v : value) : bool := match v with VErr _ => true | _ => false end.
Definition kinds : list (str * (value -> bool)) :=
  [($"null", is_null); ($"boolean", is_boolean); ($"number", is_number); ($"string", is_string);
   ($"array", is_array); ($"object", is_object); ($"set", is_set)].
(** Exactly one of the tests holds of a value: the one that [type_name] names. *)
Theorem C37_kinds : forall v, is_err v = false ->
  In (type_name v) (map fst kinds) /\ NoDup (map fst kinds) /\
  forall k f, In (k, f) kinds -> (f v = true <-> type_name v = k).
Proof.
  intros v E. split; [|split].
  - destruct v; try discriminate; cbn; tauto.
  - repeat constructor; cbn; intuition discriminate.
  - intros k f I. cbn [kinds In] in I. decompose [or] I; try contradiction;
      match goal with H : (_, _) = (_, _) |- _ => injection H as <- <- end; destruct v; try discriminate; cbn; split; auto; discriminate.
Qed.
Example C37_kinds_ex : type_name (VInt $"1") = $"number" /\ is_number (VInt $"1") = true. Proof. split; reflexivity. Qed.

(** ** Arguments of another kind *)
Theorem C37_not_strings : forall T fuel x y z l r, is_string x = false ->
  str_startswith x y = Ok (RErr EvalTypeError) /\ str_startswith y x = Ok (RErr EvalTypeError) /\
  str_endswith x y = Ok (RErr EvalTypeError) /\ str_endswith y x = Ok (RErr EvalTypeError) /\
  str_contains x y = Ok (RErr EvalTypeError) /\ str_contains y x = Ok (RErr EvalTypeError) /\
  indexof T x y = Ok (RErr EvalTypeError) /\ indexof T y x = Ok (RErr EvalTypeError) /\
  indexof_n T x y = Ok (RErr EvalTypeError) /\ indexof_n T y x = Ok (RErr EvalTypeError) /\
  str_split T x y = Ok (RErr EvalTypeError) /\ str_split T y x = Ok (RErr EvalTypeError) /\
  str_replace fuel x y z = Ok (RErr EvalTypeError) /\ str_replace fuel y x z = Ok (RErr EvalTypeError) /\
  str_replace fuel y z x = Ok (RErr EvalTypeError) /\ substring T x y z = Ok (RErr EvalTypeError) /\
  str_trim T l r x y = Ok (RErr EvalTypeError) /\ str_trim T l r y x = Ok (RErr EvalTypeError) /\
  trim_prefix x y = Ok (RErr EvalTypeError) /\ trim_suffix y x = Ok (RErr EvalTypeError) /\
  trim_space T x = Ok (RErr EvalTypeError) /\ strings_count x y = Ok (RErr EvalTypeError) /\
  strings_count y x = Ok (RErr EvalTypeError) /\ str_reverse T x = Ok (RErr EvalTypeError) /\
  str_lower x = Ok (RErr EvalTypeError) /\ str_upper x = Ok (RErr EvalTypeError) /\ str_concat x y = Ok (RErr EvalTypeError).
Proof.
  intros T fuel x y z l r H. destruct x; try discriminate; destruct y; try (destruct z); repeat split; reflexivity.
Qed.
Example C37_not_strings_ex : is_string (VInt $"7") = false. Proof. reflexivity. Qed.

(** ** Where escape sequences are involved *)

(** Results need not be JSON texts any more: the letter of an escape is mapped, the escape is turned round or cut in two. *)
Theorem C37_escapes_refuted :
  json_text [92; 110] = true /\
  (exists t, str_upper (VString [92; 110]) = Ok (RVal (VString t)) /\ json_text t = false) /\
  (exists t, str_reverse text_ops0 (VString [92; 110]) = Ok (RVal (VString t)) /\ json_text t = false) /\
  (exists t, substring text_ops0 (VString [92; 110]) (VInt $"0") (VInt $"1") = Ok (RVal (VString t)) /\ json_text t = false) /\
  (exists t u, str_split text_ops0 (VString [92; 110]) (VString $"n") = Ok (RVal (VArray [VString t; VString u])) /\ json_text t = false) /\
  (exists t, str_replace 9 (VString [92; 110]) (VString $"n") (VString $"x") = Ok (RVal (VString t)) /\ json_text t = false).
Proof. repeat split; repeat eexists; reflexivity. Qed.
(** [trim("\"a\"", "")] drops the quotes, and [trim("a\\n", "")] turns a backslash and an n into a line break. *)
Theorem C37_trim_escapes_refuted :
  str_trim text_ops0 true true (VString [92; 34; 97; 92; 34]) (VString []) = Ok (RVal (VString [97])) /\
  (exists t, str_trim text_ops0 true true (VString [97; 92; 92; 110]) (VString []) = Ok (RVal (VString t)) /\ unescaped t = [97; 10]).
Proof. split; [reflexivity|]. eexists. split; reflexivity. Qed.
(** Counting the empty string counts bytes, not characters. *)
Theorem C37_count_empty_refuted : exists x, plain x /\
  strings_count (S_ x) (S_ []) <> Ok (RVal (VInt (dec (Z.of_nat (length x) + 1)))).
Proof. exists [233]. split; [unfold plain, valid_rune; repeat constructor; lia|]. vm_compute. discriminate. Qed.
(** [strings.replace_n] applies the pairs one after the other, so that a replacement is replaced again. *)
Theorem C37_replace_n_refuted : forall fuel, (4 <= fuel)%nat ->
  replace_n fuel (VObject [(VString $"a", VString $"b"); (VString $"b", VString $"a")]) (VString $"ab") = Ok (RVal (VString $"aa")).
Proof. intros [|[|[|[|k]]]] H; try lia. reflexivity. Qed.
(** With one pair it is [replace]. *)
Theorem C37_replace_n_partial : forall x old new_, plain x -> plain old -> plain new_ -> old <> [] ->
  exists ps, pieces old x ps /\ forall fuel, (S (length (utf8 x)) <= fuel)%nat ->
    replace_n fuel (VObject [(S_ old, S_ new_)]) (S_ x) = Ok (RVal (S_ (intercalate new_ ps))).
Proof.
  intros x old new_ X O N No. destruct (C37_replace x old new_ X O No) as (ps & P & R). exists ps. split; auto. intros fuel L.
  specialize (R fuel L). unfold str_replace, S_ in R. unfold replace_n, S_ at 1 2 3. cbn [pattern_map sm_set replace_all].
  destruct (do_replace fuel (utf8 x) (utf8 old) (utf8 new_)) as [y| | |]; try discriminate. cbn [obind] in R |- *. unfold ok in R |- *.
  injection R as ->. rewrite mkstr_plain; auto. apply (pieces_plain _ _ _ X) in P. clear - P N.
  induction P as [|p ps Hp P IH]; [constructor|]. destruct ps as [|q ps]; [exact Hp|].
  rewrite intercalate_cons by discriminate. apply plain_app. split; auto. apply plain_app. auto.
Qed.

(** The relations of the specification determine the result. *)
Theorem C37_spec_functional :
  (forall (d x : list Z) ps qs, pieces d x ps -> pieces d x qs -> ps = qs) /\
  (forall cut l r x y z, trimmed cut l r x y -> trimmed cut l r x z -> y = z).
Proof. split; [intros d x ps qs P; apply (pieces_fun d x ps P)|exact trimmed_fun]. Qed.

Example C37_search_ex : str_contains (S_ demo_word) (S_ [98; 233]) = Ok (RVal VTrue) /\
  indexof text_ops0 (S_ demo_word) (S_ [97; 98]) = Ok (RVal (VInt $"1")) /\
  indexof_n text_ops0 (S_ demo_word) (S_ [97; 98]) = Ok (RVal (VArray [VInt $"1"; VInt $"4"])) /\
  indexof text_ops0 (S_ demo_word) (S_ [120]) = Ok (RVal (VInt $"-1")).
Proof. repeat split; reflexivity. Qed.
Example C37_split_ex : str_split text_ops0 (S_ demo_word) (S_ [97; 98]) = Ok (RVal (VArray [S_ [0x1F600]; S_ [233]; S_ []])) /\
  str_split text_ops0 (S_ [233; 97]) (S_ []) = Ok (RVal (VArray [S_ [233]; S_ [97]])) /\
  str_replace 20 (S_ demo_word) (S_ [97; 98]) (S_ [45]) = Ok (RVal (S_ [0x1F600; 45; 233; 45])) /\
  strings_count (S_ demo_word) (S_ [97; 98]) = Ok (RVal (VInt $"2")).
Proof. repeat split; reflexivity. Qed.
Example C37_parts_ex : substring text_ops0 (S_ demo_word) (VInt $"2") (VInt $"3") = Ok (RVal (S_ [98; 233; 97])) /\
  str_reverse text_ops0 (S_ [97; 233]) = Ok (RVal (S_ [233; 97])) /\
  str_trim text_ops0 true true (S_ [32; 32; 97; 32]) (S_ [32]) = Ok (RVal (S_ [97])) /\
  trim_prefix (S_ demo_word) (S_ [0x1F600]) = Ok (RVal (S_ [97; 98; 233; 97; 98])).
Proof. repeat split; reflexivity. Qed.
Example C37_any_match_ex : any_match prefixb (VArray [VString $"abc"; VString $"x"]) (VSet [VString $"ab"]) = Ok (RVal VTrue).
Proof. reflexivity. Qed.
Example C37_format_int_ex : format_int text_ops0 (VInt $"255") (VInt $"16") = Ok (RVal (VString $"ff")).
Proof. reflexivity. Qed.

Print Assumptions C37_startswith.
Print Assumptions C37_endswith.
Print Assumptions C37_contains.
Print Assumptions C37_contains_escapes_refuted.
Print Assumptions C37_indexof.
Print Assumptions C37_indexof_n.
Print Assumptions C37_split.
Print Assumptions C37_split_empty.
Print Assumptions C37_concat.
Print Assumptions C37_concat_errors.
Print Assumptions C37_split_concat.
Print Assumptions C37_concat_split.
Print Assumptions C37_replace.
Print Assumptions C37_replace_empty_refuted.
Print Assumptions C37_strings_count.
Print Assumptions C37_substring.
Print Assumptions C37_count.
Print Assumptions C37_reverse.
Print Assumptions C37_trim.
Print Assumptions C37_trim_space.
Print Assumptions C37_trim_prefix_suffix.
Print Assumptions C37_lower_upper_partial.
Print Assumptions C37_lower_upper_refuted.
Print Assumptions C37_any_match.
Print Assumptions C37_format_int_partial.
Print Assumptions C37_format_int_refuted.
Print Assumptions C37_kinds.
Print Assumptions C37_not_strings.
Print Assumptions C37_escapes_refuted.
Print Assumptions C37_trim_escapes_refuted.
Print Assumptions C37_count_empty_refuted.
Print Assumptions C37_replace_n_refuted.
Print Assumptions C37_replace_n_partial.
Print Assumptions C37_spec_functional.
