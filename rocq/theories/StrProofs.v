(** Lemmas for the string builtins. *)
From Coq Require Import String ZArith List Bool Lia Arith.
From Verif Require Import Base BigIntSpec BigIntModel DecFacts BigIntProofs SMap ValueModel ValueSpec ResolverModel VmModel StrModel StrSpec.
Import ListNotations.
Local Open Scope Z_scope.
Local Open Scope list_scope.

(** ** UTF-8 *)
Lemma enc_cases c : valid_rune c ->
  (0 <= c < 128 /\ enc c = [c]) \/
  (128 <= c < 2048 /\ exists a b, enc c = [192 + a; 128 + b] /\ 2 <= a < 32 /\ 0 <= b < 64 /\ c = a * 64 + b) \/
  (2048 <= c < 65536 /\ exists a b d, enc c = [224 + a; 128 + b; 128 + d] /\ 0 <= a < 16 /\ 0 <= b < 64 /\ 0 <= d < 64 /\
     c = a * 4096 + b * 64 + d) \/
  (65536 <= c /\ exists a b d e, enc c = [240 + a; 128 + b; 128 + d; 128 + e] /\ 0 <= a < 5 /\ 0 <= b < 64 /\ 0 <= d < 64 /\
     0 <= e < 64 /\ c = a * 262144 + b * 4096 + d * 64 + e).
Proof.
  intro V. unfold valid_rune in V. unfold enc. destruct (Z.ltb_spec c 128); [left; split; auto; lia|].
  destruct (Z.ltb_spec c 2048).
  { right; left. split; [lia|]. exists (c / 64), (c mod 64). split; [reflexivity|].
    pose proof (Z.mod_pos_bound c 64 ltac:(lia)). pose proof (Z.div_mod c 64 ltac:(lia)). lia. }
  destruct (Z.ltb_spec c 65536).
  { right; right; left. split; [lia|]. exists (c / 4096), ((c / 64) mod 64), (c mod 64). split; [reflexivity|].
    pose proof (Z.mod_pos_bound c 64 ltac:(lia)). pose proof (Z.div_mod c 64 ltac:(lia)).
    pose proof (Z.mod_pos_bound (c / 64) 64 ltac:(lia)). pose proof (Z.div_mod (c / 64) 64 ltac:(lia)).
    replace (c / 4096) with (c / 64 / 64) by (rewrite Z.div_div by lia; reflexivity). lia. }
  right; right; right. split; [lia|]. exists (c / 262144), ((c / 4096) mod 64), ((c / 64) mod 64), (c mod 64). split; [reflexivity|].
  pose proof (Z.mod_pos_bound c 64 ltac:(lia)). pose proof (Z.div_mod c 64 ltac:(lia)).
  pose proof (Z.mod_pos_bound (c / 64) 64 ltac:(lia)). pose proof (Z.div_mod (c / 64) 64 ltac:(lia)).
  pose proof (Z.mod_pos_bound (c / 4096) 64 ltac:(lia)). pose proof (Z.div_mod (c / 4096) 64 ltac:(lia)).
  replace (c / 262144) with (c / 4096 / 64) by (rewrite Z.div_div by lia; reflexivity).
  replace (c / 4096) with (c / 64 / 64) in * by (rewrite Z.div_div by lia; reflexivity). lia.
Qed.

Ltac enc_case V := destruct (enc_cases _ V) as [(? & ->)|[(? & ?a & ?b & -> & ? & ? & ?)|[(? & ?a & ?b & ?d & -> & ? & ? & ? & ?)|
  (? & ?a & ?b & ?d & ?e & -> & ? & ? & ? & ? & ?)]]].

Lemma rune_len_enc c t : valid_rune c -> match enc c ++ t with [] => O | b :: _ => rune_len b end = length (enc c).
Proof.
  intro V. unfold rune_len. enc_case V; cbn [app length];
    repeat match goal with |- context [?x <? ?y] => destruct (Z.ltb_spec x y); try lia end; auto.
Qed.
Lemma rune_of_enc c : valid_rune c -> rune_of (enc c) = c.
Proof. intro V. enc_case V; cbn [rune_of]; lia. Qed.
Lemma enc_nonempty c : exists b t, enc c = b :: t.
Proof. unfold enc. repeat match goal with |- context [?x <? ?y] => destruct (Z.ltb_spec x y) end; eauto. Qed.

Lemma decode_enc c t n : valid_rune c -> decode (S n) (enc c ++ t) = c :: decode n t.
Proof.
  intro V. pose proof (rune_len_enc c t V) as L. destruct (enc_nonempty c) as (b & u & E). rewrite E in L |- *.
  cbn [app] in L |- *. cbn [decode]. rewrite L, <- E.
  change (b :: u ++ t) with ((b :: u) ++ t). rewrite <- E.
  rewrite firstn_app, Nat.sub_diag, firstn_all, skipn_app, Nat.sub_diag, skipn_all. cbn [firstn skipn app].
  rewrite app_nil_r, rune_of_enc by exact V. reflexivity.
Qed.
Lemma utf8_app a b : utf8 (a ++ b) = utf8 a ++ utf8 b.
Proof. unfold utf8. apply flat_map_app. Qed.
Lemma utf8_length rs : (length rs <= length (utf8 rs))%nat.
Proof.
  induction rs as [|c rs IH]; cbn [utf8 flat_map length]; [lia|]. rewrite app_length. fold (utf8 rs).
  destruct (enc_nonempty c) as (b & u & ->). cbn [length]. lia.
Qed.
Lemma decode_utf8 rs : Forall valid_rune rs -> forall n, (length rs <= n)%nat -> decode n (utf8 rs) = rs.
Proof.
  induction 1 as [|c rs V _ IH]; intros n L; [destruct n; reflexivity|].
  destruct n as [|n]; cbn [length] in L; [lia|]. cbn [utf8 flat_map]. rewrite decode_enc by exact V. f_equal. apply IH. lia.
Qed.
Lemma unescaped_id t : ~ In 92 t -> unescaped t = t.
Proof.
  induction t as [|c t IH]; auto. intro N. cbn [unescaped]. destruct (Z.eqb_spec c 92); [elim N; now left|].
  f_equal. apply IH. intro H. apply N. now right.
Qed.
Lemma codec0 : codec_ok text_ops0.
Proof.
  split; [|split].
  - intros rs V. split; [|reflexivity]. cbn. apply decode_utf8; auto. apply utf8_length.
  - intros c t V. cbn. now apply rune_len_enc.
  - exact unescaped_id.
Qed.

Lemma enc_ascii c b : valid_rune c -> In b (enc c) -> 0 <= b < 128 -> b = c.
Proof.
  intros V. destruct (enc_cases _ V) as [(? & ->)|[(? & a & b' & -> & ? & ? & ?)|[(? & a & b' & d & -> & ? & ? & ? & ?)|
    (? & a & b' & d & e & -> & ? & ? & ? & ? & ?)]]]; cbn [In]; intros I B; decompose [or] I; try contradiction; lia.
Qed.
Lemma utf8_ascii rs b : Forall valid_rune rs -> In b (utf8 rs) -> 0 <= b < 128 -> In b rs.
Proof.
  intros V I B. unfold utf8 in I. apply in_flat_map in I as (c & Ic & Ib). rewrite Forall_forall in V.
  rewrite (enc_ascii c b); auto.
Qed.
Lemma plain_valid rs : plain rs -> Forall valid_rune rs.
Proof. apply Forall_impl. intros c H. apply H. Qed.
Lemma plain_no rs b : plain rs -> b = 34 \/ b = 92 -> ~ In b (utf8 rs).
Proof.
  intros P B I. apply utf8_ascii in I; [|now apply plain_valid|lia]. unfold plain in P. rewrite Forall_forall in P.
  apply P in I. lia.
Qed.
Lemma plain_app a b : plain (a ++ b) <-> plain a /\ plain b.
Proof. apply Forall_app. Qed.
Lemma plain_sub a b : plain b -> (forall c, In c a -> In c b) -> plain a.
Proof. unfold plain. rewrite !Forall_forall. auto. Qed.

Lemma strip_no_quote t : ~ In 34 t -> strip_quotes t = t.
Proof.
  intro N. unfold strip_quotes, is_quoted. destruct t as [|c [|d t]]; auto.
  destruct (Z.eqb_spec c 34); auto. elim N. now left.
Qed.
Lemma mkstr_plain rs : plain rs -> mkstr (utf8 rs) = S_ rs.
Proof. intro P. unfold mkstr, S_. rewrite strip_no_quote; auto. apply plain_no; auto. Qed.

(** ** Searching *)
Lemma prefixb_iff p x : prefixb p x = true <-> exists b, x = p ++ b.
Proof.
  revert x. induction p as [|a p IH]; intros x; cbn [prefixb].
  - split; [intros _; now exists x|auto].
  - destruct x as [|b x]; [split; [discriminate|intros (b & H); discriminate]|].
    rewrite andb_true_iff, Z.eqb_eq, IH. split.
    + intros (-> & t & ->). now exists t.
    + intros (t & E). injection E as -> ->. eauto.
Qed.
Lemma suffixb_iff p x : suffixb p x = true <-> exists a, x = a ++ p.
Proof.
  unfold suffixb. destruct (Nat.ltb_spec (length x) (length p)) as [L|L].
  - split; [discriminate|]. intros (a & ->). rewrite app_length in L. lia.
  - split.
    + intro E. apply str_eqb_eq in E. exists (firstn (length x - length p) x). rewrite <- E at 2. symmetry. apply firstn_skipn.
    + intros (a & ->). rewrite app_length. replace (length a + length p - length p)%nat with (length a) by lia.
      rewrite skipn_app, skipn_all, Nat.sub_diag. apply str_eqb_refl.
Qed.
Lemma occurs_at_0 {A} (p x : list A) : occurs_at p x 0 <-> exists b, x = p ++ b.
Proof.
  split.
  - intros (a & b & E & L). destruct a; [|discriminate]. eauto.
  - intros (b & ->). now exists [], b.
Qed.
Lemma occurs_at_S {A} (p x : list A) c i : occurs_at p (c :: x) (S i) <-> occurs_at p x i.
Proof.
  split.
  - intros (a & b & E & L). destruct a as [|d a]; [discriminate|]. injection E as -> ->. exists a, b. cbn in L. auto.
  - intros (a & b & E & L). exists (c :: a), b. subst. auto.
Qed.
Lemma occurs_at_nil {A} (p : list A) i : occurs_at p [] i <-> p = [] /\ i = O.
Proof.
  split.
  - intros (a & b & E & L). destruct a; [|discriminate]. destruct p; [auto|discriminate].
  - intros [-> ->]. now exists [], [].
Qed.
Lemma occurs_at_len {A} (p x : list A) i : occurs_at p x i -> (i + length p <= length x)%nat.
Proof. intros (a & b & -> & <-). rewrite !app_length. lia. Qed.
Lemma occurs_at_skipn {A} (p x : list A) n i : (n <= length x)%nat -> (occurs_at p (skipn n x) i <-> occurs_at p x (n + i)).
Proof.
  revert x. induction n as [|n IH]; intros x L; [reflexivity|]. destruct x as [|c x]; cbn [length] in L; [lia|].
  cbn [skipn Nat.add]. rewrite IH by lia. symmetry. apply occurs_at_S.
Qed.
Lemma find0_spec p x :
  match find0 p x with
  | Some i => occurs_at p x i /\ forall j, (j < i)%nat -> ~ occurs_at p x j
  | None => forall i, ~ occurs_at p x i
  end.
Proof.
  induction x as [|c x IH]; cbn [find0].
  - destruct (prefixb p []) eqn:P.
    + apply prefixb_iff in P. split; [now apply occurs_at_0|]. lia.
    + intros i H. rewrite occurs_at_nil in H; destruct H as [-> ->]. discriminate.
  - destruct (prefixb p (c :: x)) eqn:P.
    + apply prefixb_iff in P. split; [now apply occurs_at_0|]. lia.
    + assert (N0 : ~ occurs_at p (c :: x) 0).
      { intro H. rewrite occurs_at_0, <- prefixb_iff in H. congruence. }
      destruct (find0 p x) as [i|]; cbn [option_map].
      * destruct IH as [H1 H2]. split; [now apply occurs_at_S|]. intros [|j] L; [exact N0|]. intro H. rewrite occurs_at_S in H.
        apply (H2 j); [lia|exact H].
      * intros [|i]; [exact N0|]. intro H. rewrite occurs_at_S in H. now apply (IH i).
Qed.
Lemma find_from_spec p x n :
  match find_from p x n with
  | Some i => occurs_at p x i /\ (n <= i)%nat /\ forall j, (n <= j < i)%nat -> ~ occurs_at p x j
  | None => forall i, (n <= i)%nat -> ~ occurs_at p x i
  end.
Proof.
  unfold find_from. destruct (Nat.leb_spec n (length x)).
  - pose proof (find0_spec p (skipn n x)) as S. destruct (find0 p (skipn n x)) as [i|]; cbn [option_map].
    + destruct S as [S1 S2]. rewrite occurs_at_skipn in S1 by auto. split; auto. split; [lia|]. intros j L O.
      apply (S2 (j - n)%nat); [lia|]. apply occurs_at_skipn; auto. now replace (n + (j - n))%nat with j by lia.
    + intros i L O. apply (S (i - n)%nat). apply occurs_at_skipn; auto. now replace (n + (i - n))%nat with i by lia.
  - intros i L O. apply occurs_at_len in O. lia.
Qed.
Lemma find0_iff p x : (exists i, find0 p x = Some i) <-> occurs p x.
Proof.
  pose proof (find0_spec p x) as S. split.
  - intros (i & E). rewrite E in S. exists i. apply S.
  - intros (i & O). destruct (find0 p x) as [j|]; eauto. now apply S in O.
Qed.

(** [indexof_n]: all indices in increasing order. *)
Lemma indexof_loop_spec p x : forall fuel pos n,
  (length x + 1 < fuel + n)%nat ->
  match pos with
  | Some i => occurs_at p x i /\ (n <= i)%nat /\ forall j, (n <= j < i)%nat -> ~ occurs_at p x j
  | None => forall i, (n <= i)%nat -> ~ occurs_at p x i
  end ->
  (n <= length x + 1)%nat ->
  exists l, indexof_loop fuel p x pos = Ok l /\ (forall i, In i l <-> occurs_at p x i /\ (n <= i)%nat) /\ Sorted.StronglySorted lt l.
Proof.
  induction fuel as [|k IH]; intros pos n L H Ln; [lia|]. cbn [indexof_loop].
  destruct pos as [i|].
  - destruct H as (O & Ln' & Min). pose proof (occurs_at_len _ _ _ O) as Li.
    destruct (IH (find_from p x (i + 1)) (i + 1)%nat) as (l & E & M & Srt); [lia|apply find_from_spec|lia|].
    rewrite E. cbn [obind]. exists (i :: l). split; auto. split.
    + intro j. cbn [In]. rewrite M. split.
      * intros [<-|[O' L']]; auto. split; auto. lia.
      * intros [O' L']. destruct (Nat.eq_dec i j); auto. right. split; auto.
        destruct (Nat.lt_ge_cases j i); [|lia]. elim (Min j); auto.
    + constructor; auto. apply Forall_forall. intros j I. apply M in I. lia.
  - exists []. split; auto. split; [|constructor]. intro i. split; [intros []|]. intros [O L']. now elim (H i).
Qed.

(** ** Splitting and replacing *)
Lemma occurs_at_app_l {A} (p a x : list A) i : occurs_at p x i -> occurs_at p (a ++ x) (length a + i).
Proof. intros (u & v & -> & <-). exists (a ++ u), v. rewrite app_length, !app_assoc. auto. Qed.
Lemma app_eq_length {A} (a b c d : list A) : a ++ b = c ++ d -> length a = length c -> a = c /\ b = d.
Proof.
  revert c. induction a as [|x a IH]; intros [|y c] E L; try discriminate; auto. injection E as -> E. cbn in L.
  destruct (IH c E) as [-> ->]; auto.
Qed.
Lemma pieces_fun {A} (d : list A) : forall x ps, pieces d x ps -> forall qs, pieces d x qs -> ps = qs.
Proof.
  intros x ps H. induction H as [x N|p x ps M H IH]; intros qs Q.
  - inversion Q; subst; auto. elim N. exists (length p). now exists p, x0.
  - inversion Q as [y N E1 E2|q y qs' M' H' E1 E2]; subst.
    + elim N. exists (length p). now exists p, x.
    + assert (L : length q = length p).
      { apply Nat.le_antisymm; [apply M'; rewrite E1 | apply M; rewrite <- E1]; eexists _, _; eauto. }
      apply app_eq_length in E1 as [-> E1]; auto. apply app_inv_head in E1 as ->. f_equal. now apply IH.
Qed.
Lemma pieces_nonempty {A} (d : list A) x ps : pieces d x ps -> ps <> [].
Proof. intros []; discriminate. Qed.
Lemma pieces_join {A} (d : list A) x ps : pieces d x ps -> intercalate d ps = x.
Proof.
  induction 1 as [x N|p x ps M H IH]; auto. cbn [intercalate]. destruct ps as [|q ps]; [now apply pieces_nonempty in H|].
  now rewrite IH.
Qed.
Lemma intercalate_cons {A} (d x : list A) l : l <> [] -> intercalate d (x :: l) = x ++ d ++ intercalate d l.
Proof. destruct l; [congruence|reflexivity]. Qed.

Lemma pieces_total {A} (d : list A) (dec : forall x : list A, {i | occurs_at d x i /\ forall j, (j < i)%nat -> ~ occurs_at d x j} +
    {forall i, ~ occurs_at d x i}) : d <> [] -> forall x, exists ps, pieces d x ps /\ (length ps <= S (length x))%nat.
Proof.
  intro D. assert (forall n x, (length x <= n)%nat -> exists ps, pieces d x ps /\ (length ps <= S (length x))%nat).
  { induction n as [|n IH]; intros x L; destruct (dec x) as [(i & (a & b & -> & Li) & M)|N].
    - exfalso. rewrite !app_length in L. destruct d; [congruence|cbn in L; lia].
    - exists [x]. split; [|cbn; lia]. constructor. intros (i & O). now apply N in O.
    - assert (length d <> O) by (destruct d; [congruence|discriminate]). rewrite !app_length in L.
      destruct (IH b) as (ps & P & Lp); [lia|]. exists (a :: ps). split.
      + constructor; auto. intros j O. destruct (Nat.le_gt_cases (length a) j); auto. elim (M j); auto. lia.
      + cbn [length]. rewrite !app_length. lia.
    - exists [x]. split; [|cbn; lia]. constructor. intros (i & O). now apply N in O. }
  intro x. now apply (H (length x)).
Qed.
Lemma pieces_exist (d x : list Z) : d <> [] -> exists ps, pieces d x ps /\ (length ps <= S (length x))%nat.
Proof.
  intro D. apply pieces_total; auto. intro y. pose proof (find0_spec d y) as H. destruct (find0 d y) as [i|].
  - left. now exists i.
  - now right.
Qed.
Lemma pieces_length (d x : list Z) ps : pieces d x ps -> (length ps <= S (length x))%nat.
Proof.
  intro P. destruct d as [|c d].
  - destruct P as [x N|p x ps M H].
    + elim N. exists O. now exists [], x.
    + exfalso. clear M. induction H as [y N|q y qs M' H IH]; auto. apply N. exists O. now exists [], y.
  - destruct (pieces_exist (c :: d) x) as (qs & Q & L); [discriminate|]. now rewrite (pieces_fun _ _ _ P _ Q).
Qed.

Lemma find_from_none d a x : ~ occurs d x -> find_from d (a ++ x) (length a) = None.
Proof.
  intro N. pose proof (find_from_spec d (a ++ x) (length a)) as H. destruct (find_from d (a ++ x) (length a)) as [i|]; auto.
  destruct H as (O & L & _). elim N. exists (i - length a)%nat.
  rewrite <- (app_nil_l x). replace x with (skipn (length a) (a ++ x)) at 1.
  - cbn [app]. apply occurs_at_skipn; [rewrite app_length; lia|]. now replace (length a + (i - length a))%nat with i by lia.
  - rewrite skipn_app, skipn_all, Nat.sub_diag. reflexivity.
Qed.
Lemma find_from_some d a p x : (forall i, occurs_at d (p ++ d ++ x) i -> (length p <= i)%nat) ->
  find_from d (a ++ p ++ d ++ x) (length a) = Some (length a + length p)%nat.
Proof.
  intro M. pose proof (find_from_spec d (a ++ p ++ d ++ x) (length a)) as H.
  assert (O : occurs_at d (a ++ p ++ d ++ x) (length a + length p)).
  { exists (a ++ p), x. rewrite app_length, app_assoc. auto. }
  destruct (find_from d (a ++ p ++ d ++ x) (length a)) as [i|].
  - destruct H as (O' & L & Min). f_equal. destruct (Nat.lt_trichotomy i (length a + length p)) as [Lt|[->|Gt]]; auto.
    + exfalso. assert (O'' : occurs_at d (p ++ d ++ x) (i - length a)).
      { replace (p ++ d ++ x) with (skipn (length a) (a ++ p ++ d ++ x)).
        - apply occurs_at_skipn; [rewrite app_length; lia|]. now replace (length a + (i - length a))%nat with i by lia.
        - rewrite skipn_app, skipn_all, Nat.sub_diag. reflexivity. }
      apply M in O''. lia.
    + elim (Min (length a + length p)%nat); auto. lia.
  - now elim (H (length a + length p)%nat); [lia|].
Qed.
Lemma find0_from d x : find0 d x = find_from d x 0.
Proof. unfold find_from. cbn [skipn Nat.leb]. destruct (find0 d x); reflexivity. Qed.

Lemma skipn_app_length {A} (a b : list A) : skipn (length a) (a ++ b) = b.
Proof. rewrite skipn_app, skipn_all, Nat.sub_diag. reflexivity. Qed.
Lemma firstn_app_length {A} (a b : list A) : firstn (length a) (a ++ b) = a.
Proof. rewrite firstn_app, firstn_all, Nat.sub_diag. cbn [firstn]. apply app_nil_r. Qed.

Lemma split_loop_spec d x ps : pieces d x ps -> forall a fuel, (length ps <= fuel)%nat ->
  split_loop fuel (a ++ x) d (length a) (find_from d (a ++ x) (length a)) = Ok ps.
Proof.
  induction 1 as [x N|p x ps M H IH]; intros a [|k] L; cbn [length] in L; try lia; cbn [split_loop]; unfold str, byte in *.
  - now rewrite find_from_none, skipn_app_length.
  - rewrite find_from_some by exact M.
    specialize (IH (a ++ p ++ d) k ltac:(lia)). rewrite !app_length in IH. rewrite <- !app_assoc in IH.
    rewrite Nat.add_assoc in IH. rewrite IH. cbn [obind]. f_equal. f_equal. unfold substr. rewrite skipn_app_length.
    replace (length a + length p - length a)%nat with (length p) by lia. apply firstn_app_length.
Qed.
Lemma replace_loop_spec old new_ x ps : pieces old x ps -> forall a fuel, (length ps <= fuel)%nat ->
  replace_loop fuel (a ++ x) old new_ (find_from old (a ++ x) (length a)) = Ok (a ++ intercalate new_ ps).
Proof.
  induction 1 as [x N|p x ps M H IH]; intros a [|k] L; cbn [length] in L; try lia; cbn [replace_loop]; unfold str, byte in *.
  - now rewrite find_from_none.
  - rewrite find_from_some by exact M.
    replace (firstn (length a + length p) (a ++ p ++ old ++ x)) with (a ++ p)
      by (rewrite <- app_length, app_assoc; symmetry; apply firstn_app_length).
    replace (skipn (length a + length p + length old) (a ++ p ++ old ++ x)) with x
      by (rewrite <- !app_length, !app_assoc; symmetry; apply skipn_app_length).
    specialize (IH (a ++ p ++ new_) k ltac:(lia)). rewrite !app_length in IH. rewrite <- !app_assoc in IH.
    rewrite Nat.add_assoc in IH. rewrite <- !app_assoc. rewrite IH.
    rewrite intercalate_cons by (eapply pieces_nonempty; eauto). reflexivity.
Qed.
Lemma count_loop_spec d x ps : d <> [] -> pieces d x ps -> forall a fuel n, (length ps <= fuel)%nat -> (1 <= fuel)%nat ->
  count_loop fuel (a ++ x) d (length a) n = Ok (n + (length ps - 1))%nat.
Proof.
  intro D. induction 1 as [x N|p x ps M H IH]; intros a [|k] n L L1; cbn [length] in L; try lia; cbn [count_loop]; unfold str, byte in *.
  - rewrite find_from_none by exact N. destruct (length a <? length (a ++ x))%nat; f_equal; cbn [length]; lia.
  - rewrite find_from_some by exact M.
    assert (length d <> O) by (destruct d; [congruence|discriminate]).
    replace (length a <? length (a ++ p ++ d ++ x))%nat with true by (symmetry; apply Nat.ltb_lt; rewrite !app_length; lia).
    assert (ps <> []) by (eapply pieces_nonempty; eauto). assert (1 <= length ps)%nat by (destruct ps; [congruence|cbn; lia]).
    specialize (IH (a ++ p ++ d) k (S n) ltac:(lia) ltac:(lia)). rewrite !app_length in IH. rewrite <- !app_assoc in IH.
    rewrite Nat.add_assoc in IH. rewrite IH. f_equal. cbn [length]. lia.
Qed.

(** An empty [old] is replaced for ever. *)
Lemma replace_empty_loop fuel : forall x new_ p, (p <= length x)%nat -> replace_loop fuel x [] new_ (Some p) = OutOfFuel.
Proof.
  induction fuel as [|k IH]; intros x new_ p L; [reflexivity|]. cbn [replace_loop]. unfold str, byte in *. cbv zeta.
  set (x' := firstn p x ++ new_ ++ skipn (p + length (@nil Z)) x).
  assert (L' : (p + length new_ <= length x')%nat).
  { unfold x'. rewrite !app_length, firstn_length, Nat.min_l by lia. lia. }
  pose proof (find_from_spec [] x' (p + length new_)) as H. destruct (find_from [] x' (p + length new_)) as [i|].
  - destruct H as (O & L'' & _). apply occurs_at_len in O. apply IH. cbn [length] in O. lia.
  - elim (H (p + length new_)%nat); [lia|]. exists (firstn (p + length new_) x'), (skipn (p + length new_) x').
    cbn [app]. rewrite firstn_skipn, firstn_length, Nat.min_l by lia. auto.
Qed.

(** ** Occurrences in UTF-8 text start and end at characters *)
Definition lead (b : Z) : Prop := b < 128 \/ 192 <= b.
Lemma enc_lead c : valid_rune c -> exists b t, enc c = b :: t /\ lead b /\ Forall (fun b => 128 <= b < 192) t.
Proof.
  intro V. enc_case V; eexists _, _; (split; [reflexivity|]); (split; [unfold lead; lia|]); repeat constructor; lia.
Qed.
Lemma enc_prefix c d x y : valid_rune c -> valid_rune d -> enc c ++ x = enc d ++ y -> c = d /\ x = y.
Proof.
  intros V W E. pose proof (rune_len_enc c x V) as L1. pose proof (rune_len_enc d y W) as L2. rewrite E in L1.
  apply app_eq_length in E as [E ->]; [|congruence]. split; auto. rewrite <- (rune_of_enc c V), E. now apply rune_of_enc.
Qed.
Lemma utf8_cons c x : utf8 (c :: x) = enc c ++ utf8 x. Proof. reflexivity. Qed.
Lemma utf8_prefix p : Forall valid_rune p -> forall x b, Forall valid_rune x -> utf8 x = utf8 p ++ b ->
  exists y, x = p ++ y /\ b = utf8 y.
Proof.
  induction 1 as [|c p V _ IH]; intros x b X E; [now exists x|]. destruct X as [|d x W X].
  - exfalso. rewrite utf8_cons in E. destruct (enc_nonempty c) as (u & t & Ec). rewrite Ec in E. discriminate.
  - rewrite !utf8_cons, <- app_assoc in E. apply enc_prefix in E as [-> E]; auto. destruct (IH x b X E) as (y & -> & ->).
    now exists y.
Qed.
Lemma utf8_inj x y : Forall valid_rune x -> Forall valid_rune y -> utf8 x = utf8 y -> x = y.
Proof.
  intros X Y E. rewrite <- (decode_utf8 x X (length (utf8 x)) (utf8_length x)), E.
  apply decode_utf8; auto. apply utf8_length.
Qed.
Lemma utf8_sync x : Forall valid_rune x -> forall a p b, Forall valid_rune p -> p <> [] -> utf8 x = a ++ utf8 p ++ b ->
  exists x1 x2, x = x1 ++ p ++ x2 /\ a = utf8 x1 /\ b = utf8 x2.
Proof.
  induction 1 as [|c x V X IH]; intros a p b P Np E.
  - exfalso. symmetry in E. apply app_eq_nil in E as [_ E]. apply app_eq_nil in E as [E _]. destruct p as [|d p]; [congruence|].
    rewrite utf8_cons in E. destruct (enc_nonempty d) as (u & t & Ed). rewrite Ed in E. discriminate.
  - destruct a as [|a0 a].
    + cbn [app] in E. destruct (utf8_prefix p P (c :: x) b) as (y & Ey & ->); auto. exists [], y. auto.
    + rewrite utf8_cons in E. destruct (enc_lead c V) as (u & t & Ec & Lu & Ct).
      assert (H : exists a', a0 :: a = enc c ++ a').
      { rewrite Ec in E |- *. cbn [app] in E |- *. injection E as <- E.
        assert (H : exists a', a = t ++ a').
        { clear - E Ct P Np. revert a E. induction Ct as [|v t Cv Ct IHt]; intros a E; [now exists a|].
          destruct a as [|a0 a].
          - exfalso. cbn [app] in E. destruct P as [|d p W P]; [congruence|]. rewrite utf8_cons in E.
            destruct (enc_lead d W) as (l & t' & Ed & Ll & _). rewrite Ed in E. cbn [app] in E. injection E as -> _.
            unfold lead in Ll. lia.
          - cbn [app] in E. injection E as -> E. destruct (IHt a E) as (a' & ->). now exists a'. }
        destruct H as (a' & ->). now exists a'. }
      destruct H as (a' & Ea). rewrite Ea, <- app_assoc in E. apply app_inv_head in E.
      destruct (IH a' p b P Np E) as (x1 & x2 & -> & -> & ->). exists (c :: x1), x2. rewrite Ea. auto.
Qed.
Lemma utf8_occurs p x : Forall valid_rune p -> Forall valid_rune x -> (occurs (utf8 p) (utf8 x) <-> occurs p x).
Proof.
  intros P X. split.
  - intros (i & a & b & E & _). destruct p as [|c p]; [exists O; now exists [], x|].
    destruct (utf8_sync x X a (c :: p) b P) as (x1 & x2 & -> & _); auto; [discriminate|]. exists (length x1). now exists x1, x2.
  - intros (i & a & b & -> & _). exists (length (utf8 a)). exists (utf8 a), (utf8 b). now rewrite !utf8_app.
Qed.
Lemma utf8_len_le a b c d : utf8 (a ++ b) = utf8 (c ++ d) -> Forall valid_rune (a ++ b) -> Forall valid_rune (c ++ d) ->
  (length a <= length c)%nat -> (length (utf8 a) <= length (utf8 c))%nat.
Proof.
  intros E V W L. apply utf8_inj in E; auto. assert (c = a ++ skipn (length a) c).
  { rewrite <- (firstn_skipn (length a) c) at 1. f_equal. transitivity (firstn (length a) (a ++ b)).
    - rewrite E, firstn_app. replace (length a - length c)%nat with O by lia. cbn [firstn]. now rewrite app_nil_r.
    - apply firstn_app_length. }
  rewrite H, utf8_app, app_length. lia.
Qed.
Lemma utf8_pieces d x ps : Forall valid_rune d -> Forall valid_rune x -> d <> [] -> pieces d x ps ->
  pieces (utf8 d) (utf8 x) (map utf8 ps).
Proof.
  intros D X Nd P. induction P as [x N|p x ps M H IH]; cbn [map].
  - apply pieces_last. intro O. apply N. now apply utf8_occurs.
  - rewrite !utf8_app. constructor.
    + intros i (a & b & E & <-). rewrite <- !utf8_app in E.
      destruct (utf8_sync _ X a d b D Nd E) as (x1 & x2 & E' & -> & ->).
      apply (utf8_len_le p (d ++ x) x1 (d ++ x2)); auto; [congruence|rewrite <- E'; auto|].
      apply M. exists x1, x2. auto.
    + apply IH. apply Forall_app in X as [_ X]. now apply Forall_app in X as [_ X].
Qed.
Lemma utf8_nil x : utf8 x = [] -> x = [].
Proof.
  destruct x as [|c x]; auto. rewrite utf8_cons. destruct (enc_nonempty c) as (b & t & ->). cbn [app]. intro H. discriminate H.
Qed.
Lemma utf8_intercalate d ps : utf8 (intercalate d ps) = intercalate (utf8 d) (map utf8 ps).
Proof.
  induction ps as [|p [|q ps] IH]; [reflexivity|reflexivity|]. rewrite intercalate_cons by congruence. cbn [map] in *.
  rewrite (intercalate_cons (utf8 d)) by discriminate. rewrite !utf8_app, IH. reflexivity.
Qed.
Lemma join_intercalate d l : join d l = intercalate d l.
Proof. induction l as [|x [|y l] IH]; auto. cbn [join intercalate] in *. now rewrite IH. Qed.
Lemma pieces_plain d x ps : plain x -> pieces d x ps -> Forall plain ps.
Proof.
  intros X P. induction P as [x N|p x ps M H IH]; constructor; auto.
  - now apply plain_app in X as [X _].
  - apply IH. apply plain_app in X as [_ X]. now apply plain_app in X as [_ X].
Qed.
Lemma map_mkstr ps : Forall plain ps -> map mkstr (map utf8 ps) = map S_ ps.
Proof. induction 1 as [|p ps P _ IH]; auto. cbn [map]. now rewrite mkstr_plain, IH. Qed.

Lemma split_chars_spec T : codec_ok T -> forall x, Forall valid_rune x -> forall a fuel, (length x < fuel)%nat ->
  split_chars T fuel (a ++ utf8 x) (length a) = Ok (map enc x).
Proof.
  intros (_ & HF & _). induction 1 as [|c x V X IH]; intros a [|k] L; cbn [length] in L; try lia; cbn [split_chars].
  - rewrite Nat.ltb_irrefl || (cbn [utf8 flat_map]; rewrite app_nil_r, Nat.ltb_irrefl). reflexivity.
  - rewrite utf8_cons. destruct (enc_nonempty c) as (b & t & Ec).
    replace (length a <? length (a ++ enc c ++ utf8 x))%nat with true
      by (symmetry; apply Nat.ltb_lt; rewrite Ec, !app_length; cbn [length]; lia).
    rewrite skipn_app_length, HF by exact V. unfold substr. rewrite skipn_app_length, firstn_app_length.
    specialize (IH (a ++ enc c) k ltac:(lia)). rewrite app_length, <- app_assoc in IH. rewrite IH. reflexivity.
Qed.

(** ** Trimming *)
Lemma in_set_iff c cut : in_set c cut = true <-> In c cut.
Proof.
  unfold in_set. rewrite existsb_exists. split.
  - intros (x & I & E). apply Z.eqb_eq in E as ->. exact I.
  - intro I. exists c. split; auto. apply Z.eqb_refl.
Qed.
Lemma first_not_of_spec cut x :
  match first_not_of cut x with
  | None => Forall (fun c => In c cut) x
  | Some s => exists a c t, x = a ++ c :: t /\ length a = s /\ Forall (fun c => In c cut) a /\ ~ In c cut
  end.
Proof.
  induction x as [|c x IH]; cbn [first_not_of]; [constructor|].
  destruct (in_set c cut) eqn:I.
  - apply in_set_iff in I. destruct (first_not_of cut x) as [s|]; cbn [option_map].
    + destruct IH as (a & d & t & -> & <- & Fa & N). exists (c :: a), d, t. repeat split; auto.
    + constructor; auto.
  - exists [], c, x. repeat split; auto. intro H. apply in_set_iff in H. congruence.
Qed.
Lemma last_not_of_spec cut x :
  match last_not_of cut x with
  | None => Forall (fun c => In c cut) x
  | Some e => exists t c b, x = t ++ c :: b /\ length t = e /\ Forall (fun c => In c cut) b /\ ~ In c cut
  end.
Proof.
  unfold last_not_of. pose proof (first_not_of_spec cut (rev x)) as H. destruct (first_not_of cut (rev x)) as [s|]; cbn [option_map].
  - destruct H as (a & c & t & E & <- & Fa & N). exists (rev t), c, (rev a).
    assert (Ex : x = rev t ++ c :: rev a).
    { rewrite <- (rev_involutive x), E, rev_app_distr. cbn [rev]. now rewrite <- app_assoc. }
    split; auto. split; [|split; auto].
    + rewrite Ex, app_length. cbn [length]. rewrite !rev_length. lia.
    + now apply Forall_rev.
  - rewrite <- (rev_involutive x). now apply Forall_rev.
Qed.
Lemma first_unique (P : Z -> Prop) a c u : forall a' c' u', a ++ c :: u = a' ++ c' :: u' ->
  Forall P a -> ~ P c -> Forall P a' -> ~ P c' -> a = a'.
Proof.
  induction a as [|x a IH]; intros [|y a'] c' u' E Fa Nc Fa' Nc'; auto.
  - cbn in E. injection E as -> _. inversion Fa'. contradiction.
  - cbn in E. injection E as -> _. inversion Fa. contradiction.
  - cbn in E. injection E as -> E. f_equal. inversion Fa. inversion Fa'. eapply IH; eauto.
Qed.
Lemma trimmed_end cut l r x y : trimmed cut l r x y -> Forall (fun c => In c cut) x -> l = true \/ r = true -> y = [].
Proof.
  intros (a & b & -> & _ & _ & _ & _ & L & R) F H. apply Forall_app in F as [_ F]. apply Forall_app in F as [F _].
  rewrite Forall_forall in F. destruct H as [-> | ->].
  - destruct y as [|c y]; auto. elim (L eq_refl c y eq_refl). apply F. now left.
  - destruct y as [|c0 y0]; auto. destruct (exists_last (l := c0 :: y0)) as (t & c & E); [discriminate|].
    elim (R eq_refl c t E). apply F. rewrite E. apply in_or_app. right. now left.
Qed.
Lemma trimmed_some cut l r x y z : trimmed cut l r x y -> trimmed cut l r x z -> y <> [] -> z <> [] -> y = z.
Proof.
  intros (a & b & E & Fa & Fb & La & Rb & L & R) (a' & b' & E' & Fa' & Fb' & La' & Rb' & L' & R') Ny Nz.
  assert (a = a').
  { destruct l; [|now rewrite La, La']. destruct y as [|c y]; [congruence|]. destruct z as [|d z]; [congruence|].
    apply (first_unique (fun c => In c cut) a c (y ++ b) a' d (z ++ b')); eauto.
    change (a ++ (c :: y) ++ b = a' ++ (d :: z) ++ b'). congruence. }
  assert (rev b = rev b').
  { destruct r; [|now rewrite Rb, Rb']. destruct (exists_last Ny) as (t & c & Ey). destruct (exists_last Nz) as (t' & d & Ez).
    apply (first_unique (fun c => In c cut) (rev b) c (rev (a ++ t)) (rev b') d (rev (a' ++ t'))); eauto using Forall_rev.
    transitivity (rev x); [rewrite E, Ey|rewrite E', Ez]; rewrite !rev_app_distr; cbn [rev app]; now rewrite <- ?app_assoc. }
  subst a'. apply (f_equal (@rev Z)) in H0. rewrite !rev_involutive in H0. subst b'.
  rewrite E in E'. apply app_inv_head in E'. now apply app_inv_tail in E'.
Qed.
Lemma trimmed_fun cut l r x y z : trimmed cut l r x y -> trimmed cut l r x z -> y = z.
Proof.
  intros Y Z. destruct l, r; try (destruct Y as (a & b & -> & _ & _ & La & Rb & _), Z as (a' & b' & E & _ & _ & La' & Rb' & _);
    rewrite La, Rb, La', Rb' in E by auto; cbn [app] in E; rewrite !app_nil_r in E; exact E);
  destruct y as [|c y];
  try (symmetry; eapply trimmed_end; [exact Z| |auto]; destruct Y as (a & b & -> & Fa & Fb & _); apply Forall_app; auto);
  (destruct z as [|d z];
   [eapply trimmed_end; [exact Y| |auto]; destruct Z as (a & b & -> & Fa & Fb & _); apply Forall_app; auto
   |eapply trimmed_some; eauto; discriminate]).
Qed.
Lemma do_trim_spec T v cut left right : left = true \/ right = true ->
  Z.of_nat (length (t_runes T (t_unescape T v))) < 2 ^ 63 ->
  exists y, do_trim T v cut left right = (match y with [] => do_trim T v cut left right | _ => t_text T y end) /\
    (y = [] -> do_trim T v cut left right = t_text T [] \/ do_trim T v cut left right = []) /\
    trimmed (t_runes T (t_unescape T cut)) left right (t_runes T (t_unescape T v)) y.
Proof.
  intros LR B. unfold do_trim. set (x := t_runes T (t_unescape T v)) in *. set (cu := t_runes T (t_unescape T cut)) in *.
  pose proof (first_not_of_spec cu x) as F. pose proof (last_not_of_spec cu x) as L.
  assert (W : forall y, t_text T y = match y with [] => t_text T y | _ => t_text T y end) by now intros [].
  destruct left.
  - destruct (first_not_of cu x) as [s|].
    + destruct F as (a & c & t & Ex & <- & Fa & Nc).
      assert (Lx : length x = (length a + S (length t))%nat) by (rewrite Ex, app_length; reflexivity).
      destruct right.
      * destruct (last_not_of cu x) as [e|].
        -- destruct L as (t' & c' & b & Ex' & <- & Fb & Nc').
           assert (Le : (length a <= length t')%nat).
           { destruct (Nat.le_gt_cases (length a) (length t')) as [|G]; auto. exfalso. apply Nc'.
             rewrite Forall_forall in Fa. apply Fa. rewrite Ex in Ex'.
             apply (f_equal (fun l => nth (length t') l 0)) in Ex'. rewrite nth_middle in Ex'. rewrite app_nth1 in Ex' by lia.
             rewrite <- Ex'. now apply nth_In. }
           assert (Lx' : length x = (length t' + S (length b))%nat) by (rewrite Ex', app_length; reflexivity).
           rewrite Z.mod_small by lia. rewrite Z.min_l by lia.
           replace (Z.to_nat (Z.of_nat (length t') - Z.of_nat (length a) + 1)) with (S (length t') - length a)%nat by lia.
           exists (substr x (length a) (S (length t') - length a)). split; [apply W|]. split; [intros ->; now left|].
           exists a, b.
           assert (E2 : x = (t' ++ [c']) ++ b) by (rewrite Ex', <- app_assoc; reflexivity).
           assert (E3 : substr x (length a) (S (length t') - length a) = skipn (length a) (t' ++ [c'])).
           { unfold substr. rewrite E2. rewrite skipn_app. replace (length a - length (t' ++ [c']))%nat with O by (rewrite app_length; cbn [length]; lia).
             cbn [skipn]. replace (S (length t') - length a)%nat with (length (skipn (length a) (t' ++ [c']))) by
               (rewrite skipn_length, app_length; cbn [length]; lia). apply firstn_app_length. }
           rewrite E3. assert (E4 : a = firstn (length a) (t' ++ [c'])).
           { transitivity (firstn (length a) x); [rewrite Ex; symmetry; apply firstn_app_length|].
             rewrite E2, firstn_app. replace (length a - length (t' ++ [c']))%nat with O by (rewrite app_length; cbn [length]; lia).
             cbn [firstn]. apply app_nil_r. }
           split.
           { rewrite E4 at 1. rewrite app_assoc. rewrite firstn_skipn. exact E2. }
           split; [exact Fa|]. split; [exact Fb|]. split; [discriminate|]. split; [discriminate|]. split.
           ++ intros _ d u E. rewrite E4 in Ex. assert (E5 : x = a ++ (d :: u) ++ b).
              { rewrite <- E, E4 at 1. rewrite app_assoc. rewrite E4 at 2. rewrite firstn_length, Nat.min_l, firstn_skipn by (rewrite app_length; cbn [length]; lia).
                exact E2. }
              rewrite <- E4 in Ex. rewrite Ex in E5. apply app_inv_head in E5. cbn [app] in E5. injection E5 as -> _. exact Nc.
           ++ intros _ d u E. apply (f_equal (app a)) in E. rewrite E4 in E at 1. 
              rewrite E4 in E at 2. rewrite firstn_length, Nat.min_l, firstn_skipn in E by (rewrite app_length; cbn [length]; lia).
              rewrite app_assoc in E. apply app_inj_tail in E as [_ ->]. exact Nc'.
        -- exfalso. apply Nc. rewrite Forall_forall in L. apply L. rewrite Ex. apply in_or_app. right. now left.
      * rewrite Z.mod_small by lia. exists (skipn (length a) x).
        assert (E3 : substr x (length a) (Z.to_nat (Z.min (Z.of_nat (length x) - Z.of_nat (length a) + 1) (Z.of_nat (length x)))) =
          skipn (length a) x).
        { unfold substr. apply firstn_all2. rewrite skipn_length. lia. }
        rewrite E3. split; [apply W|]. split; [intros ->; now left|]. exists a, []. rewrite app_nil_r. rewrite Ex at 2.
        rewrite skipn_app_length. repeat split; auto; try discriminate. intros _ d u E. rewrite Ex in E. rewrite skipn_app_length in E.
        injection E as -> _. exact Nc.
    + exists []. split; auto. split; [auto|]. exists x, []. cbn [app]. rewrite app_nil_r. repeat split; auto; try discriminate.
      intros _ c [|? ?]; discriminate.
  - destruct LR as [|LR]; [discriminate|]. subst right. destruct (last_not_of cu x) as [e|].
    + destruct L as (t & c & b & Ex & <- & Fb & Nc).
      assert (Lx : length x = (length t + S (length b))%nat) by (rewrite Ex, app_length; reflexivity).
      rewrite Z.mod_small by lia. exists (t ++ [c]).
      assert (E3 : substr x 0 (Z.to_nat (Z.min (Z.of_nat (length t) - Z.of_nat 0 + 1) (Z.of_nat (length x)))) = t ++ [c]).
      { unfold substr. cbn [skipn]. rewrite Z.min_l by lia. rewrite Ex.
        replace (t ++ c :: b) with ((t ++ [c]) ++ b) by (rewrite <- app_assoc; reflexivity).
        replace (Z.to_nat (Z.of_nat (length t) - Z.of_nat 0 + 1)) with (length (t ++ [c])) by (rewrite app_length; cbn [length]; lia).
        apply firstn_app_length. }
      rewrite E3. split; [apply W|]. split; [intros ->; now left|]. exists [], b. cbn [app]. split; [rewrite Ex, <- app_assoc; reflexivity|].
      repeat split; auto; try discriminate. intros _ d u E. apply app_inj_tail in E as [_ ->]. exact Nc.
    + exists []. cbn [Z.of_nat]. change ((- 0) mod 2 ^ 64) with 0. split; auto. split.
      * intros _. left. unfold substr. rewrite Z.min_l by lia. reflexivity.
      * exists [], x. cbn [app]. repeat split; auto; try discriminate. intros _ c [|? ?]; discriminate.
Qed.

(** ** Numerals *)
Lemma numeral_snoc base t c : numeral_value base (t ++ [c]) = numeral_value base t * base + digit_value c.
Proof. unfold numeral_value. rewrite fold_left_app. reflexivity. Qed.
Lemma digit_char d : 0 <= d < 36 -> let c := if d <? 10 then 48 + d else 87 + d in
  (48 <= c <= 57 \/ 97 <= c <= 122) /\ digit_value c = d /\ (c = 48 -> d = 0).
Proof.
  intro H. cbv zeta. unfold digit_value. destruct (Z.ltb_spec d 10).
  - destruct (Z.ltb_spec (48 + d) 58); lia.
  - destruct (Z.ltb_spec (87 + d) 58); lia.
Qed.
Lemma radix_spec base : 2 <= base <= 36 -> forall fuel n, 0 <= n < base ^ Z.of_nat fuel -> (1 <= fuel)%nat ->
  is_numeral base (radix fuel base n) /\ numeral_value base (radix fuel base n) = n /\ (n <> 0 -> exists c t, radix fuel base n = c :: t /\ c <> 48).
Proof.
  intro B. induction fuel as [|k IH]; intros n H L; [lia|]. cbn [radix].
  pose proof (Z.mod_pos_bound n base ltac:(lia)) as M. destruct (digit_char (n mod base)) as (C1 & C2 & C3); [lia|].
  set (c := if n mod base <? 10 then 48 + n mod base else 87 + n mod base) in *.
  destruct (Z.ltb_spec n base).
  - rewrite Z.mod_small in C2, C3 by lia. split; [|split].
    + split; [discriminate|]. split; [constructor; [split; [exact C1|lia]|constructor]|]. intros d [|? ?] E N; [congruence|discriminate].
    + unfold numeral_value. cbn [fold_left]. lia.
    + intro. exists c, []. split; auto.
  - destruct k as [|k].
    { change (base ^ Z.of_nat 1) with (base ^ 1) in H. rewrite Z.pow_1_r in H. lia. }
    assert (Hd : 0 <= n / base < base ^ Z.of_nat (S k)).
    { split; [apply Z.div_pos; lia|]. apply Z.div_lt_upper_bound; [lia|].
      replace (base * base ^ Z.of_nat (S k)) with (base ^ Z.of_nat (S (S k))); [lia|].
      rewrite (Nat2Z.inj_succ (S k)), Z.pow_succ_r by lia. reflexivity. }
    destruct (IH (n / base) Hd ltac:(lia)) as ((N1 & N2 & N3) & V & NZ).
    assert (Hn : n / base <> 0). { pose proof (Z.div_le_lower_bound n base 1 ltac:(lia) ltac:(lia)). lia. }
    destruct (NZ Hn) as (c0 & t0 & E0 & Nc0). split; [|split].
    + split; [intro E; now apply app_eq_nil in E as [_ E]|]. split.
      * apply Forall_app. split; auto. constructor; [split; [exact C1|lia]|constructor].
      * rewrite E0. cbn [app]. intros d t' E _. injection E as <- _. exact Nc0.
    + rewrite numeral_snoc, V, C2. pose proof (Z.div_mod n base ltac:(lia)). lia.
    + intro. rewrite E0. exists c0, (t0 ++ [c]). auto.
Qed.
