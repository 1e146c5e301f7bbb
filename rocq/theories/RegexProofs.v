(** Proofs about the regex builtins. *)
From Coq Require Import String ZArith List Bool Arith Lia.
From Verif Require Import Base BigIntModel ValueModel StrModel StrSpec StrProofs RegexModel RegexSpec.
Import ListNotations.
Local Open Scope nat_scope.

(** ** The iterator *)
Definition weight (s : str) (m : rmatch) : nat := 2 * (length s - (rm_pos m + rm_len m)) + (if Nat.eqb (rm_len m) 0 then 0 else 1).

Section Find.
Variable L : regex_lib.
Hypothesis OK : lib_ok L.
Variables p s : str.

Lemma next_spec prev m m' : in_text s m -> it_next L p s prev m = Found m' ->
  in_text s m' /\ rm_pos m + rm_len m <= rm_pos m' /\ rm_pos m < rm_pos m' + rm_len m' /\ weight s m' < weight s m.
Proof.
  unfold in_text, it_next, weight. intros I H. destruct (Nat.eqb_spec (rm_len m) 0) as [Z|Z].
  - destruct (Nat.eqb_spec (rm_pos m + rm_len m) (length s)) as [E|E]; [discriminate|].
    destruct (rx_search L p true prev s (rm_pos m + rm_len m)) as [x| |] eqn:S1; try discriminate.
    + injection H as ->. apply OK in S1 as (A & B & C). destruct (C eq_refl) as [D F]. destruct (Nat.eqb_spec (rm_len m') 0); lia.
    + apply OK in H as (A & B & _). destruct (Nat.eqb_spec (rm_len m') 0); lia.
  - apply OK in H as (A & B & _). destruct (Nat.eqb_spec (rm_len m') 0); lia.
Qed.

(** The matches from the iterator's place on, as far as the count goes. *)
Inductive chain : bool -> found -> list rmatch -> Prop :=
| ch_end prev : chain prev NotFound []
| ch_stop prev m : chain prev (Found m) []
| ch_more prev m ms : chain (it_prev L p s prev m) (it_next L p s prev m) ms -> chain prev (Found m) (m :: ms).

Lemma find_loop_chain number : forall fuel i prev it ms, find_loop L fuel p s i number prev it = Ok ms -> chain prev it ms.
Proof.
  induction fuel as [|n IH]; intros i prev it ms H; [discriminate|]. cbn [find_loop] in H. destruct it as [m| |]; try discriminate.
  - destruct (i <? number)%Z; [|injection H as <-; constructor].
    destruct (find_loop L n p s (i + 1) number _ _) as [r| | |] eqn:E; cbn [obind] in H; try discriminate. injection H as <-. constructor. eauto.
  - injection H as <-. constructor.
Qed.
Lemma find_loop_ends number : forall fuel i prev it, (forall m, it = Found m -> in_text s m /\ weight s m + 2 <= fuel) -> 1 <= fuel ->
  (exists ms, find_loop L fuel p s i number prev it = Ok ms) \/ find_loop L fuel p s i number prev it = Throw.
Proof.
  induction fuel as [|n IH]; intros i prev it H F; [lia|]. cbn [find_loop]. destruct it as [m| |]; eauto.
  destruct (H m eq_refl) as [I W]. destruct (i <? number)%Z; [|eauto].
  destruct (IH (i + 1)%Z (it_prev L p s prev m) (it_next L p s prev m)) as [(ms & ->)| ->]; cbn [obind]; eauto; [|lia].
  intros m' E. apply next_spec in E as (A & B & C & D); auto. split; auto. lia.
Qed.
Lemma find_loop_calm number : lib_calm L -> forall fuel i prev it, it <> Fails -> find_loop L fuel p s i number prev it <> Throw.
Proof.
  intros CA. induction fuel as [|n IH]; intros i prev it H; [discriminate|]. cbn [find_loop]. destruct it as [m| |]; try discriminate; [|congruence].
  destruct (i <? number)%Z; [|discriminate]. specialize (IH (i + 1)%Z (it_prev L p s prev m) (it_next L p s prev m)).
  destruct (find_loop L n p s (i + 1) number _ _); cbn [obind]; try discriminate. apply IH. unfold it_next.
  destruct (rm_len m =? 0); [|apply CA]. destruct (_ =? _); [discriminate|]. destruct (rx_search L p true prev s _) eqn:E; try discriminate; [apply CA|].
  now apply CA in E.
Qed.
Lemma find_loop_count number : forall fuel i prev it ms, find_loop L fuel p s i number prev it = Ok ms -> (i <= number)%Z -> (i + Z.of_nat (length ms) <= number)%Z.
Proof.
  induction fuel as [|n IH]; intros i prev it ms H F; [discriminate|]. cbn [find_loop] in H. destruct it as [m| |]; try discriminate.
  - destruct (Z.ltb_spec i number); [|injection H as <-; simpl; lia].
    destruct (find_loop L n p s (i + 1) number _ _) as [r| | |] eqn:E; cbn [obind] in H; try discriminate. injection H as <-. apply IH in E; [|lia]. simpl length. lia.
  - injection H as <-. simpl. lia.
Qed.
Lemma find_loop_prefix n n' : (n <= n')%Z -> forall fuel i prev it ms ms', find_loop L fuel p s i n prev it = Ok ms -> find_loop L fuel p s i n' prev it = Ok ms' ->
  ms = firstn (Z.to_nat (n - i)) ms'.
Proof.
  intros N. induction fuel as [|f IH]; intros i prev it ms ms' H H'; [discriminate|]. cbn [find_loop] in *. destruct it as [m| |]; try discriminate.
  - destruct (Z.ltb_spec i n).
    + destruct (Z.ltb_spec i n'); [|lia].
      destruct (find_loop L f p s (i + 1) n _ _) as [r| | |] eqn:E; cbn [obind] in H; try discriminate.
      destruct (find_loop L f p s (i + 1) n' _ _) as [r'| | |] eqn:E'; cbn [obind] in H'; try discriminate.
      injection H as <-. injection H' as <-. replace (Z.to_nat (n - i)) with (S (Z.to_nat (n - (i + 1)))) by lia. cbn [firstn]. f_equal. eauto.
    + injection H as <-. replace (Z.to_nat (n - i)) with 0 by lia. reflexivity.
  - injection H as <-. injection H' as <-. now rewrite firstn_nil.
Qed.

Lemma in_order_cons m ms : (forall m', nth_error ms 0 = Some m' -> rm_pos m + rm_len m <= rm_pos m' /\ rm_pos m < rm_pos m' + rm_len m') -> in_order ms -> in_order (m :: ms).
Proof.
  intros H O a x y b E. destruct a as [|z a]; simpl in E; injection E as E1 E2.
  - subst. apply H. reflexivity.
  - subst. eapply O. reflexivity.
Qed.
Lemma chain_head prev it m ms : chain prev it (m :: ms) -> it = Found m.
Proof. intros C. inversion C; auto. Qed.
Lemma chain_order prev it ms : chain prev it ms -> (forall m, it = Found m -> in_text s m) -> Forall (in_text s) ms /\ in_order ms.
Proof.
  intros C. induction C as [prev|prev m|prev m ms C IH]; intros I; try (split; [constructor|intros [|? ?] ? ? ? E; discriminate]).
  destruct IH as [A B]. { intros m' E. apply (next_spec prev m m' (I m eq_refl) E). } split; [constructor; auto|]. apply in_order_cons; auto.
  intros m' E. destruct ms as [|y ms]; [discriminate|]. injection E as ->. apply chain_head in C. pose proof (next_spec prev m m' (I m eq_refl) C). tauto.
Qed.

(** *** Nothing is left out *)
Variable R : str -> str -> nat -> nat -> Prop.
Hypothesis FD : finds R L.
(** [from] is where the search for the iterator's match began. *)
Definition reaches (from : nat) (it : found) : Prop :=
  match it with
  | Found m => forall a b, R p s a b -> from <= a -> rm_pos m <= a
  | NotFound => forall a b, R p s a b -> from <= a -> False
  | Fails => True
  end.
Lemma search_reaches prev i : prev = true \/ i = 0 -> reaches i (rx_search L p false prev s i).
Proof. intros H. specialize (FD p prev s i H). unfold reaches. destruct (rx_search L p false prev s i) as [m| |]; [exact (proj2 FD)|exact FD|exact I]. Qed.
Lemma loop_complete number : forall fuel i prev it ms from, find_loop L fuel p s i number prev it = Ok ms -> (i + Z.of_nat (length ms) < number)%Z ->
  (forall m, it = Found m -> in_text s m) -> reaches from it -> (forall a b, R p s a b -> b <= length s /\ a <= b) ->
  forall a b, R p s a b -> from <= a -> exists m, In m ms /\ (a = rm_pos m \/ rm_pos m <= a < rm_pos m + rm_len m).
Proof.
  induction fuel as [|n IH]; intros i prev it ms from H N I RE RG a b AB F; [discriminate|]. cbn [find_loop] in H. destruct it as [m| |]; try discriminate.
  2:{ exfalso. eapply RE; eauto. }
  destruct (Z.ltb_spec i number). 2:{ injection H as <-. simpl in N. lia. }
  destruct (find_loop L n p s (i + 1) number _ _) as [r| | |] eqn:E; cbn [obind] in H; try discriminate. injection H as <-. simpl length in N.
  pose proof (RE a b AB F) as P. destruct (Nat.eq_dec a (rm_pos m)) as [->|D]; [exists m; split; [now left|auto]|].
  destruct (Nat.lt_ge_cases a (rm_pos m + rm_len m)); [exists m; split; [now left|lia]|].
  specialize (IH (i + 1)%Z (it_prev L p s prev m) (it_next L p s prev m) r).
  destruct (IH (if Nat.eqb (rm_len m) 0 then S (rm_pos m + rm_len m) else rm_pos m + rm_len m) E ltac:(lia)
    (fun m' X => proj1 (next_spec prev m m' (I m eq_refl) X))) with (a := a) (b := b) as (x & X & Y); auto.
  - unfold it_next. destruct (Nat.eqb_spec (rm_len m) 0); [|apply search_reaches; auto].
    destruct (Nat.eqb_spec (rm_pos m + rm_len m) (length s)).
    { intros a' b' Q W. apply RG in Q. lia. }
    destruct (rx_search L p true prev s (rm_pos m + rm_len m)) eqn:S1; [|apply search_reaches; auto|exact Logic.I].
    apply OK in S1 as (_ & _ & C). destruct (C eq_refl) as [Q _]. intros a' b' _ W. lia.
  - destruct (Nat.eqb_spec (rm_len m) 0); lia.
  - exists x. split; [now right|auto].
Qed.
End Find.

(** ** find_all_string_submatch_n *)
Section All.
Variable L : regex_lib.
Variable T : text_ops.
Hypothesis OK : lib_ok L.
Hypothesis FI : first_ok T.
Variable p : str.

Lemma all_loop_ends number : forall fuel s i, length s < fuel -> (exists rows, all_loop L T fuel p s i number = Ok rows) \/ all_loop L T fuel p s i number = Throw.
Proof.
  induction fuel as [|n IH]; intros s i F; [lia|]. cbn [all_loop]. destruct (_ && _) eqn:C; [|eauto]. apply andb_true_iff in C as [_ C].
  destruct (Nat.eqb_spec (length s) 0) as [|N]; [discriminate|]. destruct (search L p s) as [m| |] eqn:S1; eauto. unfold search in S1. apply OK in S1 as (A & B & _).
  destruct (Nat.eqb_spec (rm_len m) 0).
  - destruct (Nat.leb_spec (length s) (t_first T s)); [eauto|]. assert (0 < t_first T s) by (apply FI; now destruct s).
    destruct (IH (skipn (t_first T s) s) (i + 1)%Z) as [(r & ->)| ->]; cbn [obind]; eauto. rewrite skipn_length. lia.
  - destruct (IH (after s m) (i + 1)%Z) as [(r & ->)| ->]; cbn [obind]; eauto. unfold after. rewrite skipn_length. lia.
Qed.
Lemma all_loop_count number : forall fuel s i rows, all_loop L T fuel p s i number = Ok rows -> (i <= number)%Z -> (i + Z.of_nat (length rows) <= number)%Z.
Proof.
  induction fuel as [|n IH]; intros s i rows H F; [discriminate|]. cbn [all_loop] in H.
  destruct (Z.ltb_spec i number); [|injection H as <-; simpl; lia]. cbn [andb] in H. destruct (negb _); [|injection H as <-; simpl; lia].
  destruct (search L p s) as [m| |]; try discriminate; [|injection H as <-; simpl; lia].
  destruct (rm_len m =? 0); [destruct (_ <=? _); [injection H as <-; simpl; lia|]|];
  (destruct (all_loop L T n p _ (i + 1) number) as [r| | |] eqn:E; cbn [obind] in H; try discriminate; injection H as <-; apply IH in E; [|lia]; simpl length; lia).
Qed.
Lemma all_loop_calm number : lib_calm L -> forall fuel s i, all_loop L T fuel p s i number <> Throw.
Proof.
  intros CA. induction fuel as [|n IH]; intros s i; [discriminate|]. cbn [all_loop]. destruct (_ && _); [|discriminate].
  destruct (search L p s) as [m| |] eqn:S1; try discriminate; [|now apply CA in S1].
  destruct (rm_len m =? 0); [destruct (_ <=? _); [discriminate|]|];
  match goal with |- context [all_loop L T n p ?x ?y number] => specialize (IH x y); destruct (all_loop L T n p x y number) end; cbn [obind]; congruence.
Qed.
Lemma all_loop_prefix n n' : (n <= n')%Z -> forall fuel s i ms ms', all_loop L T fuel p s i n = Ok ms -> all_loop L T fuel p s i n' = Ok ms' ->
  ms = firstn (Z.to_nat (n - i)) ms'.
Proof.
  intros N. induction fuel as [|f IH]; intros s i ms ms' H H'; [discriminate|]. cbn [all_loop] in *.
  destruct (Z.ltb_spec i n); [|injection H as <-; replace (Z.to_nat (n - i)) with 0 by lia; reflexivity].
  destruct (Z.ltb_spec i n'); [|lia]. cbn [andb] in *. destruct (negb _); [|injection H as <-; injection H' as <-; now rewrite firstn_nil].
  destruct (search L p s) as [m| |]; try discriminate; [|injection H as <-; injection H' as <-; now rewrite firstn_nil].
  replace (Z.to_nat (n - i)) with (S (Z.to_nat (n - (i + 1)))) by lia.
  destruct (rm_len m =? 0); [destruct (_ <=? _); [injection H as <-; injection H' as <-; cbn [firstn]; now rewrite firstn_nil|]|];
  (destruct (all_loop L T f p _ (i + 1) n) as [r| | |] eqn:E; cbn [obind] in H; try discriminate;
   destruct (all_loop L T f p _ (i + 1) n') as [r'| | |] eqn:E'; cbn [obind] in H'; try discriminate;
   injection H as <-; injection H' as <-; cbn [firstn]; f_equal; eapply IH; eauto).
Qed.

(** *** Agreement with find_n *)
Definition shifted (k : nat) (x : found) : found := match x with Found m => Found (RMatch (k + rm_pos m) (rm_len m) (rm_groups m)) | y => y end.
Lemma skipn_two (s : str) a b : skipn a (skipn b s) = skipn (b + a) s.
Proof. revert s. induction b as [|b IH]; intros [|x s]; simpl; auto. - now rewrite !skipn_nil. Qed.
Lemma skipn_none (s : str) i : length s <= i -> skipn i s = [].
Proof. intros H. apply length_zero_iff_nil. rewrite skipn_length. lia. Qed.
Lemma agree_loop s number : (forall i, i <= length s -> rx_search L p false true s i = shifted i (search L p (skipn i s))) ->
  (forall t m, search L p t = Found m -> 0 < rm_len m) ->
  forall f k f' i prev it rows ms, it = shifted k (search L p (skipn k s)) -> k <= length s ->
    all_loop L T f p (skipn k s) i number = Ok rows -> find_loop L f' p s i number prev it = Ok ms ->
    map (fun row => hd [] row) rows = map (hit s) ms.
Proof.
  intros CF NE. induction f as [|f IH]; intros k f' i prev it rows ms E K A F; [discriminate|]. destruct f' as [|f']; [discriminate|]. cbn [all_loop] in A. cbn [find_loop] in F. subst it.
  destruct (Z.ltb_spec i number) as [LT|GE].
  2:{ cbn [andb] in A. injection A as <-. destruct (search L p (skipn k s)); cbn [shifted] in F; try discriminate; injection F as <-; reflexivity. }
  cbn [andb] in A. destruct (search L p (skipn k s)) as [m| |] eqn:S1; cbn [shifted] in F; try discriminate.
  2:{ injection F as <-. destruct (negb _); injection A as <-; reflexivity. }
  pose proof (NE _ _ S1) as NZ. assert (S2 := S1). apply OK in S2 as (_ & B & _). rewrite skipn_length in B.
  rewrite skipn_length in A. destruct (Nat.eqb_spec (length s - k) 0); [lia|]. cbn [negb] in A. destruct (Nat.eqb_spec (rm_len m) 0); [lia|].
  unfold after in A. rewrite skipn_two in A. destruct (all_loop L T f p _ (i + 1) number) as [r| | |] eqn:E; cbn [obind] in A; try discriminate. injection A as <-.
  destruct (find_loop L f' p s (i + 1) number _ _) as [q| | |] eqn:Q; cbn [obind] in F; try discriminate. injection F as <-.
  cbn [map hd]. f_equal. { unfold hit. cbn [rm_pos rm_len]. now rewrite skipn_two. }
  eapply (IH (k + (rm_pos m + rm_len m))); [|lia|exact E|exact Q]. unfold it_next. cbn [rm_pos rm_len]. destruct (Nat.eqb_spec (rm_len m) 0); [lia|].
  rewrite Nat.add_assoc. apply CF. lia.
Qed.
End All.

(** ** split *)
Section Split.
Variable L : regex_lib.
Hypothesis OK : lib_ok L.
Variable p : str.

Lemma piece_split s m : rm_pos m + rm_len m <= length s -> s = before s m ++ hit s m ++ after s m.
Proof.
  intros H. unfold before, hit, after. rewrite <- (firstn_skipn (rm_pos m) s) at 1. f_equal.
  rewrite <- (firstn_skipn (rm_len m) (skipn (rm_pos m) s)) at 1. f_equal. apply skipn_two.
Qed.
Lemma split_spec : (forall s m, s <> [] -> search L p s = Found m -> 0 < rm_pos m + rm_len m) ->
  forall fuel s, length s < fuel -> split_loop L fuel p s = Throw \/
  exists l seps, split_loop L fuel p s = Ok l /\ length l = S (length seps) /\ weave l seps = s /\
    (forall y, In y seps -> exists u t m, s = u ++ t /\ search L p t = Found m /\ y = hit t m) /\
    (search L p (last l []) = NotFound \/ last l [] = []).
Proof.
  intros NE. induction fuel as [|n IH]; intros s F; [lia|]. cbn [split_loop]. destruct (search L p s) as [m| |] eqn:S1; auto.
  - assert (S2 := S1). apply OK in S2 as (_ & B & _). destruct s as [|c s0] eqn:ES.
    { right. exists [[]], []. repeat split; auto. intros y []. }
    rewrite <- ES in *. assert (N : s <> []) by (rewrite ES; discriminate). clear ES. pose proof (NE s m N S1) as Q. pose proof (piece_split s m B) as P.
    assert (LL : length (after s m) < n) by (unfold after; rewrite skipn_length; lia).
    destruct (IH (after s m) LL) as [->|(l & seps & -> & A1 & A2 & A3 & A4)]; cbn [obind]; auto. right.
    exists (before s m :: l), (hit s m :: seps). split; auto. split; [simpl; lia|]. split; [cbn [weave]; rewrite A2; auto|]. split.
    + intros y [<-|Y]; [exists [], s, m; auto|]. destruct (A3 y Y) as (u & t & m' & E & X). exists (before s m ++ hit s m ++ u), t, m'.
      split; [|exact X]. rewrite P at 1. rewrite E. now rewrite <- !app_assoc.
    + destruct l; [discriminate|]. exact A4.
  - right. exists [s], []. simpl. repeat split; auto. intros y [].
Qed.
(** A pattern that finds the first occurrence of a text. *)
Lemma split_literal d : d <> [] -> (forall s, search L p s = match find0 d s with Some i => Found (RMatch i (length d) []) | None => NotFound end) ->
  forall fuel s, length s < fuel -> exists l, split_loop L fuel p s = Ok l /\ pieces d s l.
Proof.
  intros D LIT. induction fuel as [|n IH]; intros s F; [lia|]. cbn [split_loop]. rewrite LIT.
  pose proof (find0_spec d s) as H. destruct (find0 d s) as [i|]; [|exists [s]; split; auto; constructor; intros (i & O); now apply H in O].
  destruct H as [(a & b & E & LA) M]. destruct s as [|c s0] eqn:ES.
  { destruct a; [|discriminate]. destruct d; [congruence|discriminate]. }
  rewrite <- ES in *. clear ES. unfold after, before. cbn [rm_pos rm_len].
  assert (LD : 0 < length d) by (destruct d; [congruence|simpl; lia]).
  assert (A : skipn (i + length d) s = b).
  { rewrite E, <- LA. rewrite <- skipn_two. rewrite skipn_app_length. apply skipn_app_length. }
  assert (B : firstn i s = a) by (rewrite E, <- LA; rewrite firstn_app, Nat.sub_diag, firstn_all; apply app_nil_r).
  rewrite A, B. destruct (IH b) as (l & -> & P). { pose proof (f_equal (@length Z) E) as Q. rewrite !app_length in Q. change byte with Z in *. lia. }
  exists (a :: l). split; auto. rewrite E. constructor; auto. intros j O. rewrite <- E in O. rewrite LA. destruct (Nat.le_gt_cases i j); auto. now apply M in O.
Qed.
End Split.

(** ** Templates *)
Lemma occurs_split (d x : list Z) i : occurs_at d x i -> x = firstn i x ++ d ++ skipn (i + length d) x.
Proof.
  intros (a & b & -> & <-). rewrite <- skipn_two, !skipn_app_length. now rewrite firstn_app, Nat.sub_diag, firstn_all, app_nil_r.
Qed.
Lemma substr_cut (t : list Z) a b : a <= b -> skipn a t = substr t a (b - a) ++ skipn b t.
Proof.
  intros H. unfold substr. rewrite <- (firstn_skipn (b - a) (skipn a t)) at 1. f_equal. rewrite skipn_two. f_equal. lia.
Qed.
Lemma occurs_skip (d t : list Z) i : occurs_at d t i -> skipn i t = d ++ skipn (i + length d) t.
Proof. intros (a & b & -> & <-). now rewrite <- skipn_two, !skipn_app_length. Qed.

Lemma occurs_part (d t : list Z) a n i : a <= length t -> occurs_at d (substr t a n) i -> occurs_at d t (a + i) /\ i + length d <= n.
Proof.
  unfold substr. intros Q (u & v & E & <-). split.
  - exists (firstn a t ++ u), (v ++ skipn n (skipn a t)). split.
    + rewrite <- (firstn_skipn a t) at 1. rewrite <- (firstn_skipn n (skipn a t)) at 1. rewrite E. now rewrite <- !app_assoc.
    + rewrite app_length, firstn_length. change byte with Z in *. lia.
  - pose proof (firstn_le_length n (skipn a t)) as W. pose proof (f_equal (@length Z) E) as X. rewrite !app_length in X. change byte with Z in *. lia.
Qed.
Lemma occurs_end (d t : list Z) i : occurs_at d t i -> i + length d <= length t.
Proof. intros (a & b & -> & <-). rewrite !app_length. lia. Qed.

Local Ltac zl := change byte with Z in *; lia.
Lemma template_spec (t ds de : list Z) : 0 < length ds + length de -> forall fuel start, start <= length t -> length t - start + 1 < fuel ->
  exists l, template_loop fuel t ds de start (find_from ds t start) = Ok l /\ flat_map (section_text ds de) l = skipn start t /\ tidy ds de l.
Proof.
  intros D. induction fuel as [|n IH]; intros start S0 F; [zl|]. cbn [template_loop]. change byte with Z.
  assert (REST : (forall i j, occurs_at ds t i -> start <= i -> i + length ds <= j -> occurs_at de t j -> False) ->
    exists l, Ok (if start <? length t then [Literal (skipn start t)] else []) = Ok l /\ flat_map (section_text ds de) l = skipn start t /\ tidy ds de l).
  { intros NO. eexists. split; [reflexivity|]. destruct (Nat.ltb_spec start (length t)).
    - cbn [flat_map section_text]. rewrite app_nil_r. split; auto. split; [|split].
      + intros [|? [|? ?]] x b E N; try discriminate. injection E as E1 E2. congruence.
      + intros [|? [|? ?]] x E; try discriminate. injection E as <-. intros (i & j & A & B & C). rewrite occurs_at_skipn in A, C by auto. eapply NO; [exact A|zl| |exact C]. zl.
      + intros x [E|[]]. discriminate.
    - rewrite skipn_none by auto. split; auto. split; [|split]; [intros [|? ?] x b E; discriminate|intros [|? ?] x E; discriminate|intros x []]. }
  pose proof (find_from_spec ds t start) as FS. destruct (find_from ds t start) as [k|].
  2:{ apply REST. intros i j A B _ _. eapply FS; eauto. }
  destruct FS as (O1 & L1 & M1). pose proof (find_from_spec de t (k + length ds)) as FE. destruct (find_from de t (k + length ds)) as [e|].
  2:{ apply REST. intros i j A B C E. apply (FE j); auto. destruct (Nat.le_gt_cases k i); [zl|]. elim (M1 i); auto. }
  destruct FE as (O2 & L2 & M2). pose proof (occurs_end _ _ _ O2) as E2. pose proof (occurs_end _ _ _ O1) as E1.
  destruct (IH (e + length de)) as (l & -> & R & TD); [zl|zl|]. cbn [obind]. eexists. split; [reflexivity|].
  replace (k + length ds - start - length ds) with (k - start) by zl. set (lit := substr t start (k - start)). set (rx := substr t (k + length ds) (e - (k + length ds))).
  assert (RX : skipn k t = ds ++ rx ++ de ++ skipn (e + length de) t).
  { rewrite (occurs_skip _ _ _ O1). f_equal. rewrite (substr_cut t (k + length ds) e) by zl. fold rx. f_equal. now apply occurs_skip. }
  assert (NX : rx = [] \/ ~ occurs de rx).
  { destruct (Nat.eq_dec e (k + length ds)) as [X|X]; [left; unfold rx; now rewrite X, Nat.sub_diag|right].
    intros (i & O). apply occurs_part in O as [O W]; [|zl]. apply (M2 (k + length ds + i)); auto.
    destruct (Nat.eq_dec (length de) 0) as [Z|Z]; [|zl]. exfalso. apply (M2 (k + length ds)); [zl|].
    apply length_zero_iff_nil in Z. rewrite Z. exists (firstn (k + length ds) t), (skipn (k + length ds) t). split; [symmetry; apply firstn_skipn|]. rewrite firstn_length. zl. }
  assert (TR : tidy ds de (Regex rx :: l)).
  { destruct TD as (T1 & T2 & T3). split; [|split].
    - intros [|y a] x b E N; [discriminate|]. injection E as _ E. eauto.
    - intros [|y a] x E; [discriminate|]. injection E as _ E. eauto.
    - intros x [E|I]; [injection E as <-; auto|auto]. }
  destruct (Nat.ltb_spec start (k + length ds)).
  - cbn [app flat_map section_text]. split.
    + change byte with Z in *. rewrite R. rewrite (substr_cut t start k) by zl. fold lit. now rewrite RX, <- !app_assoc.
    + destruct TR as (T1 & T2 & T3). split; [|split].
      * intros [|y a] x b E N; [|injection E as _ E; eauto]. injection E as <- _. intros (i & O). apply occurs_part in O as [O W]; [|zl].
        destruct (Nat.eq_dec (length ds) 0) as [Z|Z]; [|apply (M1 (start + i)); [zl|auto]].
        assert (start < k) by zl. apply (M1 start); [zl|]. apply length_zero_iff_nil in Z. rewrite Z. exists (firstn start t), (skipn start t).
        split; [symmetry; apply firstn_skipn|]. rewrite firstn_length. zl.
      * intros [|y a] x E; [discriminate|]. injection E as _ E. eauto.
      * intros x [E|I]; [discriminate|auto].
  - cbn [app flat_map section_text]. split; auto. change byte with Z in *. rewrite R. replace start with k by zl. now rewrite RX, <- !app_assoc.
Qed.
Lemma template_hangs (t : list Z) : forall fuel start, start <= length t -> template_loop fuel t [] [] start (find_from [] t start) = OutOfFuel.
Proof.
  assert (Z : forall k, k <= length t -> find_from [] t k = Some k).
  { intros k K. unfold find_from. destruct (Nat.leb_spec k (length t)); [|zl]. destruct (skipn k t); cbn [find0 prefixb option_map]; f_equal; zl. }
  induction fuel as [|n IH]; intros start S0; [reflexivity|]. cbn [template_loop]. rewrite (Z start S0). cbn [length]. change byte with BinNums.Z. rewrite !Nat.add_0_r, (Z start S0). cbn [length].
  rewrite ?Nat.add_0_r. now rewrite IH.
Qed.
