(** Facts behind the theorems on dependency ordering. *)
From Coq Require Import String ZArith List Bool Lia Permutation Sorted Arith.
From Verif Require Import Base SMap SMapFacts StrModel StrProofs DepModel DepSpec.
Import ListNotations.
Local Open Scope nat_scope.
Local Open Scope list_scope.

Scheme settled_ind2 := Induction for settled Sort Prop
  with given_ind2 := Induction for given Sort Prop.

Lemma memb_in i l : memb i l = true <-> In i l.
Proof. unfold memb. rewrite existsb_exists. split; [ intros (x & H & E); apply Nat.eqb_eq in E; now subst | intros H; exists i; split; [ assumption | apply Nat.eqb_refl ] ]. Qed.
Lemma memb_false i l : memb i l = false <-> ~ In i l.
Proof. rewrite <- memb_in. destruct (memb i l); split; congruence. Qed.
Lemma includes_spec big small : includes big small = true <-> incl small big.
Proof.
  unfold includes. rewrite forallb_forall. split; intros H n K.
  - specialize (H n K). apply existsb_exists in H. destruct H as (x & X & E). apply str_eqb_eq in E. now subst.
  - apply existsb_exists. exists n. split; [ now apply H | apply str_eqb_refl ].
Qed.

(** ** What [m_locals] records *)

Definition local_of (m : list (str * local)) (n : str) : option nat * list nat :=
  match sm_find n m with Some l => (in_edge l, out_edges l) | None => (None, []) end.

(** The table agrees with the literals. *)
Record consistent (g : graph) : Prop := {
  c_keyed : keyed (m_locals g);
  c_out : forall n i, In i (snd (local_of (m_locals g) n)) <-> needs (m_literals g) i n;
  c_in : forall n i, fst (local_of (m_locals g) n) = Some i -> binds (m_literals g) i n;
  c_in_none : forall n, fst (local_of (m_locals g) n) = None -> outside (m_literals g) n;
  c_known : forall n, (exists i, needs (m_literals g) i n) -> sm_find n (m_locals g) <> None;
  c_needed : forall n, sm_find n (m_locals g) <> None -> (exists i, needs (m_literals g) i n) \/ (exists i, binds (m_literals g) i n) }.

Lemma fold_in_spec index cap names : forall m, keyed m ->
  let m' := fold_left (add_in index cap) names m in
  keyed m' /\ forall n, fst (local_of m' n) = fst (local_of m n) /\
    (forall i, In i (snd (local_of m' n)) <-> In i (snd (local_of m n)) \/ (i = index /\ In n names)) /\
    (sm_find n m' <> None <-> sm_find n m <> None \/ In n names).
Proof.
  induction names as [ | a names IH ]; intros m K; cbn [fold_left].
  - split; [ assumption | ]. intros n. split; [ reflexivity | ]. split; [ intros i | ]; cbn [In]; tauto.
  - assert (K1 : keyed (add_in index cap m a)) by (unfold add_in; destruct (sm_find a m); now apply sm_set_keyed).
    destruct (IH _ K1) as (K2 & H). split; [ exact K2 | ]. intros n. destruct (H n) as (H1 & H2 & H3).
    assert (X : fst (local_of (add_in index cap m a) n) = fst (local_of m n) /\
      (forall i, In i (snd (local_of (add_in index cap m a) n)) <-> In i (snd (local_of m n)) \/ (i = index /\ a = n)) /\
      (sm_find n (add_in index cap m a) <> None <-> sm_find n m <> None \/ a = n)).
    { unfold local_of, add_in. destruct (sm_find a m) as [ l | ] eqn:F; rewrite sm_find_set by assumption;
        (destruct (str_eqb n a) eqn:Q; [ apply str_eqb_eq in Q; subst n; rewrite F; cbn | apply str_eqb_neq in Q ]).
      - split; [ reflexivity | ]. split; [ | split; [ tauto | discriminate ] ]. intros i. rewrite in_app_iff. cbn. intuition congruence.
      - split; [ reflexivity | ]. split; [ intros i; intuition congruence | intuition congruence ].
      - split; [ reflexivity | ]. split; [ intros i; cbn; intuition congruence | split; [ tauto | discriminate ] ].
      - split; [ reflexivity | ]. split; [ intros i; intuition congruence | intuition congruence ]. }
    destruct X as (X1 & X2 & X3). split; [ congruence | ]. split.
    + intros i. rewrite H2, X2. cbn [In]. tauto.
    + rewrite H3, X3. cbn [In]. tauto.
Qed.
Lemma fold_out_spec index cap names : forall m, keyed m ->
  let m' := fold_left (add_out index cap) names m in
  keyed m' /\ forall n, (In n names -> fst (local_of m' n) = Some index) /\ (~ In n names -> fst (local_of m' n) = fst (local_of m n)) /\
    snd (local_of m' n) = snd (local_of m n) /\
    (sm_find n m' <> None <-> sm_find n m <> None \/ In n names).
Proof.
  induction names as [ | a names IH ]; intros m K; cbn [fold_left].
  - split; [ assumption | ]. intros n. split; [ intros [] | ]. split; [ reflexivity | ]. split; [ reflexivity | cbn; tauto ].
  - assert (K1 : keyed (add_out index cap m a)) by (unfold add_out; destruct (sm_find a m); now apply sm_set_keyed).
    destruct (IH _ K1) as (K2 & H). split; [ exact K2 | ]. intros n. destruct (H n) as (H1 & H2 & H3 & H4).
    assert (X : (a = n -> fst (local_of (add_out index cap m a) n) = Some index) /\ (a <> n -> fst (local_of (add_out index cap m a) n) = fst (local_of m n)) /\
      snd (local_of (add_out index cap m a) n) = snd (local_of m n) /\
      (sm_find n (add_out index cap m a) <> None <-> sm_find n m <> None \/ a = n)).
    { unfold local_of, add_out. destruct (sm_find a m) as [ l | ] eqn:F; rewrite sm_find_set by assumption;
        (destruct (str_eqb n a) eqn:Q; [ apply str_eqb_eq in Q; subst n; rewrite F; cbn | apply str_eqb_neq in Q ]);
        repeat split; intros; try congruence; try tauto; intuition congruence. }
    destruct X as (X1 & X2 & X3 & X4). split; [ | split; [ | split ] ].
    + intros [-> | Hn]; [ | now apply H1 ]. destruct (in_dec (list_eq_dec Z.eq_dec) n names) as [ Y | Y ]; [ now apply H1 | rewrite H2 by assumption; now apply X1 ].
    + intros Hn. cbn in Hn. rewrite H2 by tauto. apply X2. tauto.
    + congruence.
    + rewrite H4, X4. cbn [In]. tauto.
Qed.

Lemma nth_snoc {A} (l : list A) x i y : nth_error (l ++ [x]) i = Some y <-> nth_error l i = Some y \/ (i = length l /\ y = x).
Proof.
  destruct (Nat.lt_ge_cases i (length l)) as [ H | H ].
  - rewrite nth_error_app1 by assumption. split; [ tauto | ]. intros [ | (-> & _) ]; [ assumption | lia ].
  - rewrite nth_error_app2 by assumption. assert (N : nth_error l i = None) by now apply nth_error_None. rewrite N.
    split.
    + intros E. right. destruct (i - length l) as [ | k ] eqn:D; cbn in E; [ injection E as <-; split; [ lia | reflexivity ] | destruct k; discriminate ].
    + intros [ | (-> & ->) ]; [ discriminate | now rewrite Nat.sub_diag ].
Qed.
Lemma needs_snoc L l i n : needs (L ++ [l]) i n <-> needs L i n \/ (i = length L /\ In n (l_in l)).
Proof. unfold needs. setoid_rewrite nth_snoc. split; [ intros (x & [H | (-> & ->)] & I); eauto | intros [(x & H & I) | (-> & I)]; eauto ]. Qed.
Lemma binds_snoc L l i n : binds (L ++ [l]) i n <-> binds L i n \/ (i = length L /\ In n (l_out l)).
Proof. unfold binds. setoid_rewrite nth_snoc. split; [ intros (x & [H | (-> & ->)] & I); eauto | intros [(x & H & I) | (-> & I)]; eauto ]. Qed.
Lemma binds_lt L i n : binds L i n -> i < length L.
Proof. intros (l & H & _). apply nth_error_Some. congruence. Qed.
Lemma needs_lt L i n : needs L i n -> i < length L.
Proof. intros (l & H & _). apply nth_error_Some. congruence. Qed.

Lemma consistent_empty : consistent empty_graph.
Proof.
  split; cbn.
  - apply keyed_nil.
  - intros n i. split; [ intros [] | ]. intros (l & H & _). destruct i; discriminate.
  - discriminate.
  - intros n _ i (l & H & _). destruct i; discriminate.
  - intros n (i & l & H & _). destruct i; discriminate.
  - congruence.
Qed.
Lemma consistent_add g l : consistent g -> consistent (add_literal g l).
Proof.
  intros [K O I N Kn Ne]. unfold add_literal. set (index := length (m_literals g)) in *. set (cap := is_capture (l_kind l)).
  destruct (fold_in_spec index cap (l_in l) (m_locals g) K) as (K1 & H1). destruct (fold_out_spec index cap (l_out l) _ K1) as (K2 & H2).
  split; cbn [m_locals m_literals].
  - exact K2.
  - intros n i. destruct (H2 n) as (_ & _ & E & _). rewrite E. destruct (H1 n) as (_ & E1 & _). rewrite E1, O. symmetry. apply needs_snoc.
  - intros n i F. apply binds_snoc. destruct (in_dec (list_eq_dec Z.eq_dec) n (l_out l)) as [ Y | Y ].
    + destruct (H2 n) as (E & _). rewrite (E Y) in F. injection F as <-. now right.
    + destruct (H2 n) as (_ & E & _). rewrite (E Y) in F. destruct (H1 n) as (E1 & _). rewrite E1 in F. left. now apply I.
  - intros n F i B. apply binds_snoc in B. destruct (in_dec (list_eq_dec Z.eq_dec) n (l_out l)) as [ Y | Y ].
    + destruct (H2 n) as (E & _). rewrite (E Y) in F. discriminate.
    + destruct (H2 n) as (_ & E & _). rewrite (E Y) in F. destruct (H1 n) as (E1 & _). rewrite E1 in F. destruct B as [ B | (_ & B) ]; [ now apply (N n F i) | contradiction ].
  - intros n (i & B). apply needs_snoc in B. apply H2. left. apply H1. destruct B as [ B | (_ & B) ]; [ left; apply Kn; eauto | now right ].
  - intros n F. apply H2 in F. setoid_rewrite needs_snoc. setoid_rewrite binds_snoc. destruct F as [ F | F ].
    + apply H1 in F. destruct F as [ F | F ]; [ destruct (Ne n F) as [ (i & X) | (i & X) ]; eauto | eauto ].
    + eauto.
Qed.
Lemma literals_add g l : m_literals (add_literal g l) = m_literals g ++ [l].
Proof. reflexivity. Qed.
Lemma literals_fold L : forall g, m_literals (fold_left add_literal L g) = m_literals g ++ L.
Proof. induction L as [ | l L IH ]; intros g; cbn; [ now rewrite app_nil_r | ]. rewrite IH, literals_add, <- app_assoc. reflexivity. Qed.
Lemma consistent_fold L : forall g, consistent g -> consistent (fold_left add_literal L g).
Proof. induction L as [ | l L IH ]; intros g H; cbn; [ assumption | ]. apply IH. now apply consistent_add. Qed.

(** ** Captures *)

Lemma prefixb_app p x : prefixb p x = true <-> exists r, x = p ++ r.
Proof.
  revert x. induction p as [ | a p IH ]; intros x; cbn [prefixb].
  - split; [ intros _; now exists x | reflexivity ].
  - destruct x as [ | b x ]; [ split; [ discriminate | intros (r & E); discriminate ] | ]. rewrite andb_true_iff, Z.eqb_eq, IH. split.
    + intros (-> & r & ->). now exists r.
    + intros (r & E). injection E as -> ->. split; [ reflexivity | now exists r ].
Qed.
Lemma ends_with_app x s : ends_with x s = true <-> exists r, x = r ++ s.
Proof.
  unfold ends_with. rewrite prefixb_app. split.
  - intros (r & E). exists (rev r). rewrite <- (rev_involutive x), E, rev_app_distr, rev_involutive. reflexivity.
  - intros (r & ->). exists (rev r). apply rev_app_distr.
Qed.

(** A literal that only provides the name [n] nobody binds. *)
Definition provides (n : str) (l : literal) : Prop := l_in l = [] /\ l_out l = [n] /\ in_body (l_kind l) = false.
Definition plain_missing (L : list literal) : Prop := forall n i, needs L i n -> outside L n -> ~ argument_marker n.

Lemma add_capture_spec g n : consistent g -> ~ argument_marker n ->
  (m_literals (add_capture g n) = m_literals g /\ m_locals (add_capture g n) = m_locals g /\ (sm_find n (m_locals g) = None \/ fst (local_of (m_locals g) n) <> None)) \/
  (exists l, provides n l /\ m_literals (add_capture g n) = m_literals g ++ [l] /\ m_locals (add_capture g n) = m_locals (add_literal g l) /\
    sm_find n (m_locals g) <> None /\ fst (local_of (m_locals g) n) = None).
Proof.
  intros C A. unfold add_capture, local_of. destruct (sm_find n (m_locals g)) as [ l | ] eqn:F; [ | left; repeat split; now left ].
  destruct (in_edge l) eqn:E; [ left; rewrite ?E; cbn; repeat split; right; congruence | ].
  right. destruct (ends_with n $"#empty") eqn:W.
  - apply ends_with_app in W. destruct W as (r & ->). eexists. split; [ | split; [ reflexivity | split; [ reflexivity | split; [ discriminate | reflexivity ] ] ] ].
    assert (D : length (r ++ $"#empty") - 6 = length r) by (rewrite app_length; cbn; lia). rewrite D. rewrite firstn_app, Nat.sub_diag, firstn_all. cbn [firstn]. rewrite app_nil_r.
    assert (N : starts_with r $"funcarg$" = false).
    { destruct (starts_with r $"funcarg$") eqn:Q; [ | reflexivity ]. apply prefixb_app in Q. destruct Q as (x & ->). exfalso. apply A. exists x. now rewrite <- app_assoc. }
    split; [ reflexivity | ]. destruct (starts_with r $"scanindex$" || starts_with r $"scanvalue$"); cbn [l_out l_kind in_body declared]; rewrite N; split; reflexivity.
  - exists (mkLit KCapture [] [n]). repeat split. discriminate.
Qed.

Lemma consistent_locals g g' : consistent g -> m_literals g' = m_literals g -> m_locals g' = m_locals g -> consistent g'.
Proof. intros [K O I N Kn Ne] E1 E2. split; rewrite ?E1, ?E2; assumption. Qed.

(** After the loop over [names]. *)
Lemma add_captures_fold L0 names : plain_missing L0 -> bound_once L0 -> NoDup names -> forall g extra,
  consistent g -> m_literals g = L0 ++ extra ->
  (forall n, In n names -> sm_find n (m_locals g) <> None) ->
  Forall (fun l => exists n, provides n l /\ outside L0 n /\ exists i, needs L0 i n) extra ->
  bound_once (m_literals g) ->
  (forall n, ~ In n names -> outside (m_literals g) n -> outside L0 n -> forall i, ~ needs L0 i n) ->
  let g' := fold_left add_capture names g in
  exists extra', m_literals g' = L0 ++ extra' /\ consistent g' /\ bound_once (m_literals g') /\
    Forall (fun l => exists n, provides n l /\ outside L0 n /\ exists i, needs L0 i n) extra' /\
    (forall n, outside (m_literals g') n -> outside L0 n -> forall i, ~ needs L0 i n).
Proof.
  intros PM BO ND. induction names as [ | a names IH ]; intros g extra C E Kn Fx B Cov g'; cbn [fold_left] in g'.
  - exists extra. split; [ exact E | ]. split; [ exact C | ]. split; [ exact B | ]. split; [ exact Fx | ]. intros n. apply Cov. now intros [].
  - inversion ND as [ | ? ? Na ND' ]; subst. specialize (IH ND').
    assert (Ka : sm_find a (m_locals g) <> None) by (apply Kn; now left).
    (* nothing in [extra] needs anything *)
    assert (Nx : forall i n, needs (m_literals g) i n <-> needs L0 i n).
    { intros i n. rewrite E. unfold needs. split.
      - intros (l & H & I). destruct (Nat.lt_ge_cases i (length L0)) as [ Hi | Hi ]; [ rewrite nth_error_app1 in H by assumption; eauto | ].
        rewrite nth_error_app2 in H by assumption. apply nth_error_In in H. rewrite Forall_forall in Fx. destruct (Fx l H) as (? & (Z & _) & _). rewrite Z in I. destruct I.
      - intros (l & H & I). exists l. split; [ | assumption ]. rewrite nth_error_app1; [ assumption | ]. apply nth_error_Some. congruence. }
    assert (Bx : forall i n, binds L0 i n -> binds (m_literals g) i n).
    { intros i n (l & H & I). exists l. split; [ | assumption ]. rewrite E, nth_error_app1; [ assumption | ]. apply nth_error_Some. congruence. }
    destruct (fst (local_of (m_locals g) a)) as [ j | ] eqn:Ia.
    + (* bound already *)
      assert (Same : add_capture g a = g).
      { unfold add_capture. unfold local_of in Ia. destruct (sm_find a (m_locals g)); [ | reflexivity ]. cbn in Ia. now rewrite Ia. }
      unfold g'. rewrite Same. apply (IH g extra); try assumption; [ intros n Hn; apply Kn; now right | ].
      intros n Hn O. destruct (list_eq_dec Z.eq_dec a n) as [ <- | Nn ].
      * exfalso. apply (O j). now apply (c_in g C).
      * apply Cov; [ | assumption ]. intros [ | ]; contradiction.
    + (* not bound *)
      pose proof (c_in_none g C a Ia) as Oa.
      assert (Na' : exists i, needs L0 i a).
      { destruct (c_needed g C a Ka) as [ (i & H) | (i & H) ]; [ exists i; now apply Nx | now destruct (Oa i) ]. }
      assert (O0 : outside L0 a) by (intros i H; now apply (Oa i), Bx).
      destruct (add_capture_spec g a C ltac:(destruct Na' as (i & H); now apply (PM a i))) as [ (_ & _ & [ H | H ]) | (l & P & El & Em & _ & _) ]; [ contradiction | congruence | ].
      set (g1 := add_capture g a) in *.
      assert (C1 : consistent g1) by (apply (consistent_locals (add_literal g l)); [ now apply consistent_add | now rewrite El | exact Em ]).
      destruct P as (Pi & Po & Pk).
      assert (Bs : forall i n, binds (m_literals g1) i n <-> binds (m_literals g) i n \/ (i = length (m_literals g) /\ n = a)).
      { intros i n. rewrite El, binds_snoc, Po. cbn. intuition congruence. }
      apply (IH g1 (extra ++ [l])).
      * exact C1.
      * now rewrite El, E, app_assoc.
      * intros n Hn. assert (Kg : sm_find n (m_locals g) <> None) by (apply Kn; now right).
        rewrite Em. cbn. rewrite Pi, Po. cbn. apply (proj2 (fold_out_spec (length (m_literals g)) (is_capture (l_kind l)) [a] (m_locals g) (c_keyed g C))). now left.
      * apply Forall_app. split; [ exact Fx | ]. constructor; [ | constructor ]. exists a. repeat split; assumption.
      * intros i j n Hi Hj. apply Bs in Hi, Hj. destruct Hi as [ Hi | (-> & ->) ], Hj as [ Hj | (-> & Q) ].
        -- now apply (B i j n).
        -- subst n. exfalso. exact (Oa i Hi).
        -- exfalso. exact (Oa j Hj).
        -- reflexivity.
      * intros n Hn O. destruct (list_eq_dec Z.eq_dec a n) as [ <- | Nn ].
        -- exfalso. apply (O (length (m_literals g))). apply Bs. now right.
        -- apply Cov; [ intros [ | ]; contradiction | ]. intros i H. apply (O i). apply Bs. now left.
Qed.

(** What [build] gives. *)
Lemma build_spec L0 : plain_missing L0 -> bound_once L0 ->
  exists extra, m_literals (build L0) = L0 ++ extra /\ consistent (build L0) /\ bound_once (L0 ++ extra) /\
    Forall (fun l => exists n, provides n l /\ outside L0 n /\ exists i, needs L0 i n) extra /\
    (forall n i, needs (L0 ++ extra) i n -> exists j, binds (L0 ++ extra) j n).
Proof.
  intros PM BO. unfold build, add_captures. set (g0 := fold_left add_literal L0 empty_graph).
  assert (C0 : consistent g0) by (apply consistent_fold, consistent_empty).
  assert (E0 : m_literals g0 = L0) by apply literals_fold.
  destruct (add_captures_fold L0 (map fst (m_locals g0)) PM BO (keyed_nodup _ (c_keyed g0 C0)) g0 [] C0) as (extra & E & C & B & F & Cov).
  - now rewrite E0, app_nil_r.
  - intros n Hn H. apply sm_find_none in H. contradiction.
  - constructor.
  - now rewrite E0.
  - intros n Hn _ _ i H. apply Hn. destruct (sm_find n (m_locals g0)) eqn:Q; [ apply sm_find_in in Q; apply in_map_iff; eauto using in_map | ].
    + exists (n, l). split; [ reflexivity | assumption ].
    + exfalso. apply (c_known g0 C0 n); [ rewrite E0; eauto | assumption ].
  - exists extra. split; [ exact E | ]. split; [ exact C | ]. rewrite E in B. split; [ exact B | ]. split; [ exact F | ].
    intros n i H.
    assert (H0 : needs L0 i n).
    { destruct H as (l & H & I). destruct (Nat.lt_ge_cases i (length L0)) as [ Hi | Hi ]; [ rewrite nth_error_app1 in H by assumption; exists l; auto | ].
      rewrite nth_error_app2 in H by assumption. apply nth_error_In in H. rewrite Forall_forall in F. destruct (F l H) as (? & (Z & _) & _). rewrite Z in I. destruct I. }
    destruct (fst (local_of (m_locals (fold_left add_capture (map fst (m_locals g0)) g0)) n)) as [ j | ] eqn:Q.
    + exists j. rewrite <- E. now apply (c_in _ C).
    + pose proof (c_in_none _ C n Q) as O. exfalso. apply (Cov n O) with (i := i); [ | assumption ].
      intros k (l & Hk & I). apply (O k). rewrite E. exists l. split; [ | assumption ]. rewrite nth_error_app1; [ assumption | ]. apply nth_error_Some. congruence.
Qed.

(** ** Connected parts *)

Section Parts.
Variable g : graph.
Notation L := (m_literals g).
Hypothesis C : consistent g.
Hypothesis Once : bound_once L.
Hypothesis All : forall n i, needs L i n -> exists j, binds L j n.

Definition touches (i : nat) (n : str) : Prop := needs L i n \/ binds L i n.
(** Two positions share a name. *)
Definition share (i j : nat) : Prop := exists n, touches i n /\ touches j n.
Lemma share_sym i j : share i j -> share j i.
Proof. intros (n & A & B). now exists n. Qed.
Lemma touches_lt i n : touches i n -> i < length L.
Proof. intros [H | H]; [ now apply needs_lt in H | now apply binds_lt in H ]. Qed.

Lemma in_edge_of n j : binds L j n -> fst (local_of (m_locals g) n) = Some j.
Proof.
  intros H. destruct (fst (local_of (m_locals g) n)) as [ k | ] eqn:E.
  - f_equal. apply (Once k j n); [ now apply (c_in g C) | assumption ].
  - exfalso. now apply (c_in_none g C n E j).
Qed.
Lemma neighbours_in_spec n i : needs L i n -> exists l, neighbours_in g n = Ok l /\ forall j, In j l <-> touches j n.
Proof.
  intros H. destruct (All n i H) as (b & B). pose proof (in_edge_of n b B) as E. pose proof (c_out g C n) as O.
  unfold neighbours_in, local_of in *. destruct (sm_find n (m_locals g)) as [ l | ]; [ | discriminate ]. cbn in E, O. rewrite E.
  eexists. split; [ reflexivity | ]. intros j. rewrite in_app_iff, O. cbn. unfold touches. split.
  - intros [ X | [ <- | [] ] ]; auto.
  - intros [ X | X ]; [ auto | ]. right. left. now apply (Once b j n).
Qed.
Lemma neighbours_out_spec n j : In j (neighbours_out g n) <-> needs L j n.
Proof. pose proof (c_out g C n j) as O. unfold neighbours_out, local_of in *. destruct (sm_find n (m_locals g)); exact O. Qed.
Lemma all_in_spec names : (forall n, In n names -> exists i, needs L i n) -> exists l, all_in g names = Ok l /\ forall j, In j l <-> exists n, In n names /\ touches j n.
Proof.
  induction names as [ | a names IH ]; intros H; cbn [all_in].
  - exists []. split; [ reflexivity | ]. intros j. split; [ intros [] | intros (n & [] & _) ].
  - destruct (H a (or_introl eq_refl)) as (i & N). destruct (neighbours_in_spec a i N) as (x & -> & X).
    destruct IH as (y & -> & Y); [ intros n Hn; apply H; now right | ]. cbn. eexists. split; [ reflexivity | ]. intros j. rewrite in_app_iff, X, Y. split.
    + intros [ T | (n & I & T) ]; eauto.
    + intros (n & [-> | I] & T); eauto.
Qed.
Lemma neighbours_spec i l : nth_error L i = Some l -> exists ns, neighbours g l = Ok ns /\ (forall j, In j ns -> share i j) /\ (forall j, share i j -> j = i \/ In j ns).
Proof.
  intros H. unfold neighbours. destruct (all_in_spec (l_in l)) as (x & -> & X); [ intros n Hn; exists i, l; auto | ]. cbn.
  eexists. split; [ reflexivity | ]. split.
  - intros j Hj. apply in_app_iff in Hj. destruct Hj as [ Hj | Hj ].
    + apply X in Hj. destruct Hj as (n & I & T). exists n. split; [ left; exists l; auto | assumption ].
    + apply in_flat_map in Hj. destruct Hj as (n & I & T). apply neighbours_out_spec in T. exists n. split; [ right; exists l; auto | now left ].
  - intros j (n & Ti & Tj). rewrite in_app_iff. destruct Ti as [ (l' & H' & I) | (l' & H' & I) ]; rewrite H in H'; injection H' as <-.
    + right. left. apply X. eauto.
    + destruct Tj as [ Tj | Tj ].
      * right. right. apply in_flat_map. exists n. split; [ assumption | now apply neighbours_out_spec ].
      * left. apply (Once j i n); [ assumption | exists l; auto ].
Qed.

(** Positions linked by shared names. *)
Inductive linked (i : nat) : nat -> Prop :=
| LinkRefl : linked i i
| LinkStep j k : linked i j -> share j k -> linked i k.
Lemma linked_trans i j k : linked i j -> linked j k -> linked i k.
Proof. intros A B. induction B; [ assumption | ]. now apply LinkStep with j0. Qed.
Lemma linked_sym i j : linked i j -> linked j i.
Proof. induction 1; [ constructor | ]. apply linked_trans with j; [ | assumption ]. apply LinkStep with k; [ constructor | now apply share_sym ]. Qed.
Lemma linked_lt i j : i < length L -> linked i j -> j < length L.
Proof. intros H K. induction K; [ assumption | ]. destruct H0 as (n & _ & T). now apply touches_lt in T. Qed.

Definition width : nat := list_max (map (fun l => match neighbours g l with Ok ns => length ns | _ => 0 end) L).
Lemma width_spec i l ns : nth_error L i = Some l -> neighbours g l = Ok ns -> length ns <= width.
Proof.
  intros H E. unfold width. assert (X : forall ls x, In x ls -> x <= list_max ls) by (intros ls x I; pose proof (proj1 (list_max_le ls (list_max ls)) (le_n _)) as F; rewrite Forall_forall in F; now apply F).
  apply X. apply in_map_iff. exists l. rewrite E. split; [ reflexivity | ]. now apply nth_error_In in H.
Qed.

Definition distinct_below (s : list nat) : Prop := NoDup s /\ forall i, In i s -> i < length L.
Lemma distinct_length s : distinct_below s -> length s <= length L.
Proof.
  intros (N & B). rewrite <- (seq_length (length L) 0). apply NoDup_incl_length; [ assumption | ]. intros i Hi. apply in_seq. specialize (B i Hi). lia.
Qed.

Lemma explore_spec start : start < length L -> forall fuel frontier seen,
  (forall i, In i frontier -> linked start i) -> (forall i, In i seen -> linked start i) -> distinct_below seen ->
  (forall i j, In i seen -> share i j -> In j seen \/ In j frontier) -> In start seen \/ In start frontier ->
  length frontier + (length L - length seen) * S width < fuel ->
  exists r, explore fuel g frontier seen = Ok r /\ distinct_below r /\ forall i, In i r <-> linked start i.
Proof.
  intros Hs. induction fuel as [ | fuel IH ]; intros frontier seen Fr Se D Cl St M; [ now apply Nat.nlt_0_r in M | ]. cbn [explore].
  destruct frontier as [ | i rest ].
  - exists seen. split; [ reflexivity | ]. split; [ assumption | ]. intros i. split; [ apply Se | ]. intros K. destruct St as [ St | [] ].
    induction K as [ | j k K IHk Sh ]; [ assumption | ]. destruct (Cl j k IHk Sh) as [ | [] ]; assumption.
  - destruct (memb i seen) eqn:Mb.
    + apply memb_in in Mb. apply IH.
      * intros j Hj. apply Fr. now right.
      * assumption.
      * assumption.
      * intros a b Ha Hb. destruct (Cl a b Ha Hb) as [ | [ -> | ] ]; auto.
      * destruct St as [ | [ -> | ] ]; auto.
      * cbn in M. lia.
    + apply memb_false in Mb.
      assert (Li : linked start i) by (apply Fr; now left). pose proof (linked_lt _ _ Hs Li) as Hi.
      destruct (nth_error L i) as [ l | ] eqn:El; [ | apply nth_error_None in El; lia ].
      destruct (neighbours_spec i l El) as (ns & En & N1 & N2). rewrite En. cbn [obind].
      assert (D' : distinct_below (i :: seen)). { destruct D as (Nd & Bd). split; [ now constructor | ]. intros j [<- | Hj]; auto. }
      pose proof (distinct_length _ D') as Len. cbn [length] in Len.
      apply IH.
      * intros j Hj. apply in_app_iff in Hj. destruct Hj as [ Hj | Hj ]; [ apply in_rev in Hj; apply LinkStep with i; auto | apply Fr; now right ].
      * intros j [<- | Hj]; auto.
      * exact D'.
      * intros a b [<- | Ha] Hb.
        -- destruct (N2 b Hb) as [ -> | X ]; [ left; now left | right; apply in_app_iff; left; now apply -> in_rev ].
        -- destruct (Cl a b Ha Hb) as [ | [ -> | X ] ]; [ left; now right | left; now left | right; apply in_app_iff; now right ].
      * destruct St as [ St | [ -> | St ] ]; [ left; now right | left; now left | right; apply in_app_iff; now right ].
      * rewrite app_length, rev_length. pose proof (width_spec i l ns El En) as W. cbn [length] in M |- *.
        replace (length L - length seen) with (S (length L - S (length seen))) in M by lia. cbn [Nat.mul] in M. lia.
Qed.

Lemma as_set_in n seen i : In i (as_set n seen) <-> i < n /\ In i seen.
Proof. unfold as_set. rewrite filter_In, in_seq, memb_in. intuition lia. Qed.
Lemma as_set_nodup n seen : NoDup (as_set n seen).
Proof. apply NoDup_filter, seq_NoDup. Qed.

Definition is_part (p : list nat) : Prop := NoDup p /\ exists start, start < length L /\ forall i, In i p <-> linked start i.
Lemma part_share p i j : is_part p -> In i p -> share i j -> In j p.
Proof. intros (_ & s & _ & H) I Sh. apply H. apply H in I. now apply LinkStep with i. Qed.
Lemma part_lt p i : is_part p -> In i p -> i < length L.
Proof. intros (_ & s & Hs & H) I. apply H in I. now apply (linked_lt s). Qed.
Lemma part_meet p q i j : is_part p -> is_part q -> In i p -> In i q -> In j p -> In j q.
Proof.
  intros (_ & s & _ & P) (_ & t & _ & Q) Ip Iq Jp. apply P in Ip, Jp. apply Q in Iq. apply Q. apply linked_trans with i; [ assumption | ].
  apply linked_trans with s; [ now apply linked_sym | assumption ].
Qed.

Definition enough : nat := 2 + S (length L) * S width.

Lemma parts_spec fuel : enough <= fuel -> forall xs visited, (forall i, In i xs -> i < length L) -> (forall i j, In i visited -> share i j -> In j visited) ->
  exists ps, parts fuel g xs visited = Ok ps /\ Forall is_part ps /\ NoDup (concat ps) /\
    (forall i, In i xs -> In i visited \/ In i (concat ps)) /\ (forall i, In i (concat ps) -> ~ In i visited).
Proof.
  intros Hf. induction xs as [ | x xs IH ]; intros visited Hx Cl; cbn [parts].
  - exists []. split; [ reflexivity | ]. split; [ constructor | ]. split; [ constructor | ]. split; intros i [].
  - assert (Hx0 : x < length L) by (apply Hx; now left).
    destruct (memb x visited) eqn:Mb.
    + apply memb_in in Mb. destruct (IH visited) as (ps & E & P1 & P2 & P3 & P4); [ intros i Hi; apply Hx; now right | assumption | ].
      exists ps. repeat split; try assumption. intros i [<- | Hi]; auto.
    + apply memb_false in Mb.
      destruct (explore_spec x Hx0 fuel [x] []) as (r & -> & D & R).
      * intros i [<- | []]. constructor.
      * intros i [].
      * split; [ constructor | intros i [] ].
      * intros i j [].
      * right. now left.
      * cbn [length]. rewrite Nat.sub_0_r. unfold enough in Hf. cbn [Nat.mul] in Hf. lia.
      * cbn [obind].
        assert (Cl' : forall i j, In i (r ++ visited) -> share i j -> In j (r ++ visited)).
        { intros i j Hi Sh. apply in_app_iff in Hi. apply in_app_iff. destruct Hi as [ Hi | Hi ]; [ left; apply R; apply R in Hi; now apply LinkStep with i | right; now apply (Cl i) ]. }
        destruct (IH (r ++ visited)) as (ps & -> & P1 & P2 & P3 & P4); [ intros i Hi; apply Hx; now right | exact Cl' | ]. cbn [obind].
        assert (A : forall i, In i (as_set (length L) r) <-> linked x i).
        { intros i. rewrite as_set_in, R. split; [ tauto | ]. intros K. split; [ now apply (linked_lt x) | assumption ]. }
        eexists. split; [ reflexivity | ]. split; [ constructor; [ split; [ apply as_set_nodup | exists x; auto ] | assumption ] | ]. cbn [concat].
        split; [ | split ].
        -- clear - A P2 P4 R. assert (Q : forall i, In i (as_set (length L) r) -> ~ In i (concat ps)).
           { intros i Hi K. apply (P4 i K). apply in_app_iff. left. apply R. now apply A. }
           pose proof (as_set_nodup (length L) r) as Nd. revert Q Nd. generalize (as_set (length L) r). intros l Q Nd. induction l as [ | a l IHl ]; [ exact P2 | ].
           cbn. inversion Nd; subst. constructor; [ | apply IHl; [ intros i Hi; apply Q; now right | assumption ] ].
           rewrite in_app_iff. intros [ | K ]; [ contradiction | ]. apply (Q a); [ now left | assumption ].
        -- intros i [<- | Hi].
           ++ right. apply in_app_iff. left. apply A. constructor.
           ++ destruct (P3 i Hi) as [ K | K ]; [ apply in_app_iff in K; destruct K as [ K | K ]; [ right; apply in_app_iff; left; apply A; now apply R | now left ] | right; apply in_app_iff; now right ].
        -- intros i Hi Hv. apply in_app_iff in Hi. destruct Hi as [ Hi | Hi ].
           ++ apply Mb. apply A in Hi. apply linked_sym in Hi. clear - Hi Hv Cl. induction Hi as [ | j k K IHk Sh ]; [ assumption | now apply (Cl j) ].
           ++ apply (P4 i Hi). apply in_app_iff. now right.
Qed.

(** ** Ordering a part *)

(** A run of [visit] that has done [done] in this order. *)
Definition names_bound (done : list nat) (n : str) : Prop := exists j, In j done /\ binds L j n.
Definition in_order (order : list nat) : Prop :=
  forall before i after, order = before ++ i :: after -> forall n, needs L i n -> names_bound before n.

Lemma in_order_snoc order i : in_order order -> (forall n, needs L i n -> names_bound order n) -> in_order (order ++ [i]).
Proof.
  intros H K before x after E n N. destruct after as [ | y after ] using rev_ind.
  - apply app_inj_tail in E. destruct E as (-> & ->). now apply K.
  - clear IHafter. rewrite app_comm_cons, app_assoc in E. apply app_inj_tail in E. destruct E as (E & _). now apply (H before x after).
Qed.

Definition pushes (l : literal) : list nat := flat_map (neighbours_out g) (l_out l).
Definition pwidth : nat := list_max (map (fun l => length (pushes l)) L).
Lemma pwidth_spec i l : nth_error L i = Some l -> length (pushes l) <= pwidth.
Proof.
  intros H. unfold pwidth. assert (X : forall ls x, In x ls -> x <= list_max ls) by (intros ls x I; pose proof (proj1 (list_max_le ls (list_max ls)) (le_n _)) as F; rewrite Forall_forall in F; now apply F).
  apply X. apply in_map_iff. exists l. split; [ reflexivity | ]. now apply nth_error_In in H.
Qed.
Lemma filter_le {A} f (l : list A) : length (filter f l) <= length l.
Proof. induction l; cbn; [ lia | ]. destruct (f a); cbn; lia. Qed.

Lemma ready_spec bound i : ready g bound i = true <-> i < length L /\ forall n, needs L i n -> In n bound.
Proof.
  unfold ready. destruct (nth_error L i) as [ l | ] eqn:E.
  - rewrite includes_spec. assert (i < length L) by (apply nth_error_Some; congruence). split.
    + intros H1. split; [ assumption | ]. intros n (l' & E' & I). rewrite E in E'. injection E' as <-. now apply H1.
    + intros (_ & H1) n I. apply H1. exists l. auto.
  - split; [ discriminate | ]. intros (H & _). apply nth_error_None in E. lia.
Qed.

Lemma visit_spec part : is_part part -> forall fuel frontier bound done,
  (forall i, In i frontier -> In i part /\ forall n, needs L i n -> In n bound) ->
  (forall n, In n bound <-> names_bound done n) ->
  NoDup done -> (forall i, In i done -> In i part) -> in_order done ->
  (forall i, In i part -> (forall n, needs L i n -> In n bound) -> In i done \/ In i frontier) ->
  length frontier + (length L - length done) * S pwidth < fuel ->
  exists r, visit fuel g frontier bound done = Ok r /\ NoDup r /\ (forall i, In i r -> In i part) /\ in_order r /\
    (forall i, In i part -> (forall n, needs L i n -> names_bound r n) -> In i r).
Proof.
  intros P. induction fuel as [ | fuel IH ]; intros frontier bound done Fr Bd Nd Sub Or Cl M; [ now apply Nat.nlt_0_r in M | ]. cbn [visit].
  destruct frontier as [ | i rest ].
  - exists done. split; [ reflexivity | ]. split; [ assumption | ]. split; [ assumption | ]. split; [ assumption | ].
    intros i Hi H. destruct (Cl i Hi) as [ | [] ]; [ | assumption ]. intros n N. apply Bd. now apply H.
  - destruct (memb i done) eqn:Mb.
    + apply memb_in in Mb. apply IH; try assumption.
      * intros j Hj. apply Fr. now right.
      * intros j Hj H. destruct (Cl j Hj H) as [ | [ -> | ] ]; auto.
      * cbn in M. lia.
    + apply memb_false in Mb. destruct (Fr i (or_introl eq_refl)) as (Pi & Ni). pose proof (part_lt part i P Pi) as Hi.
      destruct (nth_error L i) as [ l | ] eqn:El; [ | apply nth_error_None in El; lia ].
      assert (Bd' : forall n, In n (l_out l ++ bound) <-> names_bound (done ++ [i]) n).
      { intros n. rewrite in_app_iff, Bd. unfold names_bound. split.
        - intros [ H | (j & Hj & B) ]; [ exists i; split; [ apply in_app_iff; right; now left | exists l; auto ] | exists j; split; [ apply in_app_iff; now left | assumption ] ].
        - intros (j & Hj & B). apply in_app_iff in Hj. destruct Hj as [ Hj | [ <- | [] ] ]; [ right; eauto | left ]. destruct B as (l' & E' & I). rewrite El in E'. injection E' as <-. exact I. }
      assert (Nd' : NoDup (done ++ [i])) by (apply NoDup_Add with (a := i) (l := done); [ replace done with (done ++ []) at 1 by apply app_nil_r; apply Add_app | now split ]).
      assert (Sub' : forall j, In j (done ++ [i]) -> In j part) by (intros j Hj; apply in_app_iff in Hj; destruct Hj as [ | [ <- | [] ] ]; auto).
      assert (D' : distinct_below (done ++ [i])) by (split; [ assumption | intros j Hj; apply (part_lt part); auto ]).
      pose proof (distinct_length _ D') as Len. rewrite app_length in Len. cbn [length] in Len.
      apply IH; try assumption.
      * intros j Hj. apply in_app_iff in Hj. destruct Hj as [ Hj | Hj ].
        -- destruct (Fr j (or_intror Hj)) as (Pj & Nj). split; [ assumption | ]. intros n N. apply in_app_iff. right. now apply Nj.
        -- apply filter_In in Hj. destruct Hj as (Hj & R). apply in_flat_map in Hj. destruct Hj as (n & I & Hn). apply neighbours_out_spec in Hn.
           split; [ apply (part_share part i j P Pi); exists n; split; [ right; exists l; auto | now left ] | ]. now apply ready_spec in R.
      * apply in_order_snoc; [ assumption | ]. intros n N. apply Bd. now apply Ni.
      * intros j Pj H. destruct (memb j (done ++ [i])) eqn:Mj; [ left; now apply memb_in | apply memb_false in Mj ].
        right. apply in_app_iff.
        destruct (forallb (fun n => existsb (str_eqb n) bound) (match nth_error L j with Some l' => l_in l' | None => [] end)) eqn:Old.
        -- left. destruct (Cl j Pj) as [ K | [ -> | K ] ].
           ++ intros n (l' & E' & I). rewrite E' in Old. pose proof (proj1 (includes_spec bound (l_in l')) Old) as X. now apply X.
           ++ exfalso. apply Mj. apply in_app_iff. now left.
           ++ exfalso. apply Mj. apply in_app_iff. right. now left.
           ++ assumption.
        -- right. destruct (nth_error L j) as [ l' | ] eqn:Ej; [ | discriminate ].
           assert (X : exists n, In n (l_in l') /\ ~ In n bound).
           { clear - Old. induction (l_in l') as [ | a r IHr ]; [ discriminate | ]. cbn in Old. destruct (existsb (str_eqb a) bound) eqn:Q; cbn in Old.
             - destruct (IHr Old) as (n & I & K). exists n. split; [ now right | assumption ].
             - exists a. split; [ now left | ]. intros I. assert (T : existsb (str_eqb a) bound = true) by (apply existsb_exists; exists a; split; [ assumption | apply str_eqb_refl ]). congruence. }
           destruct X as (n & I & Nb). assert (Nj : needs L j n) by (exists l'; auto). specialize (H n Nj) as Hn. apply in_app_iff in Hn. destruct Hn as [ Hn | ]; [ | contradiction ].
           apply filter_In. split; [ apply in_flat_map; exists n; split; [ assumption | now apply neighbours_out_spec ] | ]. apply ready_spec. split; [ now apply (part_lt part) | assumption ].
      * rewrite app_length. fold (pushes l). rewrite !app_length. pose proof (filter_le (ready g (l_out l ++ bound)) (pushes l)) as F. pose proof (pwidth_spec i l El) as W. cbn [length] in M |- *.
        replace (length L - length done) with (S (length L - (length done + 1))) in M by lia. cbn [Nat.mul] in M. lia.
Qed.

Definition penough : nat := 2 + length L + S (length L) * S pwidth.
Lemma order_part_spec fuel part : penough <= fuel -> is_part part ->
  exists r, order_part fuel g part = Ok r /\ NoDup r /\ (forall i, In i r -> In i part) /\ in_order r /\
    (forall i, In i part -> (forall n, needs L i n -> names_bound r n) -> In i r).
Proof.
  intros Hf P. unfold order_part. apply (visit_spec part P).
  - intros i Hi. apply filter_In in Hi. destruct Hi as (Hi & H). split; [ assumption | ]. intros n (l & E & I). unfold no_needs in H. rewrite E in H. destruct (l_in l); [ destruct I | discriminate ].
  - intros n. split; [ intros [] | intros (j & [] & _) ].
  - constructor.
  - intros i [].
  - intros [ | ? ? ] i after E; discriminate.
  - intros i Hi H. right. apply filter_In. split; [ assumption | ]. unfold no_needs. pose proof (part_lt part i P Hi) as Hl.
    destruct (nth_error L i) as [ l | ] eqn:E; [ | apply nth_error_None in E; lia ]. destruct (l_in l) as [ | n r ] eqn:Q; [ reflexivity | ]. destruct (H n). exists l. rewrite Q. split; [ assumption | now left ].
  - assert (F : length (filter (no_needs g) part) <= length L).
    { pose proof (filter_le (no_needs g) part). assert (length part <= length L); [ | lia ]. apply distinct_length. split; [ apply P | intros i; now apply part_lt ]. }
    cbn [length]. rewrite Nat.sub_0_r. unfold penough in Hf. cbn [Nat.mul] in Hf. lia.
Qed.

(** All parts one after the other. *)
Fixpoint orders (fuel : nat) (ps : list (list nat)) : outcome (list (list nat)) :=
  match ps with
  | [] => Ok []
  | p :: ps' => let! o := order_part fuel g p in let! os := orders fuel ps' in Ok (o :: os)
  end.
Lemma orders_spec fuel ps : penough <= fuel -> Forall is_part ps ->
  exists os, orders fuel ps = Ok os /\ Forall2 (fun p r => NoDup r /\ (forall i, In i r -> In i p) /\ in_order r /\
    (forall i, In i p -> (forall n, needs L i n -> names_bound r n) -> In i r)) ps os.
Proof.
  intros Hf. induction 1 as [ | p ps P Ps IH ]; [ exists []; split; [ reflexivity | constructor ] | ].
  cbn [orders]. destruct (order_part_spec fuel p Hf P) as (r & -> & R). destruct IH as (os & -> & Os). cbn. eexists. split; [ reflexivity | ]. now constructor.
Qed.
Lemma put_parts_orders fuel ps os : orders fuel ps = Ok os -> forall body, put_parts fuel g ps body = Ok (fold_left (put_part g) os body).
Proof.
  revert os. induction ps as [ | p ps IH ]; intros os H body; cbn [orders] in H.
  - injection H as <-. reflexivity.
  - cbn [put_parts]. destruct (order_part fuel g p) as [ o | | | ]; try discriminate. cbn [obind] in *. destruct (orders fuel ps) as [ os' | | | ] eqn:E; try discriminate. cbn in H. injection H as <-. cbn [fold_left]. now apply IH.
Qed.

Lemma in_order_app o1 o2 : in_order o1 -> in_order o2 -> in_order (o1 ++ o2).
Proof.
  intros A B before i after E n N.
  assert (X : (exists t, o1 = before ++ i :: t) \/ exists b, before = o1 ++ b /\ o2 = b ++ i :: after).
  { clear - E. revert o1 E. induction before as [ | a before IH ]; intros o1 E.
    - destruct o1 as [ | x o1 ]; cbn in E; [ right; exists []; auto | injection E as <- E; left; exists o1; reflexivity ].
    - destruct o1 as [ | x o1 ]; cbn in E; [ right; exists (a :: before); auto | ]. injection E as <- E. destruct (IH o1 E) as [ (t & ->) | (b & -> & ->) ]; [ left; exists t; reflexivity | right; exists b; auto ]. }
  destruct X as [ (t & ->) | (b & -> & ->) ]; [ now apply (A before i t) | ].
  destruct (B b i after eq_refl n N) as (j & Hj & Bj). exists j. split; [ apply in_app_iff; now right | assumption ].
Qed.
End Parts.

Lemma put_part_lits g body o : filter (fun x => match x with Lit _ => true | TrueLit => false end) (put_part g body o) =
  filter (fun x => match x with Lit _ => true | TrueLit => false end) body ++ map Lit (filter (fun i => in_body (kind_at g i)) o).
Proof.
  unfold put_part. set (f := fun x => _). assert (X : forall l, filter f (map Lit l) = map Lit l) by (induction l as [ | a l IH ]; cbn; [ reflexivity | now rewrite IH ]).
  destruct (query_empty _ _); rewrite ?filter_app, ?X; cbn; now rewrite ?app_nil_r.
Qed.
Lemma put_all_lits g os : forall body, filter (fun x => match x with Lit _ => true | TrueLit => false end) (fold_left (put_part g) os body) =
  filter (fun x => match x with Lit _ => true | TrueLit => false end) body ++ map Lit (filter (fun i => in_body (kind_at g i)) (concat os)).
Proof.
  induction os as [ | o os IH ]; intros body; cbn [fold_left concat]; [ cbn; now rewrite app_nil_r | ].
  rewrite IH, put_part_lits, filter_app, map_app, app_assoc. reflexivity.
Qed.
