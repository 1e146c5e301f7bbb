(** * C45: query bodies are ordered by data dependency

    [sort] models the sorter; its first argument bounds the steps of its loops, [arrange] is the order it puts independent parts in. *)
From Coq Require Import String ZArith List Bool Lia Permutation Arith.
From Verif Require Import Base SMap SMapFacts StrModel DepModel DepSpec DepProofs.
Import ListNotations.
Local Open Scope nat_scope.
Local Open Scope list_scope.

(** More steps change nothing. *)
Lemma explore_more g fuel : forall frontier seen r, explore fuel g frontier seen = Ok r -> forall fuel', fuel <= fuel' -> explore fuel' g frontier seen = Ok r.
Proof.
  induction fuel as [ | fuel IH ]; intros frontier seen r H fuel' Le; [ discriminate | ]. destruct fuel' as [ | fuel' ]; [ lia | ]. cbn [explore] in *.
  destruct frontier as [ | i rest ]; [ assumption | ]. destruct (memb i seen); [ apply (IH _ _ _ H); lia | ].
  destruct (nth_error (m_literals g) i); [ | discriminate ]. destruct (neighbours g l); try discriminate. cbn [obind] in *. apply (IH _ _ _ H). lia.
Qed.
Lemma parts_more g fuel fuel' xs : fuel <= fuel' -> forall visited ps, parts fuel g xs visited = Ok ps -> parts fuel' g xs visited = Ok ps.
Proof.
  intros Le. induction xs as [ | x xs IH ]; intros visited ps H; cbn [parts] in *; [ assumption | ]. destruct (memb x visited); [ now apply IH | ].
  destruct (explore fuel g [x] []) as [ r | | | ] eqn:E; try discriminate. rewrite (explore_more _ _ _ _ _ E _ Le). cbn [obind] in *.
  destruct (parts fuel g xs (r ++ visited)) as [ ps' | | | ] eqn:P; try discriminate. now rewrite (IH _ _ P).
Qed.
Lemma visit_more g fuel : forall frontier bound done r, visit fuel g frontier bound done = Ok r -> forall fuel', fuel <= fuel' -> visit fuel' g frontier bound done = Ok r.
Proof.
  induction fuel as [ | fuel IH ]; intros frontier bound done r H fuel' Le; [ discriminate | ]. destruct fuel' as [ | fuel' ]; [ lia | ]. cbn [visit] in *.
  destruct frontier as [ | i rest ]; [ assumption | ]. destruct (memb i done); [ apply (IH _ _ _ _ H); lia | ].
  destruct (nth_error (m_literals g) i); [ | discriminate ]. apply (IH _ _ _ _ H). lia.
Qed.
Lemma put_parts_more g fuel fuel' ps : fuel <= fuel' -> forall body r, put_parts fuel g ps body = Ok r -> put_parts fuel' g ps body = Ok r.
Proof.
  intros Le. induction ps as [ | p ps IH ]; intros body r H; cbn [put_parts] in *; [ assumption | ]. unfold order_part in *.
  destruct (visit fuel g _ [] []) as [ o | | | ] eqn:E; try discriminate. rewrite (visit_more _ _ _ _ _ _ E _ Le). cbn [obind] in *. now apply IH.
Qed.
Lemma sort_more fuel fuel' arrange b u L r : fuel <= fuel' -> sort fuel arrange b u L = Ok r -> sort fuel' arrange b u L = Ok r.
Proof.
  intros Le H. unfold sort, find_graphs in *. destruct (parts fuel (build L) _ []) as [ ps | | | ] eqn:P; try discriminate. rewrite (parts_more _ _ _ _ Le _ _ P). cbn [obind] in *.
  destruct (negb b); [ assumption | ]. destruct u; [ | assumption ]. destruct (put_parts fuel _ _ []) as [ body | | | ] eqn:Q; try discriminate. now rewrite (put_parts_more _ _ _ _ Le _ _ Q).
Qed.

(** The answer of the sorter, whatever the number of steps once there are enough. *)
Definition sorts (arrange : list (list nat) -> list (list nat)) (needs_sort : bool) (unresolved : nat) (L : list literal) (r : sorting) : Prop :=
  exists steps, forall fuel, steps <= fuel -> sort fuel arrange needs_sort unresolved L = Ok r.
Definition arranges (arrange : list (list nat) -> list (list nat)) : Prop := forall ps, Permutation (arrange ps) ps.
(** The literals of a body, without the fillers. *)
Definition literals_of (body : list item) : list nat := flat_map (fun x => match x with Lit i => [i] | TrueLit => [] end) body.
(** The positions that stand for something in the body, rather than declare a name. *)
Definition body_literal (L : list literal) (i : nat) : bool := match nth_error L i with Some l => in_body (l_kind l) | None => false end.

Lemma perm_concat {A} (a b : list (list A)) : Permutation a b -> Permutation (concat a) (concat b).
Proof.
  induction 1; cbn; [ constructor | now apply Permutation_app_head | rewrite !app_assoc; apply Permutation_app_tail, Permutation_app_comm | eapply perm_trans; eassumption ].
Qed.
Lemma in_concat_pair {A B} (R : list A -> list B -> Prop) ps os x : Forall2 R ps os -> In x (concat os) -> exists p r, In (p, r) (combine ps os) /\ In x r /\ R p r.
Proof.
  induction 1 as [ | p r ps os Rpr F IH ]; intros H; [ destruct H | ]. cbn in H. apply in_app_iff in H. destruct H as [ H | H ].
  - exists p, r. split; [ now left | auto ].
  - destruct (IH H) as (p' & r' & I & K). exists p', r'. split; [ now right | assumption ].
Qed.
Lemma pair_of_part {A B} (R : list A -> list B -> Prop) ps os x : Forall2 R ps os -> In x (concat ps) -> exists p r, In (p, r) (combine ps os) /\ In x p /\ R p r.
Proof.
  induction 1 as [ | p r ps os Rpr F IH ]; intros H; [ destruct H | ]. cbn in H. apply in_app_iff in H. destruct H as [ H | H ].
  - exists p, r. split; [ now left | auto ].
  - destruct (IH H) as (p' & r' & I & K). exists p', r'. split; [ now right | assumption ].
Qed.
Lemma nodup_parts {A B} (ps : list (list A)) (os : list B) p r p' r' x : NoDup (concat ps) -> In (p, r) (combine ps os) -> In (p', r') (combine ps os) -> In x p -> In x p' -> r = r'.
Proof.
  revert os. induction ps as [ | q ps IH ]; intros os N H H' X X'; [ destruct H | ]. destruct os as [ | o os ]; [ destruct H | ]. cbn in N, H, H'.
  assert (D : forall y, In y q -> In y (concat ps) -> False).
  { clear - N. induction q as [ | a q IHq ]; intros y Hy K; [ destruct Hy | ]. cbn in N. inversion N as [ | ? ? Na Nd ]; subst. destruct Hy as [<- | Hy]; [ apply Na, in_app_iff; now right | now apply (IHq Nd y) ]. }
  assert (Nps : NoDup (concat ps)) by (clear - N; induction q; [ assumption | apply IHq; now inversion N ]).
  assert (C : forall p0 r0, In (p0, r0) (combine ps os) -> In x p0 -> In x (concat ps)) by (intros p0 r0 I Y; apply in_combine_l in I; apply in_concat; eauto).
  destruct H as [ E | H ], H' as [ E' | H' ].
  - congruence.
  - injection E as <- <-. destruct (D x X). eauto.
  - injection E' as <- <-. destruct (D x X'). eauto.
  - eauto.
Qed.
Lemma nodup_app {A} (a b : list A) : NoDup a -> NoDup b -> (forall x, In x a -> ~ In x b) -> NoDup (a ++ b).
Proof.
  intros Na Nb D. induction Na as [ | x a Nx Na IH ]; [ assumption | ]. cbn. constructor; [ rewrite in_app_iff; intros [ | K ]; [ contradiction | apply (D x); [ now left | assumption ] ] | ].
  apply IH. intros y Hy. apply D. now right.
Qed.
Lemma nodup_orders (ps os : list (list nat)) : NoDup (concat ps) -> Forall2 (fun p r => NoDup r /\ forall i, In i r -> In i p) ps os -> NoDup (concat os).
Proof.
  intros N F. induction F as [ | p r ps os (Nr & Sub) F IH ]; [ constructor | ]. cbn in *.
  assert (Nps : NoDup (concat ps)) by (clear - N; induction p; [ assumption | apply IHp; now inversion N ]).
  apply nodup_app; [ assumption | now apply IH | ]. intros x Hx K. apply Sub in Hx.
  destruct (in_concat_pair _ _ _ x F K) as (p' & r' & I & Hr & _ & Sub'). apply Sub' in Hr. apply in_combine_l in I.
  assert (Hc : In x (concat ps)) by (apply in_concat; eauto). clear - N Hx Hc. induction p as [ | a p IHp ]; [ destruct Hx | ]. cbn in N. inversion N as [ | ? ? Na Nd ]; subst. destruct Hx as [<- | Hx]; [ apply Na, in_app_iff; now right | now apply IHp ].
Qed.
Lemma filter_filter {A} (f h : A -> bool) l : filter f (filter h l) = filter (fun x => h x && f x) l.
Proof. induction l as [ | a l IH ]; cbn; [ reflexivity | ]. destruct (h a); cbn; [ destruct (f a); cbn; now rewrite IH | assumption ]. Qed.
Lemma literals_filter body l : filter (fun x => match x with Lit _ => true | TrueLit => false end) body = map Lit l -> literals_of body = l.
Proof.
  revert l. induction body as [ | [ i | ] body IH ]; intros l H; cbn in *.
  - now destruct l.
  - destruct l as [ | j l ]; [ discriminate | ]. injection H as <- H. f_equal. now apply IH.
  - now apply IH.
Qed.

(** Everything at once, for the literals and the captures added to them. *)
Lemma sort_runs L arrange : arranges arrange -> bound_once L -> plain_missing L ->
  exists extra total body,
    sorts arrange true 0 L (Sorted body) /\ m_literals (build L) = L ++ extra /\
    Forall (fun l => exists n, provides n l /\ outside L n /\ exists i, needs L i n) extra /\
    (forall n i, needs (L ++ extra) i n -> exists j, binds (L ++ extra) j n) /\
    NoDup total /\ (forall i, In i total -> i < length (L ++ extra)) /\ in_order (build L) total /\
    (forall i, i < length (L ++ extra) -> (forall n, needs (L ++ extra) i n -> names_bound (build L) total n) -> In i total) /\
    literals_of body = filter (fun i => in_body (kind_at (build L) i)) total.
Proof.
  intros Ar BO PM. destruct (build_spec L PM BO) as (extra & E & C & B & F & All). set (g := build L) in *.
  assert (B' : bound_once (m_literals g)) by now rewrite E. assert (All' : forall n i, needs (m_literals g) i n -> exists j, binds (m_literals g) j n) by now rewrite E.
  set (fuel := max (enough g) (penough g)).
  destruct (parts_spec g C B' All' fuel ltac:(unfold fuel; lia) (rev (seq 0 (length (m_literals g)))) []) as (ps & Ps & P1 & P2 & P3 & _).
  { intros i Hi. apply in_rev in Hi. apply in_seq in Hi. lia. }
  { intros i j []. }
  assert (Pa : Forall (is_part g) (arrange ps)) by (apply (Permutation_Forall (Permutation_sym (Ar ps))); assumption).
  assert (Na : NoDup (concat (arrange ps))) by (apply (Permutation_NoDup (Permutation_sym (perm_concat _ _ (Ar ps)))); assumption).
  assert (Ca : forall i, i < length (m_literals g) -> In i (concat (arrange ps))).
  { intros i Hi. apply (Permutation_in i (Permutation_sym (perm_concat _ _ (Ar ps)))). destruct (P3 i) as [ [] | ]; [ | assumption ]. apply -> in_rev. apply in_seq. lia. }
  destruct (orders_spec g C fuel (arrange ps) ltac:(unfold fuel; lia) Pa) as (os & Os & F2).
  exists extra, (concat os), (fold_left (put_part g) os []).
  assert (Sub : forall i, In i (concat os) -> exists p r, In (p, r) (combine (arrange ps) os) /\ In i r /\ In i p).
  { intros i Hi. destruct (in_concat_pair _ _ _ i F2 Hi) as (p & r & I & Hr & _ & S & _). exists p, r. auto. }
  split; [ | split; [ exact E | split; [ exact F | split; [ exact All | split; [ | split; [ | split; [ | split ] ] ] ] ] ] ].
  - exists fuel. intros fuel' Le. apply (sort_more fuel); [ assumption | ]. unfold sort, find_graphs. fold g. rewrite Ps. cbn [obind negb].
    now rewrite (put_parts_orders g fuel _ _ Os).
  - apply (nodup_orders (arrange ps)); [ assumption | ]. clear - F2. induction F2 as [ | p r ps' os' (N & S & _) F2 IH ]; constructor; auto.
  - intros i Hi. destruct (Sub i Hi) as (p & r & I & _ & Hp). apply in_combine_l in I. rewrite <- E. rewrite Forall_forall in Pa. now apply (part_lt g p i (Pa p I)).
  - clear - F2. induction F2 as [ | p r ps' os' (_ & _ & O & _) F2 IH ]; cbn; [ intros [ | ] ? ? X; discriminate | now apply in_order_app ].
  - intros i Hi Hn. rewrite <- E in Hi, Hn. destruct (pair_of_part _ _ _ i F2 (Ca i Hi)) as (p & r & I & Hp & _ & _ & _ & K).
    apply in_concat. exists r. split; [ now apply in_combine_r in I | ]. apply (K i Hp). intros n N. destruct (Hn n N) as (j & Hj & Bj).
    destruct (Sub j Hj) as (p' & r' & I' & Hr' & Hp'). exists j. split; [ | assumption ].
    assert (Jp : In j p).
    { rewrite Forall_forall in Pa. apply (part_share g p i j (Pa p (in_combine_l _ _ _ _ I)) Hp). exists n. split; [ now left | now right ]. }
    rewrite (nodup_parts _ _ p r p' r' j Na I I' Jp Hp'). exact Hr'.
  - apply literals_filter. now rewrite put_all_lits.
Qed.

(** What is known of positions of [L] in the order for [L ++ extra]. *)
Section Restrict.
Variables (L extra : list literal).
Hypothesis Fx : Forall (fun l => exists n, provides n l /\ outside L n /\ exists i, needs L i n) extra.
Lemma needs_left i n : needs (L ++ extra) i n <-> needs L i n.
Proof.
  split; intros (l & H & I).
  - destruct (Nat.lt_ge_cases i (length L)) as [ Hi | Hi ]; [ rewrite nth_error_app1 in H by assumption; exists l; auto | ].
    rewrite nth_error_app2 in H by assumption. apply nth_error_In in H. rewrite Forall_forall in Fx. destruct (Fx l H) as (? & (Z & _) & _). rewrite Z in I. destruct I.
  - exists l. split; [ | assumption ]. rewrite nth_error_app1; [ assumption | ]. apply nth_error_Some. congruence.
Qed.
Lemma binds_left i n : binds L i n -> binds (L ++ extra) i n.
Proof. intros (l & H & I). exists l. split; [ | assumption ]. rewrite nth_error_app1; [ assumption | ]. apply nth_error_Some. congruence. Qed.
Lemma binds_split i n : binds (L ++ extra) i n -> (i < length L /\ binds L i n) \/ (length L <= i /\ outside L n).
Proof.
  intros (l & H & I). destruct (Nat.lt_ge_cases i (length L)) as [ Hi | Hi ].
  - left. split; [ assumption | ]. rewrite nth_error_app1 in H by assumption. exists l. auto.
  - right. split; [ assumption | ]. rewrite nth_error_app2 in H by assumption. apply nth_error_In in H. rewrite Forall_forall in Fx. destruct (Fx l H) as (m & (_ & Z & _) & O & _).
    rewrite Z in I. destruct I as [ <- | [] ]. exact O.
Qed.
End Restrict.

(** The sorter answers, for any body in which no name is bound twice.  The order it visits the literals in ([order], positions in the
    list of literals) has no repetition; each literal comes after those that bind the names it needs; and exactly the literals that do
    not depend on a circle are there.  The body is those of them that are not declarations, in this order. *)
Theorem C45_order_partial : forall L arrange,
  arranges arrange -> bound_once L -> (forall name i, needs L i name -> outside L name -> ~ argument_marker name) ->
  exists order body,
    sorts arrange true 0 L (Sorted body) /\
    NoDup order /\ after_binders L order /\ (forall i, In i order <-> settled L i) /\
    literals_of body = filter (body_literal L) order.
Proof.
  intros L arrange Ar BO PM. destruct (sort_runs L arrange Ar BO PM) as (extra & total & body & So & E & Fx & All & Nd & Lt & Or & Cl & Bo).
  set (below := fun i => i <? length L).
  assert (Ib : forall i, In i (filter below total) <-> In i total /\ i < length L) by (intros i; rewrite filter_In; unfold below; now rewrite Nat.ltb_lt).
  assert (NB : forall o n, names_bound (build L) o n <-> exists j, In j o /\ binds (L ++ extra) j n) by (intros o n; unfold names_bound; now rewrite E).
  assert (Or' : forall before i after, total = before ++ i :: after -> forall n, needs L i n -> exists j, In j before /\ binds (L ++ extra) j n).
  { intros b i a T n N. apply NB. apply (Or b i a T n). rewrite E. now apply needs_left. }
  exists (filter below total), body. split; [ exact So | ]. split; [ now apply NoDup_filter | ]. split; [ | split ].
  - intros before i after T n N.
    assert (X : exists b a, total = b ++ i :: a /\ filter below b = before).
    { clear - T. clearbody below. revert before T. induction total as [ | x total IH ]; intros before T; cbn [filter] in T; [ destruct before; discriminate | ].
      destruct (below x) eqn:Q.
      - destruct before as [ | y before ]; cbn in T; injection T as -> T.
        + exists [], total. split; reflexivity.
        + destruct (IH before T) as (b & a & -> & <-). exists (y :: b), a. cbn. rewrite Q. split; reflexivity.
      - destruct (IH before T) as (b & a & -> & <-). exists (x :: b), a. cbn. rewrite Q. split; reflexivity. }
    destruct X as (b & a & -> & <-). destruct (Or' b i a eq_refl n N) as (j & Hj & Bj).
    destruct (binds_split L extra Fx j n Bj) as [ (Hl & Bl) | (_ & O) ]; [ | now left ]. right. exists j. split; [ | assumption ].
    apply filter_In. split; [ assumption | now apply Nat.ltb_lt ].
  - assert (Sound : forall k b i a, length b <= k -> total = b ++ i :: a -> i < length L -> settled L i).
    { induction k as [ k IH ] using lt_wf_ind. intros b i a Lb T Hi. constructor; [ assumption | ]. intros n N.
      destruct (Or' b i a T n N) as (j & Hj & Bj). destruct (binds_split L extra Fx j n Bj) as [ (Hl & Bl) | (_ & O) ]; [ | now apply Outside ].
      apply Bound with j; [ | assumption ]. apply in_split in Hj. destruct Hj as (b1 & b2 & ->). rewrite app_length in Lb. cbn in Lb.
      apply (IH (length b1) ltac:(lia) b1 j (b2 ++ i :: a)); [ lia | | assumption ]. rewrite T, <- app_assoc. reflexivity. }
    intros i. rewrite Ib. split.
    + intros (Hi & Hl). apply in_split in Hi. destruct Hi as (b & a & T). now apply (Sound (length b) b i a).
    + intros H. revert i H.
      apply (settled_ind2 L (fun i _ => In i total /\ i < length L) (fun n _ => (exists i, needs L i n) -> exists j, In j total /\ binds (L ++ extra) j n)).
      * intros i Hi _ IH. split; [ | assumption ]. apply Cl; [ rewrite app_length; lia | ]. intros n N. apply NB. apply needs_left in N; [ | assumption ]. apply IH; eauto.
      * intros n O (i & N). destruct (All n i) as (j & Bj); [ now apply needs_left | ]. exists j. split; [ | assumption ].
        destruct (binds_split L extra Fx j n Bj) as [ (_ & Bl) | (Hl & _) ]; [ now destruct (O j) | ]. apply Cl; [ now apply binds_lt in Bj | ].
        intros m Nm. apply needs_left in Nm; [ | assumption ]. apply needs_lt in Nm. lia.
      * intros j n _ (Hj & _) Bj _. exists j. split; [ assumption | now apply binds_left ].
  - rewrite Bo, filter_filter. apply filter_ext_in. intros i Hi. unfold kind_at, body_literal, below. rewrite E. specialize (Lt i Hi).
    destruct (Nat.ltb_spec i (length L)) as [ Hl | Hl ]; cbn.
    + rewrite nth_error_app1 by assumption. destruct (nth_error L i) eqn:Q; [ reflexivity | apply nth_error_None in Q; lia ].
    + rewrite nth_error_app2 by assumption. assert (N : nth_error L i = None) by now apply nth_error_None.
      destruct (nth_error extra (i - length L)) as [ l | ] eqn:Q; [ | apply nth_error_None in Q; rewrite app_length in Lt; lia ]. apply nth_error_In in Q.
      rewrite Forall_forall in Fx. destruct (Fx l Q) as (? & (_ & _ & K) & _). exact K.
Qed.

(** Without a circle every literal is there. *)
Lemma outside_dec L n : outside L n \/ exists j, binds L j n.
Proof.
  induction L as [ | l L IH ] using rev_ind; [ left; intros i (l & H & _); destruct i; discriminate | ].
  destruct IH as [ O | (j & B) ]; [ | right; exists j; apply binds_snoc; now left ]. destruct (in_dec (list_eq_dec Z.eq_dec) n (l_out l)) as [ I | I ].
  - right. exists (length L). apply binds_snoc. now right.
  - left. intros i B. apply binds_snoc in B. destruct B as [ B | (_ & B) ]; [ now apply (O i) | contradiction ].
Qed.
Lemma acyclic_settled L : acyclic L -> forall i, i < length L -> settled L i.
Proof.
  intros (rank & R) i. remember (rank i) as k eqn:K. revert i K. induction k as [ k IH ] using lt_wf_ind. intros i -> Hi. constructor; [ assumption | ]. intros n N.
  destruct (outside_dec L n) as [ O | (j & B) ]; [ now apply Outside | ]. apply Bound with j; [ | assumption ]. apply (IH (rank j)); [ now apply (R i j n) | reflexivity | now apply binds_lt in B ].
Qed.
Theorem C45_acyclic_partial : forall L arrange,
  arranges arrange -> bound_once L -> acyclic L -> (forall name i, needs L i name -> outside L name -> ~ argument_marker name) ->
  exists order body,
    sorts arrange true 0 L (Sorted body) /\
    Permutation order (seq 0 (length L)) /\ after_binders L order /\ literals_of body = filter (body_literal L) order.
Proof.
  intros L arrange Ar BO Ac PM. destruct (C45_order_partial L arrange Ar BO PM) as (order & body & So & Nd & Af & Se & Li).
  exists order, body. split; [ exact So | ]. split; [ | now split ]. apply NoDup_Permutation; [ assumption | apply seq_NoDup | ]. intros i. rewrite Se, in_seq. split.
  - intros [ j Hj _ ]. lia.
  - intros (_ & Hi). now apply acyclic_settled.
Qed.

(** ** Unifications *)

(** Trying the unifications [us] one after the other from [s] leads to [s'], and every one must wait. *)
Inductive all_wait {S U} (try : S -> U -> bool * S) : S -> list U -> S -> Prop :=
| WaitNil s : all_wait try s [] s
| WaitCons s s1 s' u us : try s u = (true, s1) -> all_wait try s1 us s' -> all_wait try s (u :: us) s'.
(** Resolving ends, after no more passes than there are unifications, however they behave; each unification is either accepted or left
    over; and those left over all had to wait in the last pass. *)
Theorem C45_resolve : forall (S U : Type) (try : S -> U -> bool * S) (s : S) (queue : list U),
  exists s' accepted left,
    (forall fuel, length queue <= fuel -> resolve try fuel s queue = Ok (s', left)) /\
    Permutation (accepted ++ left) queue /\ Forall (fun u => exists s0, fst (try s0 u) = false) accepted /\
    (left = [] \/ exists s0, all_wait try s0 left s').
Proof.
  intros S U try s queue.
  assert (P : forall us s0, exists acc, Permutation (acc ++ snd (pass try s0 us)) us /\ Forall (fun u => exists s1, fst (try s1 u) = false) acc /\ (acc = [] -> all_wait try s0 us (fst (pass try s0 us)) /\ snd (pass try s0 us) = us)).
  { induction us as [ | u us IH ]; intros s0; cbn [pass]; [ exists []; repeat split; constructor | ]. destruct (try s0 u) as [ w s1 ] eqn:T.
    destruct (IH s1) as (acc & A & B & D). destruct (pass try s1 us) as [ s2 wl ]. cbn [fst snd] in *. destruct w.
    - exists acc. split; [ apply Permutation_sym, (Permutation_cons_app acc wl u), Permutation_sym, A | ]. split; [ exact B | ]. intros Z. destruct (D Z) as (W & ->). split; [ econstructor; eassumption | reflexivity ].
    - exists (u :: acc). split; [ now constructor | ]. split; [ constructor; [ exists s0; now rewrite T | assumption ] | discriminate ]. }
  remember (length queue) as n eqn:N. revert s queue N. induction n as [ n IH ] using lt_wf_ind. intros s queue ->.
  destruct queue as [ | u queue ].
  - exists s, [], []. split; [ intros [ | ]; reflexivity | ]. split; [ constructor | ]. split; [ constructor | now left ].
  - set (q := u :: queue) in *. destruct (P q s) as (acc & A & B & D). destruct (pass try s q) as [ s1 wl ] eqn:Q. cbn [fst snd] in *.
    pose proof (Permutation_length A) as Len. rewrite app_length in Len. destruct acc as [ | a acc ].
    + destruct (D eq_refl) as (W & ->). exists s1, [], q. split; [ | split; [ apply Permutation_refl | split; [ constructor | right; now exists s ] ] ].
      intros [ | fuel ] Le; [ subst q; cbn in Le; lia | ]. unfold resolve. subst q. fold (resolve try). rewrite Q. now rewrite Nat.eqb_refl.
    + cbn [length] in Len. destruct (IH (length wl) ltac:(lia) s1 wl eq_refl) as (s' & acc' & left & R & A' & B' & W).
      exists s', ((a :: acc) ++ acc'), left. split; [ | split; [ | split; [ now apply Forall_app | exact W ] ] ].
      * intros [ | fuel ] Le; [ lia | ]. unfold resolve. fold (resolve try). subst q. rewrite Q. destruct (Nat.eqb_spec (length (u :: queue)) (length wl)); [ lia | ]. apply R. lia.
      * rewrite <- app_assoc. eapply Permutation_trans; [ | exact A ]. now apply Permutation_app_head.
Qed.
(** A body with unifications left over is an error. *)
Theorem C45_unresolved : forall L arrange n,
  arranges arrange -> bound_once L -> (forall name i, needs L i name -> outside L name -> ~ argument_marker name) -> 0 < n ->
  sorts arrange true n L (SortErrors n).
Proof.
  intros L arrange n Ar BO PM Hn. destruct (sort_runs L arrange Ar BO PM) as (_ & _ & body & (steps & So) & _). exists steps. intros fuel Le. specialize (So fuel Le).
  unfold sort in *. destruct (find_graphs fuel arrange (build L)); try discriminate. cbn [obind negb] in *. destruct n; [ lia | reflexivity ].
Qed.

(** ** Departures *)

Definition x : str := $"x".
Definition y : str := $"y".
(** A circle is dropped without a word: [x := y; y := x] next to a scan leaves the scan alone. *)
Definition circle : list literal := [mkLit KOther [y] [x]; mkLit KOther [x] [y]; mkLit KScan [] []].
Theorem C45_circle_dropped_refuted : bound_once circle /\
  exists body, sorts (fun ps => ps) true 0 circle (Sorted body) /\ literals_of body = [2].
Proof.
  assert (B : bound_once circle).
  { assert (K : forall i n, binds circle i n -> (i = 0 /\ n = x) \/ (i = 1 /\ n = y)).
    { intros [ | [ | [ | [ | i ] ] ] ] n (l & H & I); cbn in H; try discriminate; injection H as <-; cbn in I; repeat destruct I as [ <- | I ]; try contradiction; auto. }
    intros i j n Hi Hj. apply K in Hi, Hj. assert (x <> y) by discriminate. intuition congruence. }
  split; [ exact B | ].
  assert (R : sort 100 (fun ps => ps) true 0 circle = Ok (Sorted [Lit 2; TrueLit; TrueLit]) \/ sort 100 (fun ps => ps) true 0 circle = Ok (Sorted [Lit 2; TrueLit])) by (vm_compute; auto).
  destruct R as [ R | R ]; (eexists; split; [ exists 100; intros fuel Le; apply (sort_more 100 _ _ _ _ _ _ Le R) | reflexivity ]).
Qed.
(** A name bound twice: the literal that needs it comes out twice. *)
Definition twice : list literal := [mkLit KOther [] [x]; mkLit KOther [x] []; mkLit KOther [] [x]; mkLit KScan [] []].
Theorem C45_twice_refuted : exists body, sorts (fun ps => ps) true 0 twice (Sorted body) /\ count_occ Nat.eq_dec (literals_of body) 1 = 2.
Proof.
  destruct (sort 100 (fun ps => ps) true 0 twice) as [ [ n | | body ] | | | ] eqn:R; try (vm_compute in R; discriminate).
  exists body. split; [ exists 100; intros fuel Le; now apply (sort_more 100) | ]. vm_compute in R. injection R as <-. reflexivity.
Qed.
(** Without a unification or a scan nothing is sorted: [y := x; x := 1] stays as written, although its first literal needs the second. *)
Definition backwards : list literal := [mkLit KOther [x] [y]; mkLit KOther [] [x]].
Theorem C45_as_written_refuted : sorts (fun ps => ps) false 0 backwards AsWritten /\ needs backwards 0 x /\ binds backwards 1 x.
Proof.
  split; [ | split; [ exists (mkLit KOther [x] [y]); split; [ reflexivity | now left ] | exists (mkLit KOther [] [x]); split; [ reflexivity | now left ] ] ].
  exists 100. intros fuel Le. now apply (sort_more 100).
Qed.
(** An argument that would be assigned: its marker has no declaration, and the sorter throws. *)
Theorem C45_undeclared_argument_refuted : exists L, bound_once L /\ forall fuel, 10 <= fuel -> sort fuel (fun ps => ps) true 0 L = Throw.
Proof.
  exists [mkLit KOther [$"funcarg$x#empty"] [$"funcarg$x"]]. split.
  - intros [ | [ | i ] ] [ | [ | j ] ] n (l & H & _) (l' & H' & _); cbn in *; try discriminate; reflexivity.
  - intros fuel Le. do 10 (destruct fuel as [ | fuel ]; [ lia | ]). vm_compute. reflexivity.
Qed.

(** ** A case *)

(** [z = [x, y]; scan a as y; x := 1], with what they declare: the assignments come first, the test that needs both last. *)
Definition sample : list literal :=
  [mkLit KRuleLocal [] [x ++ $"#empty"]; mkLit KOther [x; y] []; mkLit KScan [$"a"; y ++ $"#empty"] [y]; mkLit KOther [x ++ $"#empty"] [x]].
Example sample_sorted : sort 200 (fun ps => ps) true 0 sample = Ok (Sorted [Lit 3; Lit 2; Lit 1]).
Proof. reflexivity. Qed.
Example sample_meets : bound_once sample /\ acyclic sample /\ forall name i, needs sample i name -> outside sample name -> ~ argument_marker name.
Proof.
  assert (K : forall i n, binds sample i n -> (i = 0 /\ n = x ++ $"#empty") \/ (i = 2 /\ n = y) \/ (i = 3 /\ n = x)).
  { intros [ | [ | [ | [ | [ | i ] ] ] ] ] n (l & H & I); cbn in H; try discriminate; injection H as <-; cbn in I; repeat destruct I as [ <- | I ]; try contradiction; auto. }
  assert (N : forall i n, needs sample i n -> (i = 1 /\ (n = x \/ n = y)) \/ (i = 2 /\ (n = $"a" \/ n = y ++ $"#empty")) \/ (i = 3 /\ n = x ++ $"#empty")).
  { intros [ | [ | [ | [ | [ | i ] ] ] ] ] n (l & H & I); cbn in H; try discriminate; injection H as <-; cbn in I; repeat destruct I as [ <- | I ]; try contradiction; auto. }
  assert (D : x <> y /\ x <> x ++ $"#empty" /\ y <> x ++ $"#empty") by (repeat split; discriminate).
  split; [ | split ].
  - intros i j n Hi Hj. apply K in Hi, Hj. destruct D as (D1 & D2 & D3). intuition congruence.
  - exists (fun i => match i with 1 => 9 | 2 => 5 | 3 => 5 | _ => 0 end). intros i j n Hn Hb. apply K in Hb. apply N in Hn.
    destruct Hn as [ (-> & _) | [ (-> & Hn) | (-> & ->) ] ], Hb as [ (-> & Hb) | [ (-> & Hb) | (-> & Hb) ] ]; try lia; subst; try (destruct Hn; discriminate); discriminate.
  - intros n i Hn _ (r & ->). apply N in Hn. cbn in Hn. repeat match goal with H : _ /\ _ |- _ => destruct H | H : _ \/ _ |- _ => destruct H end; discriminate.
Qed.

Print Assumptions C45_order_partial.
Print Assumptions C45_acyclic_partial.
Print Assumptions C45_resolve.
Print Assumptions C45_unresolved.
Print Assumptions C45_circle_dropped_refuted.
Print Assumptions C45_twice_refuted.
Print Assumptions C45_as_written_refuted.
Print Assumptions C45_undeclared_argument_refuted.
