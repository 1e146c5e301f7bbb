(** Lemmas about the graph builtins. *)
From Coq Require Import String ZArith List Bool Lia Permutation Sorted.
From Verif Require Import Base BigIntSpec BigIntModel DecFacts BigIntProofs SMap SMapFacts ValueModel ValueSpec KeyProofs
  ResolverModel ResolverProofs CollModel CollSpec CollObjProofs.
Import ListNotations.
Local Open Scope Z_scope.

(** ** Graphs over keys *)
Lemma kset_fold l : forall m : list (str * unit), keyed m ->
  keyed (fold_left (fun m k => sm_set k tt m) l m) /\
  forall k, In k (map fst (fold_left (fun m k => sm_set k tt m) l m)) <-> In k l \/ In k (map fst m).
Proof.
  induction l as [|x l IH]; intros m Hm; cbn [fold_left]; [split; [auto|simpl; tauto]|].
  destruct (IH _ (sm_set_keyed x tt m Hm)) as [A B]. split; auto. intro k. rewrite B, sm_set_keys. simpl. intuition.
Qed.
Lemma kset_in l k : In k (kset l) <-> In k l.
Proof. unfold kset. destruct (kset_fold l [] keyed_nil) as [_ B]. rewrite B. simpl. tauto. Qed.
Lemma kset_nodup l : NoDup (kset l).
Proof. unfold kset. apply keyed_nodup. apply (kset_fold l [] keyed_nil). Qed.

Definition kvert (g : graph) (k : str) : Prop := sm_find k g <> None.
Definition kedge (g : graph) (a b : str) : Prop := exists ds, sm_find a g = Some ds /\ In b ds.
Inductive kreach (g : graph) (init : list str) : str -> Prop :=
| kr_start k : In k init -> kvert g k -> kreach g init k
| kr_step a b : kreach g init a -> kedge g a b -> kvert g b -> kreach g init b.

Definition weight (g : graph) (visited : list str) : nat :=
  list_sum (map (fun e : str * list str => if has_key (fst e) visited then O else length (snd e)) g).
Lemma weight_nil g : weight g [] = list_sum (map (fun e : str * list str => length (snd e)) g).
Proof. reflexivity. Qed.
Lemma weight_mono g k visited : (weight g (k :: visited) <= weight g visited)%nat.
Proof.
  unfold weight. induction g as [|[x ds] g IH]; cbn [map list_sum fold_right fst snd]; auto.
  change (fold_right Nat.add 0%nat) with list_sum. unfold has_key at 1. cbn [existsb].
  change (existsb (str_eqb x) visited) with (has_key x visited).
  destruct (str_eqb x k), (has_key x visited); cbn [orb]; lia.
Qed.
Lemma weight_visit g k ds visited : sm_find k g = Some ds -> has_key k visited = false ->
  (weight g (k :: visited) + length ds <= weight g visited)%nat.
Proof.
  intros Hf Hv. pose proof (weight_mono) as WM. induction g as [|[x es] g IH]; [discriminate|].
  cbn [sm_find] in Hf. specialize (WM g k visited). unfold weight in *. cbn [map list_sum fold_right fst snd].
  change (fold_right Nat.add 0%nat) with list_sum. unfold has_key at 1. cbn [existsb].
  change (existsb (str_eqb x) visited) with (has_key x visited).
  destruct (str_eqb k x) eqn:E.
  - injection Hf as ->. apply str_eqb_eq in E. subst x. rewrite str_eqb_refl. cbn [orb]. rewrite Hv. lia.
  - rewrite str_eqb_sym, E. cbn [orb]. specialize (IH Hf). destruct (has_key x visited); lia.
Qed.

Lemma reach_loop_spec g (R : str -> Prop) : (forall a b, R a -> kedge g a b -> kvert g b -> R b) ->
  forall fuel frontier visited,
  (length frontier + weight g visited < fuel)%nat ->
  (forall k, In k frontier -> kvert g k -> R k) ->
  (forall k, In k visited -> R k /\ kvert g k) ->
  (forall a b, In a visited -> kedge g a b -> kvert g b -> In b visited \/ In b frontier) ->
  exists V, reach_loop fuel g frontier visited = Ok V /\
    (forall k, In k V -> R k /\ kvert g k) /\
    (forall k, In k visited \/ In k frontier -> kvert g k -> In k V) /\
    (forall a b, In a V -> kedge g a b -> kvert g b -> In b V).
Proof.
  intro HR. induction fuel as [|fuel IH]; intros frontier visited Hm Hfr Hv Hc; [lia|]. cbn [reach_loop].
  destruct frontier as [|c rest].
  - exists visited. split; auto. split; auto. split.
    + intros k [H|[]] _. auto.
    + intros a b Ha He Hb. destruct (Hc a b Ha He Hb) as [H|[]]; auto.
  - cbn [length] in Hm. destruct (has_key c visited) eqn:E.
    + apply has_key_in in E. destruct (IH rest visited) as (V & A & B & C & D); auto.
      * lia.
      * intros k H. apply Hfr. right; auto.
      * intros a b Ha He Hb. destruct (Hc a b Ha He Hb) as [H|[H|H]]; subst; auto.
      * exists V. split; auto. split; auto. split; auto. intros k [H|[H|H]]; subst; auto.
    + destruct (sm_find c g) as [ds|] eqn:Ef.
      * pose proof (weight_visit g c ds visited Ef E) as WV.
        assert (Kc : kvert g c) by (unfold kvert; congruence).
        assert (Rc : R c) by (apply Hfr; [left; auto|auto]).
        destruct (IH (rev ds ++ rest)%list (c :: visited)) as (V & A & B & C & D).
        -- rewrite app_length, rev_length. lia.
        -- intros k H Hk. apply in_app_iff in H as [H|H]; [|apply Hfr; [right|]; auto]. apply in_rev in H.
           apply (HR c); auto. exists ds. auto.
        -- intros k [H|H]; [subst|]; auto.
        -- intros a b [H|H] He Hb.
           ++ subst a. destruct He as (ds' & F1 & F2). right. apply in_or_app. left. apply in_rev. rewrite rev_involutive. congruence.
           ++ destruct (Hc a b H He Hb) as [G|[G|G]]; [left; right|left; left|right; apply in_or_app; right]; auto.
        -- exists V. split; auto. split; auto. split; auto. intros k [H|[H|H]] Hk; apply C; auto.
           ++ left. right. auto.
           ++ left. left. auto.
           ++ right. apply in_or_app. auto.
      * destruct (IH rest visited) as (V & A & B & C & D); auto.
        -- lia.
        -- intros k H. apply Hfr. right; auto.
        -- intros a b Ha He Hb. destruct (Hc a b Ha He Hb) as [H|[H|H]]; subst; auto. contradiction Hb. 
        -- exists V. split; auto. split; auto. split; auto. intros k [H|[H|H]] Hk; subst; auto. contradiction Hk.
Qed.

Lemma reach_spec g init :
  exists V, reach_loop (reach_fuel g init) g init [] = Ok V /\ forall k, In k V <-> kreach g init k.
Proof.
  destruct (reach_loop_spec g (kreach g init)) with (fuel := reach_fuel g init) (frontier := init) (visited := @nil str) as (V & A & B & C & D).
  - intros. econstructor 2; eauto.
  - rewrite weight_nil. unfold reach_fuel. lia.
  - intros. now constructor.
  - intros k [].
  - intros a b [].
  - exists V. split; auto. intro k. split.
    + intro H. apply B; auto.
    + induction 1 as [k H Hk|a b H IH He Hb]; [apply C; auto|eapply D; eauto].
Qed.

(** ** Simple paths over keys *)
Inductive ext (g : graph) : list str -> list str -> Prop :=
| ext_done p ds : sm_find (last p []) g = Some ds -> neighbors g ds p = [] -> ext g p p
| ext_step p ds n q : sm_find (last p []) g = Some ds -> In n (neighbors g ds p) -> ext g (p ++ [n]) q -> ext g p q.

Lemma ext_inv g p q : ext g p q -> exists ds, sm_find (last p []) g = Some ds /\
  ((neighbors g ds p = [] /\ q = p) \/ exists n, In n (neighbors g ds p) /\ ext g (p ++ [n]) q).
Proof. intro H. inversion H; subst; eauto 6. Qed.

Lemma neighbors_in g ds p n : In n (neighbors g ds p) <-> In n ds /\ ~ In n p /\ kvert g n.
Proof.
  unfold neighbors, kvert. rewrite filter_In, andb_true_iff, negb_true_iff, has_key_not, has_key_in, in_keys. tauto.
Qed.

(** The number of vertices that are not on the path. *)
Definition off (g : graph) (p : list str) : nat := length (filter (fun k => negb (has_key k p)) (map fst g)).
Lemma off_step g p n : kvert g n -> ~ In n p -> (off g (p ++ [n]) < off g p)%nat.
Proof.
  unfold off, kvert. intros Hv Hp. apply in_keys in Hv.
  assert (Le : forall l, (length (filter (fun k => negb (has_key k (p ++ [n]))) l) <= length (filter (fun k => negb (has_key k p)) l))%nat).
  { induction l as [|x l IH]; cbn [filter]; auto. destruct (has_key x p) eqn:E.
    - replace (has_key x (p ++ [n])) with true; [exact IH|]. symmetry. apply has_key_in. apply in_or_app. left. now apply has_key_in.
    - cbn [negb length]. destruct (negb _); cbn [length]; lia. }
  revert Hv. generalize (map fst g) as l. induction l as [|x l IH]; intros [].
  - subst x. cbn [filter]. replace (has_key n p) with false by (symmetry; now apply has_key_not).
    replace (has_key n (p ++ [n])) with true; [|symmetry; apply has_key_in, in_or_app; right; left; auto].
    cbn [negb length]. specialize (Le l). lia.
  - specialize (IH H). cbn [filter]. destruct (has_key x p) eqn:E.
    + replace (has_key x (p ++ [n])) with true; [exact IH|]. symmetry. apply has_key_in. apply in_or_app. left. now apply has_key_in.
    + cbn [negb length]. destruct (negb _); cbn [length]; lia.
Qed.
Lemma off_le g p : (off g p <= length g)%nat.
Proof.
  unfold off. rewrite <- (map_length fst g). generalize (map fst g). induction l as [|x l IH]; cbn [filter length]; auto.
  destruct (negb _); cbn [length]; lia.
Qed.
Lemma path_cost_mono n : forall m m', (m <= m')%nat -> (path_cost n m <= path_cost n m')%nat.
Proof.
  induction m as [|m IH]; intros [|m'] H; cbn [path_cost]; try lia. specialize (IH m' ltac:(lia)). nia.
Qed.
Lemma path_cost_pos n m : (1 <= path_cost n m)%nat.
Proof. destruct m; cbn [path_cost]; lia. Qed.

Definition total (g : graph) (fr : list (list str)) : nat := list_sum (map (fun p => path_cost (length g) (off g p)) fr).
Lemma total_app g a b : total g (a ++ b) = (total g a + total g b)%nat.
Proof. unfold total. now rewrite map_app, list_sum_app. Qed.
Lemma total_le g c fr : (forall p, In p fr -> (path_cost (length g) (off g p) <= c)%nat) -> (total g fr <= length fr * c)%nat.
Proof.
  unfold total. induction fr as [|p fr IH]; intro H; cbn [map list_sum fold_right length]; [lia|].
  change (fold_right Nat.add 0%nat) with list_sum. specialize (IH (fun q Hq => H q (or_intror Hq))). specialize (H p (or_introl eq_refl)). lia.
Qed.

Lemma paths_loop_spec g : keyed g -> (forall k ds, sm_find k g = Some ds -> NoDup ds) -> forall fuel frontier paths,
  (total g frontier < fuel)%nat ->
  exists R, paths_loop fuel g frontier paths = Ok R /\
  forall q, In q R <-> In q paths \/ exists p, In p frontier /\ ext g p q.
Proof.
  intros Kg Nd. induction fuel as [|fuel IH]; intros frontier paths Hf; [lia|]. cbn [paths_loop].
  destruct frontier as [|p rest].
  - exists paths. split; auto. intro q. split; auto. intros [H|(p & [] & _)]; auto.
  - assert (Hc : total g (p :: rest) = (path_cost (length g) (off g p) + total g rest)%nat) by reflexivity.
    pose proof (path_cost_pos (length g) (off g p)) as Hpos.
    destruct (sm_find (last p []) g) as [ds|] eqn:E.
    + destruct (neighbors g ds p) as [|n0 ns0] eqn:En.
      * destruct (IH rest (paths ++ [p])%list) as (R & A & B); [lia|]. exists R. split; auto. intro q. rewrite B, in_app_iff. simpl. split.
        -- intros [[H|[H|[]]]|(p' & H & He)]; auto; right.
           ++ subst. exists q. split; auto. econstructor; eauto.
           ++ exists p'. auto.
        -- intros [H|(p' & [H|H] & He)]; auto; [|right; eauto]. subst p'. left. right. left.
           apply ext_inv in He as (ds' & E1 & [[_ E2]|(n & E2 & _)]); auto. rewrite E in E1. injection E1 as <-. rewrite En in E2. destruct E2.
      * rewrite <- En. set (ns := neighbors g ds p) in *.
        assert (Len : (length ns <= length g)%nat).
        { rewrite <- (map_length fst g). apply NoDup_incl_length; [unfold ns, neighbors; apply NoDup_filter; eauto|].
          intros k Hk. apply neighbors_in in Hk as (_ & _ & Hk). now apply in_keys. }
        destruct (IH (rev (map (fun k => p ++ [k]) ns) ++ rest)%list paths) as (R & A & B).
        { rewrite total_app.
          assert (T : (total g (rev (map (fun k => p ++ [k])%list ns)) <= length ns * path_cost (length g) (pred (off g p)))%nat).
          { rewrite <- (map_length (fun k => p ++ [k])%list ns), <- rev_length. apply total_le. intros q Hq. apply in_rev in Hq.
            apply in_map_iff in Hq as (k & <- & Hk). apply neighbors_in in Hk as (_ & H1 & H2). apply path_cost_mono.
            pose proof (off_step g p k H2 H1). lia. }
          assert (Hk : In n0 ns) by (rewrite En; left; auto). apply neighbors_in in Hk as (_ & H1 & H2).
          pose proof (off_step g p n0 H2 H1). destruct (off g p) as [|o] eqn:Eo; [lia|]. cbn [path_cost pred] in *. nia. }
        exists R. split; auto. intro q. rewrite B. split.
        -- intros [H|(p' & H & He)]; auto. right. apply in_app_iff in H as [H|H]; [|exists p'; split; [right|]; auto].
           apply in_rev in H. apply in_map_iff in H as (k & <- & Hk). exists p. split; [left; auto|]. econstructor 2; eauto.
        -- intros [H|(p' & [H|H] & He)]; auto; right.
           ++ subst p'. apply ext_inv in He as (ds' & E1 & [[E2 _]|(n & E2 & E3)]); rewrite E in E1; injection E1 as <-.
              ** fold ns in E2. congruence.
              ** exists (p ++ [n])%list. split; auto. apply in_or_app. left. apply in_rev. rewrite rev_involutive. apply in_map_iff. eauto.
           ++ exists p'. split; auto. apply in_or_app. auto.
    + destruct (IH rest paths) as (R & A & B); [lia|]. exists R. split; auto. intro q. rewrite B. split.
      * intros [H|(p' & H & He)]; auto. right. exists p'. split; [right|]; auto.
      * intros [H|(p' & [H|H] & He)]; auto; [|right; eauto]. subst p'. apply ext_inv in He as (ds & E1 & _). congruence.
Qed.

Fixpoint kchain (g : graph) (p : list str) : Prop :=
  match p with a :: ((b :: _) as p') => kedge g a b /\ kchain g p' | _ => True end.
Lemma kchain_snoc g p a b : kchain g (p ++ [a; b]) <-> kchain g (p ++ [a]) /\ kedge g a b.
Proof.
  induction p as [|x p IH]; [simpl; tauto|]. destruct p as [|y p]; [simpl; tauto|].
  change (((x :: y :: p) ++ [a; b])%list) with (x :: y :: p ++ [a; b])%list.
  change (((x :: y :: p) ++ [a])%list) with (x :: y :: p ++ [a])%list.
  change (kchain g (x :: y :: p ++ [a; b])) with (kedge g x y /\ kchain g ((y :: p) ++ [a; b])).
  change (kchain g (x :: y :: p ++ [a])) with (kedge g x y /\ kchain g ((y :: p) ++ [a])). tauto.
Qed.
Lemma snoc_case {A} (p : list A) : p <> [] -> exists p' a, p = (p' ++ [a])%list.
Proof. intro H. destruct (exists_last H) as (p' & a & E). eauto. Qed.

(** Non-empty, through vertices, along edges, nothing twice. *)
Definition kpath (g : graph) (p : list str) : Prop :=
  p <> [] /\ (forall k, In k p -> kvert g k) /\ kchain g p /\ NoDup p.
Definition kmaximal (g : graph) (p : list str) : Prop :=
  kpath g p /\ forall b, kedge g (last p []) b -> kvert g b -> In b p.

Lemma nodup_snoc {A} (p : list A) a : NoDup (p ++ [a]) <-> NoDup p /\ ~ In a p.
Proof.
  split.
  - intro H. split; [apply NoDup_remove_1 in H; now rewrite app_nil_r in H|apply NoDup_remove_2 in H; now rewrite app_nil_r in H].
  - intros [H Ha]. apply nodup_app; auto; [repeat constructor; auto|]. intros x Hx [->|[]]. auto.
Qed.
Lemma kpath_snoc g p n : p <> [] -> (kpath g (p ++ [n]) <-> kpath g p /\ kedge g (last p []) n /\ kvert g n /\ ~ In n p).
Proof.
  intro Hp. destruct (snoc_case p Hp) as (p' & a & ->). rewrite last_last. unfold kpath.
  rewrite nodup_snoc. rewrite <- app_assoc. cbn [app]. rewrite kchain_snoc. split.
  - intros (_ & A & (B & B') & C & D). repeat split; auto.
    + intros k Hk. apply A. apply in_app_iff in Hk as [Hk|[Hk|[]]]; apply in_or_app; simpl; auto.
    + apply A. apply in_or_app. simpl. auto.
  - intros ((_ & A & B & C) & D & E & G). repeat split; auto.
    + destruct p'; discriminate.
    + intros k Hk. apply in_app_iff in Hk as [Hk|[Hk|[Hk|[]]]]; subst; auto; apply A; apply in_or_app; simpl; auto.
Qed.

Lemma ext_sound g p q : ext g p q -> kpath g p -> kmaximal g q /\ exists r, q = (p ++ r)%list.
Proof.
  induction 1 as [p ds E1 E2|p ds n q E1 E2 E3 IH]; intro K.
  - split; [|exists []; now rewrite app_nil_r]. split; auto. intros b (ds' & A & B) Hv. pose proof (eq_trans (eq_sym E1) A) as EA. injection EA as <-.
    destruct (in_dec (list_eq_dec Z.eq_dec) b p) as [H|H]; auto. exfalso.
    assert (G : In b (neighbors g ds p)) by (apply neighbors_in; auto). rewrite E2 in G. destruct G.
  - apply neighbors_in in E2 as (A & B & C). destruct IH as (M & r & ->).
    + apply kpath_snoc; [apply K|]. repeat split; auto; [apply K|apply K|apply K|apply K|]. exists ds. auto.
    + split; auto. exists (n :: r). now rewrite <- app_assoc.
Qed.
Lemma kpath_prefix g r : forall q, q <> [] -> kpath g (q ++ r) -> kpath g q.
Proof.
  induction r as [|x r IH]; intros q Hq K; [now rewrite app_nil_r in K|].
  replace (q ++ x :: r)%list with ((q ++ [x]) ++ r)%list in K by now rewrite <- app_assoc.
  apply IH in K; [|destruct q; discriminate]. apply kpath_snoc in K; [tauto|auto].
Qed.
Lemma ext_complete g r : forall p, p <> [] -> kmaximal g (p ++ r) -> ext g p (p ++ r).
Proof.
  induction r as [|n r IH]; intros p Hp [K M].
  - rewrite app_nil_r in *.
    assert (Hv : kvert g (last p [])).
    { apply K. destruct (snoc_case p Hp) as (p' & a & ->). rewrite last_last. apply in_or_app. simpl. auto. }
    unfold kvert in Hv. destruct (sm_find (last p []) g) as [ds|] eqn:E; [|congruence].
    apply (ext_done g p ds E). destruct (neighbors g ds p) as [|b l] eqn:En; auto. exfalso.
    assert (G : In b (neighbors g ds p)) by (rewrite En; left; auto). apply neighbors_in in G as (A & B & C).
    apply B. apply M; auto. exists ds. auto.
  - assert (Ea : (p ++ n :: r)%list = ((p ++ [n]) ++ r)%list) by now rewrite <- app_assoc. rewrite Ea in *.
    assert (Hne : (p ++ [n])%list <> []) by (destruct p; discriminate).
    pose proof (kpath_prefix g r _ Hne K) as Kn. apply kpath_snoc in Kn as (_ & (ds & A & B) & C & D); auto.
    apply (ext_step g p ds n); auto; [apply neighbors_in; auto|]. apply IH; auto. split; auto.
Qed.
Lemma paths_spec g init : keyed g -> (forall k ds, sm_find k g = Some ds -> NoDup ds) ->
  exists R, paths_loop (paths_fuel g init) g (rev (map (fun k => [k]) init)) [] = Ok R /\
  forall q, In q R <-> kmaximal g q /\ exists s r, q = s :: r /\ In s init.
Proof.
  intros Kg Nd. destruct (paths_loop_spec g Kg Nd (paths_fuel g init) (rev (map (fun k => [k]) init)) []) as (R & A & B).
  { unfold paths_fuel. rewrite <- (map_length (fun k => [k]) init), <- rev_length. apply Nat.lt_succ_r, total_le.
    intros p _. apply path_cost_mono, off_le. }
  exists R. split; auto. intro q. rewrite B. split.
  - intros [[]|(p & Hp & He)]. apply in_rev in Hp. apply in_map_iff in Hp as (s & <- & Hs).
    assert (Ks : kpath g [s]).
    { split; [discriminate|]. split; [|split; [simpl; auto|repeat constructor; auto]]. intros k [<-|[]].
      apply ext_inv in He as (ds & E & _). unfold kvert. cbn [last] in E. congruence. }
    destruct (ext_sound g _ _ He Ks) as (M & r & ->). split; auto. exists s, r. auto.
  - intros (M & s & r & -> & Hs). right. exists [s]. split.
    + apply in_rev. rewrite rev_involutive. apply in_map_iff. eauto.
    + apply (ext_complete g r [s]); [discriminate|exact M].
Qed.

(** ** From objects to graphs over keys *)
Section Values.
Variable F : fops.
Variables NI NF : str -> Prop.
Hypothesis Hdom : num_domain F NI NF.
Notation wf := (wfv F NI NF).
Notation key := (to_key F).
Notation ikey := (fun kv : value * value => key (fst kv)).

Definition dsts (d : value) : list value := match d with VArray l | VSet l => l | _ => [] end.

Lemma index_fold l ix : fold_left (index_first F) l ix = fold_left (fun m x => sm_insert (key x) x m) l ix.
Proof. reflexivity. Qed.

Lemma build_graph_spec es : graph_shaped es -> NoDup (map ikey es) -> forall g ix, keyed g -> kmap F ix ->
  exists gr ix', build_graph F es g ix = Some (gr, ix') /\ keyed gr /\ kmap F ix' /\
  (forall k ds, sm_find k gr = Some ds <->
     (exists s d, In (s, d) es /\ key s = k /\ ds = kset (map key (dsts d))) \/ (~ In k (map ikey es) /\ sm_find k g = Some ds)) /\
  (forall k, In k (map fst ix') <-> In k (map fst ix) \/ In k (map ikey es) \/ exists s d, In (s, d) es /\ In k (map key (dsts d))) /\
  (forall kv, In kv ix' -> In kv ix \/ (exists d, In (snd kv, d) es) \/ exists s d, In (s, d) es /\ In (snd kv) (dsts d)).
Proof.
  induction es as [|[s d] es IH]; intros Sh Nd g ix Kg Ki.
  - exists g, ix. split; [reflexivity|]. split; auto. split; auto. split; [|split].
    + intros k ds. split; [intro H; right; split; auto|]. intros [(s & d & [] & _)|[_ H]]; auto.
    + intro k. simpl. split; auto. intros [H|[[]|(s & d & [] & _)]]; auto.
    + auto.
  - inversion Nd as [|? ? Nd1 Nd2]; subst. cbn [fst] in Nd1.
    assert (Sh' : graph_shaped es) by (intros k v H; apply (Sh k v); right; auto).
    assert (Step : exists gr ix', build_graph F es (sm_set (key s) (kset (map key (dsts d))) g)
        (fold_left (index_first F) (dsts d) (index_first F ix s)) = Some (gr, ix') /\ build_graph F ((s, d) :: es) g ix = Some (gr, ix') /\ keyed gr /\ kmap F ix' /\
        (forall k ds, sm_find k gr = Some ds <->
           (exists s d, In (s, d) es /\ key s = k /\ ds = kset (map key (dsts d))) \/
           (~ In k (map ikey es) /\ sm_find k (sm_set (key s) (kset (map key (dsts d))) g) = Some ds)) /\
        (forall k, In k (map fst ix') <-> In k (map fst (fold_left (index_first F) (dsts d) (index_first F ix s))) \/ In k (map ikey es) \/ exists s d, In (s, d) es /\ In k (map key (dsts d))) /\
        (forall kv, In kv ix' -> In kv (fold_left (index_first F) (dsts d) (index_first F ix s)) \/ (exists d, In (snd kv, d) es) \/ exists s d, In (s, d) es /\ In (snd kv) (dsts d))).
    { assert (Ki1 : kmap F (index_first F ix s)) by now apply kmap_insert.
      assert (Ki2 : kmap F (fold_left (index_first F) (dsts d) (index_first F ix s))) by (rewrite index_fold; now apply fold_insert).
      destruct (IH Sh' Nd2 (sm_set (key s) (kset (map key (dsts d))) g) _ (sm_set_keyed _ _ _ Kg) Ki2) as (gr & ix' & E & R).
      exists gr, ix'. split; auto. split; [|exact R]. cbn [build_graph].
      destruct (Sh s d (or_introl eq_refl)) as [->|[[l ->]|[l ->]]]; exact E. }
    destruct Step as (gr & ix' & _ & E & Kg' & Ki' & A & B & C). exists gr, ix'. split; auto. split; auto. split; auto.
    assert (Ki1 : kmap F (index_first F ix s)) by now apply kmap_insert.
    rewrite index_fold in B, C. destruct (fold_insert F (dsts d) _ Ki1) as (_ & B2 & C2).
    split; [|split].
    + intros k ds. rewrite A, sm_find_set by auto. cbn [map fst]. destruct (str_eqb k (key s)) eqn:Ek.
      * apply str_eqb_eq in Ek. subst k. split.
        -- intros [(s' & d' & H & K & ->)|[H Ev]]; left; [exists s', d'; split; [right|]; auto|]. injection Ev as <-. exists s, d. split; [left|]; auto.
        -- intros [(s' & d' & [H|H] & K & ->)|[H _]]; [|left; eauto|exfalso; apply H; left; auto].
           injection H as -> ->. right. auto.
      * apply str_eqb_neq in Ek. split.
        -- intros [(s' & d' & H & K & ->)|[H Ev]]; [left; exists s', d'; split; [right|]; auto|right]. split; auto. intros [H'|H']; auto.
        -- intros [(s' & d' & [H|H] & K & ->)|[H Ev]]; [injection H as -> ->; congruence|left; eauto|right]. split; auto. intro H'. apply H. right. auto.
    + intro k. rewrite B, B2. unfold index_first at 1. rewrite insert_keys_in by apply Ki. cbn [map fst]. split.
      * intros [[H|[H|H]]|[H|(s' & d' & H & H')]]; auto.
        -- right. right. exists s, d. split; [left|]; auto.
        -- right. left. left. auto.
        -- right. left. right. auto.
        -- right. right. exists s', d'. split; [right|]; auto.
      * intros [H|[[H|H]|(s' & d' & [H|H] & H')]]; auto.
        -- injection H as -> ->. auto.
        -- right. right. eauto.
    + intros kv H. apply C in H as [H|[(d' & H)|(s' & d' & H & H')]].
      * apply C2 in H as [H|H].
        -- unfold index_first, sm_insert in H. destruct (sm_find (key s) ix); auto. apply sm_set_in in H as [->|H]; auto.
           right. left. exists d. left. auto.
        -- right. right. exists s, d. split; [left|]; auto.
      * right. left. exists d'. right. auto.
      * right. right. exists s', d'. split; [right|]; auto.
Qed.

Variable es : list (value * value).
Hypothesis Wes : wf (VObject es).
Hypothesis Shape : graph_shaped es.

Lemma es_wf : forall s d, In (s, d) es -> wf s /\ wf d /\ Forall wf (dsts d).
Proof.
  destruct (wf_object_inv F NI NF es Wes) as (A & B & C). unfold wfi in A. rewrite Forall_forall in *. intros s d H.
  split; [apply (A _ H)|]. specialize (B _ H). cbn [snd] in B. split; auto.
  destruct d; cbn [dsts]; try constructor; [now inversion B|]. now apply (wf_set_inv F NI NF Hdom) in B.
Qed.
Lemma es_nodup : NoDup (map ikey es).
Proof. now destruct (wf_object_inv F NI NF es Wes) as (A & B & C). Qed.

Variable start : list value.
Hypothesis Wstart : Forall wf start.

(** Everything the two builtins need of the graph that is built. *)
Lemma build_facts :
  let ix0 := index_nodes F [] start in
  exists gr ix, build_graph F es [] ix0 = Some (gr, ix) /\ keyed gr /\ kmap F ix /\ Forall wf (map snd ix) /\
  (forall k ds, sm_find k gr = Some ds -> NoDup ds) /\
  (forall k, kvert gr k -> In k (map fst ix)) /\
  (forall k, In k (map fst ix0) <-> In k (map key start)) /\
  (forall k, kvert gr k -> exists u, wf u /\ key u = k) /\
  (forall v, wf v -> (kvert gr (key v) <-> vertex F es v)) /\
  (forall a b, wf a -> wf b -> (kedge gr (key a) (key b) <-> edge F es a b)).
Proof.
  intro ix0. destruct (fold_set F start [] (kmap_nil F)) as (K0 & I0 & S0). fold (index_nodes F [] start) in K0, I0, S0.
  fold ix0 in K0, I0, S0.
  destruct (build_graph_spec es Shape es_nodup [] ix0 keyed_nil K0) as (gr & ix & E & Kg & Ki & A & B & C).
  exists gr, ix. split; auto. split; auto. split; auto.
  assert (A' : forall k ds, sm_find k gr = Some ds <-> exists s d, In (s, d) es /\ key s = k /\ ds = kset (map key (dsts d))).
  { intros k ds. rewrite A. split; auto. intros [H|[_ H]]; [auto|discriminate]. }
  split; [|split; [|split; [|split; [|split; [|split]]]]].
  - rewrite Forall_forall. intros v Hv. apply in_map_iff in Hv as (kv & <- & Hv).
    apply C in Hv as [Hv|[(d & Hv)|(s & d & Hv & Hd)]].
    + apply S0 in Hv as [[]|Hv]. rewrite Forall_forall in Wstart. auto.
    + apply es_wf in Hv. tauto.
    + apply es_wf in Hv as (_ & _ & G). rewrite Forall_forall in G. auto.
  - intros k ds H. apply A' in H as (s & d & _ & _ & ->). apply kset_nodup.
  - intros k Hk. apply B. unfold kvert in Hk. destruct (sm_find k gr) as [ds|] eqn:E1; [|congruence].
    apply A' in E1 as (s & d & H & <- & _). right. left. apply in_map_iff. exists (s, d). auto.
  - intro k. rewrite I0. simpl. tauto.
  - intros k Hk. unfold kvert in Hk. destruct (sm_find k gr) as [ds|] eqn:E1; [|congruence].
    apply A' in E1 as (s & d & H & <- & _). exists s. split; auto. apply es_wf in H. tauto.
  - intros v Wv. unfold kvert, vertex. split.
    + destruct (sm_find (key v) gr) as [ds|] eqn:E1; [|congruence]. intros _. apply A' in E1 as (s & d & H & Hk & _).
      exists s, d. split; auto. apply es_wf in H as (Ws & _). apply (key_veq F NI NF); auto.
    + intros (s & d & H & V). assert (E1 : sm_find (key v) gr = Some (kset (map key (dsts d)))); [|congruence].
      apply A'. exists s, d. split; auto. split; auto. apply es_wf in H as (Ws & _). symmetry. now apply (veq_key F NI NF).
  - intros a b Wa Wb. unfold kedge, edge. split.
    + intros (ds & E1 & Hb). apply A' in E1 as (s & d & H & Hk & ->). rewrite kset_in in Hb. pose proof (es_wf _ _ H) as (Ws & Wd & Wl).
      exists s, d, (dsts d). split; auto. split; [apply (key_veq F NI NF); auto|]. split; [|now apply (mem_key F NI NF Hdom)].
      destruct d; cbn [dsts] in *; auto; destruct Hb.
    + intros (s & d & l & H & V & D & M). pose proof (es_wf _ _ H) as (Ws & Wd & Wl). exists (kset (map key (dsts d))). split.
      * apply A'. exists s, d. split; auto. split; auto. symmetry. now apply (veq_key F NI NF).
      * rewrite kset_in. apply (mem_key F NI NF Hdom); auto. destruct D as [->| ->]; exact M.
Qed.

Lemma index_values_keys ix ks : kmap F ix -> (forall k, In k ks -> In k (map fst ix)) -> map key (index_values ix ks) = ks.
Proof.
  intros [Hk Hm] H. unfold index_values. induction ks as [|k ks IH]; auto. cbn [flat_map]. rewrite map_app, IH by (intros; apply H; right; auto).
  specialize (H k (or_introl eq_refl)). apply in_keys in H. destruct (sm_find k ix) as [v|] eqn:E; [|congruence].
  apply sm_find_in in E. rewrite Forall_forall in Hm. specialize (Hm _ E). simpl in Hm. simpl. congruence.
Qed.
Lemma index_values_wf ix ks : Forall wf (map snd ix) -> Forall wf (index_values ix ks).
Proof.
  rewrite !Forall_forall. intros H v Hv. unfold index_values in Hv. apply in_flat_map in Hv as (k & _ & Hv).
  destruct (sm_find k ix) as [x|] eqn:E; [|destruct Hv]. destruct Hv as [<-|[]]. apply sm_find_in in E. apply H. apply in_map_iff. exists (k, x). auto.
Qed.

(** Vertices are strings. *)
Lemma vertex_wf v : vertex F es v -> wf v /\ forall w, veq F w v -> w = v.
Proof.
  intros (k & d & H & V). inversion Wes as [| | | | | | | |l A B C E]; subst es.
  apply in_map_iff in H as ([t x] & E & H). injection E as <- <-. cbn [fst] in V.
  assert (G : forall w t, veq F w (VString t) -> w = VString t) by (intros w t' G; inversion G; subst; auto; discriminate).
  rewrite (G _ _ V). split; [|intro w; apply G]. rewrite Forall_forall in A. constructor. apply (A _ H).
Qed.
Lemma reaches_wf v : reaches F es start v -> vertex F es v.
Proof. destruct 1; auto. Qed.

Lemma reaches_key gr (ix0 : list (str * value)) :
  (forall k, In k (map fst ix0) <-> In k (map key start)) ->
  (forall k, kvert gr k -> exists u, wf u /\ key u = k) ->
  (forall v, wf v -> (kvert gr (key v) <-> vertex F es v)) ->
  (forall a b, wf a -> wf b -> (kedge gr (key a) (key b) <-> edge F es a b)) ->
  forall v, wf v -> (kreach gr (rev (map fst ix0)) (key v) <-> reaches F es start v).
Proof.
  intros I0 HU HV HE v Wv. split.
  - intro H. remember (key v) as k eqn:Ek. revert v Wv Ek. induction H as [k Hk Hv|a b Ha IH He Hb]; intros v Wv ->.
    + constructor; [|now apply HV]. apply in_rev in Hk. apply I0 in Hk. now apply (mem_key F NI NF Hdom).
    + assert (Ka : kvert gr a) by (destruct He as (ds & E & _); unfold kvert; congruence).
      destruct (HU a Ka) as (u & Wu & <-). apply (rc_step F es start u v); [now apply IH|now apply HE|now apply HV].
  - intro H. induction H as [v M V|a b Ha IH He Hb].
    + constructor; [|now apply HV]. apply in_rev. rewrite rev_involutive. apply I0. now apply (mem_key F NI NF Hdom).
    + pose proof (proj1 (vertex_wf _ (reaches_wf _ Ha))) as Wa. specialize (IH Wa).
      econstructor 2; [exact IH|now apply HE|now apply HV].
Qed.

Lemma graph_reachable_spec :
  forall sv, start_nodes sv = Some start ->
  exists l, graph_reachable F (VObject es) sv = Ok (RVal (VSet l)) /\ wf (VSet l) /\ forall v, mem F v l <-> reaches F es start v.
Proof.
  intros sv Hs. unfold graph_reachable. rewrite Hs.
  destruct build_facts as (gr & ix & E & Kg & Ki & Wi & Nd & Dom & I0 & HU & HV & HE). rewrite E.
  set (init := rev (map fst (index_nodes F [] start))) in *.
  destruct (reach_spec gr init) as (V & EV & HVis). rewrite EV. cbn [obind].
  eexists. split; [reflexivity|].
  pose proof (index_values_wf ix (kset V) Wi) as Wl.
  assert (Kl : map key (index_values ix (kset V)) = kset V).
  { apply index_values_keys; auto. intros k Hk. rewrite kset_in in Hk. apply HVis in Hk. apply Dom. now destruct Hk. }
  split; [now apply (set_of_wf F NI NF Hdom)|].
  assert (M : forall v, wf v -> (mem F v (set_of F (index_values ix (kset V))) <-> reaches F es start v)).
  { intros v Wv. destruct (set_of_facts F (index_values ix (kset V))) as (_ & S1 & S2).
    rewrite (mem_key F NI NF Hdom); auto.
    - rewrite S1, Kl, kset_in, HVis. now apply reaches_key.
    - rewrite Forall_forall in *. intros x Hx. apply Wl. now apply S2. }
  intro v. split.
  - intros (y & Hy & V').
    assert (Wy : wf y).
    { destruct (set_of_facts F (index_values ix (kset V))) as (_ & _ & S2). rewrite Forall_forall in Wl. apply Wl. now apply S2. }
    assert (Ry : reaches F es start y).
    { apply M; auto. exists y. split; auto. apply (key_veq F NI NF); auto. }
    destruct (vertex_wf _ (reaches_wf _ Ry)) as [_ G]. now rewrite (G _ V').
  - intro R. apply M; auto. apply (vertex_wf _ (reaches_wf _ R)).
Qed.

Lemma chain_key gr : (forall a b, wf a -> wf b -> (kedge gr (key a) (key b) <-> edge F es a b)) ->
  forall p, Forall wf p -> (kchain gr (map key p) <-> chain F es p).
Proof.
  intros HE p. induction p as [|a p IH]; intro W; [simpl; tauto|]. inversion W as [|? ? Wa Wp]; subst. specialize (IH Wp).
  destruct p as [|b p]; [simpl; tauto|]. inversion Wp; subst.
  change (kchain gr (map key (a :: b :: p))) with (kedge gr (key a) (key b) /\ kchain gr (map key (b :: p))).
  change (chain F es (a :: b :: p)) with (edge F es a b /\ chain F es (b :: p)). rewrite IH, HE by auto. tauto.
Qed.
Lemma nodup_key p : Forall wf p ->
  (NoDup (map key p) <-> forall p1 x p2 y p3, p = (p1 ++ x :: p2 ++ y :: p3)%list -> ~ veq F x y).
Proof.
  intro W. split.
  - intro N. apply (nodup_wf_set F NI NF Hdom) in N; auto. now inversion N.
  - intro H. now apply (map_key_nodup F NI NF).
Qed.

Lemma maximal_key gr (ix0 : list (str * value)) :
  (forall k, In k (map fst ix0) <-> In k (map key start)) ->
  (forall k, kvert gr k -> exists u, wf u /\ key u = k) ->
  (forall v, wf v -> (kvert gr (key v) <-> vertex F es v)) ->
  (forall a b, wf a -> wf b -> (kedge gr (key a) (key b) <-> edge F es a b)) ->
  forall p, Forall wf p ->
  ((kmaximal gr (map key p) /\ exists s r, map key p = s :: r /\ In s (map fst ix0)) <-> maximal_path F es start p).
Proof.
  intros I0 HU HV HE p W. unfold kmaximal, kpath, maximal_path. rewrite (chain_key gr HE p W), (nodup_key p W). split.
  - intros (((A & B & C & D) & M) & s & r & E & Hs). destruct p as [|v0 vs]; [discriminate|]. injection E as <- <-.
    inversion W as [|? ? W0 Ws]; subst. exists v0, vs. split; auto. split; [apply (mem_key F NI NF Hdom); auto; now apply I0|].
    split; [|split; auto; split; auto].
    + intros v Hv. apply HV; [rewrite Forall_forall in W; auto|]. apply B. now apply in_map.
    + intros p' a b Ep He Hb. destruct (vertex_wf _ Hb) as [Wb _]. apply (mem_key F NI NF Hdom); auto.
      assert (Wa : wf a). { rewrite Forall_forall in W. apply W. rewrite Ep. apply in_or_app. simpl. auto. }
      apply M; [|now apply HV]. rewrite Ep, map_app. cbn [map]. rewrite last_last. now apply HE.
  - intros (v0 & vs & -> & M0 & A & B & C & D). inversion W as [|? ? W0 Ws]; subst. split.
    + split; [split; [discriminate|split; [|auto]]|].
      * intros k Hk. apply in_map_iff in Hk as (v & <- & Hv). apply HV; [rewrite Forall_forall in W; auto|auto].
      * intros b He Hb. destruct (HU b Hb) as (u & Wu & <-). destruct (snoc_case (v0 :: vs)) as (p' & a & Ep); [discriminate|].
        rewrite Ep in He. rewrite map_app in He. cbn [map] in He. rewrite last_last in He.
        assert (Wa : wf a). { rewrite Forall_forall in W. apply W. rewrite Ep. apply in_or_app. simpl. auto. }
        apply (mem_key F NI NF Hdom); auto. apply (D p' a u Ep); [now apply HE|now apply HV].
    + exists (key v0), (map key vs). split; auto. apply I0. now apply (mem_key F NI NF Hdom).
Qed.

Lemma graph_paths_spec :
  forall sv, start_nodes sv = Some start ->
  exists l, graph_reachable_paths F (VObject es) sv = Ok (RVal (VSet l)) /\ wf (VSet l) /\
  (forall v, In v l -> exists p, v = VArray p) /\ forall p, mem F (VArray p) l <-> maximal_path F es start p.
Proof.
  intros sv Hs. unfold graph_reachable_paths. rewrite Hs.
  destruct build_facts as (gr & ix & E & Kg & Ki & Wi & Nd & Dom & I0 & HU & HV & HE). rewrite E.
  replace (map (fun kv : str * value => [fst kv]) (index_nodes F [] start)) with
    (map (fun k : str => [k]) (map fst (index_nodes F [] start))) by now rewrite map_map.
  destruct (paths_spec gr (map fst (index_nodes F [] start)) Kg Nd) as (R & ER & HR). rewrite ER. cbn [obind].
  set (vals := map (fun p => VArray (index_values ix p)) R).
  assert (Wv : Forall wf vals).
  { unfold vals. rewrite Forall_forall. intros v Hv. apply in_map_iff in Hv as (p & <- & _). constructor. now apply index_values_wf. }
  assert (KR : forall q, In q R -> map key (index_values ix q) = q).
  { intros q Hq. apply HR in Hq as (((_ & Hq & _) & _) & _). apply index_values_keys; auto. }
  destruct (set_of_facts F vals) as (_ & S1 & S2).
  assert (Ws : Forall wf (set_of F vals)) by (rewrite Forall_forall in *; auto).
  exists (set_of F vals). split; auto. split; [now apply (set_of_wf F NI NF Hdom)|]. split.
  - intros v Hv. apply S2 in Hv. apply in_map_iff in Hv as (p & <- & _). eauto.
  - assert (M : forall p, Forall wf p -> (mem F (VArray p) (set_of F vals) <-> maximal_path F es start p)).
    { intros p Wp. rewrite (mem_key F NI NF Hdom); auto; [|now constructor]. rewrite S1.
      rewrite <- (maximal_key gr (index_nodes F [] start) I0 HU HV HE p Wp). rewrite <- HR. unfold vals. rewrite map_map. split.
      - intro H. apply in_map_iff in H as (q & Ek & Hq). apply (array_keys F NI NF Hdom) in Ek; auto; [|now apply index_values_wf].
        rewrite KR in Ek by auto. now rewrite <- Ek.
      - intro H. apply in_map_iff. exists (map key p). split; auto.
        apply (veq_key F NI NF); auto; [constructor; now apply index_values_wf|now constructor|]. constructor.
        apply (map_key_forall2 F NI NF Hdom); auto; now apply index_values_wf. }
    assert (Vs : forall p, maximal_path F es start p -> forall v, In v p -> vertex F es v).
    { intros p (v0 & vs & -> & _ & A & _). auto. }
    intro p. split.
    + intros (y & Hy & V'). pose proof (S2 _ Hy) as Hv. apply in_map_iff in Hv as (q & <- & Hq).
      assert (Wq : Forall wf (index_values ix q)) by now apply index_values_wf.
      assert (Mq : maximal_path F es start (index_values ix q)).
      { apply M; auto. eexists. split; [exact Hy|]. apply (key_veq F NI NF); auto; now constructor. }
      replace p with (index_values ix q); auto. inversion V' as [| | |? ? ? T| |? ? V2| |]; subst; [discriminate|].
      specialize (Vs _ Mq). clear - V2 Vs Wes Shape Wstart. induction V2 as [|a b la lb Hab V2 IH]; auto. f_equal.
      * symmetry. apply (proj2 (vertex_wf b (Vs b (or_introl eq_refl)))). auto.
      * apply IH. intros v Hv. apply Vs. right. auto.
    + intro Hp. apply M; auto. rewrite Forall_forall. intros v Hv. apply (vertex_wf v (Vs _ Hp v Hv)).
Qed.
End Values.
