(** Properties C06-C11: value identity, order, sets, membership, sorting.
    Each holds for every behaviour [F] of C++ doubles and every domain of numbers on which that behaviour is exact
    ([num_domain]; all integers of any size form one, [int_domain]). *)
From Coq Require Import String ZArith List Bool Lia Permutation Sorted.
From Verif Require Import Base BigIntSpec SMap SMapFacts ValueModel ValueSpec KeyProofs ResolverModel ResolverProofs OrderProofs.
Import ListNotations.
Local Open Scope Z_scope.

Notation int_val := (fun F v => wfv F any_int no_float v).

(** A well-formed value with everything in it: {"a": [1, -20], "b": {{1, "x"}, null}} . *)
Definition sample : value :=
  VObject [(VString $"a", VArray [VInt $"1"; VInt $"-20"]); (VString $"b", VSet [VSet [VInt $"1"; VString $"x"]; VNull])].
Example sample_wf F : wfv F any_int no_float sample.
Proof.
  apply (wf_object F any_int no_float [($"a", VArray [VInt $"1"; VInt $"-20"]); ($"b", VSet [VSet [VInt $"1"; VString $"x"]; VNull])]).
  - repeat constructor.
  - assert (H1 : any_int ($"1")) by (exists 1; reflexivity). assert (H2 : any_int ($"-20")) by (exists (-20); reflexivity).
    assert (Hs : wfv F any_int no_float (VSet [VInt $"1"; VString $"x"])).
    { apply nodup_wf_set; [apply int_domain|repeat constructor; auto|].
      simpl. repeat constructor; simpl; intuition discriminate. }
    assert (Hn : wfv F any_int no_float VNull) by constructor.
    constructor; [|constructor; [|constructor]]; cbn [snd].
    + apply wf_array. repeat constructor; auto.
    + apply (nodup_wf_set F any_int no_float (int_domain F)); [auto|].
      simpl. repeat constructor; simpl; intuition discriminate.
  - repeat constructor; simpl; intuition discriminate.
Qed.

(** C06: equal keys exactly for equal values (objects with string keys, as in JSON).  Missing: objects whose keys are not
    strings, for which the property is false (below). *)
Theorem C06_key_identity_partial : forall F NI NF, num_domain F NI NF -> forall a b,
  wfv F NI NF a -> wfv F NI NF b -> (to_key F a = to_key F b <-> veq F a b).
Proof. exact key_iff. Qed.
Theorem C06_key_identity_integers : forall F a b,
  wfv F any_int no_float a -> wfv F any_int no_float b -> (to_key F a = to_key F b <-> veq F a b).
Proof. intros F. exact (key_iff F any_int no_float (int_domain F)). Qed.
Example C06_example : to_key fops0 sample = $"{""a"":[1,-20], ""b"":<null,<1,""x"">>}".
Proof. vm_compute. reflexivity. Qed.
(** The objects {1: null} and {"1": null} are different values with the same key. *)
Theorem C06_refuted : let a := VObject [(VInt $"1", VNull)] in let b := VObject [(VString $"1", VNull)] in
  to_key fops0 a = to_key fops0 b /\ ~ veq fops0 a b /\ bi_compare fops0 OpEq a b = Ok (RVal VTrue).
Proof.
  intros a b. split; [reflexivity|]. split; [|reflexivity].
  intro H. inversion H as [| | |x y t E1 E2| | | |l l' H1 H2]; subst; [discriminate|].
  destruct (H1 (VInt $"1") VNull) as (k' & v' & [E|[]] & K & V); [left; reflexivity|].
  injection E as <- <-. inversion K; discriminate.
Qed.
Print Assumptions C06_key_identity_partial. Print Assumptions C06_refuted.

(** C07: <, <=, ==, !=, >=, > are consistent: every comparison yields true or false, exactly one of <, ==, > holds,
    the others are derived from these, == is value identity, and < is transitive.
    [holds F op a b]: evaluating [a op b] yields true; [fails]: false.
    Hypothesis on doubles: numbers that are compared as doubles are in [stod]'s range. *)
Theorem C07_total_preorder : forall F NI NF, num_domain F NI NF ->
  (forall t u, NI t \/ NF t -> NF t \/ NF u -> NI u \/ NF u -> f_ok F t = true /\ f_ok F u = true) ->
  (forall op a b, wfv F NI NF a -> wfv F NI NF b ->
     (holds F op a b /\ ~ fails F op a b) \/ (fails F op a b /\ ~ holds F op a b)) /\
  (forall a b, wfv F NI NF a -> wfv F NI NF b ->
     (holds F OpLt a b /\ ~ holds F OpEq a b /\ ~ holds F OpGt a b) \/
     (~ holds F OpLt a b /\ holds F OpEq a b /\ ~ holds F OpGt a b) \/
     (~ holds F OpLt a b /\ ~ holds F OpEq a b /\ holds F OpGt a b)) /\
  (forall a b, wfv F NI NF a -> wfv F NI NF b ->
     (holds F OpLe a b <-> holds F OpLt a b \/ holds F OpEq a b) /\
     (holds F OpGe a b <-> holds F OpGt a b \/ holds F OpEq a b) /\
     (holds F OpNe a b <-> ~ holds F OpEq a b) /\
     (holds F OpGt a b <-> holds F OpLt b a) /\
     (holds F OpEq a b <-> veq F a b)) /\
  (forall a b c, wfv F NI NF a -> wfv F NI NF b -> wfv F NI NF c ->
     holds F OpLt a b -> holds F OpLt b c -> holds F OpLt a c).
Proof. exact order_facts. Qed.
(** For values whose numbers are integers nothing is asked of doubles. *)
Theorem C07_transitive_integers : forall F a b c, wfv F any_int no_float a -> wfv F any_int no_float b -> wfv F any_int no_float c ->
  holds F OpLt a b -> holds F OpLt b c -> holds F OpLt a c.
Proof.
  intros F. pose proof (C07_total_preorder F any_int no_float (int_domain F)) as H.
  apply H. intros t u _ [[]|[]] _.
Qed.
Example C07_example : holds fops0 OpLt (VInt $"9") (VInt $"10") /\ holds fops0 OpLt (VInt $"10") sample /\ holds fops0 OpLt (VString $"z") (VInt $"-7").
Proof. vm_compute. auto. Qed.
Print Assumptions C07_total_preorder. Print Assumptions C07_transitive_integers.

(** C08: the set built from a list has the members of the list, none twice, and depends only on which values occur. *)
Theorem C08_set_members : forall F NI NF, num_domain F NI NF -> forall l, Forall (wfv F NI NF) l ->
  wfv F NI NF (VSet (set_of F l)) /\
  (forall x, In x (set_of F l) -> In x l) /\
  (forall x, wfv F NI NF x -> (mem F x (set_of F l) <-> mem F x l)).
Proof.
  intros F NI NF H l Hl. pose proof (set_of_wf F NI NF H l Hl) as W. destruct (set_of_facts F l) as (A & B & C).
  split; auto. split; auto. intros x Hx. apply wf_set_inv in W; auto. destruct W as [W _].
  rewrite !(mem_key F NI NF) by auto. apply B.
Qed.
Theorem C08_no_duplicates : forall F NI NF, num_domain F NI NF -> forall l, Forall (wfv F NI NF) l ->
  forall l1 x l2 y l3, set_of F l = (l1 ++ x :: l2 ++ y :: l3)%list -> ~ veq F x y.
Proof.
  intros F NI NF H l Hl. pose proof (set_of_wf F NI NF H l Hl) as W. inversion W; subst. auto.
Qed.
Theorem C08_order_and_repetition_irrelevant : forall F NI NF, num_domain F NI NF -> forall l l',
  Forall (wfv F NI NF) l -> Forall (wfv F NI NF) l' ->
  (forall x, wfv F NI NF x -> (mem F x l <-> mem F x l')) ->
  veq F (VSet (set_of F l)) (VSet (set_of F l')) /\ Forall2 (veq F) (set_of F l) (set_of F l').
Proof.
  intros F NI NF H l l' Hl Hl' E.
  assert (K : map (to_key F) (set_of F l) = map (to_key F) (set_of F l')).
  { destruct (set_of_facts F l) as (A & B & C). destruct (set_of_facts F l') as (A' & B' & C').
    apply ssorted_ext; auto. intro k. rewrite B, B'. rewrite Forall_forall in Hl, Hl'.
    split; intro I; apply in_map_iff in I as (x & <- & I); apply (mem_key F NI NF); auto;
      try (apply Forall_forall; auto); apply E; auto; exists x; split; auto; apply (key_veq F NI NF); auto. }
  pose proof (set_of_wf F NI NF H l Hl) as W. pose proof (set_of_wf F NI NF H l' Hl') as W'.
  split; [apply (set_ext F NI NF); auto; rewrite K; tauto|].
  apply wf_set_inv in W as [W _]; auto. apply wf_set_inv in W' as [W' _]; auto.
  revert W W' K. generalize (set_of F l) (set_of F l'). clear -H. induction l as [|x l IH]; intros [|y l'] W W' K; try discriminate; constructor.
  - simpl in K. injection K as K _. inversion W; inversion W'; subst. apply (key_veq F NI NF); auto.
  - simpl in K. injection K as _ K. inversion W; inversion W'; subst. auto.
Qed.
Example C08_example : set_of fops0 [VInt $"3"; VInt $"1"; VInt $"3"; VString $"a"] = [VString $"a"; VInt $"1"; VInt $"3"].
Proof. vm_compute. reflexivity. Qed.
Print Assumptions C08_set_members. Print Assumptions C08_no_duplicates. Print Assumptions C08_order_and_repetition_irrelevant.

(** C09: members of union, intersection and difference. *)
Theorem C09_members : forall F NI NF, num_domain F NI NF -> forall a b,
  wfv F NI NF (VSet a) -> wfv F NI NF (VSet b) ->
  (exists u, bi_or F (VSet a) (VSet b) = RVal (VSet u) /\ wfv F NI NF (VSet u) /\
     forall x, wfv F NI NF x -> (mem F x u <-> mem F x a \/ mem F x b)) /\
  (exists i, bi_and F (VSet a) (VSet b) = RVal (VSet i) /\ wfv F NI NF (VSet i) /\
     forall x, wfv F NI NF x -> (mem F x i <-> mem F x a /\ mem F x b)) /\
  (exists d, bi_minus F (VSet a) (VSet b) = Ok (RVal (VSet d)) /\ wfv F NI NF (VSet d) /\
     forall x, wfv F NI NF x -> (mem F x d <-> mem F x a /\ ~ mem F x b)).
Proof.
  intros F NI NF H a b Ha Hb. pose proof (wf_set_inv F NI NF H a Ha) as [Wa _]. pose proof (wf_set_inv F NI NF H b Hb) as [Wb _].
  split; [|split].
  - exists (set_union F a b). split; auto. pose proof (union_wf F NI NF H a b Wa Wb) as W. split; auto.
    apply wf_set_inv in W as [W _]; auto. intros x Hx. rewrite !(mem_key F NI NF) by auto. apply set_union_facts.
  - exists (set_inter F a b). split; auto. pose proof (inter_wf F NI NF H a b Hb) as W. split; auto.
    apply wf_set_inv in W as [W _]; auto. intros x Hx. rewrite !(mem_key F NI NF) by auto. apply inter_keys.
  - exists (set_diff F a b). split; [reflexivity|]. pose proof (diff_wf F NI NF H a b Ha) as W. split; auto.
    apply wf_set_inv in W as [W _]; auto. intros x Hx. rewrite !(mem_key F NI NF) by auto. apply diff_keys.
Qed.
(** The laws of set algebra, up to value identity. *)
Theorem C09_laws : forall F NI NF, num_domain F NI NF -> forall a b c,
  wfv F NI NF (VSet a) -> wfv F NI NF (VSet b) -> wfv F NI NF (VSet c) ->
  let u := set_union F in let i := set_inter F in let d := set_diff F in
  let eqs x y := veq F (VSet x) (VSet y) in
  eqs (u a b) (u b a) /\ eqs (i a b) (i b a) /\
  eqs (u a (u b c)) (u (u a b) c) /\ eqs (i a (i b c)) (i (i a b) c) /\
  eqs (u a a) a /\ eqs (i a a) a /\
  eqs (i a (u b c)) (u (i a b) (i a c)) /\ eqs (u a (i b c)) (i (u a b) (u a c)) /\
  eqs (d a (u b c)) (i (d a b) (d a c)) /\ eqs (d a (i b c)) (u (d a b) (d a c)).
Proof.
  intros F NI NF H a b c Ha Hb Hc u i d eqs.
  assert (Wu : forall x y, wfv F NI NF (VSet x) -> wfv F NI NF (VSet y) -> wfv F NI NF (VSet (u x y))).
  { intros x y Hx Hy. apply wf_set_inv in Hx as [Hx _]; auto. apply wf_set_inv in Hy as [Hy _]; auto. now apply union_wf. }
  assert (Wi : forall x y, wfv F NI NF (VSet x) -> wfv F NI NF (VSet y) -> wfv F NI NF (VSet (i x y))).
  { intros x y _ Hy. now apply inter_wf. }
  assert (Wd : forall x y, wfv F NI NF (VSet x) -> wfv F NI NF (VSet y) -> wfv F NI NF (VSet (d x y))).
  { intros x y Hx _. now apply diff_wf. }
  assert (U : forall x y k, In k (map (to_key F) (u x y)) <-> In k (map (to_key F) x) \/ In k (map (to_key F) y)) by (intros; apply set_union_facts).
  assert (I : forall x y k, In k (map (to_key F) (i x y)) <-> In k (map (to_key F) x) /\ In k (map (to_key F) y)) by (intros; apply inter_keys).
  assert (D : forall x y k, In k (map (to_key F) (d x y)) <-> In k (map (to_key F) x) /\ ~ In k (map (to_key F) y)) by (intros; apply diff_keys).
  assert (Dec : forall k l, In k (map (to_key F) l) \/ ~ In k (map (to_key F) l)).
  { intros k l. destruct (in_dec str_eq_dec k (map (to_key F) l)); auto. }
  split; [|split; [|split; [|split; [|split; [|split; [|split; [|split; [|split]]]]]]]];
    apply (set_ext F NI NF); auto; intro k; rewrite ?U, ?I, ?D, ?U, ?I, ?D;
    destruct (Dec k a), (Dec k b), (Dec k c); tauto.
Qed.
(** The builtins union and intersection of a (possibly empty) set of sets. *)
Theorem C09_union_all : forall F NI NF, num_domain F NI NF -> forall ss,
  Forall (fun s => wfv F NI NF (VSet s)) ss ->
  exists r, bi_union F (VSet (map VSet ss)) = RVal (VSet r) /\
    forall x, wfv F NI NF x -> (mem F x r <-> exists s, In s ss /\ mem F x s).
Proof.
  intros F NI NF H ss Hss. unfold bi_union.
  assert (G : forall ss, Forall (fun s => wfv F NI NF (VSet s)) ss -> forall y, Forall (wfv F NI NF) y ->
    exists r, union_loop F y (map VSet ss) = RVal (VSet r) /\
      forall x, wfv F NI NF x -> (mem F x r <-> mem F x y \/ exists s, In s ss /\ mem F x s)).
  { clear ss Hss. intros ss. induction ss as [|s ss IH]; intros Hs y Hy.
    - exists y. split; auto. intros x _. split; auto. intros [A|(s & [] & _)]. auto.
    - inversion Hs as [|? ? Hs1 Hs2]; subst. simpl.
      pose proof (wf_set_inv F NI NF H s Hs1) as [Ws _]. pose proof (union_wf F NI NF H y s Hy Ws) as Wu.
      apply wf_set_inv in Wu as [Wu _]; auto.
      destruct (IH Hs2 (set_union F y s) Wu) as (r & E & R). exists r. split; auto.
      intros x Hx. rewrite R by auto.
      assert (M : mem F x (set_union F y s) <-> mem F x y \/ mem F x s).
      { rewrite !(mem_key F NI NF) by auto. apply set_union_facts. }
      rewrite M. split.
      + intros [[A|A]|(t & A & B)]; auto; right; [exists s|exists t]; auto.
      + intros [A|(t & [A|A] & B)]; subst; auto. right. exists t. auto. }
  destruct (G ss Hss [] (Forall_nil _)) as (r & E & R). exists r. split; auto. intros x Hx. rewrite R by auto.
  split; auto. intros [(y & [] & _)|A]; auto.
Qed.
Theorem C09_intersection_all : forall F NI NF, num_domain F NI NF -> forall s0 ss,
  Forall (fun s => wfv F NI NF (VSet s)) (s0 :: ss) ->
  exists r, bi_intersection F (VSet (map VSet (s0 :: ss))) = RVal (VSet r) /\
    forall x, wfv F NI NF x -> (mem F x r <-> forall s, In s (s0 :: ss) -> mem F x s).
Proof.
  intros F NI NF H s0 ss Hss. simpl.
  assert (G : forall ss, Forall (fun s => wfv F NI NF (VSet s)) ss -> forall y, Forall (wfv F NI NF) y ->
    exists r, inter_loop F y (map VSet ss) = RVal (VSet r) /\
      forall x, wfv F NI NF x -> (mem F x r <-> mem F x y /\ forall s, In s ss -> mem F x s)).
  { clear s0 ss Hss. intros ss. induction ss as [|s ss IH]; intros Hs y Hy.
    - exists y. split; auto. intros x _. split; [split; auto; intros s []|tauto].
    - inversion Hs as [|? ? Hs1 Hs2]; subst. simpl.
      pose proof (wf_set_inv F NI NF H s Hs1) as [Ws _]. pose proof (inter_wf F NI NF H y s Hs1) as Wu.
      apply wf_set_inv in Wu as [Wu _]; auto.
      destruct (IH Hs2 (set_inter F y s) Wu) as (r & E & R). exists r. split; auto.
      intros x Hx. rewrite R by auto.
      assert (M : mem F x (set_inter F y s) <-> mem F x y /\ mem F x s).
      { rewrite !(mem_key F NI NF) by auto. apply inter_keys. }
      rewrite M. split.
      + intros [[A B] C]. split; auto. intros t [<-|T]; auto.
      + intros [A B]. split; [split; auto|]. intros t T; auto. }
  inversion Hss as [|? ? A B]; subst. apply wf_set_inv in A as [A _]; auto.
  destruct (G ss B s0 A) as (r & E & R). exists r. split; auto. intros x Hx. rewrite R by auto.
  split; [intros [C D] s [<-|S]; auto|intro C; split; auto].
Qed.
Example C09_example :
  bi_or fops0 (VSet [VInt $"1"; VInt $"2"]) (VSet [VInt $"2"; VInt $"3"]) = RVal (VSet [VInt $"1"; VInt $"2"; VInt $"3"]) /\
  bi_and fops0 (VSet [VInt $"1"; VInt $"2"]) (VSet [VInt $"2"; VInt $"3"]) = RVal (VSet [VInt $"2"]) /\
  bi_minus fops0 (VSet [VInt $"1"; VInt $"2"]) (VSet [VInt $"2"; VInt $"3"]) = Ok (RVal (VSet [VInt $"1"])) /\
  bi_intersection fops0 (VSet [VSet [VInt $"1"; VInt $"2"]; VSet [VInt $"2"]]) = RVal (VSet [VInt $"2"]).
Proof. vm_compute. auto. Qed.
Print Assumptions C09_members. Print Assumptions C09_laws. Print Assumptions C09_union_all. Print Assumptions C09_intersection_all.

(** C10: membership. *)
Theorem C10_in_array_or_set : forall F NI NF, num_domain F NI NF -> forall x l,
  wfv F NI NF x -> Forall (wfv F NI NF) l ->
  (member_2 F x (VArray l) = true <-> mem F x l) /\ (member_2 F x (VSet l) = true <-> mem F x l).
Proof. exact member2_seq. Qed.
Theorem C10_in_object : forall F NI NF, num_domain F NI NF -> forall x l,
  wfv F NI NF x -> Forall (fun kv => wfv F NI NF (snd kv)) l ->
  (member_2 F x (VObject l) = true <-> exists k v, In (k, v) l /\ veq F x v).
Proof. exact member2_object. Qed.
Theorem C10_index_in_array : forall F NI NF, num_domain F NI NF -> (forall n, NI (dec (Z.of_nat n))) ->
  forall i x l, wfv F NI NF i -> wfv F NI NF x -> Forall (wfv F NI NF) l ->
  (member_3 F i x (VArray l) = true <->
   exists n y, veq F i (VInt (dec (Z.of_nat n))) /\ nth_error l n = Some y /\ veq F x y).
Proof. intros F NI NF H HN i x l Hi Hx Hl. apply (member3_array F NI NF H 0); auto. Qed.
Theorem C10_key_in_object : forall F NI NF, num_domain F NI NF -> forall i x l,
  wfv F NI NF i -> wfv F NI NF x -> Forall (fun kv => wfv F NI NF (fst kv) /\ wfv F NI NF (snd kv)) l ->
  (member_3 F i x (VObject l) = true <-> exists k v, In (k, v) l /\ veq F i k /\ veq F x v).
Proof. exact member3_object. Qed.
Example C10_example :
  member_2 fops0 (VSet [VInt $"2"; VInt $"1"]) (VArray [VNull; VSet [VInt $"1"; VInt $"2"]]) = true /\
  member_3 fops0 (VInt $"1") (VSet [VInt $"2"; VInt $"1"]) (VArray [VNull; VSet [VInt $"1"; VInt $"2"]]) = true /\
  member_3 fops0 (VString $"a") VNull (VObject [(VString $"a", VNull)]) = true /\ member_2 fops0 VTrue (VArray [VNull]) = false.
Proof. vm_compute. auto. Qed.
(** In a set, "k, v in s" should hold when k and v are the same member; the code compares k with a position instead. *)
Theorem C10_index_in_set_refuted :
  member_3 fops0 (VString $"a") (VString $"a") (VSet [VString $"a"]) = false /\
  member_3 fops0 (VInt $"0") (VString $"a") (VSet [VString $"a"]) = true.
Proof. vm_compute. auto. Qed.
Print Assumptions C10_in_array_or_set. Print Assumptions C10_in_object. Print Assumptions C10_index_in_array. Print Assumptions C10_key_in_object.

(** C11: sort is a permutation in ascending order, min and max are bounding elements.
    Missing, because false: pairs of numbers of different length or sign (below). *)
Definition comparable (a b : value) : Prop :=
  is_num a && is_num b = false \/
  (exists x y, a = VInt (dec x) /\ b = VInt (dec y) /\ 0 <= x /\ 0 <= y /\ length (dec x) = length (dec y)).
Theorem C11_sort_partial : forall F l,
  (exists s, bi_sort F (VArray l) = RVal (VArray s) /\ Permutation s l /\
     StronglySorted (fun a b => comparable a b -> holds F OpLe a b) s) /\
  (exists s, bi_sort F (VSet l) = RVal (VSet s) /\ Permutation s l /\
     StronglySorted (fun a b => comparable a b -> holds F OpLe a b) s).
Proof.
  intros F l.
  assert (G : Permutation (sort_vals F l) l /\ StronglySorted (fun a b => comparable a b -> holds F OpLe a b) (sort_vals F l)).
  { split; [apply sort_by_perm|]. pose proof (sort_vals_sorted F l) as S. induction S as [|x m S IH Hf]; constructor; auto.
    rewrite Forall_forall in *. intros y Hy C. specialize (Hf y Hy).
    destruct C as [C|(p & q & -> & -> & P & Q & L)]; [now apply key_le_holds|now apply key_le_int]. }
  destruct G. split; exists (sort_vals F l); auto.
Qed.
Theorem C11_min_max_partial : forall F x l,
  (exists m, bi_max F (VArray (x :: l)) = RVal m /\ In m (x :: l) /\
     forall y, In y (x :: l) -> comparable y m -> holds F OpLe y m) /\
  (exists m, bi_min F (VArray (x :: l)) = RVal m /\ In m (x :: l) /\
     forall y, In y (x :: l) -> comparable m y -> holds F OpLe m y).
Proof.
  intros F x l. split.
  - exists (max_elem F x l). destruct (max_elem_spec F l x) as [A B]. split; auto. split; [simpl; intuition|].
    intros y Hy C. assert (K : str_ltb (to_key F (max_elem F x l)) (to_key F y) = false) by (apply B; simpl in Hy; intuition).
    destruct C as [C|(p & q & -> & Eq & P & Q & L)]; [now apply key_le_holds|]. rewrite Eq in *. now apply key_le_int.
  - exists (min_elem F x l). destruct (min_elem_spec F l x) as [A B]. split; auto. split; [simpl; intuition|].
    intros y Hy C. assert (K : str_ltb (to_key F y) (to_key F (min_elem F x l)) = false) by (apply B; simpl in Hy; intuition).
    destruct C as [C|(p & q & Eq & -> & P & Q & L)]; [now apply key_le_holds|]. rewrite Eq in *. now apply key_le_int.
Qed.
Example C11_example :
  bi_sort fops0 (VArray [VString $"b"; VInt $"20"; VString $"a"; VInt $"10"]) = RVal (VArray [VString $"a"; VString $"b"; VInt $"10"; VInt $"20"]) /\
  bi_max fops0 (VSet [VString $"b"; VString $"c"; VString $"a"]) = RVal (VString $"c") /\
  comparable (VString $"b") (VInt $"20") /\ comparable (VInt $"10") (VInt $"20").
Proof. split; [reflexivity|]. split; [reflexivity|]. split; [left; reflexivity|]. right. exists 10, 20. repeat split; lia. Qed.
Theorem C11_refuted :
  bi_sort fops0 (VArray [VInt $"9"; VInt $"10"]) = RVal (VArray [VInt $"10"; VInt $"9"]) /\
  bi_max fops0 (VArray [VInt $"2"; VInt $"10"]) = RVal (VInt $"2") /\
  holds fops0 OpLt (VInt $"9") (VInt $"10").
Proof. vm_compute. auto. Qed.
Print Assumptions C11_sort_partial. Print Assumptions C11_min_max_partial. Print Assumptions C11_refuted.
