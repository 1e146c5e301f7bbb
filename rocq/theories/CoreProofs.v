(** Lemmas for [walk] and [sprintf]. *)
From Coq Require Import String ZArith List Bool Lia Arith Permutation.
From Verif Require Import Base BigIntSpec BigIntModel DecFacts BigIntProofs SMap SMapFacts ValueModel ValueSpec KeyProofs ResolverModel VmModel
  StrModel StrSpec StrProofs CoreModel CoreSpec.
Import ListNotations.
Local Open Scope Z_scope.
Local Open Scope list_scope.

(** ** walk *)
Definition prefixed (k : value) (L : list (list value * value)) := map (fun pv => (k :: fst pv, snd pv)) L.
Fixpoint subs (x : value) : list (list value * value) :=
  ([], x) ::
  match x with
  | VArray l => concat (map (fun kl => prefixed (fst kl) (snd kl))
                  (combine (map (fun i => vint (Z.of_nat i)) (seq 0 (length l))) (map subs l)))
  | VSet l => concat (map (fun y => prefixed y (subs y)) l)
  | VObject l => concat (map (fun kv : value * value => let '(k, y) := kv in prefixed k (subs y)) l)
  | _ => []
  end.
Lemma combine_map_r {A B C} (f : B -> C) (a : list A) (b : list B) :
  combine a (map f b) = map (fun p => (fst p, f (snd p))) (combine a b).
Proof. revert b. induction a as [|x a IH]; intros [|y b]; cbn; auto. now rewrite IH. Qed.
Lemma subs_eq x : subs x = ([], x) :: concat (map (fun c => prefixed (fst c) (subs (snd c))) (children x)).
Proof.
  destruct x; try reflexivity; cbn [subs children]; f_equal; f_equal.
  - rewrite combine_map_r, map_map. reflexivity.
  - apply map_ext. now intros [k y].
  - rewrite map_map. reflexivity.
Qed.
Definition all (c : list value * value) : list (list value * value) := map (fun pv => (fst c ++ fst pv, snd pv)) (subs (snd c)).
Lemma concat_map_map {A B C} (f : B -> C) (g : A -> list B) l : map f (concat (map g l)) = concat (map (fun a => map f (g a)) l).
Proof. rewrite concat_map, map_map. reflexivity. Qed.
Lemma all_eq p x : all (p, x) = (p, x) :: concat (map all (map (fun c => (p ++ [fst c], snd c)) (children x))).
Proof.
  unfold all at 1. cbn [fst snd]. rewrite subs_eq. cbn [map fst snd]. rewrite app_nil_r. f_equal.
  rewrite concat_map_map, map_map. f_equal. apply map_ext. intros [k y]. unfold prefixed, all. cbn [fst snd]. rewrite map_map.
  apply map_ext. intros [p' v]. cbn [fst snd]. now rewrite <- app_assoc.
Qed.
Definition pair_of (pv : list value * value) : value := VArray [VArray (fst pv); snd pv].
Lemma walk_loop_spec : forall fuel queue, (length (concat (map all queue)) <= fuel)%nat ->
  exists L, walk_loop fuel queue = Ok (map pair_of L) /\ Permutation L (concat (map all queue)).
Proof.
  induction fuel as [|k IH]; intros queue B.
  - destruct queue as [|[p x] q]; [now exists []|]. cbn [map concat] in B. rewrite all_eq in B. cbn in B. lia.
  - destruct queue as [|[p x] q]; [now exists []|]. cbn [walk_loop].
    set (ch := map (fun c => (p ++ [fst c], snd c)) (children x)).
    assert (Q : Permutation (concat (map all ((p, x) :: q))) ((p, x) :: concat (map all (q ++ ch)))).
    { cbn [map concat]. rewrite all_eq. fold ch. cbn [app]. apply perm_skip. rewrite map_app, concat_app. apply Permutation_app_comm. }
    destruct (IH (q ++ ch)) as (L & E & PL).
    + apply Permutation_length in Q. cbn [length] in Q. lia.
    + rewrite E. cbn [obind]. exists ((p, x) :: L). split; auto. rewrite Q. now apply perm_skip.
Qed.
Lemma children_in_array l k y : In (k, y) (children (VArray l)) <-> exists i, k = vint (Z.of_nat i) /\ nth_error l i = Some y.
Proof.
  cbn [children]. assert (G : forall s, In (k, y) (combine (map (fun i => vint (Z.of_nat i)) (seq s (length l))) l) <->
    exists i, k = vint (Z.of_nat (s + i)) /\ nth_error l i = Some y).
  { induction l as [|x l IH]; intro s; cbn [length seq map combine In].
    - split; [intros []|]. intros (i & _ & E). destruct i; discriminate.
    - rewrite IH. split.
      + intros [E|(i & E & N)].
        * injection E as <- <-. exists O. now rewrite Nat.add_0_r.
        * exists (S i). rewrite Nat.add_succ_r. auto.
      + intros ([|i] & E & N).
        * left. rewrite Nat.add_0_r in E. cbn in N. congruence.
        * right. exists i. rewrite Nat.add_succ_r in E. auto. }
  exact (G O).
Qed.
Lemma at_path_children x k p v : at_path x (k :: p) v <-> exists y, In (k, y) (children x) /\ at_path y p v.
Proof.
  split.
  - intro H. inversion H; subst.
    + exists y. split; auto. apply children_in_array. eexists; split; [reflexivity|eassumption].
    + exists k. split; auto. cbn [children]. apply in_map_iff. eauto.
    + exists y. auto.
  - intros (y & I & H). destruct x; try contradiction.
    + apply children_in_array in I as (i & -> & N). econstructor; eauto.
    + eapply at_key; eauto.
    + cbn [children] in I. apply in_map_iff in I as (z & E & I). injection E as <- <-. now apply at_member.
Qed.
Lemma at_path_nil x v : at_path x [] v <-> v = x.
Proof. split; [intro H; now inversion H|intros ->; constructor]. Qed.
Lemma in_subs p : forall x v, In (p, v) (subs x) <-> at_path x p v.
Proof.
  induction p as [|k p IH]; intros x v; rewrite subs_eq; cbn [In].
  - rewrite at_path_nil. split.
    + intros [E|I]; [congruence|]. apply in_concat in I as (L & IL & I). apply in_map_iff in IL as (c & <- & _).
      unfold prefixed in I. apply in_map_iff in I as (pv & E & _). discriminate.
    + intros ->. now left.
  - rewrite at_path_children. split.
    + intros [E|I]; [discriminate|]. apply in_concat in I as (L & IL & I). apply in_map_iff in IL as ([k' y] & <- & C).
      unfold prefixed in I. apply in_map_iff in I as ([p' v'] & E & I). cbn [fst snd] in *. injection E as -> -> ->.
      exists y. split; auto. now apply IH.
    + intros (y & C & H). right. apply in_concat. exists (prefixed k (subs y)). split.
      * apply in_map_iff. exists (k, y). auto.
      * unfold prefixed. apply in_map_iff. exists (p, v). split; auto. now apply IH.
Qed.

(** No step occurs twice in a collection. *)
Inductive simple : value -> Prop :=
| simple_v x : NoDup (map fst (children x)) -> (forall k y, In (k, y) (children x) -> simple y) -> simple x.
Lemma nodup_concat {A B} (f : A -> list B) (key : B -> A -> Prop) l :
  NoDup l -> (forall a, In a l -> NoDup (f a)) -> (forall a b, In a l -> In b (f a) -> key b a) ->
  (forall b a a', In a l -> In a' l -> key b a -> key b a' -> a = a') -> NoDup (concat (map f l)).
Proof.
  induction 1 as [|a l N _ IH]; intros Hf Hk Hu; cbn [map concat]; [constructor|].
  assert (IHl : NoDup (concat (map f l))).
  { apply IH; intros; [apply Hf|apply Hk|eapply Hu]; try (right; eassumption); eauto. }
  assert (Ha : NoDup (f a)) by (apply Hf; now left).
  assert (Dis : forall b, In b (f a) -> ~ In b (concat (map f l))).
  { intros b I J. apply in_concat in J as (L & IL & J). apply in_map_iff in IL as (a' & <- & Ia').
    assert (a = a'). { apply (Hu b); [now left|now right|apply Hk; [now left|exact I]|apply Hk; [now right|exact J]]. }
    subst. contradiction. }
  clear - IHl Ha Dis. induction Ha as [|b m Nb Hm IHm]; auto. cbn [app]. constructor.
  - intro I. apply in_app_or in I as [I|I]; [contradiction|]. apply (Dis b); [now left|exact I].
  - apply IHm. intros c I. apply Dis. now right.
Qed.
Lemma nodup_map_fst {A B} (l : list (A * B)) : NoDup (map fst l) -> NoDup l.
Proof. apply NoDup_map_inv. Qed.
Lemma nodup_fst_inj {A B} (l : list (A * B)) k x y : NoDup (map fst l) -> In (k, x) l -> In (k, y) l -> x = y.
Proof.
  induction l as [|[k' z] l IH]; intros N I J; [destruct I|]. inversion N as [|? ? N1 N2]; subst. cbn in I, J.
  destruct I as [E1|I], J as [E2|J].
  - congruence.
  - injection E1 as -> ->. elim N1. now apply (in_map fst) in J.
  - injection E2 as -> ->. elim N1. now apply (in_map fst) in I.
  - eauto.
Qed.
Lemma nodup_subs x : simple x -> NoDup (map fst (subs x)).
Proof.
  induction 1 as [x N _ IH]. rewrite subs_eq. cbn [map fst]. constructor.
  - intro I. apply in_map_iff in I as ([p v] & E & I). cbn in E. subst p. apply in_concat in I as (L & IL & I).
    apply in_map_iff in IL as (c & <- & _). unfold prefixed in I. apply in_map_iff in I as (pv & E & _). discriminate.
  - rewrite concat_map_map.
    apply (nodup_concat _ (fun p c => exists q, p = fst c :: q)).
    + now apply nodup_map_fst.
    + intros [k y] I. unfold prefixed. rewrite map_map. cbn [fst snd]. rewrite <- (map_map fst (cons k)).
      apply FinFun.Injective_map_NoDup; [intros a b E; congruence|]. eapply IH; eauto.
    + intros [k y] p I J. apply in_map_iff in J as ([q v] & <- & J). unfold prefixed in J. apply in_map_iff in J as ([q' v'] & E & _).
      injection E as <- _. now exists q'.
    + intros p [k y] [k' y'] I J (q & E) (q' & E'). cbn in *. subst p. injection E' as -> _. f_equal. eapply nodup_fst_inj; eauto.
Qed.

(** ** sprintf *)
Lemma flag_iff c : flag_char c = true <-> is_flag c.
Proof.
  unfold flag_char, is_flag. rewrite existsb_exists. split.
  - intros (x & I & E). apply Z.eqb_eq in E as ->. exact I.
  - intro I. exists c. split; auto. apply Z.eqb_refl.
Qed.
Lemma flag_no c : ~ is_flag c -> flag_char c = false.
Proof. intro N. apply not_true_is_false. now rewrite flag_iff. Qed.
Lemma nth_error_app_here {A} (a : list A) x l : nth_error (a ++ x :: l) (length a) = Some x.
Proof. rewrite nth_error_app2, Nat.sub_diag by lia. reflexivity. Qed.
Lemma scan_spec fl : Forall is_flag fl -> forall tail, (tail = [] \/ exists c t, tail = c :: t /\ ~ is_flag c) ->
  forall a x fuel, (length fl < fuel)%nat -> scan fuel (a ++ [x] ++ fl ++ tail) (length a) = (length a + 1 + length fl)%nat.
Proof.
  intros F tail Ht. induction F as [|c fl Hc F IH]; intros a x [|k] L; cbn [length] in L; try lia; cbn [scan]; unfold str, byte in *.
  - replace (nth_error (a ++ [x] ++ [] ++ tail) (S (length a))) with (nth_error tail 0).
    2: { replace (a ++ [x] ++ [] ++ tail) with ((a ++ [x]) ++ tail) by now rewrite <- app_assoc.
         rewrite nth_error_app2 by (rewrite app_length; cbn; lia). f_equal. rewrite app_length. cbn [length]. lia. }
    destruct Ht as [->|(c & t & -> & Hc)]; cbn [nth_error length]; [lia|]. rewrite flag_no by exact Hc. lia.
  - replace (a ++ [x] ++ (c :: fl) ++ tail) with ((a ++ [x]) ++ [c] ++ fl ++ tail) by now rewrite <- app_assoc.
    replace (S (length a)) with (length (a ++ [x])) by (rewrite app_length; cbn; lia).
    cbn [app]. rewrite nth_error_app_here. rewrite (proj2 (flag_iff c) Hc).
    specialize (IH (a ++ [x]) c k ltac:(lia)). cbn [app] in IH. rewrite IH. rewrite app_length. cbn [length]. lia.
Qed.
Definition verb_item (i : item) : verb :=
  match i with
  | ILit t => PLiteral t
  | IDir fl c => verb_of c ([37] ++ fl ++ [c])
  | ICut fl => PLiteral ([37] ++ fl)
  end.
Lemma percent_min t x i : ~ In 37 t -> occurs_at [37] (t ++ [37] ++ x) i -> (length t <= i)%nat.
Proof.
  intros N (a & b & E & <-). destruct (Nat.le_gt_cases (length t) (length a)) as [|G]; auto. exfalso. apply N.
  apply (f_equal (fun l => nth (length a) l 0)) in E. rewrite app_nth1 in E by lia. cbn [app] in E. rewrite nth_middle in E.
  rewrite <- E. now apply nth_In.
Qed.
Lemma percent_none t : ~ In 37 t -> ~ occurs [37] t.
Proof. intros N (i & a & b & -> & _). apply N. apply in_or_app. right. now left. Qed.
Lemma find_from_past d x n : (length x < n)%nat -> find_from d x n = None.
Proof. intro L. unfold find_from. destruct (Nat.leb_spec n (length x)); auto. lia. Qed.
Lemma parse_none k f n : parse_loop k f n None = Ok (if (n <? length f)%nat then [PLiteral (skipn n f)] else []).
Proof. destruct k; reflexivity. Qed.
Lemma parse_loop_spec l f : spelled l f -> forall a fuel, (length f <= fuel)%nat ->
  parse_loop fuel (a ++ f) (length a) (find_from [37] (a ++ f) (length a)) = Ok (map verb_item l).
Proof.
  induction 1 as [|t Nt Np|t fl Np F|t fl c l f Np F Nc H IH]; intros a [|k] L;
    rewrite ?app_length in L; cbn [length app] in L; try lia; unfold str, byte in *.
  - rewrite find_from_none; [|intros (i & O); apply occurs_at_nil in O as [O _]; discriminate]. cbn [parse_loop]; unfold str, byte in *.
    rewrite app_nil_r, Nat.ltb_irrefl. reflexivity.
  - rewrite find_from_none; [|intros (i & O); apply occurs_at_nil in O as [O _]; discriminate]. cbn [parse_loop]; unfold str, byte in *.
    rewrite app_nil_r, Nat.ltb_irrefl. reflexivity.
  - destruct t; [congruence|cbn [length] in L; lia].
  - rewrite find_from_none by (now apply percent_none). cbn [parse_loop]; unfold str, byte in *.
    replace (length a <? length (a ++ t))%nat with true.
    + rewrite skipn_app_length. reflexivity.
    + symmetry. apply Nat.ltb_lt. rewrite app_length. destruct t; [congruence|cbn [length]; lia].
  - rewrite find_from_some by (intros i O; eapply percent_min; eauto). cbn [parse_loop]; unfold str, byte in *.
    assert (Sc : scan (length (a ++ t ++ [37] ++ fl)) (a ++ t ++ [37] ++ fl) (length a + length t) = length (a ++ t ++ [37] ++ fl)).
    { pose proof (scan_spec fl F [] (or_introl eq_refl) (a ++ t) 37 (length (a ++ t ++ [37] ++ fl))) as Sc.
      rewrite app_nil_r, <- !app_assoc, (app_length a t) in Sc. rewrite Sc; rewrite !app_length; cbn [length]; lia. }
    rewrite Sc. cbv zeta.
    replace (nth_error (a ++ t ++ [37] ++ fl) (length (a ++ t ++ [37] ++ fl))) with (@None Z)
      by (symmetry; apply nth_error_None; lia).
    rewrite find_from_past by lia.
    rewrite parse_none. cbn [obind map verb_item].
    unfold str, byte in *. rewrite (proj2 (Nat.ltb_ge _ _)) by lia.
    unfold substr. rewrite skipn_app_length. replace (length a + length t - length a)%nat with (length t) by lia. rewrite firstn_app_length.
    rewrite <- (app_length a t), (app_assoc a t), skipn_app_length, firstn_all2; [reflexivity|].
    rewrite !app_length. cbn [length]. lia.
  - rewrite find_from_some by (intros i O; eapply percent_min; eauto). cbn [parse_loop]; unfold str, byte in *.
    set (fmt := a ++ t ++ [37] ++ fl ++ [c] ++ f).
    assert (Sc : scan (length fmt) fmt (length a + length t) = (length a + length t + 1 + length fl)%nat).
    { pose proof (scan_spec fl F ([c] ++ f) (or_intror (ex_intro _ c (ex_intro _ f (conj eq_refl Nc)))) (a ++ t) 37 (length fmt)) as Sc.
      rewrite <- !app_assoc, (app_length a t) in Sc. fold fmt in Sc. rewrite Sc; auto. unfold fmt. rewrite !app_length. cbn [length]. lia. }
    rewrite Sc. cbv zeta.
    assert (Efmt : fmt = (a ++ t ++ [37] ++ fl) ++ c :: f) by (unfold fmt; rewrite <- !app_assoc; reflexivity).
    assert (Len : length (a ++ t ++ [37] ++ fl) = (length a + length t + 1 + length fl)%nat) by (rewrite !app_length; cbn [length]; lia).
    rewrite <- Len.
    assert (Nth : nth_error fmt (length (a ++ t ++ [37] ++ fl)) = Some c) by (rewrite Efmt; apply nth_error_app_here). rewrite Nth.
    specialize (IH (a ++ t ++ [37] ++ fl ++ [c]) k ltac:(lia)).
    assert (Len' : length (a ++ t ++ [37%Z] ++ fl ++ [c]) = (length (a ++ t ++ [37%Z] ++ fl) + 1)%nat) by (rewrite !app_length; cbn [length]; lia).
    rewrite Len' in IH. replace ((a ++ t ++ [37] ++ fl ++ [c]) ++ f) with fmt in IH by (unfold fmt; rewrite <- !app_assoc; reflexivity).
    rewrite IH. cbn [obind map verb_item]. do 3 f_equal.
    + unfold substr, fmt. rewrite skipn_app_length. replace (length a + length t - length a)%nat with (length t) by lia.
      rewrite firstn_app_length. reflexivity.
    + f_equal. unfold substr. replace fmt with ((a ++ t) ++ ([37] ++ fl ++ [c]) ++ f) by (unfold fmt; rewrite <- !app_assoc; reflexivity).
      rewrite <- (app_length a t). rewrite skipn_app_length.
      replace (length (a ++ t ++ [37%Z] ++ fl) - length (a ++ t) + 1)%nat with (length ([37] ++ fl ++ [c]))
        by (rewrite !app_length; cbn [length]; lia).
      apply firstn_app_length.
Qed.
Lemma split_first {A} (P : A -> Prop) (dec : forall x, {P x} + {~ P x}) l :
  exists a r, l = a ++ r /\ Forall P a /\ (r = [] \/ exists c t, r = c :: t /\ ~ P c).
Proof.
  induction l as [|x l (a & r & -> & Fa & H)]; [exists [], []; auto|]. destruct (dec x) as [p|n].
  - exists (x :: a), r. auto.
  - exists [], (x :: a ++ r). split; auto. split; auto. right. eauto.
Qed.
Lemma is_flag_dec c : {is_flag c} + {~ is_flag c}.
Proof. apply in_dec. apply Z.eq_dec. Qed.
Lemma spelled_exists f : exists l, spelled l f.
Proof.
  assert (G : forall n f, (length f <= n)%nat -> exists l, spelled l f); [|now apply (G (length f))].
  induction n as [|n IH]; intros g L; [destruct g; [exists []; constructor|cbn in L; lia]|].
  destruct (split_first (fun c => c <> 37) (fun c => match Z.eq_dec c 37 with left e => right (fun n => n e) | right n => left n end) g)
    as (t & r & -> & Ft & Hr).
  assert (Nt : ~ In 37 t) by (intro I; rewrite Forall_forall in Ft; now apply (Ft 37)).
  destruct Hr as [->|(c & r' & -> & Hc)].
  - rewrite app_nil_r. destruct t as [|x t]; [exists []; constructor|]. exists [ILit (x :: t)]. constructor; auto. discriminate.
  - assert (c = 37) by (destruct (Z.eq_dec c 37); auto; contradiction). subst c.
    destruct (split_first is_flag is_flag_dec r') as (fl & r & -> & Ffl & Hr).
    destruct Hr as [->|(c & f' & -> & Hc')].
    + exists [ILit t; ICut fl]. rewrite app_nil_r. now constructor.
    + rewrite !app_length in L. cbn [length] in L. rewrite app_length in L. cbn [length] in L.
      unfold str, byte in *. destruct (IH f') as (l & H); [lia|]. exists (ILit t :: IDir fl c :: l). now constructor.
Qed.
Lemma first_split {A} (P : A -> Prop) a c r : forall a' c' r', a ++ c :: r = a' ++ c' :: r' -> Forall P a -> ~ P c -> Forall P a' -> ~ P c' ->
  a = a' /\ c = c' /\ r = r'.
Proof.
  induction a as [|x a IH]; intros [|y a'] c' r' E Fa Nc Fa' Nc'; cbn [app] in E; inversion E; subst; auto.
  - inversion Fa'. contradiction.
  - inversion Fa. contradiction.
  - inversion Fa; subst. inversion Fa'; subst. destruct (IH a' c' r') as (-> & -> & ->); auto.
Qed.
Lemma spelled_unique l f : spelled l f -> forall l', spelled l' f -> l = l'.
Proof.
  assert (NP : forall t : str, ~ In 37 t -> Forall (fun c => c <> 37) t) by (intros t N; apply Forall_forall; intros c I ->; contradiction).
  assert (C : forall (t : str) r t' r', t ++ [37] ++ r = t' ++ [37] ++ r' -> ~ In 37 t -> ~ In 37 t' -> t = t' /\ r = r').
  { intros t r t' r' E N N'. destruct (first_split (fun c => c <> 37) t 37 r t' 37 r') as (? & _ & ?); auto. }
  assert (D : forall fl fl' c (f' : str), Forall is_flag fl -> Forall is_flag fl' -> ~ is_flag c -> fl = fl' ++ [c] ++ f' -> False).
  { intros fl fl' c f' F _ Nc ->. apply Forall_app in F as [_ F]. inversion F. contradiction. }
  induction 1 as [|t Nt Np|t fl Np F|t fl c l f Np F Nc H IH]; intros l' H'.
  - inversion H' as [E|t' Nt' Np' E1 E|t' fl' Np' F' E1 E|t' fl' c' l2 f' Np' F' Nc' H2 E1 E]; auto; exfalso;
      [match goal with H : _ <> _ |- _ => now apply H end|apply app_eq_nil in E as [_ E]; discriminate|apply app_eq_nil in E as [_ E]; discriminate].
  - inversion H'; subst; auto; try congruence; exfalso; try (match goal with H : [] <> [] |- _ => now apply H end); apply Np; apply in_or_app; right; now left.
  - inversion H' as [E|t' Nt' Np' E1 E|t' fl' Np' F' E1 E|t' fl' c' l2 f' Np' F' Nc' H2 E1 E]; subst.
    + destruct t; discriminate.
    + exfalso. apply Np'. apply in_or_app. right. now left.
    + apply C in E as [-> ->]; auto.
    + apply C in E as [-> E]; auto. symmetry in E. destruct (D _ _ _ _ F F' Nc' E).
  - inversion H' as [E|t' Nt' Np' E1 E|t' fl' Np' F' E1 E|t' fl' c' l2 f' Np' F' Nc' H2 E1 E]; subst.
    + destruct t; discriminate.
    + exfalso. apply Np'. apply in_or_app. right. now left.
    + apply C in E as [-> E]; auto. destruct (D _ _ _ _ F' F Nc E).
    + apply C in E as [-> E]; auto. apply (first_split is_flag) in E as (-> & -> & ->); auto. do 2 f_equal. now apply IH.
Qed.

Lemma takes_verb c t : takes_arg c -> forall x, verb_of c t <> PLiteral x.
Proof. intros T x. unfold takes_arg in T. cbn in T. decompose [or] T; subst; try contradiction; cbn; discriminate. Qed.
Lemma verb_literal c t : ~ takes_arg c -> c <> 37 -> verb_of c t = PLiteral t.
Proof.
  intros N P. unfold takes_arg in N. cbn in N. unfold verb_of. cbn.
  repeat match goal with |- context [c =? ?k] => destruct (Z.eqb_spec c k); [try (subst; exfalso; apply N; tauto); contradiction|] end.
  reflexivity.
Qed.
Lemma shows_print P fl c a t : shows P fl c a t -> print_arg P (verb_of c ([37] ++ fl ++ [c])) a = Ok (inl t).
Proof.
  intro H. destruct H as [a|t|a N|a N| |c z I B|c a I (t & E)]; try reflexivity.
  - destruct a; try reflexivity. now elim (N t).
  - destruct a; try reflexivity. congruence.
  - assert (Z : bi_to_int (dec z) = Some z).
    { rewrite bi_to_int_spec. unfold int64_min, int64_max.
      destruct (Z.leb_spec (-9223372036854775808) z), (Z.leb_spec z 9223372036854775807); auto; lia. }
    cbn in I. decompose [or] I; subst; try contradiction;
      match goal with |- print_arg P (verb_of ?c ?t) _ = _ => change (verb_of c t) with (PInteger t) end;
      cbn [print_arg]; rewrite Z; reflexivity.
  - cbn in I. decompose [or] I; subst; try contradiction; destruct E as [-> | ->]; reflexivity.
Qed.
Lemma print_spec P l args rest out : printed P l args rest out -> forall vs r,
  print_verbs P (map verb_item l ++ vs) args r = print_verbs P vs rest (r ++ out).
Proof.
  induction 1 as [args|t l args rest out H IH|fl l args rest out H IH|fl l args rest out H IH|fl c l args rest out N N' H IH|
    fl c a t l args rest out T S H IH]; intros vs r; cbn [map app verb_item].
  - now rewrite app_nil_r.
  - cbn [print_verbs]. rewrite IH. now rewrite <- app_assoc.
  - cbn [print_verbs]. rewrite IH. rewrite <- app_assoc. reflexivity.
  - match goal with |- context [verb_of 37 ?t] => change (verb_of 37 t) with (PLiteral [37]) end.
    cbn [print_verbs]. rewrite IH. rewrite <- app_assoc. reflexivity.
  - rewrite verb_literal by assumption. cbn [print_verbs]. rewrite IH, <- app_assoc. cbn [app]. now rewrite <- app_assoc.
  - apply shows_print in S. pose proof (takes_verb c ([37] ++ fl ++ [c]) T) as NL. cbn [app] in S, NL.
    destruct (verb_of c (37 :: fl ++ [c])) eqn:V; try (now elim (NL t0)); cbn [print_verbs]; rewrite S; cbn [obind];
      rewrite IH, <- app_assoc; reflexivity.
Qed.

Lemma walk_more : forall fuel q r, walk_loop fuel q = Ok r -> forall fuel', (fuel <= fuel')%nat -> walk_loop fuel' q = Ok r.
Proof.
  induction fuel as [|k IH]; intros [|[p x] q] r E fuel' L; cbn [walk_loop] in E; try discriminate.
  - destruct fuel'; exact E.
  - destruct fuel'; exact E.
  - destruct fuel' as [|k']; [lia|]. cbn [walk_loop].
    destruct (walk_loop k (q ++ map (fun c => (p ++ [fst c], snd c)) (children x))) as [l| | |] eqn:W; try discriminate.
    rewrite (IH _ _ W k') by lia. exact E.
Qed.
Lemma concat_in_length {A} (l : list A) L : In l L -> (length l <= length (concat L))%nat.
Proof.
  induction L as [|m L IH]; [intros []|]. intros [->|I]; cbn [concat]; rewrite app_length; [lia|]. apply IH in I. lia.
Qed.
Lemma children_smaller x k y : In (k, y) (children x) -> (length (subs y) < length (subs x))%nat.
Proof.
  intro I. rewrite (subs_eq x). cbn [length]. apply (in_map (fun c => prefixed (fst c) (subs (snd c)))) in I.
  apply concat_in_length in I. unfold prefixed in I at 1. rewrite map_length in I. cbn [snd] in I. lia.
Qed.
Lemma vint_inj i j : vint (Z.of_nat i) = vint (Z.of_nat j) -> i = j.
Proof. unfold vint. intro E. assert (H : dec (Z.of_nat i) = dec (Z.of_nat j)) by congruence. apply dec_inj in H. lia. Qed.
Lemma map_fst_combine {A B} (a : list A) (b : list B) : length a = length b -> map fst (combine a b) = a.
Proof. revert b. induction a as [|x a IH]; intros [|y b] E; try discriminate; auto. cbn. f_equal. apply IH. now injection E. Qed.
Lemma proper_simple x : proper x -> simple x.
Proof.
  remember (length (subs x)) as n eqn:En. revert x En. induction n as [n IH] using lt_wf_ind. intros x -> P. constructor.
  - specialize (P [] x (at_here x)). destruct x as [| | | | | |l|l|l|]; cbn [children map]; try constructor.
    + rewrite map_fst_combine by (rewrite map_length, seq_length; reflexivity).
      apply FinFun.Injective_map_NoDup; [intros a b E; now apply vint_inj|apply seq_NoDup].
    + exact P.
    + rewrite map_map. cbn [fst]. now rewrite map_id.
  - intros k y I. apply (IH (length (subs y))); auto; [now apply (children_smaller x k)|].
    intros p v H. apply (P (k :: p)). apply at_path_children. eauto.
Qed.
