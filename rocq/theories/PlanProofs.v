(** Proofs about numbering locals and strings and about reading the numbered tree into a bundle. *)
From Coq Require Import String ZArith List Bool Lia.
From Verif Require Import Base BigIntSpec BigIntModel SMap SMapFacts ValueModel ResolverModel DecFacts MiscProofs VmModel VmSpec VmProofs PlanModel PlanSpec.
Import ListNotations.
Local Open Scope Z_scope.

(** ** Induction over statements *)
Section IrInd.
  Context {L S' : Type}.
  Definition inner (s : ir L S') : list (ir L S') :=
    match s with IBlock bs => concat bs | INot b | IScan _ _ _ b | IWith _ _ _ b => b | _ => [] end.
  Lemma Forall_concat_intro {A} (P : A -> Prop) ll : Forall (Forall P) ll -> Forall P (concat ll).
  Proof. induction 1; simpl; [constructor|]. now apply Forall_app. Qed.
  Lemma Forall_concat_elim {A} (P : A -> Prop) ll : Forall P (concat ll) -> Forall (Forall P) ll.
  Proof. induction ll as [|l ll IH]; simpl; intros H; constructor; apply Forall_app in H; tauto. Qed.
  Lemma ir_ind' (P : ir L S' -> Prop) (step : forall s, Forall P (inner s) -> P s) : forall s, P s.
  Proof.
    fix F 1.
    pose (gb := fix gb (l : list (ir L S')) : Forall P l :=
      match l with [] => Forall_nil P | x :: l' => Forall_cons x (F x) (gb l') end).
    pose (gbs := fix gbs (l : list (list (ir L S'))) : Forall (Forall P) l :=
      match l with [] => Forall_nil _ | x :: l' => Forall_cons x (gb x) (gbs l') end).
    intros s. apply step. destruct s; simpl;
      first [apply Forall_nil | apply Forall_concat_intro; exact (gbs _) | exact (gb _)].
  Qed.
End IrInd.

(** ** Tables *)
Definition add {A} (eqb : A -> A -> bool) (l : list A) (x : A) : list A :=
  match index_of eqb x l with Some _ => l | None => l ++ [x] end.
Definition grow {A} (eqb : A -> A -> bool) (l : list A) (xs : list A) : list A := fold_left (add eqb) xs l.

Lemma key_eqb_eq a b : key_eqb a b = true <-> a = b.
Proof.
  destruct a as [x|[i|] x], b as [y|[j|] y]; simpl; rewrite ?andb_true_iff, ?Nat.eqb_eq, ?str_eqb_eq;
    split; intros H; try discriminate; try (inversion H; subst; auto; fail); try (destruct H; subst; auto; fail); subst; auto.
Qed.

Section Index.
  Context {A : Type} (eqb : A -> A -> bool) (eqb_eq : forall a b, eqb a b = true <-> a = b).
  Notation idx := (index_of eqb).
  Lemma idx_none a l : idx a l = None <-> ~ In a l.
  Proof.
    induction l as [|x l IH]; simpl; [intuition discriminate|].
    destruct (eqb a x) eqn:E.
    - apply eqb_eq in E. subst. split; [discriminate|]. intros H. exfalso. auto.
    - assert (a <> x) by (intros ->; rewrite (proj2 (eqb_eq x x) eq_refl) in E; discriminate).
      destruct (idx a l) eqn:J.
      + split; [discriminate|]. intros H2. exfalso. apply H2. right.
        destruct IH as [I1 I2]. destruct (in_dec (fun a b => match bool_dec (eqb a b) true with
           | left e => left (proj1 (eqb_eq a b) e) | right n => right (fun q => n (proj2 (eqb_eq a b) q)) end) a l); auto.
        specialize (I2 n). discriminate.
      + split; auto. intros _ [->|I]; [auto|]. now apply IH in I.
  Qed.
  Lemma idx_some a l : In a l -> exists i, idx a l = Some i.
  Proof. intros I. destruct (idx a l) eqn:E; eauto. apply idx_none in E. tauto. Qed.
  Lemma idx_nth a l i : idx a l = Some i -> 0 <= i < zlen l /\ nth_error l (Z.to_nat i) = Some a.
  Proof.
    revert i. induction l as [|x l IH]; simpl; intros i H; [discriminate|]. unfold zlen in *; simpl length.
    destruct (eqb a x) eqn:E.
    - injection H as <-. apply eqb_eq in E. subst. simpl. split; [lia|reflexivity].
    - destruct (idx a l) as [j|]; [|discriminate]. injection H as <-. destruct (IH j eq_refl) as [B N]. split; [lia|].
      replace (Z.to_nat (j + 1)) with (Datatypes.S (Z.to_nat j)) by lia. exact N.
  Qed.
  Lemma idx_inj a b l i : idx a l = Some i -> idx b l = Some i -> a = b.
  Proof. intros H1 H2. apply idx_nth in H1, H2. destruct H1, H2. congruence. Qed.
  Lemma idx_app a l l' i : idx a l = Some i -> idx a (l ++ l') = Some i.
  Proof.
    revert i. induction l as [|x l IH]; simpl; intros i H; [discriminate|].
    destruct (eqb a x); auto. destruct (idx a l) as [j|]; [|discriminate]. now rewrite (IH j eq_refl).
  Qed.
  Lemma idx_app_none a l l' : idx a l = None -> idx a (l ++ l') = match idx a l' with Some i => Some (i + zlen l) | None => None end.
  Proof.
    unfold zlen. induction l as [|x l IH]; simpl; intros H.
    - destruct (idx a l'); auto. f_equal. lia.
    - destruct (eqb a x); [discriminate|]. destruct (idx a l) eqn:E; [discriminate|]. rewrite (IH eq_refl).
      destruct (idx a l'); auto. f_equal. lia.
  Qed.
  Lemma idx_new a l : idx a l = None -> idx a (l ++ [a]) = Some (zlen l).
  Proof. intros H. rewrite (idx_app_none _ _ _ H). simpl. now rewrite (proj2 (eqb_eq a a) eq_refl). Qed.

  Notation addl := (add eqb).
  Notation growl := (grow eqb).
  Lemma add_ext l x : exists e, addl l x = l ++ e.
  Proof. unfold add. destruct (idx x l); [exists []; now rewrite app_nil_r|eauto]. Qed.
  Lemma add_in l x y : In y (addl l x) <-> In y l \/ y = x.
  Proof.
    unfold add. destruct (idx x l) eqn:E.
    - apply idx_nth in E. destruct E as [_ E]. apply nth_error_In in E. intuition subst; auto.
    - rewrite in_app_iff. simpl. intuition.
  Qed.
  Lemma add_nodup l x : NoDup l -> NoDup (addl l x).
  Proof.
    intros H. unfold add. destruct (idx x l) eqn:E; auto. apply idx_none in E.
    revert E. induction H as [|y l N H IH]; simpl; intros E; [repeat constructor; auto|].
    constructor; [|apply IH; tauto]. rewrite in_app_iff. simpl. intros [I|[->|[]]]; auto.
  Qed.
  Lemma grow_app l a b : growl l (a ++ b) = growl (growl l a) b.
  Proof. apply fold_left_app. Qed.
  Lemma grow_ext l xs : exists e, growl l xs = l ++ e.
  Proof.
    revert l. induction xs as [|x xs IH]; intros l; simpl; [exists []; now rewrite app_nil_r|].
    destruct (IH (addl l x)) as [e E]. destruct (add_ext l x) as [e' E']. exists (e' ++ e). rewrite E, E'. now rewrite app_assoc.
  Qed.
  Lemma grow_in l xs y : In y (growl l xs) <-> In y l \/ In y xs.
  Proof.
    revert l. induction xs as [|x xs IH]; intros l; simpl; [tauto|]. rewrite IH, add_in. intuition.
  Qed.
  Lemma grow_nodup l xs : NoDup l -> NoDup (growl l xs).
  Proof. revert l. induction xs as [|x xs IH]; intros l H; simpl; auto. now apply IH, add_nodup. Qed.
  (** Whatever was there before comes before whatever is new. *)
  Lemma grow_before l xs a b i j :
    In a l -> ~ In b l -> idx a (growl l xs) = Some i -> idx b (growl l xs) = Some j -> i < j.
  Proof.
    intros I N. destruct (grow_ext l xs) as [e ->]. destruct (idx_some a l I) as [k E]. rewrite (idx_app _ _ _ _ E).
    intros [= <-]. apply idx_none in N. rewrite (idx_app_none _ _ _ N).
    destruct (idx b e) as [q|] eqn:Q; [|discriminate]. intros [= <-]. apply idx_nth in E, Q. lia.
  Qed.
End Index.

Lemma flat_map_nil' {A B} (l : list A) : flat_map (fun _ => @nil B) l = [].
Proof. induction l as [|x l IH]; simpl; auto. Qed.
Lemma flat_map_one {A} (l : list A) : flat_map (fun x => [x]) l = l.
Proof. induction l as [|x l IH]; simpl; congruence. Qed.

(** ** The numbers a table gives *)
Definition nl (T : table) (f : option nat) (n : str) : Z :=
  if str_eqb n $"input" then 0 else if str_eqb n $"data" then 1
  else match index_of key_eqb (key_of f n) (t_locals T) with Some i => i + 2 | None => -1 end.
Definition ns (T : table) (s : str) : Z := match index_of str_eqb s (t_strings T) with Some i => i | None => -1 end.
Definition keys (f : option nat) (l : list str) : list key := map (key_of f) (filter (fun n => negb (reservedb n)) l).
Definition growt (t : table) (ks : list key) (ss : list str) : table :=
  Tab (grow key_eqb (t_locals t) ks) (grow str_eqb (t_strings t) ss).
Definition text {A} (g : A -> Z) (a : A) : str := dec (g a).
Definition inside (t T : table) : Prop :=
  (exists e, t_locals T = t_locals t ++ e) /\ (exists e, t_strings T = t_strings t ++ e).

Lemma inside_refl t : inside t t.
Proof. split; exists []; now rewrite app_nil_r. Qed.
Lemma inside_trans a b c : inside a b -> inside b c -> inside a c.
Proof.
  intros [[x X] [y Y]] [[u U] [v V]]. split; [exists (x ++ u)|exists (y ++ v)].
  - now rewrite U, X, app_assoc.
  - now rewrite V, Y, app_assoc.
Qed.
Lemma inside_growt t ks ss : inside t (growt t ks ss).
Proof. split; simpl; [apply grow_ext|apply grow_ext]. Qed.
Lemma growt_growt t a b c d : growt (growt t a b) c d = growt t (a ++ c) (b ++ d).
Proof. unfold growt. simpl. now rewrite !grow_app. Qed.
Lemma growt_nil t : growt t [] [] = t.
Proof. now destruct t. Qed.
Lemma keys_app f a b : keys f (a ++ b) = keys f a ++ keys f b.
Proof. unfold keys. now rewrite filter_app, map_app. Qed.

(** [g] numbers the things that [ls] and [ss] list, and answers with [mp] of the final table. *)
Definition numbers_as {A B} (g : A -> table -> B * table) (f : option nat) (ls ss : A -> list str) (mp : table -> A -> B)
    (a : A) : Prop :=
  forall t, snd (g a t) = growt t (keys f (ls a)) (ss a) /\ forall T, inside (snd (g a t)) T -> fst (g a t) = mp T a.

Lemma keys_one f n : keys f [n] = if str_eqb n $"input" then [] else if str_eqb n $"data" then [] else [key_of f n].
Proof. unfold keys, reservedb. cbn [filter]. destruct (str_eqb n $"input"); [reflexivity|]. now destruct (str_eqb n $"data"). Qed.
Lemma number_local_ok f n : numbers_as (number_local f) f (fun x => [x]) (fun _ => []) (fun T => text (nl T f)) n.
Proof.
  intros t. rewrite keys_one. unfold number_local, text, nl.
  destruct (str_eqb n $"input"); [rewrite growt_nil; auto|].
  destruct (str_eqb n $"data"); [rewrite growt_nil; auto|].
  unfold growt, grow, add. simpl. destruct (index_of key_eqb (key_of f n) (t_locals t)) as [i|] eqn:E; simpl.
  - split; [now destruct t|]. intros T [[e X] _]. rewrite X. now rewrite (idx_app key_eqb _ _ _ _ E).
  - split; [reflexivity|]. intros T [[e X] _]. simpl in X. rewrite X.
    rewrite (idx_app key_eqb _ _ _ _ (idx_new key_eqb key_eqb_eq _ _ E)). reflexivity.
Qed.
Lemma number_string_ok f s : numbers_as number_string f (fun _ => []) (fun x => [x]) (fun T => text (ns T)) s.
Proof.
  intros t. unfold number_string, text, ns. change (keys f []) with (@nil key).
  unfold growt, grow, add. simpl. destruct (index_of str_eqb s (t_strings t)) as [i|] eqn:E; simpl.
  - split; [now destruct t|]. intros T [_ [e X]]. rewrite X. now rewrite (idx_app str_eqb _ _ _ _ E).
  - split; [reflexivity|]. intros T [_ [e X]]. simpl in X. rewrite X.
    rewrite (idx_app str_eqb _ _ _ _ (idx_new str_eqb str_eqb_eq _ _ E)). reflexivity.
Qed.
Lemma number_op_ok f o :
  numbers_as (number_op f) f op_local op_string (fun T => map_op (text (nl T f)) (text (ns T))) o.
Proof.
  intros t. destruct o as [n|s|b]; simpl.
  - destruct (number_local_ok f n t) as [H1 H2]. destruct (number_local f n t) as [i t'] eqn:E. simpl in *.
    split; auto. intros T X. now rewrite (H2 T X).
  - destruct (number_string_ok f s t) as [H1 H2]. destruct (number_string s t) as [i t'] eqn:E. simpl in *.
    split; auto. intros T X. now rewrite (H2 T X).
  - split; [now rewrite growt_nil|reflexivity].
Qed.
Lemma number_list_cons {A B} (g : A -> table -> B * table) x l t :
  number_list g (x :: l) t = let '(y, t1) := g x t in let '(ys, t2) := number_list g l t1 in (y :: ys, t2).
Proof. reflexivity. Qed.
Lemma number_list_ok {A B} (g : A -> table -> B * table) f ls ss mp l :
  Forall (numbers_as g f ls ss mp) l ->
  numbers_as (number_list g) f (flat_map ls) (flat_map ss) (fun T => map (mp T)) l.
Proof.
  induction 1 as [|x l H _ IH]; intros t; [simpl; rewrite growt_nil; auto|].
  rewrite number_list_cons. cbn [flat_map map].
  destruct (H t) as [G1 G2]. destruct (g x t) as [y t1]. simpl in *.
  destruct (IH t1) as [K1 K2].
  destruct (number_list g l t1) as [ys t2]. simpl in *. subst t1 t2. split.
  - now rewrite growt_growt, keys_app.
  - intros T X. rewrite (K2 T X), (G2 T); auto. eapply inside_trans; [apply inside_growt|exact X].
Qed.

Ltac use_number H :=
  let E1 := fresh "E" in let E2 := fresh "M" in
  destruct H as [E1 E2];
  match type of E1 with snd ?c = _ => destruct c as [? ?]; cbn [fst snd] in E1, E2; subst end.
Ltac in_chain X := first [exact X | eapply inside_trans; [apply inside_growt|in_chain X]].
Ltac one_number :=
  match goal with
  | |- context [number_op ?f ?o ?t] => use_number (number_op_ok f o t)
  | |- context [number_local ?f ?o ?t] => use_number (number_local_ok f o t)
  | H : numbers_as (number_list ?g) ?f _ _ _ ?l |- context [number_list ?g ?l ?t] => use_number (H t)
  end.

Lemma number_stmt_ok f s :
  numbers_as (number_stmt f) f locals_in strings_in (fun T => map_ir (text (nl T f)) (text (ns T)) (fun x => x)) s.
Proof.
  induction s as [s IH] using ir_ind'. intros t.
  assert (OPS : forall l, numbers_as (number_list (number_op f)) f (flat_map op_local) (flat_map op_string)
                            (fun T => map (map_op (text (nl T f)) (text (ns T)))) l).
  { intros l. apply number_list_ok, Forall_forall. intros o _. apply number_op_ok. }
  assert (SS : forall l, numbers_as (number_list number_string) f (flat_map (fun _ => [])) (flat_map (fun x => [x]))
                            (fun T => map (text (ns T))) l).
  { intros l. apply number_list_ok, Forall_forall. intros o _. apply number_string_ok. }
  destruct s; cbn [inner] in IH; cbn [number_stmt locals_in strings_in map_ir];
    try (apply Forall_concat_elim in IH;
         assert (IH2 : numbers_as (number_list (number_list (number_stmt f))) f (flat_map (flat_map locals_in))
           (flat_map (flat_map strings_in)) (fun T => map (map (map_ir (text (nl T f)) (text (ns T)) (fun x => x)))) blocks)
           by (apply number_list_ok; eapply Forall_impl; [|exact IH]; intros l Hl; exact (number_list_ok _ _ _ _ _ _ Hl)));
    try apply number_list_ok in IH;
    try pose proof (OPS args) as OA; try pose proof (OPS path) as OP; try pose proof (SS path) as SP;
    try (use_number (number_string_ok f idx t));
    repeat one_number; cbn [fst snd];
    (split;
     [rewrite ?growt_growt, ?flat_map_nil', ?flat_map_one, ?keys_app, <- ?app_assoc, ?app_nil_r; cbn [app];
      try rewrite <- !keys_app; cbn [app]; rewrite ?growt_nil; try reflexivity
     |intros T X; repeat match goal with
        M : forall T, inside _ T -> _ = _ |- _ => rewrite (M T) by (in_chain X); clear M end; try reflexivity]).
Qed.

(** ** Functions and plans *)
Definition K (l : list (option nat * str)) : list key :=
  map (fun x => key_of (fst x) (snd x)) (filter (fun x => negb (reservedb (snd x))) l).
Lemma K_app a b : K (a ++ b) = K a ++ K b.
Proof. unfold K. now rewrite filter_app, map_app. Qed.
Lemma K_pair f l : K (map (pair f) l) = keys f l.
Proof.
  unfold K, keys. induction l as [|x l IH]; [reflexivity|]. cbn [map filter snd fst].
  destruct (negb (reservedb x)); cbn [map]; rewrite IH; reflexivity.
Qed.
Lemma flat_map_concat' {A B} (g : A -> list B) ll : flat_map g (concat ll) = flat_map (flat_map g) ll.
Proof. induction ll as [|l ll IH]; simpl; auto. now rewrite flat_map_app, IH. Qed.

Lemma number_blocks_ok f bs :
  numbers_as (number_blocks f) f (fun x => flat_map locals_in (concat x)) (fun x => flat_map strings_in (concat x))
    (fun T => map (map (map_ir (text (nl T f)) (text (ns T)) (fun x => x)))) bs.
Proof.
  intros t. unfold number_blocks. rewrite !flat_map_concat'. revert t.
  apply number_list_ok, Forall_forall. intros l _. apply number_list_ok, Forall_forall. intros s _. apply number_stmt_ok.
Qed.

Definition pl_text (T : table) (p : pl str str) : pl str str :=
  Pl str str (l_name p) (map (map (map_ir (text (nl T None)) (text (ns T)) (fun x => x))) (l_blocks p)).
Definition fn_text (T : table) (x : nat * fn str str) : fn str str :=
  let r := text (nl T (Some (fst x))) in
  Fn str str (n_name (snd x)) (map r (n_params (snd x))) (r (n_result (snd x)))
     (map (map (map_ir r (text (ns T)) (fun x => x))) (n_blocks (snd x))).

Lemma number_pl_ok p :
  numbers_as number_pl None (fun x => flat_map locals_in (pl_body x)) (fun x => flat_map strings_in (pl_body x)) pl_text p.
Proof.
  intros t. unfold number_pl, pl_text, pl_body. use_number (number_blocks_ok None (l_blocks p) t). cbn [fst snd].
  split; [reflexivity|]. intros T X. now rewrite (M T X).
Qed.
Lemma number_fn_ok i g t :
  snd (number_fn i g t) = growt t (K (fn_names (i, g))) (flat_map strings_in (fn_body g)) /\
  forall T, inside (snd (number_fn i g t)) T -> fst (number_fn i g t) = fn_text T (i, g).
Proof.
  unfold number_fn, fn_text, fn_body, fn_names. cbn [fst snd].
  assert (PS : numbers_as (number_list (number_local (Some i))) (Some i) (flat_map (fun x => [x])) (flat_map (fun _ => []))
                 (fun T => map (text (nl T (Some i)))) (n_params g)).
  { apply number_list_ok, Forall_forall. intros n _. apply number_local_ok. }
  use_number (PS t). use_number (number_blocks_ok (Some i) (n_blocks g) (growt t (keys (Some i) (flat_map (fun x => [x]) (n_params g)))
     (flat_map (fun _ => []) (n_params g)))). repeat one_number. cbn [fst snd]. split.
  - rewrite !growt_growt, K_pair. rewrite !keys_app.
    rewrite flat_map_nil', flat_map_one, app_nil_r. cbn [app]. rewrite <- ?app_assoc. reflexivity.
  - intros T X. rewrite (M T) by in_chain X. rewrite (M0 T) by in_chain X. rewrite (M1 T) by in_chain X. reflexivity.
Qed.
Lemma number_fns_ok i l t :
  snd (number_fns i l t) = growt t (K (flat_map fn_names (combine (seq i (length l)) l))) (flat_map (fun g => flat_map strings_in (fn_body g)) l) /\
  forall T, inside (snd (number_fns i l t)) T -> fst (number_fns i l t) = map (fn_text T) (combine (seq i (length l)) l).
Proof.
  revert i t. induction l as [|g l IH]; intros i t; cbn [number_fns]; [now rewrite growt_nil|].
  use_number (number_fn_ok i g t). use_number (IH (Datatypes.S i) (growt t (K (fn_names (i, g))) (flat_map strings_in (fn_body g)))).
  cbn [fst snd length seq combine flat_map map]. split.
  - now rewrite growt_growt, K_app.
  - intros T X. rewrite (M T) by in_chain X. now rewrite (M0 T) by in_chain X.
Qed.

Definition final_table (p : prog) : table := growt (Tab [] []) (K (names p)) (strings p).
Lemma index_pass_ok p : g_plans p <> [] ->
  index_pass p = Some (Prog (g_data p) (t_strings (final_table p)) (map (pl_text (final_table p)) (g_plans p)) (g_query p)
                         (map (fn_text (final_table p)) (numbered_fns (g_fns p)))).
Proof.
  intros NE. unfold index_pass. destruct (g_plans p) as [|p0 ps] eqn:E; [congruence|]. rewrite <- E. clear NE p0 ps E.
  assert (PS : numbers_as (number_list number_pl) None (flat_map (fun x => flat_map locals_in (pl_body x)))
      (flat_map (fun x => flat_map strings_in (pl_body x))) (fun T => map (pl_text T)) (g_plans p)).
  { apply number_list_ok, Forall_forall. intros x _. apply number_pl_ok. }
  use_number (PS (Tab [] [])).
  match goal with |- context [number_fns 0 _ ?t] => use_number (number_fns_ok 0 (g_fns p) t) end.
  assert (FT : growt (growt (Tab [] []) (keys None (flat_map (fun x => flat_map locals_in (pl_body x)) (g_plans p)))
     (flat_map (fun x => flat_map strings_in (pl_body x)) (g_plans p)))
     (K (flat_map fn_names (combine (seq 0 (length (g_fns p))) (g_fns p)))) (flat_map (fun g => flat_map strings_in (fn_body g)) (g_fns p))
     = final_table p).
  { rewrite growt_growt. unfold final_table, names, plan_names, strings, body, numbered_fns. rewrite K_app, K_pair.
    rewrite flat_map_app. f_equal.
    assert (Q : forall A (h : A -> list (ir str str)) l, flat_map strings_in (flat_map h l) = flat_map (fun x => flat_map strings_in (h x)) l).
    { intros A h ll. induction ll as [|y ll IHl]; simpl; auto. now rewrite flat_map_app, IHl. }
    now rewrite !Q. }
  rewrite FT in *. cbn zeta. rewrite (M (final_table p)).
  - rewrite (M0 (final_table p) (inside_refl _)). reflexivity.
  - rewrite <- FT. apply inside_growt.
Qed.

(** ** Reading the tree *)
Section Read.
  Variable (rho : str -> Z) (sigma : str -> Z) (ar : str -> option nat).
  Definition op_of (o : op str str) : operand :=
    match o with
    | OLocal n => Op TLocal (rho n)
    | OString x => Op TString (sigma x)
    | OBool true => Op TTrue 0
    | OBool false => Op TFalse 0
    end.
  Definition int_of (t : str) : operand := Op TValue (zval t).
  Definition idx_of (n : Z) : operand := Op TIndex n.
  Fixpoint stmt_of (s : ir str str) : stmt :=
    let no := none_op in
    let simple ty a b x := Stmt ty a b (rho x) None in
    let check ty a b := Stmt ty a b 0 None in
    match s with
    | IArrayAppend a v => simple SArrayAppend (op_of v) no a
    | IAssignInt v x => simple SAssignInt (int_of v) no x
    | IAssignVarOnce o x => simple SAssignVarOnce (op_of o) no x
    | IAssignVar o x => simple SAssignVar (op_of o) no x
    | IBlock bs => Stmt SBlock no no 0 (Some (ExtBlocks (map (map stmt_of) bs)))
    | IBreak i => check SBreak (idx_of (zval i)) no
    | ICall g args x => Stmt SCall no no (rho x) (Some (ExtCall g (map op_of args)))
    | ICallDynamic path args x => Stmt SCallDynamic no no (rho x) (Some (ExtDyn (map op_of path) (map op_of args)))
    | IDot o k x => simple SDot (op_of o) (op_of k) x
    | IEqual a b => check SEqual (op_of a) (op_of b)
    | IIsArray o => check SIsArray (op_of o) no
    | IIsDefined x => simple SIsDefined no no x
    | IIsObject o => check SIsObject (op_of o) no
    | IIsSet o => check SIsSet (op_of o) no
    | IIsUndefined x => simple SIsUndefined no no x
    | ILen o x => simple SLen (op_of o) no x
    | IMakeArray c x => simple SMakeArray (int_of c) no x
    | IMakeNull x => simple SMakeNull no no x
    | IMakeNumberInt v x => simple SMakeNumberInt (int_of v) no x
    | IMakeNumberRef n x => simple SMakeNumberRef (idx_of (sigma n)) no x
    | IMakeObject x => simple SMakeObject no no x
    | IMakeSet x => simple SMakeSet no no x
    | INotEqual a b => check SNotEqual (op_of a) (op_of b)
    | INot b => Stmt SNot no no 0 (Some (ExtBlock (map stmt_of b)))
    | IObjectInsertOnce k v x => simple SObjectInsertOnce (op_of k) (op_of v) x
    | IObjectInsert k v x => simple SObjectInsert (op_of k) (op_of v) x
    | IObjectMerge a b x => simple SObjectMerge (idx_of (rho a)) (idx_of (rho b)) x
    | IResetLocal x => simple SResetLocal no no x
    | IResultSetAdd x => simple SResultSetAdd no no x
    | IReturnLocal x => simple SReturnLocal no no x
    | IScan x k v b => Stmt SScan (idx_of (rho k)) (idx_of (rho v)) (rho x) (Some (ExtBlock (map stmt_of b)))
    | ISetAdd v x => simple SSetAdd (op_of v) no x
    | IWith x path v b =>
        Stmt SWith (op_of v) no (rho x) (Some (ExtWith (map (fun t => Z.to_N (sigma t)) path) (map stmt_of b)))
    end.
  Definition maxes (m : Z) (l : list Z) : Z := fold_left Z.max l m.

  Definition small (z : Z) : Prop := 0 <= z < 2 ^ 32.
  Lemma to_size_dec z : small z -> to_size (dec z) = Ok z.
  Proof.
    unfold small. intros B. unfold to_size, to_uint32. pose proof (zval_dec_all z) as V. pose proof (dec_digits z ltac:(lia)) as D.
    destruct (dec z) as [|c t] eqn:E.
    - assert (Z0 : z = 0) by (rewrite <- V; reflexivity). subst z. discriminate E.
    - rewrite (proj2 (forallb_forall is_digit (c :: t))) by (rewrite Forall_forall in D; exact D). cbv zeta. rewrite V.
      destruct (Z.leb_spec z (2 ^ 32 - 1)); [reflexivity|lia].
  Qed.
  Lemma to_index_dec z m : small z -> to_index (dec z) m = Ok (z, Z.max m z).
  Proof.
    intros B. unfold to_index. rewrite (to_size_dec z B). cbn [obind]. do 2 f_equal. rewrite Z.gtb_ltb.
    destruct (Z.ltb_spec z m); lia.
  Qed.
  Lemma from_op_text o : (forall n, In n (op_local o) -> small (rho n)) -> (forall n, In n (op_string o) -> small (sigma n)) ->
    from_op (map_op (text rho) (text sigma) o) = Ok (op_of o).
  Proof.
    destruct o as [n|x|[|]]; simpl; intros H1 H2; auto; unfold text; rewrite to_size_dec by auto; reflexivity.
  Qed.
  Lemma from_index_text z : small z -> from_index (dec z) = Ok (idx_of z).
  Proof. intros B. unfold from_index. now rewrite to_size_dec. Qed.
  Lemma from_value_text t : int64_text t -> from_value t = Ok (int_of t).
  Proof.
    intros (neg & d & -> & N & F & R). unfold from_value, to_int64, int_of. set (t := (if neg then [45] else []) ++ d) in *.
    assert (FD : forallb is_digit d = true) by (apply forallb_forall; intros c I; rewrite Forall_forall in F; specialize (F c I); unfold is_digit; lia).
    match goal with |- context [if ?x && _ && _ then _ else _] => assert (K : x = true) end.
    { subst t. destruct d as [|c d]; [congruence|]. destruct neg; cbn [app tl]; [exact FD|].
      inversion F as [|? ? C _]; subst. destruct (Z.eq_dec c 45) as [->|Nc]; [lia|].
      destruct c as [|c|c]; try exact FD. do 6 (destruct c as [c|c|]; try exact FD). now elim Nc. }
    rewrite K. destruct (Z.leb_spec (- 2 ^ 63) (zval t)); [|lia]. destruct (Z.ltb_spec (zval t) (2 ^ 63)); [|lia]. reflexivity.
  Qed.
  Lemma map_o_ok {A B} (g : A -> outcome B) h l : (forall x, In x l -> g x = Ok (h x)) -> map_o g l = Ok (map h l).
  Proof.
    induction l as [|x l IH]; intros H; simpl; auto. rewrite (H x) by (left; auto). simpl. rewrite IH; auto.
    intros y I. apply H. now right.
  Qed.
  Lemma map_o_map {A B C} (g : B -> outcome C) (h : A -> B) l : map_o g (map h l) = map_o (fun x => g (h x)) l.
  Proof. induction l as [|x l IH]; simpl; auto. now rewrite IH. Qed.
  Lemma thread_cons {A B} (g : A -> Z -> outcome (B * Z)) x l m :
    thread g (x :: l) m = let! ym := g x m in let! r := thread g l (snd ym) in Ok (fst ym :: fst r, snd r).
  Proof. reflexivity. Qed.
  Lemma thread_ok {A A' B} (g : A' -> Z -> outcome (B * Z)) (tr : A -> A') (h : A -> B) (ms : A -> list Z) l m :
    Forall (fun x => forall m, g (tr x) m = Ok (h x, maxes m (ms x))) l ->
    thread g (map tr l) m = Ok (map h l, maxes m (flat_map ms l)).
  Proof.
    intros H. revert m. induction H as [|x l Hx _ IH]; intros m; [reflexivity|]. cbn [map flat_map]. rewrite thread_cons.
    rewrite Hx. cbn [obind fst snd]. rewrite IH. cbn [obind fst snd]. unfold maxes. now rewrite fold_left_app.
  Qed.

  Lemma maxes_flat {A B} (g : A -> list B) (h : B -> Z) l : map h (flat_map g l) = flat_map (fun x => map h (g x)) l.
  Proof. induction l as [|x l IH]; simpl; auto. now rewrite map_app, IH. Qed.

  Definition bounded (s : ir str str) : Prop :=
    (forall n, In n (locals_in s) -> small (rho n)) /\ (forall n, In n (strings_in s) -> small (sigma n)).
  (** No [break]; integers parse. *)
  Lemma wf_block_elim (l : list (ir str str)) (r : Prop) :
    fold_right (fun x q => well_formed ar x /\ q) r l <-> Forall (well_formed ar) l /\ r.
  Proof.
    induction l as [|x l IH]; simpl; [split; [auto|tauto]|]. rewrite IH. split.
    - intros (A & B & C). auto.
    - intros (A & B). inversion A; subst. auto.
  Qed.
  Lemma wf_blocks_elim (bs : list (list (ir str str))) :
    fold_right (fun b r => fold_right (fun x q => well_formed ar x /\ q) r b) True bs <-> Forall (Forall (well_formed ar)) bs.
  Proof.
    induction bs as [|b bs IH]; simpl; [split; auto|]. rewrite wf_block_elim, IH. split.
    - intros (A & B). auto.
    - intros A. inversion A; subst. auto.
  Qed.

  Notation tr := (map_ir (text rho) (text sigma) (fun x => x)).
  Lemma forall_in_app {A} (P : A -> Prop) a b : (forall x, In x (a ++ b) -> P x) -> (forall x, In x a -> P x) /\ (forall x, In x b -> P x).
  Proof. intros H. split; intros x I; apply H, in_app_iff; auto. Qed.
  Lemma forall_in_flat {A B} (P : B -> Prop) (g : A -> list B) l :
    (forall x, In x (flat_map g l) -> P x) -> forall y, In y l -> forall x, In x (g y) -> P x.
  Proof. intros H y Iy x Ix. apply H, in_flat_map. eauto. Qed.

  Ltac split_bounds := repeat match goal with
    | H : forall x, In x (_ ++ _) -> _ |- _ => apply forall_in_app in H; destruct H
    end.
  Ltac in_bounds := first [assumption | match goal with H : forall n, In n _ -> _ |- _ => apply H; cbn [In]; tauto end].
  Ltac ops_bounds := match goal with
    | H : (forall x, In x (flat_map op_local ?l) -> _), H2 : (forall x, In x (flat_map op_string ?l) -> _) |- context [map_o from_op (map _ ?l)] =>
      rewrite map_o_map, (map_o_ok _ op_of l) by
        (intros o Io; apply from_op_text; intros n In_n; [apply H|apply H2]; apply in_flat_map; exists o; split; assumption)
    end.

  Lemma block_ok (l : list (ir str str)) m :
    (forall s, In s l -> well_formed ar s -> forall m, node_to_statement (tr s) m = Ok (stmt_of s, maxes m (map rho (subjects s)))) ->
    Forall (well_formed ar) l ->
    thread node_to_statement (map tr l) m = Ok (map stmt_of l, maxes m (map rho (flat_map subjects l))).
  Proof.
    intros H W. rewrite Forall_forall in W. rewrite (thread_ok _ tr stmt_of (fun x => map rho (subjects x))).
    - now rewrite maxes_flat.
    - apply Forall_forall. auto.
  Qed.
  Lemma node_to_statement_ok s : bounded s -> well_formed ar s -> forall m,
    node_to_statement (tr s) m = Ok (stmt_of s, maxes m (map rho (subjects s))).
  Proof.
    induction s as [s IH] using ir_ind'. intros [BL BS] W m. rewrite Forall_forall in IH.
    destruct s; cbn [map_ir node_to_statement stmt_of subjects locals_in strings_in inner well_formed] in *;
      unfold simple, check; split_bounds;
      try (repeat first
        [ rewrite from_op_text by assumption | rewrite from_value_text by assumption | ops_bounds
        | rewrite from_index_text by in_bounds | unfold text at 1; rewrite to_index_dec by in_bounds ]; cbn [obind fst snd];
        repeat (unfold text at 1; first [ rewrite to_index_dec by in_bounds ]; cbn [obind fst snd]); reflexivity).
    - (* Block *)
      apply wf_blocks_elim in W. rewrite Forall_forall in W.
      rewrite (thread_ok _ (map tr) (map stmt_of) (fun b => map rho (flat_map subjects b))).
      + cbn [obind fst snd]. now rewrite maxes_flat.
      + apply Forall_forall. intros b Ib m'. rewrite (thread_ok _ tr stmt_of (fun x => map rho (subjects x))).
        * now rewrite maxes_flat.
        * apply Forall_forall. intros x Ix. pose proof (W b Ib) as Wb. rewrite Forall_forall in Wb. apply IH.
          -- apply in_concat. eauto.
          -- split; intros n Hn; [apply BL|apply BS]; apply in_flat_map; exists b; split; auto; apply in_flat_map; eauto.
          -- auto.
    - tauto.
    - unfold text. rewrite from_index_text by (apply BS; now left). cbn [obind].
      rewrite to_index_dec by (apply BL; now left). reflexivity.
    - rewrite (block_ok body m); [reflexivity| |].
      + intros x Ix. apply IH; auto. split; intros n Hn; [apply BL|apply BS]; apply in_flat_map; eauto.
      + apply wf_block_elim in W. tauto.
    - unfold text. rewrite !from_index_text by (apply BL; cbn [In]; tauto). cbn [obind].
      rewrite to_index_dec by (apply BL; cbn [In]; tauto). reflexivity.
    - unfold text at 1 2 3. rewrite !to_index_dec by (apply H0; cbn [In]; tauto). cbn [obind fst snd].
      rewrite to_index_dec by (apply H0; cbn [In]; tauto). cbn [obind fst snd].
      rewrite to_index_dec by (apply H0; cbn [In]; tauto). cbn [obind fst snd].
      rewrite block_ok; [reflexivity| |].
      + intros x Ix. apply IH; auto. split; intros n Hn; [apply H|apply BS]; apply in_flat_map; eauto.
      + apply wf_block_elim in W. tauto.
    - unfold text at 1. rewrite to_index_dec by (match goal with H : forall x, In x [local] -> _ |- _ => apply H; now left end).
      cbn [obind fst snd].
      rewrite map_o_map, (map_o_ok _ sigma path) by (intros x Ix; apply to_size_dec; auto). cbn [obind].
      rewrite from_op_text by assumption. cbn [obind].
      rewrite block_ok; [now rewrite map_map| |].
      + intros x Ix. apply IH; auto. split; intros n Hn;
          [match goal with H : forall x, In x (flat_map locals_in body) -> _ |- _ => apply H end
          |match goal with H : forall x, In x (flat_map strings_in body) -> _ |- _ => apply H end]; apply in_flat_map; eauto.
      + apply wf_block_elim in W. tauto.
  Qed.

  (** *** Reading back *)
  Lemma opt_list_ok {A B} (g : A -> option B) {C} (h : C -> A) (k : C -> B) l :
    (forall x, In x l -> g (h x) = Some (k x)) -> opt_list g (map h l) = Some (map k l).
  Proof.
    induction l as [|x l IH]; intros H; [reflexivity|]. cbn [map opt_list]. rewrite (H x) by (left; auto).
    fold (opt_list g). rewrite IH; auto. intros y I. apply H. now right.
  Qed.
  Lemma says_op_of o : says_op (op_of o) = Some (map_op rho sigma o).
  Proof. destruct o as [n|x|[|]]; reflexivity. Qed.
  Lemma says_stmt_of s : bounded s -> well_formed ar s -> says (stmt_of s) = Some (map_ir rho sigma norm s).
  Proof.
    induction s as [s IH] using ir_ind'. intros [BL BS] W. rewrite Forall_forall in IH.
    assert (OPS : forall l, opt_list says_op (map op_of l) = Some (map (map_op rho sigma) l)).
    { intros l. apply opt_list_ok. intros o _. apply says_op_of. }
    destruct s; cbn [map_ir stmt_of says locals_in strings_in inner well_formed] in *; rewrite ?says_op_of, ?OPS;
      try reflexivity.
    - apply wf_blocks_elim in W. rewrite Forall_forall in W.
      rewrite (opt_list_ok _ (map stmt_of) (map (map_ir rho sigma norm))); [reflexivity|].
      intros b Ib. apply opt_list_ok. intros x Ix. pose proof (W b Ib) as Wb. rewrite Forall_forall in Wb. apply IH; auto.
      + apply in_concat. eauto.
      + split; intros n Hn; [apply BL|apply BS]; apply in_flat_map; exists b; split; auto; apply in_flat_map; eauto.
    - apply wf_block_elim in W. destruct W as [W _]. rewrite Forall_forall in W.
      rewrite (opt_list_ok _ stmt_of (map_ir rho sigma norm)); [reflexivity|]. intros x Ix. apply IH; auto.
      split; intros n Hn; [apply BL|apply BS]; apply in_flat_map; eauto.
    - apply wf_block_elim in W. destruct W as [W _]. rewrite Forall_forall in W. cbn [says_index idx_of o_type o_word].
      rewrite (opt_list_ok _ stmt_of (map_ir rho sigma norm)); [reflexivity|]. intros x Ix. apply IH; auto.
      split; intros n Hn; [apply BL, in_app_iff; left|apply BS]; apply in_flat_map; eauto.
    - apply wf_block_elim in W. destruct W as [W _]. rewrite Forall_forall in W.
      rewrite (opt_list_ok _ stmt_of (map_ir rho sigma norm)).
      + cbn [with2]. rewrite map_map. do 2 f_equal. apply map_ext_in. intros x Ix. apply Z2N.id.
        assert (small (sigma x)) by (apply BS, in_app_iff; auto). unfold small in *. lia.
      + intros x Ix. apply IH; auto. split; intros n Hn; [apply BL|apply BS]; rewrite !in_app_iff; [right; left|right; right];
          apply in_flat_map; eauto.
  Qed.

  (** *** Verification *)
  Lemma slots_stmt_of s : slots_ok (stmt_of s) = true.
  Proof.
    induction s as [s IH] using ir_ind'. rewrite Forall_forall in IH.
    assert (BL : forall l, (forall x, In x l -> slots_ok (stmt_of x) = true) -> slots_ok_block (map stmt_of l) = true).
    { intros l H. unfold slots_ok_block. apply forallb_forall. intros y Iy. apply in_map_iff in Iy. destruct Iy as (x & <- & Ix). auto. }
    destruct s; cbn [stmt_of slots_ok inner] in *; rewrite ?slots_nested, ?slots_nested2; try reflexivity; try (now apply BL).
    apply andb_true_iff. split; auto. apply forallb_forall. intros y Iy. apply in_map_iff in Iy. destruct Iy as (b & <- & Ib).
    apply BL. intros x Ix. apply IH, in_concat. eauto.
  Qed.

  Variable b : bundle.
  Definition fits (s : ir str str) : Prop :=
    (forall n, In n (locals_in s) -> rho n < zn (b_locals b)) /\
    (forall x, In x (strings_in s) -> sigma x < zlen (b_strings b)) /\
    (forall x, In x (numbers_in s) -> sigma x < zn (b_locals b)).
  Hypothesis calls : forall g i, sm_find g (b_name_to_func b) = Some i ->
    exists callee, znth (b_functions b) (zn i) = Some callee /\ ar g = Some (length (f_params callee)).
  Lemma index_small ty z : small z -> o_index (Op ty z) = z.
  Proof. unfold small, o_index. intros B. cbn [o_word]. apply Z.mod_small. lia. Qed.
  Lemma verify_op_of o : (forall n, In n (op_local o) -> small (rho n)) -> (forall n, In n (op_string o) -> small (sigma n)) ->
    (forall n, In n (op_local o) -> rho n < zn (b_locals b)) -> (forall x, In x (op_string o) -> sigma x < zlen (b_strings b)) ->
    verify_operand b (op_of o) = Ok tt.
  Proof.
    destruct o as [n|x|[|]]; simpl; intros H1 H2 H3 H4; auto; unfold verify_operand; cbn [o_type]; rewrite index_small by auto;
      unfold require; [specialize (H3 n (or_introl eq_refl))|specialize (H4 x (or_introl eq_refl))];
      match goal with |- context [?a <? ?c] => destruct (Z.ltb_spec a c); [reflexivity|lia] end.
  Qed.
  Lemma verify_idx_of z : small z -> z < zn (b_locals b) -> verify_operand b (idx_of z) = Ok tt.
  Proof.
    intros B H. unfold verify_operand, idx_of. cbn [o_type]. rewrite index_small by auto. unfold require.
    destruct (Z.ltb_spec z (zn (b_locals b))); [reflexivity|lia].
  Qed.
  Lemma verify_none : verify_operand b none_op = Ok tt. Proof. reflexivity. Qed.
  Lemma verify_int t : verify_operand b (int_of t) = Ok tt. Proof. reflexivity. Qed.
  Lemma target_ok ty z : small z -> z < zn (b_locals b) ->
    require (ignores_target ty || ((0 <=? z) && (z <? zn (b_locals b)))) = Ok tt.
  Proof.
    intros [B _] H. unfold require. destruct (Z.leb_spec 0 z); [|lia]. destruct (Z.ltb_spec z (zn (b_locals b))); [|lia].
    now rewrite orb_true_r.
  Qed.

  Lemma verify_stmt_of s : bounded s -> well_formed ar s -> fits s -> verify_stmt b (stmt_of s) = Ok tt.
  Proof.
    induction s as [s IH] using ir_ind'. intros [BL BS] W (FL & FS & FN). rewrite Forall_forall in IH.
    assert (OPS : forall l, (forall n, In n (flat_map op_local l) -> small (rho n)) -> (forall n, In n (flat_map op_string l) -> small (sigma n)) ->
      (forall n, In n (flat_map op_local l) -> rho n < zn (b_locals b)) -> (forall x, In x (flat_map op_string l) -> sigma x < zlen (b_strings b)) ->
      each (verify_operand b) (map op_of l) = Ok tt).
    { intros l H1 H2 H3 H4. apply each_ok_intro, Forall_forall. intros y Iy. apply in_map_iff in Iy. destruct Iy as (o & <- & Io).
      apply verify_op_of; intros n Hn; [apply H1|apply H2|apply H3|apply H4]; apply in_flat_map; eauto. }
    assert (BK : forall l, (forall n, In n (flat_map locals_in l) -> small (rho n)) -> (forall n, In n (flat_map strings_in l) -> small (sigma n)) ->
      (forall n, In n (flat_map locals_in l) -> rho n < zn (b_locals b)) -> (forall x, In x (flat_map strings_in l) -> sigma x < zlen (b_strings b)) ->
      (forall x, In x (flat_map numbers_in l) -> sigma x < zn (b_locals b)) -> incl l (inner s) ->
      Forall (well_formed ar) l -> verify_block b (map stmt_of l) = Ok tt).
    { intros l H1 H2 H3 H4 H5 H6 H7. apply each_ok_intro, Forall_forall. intros y Iy. apply in_map_iff in Iy. destruct Iy as (o & <- & Io).
      rewrite Forall_forall in H7. apply IH; auto; [split|split; [|split]]; intros n Hn;
      [apply H1|apply H2|apply H3|apply H4|apply H5]; apply in_flat_map; eauto. }
    destruct s; cbn [verify_stmt stmt_of locals_in strings_in numbers_in inner well_formed] in *; split_bounds;
      rewrite ?verify_blocks_nested, ?verify_block_nested;
      try (rewrite target_ok by in_bounds);
      rewrite ?verify_none, ?verify_int; cbn [obind];
      repeat (rewrite verify_op_of by assumption; cbn [obind]);
      try reflexivity.
    - destruct (require (ignores_target SBlock || _)) eqn:R; try (cbn in R; discriminate). cbn [obind].
      apply wf_blocks_elim in W. rewrite Forall_forall in W.
      apply each_ok_intro, Forall_forall. intros y Iy. apply in_map_iff in Iy. destruct Iy as (l & <- & Il).
      apply BK; auto; try (intros n Hn; first [apply BL|apply BS|apply FL|apply FS|apply FN]; apply in_flat_map; eauto; fail).
      intros x Ix. apply in_concat. eauto.
    - tauto.
    - rewrite OPS by assumption. cbn [obind]. destruct (sm_find f (b_name_to_func b)) as [i|] eqn:C; [|reflexivity].
      destruct (calls f i C) as (callee & -> & A). rewrite A in W. unfold zlen. rewrite map_length. unfold require.
      match goal with |- context [?a <=? ?c] => destruct (Z.leb_spec a c); [reflexivity|lia] end.
    - rewrite !OPS by assumption. reflexivity.
    - rewrite verify_idx_of by in_bounds. cbn [obind]. unfold idx_of. rewrite index_small by in_bounds. unfold require.
      match goal with |- context [?a <? ?c] => destruct (Z.ltb_spec a c) as [|G]; [reflexivity|] end.
      specialize (FS idx (or_introl eq_refl)). lia.
    - destruct (require (ignores_target SNot || _)) eqn:R; try (cbn in R; discriminate). cbn [obind].
      apply wf_block_elim in W. apply BK; auto; try tauto. apply incl_refl.
    - repeat (rewrite verify_idx_of by in_bounds; cbn [obind]). reflexivity.
    - repeat (rewrite verify_idx_of by in_bounds; cbn [obind]). apply wf_block_elim in W. apply BK; auto; try tauto. apply incl_refl.
    - apply wf_block_elim in W. rewrite BK by (first [assumption|apply incl_refl|tauto]). cbn [obind].
      apply each_ok_intro, Forall_forall. intros i Ii. apply in_map_iff in Ii. destruct Ii as (x & <- & Ix).
      assert (small (sigma x)) as [? ?] by auto. rewrite Z2N.id by lia. unfold require.
      match goal with |- context [?a <? ?c] => destruct (Z.ltb_spec a c) as [|G]; [reflexivity|] end.
      assert (sigma x < zlen (b_strings b)) by auto. lia.
  Qed.
End Read.
