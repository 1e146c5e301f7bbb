(** Proofs about the splitting of unifications. *)
From Coq Require Import String ZArith List Bool Arith Lia.
From Verif Require Import Base SMap BigIntModel ValueModel SplitModel SplitSpec.
Import ListNotations.

Section Ind.
Variable P : term -> Prop.
Hypothesis Hv : forall x, P (TVar x).
Hypothesis Hs : forall v, P (TScalar v).
Hypothesis Ha : forall l, Forall P l -> P (TArray l).
Fixpoint term_ind' (t : term) : P t :=
  match t with
  | TVar x => Hv x
  | TScalar v => Hs v
  | TArray l => Ha l ((fix go l : Forall P l := match l with [] => Forall_nil P | t :: l' => Forall_cons t (term_ind' t) (go l') end) l)
  end.
End Ind.

Lemma name_eqb_eq a b : name_eqb a b = true <-> a = b.
Proof.
  destruct a, b; simpl; try (split; congruence).
  - rewrite str_eqb_eq. split; congruence.
  - rewrite Nat.eqb_eq. split; congruence.
Qed.

Lemma is_assigned_iff s x : is_assigned s x = true <-> In x (assigned s).
Proof.
  unfold is_assigned. rewrite existsb_exists. split.
  - intros [y [H E]]. apply name_eqb_eq in E. subst. exact H.
  - intro H. exists x. split; [exact H | apply name_eqb_eq; reflexivity].
Qed.
Lemma is_assigned_not s x : is_assigned s x = false <-> ~ In x (assigned s).
Proof. rewrite <- is_assigned_iff. destruct (is_assigned s x); split; congruence. Qed.
Lemma all_assigned_iff s t : all_assigned s t = true <-> (forall x, In x (vars t) -> In x (assigned s)).
Proof.
  unfold all_assigned. rewrite forallb_forall. split; intros H x Hx; apply is_assigned_iff; auto.
Qed.

(** ** Environments that agree *)
Lemma old_le n m x : n <= m -> old n x -> old m x.
Proof. destruct x; simpl; lia. Qed.
Lemma old_term_le n m t : n <= m -> old_term n t -> old_term m t.
Proof. intros L H x Hx. apply (old_le n m x L), H, Hx. Qed.
Lemma agree_le n m e f : n <= m -> agree m e f -> agree n e f.
Proof. intros L H x Hx. apply H, (old_le n m x L Hx). Qed.
Lemma agree_trans n e f g : agree n e f -> agree n f g -> agree n e g.
Proof. intros A B x Hx. rewrite (A x Hx). apply B, Hx. Qed.
Lemma agree_sym n e f : agree n e f -> agree n f e.
Proof. intros A x Hx. symmetry. apply A, Hx. Qed.

Lemma old_array n l : old_term n (TArray l) <-> Forall (old_term n) l.
Proof.
  rewrite Forall_forall. unfold old_term. simpl. split.
  - intros H t Ht x Hx. apply H, in_flat_map. exists t. split; assumption.
  - intros H x Hx. apply in_flat_map in Hx as [t [Ht Hx]]. apply (H t Ht x Hx).
Qed.

Lemma eval_agree n e f t : old_term n t -> agree n e f -> eval e t = eval f t.
Proof.
  intros O A. induction t as [x|v|l IH] using term_ind'; simpl.
  - apply A, O. simpl. auto.
  - reflexivity.
  - apply old_array in O. f_equal. apply map_ext_in. intros t Ht.
    rewrite Forall_forall in IH, O. apply IH; auto.
Qed.

Definition lit_old (n : nat) (l : lit) : Prop :=
  match l with
  | LAssign x t => old n x /\ old_term n t
  | LEquals t u => old_term n t /\ old_term n u
  | LIsArray v _ => old n v
  | LFromArray d v _ => old n d /\ old n v
  end.
Lemma lit_old_le n m l : n <= m -> lit_old n l -> lit_old m l.
Proof.
  intros L. destruct l; simpl; [intros [A B]|intros [A B]|intros A|intros [A B]]; try split;
    eauto using old_le, old_term_le.
Qed.
Lemma holds_agree n e f l : lit_old n l -> agree n e f -> holds e l -> holds f l.
Proof.
  intros O A. destruct l; simpl in *.
  - destruct O as [O1 O2]. rewrite <- (A x O1), <- (eval_agree n e f t O2 A). auto.
  - destruct O as [O1 O2]. rewrite <- (eval_agree n e f t O1 A), <- (eval_agree n e f u O2 A). auto.
  - rewrite <- (A v O). auto.
  - destruct O as [O1 O2]. rewrite <- (A v O2), <- (A d O1). auto.
Qed.

Lemma runs_app a ls a1 ms a2 : runs a ls a1 -> runs a1 ms a2 -> runs a (ls ++ ms) a2.
Proof.
  revert a. induction ls as [|l ls IH]; intros a H G; simpl in *.
  - subst. exact G.
  - destruct l; intuition.
Qed.
Lemma runs_incl a ls a' : runs a ls a' -> forall x, In x a -> In x a'.
Proof.
  revert a. induction ls as [|l ls IH]; intros a H x Hx; simpl in *.
  - subst. exact Hx.
  - destruct l; decompose [and] H; eapply IH; eauto; simpl; auto.
Qed.

(** ** One step of splitting: [P] is what the added literals say, [V] are names that have values afterwards *)
Definition fine (s : graph) : Prop := dropped s = [] /\ error s = false.
Definition quiet (s : graph) : Prop := existsb clash (lits s) = false.
Record step (s s' : graph) (P : env -> Prop) (V : list name) : Prop := {
  st_next : next s <= next s';
  st_sound : sound s';
  st_err : error s' = false -> error s = false;
  st_incl : forall x, In x (assigned s) -> In x (assigned s');
  st_fine : fine s' -> fine s;
  st_vars : fine s' -> quiet s' -> forall x, In x V -> In x (assigned s');
  st_lits : exists new, lits s' = lits s ++ new /\ Forall (lit_old (next s')) new /\ (error s' = false -> runs (assigned s) new (assigned s'))
    /\ (fine s' -> forall e, Forall (holds e) new -> P e)
    /\ (forall e, P e -> exists f, agree (next s) e f /\ Forall (holds f) new) }.

Lemma step_iff s s' P Q V : (forall e, P e <-> Q e) -> step s s' P V -> step s s' Q V.
Proof.
  intros H [A B Er In C D [new [E1 [E2 [E3 [E4 E5]]]]]]. constructor; auto.
  exists new. repeat split; auto.
  - intros F e He. apply H, E4; auto.
  - intros e He. apply E5, H, He.
Qed.

Definition stable (n : nat) (P : env -> Prop) : Prop := forall e f, agree n e f -> P e -> P f.

Lemma step_seq s s1 s2 P1 P2 V1 V2 :
  step s s1 P1 V1 -> step s1 s2 P2 V2 -> stable (next s) P2 -> step s s2 (fun e => P1 e /\ P2 e) (V1 ++ V2).
Proof.
  intros S1 S2 St.
  destruct S1 as [A B Er I C D [n1 [E1 [E2 [E3 [E4 E5]]]]]], S2 as [A' B' Er' I' C' D' [n2 [G1 [G2 [G3 [G4 G5]]]]]].
  constructor; auto; [lia| |].
  - intros F Q x Hx. apply in_app_or in Hx as [Hx|Hx]; auto. apply I', D; auto.
    unfold quiet in *. rewrite G1, existsb_app in Q. apply orb_false_iff in Q. tauto.
  - exists (n1 ++ n2). split; [rewrite G1, E1, app_assoc; reflexivity|]. split; [|split; [|split]].
    + apply Forall_app. split; auto. eapply Forall_impl; [|exact E2]. intros l. apply lit_old_le, A'.
    + intro F. apply (runs_app _ _ _ _ _ (E3 (Er' F)) (G3 F)).
    + intros F e He. apply Forall_app in He as [H1 H2]. auto.
    + intros e [H1 H2]. destruct (E5 e H1) as [f [F1 F2]].
      destruct (G5 f (St _ _ F1 H2)) as [g [K1 K2]]. exists g. split.
      * apply (agree_trans _ _ f); auto. apply (agree_le _ _ _ _ A K1).
      * apply Forall_app. split; auto.
        rewrite Forall_forall in *. intros l Hl. apply (holds_agree (next s1) f g l); auto.
Qed.

(** ** The literals *)
Lemma step_equals s t u : sound s -> old_term (next s) t -> old_term (next s) u ->
  (forall x, In x (vars t ++ vars u) -> In x (assigned s)) ->
  step s (add_equals t u s) (fun e => unifies e t u) (vars t ++ vars u).
Proof.
  intros S Ot Ou I. constructor; simpl; auto.
  exists [LEquals t u]. split; [reflexivity|]. split; [repeat constructor; simpl; auto|]. split; [simpl; auto|]. split.
  - intros _ e He. inversion He; subst. assumption.
  - intros e He. exists e. split; [intros x _; reflexivity | repeat constructor; exact He].
Qed.

Lemma step_clash s t u : sound s -> old_term (next s) t -> old_term (next s) u -> clash (LEquals t u) = true ->
  step s (add_equals t u s) (fun e => unifies e t u) (vars t ++ vars u).
Proof.
  intros S Ot Ou I. constructor; simpl; auto.
  - intros _ Q. unfold quiet in Q. simpl in Q. rewrite existsb_app in Q. apply orb_false_iff in Q as [_ Q].
    cbn [existsb] in Q. rewrite I in Q. discriminate Q.
  - exists [LEquals t u]. split; [reflexivity|]. split; [repeat constructor; simpl; auto|]. split; [simpl; auto|]. split.
    + intros _ e He. inversion He; subst. assumption.
    + intros e He. exists e. split; [intros x _; reflexivity | repeat constructor; exact He].
Qed.

Lemma step_assign s x t : sound s -> old (next s) x -> old_term (next s) t -> ~ In x (assigned s) ->
  (forall y, In y (vars t) -> In y (assigned s)) ->
  step s (add_assign x t s) (fun e => unifies e (TVar x) t) (x :: vars t).
Proof.
  intros S Ox Ot N I. constructor; simpl; auto.
  - intros y [<-|Hy]; auto.
  - intros _ _ y [<-|Hy]; auto.
  - exists [LAssign x t]. split; [reflexivity|]. split; [repeat constructor; simpl; auto|]. split; [simpl; auto|]. split.
    + intros _ e He. inversion He; subst. assumption.
    + intros e He. exists e. split; [intros y _; reflexivity | repeat constructor; exact He].
Qed.

Lemma step_isarray s v n : sound s -> In v (assigned s) ->
  step s (test (LIsArray v n) s) (fun e => exists l, e v = VArray l /\ length l = n) [].
Proof.
  intros S I. constructor; simpl; auto; [intros _ _ x [] |].
  exists [LIsArray v n]. split; [reflexivity|]. split; [constructor; [apply S, I | constructor]|]. split; [simpl; auto|]. split.
  - intros _ e He. inversion He; subst. assumption.
  - intros e He. exists e. split; [intros y _; reflexivity | repeat constructor; exact He].
Qed.

Definition name_dec (a b : name) : {a = b} + {a <> b}.
Proof. destruct (name_eqb a b) eqn:E; [left; apply name_eqb_eq, E | right; intro H; apply name_eqb_eq in H; congruence]. Defined.

Lemma step_element s t v i s1 : sound s -> In v (assigned s) -> old_term (next s) t ->
  let d := Fresh (next s) in
  step (bind d (LFromArray d v i) (with_fresh s)) s1 (fun e => unifies e t (TVar d)) (vars t ++ [d]) ->
  step s s1 (fun e => exists l, e v = VArray l /\ nth_error l i = Some (eval e t)) (vars t).
Proof.
  intros S I O d [A B Er In0 C D [new [E1 [E2 [E3 [E4 E5]]]]]]. simpl in A, In0, E1, E3, E5.
  assert (Ov : old (next s) v) by (apply S, I).
  constructor; auto; [lia| |].
  - intros F Q x Hx. apply D; auto. apply in_or_app. auto.
  - exists (LFromArray d v i :: new). split; [rewrite E1, <- app_assoc; reflexivity|]. split; [|split; [|split]].
    + constructor; auto. simpl. split; [lia | apply (old_le (next s)); [lia | exact Ov]].
    + intro F. simpl. repeat split; auto. intro H. specialize (S _ H). simpl in S. lia.
    + intros F e He. inversion He as [|? ? H1 H2]; subst. destruct H1 as [l [L1 L2]].
      exists l. split; auto. rewrite L2. f_equal. symmetry. apply (E4 F e H2).
    + intros e [l [L1 L2]].
      set (e0 := fun x => if name_dec x d then eval e t else e x).
      assert (A0 : agree (next s) e e0).
      { intros x Hx. unfold e0. destruct (name_dec x d) as [->|_]; [simpl in Hx; lia | reflexivity]. }
      assert (Ed : e0 d = eval e t) by (unfold e0; destruct (name_dec d d); congruence).
      destruct (E5 e0) as [f [F1 F2]].
      { unfold unifies. simpl. rewrite Ed. symmetry. apply (eval_agree (next s)); auto. }
      assert (A1 : agree (next s) e f).
      { apply (agree_trans _ _ e0); auto. apply (agree_le _ (Datatypes.S (next s))); auto. }
      exists f. split; auto. constructor; auto. simpl. exists l.
      split; [rewrite <- (A1 v Ov); exact L1 | rewrite L2, <- (F1 d ltac:(simpl; lia)), Ed; reflexivity].
Qed.

Lemma nth_error_ext_list {A} (l m : list A) n : length l = n -> length m = n ->
  (forall j, j < n -> nth_error l j = nth_error m j) -> l = m.
Proof.
  revert m n. induction l as [|x l IH]; intros [|y m] n H1 H2 H; simpl in *; subst; try discriminate; auto.
  injection H2 as H2. f_equal.
  - specialize (H 0 ltac:(lia)). simpl in H. congruence.
  - apply (IH m (length l)); auto. intros j Hj. apply (H (S j)). lia.
Qed.

(** ** Against a variable *)
Fixpoint element_loop (v : name) (l : list term) (i : nat) (s : graph) : graph :=
  match l with
  | [] => s
  | t' :: l' => let d := Fresh (next s) in element_loop v l' (S i) (add_term_var t' d (bind d (LFromArray d v i) (with_fresh s)))
  end.
Lemma add_array_var_eq l v s : add_term_var (TArray l) v s = element_loop v l 0 (test (LIsArray v (length l)) s).
Proof.
  cbn [add_term_var]. generalize (test (LIsArray v (length l)) s). generalize 0.
  induction l as [|t l IH]; intros i g; [reflexivity|]. simpl element_loop. rewrite <- IH. reflexivity.
Qed.

Lemma step_term_var t : forall v s, sound s -> In v (assigned s) -> old_term (next s) t ->
  step s (add_term_var t v s) (fun e => unifies e t (TVar v)) (vars t ++ [v]).
Proof.
  induction t as [x|c|l IH] using term_ind'; intros v s S I O.
  - simpl. assert (Ox : old (next s) x) by (apply O; simpl; auto).
    assert (Ov : old_term (next s) (TVar v)) by (intros y [<-|[]]; apply S, I).
    destruct (is_assigned s x) eqn:E.
    + apply is_assigned_iff in E. apply (step_equals s (TVar x) (TVar v)); auto.
      simpl. intros y [<-|[<-|[]]]; auto.
    + apply is_assigned_not in E. apply (step_assign s x (TVar v)); auto. simpl. intros y [<-|[]]; auto.
  - simpl. apply (step_equals s (TScalar c) (TVar v)); auto.
    + intros y [<-|[]]. apply S, I.
    + simpl. intros y [<-|[]]; auto.
  - rewrite add_array_var_eq. apply old_array in O.
    assert (L : forall l, Forall (fun t => forall v s, sound s -> In v (assigned s) -> old_term (next s) t ->
        step s (add_term_var t v s) (fun e => unifies e t (TVar v)) (vars t ++ [v])) l ->
      forall i s, sound s -> In v (assigned s) -> Forall (old_term (next s)) l ->
      step s (element_loop v l i s)
        (fun e => forall j t, nth_error l j = Some t -> exists m, e v = VArray m /\ nth_error m (i + j) = Some (eval e t)) (flat_map vars l)).
    { clear l IH s S I O. intros l IH. induction IH as [|t l Ht _ IHl]; intros i s S I O.
      - simpl. constructor; simpl; auto; [intros _ _ x []|]. exists []. rewrite app_nil_r. split; [reflexivity|]. split; [constructor|]. split; [intro; reflexivity|]. split.
        + intros _ e _ j t Hj. destruct j; discriminate Hj.
        + intros e _. exists e. split; [intros y _; reflexivity | constructor].
      - simpl. set (d := Fresh (next s)). set (s0 := bind d (LFromArray d v i) (with_fresh s)).
        inversion O as [|? ? Ot Ol]; subst.
        assert (S0 : sound s0).
        { intros x [<-|Hx]; simpl; [lia|]. apply (old_le (next s)); [lia | apply S, Hx]. }
        assert (K : step s (add_term_var t d s0) (fun e => exists m, e v = VArray m /\ nth_error m i = Some (eval e t)) (vars t)).
        { apply step_element; auto. apply Ht; simpl; auto. apply (old_term_le (next s)); [lia | exact Ot]. }
        assert (Ov : old (next s) v) by (apply S, I).
        assert (Ol' : Forall (old_term (next (add_term_var t d s0))) l).
        { eapply Forall_impl; [|exact Ol]. intros u. apply old_term_le. apply (st_next _ _ _ _ K). }
        pose proof (IHl (Datatypes.S i) _ (st_sound _ _ _ _ K) (st_incl _ _ _ _ K _ I) Ol') as R.
        eapply step_iff; [|eapply step_seq; [exact K | exact R |]].
        + intro e. split.
          * intros [H1 H2] j u Hj. destruct j as [|j]; simpl in Hj.
            -- inversion Hj; subst. rewrite Nat.add_0_r. exact H1.
            -- rewrite Nat.add_succ_r. apply H2, Hj.
          * intros H. split.
            -- specialize (H 0 t eq_refl). rewrite Nat.add_0_r in H. exact H.
            -- intros j u Hj. specialize (H (Datatypes.S j) u Hj). rewrite Nat.add_succ_r in H. exact H.
        + intros e f A H j u Hj. destruct (H j u Hj) as [m [M1 M2]]. exists m. rewrite <- (A v Ov). split; auto.
          rewrite M2. f_equal. apply (eval_agree (next s)); auto.
          rewrite Forall_forall in Ol. apply Ol. apply (nth_error_In _ _ Hj). }
    assert (Ov : old (next s) v) by (apply S, I).
    pose proof (step_isarray s v (length l) S I) as K.
    pose proof (L l IH 0 (test (LIsArray v (length l)) s) S I O) as R.
    assert (T : step s (element_loop v l 0 (test (LIsArray v (length l)) s))
      (fun e => unifies e (TArray l) (TVar v)) ([] ++ flat_map vars l)).
    { eapply step_iff; [|eapply step_seq; [exact K | exact R |]].
      - intro e. unfold unifies. simpl. split.
        + intros [[m [M1 M2]] H]. rewrite M1. f_equal.
          apply nth_error_ext_list with (n := length l); [rewrite map_length; reflexivity | exact M2 |].
          intros j Hj. rewrite nth_error_map. destruct (nth_error l j) as [t|] eqn:E.
          * destruct (H j t E) as [m' [M3 M4]]. simpl. rewrite <- M4. congruence.
          * apply nth_error_None in E. lia.
        + intros H. split.
          * exists (map (eval e) l). rewrite map_length. auto.
          * intros j t Hj. exists (map (eval e) l). split; auto. rewrite nth_error_map, Hj. reflexivity.
      - intros e f A H j u Hj. destruct (H j u Hj) as [m [M1 M2]]. exists m. rewrite <- (A v Ov). split; auto.
        rewrite M2. f_equal. apply (eval_agree (next s)); auto.
        rewrite Forall_forall in O. apply O. apply (nth_error_In _ _ Hj). }
    destruct T as [A B Er I' C D E]. constructor; auto.
    intros F Q x Hx. simpl in Hx. apply in_app_or in Hx as [Hx|[<-|[]]]; [apply D; auto|]. apply I', I.
Qed.

(** ** Two terms *)
Lemma step_unifyvar_term x t s b s' : sound s -> old (next s) x -> old_term (next s) t ->
  add_unifyvar_term x t s = (b, s') ->
  (b = true -> s' = s) /\ (b = false -> step s s' (fun e => unifies e (TVar x) t) (x :: vars t)).
Proof.
  intros S Ox Ot. assert (Ox' : old_term (next s) (TVar x)) by (intros y [<-|[]]; exact Ox).
  unfold add_unifyvar_term. destruct (all_assigned s t) eqn:E, (is_assigned s x) eqn:F; intro H; inversion H; subst;
    (split; [congruence || auto | intro Hb; try discriminate Hb]).
  - apply (step_equals s (TVar x) t); auto. simpl. rewrite all_assigned_iff in E. apply is_assigned_iff in F.
    intros y [<-|Hy]; auto.
  - rewrite all_assigned_iff in E. apply is_assigned_not in F. apply step_assign; auto.
  - apply is_assigned_iff in F. pose proof (step_term_var t x s S F Ot) as K.
    assert (K' : step s (add_term_var t x s) (fun e => unifies e (TVar x) t) (vars t ++ [x])).
    { eapply step_iff; [|exact K]. intro e. unfold unifies. split; congruence. }
    destruct K' as [A B Er I C D G]. constructor; auto. intros Fi Q y Hy. apply D; auto. apply in_or_app. destruct Hy; simpl; auto.
Qed.

Fixpoint pairs_loop (l r : list term) (s : graph) : outcome graph :=
  match l with
  | [] => Ok s
  | t' :: l' =>
      match r with
      | [] => Throw
      | u' :: r' =>
          let! p := add_terms t' u' s in
          pairs_loop l' r' (if fst p then drop t' u' (snd p) else snd p)
      end
  end.
Lemma add_arrays_eq l r s : add_terms (TArray l) (TArray r) s =
  let s0 := if length l =? length r then s else set_error s in
  let! all := scan s0 l r in
  if all then Ok (false, add_equals (TArray l) (TArray r) s0) else let! s' := pairs_loop l r s0 in Ok (false, s').
Proof.
  reflexivity.
Qed.

Lemma scan_all s l r : scan s l r = Ok true -> length l <= length r /\
  (forall x, In x (flat_map vars l) -> In x (assigned s)) /\
  (forall x, In x (flat_map vars (firstn (length l) r)) -> In x (assigned s)).
Proof.
  revert r. induction l as [|t l IH]; intros r H; simpl in *.
  - split; [lia|]. split; intros x [].
  - destruct r as [|u r]; [discriminate H|].
    destruct (all_assigned s t) eqn:E, (all_assigned s u) eqn:F; simpl in H; try discriminate H.
    rewrite all_assigned_iff in E, F. destruct (IH r H) as [A [B C]]. simpl.
    split; [lia|]. split; intros x Hx; apply in_app_or in Hx as [Hx|Hx]; auto.
Qed.

Lemma old_unifies_stable n t u : old_term n t -> old_term n u -> stable n (fun e => unifies e t u).
Proof.
  intros A B e f G H. unfold unifies in *. rewrite <- (eval_agree n e f t A G), <- (eval_agree n e f u B G). exact H.
Qed.

Definition unify_all (e : env) (l r : list term) : Prop := map (eval e) l = map (eval e) r.

Lemma step_drop s s1 t u P : step s s1 (fun _ => True) [] -> step s (drop t u s1) P (vars t ++ vars u).
Proof.
  intros [A B Er I C D [new [E1 [E2 [E3 [E4 E5]]]]]]. 
  assert (N : ~ fine (drop t u s1)) by (intros [F _]; simpl in F; destruct (dropped s1); discriminate F).
  constructor; simpl; auto; try (intro F; destruct (N F)).
  exists new. split; [exact E1|]. split; [exact E2|]. split; [exact E3|]. split; [intro F; destruct (N F)|]. auto.
Qed.

Lemma step_refl s : sound s -> step s s (fun _ => True) [].
Proof.
  intro S. constructor; auto; [intros _ _ x []|]. exists []. rewrite app_nil_r.
  split; [reflexivity|]. split; [constructor|]. split; [intro; reflexivity|]. split; [auto|].
  intros e _. exists e. split; [intros x _; reflexivity | constructor].
Qed.

Lemma step_error s : sound s -> step s (set_error s) (fun _ => True) [].
Proof.
  intro S. constructor; simpl; auto; [intro F; discriminate F|intros [_ F]; discriminate F|intros [_ F]; discriminate F|].
  exists []. rewrite app_nil_r.
  split; [reflexivity|]. split; [constructor|]. split; [intro F; discriminate F|]. split; [auto|].
  intros e _. exists e. split; [intros x _; reflexivity | constructor].
Qed.

Theorem step_terms t : forall u s b s', sound s -> old_term (next s) t -> old_term (next s) u ->
  add_terms t u s = Ok (b, s') ->
  (b = true -> s' = s) /\ (b = false -> step s s' (fun e => unifies e t u) (vars t ++ vars u)).
Proof.
  assert (SV : forall x t s b s', sound s -> old_term (next s) t -> old_term (next s) (TVar x) ->
    add_unifyvar_term x t s = (b, s') ->
    (b = true -> s' = s) /\ (b = false -> step s s' (fun e => unifies e t (TVar x)) (vars t ++ [x]))).
  { intros x t0 s b s' S O1 O2 H. destruct (step_unifyvar_term x t0 s b s' S (O2 x (or_introl eq_refl)) O1 H) as [A B].
    split; auto. intro Hb. specialize (B Hb).
    assert (K : step s s' (fun e => unifies e t0 (TVar x)) (x :: vars t0)).
    { eapply step_iff; [|exact B]. intro e. unfold unifies. split; intro G; symmetry; exact G. }
    destruct K as [K1 K2 K3 K4 K5 K6 K7]. constructor; auto.
    intros F Q y Hy. apply K6; auto. apply in_app_or in Hy. simpl in *. tauto. }
  induction t as [x|c|l IH] using term_ind'; intros u s b s' S Ot Ou H.
  - destruct u as [y|c|r].
    + simpl in H. injection H as H. unfold add_unifyvars in H.
      destruct (is_assigned s x) eqn:E, (is_assigned s y) eqn:F; inversion H; subst; (split; [congruence || auto | intro Hb; try discriminate Hb]).
      * apply is_assigned_iff in E, F. apply (step_equals s (TVar x) (TVar y)); auto.
        simpl. intros z [<-|[<-|[]]]; auto.
      * apply is_assigned_iff in E. apply is_assigned_not in F.
        assert (K : step s (add_assign y (TVar x) s) (fun e => unifies e (TVar y) (TVar x)) [y; x]).
        { apply (step_assign s y (TVar x)); auto; [apply Ou; simpl; auto|]. simpl. intros z [<-|[]]; auto. }
        assert (K' : step s (add_assign y (TVar x) s) (fun e => unifies e (TVar x) (TVar y)) [y; x]).
        { eapply step_iff; [|exact K]. intro e. unfold unifies. split; intro G; symmetry; exact G. }
        destruct K' as [K1 K2 K3 K4 K5 K6 K7]. constructor; auto.
        intros Fi Q z Hz. apply K6; auto. simpl in *. tauto.
      * apply is_assigned_iff in F. apply is_assigned_not in E.
        apply (step_assign s x (TVar y)); auto; [apply Ot; simpl; auto|]. simpl. intros z [<-|[]]; auto.
    + simpl in H. injection H as H. apply (step_unifyvar_term x (TScalar c) s b s' S); auto. apply Ot; simpl; auto.
    + cbn [add_terms] in H. injection H as H. apply (step_unifyvar_term x (TArray r) s b s' S); auto. apply Ot; simpl; auto.
  - destruct u as [y|d|r]; cbn [add_terms] in H; injection H as H.
    + apply (SV y (TScalar c)); auto.
    + subst. split; [congruence|]. intros _. apply step_equals; auto. simpl. intros x [].
    + subst. split; [congruence|]. intros _. apply step_clash; auto.
  - destruct u as [y|d|r].
    + cbn [add_terms] in H. injection H as H. apply (SV y (TArray l)); auto.
    + cbn [add_terms] in H. injection H as H. subst. split; [congruence|]. intros _. apply step_clash; auto.
    + rewrite add_arrays_eq in H. cbv zeta in H.
      set (s0 := if length l =? length r then s else set_error s) in *.
      assert (S0 : step s s0 (fun _ => True) []).
      { unfold s0. destruct (length l =? length r); [apply step_refl, S | apply step_error, S]. }
      assert (N0 : next s0 = next s) by (unfold s0; destruct (length l =? length r); reflexivity).
      assert (Er0 : length l = length r \/ error s0 = true).
      { unfold s0. destruct (length l =? length r) eqn:E; [left; apply Nat.eqb_eq, E | right; reflexivity]. }
      clearbody s0.
      apply old_array in Ot as Ol. apply old_array in Ou as Or. rewrite <- N0 in Ol, Or.
      destruct (scan s0 l r) as [[|]| | |] eqn:E; simpl in H; try discriminate H.
      * injection H as <- <-. split; [congruence|]. intros _.
        apply scan_all in E as [E1 [E2 E3]].
        eapply step_iff; [|eapply (step_seq s s0 _ (fun _ => True) (fun e => unifies e (TArray l) (TArray r)) []);
          [exact S0 | | apply old_unifies_stable; auto]].
        { intro e. tauto. }
        destruct Er0 as [Er0|Er0].
        { apply step_equals; [apply (st_sound _ _ _ _ S0)|rewrite N0; exact Ot|rewrite N0; exact Ou|].
          intros x Hx. simpl in Hx. apply in_app_or in Hx as [Hx|Hx]; auto.
          rewrite Er0, firstn_all in E3. auto. }
        { assert (Nf : error (add_equals (TArray l) (TArray r) s0) = true) by exact Er0.
          constructor; simpl; auto.
          - apply (st_sound _ _ _ _ S0).
          - intros [_ F]. simpl in F. congruence.
          - exists [LEquals (TArray l) (TArray r)]. split; [reflexivity|].
            split; [constructor; [split; rewrite N0; assumption | constructor]|].
            split; [intro F; congruence|]. split; [intros [_ F]; simpl in F; congruence|].
            intros e He. exists e. split; [intros x _; reflexivity | repeat constructor; exact He]. }
      * destruct (pairs_loop l r s0) as [s1| | |] eqn:G; simpl in H; try discriminate H.
        injection H as <- <-. split; [congruence|]. intros _.
        assert (L : forall l, Forall (fun t => forall u s b s', sound s -> old_term (next s) t -> old_term (next s) u ->
            add_terms t u s = Ok (b, s') ->
            (b = true -> s' = s) /\ (b = false -> step s s' (fun e => unifies e t u) (vars t ++ vars u))) l ->
          forall r s s', sound s -> Forall (old_term (next s)) l -> Forall (old_term (next s)) r ->
          length l = length r \/ error s = true ->
          pairs_loop l r s = Ok s' -> step s s' (fun e => unify_all e l r) (flat_map vars l ++ flat_map vars r)).
        { clear. intros l IH. induction IH as [|t l Ht _ IHl]; intros r s s' S Ol Or Er H.
          - simpl in H. injection H as <-. destruct r as [|u r].
            + eapply step_iff; [|apply step_refl, S]. intro e. split; [reflexivity | auto].
            + destruct Er as [Er|Er]; [discriminate Er|].
              pose proof (step_refl s S) as [A B C D F G K].
              constructor; auto; [intros [_ X]; congruence|].
              exists []. rewrite app_nil_r. split; [reflexivity|]. split; [constructor|]. split; [intro; reflexivity|].
              split; [intros [_ X]; congruence|]. intros e X. discriminate X.
          - destruct r as [|u r]; [discriminate H|]. simpl in H.
            destruct (add_terms t u s) as [[b s1]| | |] eqn:T; simpl in H; try discriminate H.
            inversion Ol as [|? ? Ot Ol']; subst. inversion Or as [|? ? Ou Or']; subst.
            destruct (Ht u s b s1 S Ot Ou T) as [H1 H2].
            set (s2 := if b then drop t u s1 else s1) in *.
            assert (K : step s s2 (fun e => unifies e t u) (vars t ++ vars u)).
            { unfold s2. destruct b; [|apply H2; reflexivity]. rewrite (H1 eq_refl). apply step_drop, step_refl, S. }
            assert (Er2 : length l = length r \/ error s2 = true).
            { destruct Er as [Er|Er]; [left; injection Er as Er; exact Er | right].
              destruct (error s2) eqn:X; auto. pose proof (st_err _ _ _ _ K X). congruence. }
            clearbody s2. pose proof (st_next _ _ _ _ K) as Nx.
            assert (R : step s2 s' (fun e => unify_all e l r) (flat_map vars l ++ flat_map vars r)).
            { apply IHl; auto.
              - apply (st_sound _ _ _ _ K).
              - eapply Forall_impl; [|exact Ol']. intros ?. apply old_term_le, Nx.
              - eapply Forall_impl; [|exact Or']. intros ?. apply old_term_le, Nx. }
            assert (W : step s s' (fun e => unify_all e (t :: l) (u :: r)) ((vars t ++ vars u) ++ (flat_map vars l ++ flat_map vars r))).
            { eapply step_iff; [|eapply step_seq; [exact K | exact R |]].
              - intro e. unfold unify_all, unifies. simpl. split; [intros [-> ->]; reflexivity | intro X; inversion X; auto].
              - intros e f A X. unfold unify_all in *.
                rewrite (map_ext_in (eval f) (eval e) l), (map_ext_in (eval f) (eval e) r); auto;
                  intros w Hw; symmetry; apply (eval_agree (next s)); auto; [rewrite Forall_forall in Or'|rewrite Forall_forall in Ol']; auto. }
            destruct W as [A B C D F G X]. constructor; auto.
            intros Fi Q x Hx. apply G; auto. simpl in Hx. rewrite !in_app_iff in *. tauto. }
        eapply step_iff; [|eapply (step_seq s s0 _ (fun _ => True) _ []); [exact S0 | apply (L l IH r s0 s1); auto; apply (st_sound _ _ _ _ S0) |]].
        -- intro e. unfold unify_all, unifies. simpl. split; [intros [_ ->]; reflexivity | intro X; inversion X; auto].
        -- intros e f A X. unfold unify_all in *. rewrite N0 in Ol, Or.
           rewrite (map_ext_in (eval f) (eval e) l), (map_ext_in (eval f) (eval e) r); auto;
             intros w Hw; symmetry; apply (eval_agree (next s)); auto; [rewrite Forall_forall in Or|rewrite Forall_forall in Ol]; auto.
Qed.

(** ** All unifications *)
Definition unify_pairs (e : env) (q : list (term * term)) : Prop := Forall (fun p => unifies e (fst p) (snd p)) q.
Definition vars_pairs (q : list (term * term)) : list name := flat_map (fun p => vars (fst p) ++ vars (snd p)) q.
Definition old_pairs (n : nat) (q : list (term * term)) : Prop := Forall (fun p => old_term n (fst p) /\ old_term n (snd p)) q.

Lemma old_pairs_le n m q : n <= m -> old_pairs n q -> old_pairs m q.
Proof. intros L. apply Forall_impl. intros p [A B]. split; eapply old_term_le; eauto. Qed.
Lemma unify_pairs_stable n q : old_pairs n q -> stable n (fun e => unify_pairs e q).
Proof.
  intros O e f A H. unfold unify_pairs, old_pairs in *. rewrite Forall_forall in *. intros p Hp.
  destruct (O p Hp) as [O1 O2]. apply (old_unifies_stable n (fst p) (snd p) O1 O2 e f A (H p Hp)).
Qed.

Lemma step_names s s' P V W : (forall x, In x W -> In x V) -> step s s' P V -> step s s' P W.
Proof. intros H [A B C D E F G]. constructor; auto. Qed.

Lemma step_pass q : forall s w s', sound s -> old_pairs (next s) q -> pass q s = Ok (w, s') ->
  length w <= length q /\ exists done, (forall p, In p q <-> In p done \/ In p w) /\ step s s' (fun e => unify_pairs e done) (vars_pairs done).
Proof.
  induction q as [|[t u] q IH]; intros s w s' S O H; simpl in H.
  - injection H as <- <-. split; [lia|]. exists []. split; [intro p; simpl; tauto|].
    eapply step_iff; [|apply step_refl, S]. intro e. split; [constructor | auto].
  - destruct (add_terms t u s) as [[b s1]| | |] eqn:T; simpl in H; try discriminate H.
    destruct (pass q s1) as [[w1 s2]| | |] eqn:R; simpl in H; try discriminate H.
    inversion O as [|? ? [O1 O2] O3]; subst. simpl in O1, O2.
    destruct (step_terms t u s b s1 S O1 O2 T) as [W N]. destruct b; simpl in H; injection H as <- <-.
    + rewrite (W eq_refl) in R. destruct (IH s w1 s2 S O3 R) as [L [d [D K]]]. split; [simpl; lia|].
      exists d. split; auto. intro p. simpl. rewrite D. tauto.
    + specialize (N eq_refl).
      destruct (IH s1 w1 s2 (st_sound _ _ _ _ N) (old_pairs_le _ _ _ (st_next _ _ _ _ N) O3) R) as [L [d [D K]]].
      split; [simpl; lia|]. exists ((t, u) :: d). split; [intro p; simpl; rewrite D; tauto|].
      eapply step_iff; [|eapply (step_seq s s1 s2 _ _ (vars t ++ vars u) (vars_pairs d)); [exact N | exact K |]].
      * intro e. split; [intros [A B]; constructor; auto | intro A; inversion A; subst; auto].
      * apply unify_pairs_stable. unfold old_pairs in *. rewrite Forall_forall in *. intros p Hp. apply O3, D. auto.
Qed.

Lemma step_resolve fuel : forall q s s', sound s -> old_pairs (next s) q -> resolve fuel q s = Ok s' -> error s' = false ->
  step s s' (fun e => unify_pairs e q) (vars_pairs q).
Proof.
  induction fuel as [|fuel IH]; intros q s s' S O H Er.
  - destruct q; simpl in H; [|discriminate H]. injection H as <-.
    eapply step_iff; [|apply step_refl, S]. intro e. split; [constructor | auto].
  - destruct q as [|p q].
    { simpl in H. injection H as <-. eapply step_iff; [|apply step_refl, S]. intro e. split; [constructor | auto]. }
    cbn [resolve] in H.
    set (q0 := p :: q) in *.
    destruct (pass q0 s) as [[w s1]| | |] eqn:R; cbn [obind fst snd] in H; try discriminate H.
    destruct (step_pass q0 s w s1 S O R) as [_ [d [D K]]].
    destruct (length w =? length q0) eqn:L.
    { injection H as <-. discriminate Er. }
    assert (Ow : old_pairs (next s) w).
    { unfold old_pairs in *. rewrite Forall_forall in *. intros x Hx. apply O, D. auto. }
    pose proof (IH w s1 s' (st_sound _ _ _ _ K) (old_pairs_le _ _ _ (st_next _ _ _ _ K) Ow) H Er) as R2.
    apply (step_names _ _ _ (vars_pairs d ++ vars_pairs w)).
    { intros x Hx. unfold vars_pairs in *. apply in_flat_map in Hx as [y [Hy Hx]]. apply in_or_app.
      apply D in Hy as [Hy|Hy]; [left|right]; apply in_flat_map; exists y; auto. }
    eapply step_iff; [|eapply step_seq; [exact K | exact R2 | apply unify_pairs_stable, Ow]].
    intro e. unfold unify_pairs. rewrite !Forall_forall. split.
    + intros [A B] x Hx. apply D in Hx as [Hx|Hx]; auto.
    + intro A. split; intros x Hx; apply A, D; auto.
Qed.

Lemma pass_length q : forall s w s', pass q s = Ok (w, s') -> length w <= length q.
Proof.
  induction q as [|[t u] q IH]; intros s w s' H; simpl in H.
  - injection H as <- <-. simpl. lia.
  - destruct (add_terms t u s) as [[b s1]| | |]; simpl in H; try discriminate H.
    destruct (pass q s1) as [[w1 s2]| | |] eqn:R; simpl in H; try discriminate H.
    apply IH in R. destruct b; injection H as <- <-; simpl; lia.
Qed.

Lemma scan_ends s l r : scan s l r <> OutOfFuel.
Proof.
  revert r. induction l as [|t l IH]; intros [|u r]; simpl; try discriminate.
  destruct (all_assigned s t && all_assigned s u); [apply IH | discriminate].
Qed.
Lemma add_terms_ends t : forall u s, add_terms t u s <> OutOfFuel.
Proof.
  induction t as [x|c|l IH] using term_ind'; intros [y|d|r] s; try discriminate.
  rewrite add_arrays_eq. cbv zeta. set (s0 := if length l =? length r then s else set_error s). clearbody s0.
  pose proof (scan_ends s0 l r) as E. destruct (scan s0 l r) as [[|]| | |]; simpl; try discriminate; [|congruence].
  assert (L : forall r s, pairs_loop l r s <> OutOfFuel).
  { clear -IH. induction IH as [|t l Ht _ IHl]; intros [|u r] s; simpl; try discriminate.
    pose proof (Ht u s) as E. destruct (add_terms t u s) as [[b s1]| | |]; simpl; try discriminate; [apply IHl | congruence]. }
  specialize (L r s0). destruct (pairs_loop l r s0); simpl; try discriminate. congruence.
Qed.
Lemma pass_ends q : forall s, pass q s <> OutOfFuel.
Proof.
  induction q as [|[t u] q IH]; intro s; simpl; [discriminate|].
  pose proof (add_terms_ends t u s) as E. destruct (add_terms t u s) as [[b s1]| | |]; simpl; try discriminate; [|congruence].
  specialize (IH s1). destruct (pass q s1) as [[w s2]| | |]; simpl; try discriminate. congruence.
Qed.
Lemma resolve_ends fuel : forall q s, length q <= fuel -> resolve fuel q s <> OutOfFuel.
Proof.
  induction fuel as [|fuel IH]; intros [|p q] s H; try (simpl in *; discriminate || lia).
  cbn [resolve]. pose proof (pass_ends (p :: q) s) as E. pose proof (pass_length (p :: q) s) as L.
  destruct (pass (p :: q) s) as [[w s1]| | |]; try (simpl; congruence).
  specialize (L w s1 eq_refl). cbn [obind fst snd].
  destruct (length w =? length (p :: q)) eqn:X; [discriminate|].
  apply Nat.eqb_neq in X. apply IH. simpl in *. lia.
Qed.

(** ** One side known *)
Lemma dropped_term_var t : forall v s, dropped (add_term_var t v s) = dropped s.
Proof.
  induction t as [x|c|l IH] using term_ind'; intros v s.
  - simpl. destruct (is_assigned s x); reflexivity.
  - reflexivity.
  - rewrite add_array_var_eq.
    assert (L : forall i s, dropped (element_loop v l i s) = dropped s).
    { clear s. induction IH as [|t l Ht _ IHl]; intros i s; [reflexivity|]. simpl. rewrite IHl, Ht. reflexivity. }
    rewrite L. reflexivity.
Qed.

Definition known (s : graph) (t : term) : Prop := forall x, In x (vars t) -> In x (assigned s).

Lemma unifyvar_term_known x t s : In x (assigned s) \/ known s t ->
  exists s', add_unifyvar_term x t s = (false, s') /\ dropped s' = dropped s.
Proof.
  intros H. unfold add_unifyvar_term. destruct (all_assigned s t) eqn:E.
  - destruct (is_assigned s x); eexists; split; reflexivity.
  - destruct H as [H|H].
    + apply is_assigned_iff in H. rewrite H. eexists. split; [reflexivity | apply dropped_term_var].
    + apply all_assigned_iff in H. congruence.
Qed.

Lemma known_split t : forall u s b s', sound s -> old_term (next s) t -> old_term (next s) u -> known s t \/ known s u ->
  add_terms t u s = Ok (b, s') -> b = false /\ dropped s' = dropped s.
Proof.
  assert (F : forall x t s b s', In x (assigned s) \/ known s t -> Ok (add_unifyvar_term x t s) = Ok (b, s') -> b = false /\ dropped s' = dropped s).
  { intros x t0 s b s' H E. destruct (unifyvar_term_known x t0 s H) as [s1 [E1 E2]]. rewrite E1 in E. injection E as <- <-. auto. }
  induction t as [x|c|l IH] using term_ind'; intros u s b s' S Ot Ou K H.
  - destruct u as [y|c|r]; try (apply (F x _ s b s') in H; auto; destruct K as [K|K]; [left; apply K; simpl; auto | right; exact K]).
    simpl in H. injection H as H. unfold add_unifyvars in H.
    assert (K' : is_assigned s x = true \/ is_assigned s y = true).
    { rewrite !is_assigned_iff. destruct K as [K|K]; [left|right]; apply K; simpl; auto. }
    destruct (is_assigned s x), (is_assigned s y); inversion H; subst; auto. destruct K'; discriminate.
  - destruct u as [y|d|r]; try (injection H as <- <-; auto).
    apply (F y (TScalar c) s b s'); auto. right. intros x [].
  - destruct u as [y|d|r]; try (cbn [add_terms] in H; injection H as <- <-; auto).
    + apply (F y (TArray l) s b s'); auto. destruct K as [K|K]; [right; exact K | left; apply K; simpl; auto].
    + rewrite add_arrays_eq in H. cbv zeta in H.
      set (s0 := if length l =? length r then s else set_error s) in *.
      assert (E0 : next s0 = next s /\ assigned s0 = assigned s /\ dropped s0 = dropped s)
        by (unfold s0; destruct (length l =? length r); auto).
      clearbody s0. destruct E0 as [N0 [A0 D0]].
      apply old_array in Ot as Ol. apply old_array in Ou as Or. rewrite <- N0 in Ol, Or.
      assert (S0 : sound s0) by (unfold sound; rewrite A0, N0; exact S).
      assert (K0 : Forall (known s0) l \/ Forall (known s0) r).
      { rewrite !Forall_forall. unfold known in *. rewrite A0. destruct K as [K|K]; [left|right];
          intros t Ht x Hx; apply K; simpl; apply in_flat_map; exists t; auto. }
      destruct (scan s0 l r) as [[|]| | |]; cbn [obind] in H; try discriminate H.
      * injection H as <- <-. auto.
      * destruct (pairs_loop l r s0) as [s1| | |] eqn:G; cbn [obind] in H; try discriminate H.
        injection H as <- <-. split; [reflexivity|]. rewrite <- D0. clear D0 A0 N0 K Ot Ou S s. revert r s0 s1 G Ol Or S0 K0.
        induction IH as [|t l Ht _ IHl]; intros r s s1 G Ol Or S K.
        { injection G as <-. reflexivity. }
        destruct r as [|u r]; [discriminate G|]. simpl in G.
        inversion Ol as [|? ? O1 O1']; subst. inversion Or as [|? ? O2 O2']; subst.
        destruct (add_terms t u s) as [[b s2]| | |] eqn:T; cbn [obind fst snd] in G; try discriminate G.
        assert (Ktu : known s t \/ known s u) by (destruct K as [K|K]; inversion K; subst; auto).
        destruct (Ht u s b s2 S O1 O2 Ktu T) as [-> E2].
        destruct (step_terms t u s false s2 S O1 O2 T) as [_ W]. specialize (W eq_refl).
        rewrite <- E2. apply (IHl r s2 s1 G).
        -- eapply Forall_impl; [|exact O1']. intros ?. apply old_term_le, (st_next _ _ _ _ W).
        -- eapply Forall_impl; [|exact O2']. intros ?. apply old_term_le, (st_next _ _ _ _ W).
        -- apply (st_sound _ _ _ _ W).
        -- destruct K as [K|K]; [left|right]; inversion K as [|? ? _ K']; subst;
             (eapply Forall_impl; [|exact K']); intros w Hw x Hx; apply (st_incl _ _ _ _ W), Hw, Hx.
Qed.

