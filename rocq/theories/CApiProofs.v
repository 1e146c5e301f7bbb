(** Lemmas about the C interface. *)
From Coq Require Import String ZArith List Bool Lia Sorted.
From Verif Require Import Base SMap SMapFacts BigIntSpec BigIntModel BigIntProofs DecFacts ValueModel ValueSpec KeyProofs ResolverModel ResolverProofs VmModel
  MiscModel JsonSpec JsonProofs CApiModel CApiSpec.
Import ListNotations.
Local Open Scope Z_scope.
Local Open Scope list_scope.

(** ** The stack *)
Lemma below_app (a b : list entry) : below (Z.of_nat (length b)) (a ++ b) = a.
Proof. unfold below. rewrite Nat2Z.id, app_length. replace (length a + length b - length b)%nat with (length a) by lia. now rewrite firstn_app, Nat.sub_diag, firstn_all, app_nil_r. Qed.
Lemma top_app (a b : list entry) : top (Z.of_nat (length b)) (a ++ b) = b.
Proof. unfold top. rewrite Nat2Z.id, app_length. replace (length a + length b - length b)%nat with (length a) by lia. now rewrite skipn_app, Nat.sub_diag, skipn_all. Qed.
Lemma missing_no n i : n <= Z.of_nat (length (i_stack i)) -> missing n i = i.
Proof. intros H. unfold missing. destruct (Z.ltb_spec (Z.of_nat (length (i_stack i))) n); [ lia | reflexivity ]. Qed.
Definition st (l : list entry) : input := {| i_stack := l; i_status := REGO_OK |}.
Section Run.
Variable F : fops.
Lemma run_app a b i : run F (a ++ b) i = let '(c1, i1) := run F a i in let '(c2, i2) := run F b i1 in (c1 ++ c2, i2).
Proof.
  revert i. induction a as [ | c a IH ]; intros i; cbn [app run]; [ now destruct (run F b i) | ]. destruct (do_call F c i) as [code i1]. rewrite IH. destruct (run F a i1) as [c1 i2]. now destruct (run F b i2).
Qed.
(** A program that pushes [v] on any stack. *)
Definition pushes (p : list call) (e : entry) : Prop := forall l, exists n, run F p (st l) = (repeat REGO_OK n, st (l ++ [e])).
Lemma pushes_seq p q l m (H : exists n, run F p (st l) = (repeat REGO_OK n, st m)) r : (exists n, run F q (st m) = (repeat REGO_OK n, r)) -> exists n, run F (p ++ q) (st l) = (repeat REGO_OK n, r).
Proof. destruct H as (n & E). intros (k & E2). exists (n + k)%nat. rewrite run_app, E, E2. f_equal. symmetry. apply repeat_app. Qed.
Lemma pushes_all ps es : Forall2 pushes ps es -> forall l, exists n, run F (concat ps) (st l) = (repeat REGO_OK n, st (l ++ es)).
Proof.
  induction 1 as [ | p e ps es Hp _ IH ]; intros l; cbn [concat]; [ exists 0%nat; cbn [run repeat]; now rewrite app_nil_r | ].
  eapply pushes_seq; [ apply Hp | ]. destruct (IH (l ++ [e])) as (n & E). exists n. rewrite E, <- app_assoc. reflexivity.
Qed.
Lemma do_array l es : do_call F (CArray (Z.of_nat (length es))) (st (l ++ es)) = (REGO_OK, st (l ++ [EVal (VArray (map entry_member es))])).
Proof. cbn [do_call]. rewrite missing_no by (cbn [i_stack st]; rewrite app_length; lia). cbn [i_status st i_stack]. change (REGO_OK =? REGO_OK) with true. cbv iota. unfold replace_top. cbn [i_stack st]. now rewrite top_app, below_app. Qed.
Lemma do_set l es : do_call F (CSet (Z.of_nat (length es))) (st (l ++ es)) = (REGO_OK, st (l ++ [EVal (VSet (set_of F (map entry_term es)))])).
Proof. cbn [do_call]. rewrite missing_no by (cbn [i_stack st]; rewrite app_length; lia). cbn [i_status st i_stack]. change (REGO_OK =? REGO_OK) with true. cbv iota. unfold replace_top. cbn [i_stack st]. now rewrite top_app, below_app. Qed.
Lemma do_object l (kvs : list (value * value)) : do_call F (CObject (Z.of_nat (length kvs))) (st (l ++ map (fun kv => EItem (fst kv) (snd kv)) kvs)) = (REGO_OK, st (l ++ [EVal (VObject kvs)])).
Proof.
  set (es := map (fun kv => EItem (fst kv) (snd kv)) kvs). replace (Z.of_nat (length kvs)) with (Z.of_nat (length es)) by (unfold es; now rewrite map_length).
  cbn [do_call]. rewrite missing_no by (cbn [i_stack st]; rewrite app_length; lia). cbn [i_status st i_stack]. change (REGO_OK =? REGO_OK) with true. cbv iota.
  rewrite top_app. replace (forallb is_item es) with true by (symmetry; apply forallb_forall; intros e I; apply in_map_iff in I as (x & <- & _); reflexivity). unfold replace_top. cbn [i_stack st]. rewrite below_app.
  replace (map entry_item es) with kvs; [ reflexivity | ]. unfold es. rewrite map_map. cbn [entry_item]. rewrite <- (map_id kvs) at 1. apply map_ext. now intros [].
Qed.
Lemma do_item l k v : do_call F CItem (st ((l ++ [EVal k]) ++ [EVal v])) = (REGO_OK, st (l ++ [EItem k v])).
Proof.
  rewrite <- app_assoc. cbn [app]. cbn [do_call]. change 2 with (Z.of_nat (length [EVal k; EVal v])). rewrite missing_no by (cbn [i_stack st]; rewrite app_length; lia). cbn [i_status st i_stack]. change (REGO_OK =? REGO_OK) with true. cbv iota.
  rewrite top_app. unfold replace_top. cbn [i_stack st entry_term]. now rewrite below_app.
Qed.
Lemma push_one v c : (forall i, do_call F c i = push v i) -> pushes [c] (EVal v).
Proof. intros H l. exists 1%nat. cbn [run]. rewrite H. reflexivity. Qed.
Lemma pushes_then ps es c e : Forall2 pushes ps es -> (forall l, do_call F c (st (l ++ es)) = (REGO_OK, st (l ++ [e]))) -> pushes (concat ps ++ [c]) e.
Proof. intros H D l. eapply pushes_seq; [ apply (pushes_all _ _ H) | ]. exists 1%nat. cbn [run]. rewrite D. reflexivity. Qed.
Lemma pushes_item pk pv k v : pushes pk (EVal k) -> pushes pv (EVal v) -> pushes (pk ++ pv ++ [CItem]) (EItem k v).
Proof. intros K V l. eapply pushes_seq; [ apply K | ]. eapply pushes_seq; [ apply V | ]. exists 1%nat. cbn [run]. rewrite do_item. reflexivity. Qed.

(** What a value becomes: its sets are made anew. *)
Inductive remade : value -> value -> Prop :=
| rm_scalar v : (forall l, v <> VArray l) -> (forall l, v <> VObject l) -> (forall l, v <> VSet l) -> remade v v
| rm_array l l' : Forall2 remade l l' -> remade (VArray l) (VArray l')
| rm_object l l' : Forall2 (fun a b => remade (fst a) (fst b) /\ remade (snd a) (snd b)) l l' -> remade (VObject l) (VObject l')
| rm_set l l' : Forall2 remade l l' -> remade (VSet l) (VSet (set_of F l')).
Lemma F2_len {A B} (R : A -> B -> Prop) l l' : Forall2 R l l' -> length l = length l'.
Proof. induction 1; cbn [length]; congruence. Qed.
Lemma builds_pushes : forall v p, builds v p -> exists v', remade v v' /\ pushes p (EVal v').
Proof.
  apply (value_rect' (fun v => forall p, builds v p -> exists v', remade v v' /\ pushes p (EVal v'))).
  - intros p B. inversion B as [ | zb b Zb Eb | | | | | | ]; subst; [ | destruct b; discriminate Eb ]. exists VNull. split; [ apply rm_scalar; discriminate | now apply push_one ].
  - intros p B. inversion B as [ | zb b Zb Eb | | | | | | ]; subst. destruct b; [ | discriminate Eb ]. exists VTrue. split; [ apply rm_scalar; discriminate | ]. apply push_one. intros k. cbn [do_call]. replace (zb =? 0) with false; [ reflexivity | ]. symmetry. apply Z.eqb_neq. intros Q. apply Zb in Q. discriminate.
  - intros p B. inversion B as [ | zb b Zb Eb | | | | | | ]; subst. destruct b; [ discriminate Eb | ]. exists VFalse. split; [ apply rm_scalar; discriminate | ]. apply push_one. intros k. cbn [do_call]. now rewrite (proj2 Zb eq_refl).
  - intros t p B. inversion B as [ | zb b Zb Eb | | | | | | ]; subst; [ destruct b; discriminate Eb | ]. exists (VInt (dec z)). split; [ apply rm_scalar; discriminate | now apply push_one ].
  - intros t p B. inversion B as [ | zb b Zb Eb | | | | | | ]; subst; [ destruct b; discriminate Eb | ]. exists (VFloat (double_text d)). split; [ apply rm_scalar; discriminate | now apply push_one ].
  - intros t p B. inversion B as [ | zb b Zb Eb | | | | | | ]; subst; [ destruct b; discriminate Eb | ]. exists (VString t). split; [ apply rm_scalar; discriminate | now apply push_one ].
  - intros l IH p B. inversion B as [ | zb b Zb Eb | | | | l0 ps Fb Len | | ]; subst; [ destruct b; discriminate Eb | ].
    assert (X : exists l', Forall2 remade l l' /\ Forall2 pushes ps (map EVal l')).
    { clear B Len. induction Fb as [ | v q l ps Hb _ IHF ]; [ exists []; split; constructor | ]. inversion IH as [ | ? ? Hv Hl ]; subst. destruct (Hv _ Hb) as (v' & R & P). destruct (IHF Hl) as (l' & Rl & Pl). exists (v' :: l'). split; constructor; auto. }
    destruct X as (l' & R & P). exists (VArray l'). split; [ now constructor | ]. eapply pushes_then; [ exact P | ]. intros k.
    rewrite (F2_len _ _ _ R), <- (map_length EVal l'), do_array, map_map. cbn [entry_member]. now rewrite map_id.
  - intros l IH p B. inversion B as [ | zb b Zb Eb | | | | | | l0 ps Fb Len ]; subst; [ destruct b; discriminate Eb | ].
    assert (X : exists l' : list (value * value), Forall2 (fun a b => remade (fst a) (fst b) /\ remade (snd a) (snd b)) l l' /\ Forall2 pushes ps (map (fun kv => EItem (fst kv) (snd kv)) l')).
    { clear B Len. induction Fb as [ | [k v] q l ps (pk & pv & Bk & Bv & ->) _ IHF ]; [ exists []; split; constructor | ]. inversion IH as [ | ? ? [Hk Hv] Hl ]; subst. cbn [fst snd] in *.
      destruct (Hk _ Bk) as (k' & Rk & Pk). destruct (Hv _ Bv) as (v' & Rv & Pv). destruct (IHF Hl) as (l' & Rl & Pl). exists ((k', v') :: l'). split; constructor; auto. now apply pushes_item. }
    destruct X as (l' & R & P). exists (VObject l'). split; [ now constructor | ]. eapply pushes_then; [ exact P | ]. intros m. rewrite (F2_len _ _ _ R). apply do_object.
  - intros l IH p B. inversion B as [ | zb b Zb Eb | | | | | l0 ps Fb Len | ]; subst; [ destruct b; discriminate Eb | ].
    assert (X : exists l', Forall2 remade l l' /\ Forall2 pushes ps (map EVal l')).
    { clear B Len. induction Fb as [ | v q l ps Hb _ IHF ]; [ exists []; split; constructor | ]. inversion IH as [ | ? ? Hv Hl ]; subst. destruct (Hv _ Hb) as (v' & R & P). destruct (IHF Hl) as (l' & Rl & Pl). exists (v' :: l'). split; constructor; auto. }
    destruct X as (l' & R & P). exists (VSet (set_of F l')). split; [ now constructor | ]. eapply pushes_then; [ exact P | ]. intros k.
    rewrite (F2_len _ _ _ R), <- (map_length EVal l'), do_set, map_map. cbn [entry_term]. now rewrite map_id.
  - intros c p B. inversion B as [ | zb b Zb Eb | | | | | | ]; subst. destruct b; discriminate Eb.
Qed.
Lemma remade_same : forall v v', no_sets v -> remade v v' -> v' = v.
Proof.
  apply (value_rect' (fun v => forall v', no_sets v -> remade v v' -> v' = v)); try (intros; match goal with H : remade _ _ |- _ => now inversion H end).
  - intros l IH v' N R. inversion R as [ ? Na | l0 l' Fr | | ]; subst; [ now elim (Na l) | ]. inversion N as [ ? Nl | | ? Na ]; subst; [ | now elim (Na l) ]. f_equal. clear R N.
    induction Fr as [ | x y l l' Hr _ IHF ]; [ reflexivity | ]. inversion IH; inversion Nl; subst. f_equal; auto.
  - intros l IH v' N R. inversion R as [ ? _ Na | | l0 l' Fr | ]; subst; [ now elim (Na l) | ]. inversion N as [ | ? Nl | ? _ Na ]; subst; [ | now elim (Na l) ]. f_equal. clear R N.
    induction Fr as [ | [k v] [k' v'] l l' [Hk Hv] _ IHF ]; [ reflexivity | ]. inversion IH as [ | ? ? [I1 I2] IHl ]; inversion Nl as [ | ? ? [N1 N2] Nl' ]; subst. cbn [fst snd] in *. rewrite (I1 _ N1 Hk), (I2 _ N2 Hv). f_equal. auto.
  - intros l IH v' N R. inversion N as [ | | ? _ _ Na ]; subst. now elim (Na l).
Qed.
Section Equal.
Variables (NI NF : str -> Prop).
Hypothesis D : num_domain F NI NF.
Lemma remade_equal : forall v v', wfv F NI NF v -> remade v v' -> wfv F NI NF v' /\ veq F v v'.
Proof.
  apply (value_rect' (fun v => forall v', wfv F NI NF v -> remade v v' -> wfv F NI NF v' /\ veq F v v')).
  1-6, 10: intros; match goal with H : remade _ _ |- _ => inversion H; subst end; (split; [ assumption | ]); apply (key_iff F NI NF D); auto.
  - intros l IH v' W R. inversion R as [ ? Na | l0 l' Fr | | ]; subst; [ now elim (Na l) | ]. inversion W as [ | | | | | | ? Wl | | ]; subst.
    assert (X : Forall (wfv F NI NF) l' /\ Forall2 (veq F) l l').
    { clear R W. induction Fr as [ | x y l l' Hr _ IHF ]; [ split; constructor | ]. inversion IH; inversion Wl; subst. destruct IHF; auto. destruct (H1 y); auto. }
    destruct X. split; now constructor.
  - intros l IH v' W R. inversion R as [ ? _ Na | | l0 l' Fr | ]; subst; [ now elim (Na l) | ]. inversion W as [ | | | | | | | | l1 E1 E2 N ]; subst.
    assert (X : exists l2 : list (str * value), l' = map (fun kv => (VString (fst kv), snd kv)) l2 /\ map fst l2 = map fst l1 /\ Forall (fun kv => wfv F NI NF (snd kv)) l2 /\
      Forall2 (fun a b => fst a = fst b /\ veq F (snd a) (snd b)) l1 l2).
    { clear R W N E1. revert l' Fr. induction l1 as [ | [k v] l1 IHl ]; intros l' Fr; inversion Fr as [ | ? [k' v'] ? l3 [Hk Hv] Fr' ]; subst; [ exists []; repeat split; constructor | ].
      cbn [map fst snd] in *. inversion IH as [ | ? ? [_ I2] IH' ]; inversion E2 as [ | ? ? Wv E2' ]; subst. cbn [fst snd] in *. inversion Hk; subst. destruct (I2 v' Wv Hv) as [Wv' Ev]. destruct (IHl IH' E2' l3 Fr') as (l2 & -> & En & Wl & Fl).
      exists ((k, v') :: l2). cbn [map fst snd]. rewrite En. repeat split; auto. }
    destruct X as (l2 & -> & En & Wl & Fl). split.
    + constructor; [ | exact Wl | ].
      * rewrite <- Forall_map with (f := fst) (P := fun k => escaped k = true). rewrite En. now rewrite Forall_map.
      * now rewrite En.
    + constructor; clear -Fl.
      * intros k v I. induction Fl as [ | [a x] [b y] l1 l2 [Ea Ex] _ IH ]; [ destruct I | ]. cbn [map fst snd] in *. subst b. destruct I as [E | I].
        -- injection E as <- <-. exists (VString a), y. split; [ now left | split; [ constructor | exact Ex ] ].
        -- destruct (IH I) as (k' & v' & J & Q). exists k', v'. split; [ now right | exact Q ].
      * intros k v I. induction Fl as [ | [a x] [b y] l1 l2 [Ea Ex] _ IH ]; [ destruct I | ]. cbn [map fst snd] in *. subst b. destruct I as [E | I].
        -- injection E as <- <-. exists (VString a), x. split; [ now left | split; [ constructor | exact Ex ] ].
        -- destruct (IH I) as (k' & v' & J & Q). exists k', v'. split; [ now right | exact Q ].
  - intros l IH v' W R. inversion R as [ ? _ _ Na | | | l0 l' Fr ]; subst; [ now elim (Na l) | ]. inversion W as [ | | | | | | | ? Wl Nd | ]; subst.
    assert (X : Forall (wfv F NI NF) l' /\ Forall2 (veq F) l l').
    { clear R W Nd. induction Fr as [ | x y l l' Hr _ IHF ]; [ split; constructor | ]. inversion IH; inversion Wl; subst. destruct IHF; auto. destruct (H1 y); auto. }
    destruct X as [Wl' Fv]. split; [ now apply (set_of_wf F NI NF D) | ]. destruct (set_of_facts F l') as (_ & K & I). rewrite Forall_forall in Wl, Wl'. constructor.
    + intros x Ix. assert (J : exists y, In y l' /\ veq F x y).
      { clear -Fv Ix. induction Fv as [ | a b l l' E _ IH ]; [ destruct Ix | ]. destruct Ix as [-> | Ix]; [ exists b; split; [ now left | exact E ] | ]. destruct (IH Ix) as (y & Iy & Ey). exists y. split; [ now right | exact Ey ]. }
      destruct J as (y & Iy & Ey). assert (Ik : In (to_key F y) (map (to_key F) (set_of F l'))) by (apply K; now apply in_map). apply in_map_iff in Ik as (z & Ez & Iz).
      exists z. split; [ exact Iz | ]. apply (key_iff F NI NF D); [ now apply Wl | apply Wl'; now apply I | ]. rewrite Ez. apply (key_iff F NI NF D); auto.
    + intros y Iy. apply I in Iy. clear -Fv Iy. induction Fv as [ | a b l l' E _ IH ]; [ destruct Iy | ]. destruct Iy as [-> | Iy]; [ exists a; split; [ now left | exact E ] | ]. destruct (IH Iy) as (x & Ix & Ex). exists x. split; [ now right | exact Ex ].
Qed.
End Equal.

(** ** Errors *)
Lemma call_code c i code i' : do_call F c i = (code, i') -> i_status i = REGO_OK ->
  (Z.of_nat (length (i_stack i)) < needs c /\ code = REGO_ERROR_INPUT_MISSING_ARGUMENTS /\ i_stack i' = i_stack i /\ i_status i' = code) \/
  (needs c <= Z.of_nat (length (i_stack i)) /\ (exists n, c = CObject n /\ exists e, In e (top n (i_stack i)) /\ is_item e = false) /\ code = REGO_ERROR_INPUT_OBJECT_ITEM /\ i_stack i' = i_stack i /\ i_status i' = code) \/
  (needs c <= Z.of_nat (length (i_stack i)) /\ (forall n, c = CObject n -> Forall (fun e => is_item e = true) (top n (i_stack i))) /\ code = REGO_OK /\ i_status i' = REGO_OK).
Proof.
  intros E S. destruct c; cbn [do_call needs] in *.
  1-5: right; right; unfold push in E; rewrite S in E; change (REGO_OK =? REGO_OK) with true in E; cbv iota in E; injection E as <- <-; repeat split; try lia; discriminate.
  - unfold missing in E. destruct (Z.ltb_spec (Z.of_nat (length (i_stack i))) 2).
    + left. cbn [i_status] in E. injection E as <- <-. auto.
    + right. right. rewrite S in E. change (REGO_OK =? REGO_OK) with true in E. cbv iota in E. split; [ lia | ]. split; [ discriminate | ].
      destruct (top 2 (i_stack i)) as [ | a [ | b [ | ] ] ]; unfold replace_top in E; injection E as <- <-; auto.
  - unfold missing in E. destruct (Z.ltb_spec (Z.of_nat (length (i_stack i))) n).
    + left. cbn [i_status] in E. injection E as <- <-. auto.
    + right. rewrite S in E. change (REGO_OK =? REGO_OK) with true in E. cbv iota in E. destruct (forallb is_item (top n (i_stack i))) eqn:Q.
      * right. unfold replace_top in E. injection E as <- <-. split; [ lia | ]. split; [ | auto ]. intros m Em. injection Em as <-. apply Forall_forall. now apply forallb_forall.
      * left. injection E as <- <-. split; [ lia | ]. split; [ | auto ]. exists n. split; [ reflexivity | ].
        destruct (existsb (fun e => negb (is_item e)) (top n (i_stack i))) eqn:X; [ apply existsb_exists in X as (e & I & N); exists e; split; [ exact I | now apply negb_true_iff ] | ].
        exfalso. assert (Y : forallb is_item (top n (i_stack i)) = true); [ | congruence ]. apply forallb_forall. intros e I. destruct (is_item e) eqn:Z; auto.
        assert (existsb (fun e => negb (is_item e)) (top n (i_stack i)) = true) by (apply existsb_exists; exists e; split; [ exact I | now rewrite Z ]). congruence.
  - unfold missing in E. destruct (Z.ltb_spec (Z.of_nat (length (i_stack i))) n).
    + left. cbn [i_status] in E. injection E as <- <-. auto.
    + right. right. rewrite S in E. change (REGO_OK =? REGO_OK) with true in E. cbv iota in E. split; [ lia | ]. split; [ discriminate | ]. unfold replace_top in E. injection E as <- <-. auto.
  - unfold missing in E. destruct (Z.ltb_spec (Z.of_nat (length (i_stack i))) n).
    + left. cbn [i_status] in E. injection E as <- <-. auto.
    + right. right. rewrite S in E. change (REGO_OK =? REGO_OK) with true in E. cbv iota in E. split; [ lia | ]. split; [ discriminate | ]. unfold replace_top in E. injection E as <- <-. auto.
Qed.
Lemma call_stuck c i : i_status i <> REGO_OK -> forall code i', do_call F c i = (code, i') -> code <> REGO_OK /\ i_status i' <> REGO_OK /\ i_stack i' = i_stack i.
Proof.
  intros N code i' E. apply Z.eqb_neq in N.
  assert (M : forall n, (i_status (missing n i) =? REGO_OK) = false /\ i_stack (missing n i) = i_stack i) by (intros n; unfold missing; destruct (Z.of_nat (length (i_stack i)) <? n); cbn [i_status i_stack]; auto).
  destruct c; cbn [do_call] in E; unfold push in E; rewrite ?N, ?(proj1 (M _)) in E; injection E as <- <-; repeat split; try (now apply Z.eqb_neq); try (apply Z.eqb_neq; apply M); apply M.
Qed.
Lemma run_stuck cs : forall i, i_status i <> REGO_OK -> forall codes i', run F cs i = (codes, i') -> Forall (fun c => c <> REGO_OK) codes /\ i_status i' <> REGO_OK /\ i_stack i' = i_stack i.
Proof.
  induction cs as [ | c cs IH ]; intros i N codes i' E; cbn [run] in E; [ injection E as <- <-; auto | ]. destruct (do_call F c i) as [code i1] eqn:E1. destruct (run F cs i1) as [codes1 i2] eqn:E2. injection E as <- <-.
  destruct (call_stuck c i N _ _ E1) as (A & B & C). destruct (IH i1 B _ _ E2) as (A2 & B2 & C2). rewrite C in C2. auto.
Qed.
End Run.

(** ** Six decimals *)
Lemma round_even_spec n d : 0 < d -> 0 <= n -> 2 * Z.abs (round_even n d * d - n) <= d.
Proof.
  intros D N. unfold round_even. pose proof (Z.div_mod n d). pose proof (Z.mod_pos_bound n d D). set (q := n / d) in *. set (r := n mod d) in *.
  destruct (Z.ltb_spec (2 * r) d); [ nia | ]. destruct (Z.ltb_spec d (2 * r)); [ nia | ]. destruct (Z.even q); nia.
Qed.
Lemma round_even_tie n d : 0 < d -> 0 <= n -> 2 * Z.abs (round_even n d * d - n) = d -> Z.even (round_even n d) = true.
Proof.
  intros D N. unfold round_even. pose proof (Z.div_mod n d). pose proof (Z.mod_pos_bound n d D). set (q := n / d) in *. set (r := n mod d) in *.
  destruct (Z.ltb_spec (2 * r) d); [ nia | ]. destruct (Z.ltb_spec d (2 * r)); [ nia | ]. destruct (Z.even q) eqn:E; [ auto | ]. intros _. replace (q + 1) with (Z.succ q) by lia. rewrite Z.even_succ. unfold Z.odd, Z.even in *. destruct q as [ | [ | | ] | [ | | ] ]; auto; discriminate.
Qed.
Lemma pad_length n : forall z, length (pad_digits n z) = n.
Proof. induction n as [ | n IH ]; intros z; [ reflexivity | ]. cbn [pad_digits]. rewrite app_length, IH. cbn [length]. lia. Qed.
Lemma pad_digit n : forall z, Forall (fun c => 48 <= c <= 57) (pad_digits n z).
Proof. induction n as [ | n IH ]; intros z; [ constructor | ]. cbn [pad_digits]. apply Forall_app. split; [ apply IH | ]. constructor; [ | constructor ]. pose proof (Z.mod_pos_bound z 10). lia. Qed.
Lemma pad_value n : forall z, 0 <= z < 10 ^ Z.of_nat n -> zval_digits (pad_digits n z) = z.
Proof.
  induction n as [ | n IH ]; intros z H.
  - replace z with 0 by (change (10 ^ Z.of_nat 0) with 1 in H; lia). reflexivity.
  - cbn [pad_digits]. assert (E : forall a c, zval_digits (a ++ [c]) = zval_digits a * 10 + (c - 48)) by (intros a c; unfold zval_digits; now rewrite fold_left_app). rewrite E, IH.
    + pose proof (Z.div_mod z 10). lia.
    + rewrite Nat2Z.inj_succ, Z.pow_succ_r in H by lia. split; [ apply Z.div_pos; lia | apply Z.div_lt_upper_bound; lia ].
Qed.
