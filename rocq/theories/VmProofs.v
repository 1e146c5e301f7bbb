(** Invariants of the virtual machine, by one traversal of its code. *)
From Coq Require Import String ZArith List Bool Lia.
From Verif Require Import Base BigIntSpec BigIntModel SMap ValueModel ValueSpec ResolverModel VmModel VmSpec.
Import ListNotations.
Local Open Scope Z_scope.

Lemma znth_some {A} (l : list A) i a : znth l i = Some a -> In a l /\ 0 <= i < zlen l.
Proof.
  unfold znth. destruct (Z.leb_spec 0 i), (Z.ltb_spec i (zlen l)); simpl; try discriminate.
  intro H'. apply nth_error_In in H'. auto.
Qed.
Lemma znth_in {A} (l : list A) i : 0 <= i < zlen l -> exists a, znth l i = Some a.
Proof.
  intro H. unfold znth. destruct (Z.leb_spec 0 i), (Z.ltb_spec i (zlen l)); simpl; try lia.
  destruct (nth_error l (Z.to_nat i)) eqn:N; eauto. apply nth_error_None in N. unfold zlen in *. lia.
Qed.
Lemma upd_length {A} (l : list A) n a : length (upd l n a) = length l.
Proof. revert n; induction l; destruct n; simpl; auto. Qed.
Lemma upd_same {A} (l : list A) n a : (n < length l)%nat -> nth_error (upd l n a) n = Some a.
Proof. revert n; induction l; destruct n; simpl; intros; try lia; auto. apply IHl. lia. Qed.
Lemma upd_other {A} (l : list A) n m a : n <> m -> nth_error (upd l n a) m = nth_error l m.
Proof. revert n m; induction l; destruct n, m; simpl; intros; auto; try congruence. Qed.

Lemma require_ok b : require b = Ok tt <-> b = true.
Proof. destruct b; simpl; split; congruence. Qed.
Lemma obind_ok {A} (o : outcome unit) (f : unit -> outcome A) r :
  obind o f = Ok r -> o = Ok tt /\ f tt = Ok r.
Proof. destruct o as [[]| | |]; simpl; intro; try discriminate; auto. Qed.
Lemma each_ok {A} (f : A -> outcome unit) l : each f l = Ok tt -> Forall (fun x => f x = Ok tt) l.
Proof.
  induction l as [|x l IH]; simpl; intro H; constructor; apply obind_ok in H as [H1 H2]; auto.
Qed.
Lemma each_ok_intro {A} (f : A -> outcome unit) l : Forall (fun x => f x = Ok tt) l -> each f l = Ok tt.
Proof. induction 1 as [|x l H1 H2 IH]; simpl; auto. rewrite H1. simpl. auto. Qed.

(** The nested loops of [verify_stmt] and [slots_ok] are [verify_block] and [slots_ok_block]. *)
Lemma verify_block_nested b l :
  (fix vb (l : list stmt) : outcome unit :=
     match l with [] => Ok tt | x :: l' => let! u := verify_stmt b x in vb l' end) l = verify_block b l.
Proof.
  unfold verify_block. induction l as [|x l IH]; simpl; auto.
  destruct (verify_stmt b x) as [[]| | |]; simpl; auto.
Qed.
Lemma verify_blocks_nested b l :
  (fix vbs (l : list (list stmt)) : outcome unit :=
     match l with
     | [] => Ok tt
     | x :: l' => let! u := (fix vb (l : list stmt) : outcome unit :=
         match l with [] => Ok tt | x :: l' => let! u := verify_stmt b x in vb l' end) x in vbs l'
     end) l = each (verify_block b) l.
Proof.
  induction l as [|x l IH]; simpl; auto. rewrite verify_block_nested.
  destruct (verify_block b x) as [[]| | |]; simpl; auto.
Qed.
Lemma slots_nested l :
  (fix all (l : list stmt) : bool := match l with [] => true | x :: l' => slots_ok x && all l' end) l = slots_ok_block l.
Proof. induction l as [|x l IH]; simpl; congruence. Qed.
Lemma slotss_nested l :
  (fix alls (l : list (list stmt)) : bool :=
     match l with
     | [] => true
     | x :: l' => (fix all (l : list stmt) : bool := match l with [] => true | x :: l' => slots_ok x && all l' end) x && alls l'
     end) l = forallb slots_ok_block l.
Proof. induction l as [|x l IH]; cbn [forallb]; [reflexivity|]. rewrite IH, slots_nested. reflexivity. Qed.

Lemma o_index_nonneg o : 0 <= o_index o.
Proof. unfold o_index. apply Z.mod_pos_bound. reflexivity. Qed.

Section Traversal.
Variable E : env.
Variable V : Prop.                (* the bundle is verified and well made *)
Variable e0 : list str.           (* errors before *)
Variable c0 : Z.                  (* statement count before *)
Notation B := (e_bundle E).

Hypothesis Hterm : forall f b n args, e_builtin E f = Some b -> b n args <> OutOfFuel.
Hypothesis HV_made : V -> well_made B.
Hypothesis HV_fun : V -> forall f, In f (b_functions B) -> verify_function B f = Ok tt.

Definition okb (b : block) : Prop := V -> verify_block B b = Ok tt /\ slots_ok_block b = true.
Definition oks (s : stmt) : Prop := V -> verify_stmt B s = Ok tt /\ slots_ok s = true.
Definition slot (i : Z) : Prop := V -> 0 <= i < zn (b_locals B).
Definition oko (o : operand) : Prop := V -> verify_operand B o = Ok tt.

Definition good_stack (st : list str) : Prop := NoDup st /\ zlen st <= Z.max 0 (e_call_depth E).
Definition good_event (e : event) : Prop := match e with EvEnter st => good_stack st | _ => True end.

Definition W (s : state) : Prop :=
  zlen (s_frame s) = zn (b_locals B) /\
  (exists es, s_errors s = e0 ++ es) /\
  c0 <= s_count s /\
  executed (s_log s) <= s_count s /\
  (executed (s_log s) = 0 \/ executed (s_log s) < e_stmt_limit E) /\
  Forall good_event (s_log s) /\
  (forall c, In (EvError c) (s_log s) -> In c (s_errors s)).

Definition Inv (st : list str) (na : list Z) (w d : Z) (s : state) : Prop :=
  W s /\ s_stack s = st /\ s_nargs s = na /\ s_with s = w /\ s_depth s = d /\ good_stack st /\
  (0 < s_count s -> e_stmt_limit E <= s_count s -> In TimeoutError (s_errors s)) /\
  (forall n c, In (n, Some (VErr c)) (s_cache s) -> s_errors s <> []).

Definition T {A} (P : state -> Prop) (m : vm A) (Q : A -> state -> Prop) : Prop :=
  forall s, P s ->
  match m s with
  | Done a s' => Q a s'
  | Exn s' => W s'
  | Fault f s' => W s' /\ (V -> f <> OutOfRange /\ f <> Uninitialised)
  | NoFuel _ => False
  end.

Lemma T_bind {A C} P (m : vm A) Q (k : A -> vm C) R :
  T P m Q -> (forall a, T (Q a) (k a) R) -> T P (bind m k) R.
Proof.
  intros Hm Hk s Hs. unfold bind. specialize (Hm s Hs). destruct (m s); auto. apply Hk. exact Hm.
Qed.
Lemma T_conseq {A} (P P' : state -> Prop) (m : vm A) (Q Q' : A -> state -> Prop) :
  (forall s, P s -> P' s) -> T P' m Q' -> (forall a s, Q' a s -> Q a s) -> T P m Q.
Proof. intros H1 Hm H2 s Hs. specialize (Hm s (H1 s Hs)). destruct (m s); auto. Qed.
Lemma T_weak {A} (P P' : state -> Prop) (m : vm A) (Q : A -> state -> Prop) :
  (forall s, P s -> P' s) -> T P' m Q -> T P m Q.
Proof. intros H1 Hm s Hs. exact (Hm s (H1 s Hs)). Qed.
Lemma T_pre {A} (P : state -> Prop) (m : vm A) Q (X : Prop) :
  (X -> T P m Q) -> T (fun s => P s /\ X) m Q.
Proof. intros H s [Hs HX]. exact (H HX s Hs). Qed.
Lemma T_ret {A} (P : state -> Prop) (a : A) (Q : A -> state -> Prop) : (forall s, P s -> Q a s) -> T P (ret a) Q.
Proof. intros H s Hs. exact (H s Hs). Qed.
Lemma T_exn {A} (P : state -> Prop) (Q : A -> state -> Prop) : (forall s, P s -> W s) -> T P exn Q.
Proof. intros H s Hs. exact (H s Hs). Qed.
Lemma T_fault {A} (P : state -> Prop) f (Q : A -> state -> Prop) :
  (forall s, P s -> W s) -> (V -> f <> OutOfRange /\ f <> Uninitialised) -> T P (fault_ f) Q.
Proof. intros H Hf s Hs. split; [exact (H s Hs)|exact Hf]. Qed.
Lemma T_get {A} (P : state -> Prop) (f : state -> A) : T P (get f) (fun a s => P s /\ f s = a).
Proof. intros s Hs. split; auto. Qed.
Lemma T_get' {A} (P : state -> Prop) (f : state -> A) : T P (get f) (fun _ => P).
Proof. intros s Hs. exact Hs. Qed.
Lemma T_modify (P Q : state -> Prop) f : (forall s, P s -> Q (f s)) -> T P (modify f) (fun _ => Q).
Proof. intros H s Hs. exact (H s Hs). Qed.
Lemma T_state {A} (P : state -> Prop) (m : vm A) Q : (forall s0, P s0 -> T (fun s => s = s0) m Q) -> T P m Q.
Proof. intros H s Hs. exact (H s Hs s eq_refl). Qed.

Section AtDepth.
Variable d : Z.
Notation I := (fun st na w => Inv st na w d).

Lemma T_vnth {A} st na w (l : list A) i :
  (V -> 0 <= i < zlen l) -> T (I st na w) (vnth l i) (fun a s => I st na w s /\ znth l i = Some a).
Proof.
  intros H s Hs. unfold vnth. destruct (znth l i) eqn:N; simpl; auto.
  split; [apply Hs|]. intro HV. destruct (znth_in l i (H HV)) as [a Ha]. congruence.
Qed.

Lemma T_read st na w i : slot i -> T (I st na w) (read_local i) (fun _ => I st na w).
Proof.
  intros H s Hs. unfold read_local, get, bind, vnth. destruct (znth (s_frame s) i) eqn:N; simpl; auto.
  split; [apply Hs|]. intro HV. specialize (H HV).
  destruct (znth_in (s_frame s) i) as [a Ha]; [|congruence].
  destruct Hs as ((Hf & _) & _). rewrite Hf. exact H.
Qed.

Lemma T_write st na w i v : slot i -> T (I st na w) (write_local i v) (fun _ => I st na w).
Proof.
  intros H s Hs. unfold write_local, get, bind.
  destruct ((0 <=? i) && (i <? zlen (s_frame s))) eqn:N; simpl.
  - destruct Hs as ((Hf & Hw) & Hs). split; [|exact Hs]. split; [|exact Hw].
    cbn. unfold zlen. rewrite upd_length. exact Hf.
  - split; [apply Hs|]. intro HV. specialize (H HV).
    destruct Hs as ((Hf & _) & _). rewrite Hf in N.
    destruct (Z.leb_spec 0 i), (Z.ltb_spec i (zn (b_locals B))); simpl in N; try lia; congruence.
Qed.

Lemma T_is_defined st na w i : slot i -> T (I st na w) (is_defined i) (fun _ => I st na w).
Proof. intro H. unfold is_defined. eapply T_bind; [now apply T_read|]. intro v. apply T_ret. auto. Qed.

Lemma T_unpack st na w o : oko o -> T (I st na w) (unpack_operand E o) (fun _ => I st na w).
Proof.
  intro H. unfold oko, verify_operand in H. unfold unpack_operand.
  pose proof (o_index_nonneg o).
  destruct (o_type o); try (apply T_exn; intros s Hs; apply Hs); try (apply T_ret; auto; fail).
  - apply T_read. intro HV. specialize (H HV). apply require_ok, Z.ltb_lt in H. lia.
  - eapply T_bind; [apply T_vnth|].
    + intro HV. specialize (H HV). apply require_ok, Z.ltb_lt in H. lia.
    + intro t. apply T_ret. intros s [Hs _]. exact Hs.
Qed.

Lemma T_unpacks st na w l : Forall oko l -> T (I st na w) (unpack_operands E l) (fun _ => I st na w).
Proof.
  induction 1 as [|o l Ho Hl IH]; simpl.
  - apply T_ret; auto.
  - eapply T_bind; [now apply T_unpack|]. intro v. eapply T_bind; [exact IH|]. intro vs. apply T_ret; auto.
Qed.

Lemma Inv_error st na w s c : I st na w s ->
  let s' := add_log (EvError c) (set_errors (s_errors s ++ [c])%list s) in I st na w s' /\ In c (s_errors s').
Proof.
  intros ((Hf & (es & He) & Hw) & H1 & H2 & H3 & H4 & H5 & H6 & H7). simpl.
  assert (In c (s_errors s ++ [c])%list) by (apply in_app_iff; right; left; reflexivity).
  split; auto. split; [|repeat split; auto; try apply H5; cbn].
  - split; [exact Hf|]. split.
    { exists (es ++ [c])%list. cbn. rewrite He. now rewrite app_assoc. }
    destruct Hw as (A1 & A2 & A3 & A4 & A5). cbn. repeat split; auto.
    + constructor; auto. exact Logic.I.
    + intros c' [Hc|Hc]; [injection Hc as <-; exact H|]. apply in_app_iff. left. auto.
  - intros A1 A2. apply in_app_iff. left. auto.
  - intros n e _ N. rewrite N in H. destruct H.
Qed.

Lemma T_error st na w c : T (I st na w) (add_error c) (fun _ s => I st na w s /\ s_errors s <> []).
Proof.
  intros s Hs. unfold add_error, modify. destruct (Inv_error st na w s c Hs) as [A1 A2].
  split; auto. intro N. rewrite N in A2. destruct A2.
Qed.

Lemma T_lift {A} st na w (o : outcome A) : o <> OutOfFuel -> T (I st na w) (lift o) (fun a s => I st na w s /\ o = Ok a).
Proof.
  intros H. destruct o; simpl; try congruence.
  - apply T_ret; auto.
  - apply T_exn. intros s Hs; apply Hs.
  - apply T_fault; [intros s Hs; apply Hs|]. intros _. split; discriminate.
Qed.

(** What a block, statement or call guarantees about its code. *)
Definition Code (st : list str) (na : list Z) (w : Z) (c : code) (s : state) : Prop :=
  I st na w s /\ c <> CMultipleOutputs /\ (c = CError \/ c = CTimeout -> s_errors s <> []).
Lemma Code_plain st na w c s : I st na w s -> c = CContinue \/ c = CUndefined \/ c = CReturn \/ c = CBreak -> Code st na w c s.
Proof. intros H Hc. repeat split; try apply H; intuition congruence. Qed.

Variable rb : block -> vm code.
Hypothesis Hrb : forall b st na w, okb b -> T (I st na w) (rb b) (Code st na w).

Lemma T_run_blocks l : forall c st na w, Forall okb l ->
  c = CContinue \/ c = CUndefined \/ c = CReturn \/ c = CBreak \/ c = CTimeout ->
  T (fun s => I st na w s /\ (c = CTimeout -> s_errors s <> [])) (run_blocks rb l c) (Code st na w).
Proof.
  induction l as [|b l IH]; intros c st na w Hl Hc; simpl.
  - apply T_ret. intros s [Hs Ht]. split; [exact Hs|]. split; intuition congruence.
  - inversion Hl; subst. apply T_bind with (Q := Code st na w).
    { apply T_conseq with (P' := I st na w) (Q' := Code st na w); auto. intros s [Hs _]. exact Hs. }
    intro c'. destruct c'; simpl; try (apply T_ret; auto; fail).
    + eapply T_weak; [|apply IH; [assumption|tauto]]. intros s (Hs & _). split; [exact Hs|discriminate].
    + eapply T_weak; [|apply IH; [assumption|tauto]]. intros s (Hs & _). split; [exact Hs|discriminate].
    + intros s (_ & Hs & _). congruence.
    + eapply T_weak; [|apply IH; [assumption|tauto]]. intros s (Hs & _ & Ht). split; [exact Hs|auto].
Qed.

Lemma T_write_params st na w ps : forall args, (V -> Forall (fun p => zn p < zn (b_locals B)) ps) ->
  Forall oko args -> (length ps <= length args)%nat ->
  T (I st na w) (write_params E ps args) (fun _ => I st na w).
Proof.
  induction ps as [|p ps IH]; intros args Hp Ha Hlen; simpl.
  - apply T_ret; auto.
  - destruct args as [|a args]; simpl in Hlen; [lia|]. inversion Ha; subst.
    eapply T_bind; [now apply T_unpack|]. intro v.
    eapply T_bind; [apply T_write|].
    + intro HV. specialize (Hp HV). inversion Hp; subst. lia.
    + intros []. apply IH; auto; try lia. intro HV. specialize (Hp HV). inversion Hp; auto.
Qed.

Lemma Forall_skipn {A} (P : A -> Prop) n l : Forall P l -> Forall P (skipn n l).
Proof. revert n; induction l; destruct n; simpl; intros H; auto. inversion H; auto. Qed.

Lemma sm_find_some {A} k (m : list (str * A)) a : sm_find k m = Some a -> In (k, a) m.
Proof.
  induction m as [|[k' a'] m IH]; simpl; try discriminate.
  destruct (str_eqb k k') eqn:Ek; intro H; auto. apply str_eqb_eq in Ek. injection H as ->. subst. auto.
Qed.
Lemma sm_set_in {A} k (a : A) m x : In x (sm_set k a m) -> x = (k, a) \/ In x m.
Proof.
  induction m as [|[k' a'] m IH]; simpl; [intuition|].
  destruct (str_ltb k k'); simpl; [intuition|]. destruct (str_eqb k k'); simpl; intuition.
Qed.

Lemma T_call st na w fn args target : slot target -> Forall oko args ->
  T (I st na w) (run_call E rb fn args target) (Code st na w).
Proof.
  intros Ht Ha. unfold run_call.
  eapply T_bind; [apply T_get|]. intro stack. apply T_state. intros s0 [Hs0 Hst].
  destruct (existsb (str_eqb fn) stack) eqn:Ex.
  { apply T_exn. intros s ->. apply Hs0. }
  assert (Hfresh : ~ In fn st).
  { destruct Hs0 as (_ & Hs & _). intro Hin. assert (existsb (str_eqb fn) stack = true); [|congruence].
    apply existsb_exists. exists fn. split; [congruence|apply str_eqb_refl]. }
  assert (Hstk : stack = st) by (destruct Hs0 as (_ & Hs & _); congruence).
  subst stack. rewrite Hstk. clear Ex. apply T_conseq with (P' := I st na w) (Q' := Code st na w); auto.
  { intros s ->. exact Hs0. }
  destruct (e_builtin E fn) as [f|] eqn:Ebi.
  - eapply T_bind; [now apply T_unpacks|]. intro vs.
    eapply T_bind; [apply T_get'|]. intro n.
    eapply T_bind; [apply T_lift; eapply Hterm; eauto|]. intro v. apply T_pre. intros _.
    eapply T_bind; [now apply T_write|]. intros [].
    destruct v as [[]|]; try (apply T_ret; intros s Hs; apply Code_plain; auto; fail).
    eapply T_bind; [apply T_error|]. intros []. apply T_ret. intros s [Hs He].
    split; [exact Hs|]. split; [discriminate|auto].
  - destruct (sm_find fn (b_name_to_func B)) as [i|] eqn:Ef.
    2:{ apply T_exn. intros s Hs; apply Hs. }
    eapply T_bind; [apply T_vnth|].
    { intro HV. apply sm_find_some in Ef. destruct (HV_made HV) as (_ & Hm & _). apply Hm in Ef. lia. }
    intro fu. apply T_pre. intro Hfu. apply znth_some in Hfu as [Hfu _].
    eapply T_bind; [apply T_get'|]. intro w'.
    eapply T_bind; [apply T_get|]. intro cache. apply T_state. intros s1 [Hs1 Hca].
    destruct (if 0 <? w' then None else sm_find (f_name fu) cache) as [cached|] eqn:Ec.
    + assert (Hce : match cached with Some (VErr _) => s_errors s1 <> [] | _ => True end).
      { destruct (0 <? w'); try discriminate. apply sm_find_some in Ec. subst cache.
        destruct cached as [[]|]; auto. destruct Hs1 as (_ & _ & _ & _ & _ & _ & _ & Hs1). eapply Hs1; eauto. }
      apply T_bind with (Q := fun _ s => I st na w s /\ s_errors s = s_errors s1).
      { intros s ->. pose proof (T_write st na w target cached Ht s1 Hs1) as HT.
        unfold write_local, get, bind in *. destruct ((0 <=? target) && (target <? zlen (s_frame s1))); simpl in *; auto. }
      intros []. apply T_ret. intros s [Hs He].
      destruct cached as [[]|]; try (apply Code_plain; auto; fail).
      split; [exact Hs|]. split; [discriminate|]. intro. congruence.
    + apply T_conseq with (P' := I st na w) (Q' := Code st na w); auto.
      { intros s ->. exact Hs1. }
      destruct (Z.ltb_spec (zlen args) (zlen (f_params fu))) as [Hl|Hl].
      { eapply T_bind; [apply T_error|]. intros []. apply T_ret. intros s [Hs He].
        split; [exact Hs|]. split; [discriminate|auto]. }
      eapply T_bind; [apply T_write_params|].
      { intro HV. apply Forall_skipn. pose proof (HV_fun HV fu Hfu) as Hv. unfold verify_function in Hv.
        apply obind_ok in Hv as [_ Hv]. apply obind_ok in Hv as [Hv _]. apply each_ok in Hv.
        eapply Forall_impl; [|exact Hv]. intros p Hp. apply require_ok, Z.ltb_lt in Hp. exact Hp. }
      { now apply Forall_skipn. }
      { rewrite !skipn_length. unfold zlen in Hl. lia. }
      intros [].
      destruct (Z.leb_spec (e_call_depth E) (zlen st)) as [Hd|Hd].
      { eapply T_bind; [apply T_error|]. intros []. apply T_ret. intros s [Hs He].
        split; [exact Hs|]. split; [discriminate|auto]. }
      assert (Hgood : good_stack st -> good_stack (fn :: st)).
      { intros [G1 G2]. split; [now constructor|]. unfold zlen in *. simpl length. lia. }
      eapply T_bind.
      { apply T_modify with (Q := I (fn :: st) (f_arity fu :: na) w).
        intros s ((Hf & He & Hc & Hx & Hn & Hlog & Hev) & H1 & H2 & H3 & H4 & H5 & H6 & H7).
        rewrite H1, H2. unfold Inv, W. cbn [add_log set_stack s_frame s_errors s_count s_log s_stack s_nargs s_with s_depth s_cache executed].
        split; [|split; [reflexivity|split; [reflexivity|auto 10]]].
        split; [exact Hf|]. split; [exact He|]. split; [exact Hc|]. split; [exact Hx|]. split; [exact Hn|].
        split; [constructor; [exact (Hgood H5)|exact Hlog]|]. intros c [HX|HX]; [discriminate|auto]. }
      intros [].
      destruct (f_blocks fu) as [|b0 bs] eqn:Eb.
      { apply T_fault; [intros s Hs; apply Hs|]. intro HV. destruct (HV_made HV) as (_ & _ & _ & Hm & _).
        destruct (Hm fu Hfu). congruence. }
      rewrite <- Eb.
      eapply T_bind.
      { eapply T_conseq with (P' := fun s => I (fn :: st) (f_arity fu :: na) w s /\ (CContinue = CTimeout -> s_errors s <> [])).
        - intros s Hs. split; auto. discriminate.
        - apply T_run_blocks; auto. apply Forall_forall. intros b Hb HV. split.
          + pose proof (HV_fun HV fu Hfu) as Hv. unfold verify_function in Hv.
            repeat apply obind_ok in Hv as [_ Hv]. apply each_ok in Hv. rewrite Forall_forall in Hv. auto.
          + destruct (HV_made HV) as (_ & _ & _ & Hm & _). destruct (Hm fu Hfu) as [_ Hm'].
            rewrite forallb_forall in Hm'. auto.
        - intros a s Hs. exact Hs. }
      intro c. apply T_state. intros s2 (Hs2 & Hc1 & Hc2).
      apply T_bind with (Q := fun _ s => I st na w s).
      { intros s ->. destruct Hs2 as ((Hf & He & Hcn & Hx & Hn & Hlog & Hev) & H1 & H2 & H3 & H4 & H5 & H6 & H7).
        unfold modify, Inv, W. cbn. rewrite H1, H2. repeat split; auto; try (apply Hs0). }
      intros []. destruct c; try (apply T_ret; intros s Hs; apply Code_plain; auto; fail).
      eapply T_bind; [apply T_read|].
      { intro HV. pose proof (HV_fun HV fu Hfu) as Hv. unfold verify_function in Hv.
        apply obind_ok in Hv as [_ Hv]. apply obind_ok in Hv as [_ Hv]. apply obind_ok in Hv as [Hv _].
        apply require_ok, Z.ltb_lt in Hv. lia. }
      intro v. eapply T_bind; [now apply T_write|]. intros [].
      destruct (match v with Some (VErr _) => true | _ => false end) eqn:Ev.
      * (* an error result is cached and recorded *)
        destruct v as [[]|]; try discriminate.
        intros s Hs. unfold bind, modify, add_error, ret.
        set (s' := if f_cacheable fu && negb (0 <? s_with s) then _ else s).
        assert (Hs' : s_errors s' = s_errors s /\ s_frame s' = s_frame s /\ s_count s' = s_count s /\ s_log s' = s_log s
                /\ s_stack s' = s_stack s /\ s_nargs s' = s_nargs s /\ s_with s' = s_with s /\ s_depth s' = s_depth s).
        { unfold s'. destruct (f_cacheable fu && negb (0 <? s_with s)); cbn; auto 10. }
        destruct Hs' as (K1 & K2 & K3 & K4 & K5 & K6 & K7 & K8).
        destruct Hs as ((Hf & (es & He) & Hcn & Hx & Hn & Hlog & Hev) & H1 & H2 & H3 & H4 & H5 & H6 & H7).
        assert (HNE : (s_errors s' ++ [code])%list <> []) by (destruct (s_errors s'); discriminate).
        split; [|split; [discriminate|intros _; exact HNE]].
        unfold Inv, W. cbn [add_log set_errors s_frame s_errors s_count s_log s_stack s_nargs s_with s_depth s_cache executed].
        rewrite K2, K3, K4, K5, K6, K7, K8. repeat split; auto; try apply H5.
        -- exists (es ++ [code])%list. rewrite K1, He. now rewrite app_assoc.
        -- constructor; auto. exact Logic.I.
        -- rewrite K1. intros c [HX|HX]; apply in_app_iff; [injection HX as <-; right; left; reflexivity|left; auto].
        -- intros A1 A2. apply in_app_iff. left. rewrite K1. auto.
      * apply T_bind with (Q := fun _ s => I st na w s).
        { apply T_modify. intros s ((Hf & He & Hcn & Hx & Hn & Hlog & Hev) & H1 & H2 & H3 & H4 & H5 & H6 & H7).
          destruct (f_cacheable fu && negb (0 <? s_with s)); [|unfold Inv, W; repeat split; auto; apply H5].
          unfold Inv, W. cbn. repeat split; auto; try apply H5.
          intros n c Hin. apply sm_set_in in Hin as [Hin|Hin]; [|eauto].
          injection Hin as Hn1 Hv1. rewrite <- Hv1 in Ev. discriminate. }
        intros []. destruct v as [[]|]; try discriminate; apply T_ret; intros s Hs; apply Code_plain; auto.
Qed.

Lemma T_scan_loop st na w k v body l : slot k -> slot v -> okb body ->
  T (I st na w) (scan_loop rb l k v body) (Code st na w).
Proof.
  intros Hk Hv Hb. induction l as [|[a b] l IH]; simpl.
  - apply T_ret. intros s Hs. apply Code_plain; auto.
  - eapply T_bind; [now apply T_write|]. intros [].
    eapply T_bind; [now apply T_write|]. intros [].
    eapply T_bind; [now apply Hrb|]. intro c.
    destruct c; try (apply T_ret; auto; fail).
    + eapply T_weak; [|exact IH]. intros s (Hs & _). exact Hs.
    + eapply T_weak; [|exact IH]. intros s (Hs & _). exact Hs.
Qed.

Lemma T_ext_block st na w e : (V -> e <> None) -> T (I st na w) (ext_block e) (fun b s => I st na w s /\ e = Some (ExtBlock b)).
Proof.
  intro H. destruct e as [[]|]; simpl; try (apply T_exn; intros s Hs; apply Hs).
  - apply T_ret; auto.
  - apply T_fault; [intros s Hs; apply Hs|]. intro HV. split; discriminate.
Qed.

Lemma T_scan_pairs st na w l op0 op1 e : slot (o_index op0) -> slot (o_index op1) -> (V -> e <> None) ->
  (forall b, e = Some (ExtBlock b) -> okb b) ->
  T (I st na w) (scan_pairs rb l op0 op1 e) (Code st na w).
Proof.
  intros H0 H1 He Hb. unfold scan_pairs. destruct l as [|x l].
  - apply T_ret. intros s Hs. apply Code_plain; auto.
  - eapply T_bind; [now apply T_ext_block|]. intro b. apply T_pre. intro Ee. apply T_scan_loop; auto.
Qed.

Lemma T_scan st na w op0 op1 target e : slot target -> slot (o_index op0) -> slot (o_index op1) -> (V -> e <> None) ->
  (forall b, e = Some (ExtBlock b) -> okb b) ->
  T (I st na w) (run_scan rb op0 op1 target e) (Code st na w).
Proof.
  intros Ht H0 H1 He Hb. unfold run_scan. eapply T_bind; [now apply T_read|]. intro v.
  destruct v as [[]|]; try (apply T_ret; intros s Hs; apply Code_plain; auto; fail);
    try (now apply T_scan_pairs).
  apply T_exn. intros s Hs; apply Hs.
Qed.

Lemma T_path_strings st na w l : (V -> Forall (fun i => zn i < zlen (b_strings B)) l) ->
  T (I st na w) (path_strings E l) (fun _ => I st na w).
Proof.
  induction l as [|x l IH]; intro H; simpl.
  - apply T_ret; auto.
  - eapply T_bind; [apply T_vnth|].
    + intro HV. specialize (H HV). inversion H; subst. lia.
    + intro t. apply T_pre. intros _. eapply T_bind; [apply IH|].
      * intro HV. specialize (H HV). inversion H; auto.
      * intro ts. apply T_ret; auto.
Qed.

Lemma T_swap st na w i path v : slot i -> (V -> Forall (fun i => zn i < zlen (b_strings B)) path) ->
  T (I st na w) (write_and_swap E i path v) (fun _ => I st na w).
Proof.
  intros Hi Hp. unfold write_and_swap. eapply T_bind; [now apply T_read|]. intro old.
  destruct path as [|p path].
  - eapply T_bind; [now apply T_write|]. intros []. apply T_ret; auto.
  - eapply T_bind; [now apply T_path_strings|]. intro ks.
    assert (HF : T (I st na w) (@fault_ (option value) NullDeref) (fun _ => I st na w)).
    { apply T_fault; [intros s Hs; apply Hs|]. intro HV. split; discriminate. }
    destruct old as [[]|]; try exact HF.
    + eapply T_bind; [now apply T_write|]. intros []. apply T_ret; auto.
    + eapply T_bind; [now apply T_write|]. intros []. apply T_ret; auto.
Qed.

Lemma Inv_with st na w k s : I st na w s -> I st na (w + k) (add_with k s).
Proof.
  intros (Hw & H1 & H2 & H3 & H4 & H5 & H6 & H7). unfold Inv. cbn.
  repeat split; auto; try apply H5; try apply Hw. lia.
Qed.

Lemma T_with st na w op0 target e : slot target -> oko op0 -> (V -> e <> None) ->
  (forall p b, e = Some (ExtWith p b) -> okb b /\ (V -> Forall (fun i => zn i < zlen (b_strings B)) p)) ->
  T (I st na w) (run_with E rb op0 target e) (Code st na w).
Proof.
  intros Ht H0 He Hb. unfold run_with.
  eapply T_bind; [apply T_modify with (Q := I st na (w + 1)); intros s Hs; now apply Inv_with|]. intros [].
  eapply T_bind; [now apply T_unpack|]. intro v.
  destruct e as [[]|]; try (apply T_exn; intros s Hs; apply Hs).
  - destruct (Hb _ _ eq_refl) as [Hb1 Hb2].
    eapply T_bind; [now apply T_swap|]. intro old.
    eapply T_bind; [now apply Hrb|]. intro c. apply T_state. intros s1 (Hs1 & Hc1 & Hc2).
    apply T_bind with (Q := fun _ s => I st na (w + 1) s /\ s_errors s = s_errors s1).
    { intros s ->. pose proof (T_write st na (w + 1) target old Ht s1 Hs1) as HT.
      unfold write_local, get, bind in *. destruct ((0 <=? target) && (target <? zlen (s_frame s1))); simpl in *; auto. }
    intros [].
    apply T_bind with (Q := fun _ s => I st na w s /\ s_errors s = s_errors s1).
    { apply T_modify. intros s [Hs Es]. split; [|exact Es].
      replace w with (w + 1 + -1) by lia. now apply Inv_with. }
    intros []. apply T_ret. intros s [Hs Es]. split; [exact Hs|]. split; [exact Hc1|]. rewrite Es. exact Hc2.
  - apply T_fault; [intros s Hs; apply Hs|]. intro HV. split; discriminate.
Qed.

Lemma T_find_dynamic st na w path : forall name found, Forall oko path ->
  (forall fn rest, found = Some (fn, rest) -> Forall oko rest) ->
  T (I st na w) (find_dynamic E path name found)
    (fun r s => I st na w s /\ (forall fn rest, r = Some (fn, rest) -> Forall oko rest)).
Proof.
  induction path as [|o path IH]; intros name found Hp Hf; simpl.
  - apply T_ret; auto.
  - inversion Hp; subst. eapply T_bind; [now apply T_unpack|]. intro v. apply IH; auto.
    intros fn rest. destruct (sm_find _ _); intro Hq; [|eauto]. injection Hq as _ <-. assumption.
Qed.

Lemma T_dot_path st na w path : forall v, Forall oko path -> T (I st na w) (dot_path E v path) (fun _ => I st na w).
Proof.
  induction path as [|o path IH]; intros v Hp; simpl.
  - apply T_ret; auto.
  - inversion Hp; subst. eapply T_bind; [now apply T_unpack|]. intro k.
    destruct (dot E v k); [now apply IH|]. apply T_ret; auto.
Qed.

Lemma T_dynamic st na w path ops target : slot target -> Forall oko path -> Forall oko ops ->
  T (I st na w) (run_dynamic E rb path ops target) (Code st na w).
Proof.
  intros Ht Hp Ho. unfold run_dynamic.
  eapply T_bind; [apply T_find_dynamic; auto; discriminate|]. intros [[fn rest]|].
  - apply T_pre. intro Hr. specialize (Hr fn rest eq_refl).
    eapply T_bind; [now apply T_call|]. intro c.
    destruct rest as [|o rest]; [apply T_ret; auto|].
    destruct c; try (apply T_ret; auto; fail).
    apply T_weak with (P' := I st na w); [intros s (Hs & _); exact Hs|].
    eapply T_bind; [now apply T_read|]. intro v.
    eapply T_bind; [now apply T_dot_path|]. intros [x|].
    + eapply T_bind; [now apply T_write|]. intros []. apply T_ret. intros s Hs. apply Code_plain; auto.
    + apply T_ret. intros s Hs. apply Code_plain; auto.
  - apply T_ret. intros s [Hs _]. apply Code_plain; auto.
Qed.

Lemma T_block_stmt st na w l : Forall okb l -> T (I st na w) (block_stmt rb l) (Code st na w).
Proof.
  induction l as [|b l IH]; intro H; simpl.
  - apply T_ret. intros s Hs. apply Code_plain; auto.
  - inversion H; subst. eapply T_bind; [now apply Hrb|]. intro c.
    destruct c; try (apply T_ret; auto; fail).
    + eapply T_weak; [|now apply IH]. intros s (Hs & _). exact Hs.
    + eapply T_weak; [|now apply IH]. intros s (Hs & _). exact Hs.
    + apply T_exn. intros s (Hs & _). apply Hs.
Qed.

(** What verification says about each kind of statement. *)
Lemma okb_of b : (V -> verify_block B b = Ok tt) -> (V -> slots_ok_block b = true) -> okb b.
Proof. intros H1 H2 HV. auto. Qed.

Record stmt_facts (ty : stmt_type) (op0 op1 : operand) (target : Z) (e : option ext) : Prop := {
  sf_target : ignores_target ty = false -> slot target;
  sf_op0 : oko op0;
  sf_op1 : oko op1;
  sf_num : ty = SMakeNumberRef -> V -> 0 <= o_index op0 < zlen (b_strings B);
  sf_slots : ty = SScan \/ ty = SObjectMerge -> slot (o_index op0) /\ slot (o_index op1);
  sf_ext : ty = SBlock \/ ty = SNot \/ ty = SScan \/ ty = SCall \/ ty = SCallDynamic \/ ty = SWith -> V -> e <> None;
  sf_blocks : ty = SBlock -> forall bs, e = Some (ExtBlocks bs) -> Forall okb bs;
  sf_block : ty = SNot \/ ty = SScan -> forall b, e = Some (ExtBlock b) -> okb b;
  sf_call : ty = SCall -> forall f ops, e = Some (ExtCall f ops) -> Forall oko ops;
  sf_dyn : ty = SCallDynamic -> forall p ops, e = Some (ExtDyn p ops) -> Forall oko p /\ Forall oko ops;
  sf_with : ty = SWith -> forall p b, e = Some (ExtWith p b) ->
    okb b /\ (V -> Forall (fun i => zn i < zlen (b_strings B)) p)
}.

Lemma Forall_V {A} (P : A -> Prop) l : (V -> Forall P l) -> Forall (fun x => V -> P x) l.
Proof.
  intro H. apply Forall_forall. intros x Hx HV. specialize (H HV). rewrite Forall_forall in H. auto.
Qed.

Lemma slot_operand o : oko o -> (V -> is_slot o = true) -> slot (o_index o).
Proof.
  intros H1 H2 HV. specialize (H1 HV). specialize (H2 HV). unfold verify_operand in H1. unfold is_slot in H2.
  pose proof (o_index_nonneg o).
  destruct (o_type o); try discriminate; apply require_ok, Z.ltb_lt in H1; lia.
Qed.

Lemma stmt_facts_of ty op0 op1 target e : oks (Stmt ty op0 op1 target e) -> stmt_facts ty op0 op1 target e.
Proof.
  intro H. unfold oks in H.
  assert (H1 : V -> verify_stmt B (Stmt ty op0 op1 target e) = Ok tt) by (intro HV; apply (H HV)).
  assert (H2 : V -> slots_ok (Stmt ty op0 op1 target e) = true) by (intro HV; apply (H HV)).
  clear H. cbn [verify_stmt] in H1. cbn [slots_ok] in H2.
  assert (O0 : oko op0).
  { intro HV. specialize (H1 HV). apply obind_ok in H1 as [_ H1]. apply obind_ok in H1 as [H1 _]. exact H1. }
  assert (O1 : oko op1).
  { intro HV. specialize (H1 HV). do 2 apply obind_ok in H1 as [_ H1]. apply obind_ok in H1 as [H1 _]. exact H1. }
  constructor; auto.
  - intros Hi HV. specialize (H1 HV). apply obind_ok in H1 as [H1 _]. rewrite Hi in H1.
    apply require_ok in H1. simpl in H1. apply andb_true_iff in H1 as [A1 A2].
    apply Z.leb_le in A1. apply Z.ltb_lt in A2. lia.
  - intros -> HV. specialize (H1 HV). do 3 apply obind_ok in H1 as [_ H1]. apply obind_ok in H1 as [H1 _].
    apply require_ok, Z.ltb_lt in H1. pose proof (o_index_nonneg op0). lia.
  - intros Hty. assert (H3 : V -> is_slot op0 = true /\ is_slot op1 = true).
    { intro HV. specialize (H2 HV). apply andb_true_iff in H2 as [H2 _].
      destruct Hty; subst ty; now apply andb_true_iff in H2. }
    split; apply slot_operand; auto; intro HV; apply (H3 HV).
  - intros Hty HV. specialize (H1 HV). do 4 apply obind_ok in H1 as [_ H1].
    destruct e; [discriminate|]. destruct Hty as [K|[K|[K|[K|[K|K]]]]]; rewrite K in H1; discriminate.
  - intros -> bs ->. apply (Forall_V (fun b => verify_block B b = Ok tt /\ slots_ok_block b = true)). intro HV.
    specialize (H1 HV). specialize (H2 HV). do 4 apply obind_ok in H1 as [_ H1].
    rewrite verify_blocks_nested in H1. apply each_ok in H1. apply andb_true_iff in H2 as [_ H2].
    rewrite slotss_nested in H2. rewrite forallb_forall in H2. rewrite Forall_forall in *. auto.
  - intros Hty b -> HV. specialize (H1 HV). specialize (H2 HV). do 4 apply obind_ok in H1 as [_ H1].
    apply andb_true_iff in H2 as [_ H2]. rewrite slots_nested in H2.
    destruct Hty; subst ty; rewrite verify_block_nested in H1; auto.
  - intros -> f ops ->. apply (Forall_V (fun o => verify_operand B o = Ok tt)). intro HV. specialize (H1 HV).
    do 4 apply obind_ok in H1 as [_ H1]. apply obind_ok in H1 as [H1 _]. now apply each_ok.
  - intros -> p ops ->. split; apply (Forall_V (fun o => verify_operand B o = Ok tt)); intro HV; specialize (H1 HV);
      do 4 apply obind_ok in H1 as [_ H1]; apply obind_ok in H1 as [H1 H1']; now apply each_ok.
  - intros -> p b ->. split; intro HV; specialize (H1 HV); specialize (H2 HV); do 4 apply obind_ok in H1 as [_ H1];
      rewrite verify_block_nested in H1; apply obind_ok in H1 as [H1 H1'].
    + apply andb_true_iff in H2 as [_ H2]. rewrite slots_nested in H2. auto.
    + apply each_ok in H1'. eapply Forall_impl; [|exact H1']. intros i Hi. now apply require_ok, Z.ltb_lt in Hi.
Qed.

Lemma boolinfix_fuel op a b : boolinfix (e_fops E) op a b <> OutOfFuel.
Proof.
  unfold boolinfix. destruct a as [a| |]; destruct b as [b| |]; try discriminate.
  destruct a, b; cbn [is_num andb]; unfold get_double; try discriminate;
    repeat match goal with |- context [f_ok ?x ?y] => destruct (f_ok x y); cbn [obind] end; discriminate.
Qed.

Ltac step :=
  match goal with
  | |- T _ (ret _) _ => apply T_ret; let s := fresh "s" in let H := fresh "H" in intros s H; apply Code_plain; auto
  | |- T _ (bind (write_local _ _) _) _ => eapply T_bind; [now apply T_write|intros []]
  | |- T _ (bind (read_local _) _) _ => eapply T_bind; [now apply T_read|let v := fresh "v" in intro v]
  | |- T _ (bind (unpack_operand _ _) _) _ => eapply T_bind; [now apply T_unpack|let v := fresh "v" in intro v]
  | |- T _ (bind (add_error _) _) _ =>
      eapply T_bind; [apply T_error|intros []; apply T_ret; let s := fresh "s" in intros s [? ?];
        split; [assumption|split; [discriminate|auto]]]
  end.

Lemma T_fault_bad st na w (Q : code -> state -> Prop) f : f = NullDeref \/ f = BadTree -> T (I st na w) (fault_ f) Q.
Proof. intro H. apply T_fault; [intros s Hs; apply Hs|]. intros _. destruct H; subst; split; discriminate. Qed.

Lemma T_dispatch st na w x : oks x -> T (I st na w) (dispatch E rb x) (Code st na w).
Proof.
  destruct x as [ty op0 op1 target e]. intro Hx. apply stmt_facts_of in Hx. destruct Hx.
  assert (HX : T (I st na w) (@exn code) (Code st na w)) by (apply T_exn; intros s Hs; apply Hs).
  assert (HN : T (I st na w) (@fault_ code NullDeref) (Code st na w)) by (apply T_fault_bad; auto).
  assert (HBT : T (I st na w) (@fault_ code BadTree) (Code st na w)) by (apply T_fault_bad; auto).
  destruct ty; cbn [dispatch]; try specialize (sf_target0 eq_refl);
    try (repeat step; fail).
  - (* ArrayAppend *)
    do 2 step. destruct v0 as [x|]; [|step]. destruct v as [[]|]; try exact HBT; repeat step.
  - (* AssignVarOnce *)
    step. destruct v as [x|]; [|step]. step. destruct v as [y|]; [|repeat step].
    destruct (str_eqb _ _); repeat step.
  - (* Block *) destruct e as [[]|]; auto. apply T_block_stmt. eauto.
  - (* Break *)
    eapply T_bind.
    { apply T_modify with (Q := I st na w). intros s (Hw & H1 & H2 & H3 & H4 & H5 & H6 & H7).
      unfold Inv. cbn. repeat split; auto; try apply H5; try apply Hw. }
    intros []. step.
  - (* CallDynamic *) destruct e as [[]|]; auto. destruct (sf_dyn0 eq_refl _ _ eq_refl). now apply T_dynamic.
  - (* Call *) destruct e as [[]|]; auto. apply T_call; eauto.
  - (* Dot *) do 2 step. destruct (dot E v v0); repeat step.
  - (* Equal *)
    do 2 step. eapply T_bind; [apply T_lift, boolinfix_fuel|]. intro r. apply T_pre. intros _.
    destruct r as [[]| |]; step.
  - (* IsArray *) step. destruct v as [[]|]; step.
  - (* IsDefined *) eapply T_bind; [now apply T_is_defined|].
    intro b. destruct b; step.
  - (* IsObject *) step. destruct v as [[]|]; step.
  - (* IsSet *) step. destruct v as [[]|]; step.
  - (* IsUndefined *) eapply T_bind; [now apply T_is_defined|].
    intro b. destruct b; step.
  - (* MakeNumberRef *)
    eapply T_bind; [apply T_vnth; auto|]. intro t. apply T_pre. intros _. repeat step.
  - (* NotEqual *)
    do 2 step. destruct v as [v|]; [|step]. destruct v0 as [v0|]; [|step].
    eapply T_bind; [apply T_lift, boolinfix_fuel|]. intro r. apply T_pre. intros _.
    destruct r as [[]| |]; step.
  - (* Not *)
    eapply T_bind; [apply T_ext_block; auto|]. intro b. apply T_pre. intro Eb.
    eapply T_bind; [apply Hrb; eauto|]. intro c. apply T_ret. intros s (Hs & Hc1 & Hc2).
    destruct c; try (apply Code_plain; auto; fail); split; auto.
  - (* ObjectInsert *)
    do 3 step. destruct (insert_into_object _ _ _ _); repeat step.
  - (* ObjectInsertOnce *)
    do 3 step. destruct (insert_into_object _ _ _ _); repeat step.
  - (* ObjectMerge *)
    destruct (sf_slots0 ltac:(auto)). repeat step.
  - (* ResultSetAdd *)
    step. eapply T_bind.
    { apply T_modify with (Q := I st na w). intros s (Hw & H1 & H2 & H3 & H4 & H5 & H6 & H7).
      unfold Inv. cbn. repeat split; auto; try apply H5; try apply Hw. }
    intros []. step.
  - (* Scan *) destruct (sf_slots0 ltac:(auto)). apply T_scan; auto.
  - (* SetAdd *)
    do 2 step. destruct v0 as [x|]; [|step].
    destruct v as [[]|]; try exact HBT; try (repeat step; fail); destruct (existsb _ _); repeat step.
  - (* With *) apply T_with; auto. apply sf_ext0. tauto.
Qed.

Lemma T_stmt st na w x : oks x -> T (I st na w) (run_stmt E rb x) (Code st na w).
Proof.
  intros Hx s Hs. unfold run_stmt, bind, modify, get. cbn [s_count inc_stmts set_counts].
  destruct Hs as ((Hf & He & Hc & Hxc & Hn & Hlog & Hev) & H1 & H2 & H3 & H4 & H5 & H6 & H7).
  destruct (Z.leb_spec (e_stmt_limit E) (s_count s + 1)) as [Hl|Hl].
  - unfold add_error, modify, ret. destruct He as [es He].
    split; [|split; [discriminate|]].
    + unfold Inv, W. cbn. repeat split; auto; try apply H5; try lia.
      * exists (es ++ [TimeoutError])%list. rewrite He. now rewrite app_assoc.
      * constructor; auto. exact Logic.I.
      * intros c' [HX|HX]; apply in_app_iff; [injection HX as <-; right; left; reflexivity|left; auto].
      * intros _ _. apply in_app_iff. right. left. reflexivity.
      * intros n c _ N. apply app_eq_nil in N as [_ N]. discriminate.
    + intros _ N. cbn in N. apply app_eq_nil in N as [_ N]. discriminate.
  - apply (T_dispatch st na w x Hx). unfold Inv, W.
    cbn [add_log inc_stmts set_counts s_frame s_errors s_count s_log s_stack s_nargs s_with s_depth s_cache executed].
    split; [|repeat split; auto; try apply H5; lia].
    repeat (split; [first [assumption | lia]|]).
    split; [constructor; [exact Logic.I|exact Hlog]|]. intros c [HX|HX]; [discriminate|auto].
Qed.

Lemma T_stmts st na w l : forall c, okb l -> c <> CMultipleOutputs -> c <> CError -> c <> CTimeout ->
  T (I st na w) (run_stmts E rb l c) (Code st na w).
Proof.
  induction l as [|x l IH]; intros c Hl Hc1 Hc2 Hc3; simpl.
  - apply T_ret. intros s Hs. split; [exact Hs|]. split; [exact Hc1|intuition congruence].
  - assert (Hx : oks x).
    { intro HV. destruct (Hl HV) as [A1 A2]. unfold verify_block in A1. simpl in A1. apply obind_ok in A1 as [A1 _].
      simpl in A2. apply andb_true_iff in A2 as [A2 _]. auto. }
    assert (Hl' : okb l).
    { intro HV. destruct (Hl HV) as [A1 A2]. unfold verify_block in A1. simpl in A1. apply obind_ok in A1 as [_ A1].
      simpl in A2. apply andb_true_iff in A2 as [_ A2]. auto. }
    eapply T_bind; [now apply T_stmt|]. intro c'. destruct c'; try (apply T_ret; auto; fail).
    + eapply T_bind.
      { apply T_modify with (Q := I st na w). intros s ((Hw & H1 & H2 & H3 & H4 & H5 & H6 & H7) & _).
        unfold Inv. cbn. repeat split; auto; try apply H5; try apply Hw. }
      intros []. apply T_ret. intros s Hs. apply Code_plain; auto.
    + eapply T_weak; [|apply IH; auto; discriminate]. intros s (Hs & _). exact Hs.
    + apply T_exn. intros s (Hs & _). apply Hs.
Qed.
End AtDepth.

Lemma Inv_depth st na w d k s : Inv st na w d s -> Inv st na w (d + k) (add_depth k s).
Proof.
  intros (Hw & H1 & H2 & H3 & H4 & H5 & H6 & H7). unfold Inv. cbn.
  repeat split; auto; try apply H5; try apply Hw. lia.
Qed.

Lemma T_block n : forall d b st na w, okb b -> d <= e_block_depth E < d + Z.of_nat n ->
  T (Inv st na w d) (run_block E n b) (Code d st na w).
Proof.
  induction n as [|n IH]; intros d b st na w Hb Hd; [lia|].
  cbn [run_block]. eapply T_bind; [apply T_get|]. intro d'. apply T_state. intros s0 [Hs0 Hd'].
  assert (d' = d) by (destruct Hs0 as (_ & _ & _ & _ & Hs0 & _); congruence). subst d'. rewrite H in *.
  apply T_weak with (P' := Inv st na w d); [intros s ->; exact Hs0|].
  destruct (Z.leb_spec (e_block_depth E) d) as [Hl|Hl].
  - eapply T_bind; [apply T_error|]. intros []. apply T_ret. intros s [Hs He].
    split; [exact Hs|]. split; [discriminate|auto].
  - eapply T_bind; [apply T_modify with (Q := Inv st na w (d + 1)); intros s Hs; now apply Inv_depth|]. intros [].
    eapply T_bind.
    { apply (T_stmts (d + 1) (run_block E n)); auto; try discriminate.
      intros b' st' na' w' Hb'. apply IH; auto. lia. }
    intro c. apply T_state. intros s1 (Hs1 & Hc1 & Hc2).
    apply T_bind with (Q := fun _ s => Inv st na w d s /\ s_errors s = s_errors s1).
    { intros s ->. split; [|reflexivity]. replace d with (d + 1 + -1) by lia. now apply Inv_depth. }
    intros []. apply T_ret. intros s [Hs Es]. split; [exact Hs|]. split; [exact Hc1|]. rewrite Es. exact Hc2.
Qed.

Lemma T_plan n l : Forall okb l -> 0 <= e_block_depth E < Z.of_nat n ->
  T (Inv [] [] 0 0) (run_plan_blocks E n l) (fun _ => Inv [] [] 0 0).
Proof.
  intros Hl Hn. induction l as [|b l IH]; simpl.
  - apply T_ret; auto.
  - inversion Hl; subst. eapply T_bind; [apply T_block; auto; lia|]. intro c.
    destruct c; try (apply T_ret; intros s (Hs & _); exact Hs).
    eapply T_weak; [|auto]. intros s (Hs & _). exact Hs.
Qed.
End Traversal.

(** ** A whole run *)

Lemma init_inv E : Inv E [] 0 [] [] 0 0 (init_state (b_locals (e_bundle E))).
Proof.
  unfold Inv, W, init_state. cbn.
  split; [|repeat split; auto; try lia; try constructor; try contradiction].
  - split; [unfold zlen; rewrite repeat_length; lia|]. split; [exists []; reflexivity|].
    repeat split; auto; lia.
  - unfold zlen. simpl. lia.
Qed.

Lemma run_inv E (V : Prop) p input :
  sound_env E ->
  (V -> well_made (e_bundle E)) -> (V -> verify (e_bundle E) = Ok tt) -> (V -> In p (b_plans (e_bundle E))) ->
  match run E (block_fuel E) p input with
  | Done _ s => Inv E [] 0 [] [] 0 0 s
  | Exn s => W E [] 0 s
  | Fault f s => W E [] 0 s /\ (V -> f <> OutOfRange /\ f <> Uninitialised)
  | NoFuel _ => False
  end.
Proof.
  intros (Hb & Hc & Ht) Hm Hv Hp.
  assert (Hfun : V -> forall f, In f (b_functions (e_bundle E)) -> verify_function (e_bundle E) f = Ok tt).
  { intros HV f Hf. specialize (Hv HV). unfold verify in Hv. apply obind_ok in Hv as [_ Hv].
    apply obind_ok in Hv as [Hv _]. apply each_ok in Hv. rewrite Forall_forall in Hv. auto. }
  assert (Hblk : Forall (okb E V) (p_blocks p)).
  { apply Forall_V. intro HV. apply Forall_forall. intros b Hin. split.
    - specialize (Hv HV). unfold verify in Hv. do 2 apply obind_ok in Hv as [_ Hv]. apply each_ok in Hv.
      rewrite Forall_forall in Hv. specialize (Hv p (Hp HV)). apply each_ok in Hv. rewrite Forall_forall in Hv. auto.
    - destruct (Hm HV) as (_ & _ & _ & _ & Hs). specialize (Hs p (Hp HV)). rewrite forallb_forall in Hs. auto. }
  assert (H2 : V -> 2 <= zn (b_locals (e_bundle E))) by (intro HV; destruct (Hm HV); lia).
  assert (HT : T E V [] 0 (Inv E [] 0 [] [] 0 0)
     (do! u := write_local 0 input in do! u := write_local 1 (Some (b_data (e_bundle E))) in
      run_plan_blocks E (block_fuel E) (p_blocks p)) (fun _ => Inv E [] 0 [] [] 0 0)).
  { eapply T_bind; [apply T_write; intro HV; specialize (H2 HV); lia|]. intros [].
    eapply T_bind; [apply T_write; intro HV; specialize (H2 HV); lia|]. intros [].
    apply T_plan; auto. unfold block_fuel. lia. }
  exact (HT _ (init_inv E)).
Qed.
