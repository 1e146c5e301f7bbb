(** The rules of a built program, when a query asks for them. *)
From Coq Require Import String ZArith NArith List Bool Lia.
From Verif Require Import Base SMap ValueModel ValueSpec ResolverModel VmModel VmSpec VmProofs VmStmtProofs VmTheorems PlanModel PlanSpec PlanProofs PlanBuildProofs PlanTheorems
  RuleModel RuleSpec RuleVmProofs RuleProofs RuleBuiltProofs TermModel TermSpec TermStaticProofs TermRunProofs TermRuleProofs.
Import ListNotations.
Local Open Scope Z_scope.

Section Built.
Variable p : prog.
Hypothesis C : compiled p.
Hypothesis M : moderate p.
Variable b : bundle.
Hypothesis B : build p = Ok b.
Notation rho := (nl (final_table p)).
Notation sigma := (ns (final_table p)).
Variable E : env.
Hypothesis HE : e_bundle E = b.
Variable i : nat.
Variable f : fn str str.
Hypothesis Hf : nth_error (g_fns p) i = Some f.
Section Slots.
Variable L : list str.
Hypothesis LN : forall x, In x L -> In (Some i, x) (names p).
Hypothesis ALONE : forall x j g, In x L -> j <> i -> nth_error (g_fns p) j = Some g -> generated x \/ reserved x -> ~ In x (skipn 2 (n_params g) ++ flat_map writes (fn_body g)).
Lemma slots_of x : In x L -> 0 <= rho (Some i) x < frame_size p /\ unshared E (n_name f) (frame_size p) (rho (Some i) x).
Proof.
  intro IX. split; [apply (nl_range p (Some i, x)), LN, IX|]. intros name k g Hn Hk Hg. rewrite HE in Hk, Hg.
  destruct (says_built p C M b B) as [[_ _ SF] [NI ND NO NS]].
  destruct (C58_names p b C M B) as (HN & _). apply HN in Hk as (f2 & H2 & Hname).
  assert (ZN : nth_error (b_functions b) (N.to_nat k) = Some g).
  { unfold znth in Hg. destruct (_ && _); [|discriminate]. rewrite <- Hg. f_equal. lia. }
  destruct (forall2_nth _ _ _ SF _ _ _ (numbered_nth p _ _ H2) ZN) as (_ & HP & _ & _ & _ & HB). cbn [fst snd] in HP, HB.
  set (j := N.to_nat k) in *.
  assert (NE : j <> i) by (intro Q; rewrite Q in H2; congruence).
  assert (DIFF : forall z, In z (skipn 2 (n_params f2) ++ flat_map writes (fn_body f2)) -> rho (Some i) x <> rho (Some j) z).
  { intros z Iz Q.
    assert (INz : In (Some j, z) (names p)).
    { eapply named; [exact H2|]. apply in_app_iff in Iz as [Iz|Iz]; apply in_or_app; [left|right; apply in_or_app; left].
      - rewrite <- (firstn_skipn 2 (n_params f2)). apply in_or_app. now right.
      - apply in_flat_map in Iz as (st & I1 & I2). apply in_flat_map. exists st. split; [exact I1|now apply writes_locals]. }
    pose proof (LN x IX) as INx. destruct (reserved_dec x) as [Rx|Rx], (reserved_dec z) as [Rz|Rz].
    - apply (ALONE x j f2 IX NE H2 (or_intror Rx)). replace x with z; [exact Iz|].
      destruct Rx as [->| ->], Rz as [->| ->]; try reflexivity; rewrite ?NI, ?ND in Q; discriminate.
    - pose proof (nl_reserved p (Some i) x Rx). pose proof (NO _ INz Rz). cbn [fst snd] in *. lia.
    - pose proof (nl_reserved p (Some j) z Rz). pose proof (NO _ INx Rx). cbn [fst snd] in *. lia.
    - apply (NS _ _ INx INz Rx Rz) in Q as [Q1 [Q2|Q2]]; cbn [fst snd] in Q1, Q2; [|injection Q2 as Q2; now elim NE]. subst z.
      exact (ALONE x j f2 IX NE H2 (or_introl Q2) Iz). }
  split.
  - intro I. rewrite <- skipn_map in I. change (map zn (f_params g)) with (map Z.of_N (f_params g)) in I. rewrite HP, skipn_map in I.
    apply in_map_iff in I as (z & Q & Iz). apply (DIFF z); auto. apply in_or_app. auto.
  - eexists. split; [exact HB|]. rewrite <- concat_map. unfold in_frame. rewrite locals_maps, writes_maps. split.
    + apply Forall_forall. intros z I. apply in_map_iff in I as (w & <- & Iw). unfold frame_size. apply (nl_range p (Some j, w)).
      eapply named; [exact H2|]. apply in_or_app. right. apply in_or_app. now left.
    + intro I. apply in_map_iff in I as (z & Q & Iz). apply (DIFF z); auto. apply in_or_app. right. exact Iz.
Qed.
Lemma apart_of x z : In x L -> In z L -> rho (Some i) x = rho (Some i) z -> x = z.
Proof.
  intros Ix Iz Q. destruct (says_built p C M b B) as [_ [NI ND NO NS]]. pose proof (LN x Ix) as INx. pose proof (LN z Iz) as INz.
  destruct (reserved_dec x) as [Rx|Rx], (reserved_dec z) as [Rz|Rz].
  - destruct Rx as [->| ->], Rz as [->| ->]; try reflexivity; rewrite ?NI, ?ND in Q; discriminate.
  - pose proof (nl_reserved p (Some i) x Rx). pose proof (NO _ INz Rz). cbn [fst snd] in *. lia.
  - pose proof (nl_reserved p (Some i) z Rz). pose proof (NO _ INx Rx). cbn [fst snd] in *. lia.
  - apply (NS _ _ INx INz Rx Rz) in Q as [Q _]. exact Q.
Qed.
End Slots.
Variable y : nat -> str.
Variable l : list rbody.
Hypothesis SO : source_of E p i f y l.
Notation L := (flat_map locals_in (fn_body f)).

Lemma source_named x : In x L -> In (Some i, x) (names p).
Proof. intro I. eapply named; [exact Hf|]. apply in_or_app. right. apply in_or_app. now left. Qed.
Definition source_slots := slots_of L source_named (so_alone _ _ _ _ _ _ SO).
Definition source_apart := apart_of L source_named.
Lemma source_words : frame_size p <= 2 ^ 64.
Proof. destruct M as [M1 _]. unfold frame_size. assert (2 ^ 32 <= 2 ^ 64) by (apply Z.pow_le_mono_r; lia). lia. Qed.
Lemma source_fine : own_code E sigma L (rules_code (n_result f) y 0 l).
Proof.
  split; [apply (so_locals _ _ _ _ _ _ SO)|]. split; [|apply (so_calls _ _ _ _ _ _ SO)]. intros s I. change (znth (b_strings (e_bundle E)) (sigma s mod 2 ^ 64) = Some s). rewrite HE.
  destruct (interned_ok p) as (_ & _ & HI).
  assert (HS : In s (strings p)).
  { pose proof (so_strings _ _ _ _ _ _ SO _ I) as I2.
    unfold strings, body. rewrite flat_map_app. apply in_or_app. right. apply in_flat_map in I2 as (st & I3 & I4). apply in_flat_map.
    exists st. split; [|exact I4]. apply in_flat_map. exists f. split; [eapply nth_error_In; eauto|exact I3]. }
  assert (Q : b = bundle_of p).
  { destruct M as [M1 M2]. assert (H : build p = Ok (bundle_of p)) by (apply build_ok; auto; apply C). rewrite B in H. now injection H. }
  specialize (HI _ HS). rewrite Q. change (b_strings (bundle_of p)) with (t_strings (final_table p)).
  rewrite Z.mod_small; [exact HI|]. destruct (ns_index p _ HS) as [[R1 R2] _]. split; [exact R1|].
  destruct M as [_ M2]. assert (2 ^ 32 <= 2 ^ 64) by (apply Z.pow_le_mono_r; lia). lia.
Qed.
Lemma source_asked input k D s : asked_for E (n_name f) input s -> incl D L -> (forall x, In x D -> reserved x) -> (In $"input" D -> input <> None) ->
  unmade k D /\ at_work (n_name f) (frame_size p) (rho (Some i)) D (asked_values input (g_data p)) s.
Proof.
  intros (HF & HS & _ & _) HD HR HI. destruct (says_built p C M b B) as [[SD _ _] [NI ND NO NS]].
  assert (Q : b = bundle_of p).
  { destruct M as [M1 M2]. assert (H : build p = Ok (bundle_of p)) by (apply build_ok; auto; apply C). rewrite B in H. now injection H. }
  assert (LEN : zn (b_locals b) = Z.max 3 (Z.of_nat (count_locals p) + 2)).
  { rewrite Q, locals_B. now apply top_exact. }
  assert (EX : exists rest, s_frame s = input :: Some (g_data p) :: rest /\ zlen (s_frame s) = zn (b_locals b)).
  { rewrite HF. unfold initial. rewrite HE. cbn [set_frame s_frame init_state]. rewrite SD. remember (N.to_nat (b_locals b)) as u eqn:U.
    destruct u as [|[|u]]; [lia|lia|]. exists (repeat None u). split; [reflexivity|]. unfold zlen. cbn [repeat upd length]. rewrite repeat_length. lia. }
  destruct EX as (rest & FR & ZL).
  split.
  { intros q j I. apply HR in I. exfalso. assert (G : In 36 (tmp q j)) by (unfold tmp; rewrite !in_app_iff; right; left; cbn; auto).
    destruct I as [I|I]; rewrite I in G; cbn in G; intuition discriminate. }
  split; [rewrite HS; now left|]. split; [rewrite ZL, LEN; unfold frame_size; lia|].
  intros x I. unfold local. rewrite FR. destruct (HR x I) as [->| ->].
  - rewrite NI. destruct input as [v|]; [|elim (HI I); reflexivity]. exists v. split; reflexivity.
  - rewrite ND. exists (g_data p). split; [reflexivity|]. unfold znth, zlen. cbn [length]. destruct (Z.ltb_spec 1 (Z.of_nat (S (S (length rest))))); [reflexivity|lia].
Qed.
End Built.
