(** The function of a query: all its solutions, in order. *)
From Coq Require Import String ZArith List Bool Lia.
From Verif Require Import Base SMap BigIntSpec BigIntModel ValueModel ValueSpec ResolverModel VmModel VmSpec VmProofs VmSimProofs VmStmtProofs
  PlanModel PlanSpec PlanProofs RuleModel RuleSpec RuleVmProofs RuleVisitProofs RuleProofs RuleCompleteProofs RuleFnProofs RuleObjProofs
  RuleEntryProofs RuleBuiltProofs QueryModel QuerySpec QueryProofs.
Import ListNotations.
Local Open Scope Z_scope.

(** ** Following two locals from visit to visit *)
Section Fold2.
Variable E : env.
Variable fn : str.
Variables x y n : Z.
Hypothesis PX : private E fn n x.
Hypothesis PY : private E fn n y.
Hypothesis NR : n <= 2 ^ 64.
Variable k : block.
Variable V : option value -> option value -> Prop.
Variable R : option value * option value -> state -> option value * option value -> Prop.
Hypothesis Hk : forall m t c s' cx cy, run_stmts E (run_block E m) k CContinue t = Done c s' -> good c ->
  In fn (s_stack t) -> local t x = Some cx -> local t y = Some cy -> V cx cy ->
  exists cx' cy', In fn (s_stack s') /\ local s' x = Some cx' /\ local s' y = Some cy' /\ V cx' cy' /\ R (cx, cy) t (cx', cy').

Let Q (b : block) (s : state) (ts : list state) (s' : state) : Prop := fair x n b -> fair y n b ->
  forall cx cy, In fn (s_stack s) -> local s x = Some cx -> local s y = Some cy -> V cx cy ->
  exists cx' cy', In fn (s_stack s') /\ local s' x = Some cx' /\ local s' y = Some cy' /\ V cx' cy' /\ chain R (cx, cy) ts (cx', cy').

Lemma visits_fold_two :
  (forall m b s ts c s', visits E k m b s ts c s' -> Q b s ts s') /\
  (forall m i j b l s ts s', loops E k m i j b l s ts s' -> 0 <= i -> 0 <= j -> i <> x -> j <> x -> i <> y -> j <> y -> Q b s ts s') /\
  (forall m b s ts c s', enters E k m b s ts c s' -> Q b s ts s').
Proof.
  apply visits_comb; unfold Q.
  - intros m s c s' H Hc _ _ cx cy I LX LY HV. destruct (Hk _ _ _ _ _ _ H Hc I LX LY HV) as (cx' & cy' & I' & LX' & LY' & HV' & HR).
    exists cx', cy'. repeat split; auto. econstructor; [exact HR|constructor].
  - intros m st b s s1 ts c s' _ H _ IH HX HY cx cy I LX LY HV. apply fair_cons in HX as [FX1 FX2]. apply fair_cons in HY as [FY1 FY2].
    destruct (J_run_stmt E fn x n PX NR m st FX1 _ _ _ I H) as [I1 L1]. destruct (J_run_stmt E fn y n PY NR m st FY1 _ _ _ I H) as [_ L2].
    apply IH; auto; congruence.
  - intros m st b s s1 _ H HX HY cx cy I LX LY HV. apply fair_cons in HX as [FX1 FX2]. apply fair_cons in HY as [FY1 FY2].
    destruct (J_run_stmt E fn x n PX NR m st FX1 _ _ _ I H) as [I1 L1]. destruct (J_run_stmt E fn y n PY NR m st FY1 _ _ _ I H) as [_ L2].
    exists cx, cy. repeat split; auto; [congruence|congruence|constructor].
  - intros m a b z body' body s src l ts s' _ HL HS _ IH HX HY cx cy I LX LY HV. apply (fair_scan x n NR) in HX as (F1 & F2 & F3).
    apply (fair_scan y n NR) in HY as (G1 & G2 & G3). apply IH; auto; apply o_index_nonneg.
  - intros m a b z body' body s v _ HL HS _ _ _ cx cy I LX LY HV. exists cx, cy. repeat split; auto. constructor.
  - intros m a b z path body' body s v old s1 ts c s2 s3 _ HU HW _ IH HB HX HY cx cy I LX LY HV.
    apply fair_with in HX as (F1 & F2). apply fair_with in HY as (G1 & G2).
    set (s0 := add_with 1 (started (Stmt SWith a b z (Some (ExtWith path body'))) s)) in *.
    destruct (J_swap E fn x z path v F2 s0 _ _ I HW) as [I1 L1]. destruct (J_swap E fn y z path v G2 s0 _ _ I HW) as [_ K1].
    destruct (IH F1 G1 cx cy I1) as (cx' & cy' & I2 & L2 & K2 & V2 & C2); [rewrite L1; exact LX|rewrite K1; exact LY|exact HV|].
    destruct (J_write fn x z old F2 _ _ _ I2 HB) as [I3 L3]. destruct (J_write fn y z old G2 _ _ _ I2 HB) as [_ K3].
    exists cx', cy'. split; [exact I3|]. split; [change (local s3 x = Some cx'); congruence|]. split; [change (local s3 y = Some cy'); congruence|]. auto.
  - intros m i j body s _ _ _ _ _ _ _ _ cx cy I LX LY HV. exists cx, cy. repeat split; auto. constructor.
  - intros m i j body a b l s ts1 c s1 ts2 s' _ IH1 _ IH2 Pi Pj Ni Nj Mi Mj HX HY cx cy I LX LY HV.
    assert (HBX : local (bound s i j a b) x = local s x) by (unfold local, bound; cbn [set_frame s_frame]; now rewrite !znth_upd_other by auto).
    assert (HBY : local (bound s i j a b) y = local s y) by (unfold local, bound; cbn [set_frame s_frame]; now rewrite !znth_upd_other by auto).
    destruct (IH1 HX HY cx cy I) as (c1 & d1 & I1 & L1 & K1 & V1 & C1); [congruence|congruence|exact HV|].
    destruct (IH2 Pi Pj Ni Nj Mi Mj HX HY c1 d1 I1 L1 K1 V1) as (c2 & d2 & I2 & L2 & K2 & V2 & C2). exists c2, d2. repeat split; auto. eapply chain_app; eauto.
  - intros m b s ts c s' _ IH HX HY cx cy I LX LY HV. destruct (IH HX HY cx cy I LX LY HV) as (c2 & d2 & I2 & L2 & K2 & V2 & C2).
    exists c2, d2. auto 10.
Qed.
End Fold2.

(** ** The block of the query *)
Lemma append_array {L S'} t (x : L) (r k : list (ir L S')) : append_inner (IMakeArray t x :: r) k = IMakeArray t x :: append_inner r k.
Proof. destruct r as [|st r]; reflexivity. Qed.
Lemma add_literal_cons t x b l : add_literal (IMakeArray t x :: b) l = IMakeArray t x :: add_literal b l.
Proof.
  destruct l as [e|code|st]; [|reflexivity|reflexivity]. cbn [add_literal app].
  apply append_array.
Qed.
Lemma result_block_eq N q : result_block N q = IMakeArray $"1" (q_result N) :: conditions q.
Proof.
  unfold result_block, conditions, query_block.
  enough (G : forall ls b, fold_left add_literal ls (IMakeArray $"1" (q_result N) :: b) = IMakeArray $"1" (q_result N) :: fold_left add_literal ls b) by apply G.
  induction ls as [|l ls IH]; intro b; [reflexivity|]. cbn [fold_left]. rewrite add_literal_cons. apply IH.
Qed.
Lemma append_leaf {L S'} (k0 : list (ir L S')) x o k2 : append_inner (k0 ++ [IArrayAppend x o]) k2 = (k0 ++ [IArrayAppend x o]) ++ k2.
Proof.
  induction k0 as [|a k0 IH]; [reflexivity|]. cbn [app]. rewrite append_cons_any by (destruct k0; discriminate). now rewrite IH.
Qed.
Lemma append_twice_list {L S'} (k k2 : list (ir L S')) : k <> [] -> append_inner k k2 = k ++ k2 -> forall b,
  Forall (fun st => append_inner (append_inner (inner st) k) k2 = append_inner (inner st) (k ++ k2)) b ->
  append_inner (append_inner b k) k2 = append_inner b (k ++ k2).
Proof.
  intros HN HK b. induction 1 as [|st b H HF IH]; [exact HK|]. destruct b as [|st' b].
  - clear IH HF. assert (G : append_inner (st :: k) k2 = st :: k ++ k2) by (rewrite append_cons_any by exact HN; now rewrite HK).
    destruct st; try exact G; cbn [inner] in H.
    + match goal with |- append_inner (append_inner [IScan ?x ?u ?v ?b0] k) k2 = _ =>
        change ([IScan x u v (append_inner (append_inner b0 k) k2)] = [IScan x u v (append_inner b0 (k ++ k2))]) end. now rewrite H.
    + match goal with |- append_inner (append_inner [IWith ?x ?u ?v ?b0] k) k2 = _ =>
        change ([IWith x u v (append_inner (append_inner b0 k) k2)] = [IWith x u v (append_inner b0 (k ++ k2))]) end. now rewrite H.
  - rewrite !(append_cons_any st (st' :: b)) by discriminate. rewrite append_cons_any; [now rewrite IH|].
    clear. destruct b; [destruct st'; discriminate|]. rewrite append_cons_any; discriminate.
Qed.
Lemma append_twice {L S'} (k k2 : list (ir L S')) : k <> [] -> append_inner k k2 = k ++ k2 -> forall b,
  append_inner (append_inner b k) k2 = append_inner b (k ++ k2).
Proof.
  intros HN HK b. apply append_twice_list; auto. apply Forall_forall. intros st _. induction st as [st IH] using ir_ind'. now apply append_twice_list.
Qed.
Lemma row_code_last N es xs k2 : append_inner (row_code N es xs) k2 = row_code N es xs ++ k2.
Proof.
  unfold row_code. set (a := IArrayAppend _ _).
  match goal with |- append_inner (?i :: ?l ++ ?j :: ?m ++ [?u; ?v; ?w; a]) _ = _ =>
    replace (i :: l ++ j :: m ++ [u; v; w; a]) with ((i :: l ++ j :: m ++ [u; v; w]) ++ [a]) by (cbn [app]; rewrite <- app_assoc; cbn [app]; rewrite <- app_assoc; reflexivity) end.
  apply append_leaf.
Qed.
Lemma query_block_eq N ret q es xs :
  append_inner (append_inner (result_block N q) (row_code N es xs)) [IIsDefined (q_result N); IAssignVar (OLocal (q_result N)) ret] =
  IMakeArray $"1" (q_result N) :: append_inner (conditions q) (record_code N ret es xs).
Proof.
  rewrite append_twice; [|discriminate|apply row_code_last]. rewrite result_block_eq. apply append_array.
Qed.

(** ** The function *)
Section Function.
Variable E : env.
Variable fn : str.
Variable n : Z.
Variables rho sigma : str -> Z.
Notation img := (img rho sigma).
Notation rows := (rows E rho sigma).
Variable N : qnames.
Variable ret : str.

(** What happens to the list of results and to what is returned. *)
Definition recorded (es : list expression) (xs : list str) (a : option value * option value) (t : state) (b : option value * option value) : Prop :=
  forall l, fst a = Some (VArray l) ->
  match bindings_at E rho t xs with
  | Some bs => fst b = Some (VArray (l ++ [row_object E rho sigma t es bs])) /\ snd b = fst b
  | None => b = a
  end.
Lemma chain_rows es xs a ts b : chain (recorded es xs) a ts b -> forall l, fst a = Some (VArray l) ->
  fst b = Some (VArray (l ++ rows es xs ts)) /\ snd b = match rows es xs ts with [] => snd a | _ => fst b end.
Proof.
  induction 1 as [a|a t a1 ts a' HR HC IH]; intros l HL.
  - cbn. rewrite app_nil_r. auto.
  - specialize (HR l HL). unfold QuerySpec.rows. cbn [flat_map]. destruct (bindings_at E rho t xs) as [bs|].
    + destruct HR as [H1 H2]. destruct (IH _ H1) as [I1 I2]. cbn [app]. unfold QuerySpec.rows in I1, I2. rewrite I1, <- app_assoc in *. cbn [app].
      split; [reflexivity|]. rewrite I2. destruct (flat_map _ ts) eqn:Q; [|reflexivity]. rewrite H2, H1. reflexivity.
    + subst a1. cbn [app]. apply IH. exact HL.
Qed.

Lemma leaves_exprs es : forall k, existsb leaves (exprs_code N k es) = false.
Proof. induction es as [|[p o] l IH]; intro k; [reflexivity|cbn [exprs_code]; rewrite existsb_app, IH; reflexivity]. Qed.
Lemma leaves_binds xs : existsb leaves (flat_map (binding_code N) xs) = false.
Proof. induction xs as [|x l IH]; [reflexivity|exact IH]. Qed.
Lemma leaves_record es xs : existsb leaves (record_code N ret es xs) = false.
Proof.
  unfold record_code, row_code. repeat first [rewrite existsb_app | progress cbn [existsb leaves orb app]].
  now rewrite leaves_exprs, leaves_binds.
Qed.

Lemma query_run m q more locals bs s c s' : compiled_query E fn n rho sigma N ret q more locals bs -> ran E fn m bs s c s' ->
  exists s0 ts s1, quiet (map rho [ret; q_result N]) s s0 /\ local s0 (rho (q_result N)) = Some (Some (VArray [])) /\
    reached E rho sigma (conditions q) (record_code N ret (expressions more q) (shown locals)) s0 ts s1 /\
    local s' (rho ret) = Some (match rows (expressions more q) (shown locals) ts with [] => None | l => Some (VArray l) end) /\
    c = match rows (expressions more q) (shown locals) ts with [] => CUndefined | _ => CReturn end.
Proof.
  intros [HB HF NR HK HL [PR SR] [PT ST] HD HU [HX HQ]] (I & R & He1 & He2 & Hc).
  set (es := expressions more q) in *. set (xs := shown locals) in *.
  unfold query_function, query_blocks in HB, HF. fold es xs in HB, HF. rewrite query_block_eq in HB, HF.
  unfold says_blocks in HB. cbn [map] in HB.
  apply opt_out in HB as (b0 & bs0 & -> & HB0 & HB). apply opt_out in HB as (b1 & bs1 & -> & HB1 & HB). apply opt_out in HB as (b2 & bs2 & -> & HB2 & HB). apply opt_nil in HB as ->.
  apply frame_all in HF. inversion HF as [|? ? F0 HF1]; subst. inversion HF1 as [|? ? F1 HF2]; subst. clear HF HF1 HF2 F0.
  destruct (next_block _ _ _ _ _ _ _ _ R (conj He1 He2) Hc) as (c1 & s0 & R1 & G1 & R2).
  { eapply stays_says; [exact HB0|reflexivity]. }
  destruct (reset_block _ _ _ _ _ _ _ _ _ HB0 R1 G1) as [Q0 L0].
  destruct (next_block _ _ _ _ _ _ _ _ R2 (conj He1 He2) Hc) as (c2 & s3 & R3 & G3 & R4).
  { eapply stays_says; [exact HB1|]. cbn [existsb leaves]. rewrite !orb_false_r. cbn [orb]. rewrite leaves_append, HL. cbn [orb].
    apply leaves_record. }
  apply block_inv in R3 as (m' & t & -> & R3 & ->); [|exact G3].
  cbn [RuleSpec.img map map_ir] in HB1. apply opt_out in HB1 as (st & l' & -> & Hst & Hl). apply opt_nil in Hl as ->.
  apply one_stmt in R3; [|exact G3]. apply (run_blockst E _ _ _ _ _ _ Hst) in R3 as (bb & Hbb & RB); [|now apply good_not_timeout].
  apply opt_out in Hbb as (b3 & bb' & -> & Hb3 & Hbb). apply opt_nil in Hbb as ->.
  apply block_stmt_inv in RB as (c3 & t1 & R5 & G5 & R6); [|exact G3]. injection R6 as R6 R7. subst t1.
  apply block_inv in R5 as (m2 & t2 & -> & R5 & ->); [|exact G5].
  assert (FB : in_frame n (img (append_inner (conditions q) (record_code N ret es xs)))).
  { apply in_frame_block in F1. inversion F1 as [|? ? F2 _]; subst. exact (QueryProofs.in_frame_cons _ _ _ F2). }
  pose (u := add_depth 1 (started st (add_depth 1 s0))).
  assert (Q1 : quiet (map rho [ret]) s u) by (eapply quiet_trans; [exact Q0|]; repeat split).
  destruct (next E _ _ _ _ _ _ _ Hb3 R5 G5) as (st1 & b4 & c4 & u1 & Hst1 & Hb4 & R7 & G7 & R8).
  destruct (step_array E _ _ _ _ _ _ _ Hst1 R7 G7) as [-> [W1 W2]]. fold u in W1, R7.
  destruct R8 as [[_ R8]|[X _]]; [|discriminate].
  change (opt_list says b4 = Some (img (append_inner (conditions q) (record_code N ret es xs)))) in Hb4.
  rewrite img_append in Hb4, FB. apply in_frame_append in FB as [FC FK]. apply splits_all in Hb4 as (sb & sk & H1 & H2 & X).
  destruct (visits_run E sk m2 sb b4 u1 c3 t2 X G5 R8) as (ts & V).
  assert (ND : rho ret <> rho (q_result N)) by (inversion HD as [|? ? N1 _]; subst; intro E0; apply N1; left; congruence).
  assert (I1 : In fn (s_stack u1)) by (rewrite (quiet_stack _ _ _ W1), (quiet_stack _ _ _ Q1); exact I).
  assert (L1 : local u1 (rho ret) = Some None).
  { destruct W1 as (_ & _ & _ & _ & _ & _ & W1). rewrite W1; [exact L0|]. intros [Y|[]]. congruence. }
  destruct (visits_fold_two E fn (rho (q_result N)) (rho ret) n PR PT NR sk (fun a _ => exists l, a = Some (VArray l)) (recorded es xs)) as [G _].
  { intros m3 t c5 t' cx cy HR Hg It Lx Ly [l ->].
    destruct (record_run E n NR rho sigma N _ ret es xs sk t c5 t' l H2 FK HK HD HU (NoDup_filter _ HX) HQ HR Hg Lx) as [St M].
    unfold recorded. destruct (bindings_at E rho t xs) as [bs|] eqn:EB.
    - destruct M as [M1 M2]. eexists. eexists. split; [rewrite St; exact It|]. split; [exact M1|]. split; [exact M2|]. split; [eauto|].
      intros l0 [= <-]. auto.
    - destruct M as [M1 M2]. exists (Some (VArray l)), cy. split; [rewrite St; exact It|]. split; [congruence|]. split; [congruence|]. split; [eauto|].
      intros l0 [= <-]. reflexivity. }
  destruct (G _ _ _ _ _ _ V ltac:(exists (img (conditions q)); auto) ltac:(exists (img (conditions q)); auto) (Some (VArray [])) None I1 W2 L1 ltac:(eauto))
    as (cx & cy & I2 & LX & LY & _ & CH).
  destruct (chain_rows _ _ _ _ _ CH [] eq_refl) as [C1 C2]. cbn [fst snd app] in C1, C2.
  destruct (return_run E rho sigma ret (S (S m2)) _ _ _ _ _ HB2 R4 (conj He1 He2) Hc) as (QR & w & LV & ->).
  assert (LV2 : local t2 (rho ret) = Some w) by exact LV. rewrite LY in LV2. injection LV2 as ->.
  exists u1, ts, t2. split; [|split; [exact W2|split; [|split]]].
  - eapply quiet_trans; [eapply quiet_incl; [|exact Q1]|eapply quiet_incl; [|exact W1]]; intros z [<-|[]]; cbn; auto.
  - exists m2, sk, sb, c3, u1, t2. split; [exact H2|]. split; [exact H1|]. split; [apply quiet_refl|]. split; [exact V|apply quiet_refl].
  - rewrite (quiet_all _ _ _ QR). change (local t2 (rho ret) = Some (match rows es xs ts with [] => None | l => Some (VArray l) end)).
    rewrite LY. destruct (rows es xs ts); congruence.
  - rewrite C2, C1. destruct (rows es xs ts); reflexivity.
Qed.
End Function.
