(** The states in which the innermost place of a block is reached. *)
From Coq Require Import String ZArith List Bool Lia.
From Verif Require Import Base SMap ValueModel ValueSpec ResolverModel VmModel VmSpec VmProofs VmSimProofs VmStmtProofs PlanModel PlanSpec PlanProofs
  RuleModel RuleSpec RuleVmProofs.
Import ListNotations.
Local Open Scope Z_scope.

(** [b'] is [b] with [k] at its innermost place. *)
Inductive extends (k : block) : block -> block -> Prop :=
| ex_nil : extends k [] k
| ex_cons st b b' : b <> [] -> extends k b b' -> extends k (st :: b) (st :: b')
| ex_leaf st : nests st = false -> extends k [st] (st :: k)
| ex_scan a b x body body' : extends k body body' ->
    extends k [Stmt SScan a b x (Some (ExtBlock body))] [Stmt SScan a b x (Some (ExtBlock body'))]
| ex_with a b x path body body' : extends k body body' ->
    extends k [Stmt SWith a b x (Some (ExtWith path body))] [Stmt SWith a b x (Some (ExtWith path body'))].

Definition splits (b k : list (ir Z Z)) : Prop := forall bs, opt_list says bs = Some (append_inner b k) ->
  exists sb sk, opt_list says sb = Some b /\ opt_list says sk = Some k /\ extends sk sb bs.

Lemma says_nests st i : says st = Some i ->
  nests st = match i with IScan _ _ _ _ | IWith _ _ _ _ => true | _ => false end.
Proof.
  destruct st as [ty a b x e]. cbn [says nests]. intro H.
  destruct ty, e as [[]|]; try discriminate H; unfold with1, with2, option_map in H;
    repeat match type of H with context [match ?y with _ => _ end] => destruct y eqn:?; try discriminate H end;
    injection H as <-; reflexivity.
Qed.
Lemma says_scan st x k v b : says st = Some (IScan x k v b) ->
  exists a0 a1 body, st = Stmt SScan a0 a1 x (Some (ExtBlock body)) /\ says_index a0 = Some k /\ says_index a1 = Some v /\
    opt_list says body = Some b.
Proof.
  destruct st as [ty a0 a1 y e]. cbn [says]. intro H.
  destruct ty, e as [[]|]; try discriminate H; unfold with1, with2, option_map in H;
    repeat match type of H with context [match ?y with _ => _ end] => destruct y eqn:?; try discriminate H end;
    try discriminate H. injection H as <- <- <- <-. eauto 10.
Qed.
Lemma says_with st x p v b : says st = Some (IWith x p v b) ->
  exists a0 a1 path body, st = Stmt SWith a0 a1 x (Some (ExtWith path body)) /\ says_op a0 = Some v /\ p = map zn path /\
    opt_list says body = Some b.
Proof.
  destruct st as [ty a0 a1 y e]. cbn [says]. intro H.
  destruct ty, e as [[]|]; try discriminate H; unfold with1, with2, option_map in H;
    repeat match type of H with context [match ?y with _ => _ end] => destruct y eqn:?; try discriminate H end;
    try discriminate H. injection H as <- <- <- <-. eauto 10.
Qed.
Lemma append_cons st (b k : list (ir Z Z)) : b <> [] -> append_inner (st :: b) k = st :: append_inner b k.
Proof. destruct b; [congruence|reflexivity]. Qed.
Lemma append_scan x key v (b k : list (ir Z Z)) : append_inner [IScan x key v b] k = [IScan x key v (append_inner b k)].
Proof. reflexivity. Qed.
Lemma append_with x key v (b k : list (ir Z Z)) : append_inner [IWith x key v b] k = [IWith x key v (append_inner b k)].
Proof. reflexivity. Qed.

Lemma splits_list k b : Forall (fun st => splits (inner st) k) b -> splits b k.
Proof.
  induction b as [|st b IH]; intros HA bs H.
  - cbn in H. exists [], bs. split; [reflexivity|]. split; [exact H|constructor].
  - inversion HA as [|? ? H1 H2]; subst. destruct b as [|st' b'].
    + clear IH H2. assert (G : (match st with IScan _ _ _ _ | IWith _ _ _ _ => True | _ => False end) \/
        (match st with IScan _ _ _ _ | IWith _ _ _ _ => true | _ => false end = false /\ append_inner [st] k = st :: k)).
      { destruct st; auto. }
      destruct G as [G|[G1 G2]].
      * destruct st; try contradiction; cbn [inner] in H1.
        -- rewrite append_scan in H. apply opt_out in H as (x & l' & -> & Hx & Hn). apply opt_nil in Hn as ->.
           apply says_scan in Hx as (a0 & a1 & bd & -> & E1 & E2 & E3). apply H1 in E3 as (sb & sk & F1 & F2 & F3).
           exists [Stmt SScan a0 a1 src (Some (ExtBlock sb))], sk. split; [|split; [exact F2|now constructor]].
           cbn [opt_list says]. change (opt_list says) with (opt_list says) in F1. rewrite E1, E2, F1. reflexivity.
        -- rewrite append_with in H. apply opt_out in H as (x & l' & -> & Hx & Hn). apply opt_nil in Hn as ->.
           apply says_with in Hx as (a0 & a1 & pth & bd & -> & E1 & -> & E3). apply H1 in E3 as (sb & sk & F1 & F2 & F3).
           exists [Stmt SWith a0 a1 local (Some (ExtWith pth sb))], sk. split; [|split; [exact F2|now constructor]].
           cbn [opt_list says]. rewrite E1, F1. reflexivity.
      * rewrite G2 in H. apply opt_out in H as (x & l' & -> & Hx & Hn). exists [x], l'.
        split; [cbn [opt_list]; now rewrite Hx|]. split; [exact Hn|]. apply ex_leaf. now rewrite (says_nests _ _ Hx).
    + rewrite append_cons in H by discriminate. apply opt_out in H as (x & l' & -> & Hx & Hn).
      apply (IH H2) in Hn as (sb & sk & F1 & F2 & F3). exists (x :: sb), sk. split.
      { cbn [opt_list]. rewrite Hx. fold (opt_list says). now rewrite F1. }
      split; [exact F2|]. apply ex_cons; auto. intros ->. discriminate.
Qed.
Lemma splits_stmt k st : splits (inner st) k.
Proof.
  induction st as [st IH] using ir_ind'. apply splits_list. exact IH.
Qed.
Lemma splits_all b k : splits b k.
Proof. apply splits_list. apply Forall_forall. intros. apply splits_stmt. Qed.

Section Visits.
Variable E : env.

Lemma run_stmt_inv rb st s c s' : run_stmt E rb st s = Done c s' -> c <> CTimeout ->
  s_count s + 1 < e_stmt_limit E /\ dispatch E rb st (started st s) = Done c s'.
Proof.
  intros H Hc. unfold run_stmt in H. unfold bind at 1, modify at 1 in H. unfold bind at 1, get at 1 in H.
  cbn [inc_stmts set_counts s_count] in H.
  destruct (Z.leb_spec (e_stmt_limit E) (s_count s + 1)).
  - cbn in H. injection H as <- <-. congruence.
  - split; [lia|]. exact H.
Qed.
Lemma stmts_inv rb st l c s c' s' : run_stmts E rb (st :: l) c s = Done c' s' -> c' = CContinue \/ c' = CUndefined ->
  (exists s1, run_stmt E rb st s = Done CContinue s1 /\ run_stmts E rb l CContinue s1 = Done c' s') \/
  (run_stmt E rb st s = Done CUndefined s' /\ c' = CUndefined).
Proof.
  cbn [run_stmts]. unfold bind at 1. destruct (run_stmt E rb st s) as [c1 s1|s1|f s1|s1]; try discriminate.
  intros H Hc. destruct c1; try discriminate; try (injection H as <- <-; destruct Hc; discriminate).
  - left. eauto.
  - right. injection H as <- <-. auto.
Qed.
Lemma block_inv n b s c s' : run_block E n b s = Done c s' -> c = CContinue \/ c = CUndefined ->
  exists m s1, n = S m /\ run_stmts E (run_block E m) b CContinue (add_depth 1 s) = Done c s1 /\ s' = add_depth (-1) s1.
Proof.
  destruct n as [|m]; [discriminate|]. cbn [run_block]. unfold bind at 1, get at 1. intros H Hc.
  destruct (_ <=? _).
  - cbn in H. injection H as <- <-. destruct Hc; discriminate.
  - unfold bind at 1, modify at 1 in H. unfold bind at 1 in H.
    destruct (run_stmts E (run_block E m) b CContinue (add_depth 1 s)) as [c1 s1|s1|f s1|s1] eqn:Er; try discriminate.
    cbn in H. injection H as -> <-. eauto.
Qed.

(** Every normal run of an extended block visits some states. *)
Lemma visits_run k : forall n b b' s c s', extends k b b' -> c = CContinue \/ c = CUndefined ->
  run_stmts E (run_block E n) b' CContinue s = Done c s' -> exists ts, visits E k n b s ts c s'.
Proof.
  induction n as [n IHn] using (well_founded_induction Wf_nat.lt_wf). intros b b' s c s' X.
  revert s c s'. induction X as [|st b b' Hb X IHX|st Hn|a0 a1 x body body' X IHX|a0 a1 x path body body' X IHX];
    intros s c s' Hc H.
  - eexists. now apply vi_end.
  - apply stmts_inv in H as [(s1 & H1 & H2)|[H1 ->]]; [| |exact Hc].
    + destruct (IHX _ _ _ Hc H2) as (ts & V). exists ts. eapply vi_next; eauto.
    + exists []. eapply vi_stop; eauto.
  - apply stmts_inv in H as [(s1 & H1 & H2)|[H1 ->]]; [| |exact Hc].
    + exists [s1]. eapply vi_next; [auto|exact H1|]. now apply vi_end.
    + exists []. eapply vi_stop; eauto.
  - clear IHX.
    assert (HD : run_stmt E (run_block E n) (Stmt SScan a0 a1 x (Some (ExtBlock body'))) s = Done c s').
    { apply stmts_inv in H as [(s1 & H1 & H2)|[H1 ->]]; [| |exact Hc]; [|exact H1]. injection H2 as <- <-. exact H1. }
    apply run_stmt_inv in HD as [HL HD]; [|destruct Hc; subst; discriminate].
    set (st := Stmt SScan a0 a1 x (Some (ExtBlock body'))) in *. cbn [dispatch st] in HD. unfold run_scan in HD.
    unfold bind at 1 in HD. destruct (read_local x (started st s)) as [src s0|s0|f s0|s0] eqn:Er; try discriminate.
    apply read_inv in Er as [-> Er]. change (local (started st s) x) with (local s x) in Er.
    assert (LO : forall l s c s', scan_loop (run_block E n) l (o_index a0) (o_index a1) body' s = Done c s' ->
        c = CContinue \/ c = CUndefined -> c = CContinue /\ exists ts, loops E k n (o_index a0) (o_index a1) body l s ts s').
    { clear - IHn X. induction l as [|[a b] l IHl]; intros s c s' H Hc; cbn [scan_loop] in H.
      - injection H as <- <-. split; [reflexivity|]. exists []. constructor.
      - unfold bind at 1 in H. destruct (write_local _ _ s) as [u s1|s1|f s1|s1] eqn:E1; try discriminate.
        apply write_inv in E1 as [R1 ->].
        unfold bind at 1 in H. destruct (write_local (o_index a1) _ _) as [u1 s2|s2|f s2|s2] eqn:E2; try discriminate.
        apply write_inv in E2 as [R2 ->].
        unfold bind at 1 in H. destruct (run_block E n body' _) as [c1 s3|s3|f s3|s3] eqn:E3; try discriminate.
        assert (G : (c1 = CContinue \/ c1 = CUndefined) /\ scan_loop (run_block E n) l (o_index a0) (o_index a1) body' s3 = Done c s').
        { destruct c1; auto; injection H as <- <-; destruct Hc; discriminate. }
        destruct G as [G1 G2]. destruct (IHl _ _ _ G2 Hc) as [-> (ts2 & L2)]. split; [reflexivity|].
        apply block_inv in E3 as (m & s4 & -> & E4 & ->); [|exact G1].
        destruct (IHn m ltac:(lia) _ _ _ _ _ X G1 E4) as (ts1 & V1).
        exists (ts1 ++ ts2). eapply lo_next; [|exact L2]. apply en_block. exact V1. }
    assert (SP : forall l, scan_pairs (run_block E n) l a0 a1 (Some (ExtBlock body')) (started st s) = Done c s' ->
        scanned src = Some l -> exists ts, visits E k n [Stmt SScan a0 a1 x (Some (ExtBlock body))] s ts c s').
    { intros l HP HS. destruct l as [|p l].
      - cbn in HP. injection HP as <- <-. exists []. eapply vi_scan; eauto. constructor.
      - unfold scan_pairs in HP. cbn [ext_block] in HP. unfold bind at 1, ret at 1 in HP.
        apply LO in HP as [-> (ts & L)]; [|exact Hc]. exists ts. eapply vi_scan; eauto. }
    destruct src as [[]|]; cbn in HD; try discriminate;
      try (injection HD as <- <-; exists []; eapply vi_scalar; eauto; intros; discriminate).
    + apply SP in HD; auto. cbn. f_equal. change 0 with (Z.of_nat 0) . now rewrite array_pairs_eq.
    + apply SP in HD; auto.
    + apply SP in HD; auto. cbn. f_equal. now rewrite combine_self.
    + injection HD as <- <-. exists []. eapply vi_scan; eauto; [reflexivity|constructor].
  - clear IHX.
    assert (HD : run_stmt E (run_block E n) (Stmt SWith a0 a1 x (Some (ExtWith path body'))) s = Done c s').
    { apply stmts_inv in H as [(s1 & H1 & H2)|[H1 ->]]; [| |exact Hc]; [|exact H1]. injection H2 as <- <-. exact H1. }
    apply run_stmt_inv in HD as [HL HD]; [|destruct Hc; subst; discriminate].
    set (st := Stmt SWith a0 a1 x (Some (ExtWith path body'))) in *. cbn [dispatch st] in HD. unfold run_with in HD.
    unfold bind at 1, modify at 1 in HD. unfold bind at 1 in HD.
    destruct (unpack_operand E a0 _) as [v s0|s0|f s0|s0] eqn:Eu; try discriminate. pose proof (unpack_inv _ _ _ _ _ Eu) as ->.
    unfold bind at 1 in HD. destruct (write_and_swap E x path v _) as [old s1|s1|f s1|s1] eqn:Es; try discriminate.
    unfold bind at 1 in HD. destruct (run_block E n body' s1) as [c1 s2|s2|f s2|s2] eqn:Eb; try discriminate.
    unfold bind at 1 in HD. destruct (write_local x old s2) as [u s3|s3|f s3|s3] eqn:Ew; try discriminate.
    cbn in HD. injection HD as -> <-. destruct u.
    apply block_inv in Eb as (m & s4 & -> & E4 & ->); [|exact Hc].
    destruct (IHn m ltac:(lia) _ _ _ _ _ X Hc E4) as (ts1 & V1).
    exists ts1. eapply vi_with; eauto. apply en_block. exact V1.
Qed.
End Visits.
