(** C70: what unifications are split into. *)
From Coq Require Import String ZArith List Bool Arith Lia.
From Verif Require Import Base SMap BigIntModel ValueModel SplitModel SplitSpec SplitProofs.
Import ListNotations.

(** The graph of a body in which the names [a] have values. *)
Definition start (a : list name) : graph := {| assigned := a; lits := []; next := 0; error := false; dropped := [] |}.
Definition xx := TVar (User $"x").
Definition yy := TVar (User $"y").
Definition zz := TVar (User $"z").
Definition one := TScalar (VInt $"1").
Definition two := TScalar (VInt $"2").

(** A unification that is split without an error and without an ignored failure is equivalent to the literals it is split into: values of the
    names make both sides the same exactly if, with values for the fresh names, they make all the literals true. *)
Theorem C70_equivalent_partial : forall t u s s',
  sound s -> old_term (next s) t -> old_term (next s) u ->
  add_terms t u s = Ok (false, s') -> dropped s' = [] -> error s' = false ->
  exists new, lits s' = lits s ++ new /\
    forall e, unifies e t u <-> exists f, agree (next s) e f /\ Forall (holds f) new.
Proof.
  intros t u s s' S Ot Ou H D Er. destruct (step_terms t u s false s' S Ot Ou H) as [_ K].
  destruct (K eq_refl) as [A _ _ _ _ _ [new [E1 [E2 [E3 [E4 E5]]]]]]. exists new. split; [exact E1|]. intro e. split; [apply E5|].
  intros [f [F1 F2]]. apply (old_unifies_stable (next s) t u Ot Ou f e); [apply agree_sym, F1|]. apply E4; [split|]; assumption.
Qed.
Print Assumptions C70_equivalent_partial.

Definition g0 := start [User $"z"].
Definition lhs0 := TArray [xx; TArray [yy; xx]; one].
Example C70_equivalent_meets : exists s', add_terms lhs0 zz g0 = Ok (false, s') /\ dropped s' = [] /\ error s' = false /\ length (lits s') = 11
  /\ sound g0 /\ old_term 0 lhs0.
Proof.
  eexists. split; [vm_compute; reflexivity|]. split; [reflexivity|]. split; [reflexivity|]. split; [reflexivity|]. split.
  - intros x [<-|[]]. exact I.
  - intros x Hx. simpl in Hx. decompose [or] Hx; subst; simpl; auto; contradiction.
Qed.

(** In all cases, even with an ignored failure, a solution of the unification makes the literals true: nothing is lost. *)
Theorem C70_no_solution_lost : forall t u s s',
  sound s -> old_term (next s) t -> old_term (next s) u -> add_terms t u s = Ok (false, s') ->
  exists new, lits s' = lits s ++ new /\
    forall e, unifies e t u -> exists f, agree (next s) e f /\ Forall (holds f) new.
Proof.
  intros t u s s' S Ot Ou H. destruct (step_terms t u s false s' S Ot Ou H) as [_ K].
  destruct (K eq_refl) as [A _ _ _ _ _ [new [E1 [E2 [E3 [E4 E5]]]]]]. exists new. auto.
Qed.
Print Assumptions C70_no_solution_lost.

(** A failure is ignored only if both sides have variables without values: matching a pattern against something known never waits and ignores
    nothing, so the equivalence holds for it without that hypothesis. *)
Theorem C70_pattern : forall t u s b s',
  sound s -> old_term (next s) t -> old_term (next s) u ->
  (forall x, In x (vars t) -> In x (assigned s)) \/ (forall x, In x (vars u) -> In x (assigned s)) ->
  add_terms t u s = Ok (b, s') -> b = false /\ dropped s' = dropped s.
Proof. intros t u s b s' S Ot Ou K H. exact (known_split t u s b s' S Ot Ou K H). Qed.
Print Assumptions C70_pattern.
Example C70_pattern_meets : exists s', add_terms (TArray [xx; yy; xx]) (TArray [one; TArray [two]; zz]) g0 = Ok (false, s')
  /\ map (fun l => match l with LAssign x _ => Some x | _ => None end) (lits s') = [Some (User $"x"); Some (User $"y"); None].
Proof. eexists. split; vm_compute; reflexivity. Qed.

(** A unification that must wait has changed nothing: it can be tried again. *)
Theorem C70_wait : forall t u s s',
  sound s -> old_term (next s) t -> old_term (next s) u -> add_terms t u s = Ok (true, s') -> s' = s.
Proof. intros t u s s' S Ot Ou H. apply (proj1 (step_terms t u s true s' S Ot Ou H) eq_refl). Qed.
Print Assumptions C70_wait.
Example C70_wait_meets : add_terms xx (TArray [yy; one]) g0 = Ok (true, g0).
Proof. reflexivity. Qed.

(** Without an error the literals can be run in their order: each reads names that have values, and gives a value to a name that has none. *)
Theorem C70_order : forall t u s s',
  sound s -> old_term (next s) t -> old_term (next s) u -> add_terms t u s = Ok (false, s') -> error s' = false ->
  exists new, lits s' = lits s ++ new /\ runs (assigned s) new (assigned s').
Proof.
  intros t u s s' S Ot Ou H Er. destruct (step_terms t u s false s' S Ot Ou H) as [_ K].
  destruct (K eq_refl) as [A _ _ _ _ _ [new [E1 [E2 [E3 _]]]]]. exists new. auto.
Qed.
Print Assumptions C70_order.

(** Afterwards all variables of both sides have values, if no failure was ignored and no scalar is compared with an array. *)
Theorem C70_assigned_partial : forall t u s s',
  sound s -> old_term (next s) t -> old_term (next s) u -> add_terms t u s = Ok (false, s') ->
  dropped s' = [] -> error s' = false -> existsb clash (lits s') = false ->
  forall x, In x (vars t) \/ In x (vars u) -> In x (assigned s').
Proof.
  intros t u s s' S Ot Ou H D Er Q x Hx. destruct (step_terms t u s false s' S Ot Ou H) as [_ K].
  destruct (K eq_refl) as [_ _ _ _ _ V _]. apply V; [split; assumption | exact Q | apply in_or_app, Hx].
Qed.
Print Assumptions C70_assigned_partial.

(** All unifications of a body: the literals are equivalent to all of them together. *)
Theorem C70_body_partial : forall fuel q s s',
  sound s -> Forall (fun p => old_term (next s) (fst p) /\ old_term (next s) (snd p)) q ->
  resolve fuel q s = Ok s' -> dropped s' = [] -> error s' = false ->
  exists new, lits s' = lits s ++ new /\ runs (assigned s) new (assigned s') /\
    forall e, Forall (fun p => unifies e (fst p) (snd p)) q <-> exists f, agree (next s) e f /\ Forall (holds f) new.
Proof.
  intros fuel q s s' S O H D Er. destruct (step_resolve fuel q s s' S O H Er) as [A _ _ _ _ _ [new [E1 [E2 [E3 [E4 E5]]]]]].
  exists new. split; [exact E1|]. split; [apply E3, Er|]. intro e. split; [apply E5|].
  intros [f [F1 F2]]. apply (unify_pairs_stable (next s) q O f e); [apply agree_sym, F1|]. apply E4; [split|]; assumption.
Qed.
Print Assumptions C70_body_partial.
(** As many passes as there are unifications are enough. *)
Theorem C70_ends : forall q s fuel, length q <= fuel -> resolve fuel q s <> OutOfFuel.
Proof. intros q s fuel. apply resolve_ends. Qed.
Print Assumptions C70_ends.

(** x = y, [y, 1] = z and z = [[2], 1]: three passes. *)
Example C70_body_meets : exists s', resolve 3 [(xx, yy); (TArray [yy; one], zz); (zz, TArray [TArray [two]; one])] (start []) = Ok s'
  /\ dropped s' = [] /\ error s' = false /\ length (lits s') = 7.
Proof. eexists. split; [vm_compute; reflexivity|]. repeat split. Qed.

(** The full equivalence is false: [[x, y] = [y, 1]] gives y the value 1, and the failure to relate x and y is ignored (in builds without
    assertions): the literals are true of values that differ on the two sides, and x has no value. *)
Theorem C70_ignored_refuted : exists s',
  add_terms (TArray [xx; yy]) (TArray [yy; one]) (start []) = Ok (false, s') /\ error s' = false /\
  lits s' = [LAssign (User $"y") one] /\ ~ In (User $"x") (assigned s') /\
  exists e, Forall (holds e) (lits s') /\ ~ unifies e (TArray [xx; yy]) (TArray [yy; one]).
Proof.
  eexists. split; [vm_compute; reflexivity|]. split; [reflexivity|]. split; [reflexivity|]. split.
  - intros [H|[]]. discriminate H.
  - exists (fun x => if name_eqb x (User $"y") then VInt $"1" else VNull). split.
    + constructor; [reflexivity | constructor].
    + unfold unifies. cbn. intro H. discriminate H.
Qed.
Print Assumptions C70_ignored_refuted.

(** The error for arrays of different sizes does not stop the walk: with the longer array on the left, it goes on beyond the end of the right
    one. *)
Theorem C70_sizes_refuted : forall l r s, length r < length l -> (forall x, In x (vars (TArray (l ++ r))) -> In x (assigned s)) ->
  add_terms (TArray l) (TArray r) s = Throw.
Proof.
  intros l r s L H. rewrite add_arrays_eq. cbv zeta.
  assert (N : (length l =? length r) = false) by (apply Nat.eqb_neq; lia). rewrite N.
  assert (K : scan (set_error s) l r = Throw).
  { assert (Hl : forall x, In x (flat_map vars l) -> In x (assigned (set_error s))).
    { intros x Hx. apply H. simpl. apply in_flat_map in Hx as [t [Ht Hx]]. apply in_flat_map. exists t. rewrite in_app_iff. auto. }
    assert (Hr : forall x, In x (flat_map vars r) -> In x (assigned (set_error s))).
    { intros x Hx. apply H. simpl. apply in_flat_map in Hx as [t [Ht Hx]]. apply in_flat_map. exists t. rewrite in_app_iff. auto. }
    clear H N. generalize dependent (set_error s). clear s. intros s. revert r L. induction l as [|t l IH]; intros r L Hl Hr; simpl in L; [lia|].
    destruct r as [|u r]; [reflexivity|]. simpl in *.
    assert (A1 : all_assigned s t = true) by (apply all_assigned_iff; intros x Hx; apply Hl, in_or_app; auto).
    assert (A2 : all_assigned s u = true) by (apply all_assigned_iff; intros x Hx; apply Hr, in_or_app; auto).
    rewrite A1, A2. simpl. apply IH; [lia | |]; intros x Hx; [apply Hl | apply Hr]; apply in_or_app; auto. }
  rewrite K. reflexivity.
Qed.
Print Assumptions C70_sizes_refuted.
Example C70_sizes_meets : add_terms (TArray [one; two]) (TArray [one]) (start []) = Throw.
Proof. apply C70_sizes_refuted; simpl; [lia | intros x []]. Qed.
