(** Lemmas about the registry of builtins. *)
From Coq Require Import String ZArith List Bool Lia.
From Verif Require Import Base ValueModel ResolverModel RegistryModel RegistrySpec.
Import ListNotations.
Local Open Scope Z_scope.
Local Open Scope list_scope.

Lemma last_snoc {A} (f : op -> option A) h o a : last_such f (h ++ [o]) a <-> match f o with Some b => a = b | None => last_such f h a end.
Proof.
  split.
  - intros (h1 & x & h2 & E & F & N). destruct h2 as [ | y h2 _ ] using rev_ind.
    + apply app_inj_tail in E. destruct E as [-> <-]. rewrite F. reflexivity.
    + apply Forall_app in N. destruct N as [N Ny]. inversion Ny; subst. rewrite app_comm_cons, app_assoc in E. apply app_inj_tail in E. destruct E as [-> <-].
      rewrite H1. exists h1, x, h2. auto.
  - destruct (f o) as [b|] eqn:E.
    + intros ->. exists h, o, []. auto.
    + intros (h1 & x & h2 & -> & F & N). exists h1, x, (h2 ++ [o]). rewrite <- app_assoc. split; [ reflexivity | ]. split; [ exact F | ]. apply Forall_app. auto.
Qed.
Lemma last_nil {A} (f : op -> option A) a : ~ last_such f [] a.
Proof. intros (h1 & o & h2 & E & _). destruct h1; discriminate. Qed.
Lemma default_snoc {A} (f : op -> option A) (d : A) h o a :
  (last_such f (h ++ [o]) a \/ (Forall (fun o => f o = None) (h ++ [o]) /\ a = d)) <->
  match f o with Some b => a = b | None => last_such f h a \/ (Forall (fun o => f o = None) h /\ a = d) end.
Proof.
  rewrite last_snoc, Forall_app. destruct (f o) as [b|] eqn:E.
  - split; [ | auto ]. intros [H | [[_ H] _]]; [ exact H | ]. inversion H; subst. congruence.
  - split; [ intros [H | [[H _] Q]]; auto | ]. intros [H | [H Q]]; auto 6.
Qed.

Lemma cached_cons n b l name : cached ((n, b) :: l) name = if str_eqb n name then Some b else cached l name.
Proof. reflexivity. Qed.
Lemma mem_name_iff l n : mem_name l n = true <-> In n l.
Proof. unfold mem_name. rewrite existsb_exists. split; [ intros (x & I & E); apply str_eqb_eq in E; now subst | intros I; exists n; split; [ exact I | apply str_eqb_refl ] ]. Qed.

Section Inv.
Variable std : str -> outcome (option builtin).
Definition through (p : policy) (name : str) : outcome (option builtin) :=
  let! b := std name in
  match p with
  | Whitelist l => if mem_name l name then Ok b else not_available name b
  | Blacklist l => if mem_name l name then not_available name b else Ok b
  | AllowAll => Ok b
  end.
Definition unregistered (h : list op) (name : str) : Prop := forall b, ~ registered h name b.
Record inv (h : list op) (s : registry) : Prop := {
  inv_policy : forall p, policy_after h p <-> p = r_policy s;
  inv_strict : forall b, strict_after h b <-> b = r_strict s;
  inv_cache : forall n, match cached (r_builtins s) n with
                        | Some e => (exists b, registered h n b /\ (forall b', registered h n b' -> b' = b) /\ e = Some b) \/ (unregistered h n /\ through (r_policy s) n = Ok e)
                        | None => unregistered h n
                        end }.
Lemma inv_new : inv [] new_registry.
Proof.
  constructor.
  - intros p. unfold policy_after. split; [ intros [H | [_ H]]; [ now apply last_nil in H | exact H ] | intros ->; right; auto ].
  - intros p. unfold strict_after. split; [ intros [H | [_ H]]; [ now apply last_nil in H | exact H ] | intros ->; right; auto ].
  - intros n. cbn. intros b H. now apply last_nil in H.
Qed.
(** Operations that leave policy, strictness and registrations alone. *)
Lemma inv_quiet h s o : inv h s -> sets_policy o = None -> sets_strict o = None -> (forall n, sets_builtin n o = None) -> inv (h ++ [o]) s.
Proof.
  intros [IP IS IC] P Q R. constructor.
  - intros p. unfold policy_after. rewrite default_snoc, P. apply IP.
  - intros p. unfold strict_after. rewrite default_snoc, Q. apply IS.
  - intros n. specialize (IC n). assert (X : forall b, registered (h ++ [o]) n b <-> registered h n b) by (intros b; unfold registered; rewrite last_snoc, R; reflexivity).
    destruct (cached (r_builtins s) n) as [e|].
    + destruct IC as [(b & H & U & E) | [N E]]; [ left; exists b; split; [ now apply X | split; [ intros b' H'; apply U; now apply X | exact E ] ] | right; split; [ | exact E ]; intros b H; apply X in H; now apply (N b) ].
    + intros b H. apply X in H. now apply (IC b).
Qed.
Lemma at_inv h s n s' b : inv h s -> at_name std n s = Ok (s', b) -> inv h s'.
Proof.
  intros I E. unfold at_name in E. destruct (cached (r_builtins s) n) as [e|] eqn:C; [ injection E as <- <-; exact I | ].
  destruct I as [IP IS IC].
  assert (T : exists e, through (r_policy s) n = Ok e /\ s' = {| r_policy := r_policy s; r_builtins := (n, e) :: r_builtins s; r_strict := r_strict s |}).
  { unfold through. destruct (std n) as [e| | | ]; cbn [obind] in *; try discriminate. set (o := match r_policy s with AllowAll => Ok e | _ => _ end) in *. destruct o as [e'| | | ]; cbn [obind] in E; try discriminate.
    injection E as <- <-. now exists e'. }
  destruct T as (e & T & ->). constructor; cbn [r_policy r_strict r_builtins]; auto. intros m. rewrite cached_cons. destruct (str_eqb n m) eqn:Q; [ | apply IC ].
  apply str_eqb_eq in Q. subst m. right. split; [ | exact T ]. specialize (IC n). now rewrite C in IC.
Qed.
Lemma call_at n args s s' r : call std n args s = Ok (s', r) -> exists b, at_name std n s = Ok (s', b).
Proof.
  unfold call. destruct (at_name std n s) as [[s1 b]| | | ]; cbn [obind fst snd]; try discriminate. intros E. match type of E with obind ?o _ = _ => destruct o end; try discriminate. cbn [obind] in E. injection E as <- _. eauto.
Qed.
Lemma step_inv h s o s' : inv h s -> step std o s = Ok s' -> inv (h ++ [o]) s'.
Proof.
  intros I E. destruct o; cbn [step] in E.
  - injection E as <-. destruct I as [IP IS IC]. constructor; cbn [r_policy r_strict r_builtins].
    + intros p. unfold policy_after. rewrite default_snoc. cbn [sets_policy]. apply IP.
    + intros p. unfold strict_after. rewrite default_snoc. cbn [sets_strict]. apply IS.
    + intros n. rewrite cached_cons. destruct (str_eqb (bu_name b) n) eqn:Q.
      * left. exists b. assert (X : forall b', registered (h ++ [Register b]) n b' <-> b' = b) by (intros b'; unfold registered; rewrite last_snoc; cbn [sets_builtin]; rewrite Q; split; congruence).
        split; [ now apply X | ]. split; [ intros b' H; now apply X | reflexivity ].
      * specialize (IC n). assert (X : forall b', registered (h ++ [Register b]) n b' <-> registered h n b') by (intros b'; unfold registered; rewrite last_snoc; cbn [sets_builtin]; rewrite Q; reflexivity).
        destruct (cached (r_builtins s) n) as [e|].
        -- destruct IC as [(b0 & H & U & E) | [N E]]; [ left; exists b0; split; [ now apply X | split; [ intros b' H'; apply U; now apply X | exact E ] ] | right; split; [ | exact E ]; intros b' H; apply X in H; now apply (N b') ].
        -- intros b' H. apply X in H. now apply (IC b').
  - injection E as <-. destruct I as [IP IS IC]. constructor; cbn [r_policy r_strict r_builtins cached].
    + intros p. unfold policy_after. rewrite default_snoc. cbn [sets_policy]. reflexivity.
    + intros p. unfold strict_after. rewrite default_snoc. cbn [sets_strict]. apply IS.
    + intros n b H. unfold registered in H. rewrite last_snoc in H. discriminate.
  - injection E as <-. destruct I as [IP IS IC]. constructor; cbn [r_policy r_strict r_builtins cached].
    + intros p. unfold policy_after. rewrite default_snoc. cbn [sets_policy]. reflexivity.
    + intros p. unfold strict_after. rewrite default_snoc. cbn [sets_strict]. apply IS.
    + intros n b H. unfold registered in H. rewrite last_snoc in H. discriminate.
  - injection E as <-. destruct I as [IP IS IC]. constructor; cbn [r_policy r_strict r_builtins cached].
    + intros p. unfold policy_after. rewrite default_snoc. cbn [sets_policy]. reflexivity.
    + intros p. unfold strict_after. rewrite default_snoc. cbn [sets_strict]. apply IS.
    + intros n b H. unfold registered in H. rewrite last_snoc in H. discriminate.
  - injection E as <-. destruct I as [IP IS IC]. constructor; cbn [r_policy r_strict r_builtins].
    + intros p. unfold policy_after. rewrite default_snoc. cbn [sets_policy]. apply IP.
    + intros p. unfold strict_after. rewrite default_snoc. cbn [sets_strict]. reflexivity.
    + intros n. specialize (IC n). assert (X : forall b', registered (h ++ [SetStrict b]) n b' <-> registered h n b') by (intros b'; unfold registered; rewrite last_snoc; reflexivity).
      destruct (cached (r_builtins s) n) as [e|].
      * destruct IC as [(b0 & H & U & E) | [N E]]; [ left; exists b0; split; [ now apply X | split; [ intros b' H'; apply U; now apply X | exact E ] ] | right; split; [ | exact E ]; intros b' H; apply X in H; now apply (N b') ].
      * intros b' H. apply X in H. now apply (IC b').
  - unfold is_builtin in E. destruct (at_name std name s) as [[s1 b]| | | ] eqn:A; cbn [obind fst snd] in E; try discriminate. injection E as <-. apply inv_quiet; auto. eapply at_inv; eauto.
  - unfold is_available in E. destruct (at_name std name s) as [[s1 b]| | | ] eqn:A; cbn [obind fst snd] in E; try discriminate. injection E as <-. apply inv_quiet; auto. eapply at_inv; eauto.
  - destruct (call std name args s) as [[s1 r]| | | ] eqn:A; cbn [obind fst snd] in E; try discriminate. injection E as <-. apply call_at in A. destruct A as (b & A). apply inv_quiet; auto. eapply at_inv; eauto.
Qed.
Lemma run_inv ops : forall h s s', inv h s -> run std ops s = Ok s' -> inv (h ++ ops) s'.
Proof.
  induction ops as [ | o ops IH ]; intros h s s' I E; cbn [run] in E; [ injection E as <-; now rewrite app_nil_r | ].
  destruct (step std o s) as [s1| | | ] eqn:S; cbn [obind] in E; try discriminate. replace (h ++ o :: ops) with ((h ++ [o]) ++ ops) by (rewrite <- app_assoc; reflexivity). apply (IH _ s1); auto. eapply step_inv; eauto.
Qed.
Lemma run_new h s : run std h new_registry = Ok s -> inv h s.
Proof. intros E. apply (run_inv h [] new_registry s inv_new E). Qed.

Lemma permits_mem l n : (mem_name l n = true -> In n l) /\ (mem_name l n = false -> ~ In n l).
Proof. split; [ apply mem_name_iff | intros E I; apply mem_name_iff in I; congruence ]. Qed.
(** The policy seen from the specification. *)
Lemma through_meaning h s n : inv h s -> unregistered h n -> meaning std h n (through (r_policy s) n).
Proof.
  intros I N. assert (P : policy_after h (r_policy s)) by now apply (inv_policy _ _ I).
  assert (F : ~ permits (r_policy s) n -> meaning std h n (let! b := std n in not_available n b)).
  { intros NP. destruct (std n) as [[b|]| | | ] eqn:S; cbn [obind not_available].
    - eapply mn_forbidden; eauto.
    - apply (mn_broken std h n (r_policy s) (Ok None)); auto; discriminate.
    - apply (mn_broken std h n (r_policy s) Throw); auto; discriminate.
    - apply (mn_broken std h n (r_policy s) Ub); auto; discriminate.
    - apply (mn_broken std h n (r_policy s) OutOfFuel); auto; discriminate. }
  assert (Y : permits (r_policy s) n -> meaning std h n (let! b := std n in Ok b)).
  { intros Pm. replace (let! b := std n in Ok b) with (std n) by (destruct (std n); reflexivity). eapply mn_standard; eauto. }
  unfold through. destruct (r_policy s) as [ | l | l ]; cbn [permits] in *.
  - now apply Y.
  - destruct (mem_name l n) eqn:M; [ apply Y; now apply permits_mem | apply F; now apply permits_mem ].
  - destruct (mem_name l n) eqn:M; [ apply F; intros H; apply H; now apply permits_mem | apply Y; now apply permits_mem ].
Qed.
Definition result {A} (o : outcome (registry * A)) : outcome A := let! r := o in Ok (snd r).
Lemma at_meaning h s n : inv h s -> meaning std h n (result (at_name std n s)).
Proof.
  intros I. pose proof (inv_cache _ _ I n) as C. unfold at_name. destruct (cached (r_builtins s) n) as [e|].
  - cbn [result obind snd]. destruct C as [(b & H & _ & ->) | [N E]]; [ now apply mn_registered | ]. rewrite <- E. now apply through_meaning.
  - pose proof (through_meaning h s n I C) as T. replace (result _) with (through (r_policy s) n); [ exact T | ]. unfold through, result. destruct (std n) as [b| | | ]; cbn [obind]; try reflexivity.
    match goal with |- ?o = _ => destruct o end; reflexivity.
Qed.
(** Only one meaning. *)
Lemma meaning_unique h s n o : inv h s -> meaning std h n o -> o = result (at_name std n s).
Proof.
  intros I M. assert (R : forall b, registered h n b -> cached (r_builtins s) n = Some (Some b)).
  { intros b H. pose proof (inv_cache _ _ I n) as C. destruct (cached (r_builtins s) n) as [e|]; [ | now apply C in H ]. destruct C as [(b' & H' & U & ->) | [N _]]; [ | now apply N in H ]. now rewrite (U b H). }
  assert (T : (forall b, ~ registered h n b) -> result (at_name std n s) = through (r_policy s) n).
  { intros N. pose proof (inv_cache _ _ I n) as C. unfold at_name. destruct (cached (r_builtins s) n) as [e|].
    - destruct C as [(b & H & _) | [_ E]]; [ now apply N in H | ]. now rewrite E.
    - unfold through, result. destruct (std n) as [b| | | ]; cbn [obind]; try reflexivity. match goal with |- _ = ?o => destruct o end; reflexivity. }
  destruct M as [b H | p N P Pm | p b N P Pm S | p o N P Pm S B].
  - apply R in H. unfold at_name. rewrite H. reflexivity.
  - rewrite (T N). apply (inv_policy _ _ I) in P. subst p. unfold through. destruct (r_policy s) as [ | l | l ]; cbn [permits] in Pm.
    + destruct (std n); reflexivity.
    + apply mem_name_iff in Pm. rewrite Pm. destruct (std n); reflexivity.
    + destruct (mem_name l n) eqn:M; [ apply mem_name_iff in M; tauto | ]. destruct (std n); reflexivity.
  - rewrite (T N). apply (inv_policy _ _ I) in P. subst p. unfold through. rewrite S. cbn [obind not_available]. destruct (r_policy s) as [ | l | l ]; cbn [permits] in Pm; [ tauto | | ].
    + destruct (mem_name l n) eqn:M; [ apply mem_name_iff in M; tauto | reflexivity ].
    + destruct (mem_name l n) eqn:M; [ reflexivity | ]. elim Pm. now apply permits_mem.
  - rewrite (T N). apply (inv_policy _ _ I) in P. subst p. unfold through. rewrite S. destruct (r_policy s) as [ | l | l ]; cbn [permits] in Pm; [ tauto | | ].
    + destruct (mem_name l n) eqn:M; [ apply mem_name_iff in M; tauto | ]. destruct o as [[b|]| | | ]; [ now elim (B b) | .. ]; reflexivity.
    + destruct (mem_name l n) eqn:M; [ | elim Pm; now apply permits_mem ]. destruct o as [[b|]| | | ]; [ now elim (B b) | .. ]; reflexivity.
Qed.
Lemma error_arg_none args : error_arg args = None <-> forall c, ~ In (VErr c) args.
Proof.
  induction args as [ | a args IH ]; cbn [error_arg In]; [ split; [ intros _ c []| reflexivity ] | ].
  destruct a; try (rewrite IH; split; [ intros H c [E | I]; [ discriminate | now apply (H c) ] | intros H c I; apply (H c); auto ]).
  split; [ discriminate | ]. intros H. elim (H code). auto.
Qed.
End Inv.
