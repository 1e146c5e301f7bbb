(** C58: what the compiler emits is what the virtual machine gets, and it passes verification. *)
From Coq Require Import String ZArith NArith List Bool Lia.
From Verif Require Import Base BigIntSpec BigIntModel SMap SMapFacts ValueModel ResolverModel VmModel VmSpec VmProofs VmTheorems
  PlanModel PlanSpec PlanProofs PlanBuildProofs.
Import ListNotations.
Local Open Scope Z_scope.

(** Indices fit the 32 bits of the loader. *)
Definition moderate (p : prog) : Prop :=
  Z.of_nat (count_locals p) + 2 <= 2 ^ 32 /\ Z.of_nat (count_strings p) <= 2 ^ 32.

(** ** C58 *)

(** The bundle says exactly what the program says, for one assignment of slots to locals, the same in every statement,
    function and plan: two occurrences share a slot exactly if they are the same local.  Every string is in the table once,
    and the number of slots is the number of locals with [input] and [data] (never below three). *)
Theorem C58_same_program : forall p, compiled p -> moderate p -> exists b rho sigma,
  build p = Ok b /\ says_prog rho sigma p b /\ numbering rho p /\ interned sigma p (b_strings b) /\
  Z.of_N (b_locals b) = Z.max 3 (Z.of_nat (count_locals p) + 2).
Proof.
  intros p C [ML MS]. exists (bundle_of p), (nl (final_table p)), (ns (final_table p)). split; [|split; [|split; [|split]]].
  - apply build_ok; auto; apply C.
  - apply says_ok; auto; apply C.
  - apply numbering_ok.
  - apply interned_ok.
  - rewrite locals_B. now apply top_exact.
Qed.

(** A function or plan is found under its own name and nowhere else; the query runs the plan it names, if there is one. *)
Theorem C58_names : forall p b, compiled p -> moderate p -> build p = Ok b ->
  (forall n i, sm_find n (b_name_to_func b) = Some i <-> exists f, nth_error (g_fns p) (N.to_nat i) = Some f /\ n_name f = n) /\
  (forall n i, sm_find n (b_name_to_plan b) = Some i <-> exists x, nth_error (g_plans p) (N.to_nat i) = Some x /\ l_name x = n) /\
  (forall i, b_query_plan b = Some i -> exists x, nth_error (g_plans p) (N.to_nat i) = Some x /\ l_name x = g_query p) /\
  (b_query_plan b = None <-> ~ In (g_query p) (map l_name (g_plans p))).
Proof.
  intros p b C [ML MS] B. rewrite build_ok in B; auto; try apply C. injection B as <-.
  cbn [b_name_to_func b_name_to_plan b_query_plan bundle_of].
  assert (G : forall A (h : A -> str) l n k, nth_error (map h l) k = Some n <-> exists x, nth_error l k = Some x /\ h x = n).
  { intros A h l n k. rewrite nth_error_map. destruct (nth_error l k) as [a|]; simpl; split.
    - intros [= <-]. eauto.
    - intros (x & [= <-] & <-). reflexivity.
    - discriminate.
    - intros (x & H & _). discriminate. }
  pose proof (add_plans_snd (g_query p) (g_plans p)) as Q. split; [|split; [|split]].
  - intros n i. rewrite (proj2 (addn_find _ (c_fns p C))). apply G.
  - intros n i. rewrite (proj2 (addn_find _ (c_plans p C))). apply G.
  - intros i H. rewrite H in Q. apply G, Q, C.
  - destruct (snd (add_plans (g_query p) (g_plans p) [] None)) as [i|]; split; try discriminate; try tauto.
    intros H. exfalso. apply H. destruct Q as [_ Q]. eapply nth_error_In, Q, C.
Qed.

(** Verification accepts the bundle exactly if the place of every number literal in the string table is below the number
    of local slots. *)
Theorem C58_verified_exactly : forall p, compiled p -> moderate p -> exists b sigma,
  build p = Ok b /\ interned sigma p (b_strings b) /\
  (verify b = Ok tt <-> forall x, In x (numbers p) -> sigma x < Z.of_N (b_locals b)).
Proof.
  intros p C [ML MS]. exists (bundle_of p), (ns (final_table p)). split; [|split].
  - apply build_ok; auto; apply C.
  - apply interned_ok.
  - apply verify_iff; auto.
Qed.

(** So it does whenever there are no more strings than slots, and running it then never leaves a table or reads an
    unset word. *)
Theorem C58_verified_partial : forall p, compiled p -> moderate p -> (count_strings p <= count_locals p + 2)%nat ->
  exists b, build p = Ok b /\ verify b = Ok tt /\ well_made b /\
  forall E input, sound_env E -> e_bundle E = b -> forall x f s,
    In x (b_plans b) -> run E (block_fuel E) x input = Fault f s -> f <> OutOfRange /\ f <> Uninitialised.
Proof.
  intros p C [ML MS] FIT. exists (bundle_of p).
  assert (V : verify (bundle_of p) = Ok tt).
  { apply verify_iff; auto. intros x Ix. rewrite locals_B, top_exact by auto.
    assert (IS : In x (strings p)).
    { unfold numbers in Ix. apply in_flat_map in Ix. destruct Ix as (s & Is & Ix). apply (body_strings p s); auto. now apply in_strings_numbers. }
    destruct (ns_index p x IS) as [R _]. lia. }
  assert (W : well_made (bundle_of p)) by now apply well_made_ok.
  split; [apply build_ok; auto; apply C|]. split; [exact V|]. split; [exact W|].
  intros E input SE EB x f s Ix R. rewrite <- EB in V, W, Ix. eapply (proj2 (proj2 (C13_in_bounds_partial E input SE W V))); eauto.
Qed.

(** *** A compiled program: `f(x) := len` with a number literal, called from the query plan. *)
Definition p_call : prog :=
  Prog (VObject []) []
    [Pl str str $"q"
       [[IMakeNumberRef $"7" $"number$1"; ICall $"g0.data.f" [OLocal $"input"; OLocal $"data"; OLocal $"number$1"] $"call$2"];
        [IMakeObject $"obj$3"; IIsDefined $"call$2"; IObjectInsert (OString $"result") (OLocal $"call$2") $"obj$3";
         IResultSetAdd $"obj$3"]]]
    $"q"
    [Fn str str $"g0.data.f" [$"input"; $"data"; $"x"] $"return"
       [[IResetLocal $"return"; IDot (OLocal $"x") (OString $"key") $"y"; IScan $"y" $"k$4" $"v$5" [IEqual (OLocal $"v$5") (OBool true)];
         IAssignVarOnce (OLocal $"y") $"return"];
        [IReturnLocal $"return"]]].

Ltac find_subject :=
  right; eexists; split; [|split; [reflexivity|right; reflexivity]]; vm_compute; tauto.
Example p_call_compiled : compiled p_call.
Proof.
  constructor.
  - discriminate.
  - repeat constructor; simpl; tauto.
  - repeat constructor; simpl; tauto.
  - intros f [<-|[]]. simpl. lia.
  - repeat constructor; simpl; try lia; auto.
  - intros i f H. destruct i as [|i]; [|destruct i; discriminate]. injection H as <-. split; [vm_compute; tauto|]. split; [intros [H|H]; discriminate H|].
    split; [simpl; intros [H|[H|[H|[]]]]; discriminate H|]. intros (y & I & E & _). cbn [snd] in E.
    vm_compute in I. vm_compute in E.
    repeat destruct I as [<-|I]; try discriminate E; destruct I.
  - intros x I R. vm_compute in I.
    repeat destruct I as [<-|I]; try (exfalso; apply R; cbn; first [left; reflexivity|right; reflexivity]); try find_subject;
      try (left; exists 0%nat; eexists; split; [reflexivity|split; [reflexivity|vm_compute; tauto]]).
Qed.
Example p_call_moderate : moderate p_call /\ (count_strings p_call <= count_locals p_call + 2)%nat /\ numbers p_call = [$"7"].
Proof. vm_compute. repeat split; try discriminate; lia. Qed.
Example p_call_bundle : exists b, build p_call = Ok b /\ verify b = Ok tt /\ b_locals b = 10%N /\
  map f_params (b_functions b) = [[0; 1; 5]%N] /\ map f_result (b_functions b) = [6%N] /\ b_query_plan b = Some 0%N.
Proof. eexists. split; [vm_compute; reflexivity|]. vm_compute. auto. Qed.

(** *** What fails *)

(** The property without the bound on strings is false: the plan that makes the array ["a", "b", "c", "d", "e", 1] becomes a bundle
    that verification, and with it every query, rejects.  The place of "1" in the string table is compared with the number of locals. *)
Definition p_array : prog :=
  Prog (VObject []) []
    [Pl str str $"q"
       [[IMakeArray $"6" $"array$1"; IArrayAppend $"array$1" (OString $"a"); IArrayAppend $"array$1" (OString $"b");
         IArrayAppend $"array$1" (OString $"c"); IArrayAppend $"array$1" (OString $"d"); IArrayAppend $"array$1" (OString $"e");
         IMakeNumberRef $"1" $"number$2"; IArrayAppend $"array$1" (OLocal $"number$2")];
        [IMakeObject $"obj$3"; IObjectInsert (OString $"result") (OLocal $"array$1") $"obj$3"; IResultSetAdd $"obj$3"]]]
    $"q" [].
Theorem C58_number_refuted : exists p b, compiled p /\ moderate p /\ build p = Ok b /\ verify b = Throw.
Proof.
  exists p_array. eexists. split; [|split; [|split; [vm_compute; reflexivity|vm_compute; reflexivity]]].
  - constructor.
    + discriminate.
    + constructor.
    + repeat constructor; simpl; tauto.
    + intros f [].
    + repeat constructor; simpl; try discriminate; auto. exists false, $"6". repeat split; try discriminate; repeat constructor; discriminate.
    + intros i f H. destruct i; discriminate.
    + intros x I R. vm_compute in I. repeat destruct I as [<-|I]; try find_subject.
  - vm_compute. split; discriminate.
Qed.

(** Names that occur twice (a plan from elsewhere; the compiler makes none) shift the ones after them: a call of "g" runs the
    second "f". *)
Theorem C58_duplicate_name_refuted : exists p b i f,
  In $"g" (map n_name (g_fns p)) /\ from_node p = Ok b /\ sm_find $"g" (b_name_to_func b) = Some i /\
  znth (b_functions b) (zn i) = Some f /\ f_name f = $"f".
Proof.
  pose (fn0 n := Fn str str n [dec 0; dec 1] (dec 2) [[IResetLocal (dec 2)]]).
  exists (Prog (VObject []) [] [Pl str str $"q" []] $"q" [fn0 $"f"; fn0 $"f"; fn0 $"g"]).
  eexists. exists 1%N. eexists. split; [vm_compute; auto|]. split; [vm_compute; reflexivity|]. vm_compute. auto.
Qed.

Print Assumptions C58_same_program. Print Assumptions C58_names. Print Assumptions C58_verified_exactly.
Print Assumptions C58_verified_partial. Print Assumptions C58_number_refuted. Print Assumptions C58_duplicate_name_refuted.
