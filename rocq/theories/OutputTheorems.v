(** C66: answers can be read in full through the accessors and the C interface. *)
From Coq Require Import String ZArith NArith List Bool Lia.
From Verif Require Import Base BigIntSpec ValueModel VmModel CApiModel OutputModel OutputSpec OutputProofs.
From Verif Require KeyProofs.
Import ListNotations.
Local Open Scope Z_scope.

(** The walk from regoOutputNode gives all results with their values and bindings, and nothing else. *)
Theorem C66_walk : forall rs n, shows_output (QResults rs) n -> Z.of_nat (length rs) < 2 ^ 32 -> Forall readable_result rs ->
  reads_results n rs /\ forall rs', reads_results n rs' -> rs' = rs.
Proof. intros rs n S L H. pose proof (results_read rs n S L H) as R. split; [exact R|]. intros rs' R'. exact (reads_results_unique n rs' rs R' R). Qed.
(** A node is read in one way. *)
Theorem C66_one_reading : forall h v v', reads h v -> reads h v' -> v = v'.
Proof. intros h v v' R R'. exact (proj1 reads_unique h v R v' R'). Qed.
(** Ok, and as many results as the answer has. *)
Theorem C66_count : forall rs n, shows_output (QResults rs) n -> api_ok (Some (Some n)) = true /\ size (Some n) = Ok (Z.of_nat (length rs)) /\
  (Z.of_nat (length rs) < 2 ^ 32 -> api_size (Some (Some n)) = Ok (Z.of_nat (length rs))) /\ errors (Some n) = Ok [].
Proof.
  intros rs n S. inversion S as [| |rs' ns F|]; subst. split; [reflexivity|]. pose proof (forall2_length _ _ _ F) as E.
  split; [cbn [size n_kids]; unfold zlen; now rewrite E|]. split; [|reflexivity]. intro L. cbn [api_size size n_kids obind]. unfold zlen, to_size. rewrite <- E. now rewrite Z.mod_small by lia.
Qed.
(** The values of the expressions of a result. *)
Theorem C66_expressions : forall rs n i r, shows_output (QResults rs) n -> nth_error rs i = Some r ->
  Z.of_nat (length (r_terms r)) < 2 ^ 32 -> Forall readable (r_terms r) ->
  exists h cs, api_expressions_at (Some (Some n)) (Z.of_nat i) = Ok (Some h) /\ node_type h = REGO_NODE_TERMS /\ children h cs /\ reads_list cs (r_terms r).
Proof.
  intros rs n i r S H L HR. destruct (result_node rs n i r S H) as (m & E & SR). destruct (expressions_read r m SR L HR) as (h & cs & F & T & C & R).
  exists h, cs. split; [|auto]. cbn [api_expressions_at]. unfold expressions_at. rewrite E. cbn [obind]. now rewrite F.
Qed.
(** The value of a variable of a result. *)
Theorem C66_binding : forall rs n i r x v, shows_output (QResults rs) n -> nth_error rs i = Some r -> Forall (fun b => readable (snd b)) (r_bindings r) ->
  bound x (r_bindings r) = Some v -> exists h, api_binding_at (Some (Some n)) (Z.of_nat i) (Some x) = Ok (Some h) /\ reads h v.
Proof.
  intros rs n i r x v S H HR B. destruct (result_node rs n i r S H) as (m & E & SR). pose proof (binding_read r m x SR HR) as G. rewrite B in G.
  destruct G as (w & val & l & h & LK & K & R). exists h. split; [|exact R]. cbn [api_binding_at]. unfold binding_at. rewrite E. cbn [obind]. rewrite LK, K. reflexivity.
Qed.
(** Children beyond the last are null pointers. *)
Theorem C66_beyond : forall n i, Z.of_nat (length (n_kids n)) <= i -> node_get n i = Ok None.
Proof. intros n i H. unfold node_get. assert (E : nth_error (n_kids n) (Z.to_nat i) = None) by (apply nth_error_None; lia). now rewrite E. Qed.
(** Errors: not ok, and the codes are listed in order; no results can be read. *)
Theorem C66_errors : forall cs n, shows_output (QErrors cs) n -> api_ok (Some (Some n)) = false /\ node_type n = REGO_NODE_ERROR_SEQ /\
  (exists l, errors (Some n) = Ok l /\ map snd l = cs) /\ forall i, expressions_at (Some n) i = Throw.
Proof.
  intros cs n S. inversion S as [|cs' ns F| |? ? (m & a & ->)]; subst. split; [reflexivity|]. split; [reflexivity|]. split; [|reflexivity].
  destruct (error_texts_of cs ns F) as (l & E & M). exists l. split; [exact E|exact M].
Qed.
(** No results: ok, of size zero. *)
Theorem C66_undefined : forall n, shows_output QUndefined n -> api_ok (Some (Some n)) = true /\ api_size (Some (Some n)) = Ok 0.
Proof. intros n S. inversion S; subst. split; reflexivity. Qed.
(** Every answer has a node. *)
Lemma shown_value : forall v, exists n, shows v n.
Proof.
  apply (KeyProofs.value_rect' (fun v => exists n, shows v n)).
  - eexists. apply (shows_null []).
  - eexists. apply (shows_true []).
  - eexists. apply (shows_false []).
  - intro t. eexists. apply shows_int.
  - intro t. eexists. apply shows_float.
  - intro t. eexists. apply shows_string.
  - intros l H. assert (G : exists ns, shows_list l ns) by (induction H as [|x l (n & S) F (ns & IH)]; [exists []; constructor|exists (n :: ns); now constructor]). destruct G as (ns & G). eexists. now apply shows_array, G.
  - intros l H. assert (G : exists ns, shows_items l ns).
    { induction H as [|[k x] l ((a & S1) & (b & S2)) F (ns & IH)]; [exists []; constructor|]. exists (Node KObjectItem [] [a; b] :: ns). now constructor. }
    destruct G as (ns & G). eexists. now apply shows_object, G.
  - intros l H. assert (G : exists ns, shows_list l ns) by (induction H as [|x l (n & S) F (ns & IH)]; [exists []; constructor|exists (n :: ns); now constructor]). destruct G as (ns & G). eexists. now apply shows_set, G.
  - intro c. eexists. apply (shows_error c [] []).
Qed.
Theorem C66_shown : forall o, exists n, shows_output o n.
Proof.
  intros [|cs|rs|].
  - eexists. constructor.
  - assert (G : exists ns, Forall2 error_node cs ns).
    { induction cs as [|c cs (ns & IH)]; [exists []; constructor|]. exists (Node KError [] [Node KErrorMsg [] []; Node KErrorAst [] []; Node KErrorCode c []] :: ns). constructor; [now exists [], []|exact IH]. }
    destruct G as (ns & G). eexists. now apply shows_errors, G.
  - assert (L : forall l, exists ns, shows_list l ns) by (induction l as [|v l (ns & IH)]; [exists []; constructor|]; destruct (shown_value v) as (n & S); exists (n :: ns); now constructor).
    assert (B : forall l, exists ns, shows_bindings l ns) by (induction l as [|[x v] l (ns & IH)]; [exists []; constructor|]; destruct (shown_value v) as (n & S); eexists; constructor; eassumption).
    assert (G : exists ns, Forall2 shows_result rs ns).
    { induction rs as [|[ts bs] rs (ns & IH)]; [exists []; constructor|]. destruct (L ts) as (a & A1), (B bs) as (b & B1). eexists (_ :: ns). constructor; [constructor; eassumption|exact IH]. }
    destruct G as (ns & G). eexists. now apply shows_results, G.
  - exists (Node KError [] [Node KErrorMsg [] []; Node KErrorAst [] []; Node KErrorCode [] []]). apply (shows_exception []). now exists [], [].
Qed.

(** *** What fails *)

(** regoOutputBinding is documented to return NULL for a variable that is not bound; an exception leaves it. *)
Theorem C66_unbound_refuted : forall rs n i r x, shows_output (QResults rs) n -> nth_error rs i = Some r -> Forall (fun b => readable (snd b)) (r_bindings r) ->
  bound x (r_bindings r) = None -> api_binding_at (Some (Some n)) (Z.of_nat i) (Some x) = Throw.
Proof.
  intros rs n i r x S H HR B. destruct (result_node rs n i r S H) as (m & E & SR). pose proof (binding_read r m x SR HR) as G. rewrite B in G.
  cbn [api_binding_at]. unfold binding_at. rewrite E. cbn [obind]. now rewrite G.
Qed.
(** So does one for an index without a result. *)
Theorem C66_range_refuted : forall rs n i, shows_output (QResults rs) n -> (length rs <= i)%nat ->
  api_expressions_at (Some (Some n)) (Z.of_nat i) = Throw /\ forall x, api_binding_at (Some (Some n)) (Z.of_nat i) (Some x) = Throw.
Proof.
  intros rs n i S H. pose proof (result_beyond rs n i S H) as E. split; [|intro x]; cbn [api_expressions_at api_binding_at]; unfold expressions_at, binding_at; now rewrite E.
Qed.
(** regoOutputOk is documented to be false when the answer is an error.  When evaluation ended with an exception, it is true, three
    results are announced and there is no error, but no result can be read. *)
Theorem C66_ok_refuted : forall n, shows_output QError n ->
  api_ok (Some (Some n)) = true /\ api_size (Some (Some n)) = Ok 3 /\ errors (Some n) = Ok [] /\ forall i, 0 <= i < 3 -> i <> 1 -> expressions_at (Some n) i = Throw.
Proof.
  intros n S. inversion S as [| | |c ? (m & a & ->)]; subst. repeat split. intros i H N. assert (I : i = 0 \/ i = 2) by lia. destruct I as [-> | ->]; reflexivity.
Qed.
(** Texts of strings sometimes have quotes: the same string is returned differently. *)
Theorem C66_text_refuted : exists v a b, shows v (Node KTerm [] [Node KScalar [] [a]]) /\ shows v (Node KTerm [] [Node KScalar [] [b]]) /\
  node_type a = REGO_NODE_STRING /\ node_type b = REGO_NODE_STRING /\ node_value a <> node_value b.
Proof.
  exists (VString $"x"), (Node KString $"x" []), (Node KString (quote $"x") []). split; [constructor|]. split; [constructor|]. split; [reflexivity|]. split; [reflexivity|]. discriminate.
Qed.
(** A null output is not ok, but asking for its size reads through the null pointer. *)
Theorem C66_null_refuted : api_ok None = false /\ api_size None = Ub /\ ok None = false /\ size None = Ub /\ errors None = Ub.
Proof. repeat split. Qed.

(** *** An instance *)
(** x = 1; y = ["a", {"k": null}] *)
Definition row66 : result := {| r_terms := [VTrue; VTrue]; r_bindings := [($"x", VInt $"1"); ($"y", VArray [VString $"a"; VObject [(VString $"k", VNull)]])] |}.
Definition scalar66 (k : token) (t : str) : node := Node KTerm [] [Node KScalar [] [Node k t []]].
Definition node66 : node :=
  Node KResults [] [Node KResult []
    [Node KTerms [] [scalar66 KTrue $"true"; scalar66 KTrue $"true"];
     Node KBindings []
       [Node KBinding [] [Node KVar $"x" []; scalar66 KInt $"1"];
        Node KBinding [] [Node KVar $"y" []; Node KTerm [] [Node KArray [] [scalar66 KString $"a";
          Node KTerm [] [Node KObject [] [Node KObjectItem [] [scalar66 KString (quote $"k"); scalar66 KNull $"null"]]]]]]]]].
Example C66_meets : shows_output (QResults [row66]) node66 /\ Forall readable_result [row66] /\
  api_size (Some (Some node66)) = Ok 1 /\ api_binding_at (Some (Some node66)) 0 (Some $"x") = Ok (Some (Node KScalar [] [Node KInt $"1" []])) /\
  bound $"y" (r_bindings row66) = Some (VArray [VString $"a"; VObject [(VString $"k", VNull)]]) /\ bound $"z" (r_bindings row66) = None.
Proof.
  split; [|split; [|repeat split]].
  - repeat constructor.
  - repeat (apply Forall_cons || apply Forall_nil). split; [reflexivity|]. split; [reflexivity|]. split; repeat (apply Forall_cons || apply Forall_nil); cbn; auto; repeat split.
Qed.

Print Assumptions C66_walk.
Print Assumptions C66_one_reading.
Print Assumptions C66_count.
Print Assumptions C66_expressions.
Print Assumptions C66_binding.
Print Assumptions C66_beyond.
Print Assumptions C66_errors.
Print Assumptions C66_undefined.
Print Assumptions C66_shown.
Print Assumptions C66_unbound_refuted.
Print Assumptions C66_range_refuted.
Print Assumptions C66_ok_refuted.
Print Assumptions C66_text_refuted.
Print Assumptions C66_null_refuted.
