(** * C41: a call that fails changes nothing *)
From Coq Require Import String ZArith List Bool Lia.
From Verif Require Import Base BigIntSpec CApiModel InterpModel InterpSpec.
Import ListNotations.
Local Open Scope Z_scope.
Local Open Scope list_scope.

Section Facts.
Context {node errors binary : Type}.
Variable E : engine node errors binary.
Variables (u q : node) (inv : node -> errors).
Notation step := (step E inv). Notation run := (run E inv). Notation fresh := (fresh u q).
Notation st := (state node).
Notation replies := (replies E u q inv).

(** States that differ only in the number of texts read. *)
Definition similar (s s' : st) : Prop :=
  m_dataseq s = m_dataseq s' /\ m_moduleseq s = m_moduleseq s' /\ m_input s = m_input s' /\ m_query s = m_query s' /\
  m_entrypoints s = m_entrypoints s'.
Lemma similar_refl s : similar s s.
Proof. repeat split. Qed.
Lemma similar_sym s s' : similar s s' -> similar s' s.
Proof. unfold similar. intuition congruence. Qed.
Lemma similar_trans s s' s'' : similar s s' -> similar s' s'' -> similar s s''.
Proof. unfold similar. intuition congruence. Qed.

Lemma query_bundle_similar b e s s' : similar s s' -> query_bundle E b e s = query_bundle E b e s'.
Proof. intros (_ & _ & I & _). unfold query_bundle. now rewrite I. Qed.
Lemma query_node_similar s s' : similar s s' -> query_node E s = query_node E s'.
Proof.
  intros H. pose proof H as (D & M & _ & Q & _). unfold query_node. rewrite D, M, Q.
  destruct (e_bundle E _ _ _ _); [ | reflexivity | reflexivity ]. destruct (e_from_node E a); [ | reflexivity | reflexivity ]. now apply query_bundle_similar.
Qed.
Lemma build_similar s s' : similar s s' -> build E s = build E s'.
Proof. intros (D & M & _ & Q & P). unfold build. now rewrite D, M, Q, P. Qed.

Ltac simi := unfold similar in *; cbn in *; intuition congruence.

(** One call from similar states. *)
Lemma step_similar c s s' : names_do_not_matter E -> similar s s' ->
  alike (fst (step c s)) (fst (step c s')) /\ similar (snd (step c s)) (snd (step c s')) /\ (asks c -> fst (step c s) = fst (step c s')).
Proof.
  intros N H.
  assert (St : forall r put (x x' : st), (forall y y' n, similar y y' -> similar (put y n) (put y' n)) -> similar x x' ->
    fst (store (errors := errors) r x put) = fst (store r x' put) /\ similar (snd (store r x put)) (snd (store r x' put))).
  { intros r put x x' P Sx. destruct r; cbn; split; auto. }
  assert (Sb : similar (bump s) (bump s')) by simi.
  assert (Pd : forall y y' n, similar y y' -> similar (push_data y n) (push_data y' n)) by (intros; simi).
  assert (Pm : forall y y' n, similar y y' -> similar (push_module y n) (push_module y' n)) by (intros; simi).
  assert (Pi : forall y y' n, similar y y' -> similar (put_input y n) (put_input y' n)) by (intros; simi).
  assert (Pq : forall y y' n, similar y y' -> similar (put_query y n) (put_query y' n)) by (intros; simi).
  assert (Fin : forall x x' : reply node errors * st, fst x = fst x' -> similar (snd x) (snd x') ->
    alike (fst x) (fst x') /\ similar (snd x) (snd x') /\ (asks c -> fst x = fst x')) by (intros; unfold alike; auto).
  destruct c; cbn [InterpModel.step].
  - unfold add_module_file. destruct file; apply Fin; cbn; auto; apply St; auto.
  - unfold add_module. apply Fin; apply St; auto.
  - unfold add_data_json_file. destruct file; apply Fin; cbn; auto; apply St; auto.
  - unfold add_data_json. specialize (N (data_name s) (data_name s') contents). split; [ | split; [ | intros [] ] ].
    + destruct (e_data E (data_name s) contents), (e_data E (data_name s') contents); try contradiction; cbn; unfold alike; cbn; auto.
    + destruct (e_data E (data_name s) contents), (e_data E (data_name s') contents); try contradiction; cbn; subst; auto.
  - unfold add_data. apply Fin; apply St; auto.
  - unfold set_input_json_file. destruct file; apply Fin; cbn; auto; apply St; auto.
  - unfold set_input_term. apply Fin; apply St; auto.
  - unfold set_input_json. apply Fin; apply St; auto.
  - unfold set_input. destruct n; try (apply Fin; apply St; now auto); apply Fin; cbn; auto.
  - unfold set_query. apply Fin; apply St; auto.
  - apply Fin; cbn; auto. simi.
  - apply Fin; cbn; auto. simi.
  - apply Fin; cbn; auto. now apply query_node_similar.
  - unfold query_node_text. unfold set_query. destruct (e_query E text); cbn [store]; apply Fin; cbn; auto; apply query_node_similar; auto.
  - apply Fin; cbn; auto. now apply build_similar.
  - apply Fin; cbn; auto. now apply query_bundle_similar.
  - apply Fin; cbn; auto. now apply query_bundle_similar.
Qed.

Lemma step_failed c s : ~ asks c -> failed (fst (step c s)) -> similar (snd (step c s)) s.
Proof.
  intros A F.
  assert (Sb : similar (bump s) s) by simi.
  assert (St : forall r put (x : st), similar x s -> failed (fst (store (errors := errors) r x put)) -> similar (snd (store r x put)) s).
  { intros r put x P. destruct r; cbn; auto. contradiction. }
  destruct c; cbn [InterpModel.step] in *; try (now destruct A); try apply similar_refl.
  - unfold add_module_file in *. destruct file; cbn in *; [ now apply St | apply similar_refl ].
  - now apply St.
  - unfold add_data_json_file in *. destruct file; cbn in *; [ now apply St | apply similar_refl ].
  - now apply St.
  - now apply St.
  - unfold set_input_json_file in *. destruct file; cbn in *; [ apply St; auto; apply similar_refl | apply similar_refl ].
  - apply St; auto; apply similar_refl.
  - apply St; auto; apply similar_refl.
  - unfold set_input in *. destruct n; cbn in *; try contradiction; try apply similar_refl. apply St; auto; apply similar_refl.
  - apply St; auto; apply similar_refl.
Qed.

Lemma run_cons c h s : run (c :: h) s = (fst (step c s) :: fst (run h (snd (step c s))), snd (run h (snd (step c s)))).
Proof. cbn [InterpModel.run]. destruct (step c s) as [r s1]. cbn. now destruct (run h s1). Qed.
Lemma run_app h1 h2 s : run (h1 ++ h2) s = (fst (run h1 s) ++ fst (run h2 (snd (run h1 s))), snd (run h2 (snd (run h1 s)))).
Proof.
  revert s. induction h1 as [ | c h1 IH ]; intros s; [ cbn [app InterpModel.run fst snd]; apply surjective_pairing | ].
  rewrite <- app_comm_cons, !run_cons, IH. reflexivity.
Qed.
Lemma run_length h s : length (fst (run h s)) = length h.
Proof. revert s. induction h as [ | c h IH ]; intros s; [ reflexivity | ]. rewrite run_cons. cbn. now rewrite IH. Qed.
Lemma run_similar h s s' : names_do_not_matter E -> similar s s' -> Forall2 alike (fst (run h s)) (fst (run h s')) /\ similar (snd (run h s)) (snd (run h s')) /\
  forall k c, nth_error h k = Some c -> asks c -> nth_error (fst (run h s)) k = nth_error (fst (run h s')) k.
Proof.
  intros N. revert s s'. induction h as [ | c h IH ]; intros s s' H.
  - cbn. split; [ constructor | split; [ assumption | ] ]. intros [ | k ]; discriminate.
  - rewrite !run_cons. cbn [fst snd]. destruct (step_similar c s s' N H) as (A & S1 & Q1). destruct (IH _ _ S1) as (F & S2 & Q2).
    split; [ now constructor | split; [ assumption | ] ]. intros [ | k ] c' K Ak; cbn in *; [ injection K as <-; now rewrite Q1 | now apply (Q2 k c') ].
Qed.

(** A call that is not a question and fails could as well not have been made: every later reply is the same, except that a later failure
    to read may be worded differently; answers to questions are the same altogether. *)
Theorem C41_failure_invisible_partial : forall before c after,
  names_do_not_matter E -> ~ asks c ->
  (exists r, nth_error (replies (before ++ c :: after)) (length before) = Some r /\ failed r) ->
  exists first answers answers',
    replies (before ++ after) = first ++ answers /\
    (exists r, replies (before ++ c :: after) = first ++ r :: answers') /\
    length first = length before /\ Forall2 alike answers answers' /\
    (forall k q, nth_error after k = Some q -> asks q -> nth_error answers k = nth_error answers' k).
Proof.
  intros before c after N A (r & R & F). unfold InterpModel.replies in *. rewrite run_app in R |- *. cbn [fst] in R.
  rewrite nth_error_app2 in R by now rewrite run_length. rewrite run_length, Nat.sub_diag in R. rewrite run_cons in R. cbn in R. injection R as <-.
  set (s := snd (run before fresh)) in *. pose proof (similar_sym _ _ (step_failed c s A F)) as H.
  destruct (run_similar after _ _ N H) as (Al & _ & Q).
  exists (fst (run before fresh)), (fst (run after s)), (fst (run after (snd (step c s)))). split; [ reflexivity | ]. split.
  { exists (fst (step c s)). rewrite run_app. cbn [fst]. fold s. now rewrite run_cons. }
  split; [ apply run_length | ]. now split.
Qed.

(** ** What the interpreter holds *)

Definition holds (name : str) (h : list (call node binary)) (s : st) : Prop :=
  m_dataseq s = flat_map (data_from E name) h /\ m_moduleseq s = flat_map (module_from E) h /\
  m_input s = last (flat_map (input_from E) h) u /\ m_query s = last (flat_map (query_from E) h) q /\
  m_entrypoints s = fold_left entrypoints_from h [].

Lemma last_app_one {A} (l : list A) x d : last (l ++ [x]) d = x.
Proof. induction l as [ | y l IH ]; [ reflexivity | ]. cbn. destruct (l ++ [x]) eqn:D; [ destruct l; discriminate | assumption ]. Qed.
Lemma last_app_got (l : list node) r d : last (l ++ got (errors := errors) r) d = match r with Read n => n | _ => last l d end.
Proof. destruct r; cbn; [ apply last_app_one | | ]; now rewrite app_nil_r. Qed.

Lemma holds_step name h c s : names_do_not_matter E -> holds name h s -> holds name (h ++ [c]) (snd (step c s)).
Proof.
  intros N (D & M & I & Q & P). unfold holds.
  rewrite !flat_map_app, fold_left_app. cbn [flat_map fold_left]. rewrite !app_nil_r. rewrite <- P.
  destruct c; cbn [InterpModel.step data_from module_from input_from query_from entrypoints_from]; rewrite ?app_nil_r.
  - unfold add_module_file, got_file. destruct file as [ t | ]; [ destruct (e_module E path t) | ]; cbn; rewrite ?app_nil_r, ?M, ?D, ?I, ?Q; now repeat split.
  - unfold add_module. destruct (e_module E name0 contents); cbn; rewrite ?app_nil_r, ?M, ?D, ?I, ?Q; now repeat split.
  - unfold add_data_json_file, got_file. destruct file as [ t | ]; [ destruct (e_data E path t) | ]; cbn; rewrite ?app_nil_r, ?M, ?D, ?I, ?Q; now repeat split.
  - unfold add_data_json. specialize (N (data_name s) name contents). destruct (e_data E (data_name s) contents), (e_data E name contents); try contradiction;
      cbn; subst; rewrite ?app_nil_r, ?M, ?D, ?I, ?Q; now repeat split.
  - unfold add_data. destruct (e_data_node E n); cbn; rewrite ?app_nil_r, ?M, ?D, ?I, ?Q; now repeat split.
  - unfold set_input_json_file, got_file. destruct file as [ t | ]; [ destruct (e_input_json E t) | ]; cbn; rewrite ?app_nil_r, ?last_app_one, ?M, ?D, ?I, ?Q; now repeat split.
  - unfold set_input_term. destruct (e_input_term E term); cbn; rewrite ?app_nil_r, ?last_app_one, ?M, ?D, ?I, ?Q; now repeat split.
  - unfold set_input_json. destruct (e_input_json E contents); cbn; rewrite ?app_nil_r, ?last_app_one, ?M, ?D, ?I, ?Q; now repeat split.
  - unfold set_input. destruct n as [ n | n | n | n ]; [ destruct (e_input_node E n) | | | ]; cbn; rewrite ?app_nil_r, ?last_app_one, ?M, ?D, ?I, ?Q; now repeat split.
  - unfold set_query. destruct (e_query E text); cbn; rewrite ?app_nil_r, ?last_app_one, ?M, ?D, ?I, ?Q; now repeat split.
  - cbn. rewrite ?M, ?D, ?I, ?Q; now repeat split.
  - cbn. rewrite ?M, ?D, ?I, ?Q; now repeat split.
  - cbn. rewrite ?M, ?D, ?I, ?Q; now repeat split.
  - unfold query_node_text, set_query. destruct (e_query E text); cbn; rewrite ?app_nil_r, ?last_app_one, ?M, ?D, ?I, ?Q; now repeat split.
  - cbn. rewrite ?M, ?D, ?I, ?Q; now repeat split.
  - cbn. rewrite ?M, ?D, ?I, ?Q; now repeat split.
  - cbn. rewrite ?M, ?D, ?I, ?Q; now repeat split.
Qed.
Lemma holds_run name h : names_do_not_matter E -> holds name h (snd (run h fresh)).
Proof.
  intros N. induction h as [ | c h IH ] using rev_ind; [ now repeat split | ].
  rewrite run_app. cbn [snd]. rewrite run_cons. cbn [snd InterpModel.run]. now apply holds_step.
Qed.

(** The answer to a question. *)
Definition answer_of (r : reading node errors) : reply node errors := match r with Read n => Tree n | Errors e => ErrorSeq e | Thrown m => Exception m end.
(** Compiling and running. *)
Definition ask (data modules : list node) (query input : node) : reply node errors :=
  match e_bundle E [] data modules query with
  | Read n =>
      match e_from_node E n with
      | Read b => match e_run E b None input with Read r => Tree r | Errors e => ErrorSeq e | Thrown m => LoneError m end
      | Errors e => ErrorSeq e
      | Thrown m => Exception m
      end
  | Errors e => ErrorSeq e
  | Thrown m => Exception m
  end.

Lemma last_reply h c : nth_error (replies (h ++ [c])) (length h) = Some (fst (step c (snd (run h fresh)))).
Proof.
  unfold InterpModel.replies. rewrite run_app. cbn [fst]. rewrite nth_error_app2 by now rewrite run_length. rewrite run_length, Nat.sub_diag.
  now rewrite run_cons.
Qed.

(** After any calls a query answers from the documents and modules that could be read, in the order of the calls, from the last input that
    could be read, and the last query that could be read; failed calls and questions count for nothing. *)
Theorem C41_query : forall h name, names_do_not_matter E ->
  nth_error (replies (h ++ [Query])) (length h) =
  Some (ask (flat_map (data_from E name) h) (flat_map (module_from E) h) (last (flat_map (query_from E) h) q) (last (flat_map (input_from E) h) u)).
Proof.
  intros h name N. rewrite last_reply. destruct (holds_run name h N) as (D & M & I & Q & _). cbn [InterpModel.step fst].
  unfold query_node, query_bundle, ask. now rewrite D, M, I, Q.
Qed.
(** A query text that can be read is answered, and replaces the query. *)
Theorem C41_query_text_partial : forall h t n name, names_do_not_matter E -> e_query E t = Read n ->
  nth_error (replies (h ++ [QueryText t])) (length h) =
  Some (ask (flat_map (data_from E name) h) (flat_map (module_from E) h) n (last (flat_map (input_from E) h) u)).
Proof.
  intros h t n name N R. rewrite last_reply. destruct (holds_run name h N) as (D & M & I & Q & _). cbn [InterpModel.step fst].
  unfold query_node_text, set_query. rewrite R. cbn [store fst]. unfold query_node, query_bundle, ask. cbn [put_query m_dataseq m_moduleseq m_query m_input].
  now rewrite D, M, I.
Qed.
(** A bundle is built from the same documents and the entry points. *)
Theorem C41_build : forall h name, names_do_not_matter E ->
  nth_error (replies (h ++ [Build])) (length h) =
  Some (answer_of (e_bundle E (fold_left entrypoints_from h []) (flat_map (data_from E name) h) (flat_map (module_from E) h) (last (flat_map (query_from E) h) q))).
Proof.
  intros h name N. rewrite last_reply. destruct (holds_run name h N) as (D & M & I & Q & P). cbn [InterpModel.step fst].
  unfold build, answer_of. rewrite D, M, Q, P. reflexivity.
Qed.
(** A bundle is run on the last input, whatever else was done. *)
Theorem C41_run_bundle : forall h b, names_do_not_matter E ->
  let input := last (flat_map (input_from E) h) u in
  let run e := match e_run E b e input with Read r => Tree r | Errors x => ErrorSeq x | Thrown m => LoneError m end in
  nth_error (replies (h ++ [RunBundle b])) (length h) = Some (run None) /\
  forall name, nth_error (replies (h ++ [RunEntrypoint b name])) (length h) = Some (run (Some name)).
Proof.
  intros h b N. cbv zeta. destruct (holds_run [] h N) as (_ & _ & I & _). split; [ | intros name ]; rewrite last_reply; cbn [InterpModel.step fst]; unfold query_bundle; now rewrite I.
Qed.

(** A call that stores something reports failure exactly when there is nothing it could read. *)
Definition provides (c : call node binary) : list node := data_from E [] c ++ module_from E c ++ input_from E c ++ query_from E c.
Theorem C41_reports : forall h c, names_do_not_matter E -> ~ asks c ->
  match c with SetEntrypoints _ | AddEntrypoint _ => False | _ => True end ->
  exists r, nth_error (replies (h ++ [c])) (length h) = Some r /\ (failed r <-> provides c = []) /\ (~ failed r <-> r = Done).
Proof.
  intros h c N A Ne. eexists. split; [ apply last_reply | ]. set (s := snd (run h fresh)). unfold provides.
  destruct c; try (now destruct A); try contradiction; cbn [InterpModel.step data_from module_from input_from query_from app].
  - unfold add_module_file, got_file. destruct file as [ t | ]; [ destruct (e_module E path t) | ]; cbn; intuition (auto; discriminate).
  - unfold add_module. destruct (e_module E name contents); cbn; intuition (auto; discriminate).
  - unfold add_data_json_file, got_file. destruct file as [ t | ]; [ destruct (e_data E path t) | ]; cbn; intuition (auto; discriminate).
  - unfold add_data_json. specialize (N (data_name s) [] contents). destruct (e_data E (data_name s) contents), (e_data E [] contents); try contradiction; cbn; intuition (auto; discriminate).
  - unfold add_data. destruct (e_data_node E n); cbn; intuition (auto; discriminate).
  - unfold set_input_json_file, got_file. destruct file as [ t | ]; [ destruct (e_input_json E t) | ]; cbn; intuition (auto; discriminate).
  - unfold set_input_term. destruct (e_input_term E term); cbn; intuition (auto; discriminate).
  - unfold set_input_json. destruct (e_input_json E contents); cbn; intuition (auto; discriminate).
  - unfold set_input. destruct n as [ n | n | n | n ]; [ destruct (e_input_node E n) | | | ]; cbn; intuition (auto; discriminate).
  - unfold set_query. destruct (e_query E text); cbn; intuition (auto; discriminate).
Qed.

(** ** A query text that cannot be read *)

(** It is answered all the same, by the query before it. *)
Theorem C41_stale_query_refuted : forall h t e name, names_do_not_matter E -> e_query E t = Errors e ->
  nth_error (replies (h ++ [QueryText t])) (length h) = nth_error (replies (h ++ [Query])) (length h) /\
  nth_error (replies (h ++ [QueryText t])) (length h) =
  Some (ask (flat_map (data_from E name) h) (flat_map (module_from E) h) (last (flat_map (query_from E) h) q) (last (flat_map (input_from E) h) u)).
Proof.
  intros h t e name N R. assert (X : nth_error (replies (h ++ [QueryText t])) (length h) = nth_error (replies (h ++ [Query])) (length h)).
  { rewrite !last_reply. cbn [InterpModel.step fst]. unfold query_node_text, set_query. now rewrite R. }
  split; [ exact X | ]. rewrite X. now apply C41_query.
Qed.

(** ** The C interface *)

(** REGO_OK is returned exactly when the call could be carried out; otherwise the error text is set, and the interpreter is as before
    but for the number of texts read.  What a call does to the interpreter when it succeeds is what the C++ member does. *)
Definition c_member (c : c_call node) : option (call node binary) :=
  match c with
  | regoAddModuleFile (Some p) f => Some (AddModuleFile p f)
  | regoAddModule (Some n) (Some t) => Some (AddModule n t)
  | regoAddDataJSONFile (Some p) f => Some (AddDataFile p f)
  | regoAddDataJSON (Some t) => Some (AddDataJson t)
  | regoSetInputJSONFile (Some p) f => Some (SetInputFile p f)
  | regoSetInputTerm (Some t) => Some (SetInputTerm t)
  | regoSetInput (Some (0, Some n)) => Some (SetInput n)
  | regoSetQuery (Some t) => Some (SetQuery t)
  | regoAddEntrypoint (Some t) => Some (AddEntrypoint t)
  | _ => None
  end.
Theorem C41_c_interface : forall c s code s', c_step (binary := binary) E inv c s = (code, s') ->
  match c_member c with
  | Some m =>
      c_interp s' = snd (step m (c_interp s)) /\
      (fst (step m (c_interp s)) = Done -> code = REGO_OK /\ c_error s' = c_error s) /\
      (failed (fst (step m (c_interp s))) -> code = REGO_ERROR /\ similar (c_interp s') (c_interp s)) /\
      (fst (step m (c_interp s)) = Done \/ failed (fst (step m (c_interp s))))
  | None => code <> REGO_OK /\ c_interp s' = c_interp s
  end.
Proof.
  intros c s code s' H.
  assert (K : forall m, ~ asks m -> c_run E inv m s = (code, s') -> fst (step m (c_interp s)) = Done \/ failed (fst (step m (c_interp s))) ->
    c_interp s' = snd (step m (c_interp s)) /\ (fst (step m (c_interp s)) = Done -> code = REGO_OK /\ c_error s' = c_error s) /\
    (failed (fst (step m (c_interp s))) -> code = REGO_ERROR /\ similar (c_interp s') (c_interp s)) /\
    (fst (step m (c_interp s)) = Done \/ failed (fst (step m (c_interp s))))).
  { intros m A R D. unfold c_run in R. destruct (step m (c_interp s)) as [r i] eqn:X. cbn [fst snd] in *.
    assert (L : failed r -> similar i (c_interp s)). { intros Fr. pose proof (step_failed m (c_interp s) A) as L. rewrite X in L. now apply L. }
    destruct r; cbn [c_finish failed] in *; injection R as <- <-; cbn [c_interp c_error set_error]; repeat split; try discriminate; try tauto; try (now apply L).
    all: destruct D as [D | []]; discriminate. }
  assert (D : forall r x put, fst (store (errors := errors) r x put) = Done \/ failed (fst (store (node := node) r x put))) by (intros [ ] ? ?; cbn; auto).
  assert (Z0 : REGO_ERROR <> REGO_OK) by discriminate.
  destruct c as [ p f | n t | p f | t | p f | t | i | t | t ]; cbn [c_step] in H.
  - destruct p; cbn [with_text c_member] in *; [ apply K; auto; cbn; unfold add_module_file; destruct f; cbn; auto | injection H as <- <-; auto ].
  - destruct n as [ n | ]; [ destruct t as [ t | ] | ]; cbn [with_text c_member] in *; [ apply K; auto; cbn; apply D | injection H as <- <-; auto | injection H as <- <-; auto ].
  - destruct p; cbn [with_text c_member] in *; [ apply K; auto; cbn; unfold add_data_json_file; destruct f; cbn; auto | injection H as <- <-; auto ].
  - destruct t; cbn [with_text c_member] in *; [ apply K; auto; cbn; apply D | injection H as <- <-; auto ].
  - destruct p; cbn [with_text c_member] in *; [ apply K; auto; cbn; unfold set_input_json_file; destruct f; cbn; auto | injection H as <- <-; auto ].
  - destruct t; cbn [with_text c_member] in *; [ apply K; auto; cbn; apply D | injection H as <- <-; auto ].
  - destruct i as [ [ z [ n | ] ] | ]; cbn [c_member].
    + destruct (Z.eqb_spec z REGO_OK) as [ -> | Nz ]; [ apply (K (SetInput n)); auto; cbn; destruct n; cbn; auto | ].
      injection H as <- <-. destruct z; [ now destruct Nz | | ]; auto.
    + injection H as <- <-. destruct z; auto.
    + injection H as <- <-. auto.
  - destruct t; cbn [with_text c_member] in *; [ apply K; auto; cbn; apply D | injection H as <- <-; auto ].
  - destruct t; cbn [with_text c_member] in *; [ apply K; auto; cbn; auto | injection H as <- <-; auto ].
Qed.

(** regoQuery, regoBundleQuery and regoBundleQueryEntrypoint: there is an output unless the question ends in an exception, whose text
    is then the error; a question changes nothing else. *)
Theorem C41_c_questions : forall c s, asks c ->
  match fst (step c (c_interp s)) with
  | Exception m => c_ask E inv c s = (None, mkC (snd (step c (c_interp s))) m)
  | r => c_ask E inv c s = (Some r, mkC (snd (step c (c_interp s))) (c_error s))
  end /\ ((forall t, c <> QueryText t) -> c_interp (snd (c_ask E inv c s)) = c_interp s).
Proof.
  intros c s A. unfold c_ask. assert (K : (forall t, c <> QueryText t) -> snd (step c (c_interp s)) = c_interp s).
  { intros H. destruct c; cbn [asks] in A; try contradiction; try reflexivity. now elim (H text). }
  destruct (step c (c_interp s)) as [r i]. cbn [fst snd] in *. destruct r; split; try reflexivity; intros H; cbn; auto.
Qed.

(** ** The names of data texts *)

(** The calls that count: every text of a module or a document that is read, whether or not it can be used. *)
Definition counts (c : call node binary) : bool :=
  match c with
  | AddModuleFile _ (Some _) | AddModule _ _ | AddDataFile _ (Some _) | AddDataJson _ | AddData _ => true
  | _ => false
  end.
Lemma count_step c s : m_data_count (snd (step c s)) = m_data_count s + (if counts c then 1 else 0).
Proof.
  assert (St : forall r put (x : st), (forall y n, m_data_count (put y n) = m_data_count y) -> m_data_count (snd (store (errors := errors) r x put)) = m_data_count x).
  { intros r put x P. destruct r; cbn; auto. }
  destruct c; cbn [InterpModel.step counts]; try (cbn; lia).
  - unfold add_module_file. destruct file; cbn [snd]; [ rewrite St; [ reflexivity | auto ] | cbn; lia ].
  - unfold add_module. now rewrite St.
  - unfold add_data_json_file. destruct file; cbn [snd]; [ rewrite St; [ reflexivity | auto ] | cbn; lia ].
  - unfold add_data_json. now rewrite St.
  - unfold add_data. now rewrite St.
  - unfold set_input_json_file. destruct file; cbn [snd]; [ rewrite St; [ lia | auto ] | cbn; lia ].
  - unfold set_input_term. rewrite St; [ lia | auto ].
  - unfold set_input_json. rewrite St; [ lia | auto ].
  - unfold set_input. destruct n; cbn; try lia. rewrite St; [ lia | auto ].
  - unfold set_query. rewrite St; [ lia | auto ].
  - unfold query_node_text, set_query. destruct (e_query E text); cbn; lia.
Qed.
Lemma count_run h s : m_data_count (snd (run h s)) = m_data_count s + Z.of_nat (length (filter counts h)).
Proof.
  revert s. induction h as [ | c h IH ]; intros s; [ cbn; lia | ]. rewrite run_cons. cbn [snd filter]. rewrite IH, count_step. destruct (counts c); cbn [length]; lia.
Qed.
(** The n-th data text is read under a name of its own, which has the number of texts read before it: no two texts share a name. *)
Theorem C41_data_names : forall h t,
  nth_error (replies (h ++ [AddDataJson t])) (length h) =
  Some (match e_data E ($"data" ++ dec (Z.of_nat (length (filter counts h))) ++ $".json") t with Read _ => Done | Errors e => ErrorSeq e | Thrown m => Exception m end).
Proof.
  intros h t. rewrite last_reply. cbn [InterpModel.step]. unfold add_data_json, data_name. rewrite count_run. cbn [InterpModel.fresh m_data_count].
  replace (0 + Z.of_nat (length (filter counts h))) with (Z.of_nat (length (filter counts h))) by lia.
  f_equal. now destruct (e_data E _ t).
Qed.
End Facts.

(** ** A case *)

(** An engine whose trees are texts: texts that start with "!" cannot be read; a query answers its own text. *)
Definition toy_read (t : str) : reading str str := match t with 33 :: _ => Errors $"bad" | _ => Read t end.
Definition toy : engine str str str := {|
  e_module := fun _ t => toy_read t; e_query := toy_read; e_data := fun _ t => toy_read t; e_data_node := toy_read; e_input_json := toy_read;
  e_input_term := toy_read; e_input_node := toy_read; e_to_term := fun n => n;
  e_bundle := fun _ d m qu => Read (concat d ++ $"/" ++ concat m ++ $"/" ++ qu);
  e_from_node := fun n => Read n; e_run := fun b _ i => Read (b ++ $"/" ++ i); e_print := fun e => e |}.
Example toy_names : names_do_not_matter toy.
Proof. intros a b t. cbn. destruct (toy_read t); auto. Qed.
Definition toy_replies := replies toy [] [] (fun n => n).
Example failing_calls : toy_replies [AddDataJson $"d"; AddModule $"m" $"!x"; AddDataJson $"!"; SetInputJson $"1"; SetInputTerm $"!2"; SetQuery $"q"; SetQuery $"!"; Query]
  = [Done; ErrorSeq $"bad"; ErrorSeq $"bad"; Done; ErrorSeq $"bad"; Done; ErrorSeq $"bad"; Tree $"d//q/1"].
Proof. reflexivity. Qed.
Example stale_query : toy_replies [QueryText $"q"; QueryText $"!r"] = [Tree $"//q/"; Tree $"//q/"].
Proof. reflexivity. Qed.
Example c_failing : c_step (binary := str) toy (fun n => n) (regoSetQuery (Some $"!")) (mkC (fresh [] []) []) = (REGO_ERROR, mkC (fresh [] []) $"bad").
Proof. reflexivity. Qed.

Print Assumptions C41_failure_invisible_partial.
Print Assumptions C41_query.
Print Assumptions C41_query_text_partial.
Print Assumptions C41_build.
Print Assumptions C41_run_bundle.
Print Assumptions C41_reports.
Print Assumptions C41_stale_query_refuted.
Print Assumptions C41_c_interface.
Print Assumptions C41_c_questions.
Print Assumptions C41_data_names.
