(** The C interface: buffers (C42) and the input builder (C43). *)
From Coq Require Import String ZArith List Bool Lia.
From Verif Require Import Base SMap BigIntSpec BigIntModel BigIntProofs DecFacts ValueModel ValueSpec ResolverModel VmModel MiscModel KeyProofs ResolverProofs CollProofs CollGraphProofs ValueTheorems JsonSpec JsonProofs CApiModel CApiSpec CApiProofs.
Import ListNotations.
Local Open Scope Z_scope.
Local Open Scope list_scope.

(** ** C42 *)

(** A buffer of the reported size receives the whole text. *)
Theorem C42_size_suffices : forall f t size, f <> FNodeTypeName -> ~ In 0 t -> Z.of_nat (length t) + 1 < 2 ^ 32 -> text_size f (Some t) = Ok size ->
  forall buffer, Z.of_nat (length buffer) = size -> exists b, get_text f (Some t) buffer size = Ok (REGO_OK, b) /\ c_string b t /\ length b = length buffer.
Proof.
  intros f t size Nf N0 L E buffer B. unfold str, byte in *.
  assert (S : size = Z.of_nat (length t) + 1) by (destruct f; try (now elim Nf); cbn [text_size] in E; injection E as <-; unfold to_size; apply Z.mod_small; lia).
  unfold get_text, write_text. unfold str, byte in *. destruct (Z.ltb_spec size (Z.of_nat (length t) + 1)); [ lia | ]. destruct (Nat.ltb_spec (length buffer) (length t + 1)); [ lia | ]. cbn [obind].
  exists (t ++ [0] ++ skipn (length t + 1) buffer). split; [ reflexivity | ]. split; [ now constructor | ]. rewrite !app_length, skipn_length. cbn [length]. lia.
Qed.
Print Assumptions C42_size_suffices.
(** For any buffer of the given size: too small is reported and nothing is written, or the text and its terminator are written and the
    rest of the buffer is untouched; nothing is written outside it. *)
Theorem C42_no_overrun : forall f t buffer size, Z.of_nat (length buffer) = size ->
  (size < Z.of_nat (length t) + 1 /\ get_text f (Some t) buffer size = Ok (REGO_ERROR_BUFFER_TOO_SMALL, buffer)) \/
  (Z.of_nat (length t) + 1 <= size /\ get_text f (Some t) buffer size = Ok (REGO_OK, t ++ [0] ++ skipn (length t + 1) buffer)).
Proof.
  intros f t buffer size B. unfold get_text, write_text. unfold str, byte in *. destruct (Z.ltb_spec size (Z.of_nat (length t) + 1)); [ now left | right ].
  destruct (Nat.ltb_spec (length buffer) (length t + 1)); [ lia | ]. auto.
Qed.
Print Assumptions C42_no_overrun.
Example C42_ex : text_size FNodeValue (Some $"abc") = Ok 4 /\ get_text FNodeValue (Some $"abc") [9; 9; 9; 9] 4 = Ok (REGO_OK, $"abc" ++ [0]) /\
  get_text FNodeValue (Some $"abc") [9; 9; 9] 3 = Ok (REGO_ERROR_BUFFER_TOO_SMALL, [9; 9; 9]) /\ c_string ($"abc" ++ [0; 7]) $"abc".
Proof. split; [ reflexivity | ]. split; [ reflexivity | ]. split; [ reflexivity | ]. apply (cs_text $"abc" [7]). cbn. intuition discriminate. Qed.
(** The size reported for a node's type name has no room for the terminator: it never suffices. *)
Theorem C42_type_name_refuted : forall t size buffer, Z.of_nat (length t) < 2 ^ 32 -> text_size FNodeTypeName (Some t) = Ok size ->
  get_text FNodeTypeName (Some t) buffer size = Ok (REGO_ERROR_BUFFER_TOO_SMALL, buffer).
Proof.
  intros t size buffer L E. cbn [text_size] in E. injection E as <-. unfold to_size. rewrite Z.mod_small by lia. unfold get_text. unfold str, byte in *. destruct (Z.ltb_spec (Z.of_nat (length t)) (Z.of_nat (length t) + 1)); [ reflexivity | lia ].
Qed.
Print Assumptions C42_type_name_refuted.
(** Texts of 4 GiB: the reported size wraps around. *)
Theorem C42_large_refuted : forall f t, f <> FNodeTypeName -> Z.of_nat (length t) = 2 ^ 32 - 1 -> text_size f (Some t) = Ok 0.
Proof. intros f t N L. destruct f; try (now elim N); cbn [text_size]; unfold to_size; rewrite L; reflexivity. Qed.
Print Assumptions C42_large_refuted.
(** A null handle: only the error text has a guard. *)
Theorem C42_null_partial : text_size FError None = Ok 0 /\ (forall buffer size, get_text FError None buffer size = Ok (REGO_ERROR, buffer)) /\
  forall f buffer size, f <> FError -> text_size f None = Ub /\ get_text f None buffer size = Ub.
Proof. split; [ reflexivity | ]. split; [ reflexivity | ]. intros f buffer size N. destruct f; try (now elim N); split; reflexivity. Qed.
Print Assumptions C42_null_partial.

(** ** C43 *)

(** The calls for a value put it on the stack, all of them reporting success; sets have their members in another order. *)
Theorem C43_build : forall F NI NF v p i, num_domain F NI NF -> wfv F NI NF v -> builds v p -> i_status i = REGO_OK ->
  exists v' codes, run F p i = (codes, {| i_stack := i_stack i ++ [EVal v']; i_status := REGO_OK |}) /\ Forall (eq REGO_OK) codes /\ wfv F NI NF v' /\ veq F v v'.
Proof.
  intros F NI NF v p i D W B S. destruct (builds_pushes F v p B) as (v' & R & P). destruct i as [l s]. cbn [i_status i_stack] in *. subst s. destruct (P l) as (n & E). exists v', (repeat REGO_OK n). split; [ exact E | ].
  split; [ rewrite Forall_forall; intros c I; symmetry; now apply repeat_spec in I | ]. apply (remade_equal F NI NF D v v' W R).
Qed.
Print Assumptions C43_build.
Theorem C43_build_exact : forall F v p i, no_sets v -> builds v p -> i_status i = REGO_OK ->
  exists codes, run F p i = (codes, {| i_stack := i_stack i ++ [EVal v]; i_status := REGO_OK |}) /\ Forall (eq REGO_OK) codes.
Proof.
  intros F v p i N B S. destruct (builds_pushes F v p B) as (v' & R & P). apply remade_same in R; [ | exact N ]. subst v'. destruct i as [l s]. cbn [i_status i_stack] in *. subst s. destruct (P l) as (n & E). exists (repeat REGO_OK n). split; [ exact E | ].
  rewrite Forall_forall. intros c I. symmetry. now apply repeat_spec in I.
Qed.
Print Assumptions C43_build_exact.
(** The value built is what the interpreter gets, and what the builder shows. *)
Theorem C43_set_input : forall F v p old, no_sets v -> builds v p ->
  let i := snd (run F p new_input) in
  set_input (Some i) old = (REGO_OK, Some v) /\ input_validate (Some i) = Ok REGO_OK /\ input_node (Some i) = Ok (Some (EVal v)).
Proof. intros F v p old N B. destruct (C43_build_exact F v p new_input N B eq_refl) as (codes & E & _). rewrite E. repeat split. Qed.
Print Assumptions C43_set_input.
(** The interpreter takes the value on the top of a builder without errors; otherwise it keeps the input it had. *)
Theorem C43_set_input_fails : forall h old code new, set_input h old = (code, new) ->
  (code = REGO_OK <-> exists i l v, h = Some i /\ i_status i = REGO_OK /\ i_stack i = l ++ [EVal v] /\ new = Some v) /\
  (code <> REGO_OK -> new = old).
Proof.
  intros h old code new E. unfold set_input in E. destruct h as [i | ].
  - destruct (rev (i_stack i)) as [ | e l ] eqn:R.
    + injection E as <- <-. split; [ | auto ]. split; [ discriminate | ]. intros (i' & l & v & [= <-] & _ & S & _). rewrite S, rev_app_distr in R. discriminate.
    + assert (S : i_stack i = rev l ++ [e]) by (rewrite <- (rev_involutive (i_stack i)), R; reflexivity). destruct (i_status i =? REGO_OK) eqn:Q.
      * apply Z.eqb_eq in Q. destruct e as [v | k v]; injection E as <- <-; (split; [ | auto; congruence ]); split; try discriminate.
        -- intros _. exists i, (rev l), v. auto.
        -- reflexivity.
        -- intros (i' & l' & v' & [= <-] & _ & S' & _). rewrite S in S'. apply app_inj_tail in S' as [_ S']. discriminate.
      * apply Z.eqb_neq in Q. injection E as <- <-. split; [ | auto ]. split; [ contradiction | ]. intros (i' & l' & v' & [= <-] & Q' & _). contradiction.
  - injection E as <- <-. split; [ | auto ]. split; [ discriminate | ]. intros (i' & l' & v' & E' & _). discriminate.
Qed.
Print Assumptions C43_set_input_fails.
Example C43_set_input_fails_ex : exists i, run fops0 [CString $"k"; CInt 1; CItem] new_input = ([0; 0; 0], i) /\ set_input (Some i) (Some VTrue) = (REGO_ERROR, Some VTrue).
Proof. eexists. split; reflexivity. Qed.
Definition build_ex : value := VObject [(VString $"roles", VArray [VString $"admin"; VInt $"-7"; VFloat $"0.500000"]); (VString $"ok", VTrue)].
Definition calls_ex : list call := [CString $"roles"; CString $"admin"; CInt (-7); CFloat (DFin false 1 (-1)); CArray 3; CItem; CString $"ok"; CBool 1; CItem; CObject 2].
Example C43_ex : builds build_ex calls_ex /\ no_sets build_ex /\ run fops0 calls_ex new_input = (repeat 0 10, {| i_stack := [EVal build_ex]; i_status := 0 |}) /\
  wfv fops0 any_int no_float (VSet [VInt $"2"; VInt $"1"]) /\ builds (VSet [VInt $"2"; VInt $"1"]) [CInt 2; CInt 1; CSet 2].
Proof.
  assert (St : forall s, existsb (Z.eqb 0) s = false -> builds (VString s) [CString s]).
  { intros s E. constructor. intros I. assert (existsb (Z.eqb 0) s = true) by (apply existsb_exists; exists 0; split; [ exact I | reflexivity ]). congruence. }
  split; [ | split; [ | split; [ reflexivity | split ] ] ].
  - apply (bd_object [(VString $"roles", VArray [VString $"admin"; VInt $"-7"; VFloat $"0.500000"]); (VString $"ok", VTrue)]
      [[CString $"roles"; CString $"admin"; CInt (-7); CFloat (DFin false 1 (-1)); CArray 3; CItem]; [CString $"ok"; CBool 1; CItem]]); [ | reflexivity ].
    constructor; [ | constructor; [ | constructor ] ]; cbn [fst snd].
    + exists [CString $"roles"], [CString $"admin"; CInt (-7); CFloat (DFin false 1 (-1)); CArray 3]. split; [ now apply St | ]. split; [ | reflexivity ].
      apply (bd_array [VString $"admin"; VInt $"-7"; VFloat $"0.500000"] [[CString $"admin"]; [CInt (-7)]; [CFloat (DFin false 1 (-1))]]); [ | reflexivity ].
      constructor; [ now apply St | ]. constructor; [ apply (bd_int (-7)); lia | ]. constructor; [ apply (bd_float (DFin false 1 (-1))) | constructor ].
    + exists [CString $"ok"], [CBool 1]. split; [ now apply St | ]. split; [ apply (bd_bool 1 true); lia || (split; discriminate) | reflexivity ].
  - apply ns_object. apply Forall_cons; [ | apply Forall_cons; [ | constructor ] ]; split; cbn [fst snd]; try (apply ns_scalar; discriminate).
    apply ns_array. repeat (apply Forall_cons; [ apply ns_scalar; discriminate | ]). constructor.
  - apply (nodup_wf_set fops0 any_int no_float (int_domain fops0)); [ apply Forall_cons; [ apply wf_int; now exists 2 | apply Forall_cons; [ apply wf_int; now exists 1 | constructor ] ] | ].
    apply NoDup_cons; [ intros [H | []]; discriminate | ]. apply NoDup_cons; [ intros [] | apply NoDup_nil ].
  - apply (bd_set [VInt $"2"; VInt $"1"] [[CInt 2]; [CInt 1]]); [ | reflexivity ]. constructor; [ apply (bd_int 2); lia | ]. constructor; [ apply (bd_int 1); lia | constructor ].
Qed.

(** What a call reports: too few entries; entries that are no object items under an object; or success.  An error leaves the stack alone. *)
Theorem C43_misuse_partial : forall F c i code i', do_call F c i = (code, i') -> i_status i = REGO_OK ->
  (Z.of_nat (length (i_stack i)) < needs c /\ code = REGO_ERROR_INPUT_MISSING_ARGUMENTS /\ i_stack i' = i_stack i /\ i_status i' = code) \/
  (needs c <= Z.of_nat (length (i_stack i)) /\ (exists n, c = CObject n /\ exists e, In e (top n (i_stack i)) /\ is_item e = false) /\ code = REGO_ERROR_INPUT_OBJECT_ITEM /\ i_stack i' = i_stack i /\ i_status i' = code) \/
  (needs c <= Z.of_nat (length (i_stack i)) /\ (forall n, c = CObject n -> Forall (fun e => is_item e = true) (top n (i_stack i))) /\ code = REGO_OK /\ i_status i' = REGO_OK).
Proof. intros F c i code i' E S. now apply (call_code F). Qed.
Print Assumptions C43_misuse_partial.
(** An error sticks: no later call succeeds or changes the stack, validation fails, and the interpreter keeps its input. *)
Theorem C43_sticky : forall F cs i codes i' old, i_status i <> REGO_OK -> run F cs i = (codes, i') ->
  Forall (fun c => c <> REGO_OK) codes /\ i_status i' <> REGO_OK /\ i_stack i' = i_stack i /\
  input_validate (Some i') <> Ok REGO_OK /\ fst (set_input (Some i') old) <> REGO_OK /\ snd (set_input (Some i') old) = old /\ input_node (Some i') = Ok None.
Proof.
  intros F cs i codes i' old N E. destruct (run_stuck F cs i N codes i' E) as (A & B & C). split; [ exact A | ]. split; [ exact B | ]. split; [ exact C | ]. apply Z.eqb_neq in B. split; [ | split; [ | split ] ].
  - unfold input_validate. destruct (i_stack i'); [ discriminate | ]. intros Q. injection Q as Q. rewrite Q in B. discriminate.
  - unfold set_input. destruct (rev (i_stack i')); [ discriminate | ]. rewrite B. cbn [fst]. now apply Z.eqb_neq.
  - unfold set_input. destruct (rev (i_stack i')); [ reflexivity | ]. rewrite B. reflexivity.
  - unfold input_node. destruct (rev (i_stack i')); [ reflexivity | ]. now rewrite B.
Qed.
Print Assumptions C43_sticky.
Example C43_sticky_ex : run fops0 [CInt 1; CItem; CInt 2; CArray 5] new_input = ([0; 6; 6; 6], {| i_stack := [EVal (VInt $"1")]; i_status := 6 |}) /\
  run fops0 [CInt 1; CObject 1; CItem] new_input = ([0; 7; 6], {| i_stack := [EVal (VInt $"1")]; i_status := 6 |}).
Proof. split; reflexivity. Qed.
(** Misuse that is not reported: members of an object in an array or as a key, several values left at the end, a key used twice. *)
Theorem C43_misuse_refuted :
  (exists i, run fops0 [CString $"k"; CInt 1; CItem; CArray 1] new_input = ([0; 0; 0; 0], i) /\ input_validate (Some i) = Ok REGO_OK /\ set_input (Some i) None = (REGO_OK, Some (VArray [VErr $"object item"]))) /\
  (exists i, run fops0 [CString $"k"; CInt 1; CItem; CInt 2; CItem; CObject 1] new_input = ([0; 0; 0; 0; 0; 0], i) /\ set_input (Some i) None = (REGO_OK, Some (VObject [(VErr WellFormedError, VInt $"2")]))) /\
  (exists i, run fops0 [CInt 1; CInt 2] new_input = ([0; 0], i) /\ length (i_stack i) = 2%nat /\ input_validate (Some i) = Ok REGO_OK) /\
  (exists i, run fops0 [CString $"k"; CInt 1; CItem; CString $"k"; CInt 2; CItem; CObject 2] new_input = ([0; 0; 0; 0; 0; 0; 0], i) /\
     set_input (Some i) None = (REGO_OK, Some (VObject [(VString $"k", VInt $"1"); (VString $"k", VInt $"2")]))).
Proof. repeat split; eexists; repeat split; reflexivity. Qed.
Print Assumptions C43_misuse_refuted.
Theorem C43_null_refuted : (forall F c, api_call F c None = (REGO_ERROR_INPUT_NULL, None)) /\ input_validate None = Ub /\ input_node None = Ub.
Proof. repeat split. Qed.
Print Assumptions C43_null_refuted.
(** A finite double is kept to six decimals only. *)
Theorem C43_float_partial : forall neg mag exp, 0 <= mag -> six_decimals neg mag exp (double_text (DFin neg mag exp)).
Proof.
  intros neg mag exp M. cbn [double_text]. set (q := if 0 <=? exp then mag * 2 ^ exp * 10 ^ 6 else round_even (mag * 10 ^ 6) (2 ^ (- exp))).
  assert (Q : 0 <= q).
  { subst q. destruct (Z.leb_spec 0 exp); [ apply Z.mul_nonneg_nonneg; [ apply Z.mul_nonneg_nonneg; [ lia | apply Z.pow_nonneg; lia ] | lia ] | ].
    pose proof (Z.pow_pos_nonneg 2 (- exp)) as P. unfold round_even. assert (0 <= mag * 10 ^ 6 / 2 ^ (- exp)) by (apply Z.div_pos; lia). repeat match goal with |- context [if ?b then _ else _] => destruct b end; lia. }
  assert (Qd : 0 <= q / 10 ^ 6) by (apply Z.div_pos; lia). pose proof (Z.mod_pos_bound q (10 ^ 6) ltac:(lia)) as Qm.
  exists (dec (q / 10 ^ 6)), (pad_digits 6 (q mod 10 ^ 6)), q. split; [ reflexivity | ].
  pose proof (dec_canon (q / 10 ^ 6) Qd) as Cn. split; [ | split; [ | split; [ apply pad_length | split; [ | split ] ] ] ].
  - destruct Cn as [Cd Cc]. split; [ destruct Cc as [-> | (? & ? & -> & _)]; discriminate | exact Cd ].
  - split; [ intros E; apply (f_equal (@length byte)) in E; rewrite pad_length in E; discriminate | apply pad_digit ].
  - rewrite zval_app, pad_length, zval_dec, pad_value by (assumption || exact Qm). change (p10 6) with (10 ^ 6). pose proof (Z.div_mod q (10 ^ 6)). lia.
  - intros H. subst q. destruct (Z.leb_spec 0 exp); [ reflexivity | lia ].
  - intros H. subst q. destruct (Z.leb_spec 0 exp); [ lia | ]. split; [ apply round_even_spec | apply round_even_tie ]; (apply Z.pow_pos_nonneg; lia) || lia.
Qed.
Print Assumptions C43_float_partial.
Example C43_float_tie : double_text (DFin false 1 (-7)) = $"0.007812" /\ double_text (DFin false 3 (-7)) = $"0.023438".
Proof. split; reflexivity. Qed.
Example C43_float_ex : double_text (DFin true 5 (-2)) = $"-1.250000" /\ double_text (DFin false 3 70) = $"3541774862152233910272.000000".
Proof. split; reflexivity. Qed.
Theorem C43_float_refuted : double_text (DFin false 1 (-30)) = double_text (DFin false 0 0) /\ double_text (DFin false 1 (-30)) = $"0.000000".
Proof. split; reflexivity. Qed.
Print Assumptions C43_float_refuted.
(** Strings are taken as if they had been escaped: a quote or a pair of quotes in the text is not a character of the string. *)
Theorem C43_string_refuted : exists s i, ~ In 0 s /\ escaped s = false /\ run fops0 [CString s] new_input = ([0], i) /\ set_input (Some i) None = (REGO_OK, Some (VString s)) /\
  to_key fops0 (VString s) = [34] ++ s ++ [34].
Proof. exists (bytes_of "a""b"). eexists. split; [ cbn; intuition discriminate | ]. repeat split. Qed.
Print Assumptions C43_string_refuted.
