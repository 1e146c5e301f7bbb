(** Specification of the answer to a query. *)
From Coq Require Import String ZArith List Bool.
From Verif Require Import Base SMap BigIntSpec BigIntModel ValueModel ResolverModel VmModel VmSpec PlanModel PlanSpec RuleModel RuleSpec QueryModel.
Import ListNotations.
Local Open Scope Z_scope.

Section Query.
Variable E : env.
Variables rho sigma : str -> Z.
Notation img := (img rho sigma).
Notation iop := (iop rho sigma).

(** [reached code tail s ts s']: the code runs from [s] to [s'], and the place where all its conditions hold is reached in the
    states [ts], in this order; [tail] is what is done there. *)
Definition reached (code tail : list nir) (s : state) (ts : list state) (s' : state) : Prop :=
  exists n kc b c s0 s1,
    opt_list says kc = Some (img tail) /\ opt_list says b = Some (img code) /\
    quiet [] s s0 /\ visits E kc n b s0 ts c s1 /\ quiet [] s1 s'.

(** The value of a variable in a state, if it has one. *)
Definition var_at (t : state) (x : str) : option value := value_at E t (OLocal (rho x)).

(** A decimal number, as a 64-bit integer. *)
Definition number (t : str) : value := VInt (dec (o_value {| o_type := TValue; o_word := zval t |})).
(** What is recorded of an expression: its value, its text and where it stands. *)
Definition expr_object (t : state) (e : expression) : value :=
  VObject [(VString $"value", to_term (value_at E t (iop (snd e))));
           (VString $"text", VString (strip_quotes (pc_text (fst e))));
           (VString $"location", VObject [(VString $"row", number (pc_row (fst e))); (VString $"col", number (pc_col (fst e)))])].
(** The solution in a state where the query holds: none if some variable of the query has no value. *)
Fixpoint bindings_at (t : state) (xs : list str) : option (list (str * value)) :=
  match xs with
  | [] => Some []
  | x :: xs' => match var_at t x, bindings_at t xs' with Some v, Some l => Some ((x, v) :: l) | _, _ => None end
  end.
Definition row_object (t : state) (es : list expression) (bs : list (str * value)) : value :=
  VObject [(VString $"bindings", VObject (map (fun b => (VString (fst b), snd b)) bs));
           (VString $"expressions", VArray (map (expr_object t) es))].
Definition rows (es : list expression) (xs : list str) (ts : list state) : list value :=
  flat_map (fun t => match bindings_at t xs with Some bs => [row_object t es bs] | None => [] end) ts.
(** The result a user sees for it: the values of the expressions and the values of the variables. *)
Definition results (es : list expression) (xs : list str) (ts : list state) : list result :=
  flat_map (fun t => match bindings_at t xs with
                     | Some bs => [{| r_terms := map (fun e => to_term (value_at E t (iop (snd e)))) es; r_bindings := bs |}]
                     | None => []
                     end) ts.
End Query.

(** The answer: undefined without a solution.  A query without an expression has solutions but lists none. *)
Definition query_answer (es : list expression) (l : list result) : output :=
  match l with [] => QUndefined | _ => QResults (match es with [] => [] | _ => l end) end.

(** The conditions of a query. *)
Definition conditions (q : list placed) : list nir := query_block (map fst q).
(** The code that records one solution. *)
Definition record_code (N : qnames) (ret : str) (es : list expression) (xs : list str) : list nir :=
  row_code N es xs ++ [IIsDefined (q_result N); IAssignVar (OLocal (q_result N)) ret].

(** The names the compiler makes for a query with [k] expressions, and those it uses. *)
Definition made (N : qnames) (k : nat) : list str :=
  q_exprs N :: q_bindings N :: q_body N :: flat_map (fun i => [q_expr N i; q_loc N i; q_row N i; q_col N i]) (seq 0 k).
Definition used (es : list expression) (xs : list str) : list str := flat_map (fun e => op_local (snd e)) es ++ xs.

(** The blocks [bs] of function [fn] are the numbered form of the function of a query.  Slots are in range, strings are found
    under their numbers, the conditions do not return, the list of results and what is returned are the function's own, and
    the other names the compiler makes are new. *)
Record compiled_query (E : env) (fn : str) (n : Z) (rho sigma : str -> Z) (N : qnames) (ret : str)
  (q : list placed) (more : list (option place * nop)) (locals : list str) (bs : list block) : Prop := {
  cq_blocks : says_blocks bs = Some (map (img rho sigma) (query_function N ret q more locals));
  cq_frame : in_frame n (img rho sigma (concat (query_function N ret q more locals)));
  cq_words : n <= 2 ^ 64;
  cq_strings : forall s, In s (flat_map strings_in (row_code N (expressions more q) (shown locals))) ->
    znth (b_strings (e_bundle E)) (sigma s mod 2 ^ 64) = Some s;
  cq_stays : existsb leaves (conditions q) = false;
  cq_result : owns E fn n rho sigma (rho (q_result N)) (conditions q);
  cq_return : owns E fn n rho sigma (rho ret) (conditions q);
  cq_new : NoDup (map rho (ret :: q_result N :: made N (length (expressions more q))));
  cq_apart : forall x, In x (used (expressions more q) (shown locals)) ->
    ~ In (rho x) (map rho (ret :: q_result N :: made N (length (expressions more q))));
  cq_locals : NoDup locals /\ forall x, In x (shown locals) -> strip_quotes x = x
}.

(** Function [i] of a program is the one compiled from a query.  What it returns and the list of results are names of its own,
    the names the compiler makes are new, and the variables of the query are listed once. *)
Record query_of (p : prog) (i : nat) (f : fn str str) (N : qnames) (q : list placed) (more : list (option place * nop)) (locals : list str) : Prop := {
  qo_fn : nth_error (g_fns p) i = Some f;
  qo_code : n_blocks f = query_function N (n_result f) q more locals;
  qo_stays : existsb leaves (conditions q) = false;
  qo_result : own_name p i (conditions q) (q_result N);
  qo_return : own_name p i (conditions q) (n_result f);
  qo_new : NoDup (n_result f :: q_result N :: made N (length (expressions more q)));
  qo_made : forall x, In x (made N (length (expressions more q))) -> ~ reserved x;
  qo_apart : forall x, In x (used (expressions more q) (shown locals)) ->
    ~ In x (n_result f :: q_result N :: made N (length (expressions more q)));
  qo_locals : NoDup locals /\ forall x, In x (shown locals) -> strip_quotes x = x
}.
