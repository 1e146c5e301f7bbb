(** Properties C01-C05: integer arithmetic.  [dec z] is Coq's canonical decimal text of [z]. *)
From Coq Require Import String ZArith List Bool Lia Permutation.
From Verif Require Import Base BigIntSpec BigIntModel BigIntProofs ValueModel ValueSpec ResolverModel ResolverProofs.
Import ListNotations.
Local Open Scope Z_scope.

(** C01: x + y, x - y and x * y are exact, at any size. *)
Theorem C01_add_exact : forall F x y, bi_plus F (VInt (dec x)) (VInt (dec y)) = Ok (RVal (VInt (dec (x + y)))).
Proof. exact plus_spec. Qed.
Theorem C01_sub_exact : forall F x y, bi_minus F (VInt (dec x)) (VInt (dec y)) = Ok (RVal (VInt (dec (x - y)))).
Proof. exact minus_spec. Qed.
Theorem C01_mul_exact : forall F x y, bi_times F (VInt (dec x)) (VInt (dec y)) = Ok (RVal (VInt (dec (x * y)))).
Proof. exact times_spec. Qed.
Example C01_example :
  bi_times fops0 (VInt $"99999999999999999999") (VInt $"-99999999999999999999") = Ok (RVal (VInt $"-9999999999999999999800000000000000000001")) /\
  bi_plus fops0 (VInt $"9999999999999999999") (VInt $"1") = Ok (RVal (VInt $"10000000000000000000")) /\
  bi_minus fops0 (VInt $"-5") (VInt $"-5") = Ok (RVal (VInt $"0")).
Proof. vm_compute. auto. Qed.
Print Assumptions C01_add_exact. Print Assumptions C01_sub_exact. Print Assumptions C01_mul_exact.

(** C02: a comparison of integers yields true exactly when the mathematical relation holds, false otherwise. *)
Theorem C02_compare_exact : forall F op x y,
  (zrel op x y -> bi_compare F op (VInt (dec x)) (VInt (dec y)) = Ok (RVal VTrue)) /\
  (~ zrel op x y -> bi_compare F op (VInt (dec x)) (VInt (dec y)) = Ok (RVal VFalse)).
Proof. exact compare_spec. Qed.
Example C02_example :
  bi_compare fops0 OpLt (VInt $"-100000000000000000000") (VInt $"-99999999999999999999") = Ok (RVal VTrue) /\
  bi_compare fops0 OpGe (VInt $"9") (VInt $"10") = Ok (RVal VFalse).
Proof. vm_compute. auto. Qed.
(** On text that is not canonical the comparison is not numeric: "-0" (which the JSON grammar admits) differs from "0". *)
Theorem C02_noncanonical_refuted : exists t u, is_int t = true /\ is_int u = true /\ zval t = zval u /\
  bi_compare fops0 OpEq (VInt t) (VInt u) = Ok (RVal VFalse).
Proof. exists ($"-0"), ($"0"). vm_compute. auto. Qed.
Print Assumptions C02_compare_exact.

(** C03: every expression tree of +, -, *, unary minus and abs evaluates to the canonical text of its value. *)
Theorem C03_expressions_canonical : forall F e, eval_iexpr F e = Ok (RVal (VInt (dec (zeval e)))).
Proof. exact eval_iexpr_spec. Qed.
(** Hence numerically equal results have the same identity (the same key), and different results a different one. *)
Theorem C03_equal_iff_same_key : forall F e1 e2 v1 v2,
  eval_iexpr F e1 = Ok (RVal v1) -> eval_iexpr F e2 = Ok (RVal v2) ->
  (zeval e1 = zeval e2 <-> to_key F v1 = to_key F v2).
Proof.
  intros F e1 e2 v1 v2 H1 H2. rewrite eval_iexpr_spec in H1, H2. injection H1 as <-. injection H2 as <-.
  cbn [to_key]. split; [congruence|apply DecFacts.dec_inj].
Qed.
Example C03_example :
  eval_iexpr fops0 (ISub (IMul (ILit 12) (INeg (ILit 12))) (INeg (ILit 144))) = Ok (RVal (VInt $"0")).
Proof. vm_compute. reflexivity. Qed.
Print Assumptions C03_expressions_canonical. Print Assumptions C03_equal_iff_same_key.

(** C04, full statement: forall x >= 0 and y > 0, x % y is [dec (x mod y)]; x % 0 is an error.
    Proved: the error; and exactness whenever no proper leading part of x's digits is divisible by y (or x < y). *)
Theorem C04_rem_zero_error : forall F x, bi_rem F (VInt (dec x)) (VInt (dec 0)) = Ok (RErr EvalBuiltInError).
Proof. exact rem_zero. Qed.
Theorem C04_rem_partial : forall F x y, y <> 0 ->
  (forall k, 0 < k -> 10 ^ k <= Z.abs x -> (Z.abs x / 10 ^ k) mod Z.abs y <> 0) \/ Z.abs x < Z.abs y ->
  bi_rem F (VInt (dec x)) (VInt (dec y)) = Ok (RVal (VInt (dec (Z.rem x y)))).
Proof. exact rem_spec. Qed.
Example C04_example : bi_rem fops0 (VInt $"12345678901234567891") (VInt $"-97") = Ok (RVal (VInt (dec (12345678901234567891 mod 97)))).
Proof. vm_compute. reflexivity. Qed.
(** Example of the hypothesis of [C04_rem_partial]: 25 % 7. *)
Example C04_hypothesis : (forall k, 0 < k -> 10 ^ k <= Z.abs 25 -> (Z.abs 25 / 10 ^ k) mod Z.abs 7 <> 0).
Proof.
  intros k Hk H. assert (k = 1).
  { destruct (Z.le_gt_cases 2 k); [|lia]. assert (10 ^ 2 <= 10 ^ k) by (apply Z.pow_le_mono_r; lia). simpl in *. lia. }
  subst. vm_compute. discriminate.
Qed.
(** The property fails: 105 % 10 is the text "05" and 70 % 7 violates an assertion (undefined in release builds). *)
Theorem C04_refuted :
  bi_rem fops0 (VInt (dec 105)) (VInt (dec 10)) = Ok (RVal (VInt $"05")) /\
  bi_rem fops0 (VInt (dec 70)) (VInt (dec 7)) = Ub.
Proof. vm_compute. auto. Qed.
Print Assumptions C04_rem_partial. Print Assumptions C04_rem_zero_error. Print Assumptions C04_refuted.

(** C05: sum and product of integers are exact ... *)
Theorem C05_sum_exact : forall F l,
  bi_sum F (VArray (ints l)) = Ok (RVal (VInt (dec (fold_right Z.add 0 l)))) /\
  bi_sum F (VSet (ints l)) = Ok (RVal (VInt (dec (fold_right Z.add 0 l)))).
Proof.
  intros F l. unfold bi_sum, elements. change ($"0") with (dec 0). rewrite acc_add.
  rewrite fold_symmetric; auto using Z.add_comm. intros; lia.
Qed.
Theorem C05_product_exact : forall F l,
  bi_product F (VArray (ints l)) = Ok (RVal (VInt (dec (fold_right Z.mul 1 l)))) /\
  bi_product F (VSet (ints l)) = Ok (RVal (VInt (dec (fold_right Z.mul 1 l)))).
Proof.
  intros F l. unfold bi_product, elements. change ($"1") with (dec 1). rewrite acc_mul.
  rewrite fold_symmetric; auto using Z.mul_comm. intros; lia.
Qed.
(** ... and independent of the order. *)
Theorem C05_order_independent : forall F l l', Permutation l l' ->
  bi_sum F (VArray (ints l)) = bi_sum F (VArray (ints l')) /\ bi_product F (VArray (ints l)) = bi_product F (VArray (ints l')).
Proof.
  intros F l l' P. rewrite (proj1 (C05_sum_exact F l)), (proj1 (C05_sum_exact F l')),
    (proj1 (C05_product_exact F l)), (proj1 (C05_product_exact F l')).
  split; do 4 f_equal; induction P; simpl; congruence || lia.
Qed.
Example C05_example : bi_sum fops0 (VArray (ints [9999999999999999999; 1; -3])) = Ok (RVal (VInt $"9999999999999999997")) /\
  bi_sum fops0 (VArray []) = Ok (RVal (VInt $"0")) /\ bi_product fops0 (VSet []) = Ok (RVal (VInt $"1")).
Proof. vm_compute. auto. Qed.
(** Outside integers: sum of a string and a number is the value false rather than an error or undefined. *)
Theorem C05_mixed_refuted : bi_sum fops0 (VArray [VString $"a"; VInt $"1"]) = Ok (RVal VFalse).
Proof. vm_compute. reflexivity. Qed.
Print Assumptions C05_sum_exact. Print Assumptions C05_product_exact. Print Assumptions C05_order_independent.
