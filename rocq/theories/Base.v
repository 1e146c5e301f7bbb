(** Shared vocabulary: bytes, text, text comparison.
    A C++ [std::string] / [std::string_view] is a list of bytes, each a [Z] in [0,255]. *)
From Coq Require Import Ascii String ZArith List Bool Lia.
Import ListNotations.
Local Open Scope Z_scope.

Definition byte := Z.
Definition str := list byte.

(** Literals: [$ "abc"]. *)
Fixpoint bytes_of (s : string) : str :=
  match s with
  | EmptyString => []
  | String c s' => Z.of_N (N_of_ascii c) :: bytes_of s'
  end.
Notation "$ x" := (bytes_of x%string) (at level 8, x at level 0, only parsing).

Definition ch (c : ascii) : byte := Z.of_N (N_of_ascii c).

(** A list of bytes proper. *)
Definition is_byte (c : byte) : Prop := 0 <= c < 256.
Definition wf_str (s : str) : Prop := Forall is_byte s.

(** Equality of texts ([operator==] on [std::string], [string_view] and Trieste [Location]). *)
Fixpoint str_eqb (a b : str) : bool :=
  match a, b with
  | [], [] => true
  | x :: a', y :: b' => (x =? y) && str_eqb a' b'
  | _, _ => false
  end.

(** [operator<] on [std::string]: lexicographic on unsigned bytes, a proper prefix is smaller. *)
Fixpoint str_ltb (a b : str) : bool :=
  match a, b with
  | [], [] => false
  | [], _ :: _ => true
  | _ :: _, [] => false
  | x :: a', y :: b' => if x <? y then true else if y <? x then false else str_ltb a' b'
  end.

Lemma str_eqb_eq a b : str_eqb a b = true <-> a = b.
Proof.
  revert b; induction a as [|x a IH]; intros [|y b]; simpl; split; intro H; try congruence; try reflexivity.
  - apply andb_true_iff in H as [H1 H2]. apply Z.eqb_eq in H1. apply IH in H2. congruence.
  - inversion H; subst. rewrite Z.eqb_refl. simpl. apply IH; reflexivity.
Qed.

Lemma str_eqb_refl a : str_eqb a a = true.
Proof. apply str_eqb_eq; reflexivity. Qed.

Lemma str_eqb_neq a b : str_eqb a b = false <-> a <> b.
Proof.
  destruct (str_eqb a b) eqn:E.
  - apply str_eqb_eq in E. split; congruence.
  - split; intros _; auto. intro H; apply str_eqb_eq in H; congruence.
Qed.

Lemma str_eqb_sym a b : str_eqb a b = str_eqb b a.
Proof.
  destruct (str_eqb a b) eqn:E.
  - apply str_eqb_eq in E. subst. symmetry. apply str_eqb_refl.
  - symmetry. apply str_eqb_neq. apply str_eqb_neq in E. congruence.
Qed.

Lemma str_eq_dec (a b : str) : {a = b} + {a <> b}.
Proof. destruct (str_eqb a b) eqn:E; [left; now apply str_eqb_eq | right; now apply str_eqb_neq]. Defined.

Lemma str_ltb_irrefl a : str_ltb a a = false.
Proof. induction a as [|x a IH]; simpl; auto. rewrite Z.ltb_irrefl. exact IH. Qed.

Lemma str_ltb_trans a b c : str_ltb a b = true -> str_ltb b c = true -> str_ltb a c = true.
Proof.
  revert b c; induction a as [|x a IH]; intros [|y b] [|z c]; simpl; try congruence; auto.
  destruct (Z.ltb_spec x y), (Z.ltb_spec y x), (Z.ltb_spec y z), (Z.ltb_spec z y),
    (Z.ltb_spec x z), (Z.ltb_spec z x); try lia; try congruence; intros; eauto.
Qed.

Lemma str_ltb_asym a b : str_ltb a b = true -> str_ltb b a = false.
Proof.
  intro H. destruct (str_ltb b a) eqn:E; auto.
  pose proof (str_ltb_trans _ _ _ H E). rewrite str_ltb_irrefl in H0. congruence.
Qed.

Lemma str_ltb_total a b : str_ltb a b = false -> str_ltb b a = false -> a = b.
Proof.
  revert b; induction a as [|x a IH]; intros [|y b]; simpl; try congruence.
  destruct (Z.ltb_spec x y), (Z.ltb_spec y x); try congruence; try lia.
  intros H1 H2. assert (x = y) by lia. subst. f_equal. auto.
Qed.

Lemma str_ltb_trichotomy a b :
  (str_ltb a b = true /\ a <> b /\ str_ltb b a = false) \/
  (str_ltb a b = false /\ a = b /\ str_ltb b a = false) \/
  (str_ltb a b = false /\ a <> b /\ str_ltb b a = true).
Proof.
  destruct (str_ltb a b) eqn:E1, (str_ltb b a) eqn:E2.
  - apply str_ltb_asym in E1. congruence.
  - left. repeat split; auto. intros ->. rewrite str_ltb_irrefl in E1; congruence.
  - right; right. repeat split; auto. intros ->. rewrite str_ltb_irrefl in E2; congruence.
  - right; left. repeat split; auto. now apply str_ltb_total.
Qed.

(** C++ outcomes. [Ub] is undefined behaviour (or an assertion failure, which is undefined in release builds),
    [Throw] a C++ exception that leaves the function. *)
Inductive outcome (A : Type) : Type :=
| Ok (a : A)
| Throw
| Ub
| OutOfFuel.
Arguments Ok {A} a.
Arguments Throw {A}.
Arguments Ub {A}.
Arguments OutOfFuel {A}.

Definition obind {A B} (o : outcome A) (f : A -> outcome B) : outcome B :=
  match o with
  | Ok a => f a
  | Throw => Throw
  | Ub => Ub
  | OutOfFuel => OutOfFuel
  end.
Notation "'let!' x ':=' e 'in' f" := (obind e (fun x => f))
  (at level 200, x name, e at level 200, f at level 200, right associativity).
Notation "'let!' ' x ':=' e 'in' f" := (obind e (fun x => f))
  (at level 200, x strict pattern, e at level 200, f at level 200, right associativity).
