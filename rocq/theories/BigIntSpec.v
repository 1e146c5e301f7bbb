(** Specification vocabulary for integers: the canonical decimal text of an integer, taken from Coq's own
    decimal printer ([DecimalString]), independent of the model. *)
From Coq Require Import String ZArith List Bool DecimalString DecimalZ.
From Verif Require Import Base.

(** Canonical decimal text of [z]: "0", "-12", "345"; no leading zeros, no "-0". *)
Definition dec (z : Z) : str := bytes_of (NilZero.string_of_int (Z.to_int z)).

Example dec_ex1 : dec 0 = $"0". Proof. reflexivity. Qed.
Example dec_ex2 : dec (-1203) = $"-1203". Proof. reflexivity. Qed.
