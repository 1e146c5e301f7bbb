(** C67: [to_number] gives the number that a text is. *)
From Coq Require Import String ZArith List Bool Lia.
From Verif Require Import Base BigIntModel BigIntSpec ValueModel ResolverModel VmModel TimeModel TimeSpec TimeProofs DurProofs ToNumModel ToNumSpec ToNumProofs.
Import ListNotations.
Local Open Scope Z_scope.
Local Open Scope list_scope.

(** Values other than strings: numbers stay, null and false are 0, true is 1, the rest has no number. *)
Theorem C67_scalars :
  (forall t, to_number (VInt t) = Ok (RVal (VInt t))) /\ (forall t, to_number (VFloat t) = Ok (RVal (VFloat t))) /\
  to_number VNull = Ok (RVal (VInt (dec 0))) /\ to_number VFalse = Ok (RVal (VInt (dec 0))) /\ to_number VTrue = Ok (RVal (VInt (dec 1))) /\
  (forall l, to_number (VArray l) = Ok (RErr EvalTypeError)) /\ (forall l, to_number (VObject l) = Ok (RErr EvalTypeError)) /\ (forall l, to_number (VSet l) = Ok (RErr EvalTypeError)).
Proof. repeat split. Qed.

(** A text of digits, however long, is that integer. *)
Theorem C67_integer : forall t, integer_text t -> to_number (VString t) = Ok (RVal (VInt t)).
Proof. intros t H. unfold to_number. now rewrite (integer_ok t H). Qed.
Theorem C67_roundtrip : forall z, to_number (VString (dec z)) = Ok (RVal (VInt (dec z))).
Proof. intro z. apply C67_integer, dec_integer. Qed.

(** Every decimal numeral that is 0 or from 10^-307 to 10^308, with any number of digits, gives a number with its sign that differs from it by no
    more than one part in 10^15. *)
Theorem C67_value : forall t sign mant exp, numeral t sign mant exp -> ordinary mant exp ->
  exists t' mant' exp', (to_number (VString t) = Ok (RVal (VInt t')) \/ to_number (VString t) = Ok (RVal (VFloat t'))) /\
    numeral t' sign mant' exp' /\ nearly mant exp mant' exp'.
Proof. exact value_ok. Qed.
(** -123.456e7 is such a numeral. *)
Example C67_value_meets : numeral $"-123.456e7" (-1) 123456 4 /\ ordinary 123456 4.
Proof.
  split; [|right; split; vm_compute; discriminate]. exists [45], $"123.456", $"e7", $"123", $"456", 7.
  split; [reflexivity|]. split; [constructor|]. split; [|split; [|split; reflexivity]].
  - apply (m_point $"123" $"456"); [split; [discriminate|]|]; apply digit_runb; reflexivity.
  - apply (e_plain 101 $"7"); [cbn; auto|]. split; [discriminate|]. apply digit_runb; reflexivity.
Qed.

(** A text gives the error "invalid syntax" exactly if no number begins it (after white space); "-" and texts that start with a quote are left out. *)
Theorem C67_refused : forall t, (forall r, t <> 34 :: r) -> t <> $"-" -> (to_number (VString t) = Ok (RErr EvalBuiltInError) <-> ~ begins_number t).
Proof. exact refused. Qed.
Example C67_refused_meets : to_number (VString $"abc") = Ok (RErr EvalBuiltInError) /\ begins_number $" -.5x".
Proof. split; [reflexivity|]. exists $" ", $"-", $".5", $"x". split; [reflexivity|]. split; [repeat constructor; lia|]. split; [cbn; auto|]. apply (o_point 53). unfold digit_char. lia. Qed.

(** ** What fails *)

(** A number need not come back as it was written, though four digits are few: 9.95 becomes 9.949999999999999. *)
Theorem C67_exact_refuted : ~ forall t sign mant exp, numeral t sign mant exp -> ordinary mant exp -> mant < 10 ^ 15 ->
  exists t' mant' exp', (to_number (VString t) = Ok (RVal (VInt t')) \/ to_number (VString t) = Ok (RVal (VFloat t'))) /\
    numeral t' sign mant' exp' /\ (let '(n, d) := ratio mant exp in let '(n', d') := ratio mant' exp' in n * d' = n' * d).
Proof.
  intro H. destruct (H $"9.95" 1 995 (-2)) as (t' & m' & e' & T & Nu & V).
  - exists [], $"9.95", [], $"9", $"95", 0. split; [reflexivity|]. split; [constructor|]. split; [|split; [constructor|split; reflexivity]].
    apply (m_point $"9" $"95"); [split; [discriminate|]|]; apply digit_runb; reflexivity.
  - right. split; vm_compute; discriminate.
  - reflexivity.
  - assert (E : to_number (VString $"9.95") = Ok (RVal (VFloat $"9.949999999999999"))) by (vm_compute; reflexivity).
    rewrite E in T. clear E. destruct T as [T|T]; [discriminate T|]. injection T as <-.
    assert (W : m' = 9949999999999999 /\ e' = -15).
    { destruct Nu as (g & ms & es & i & f & x & Eq & G & M & Ex & -> & ->). assert (g = []) as -> by (inversion G; reflexivity). cbn [app] in Eq.
      pose proof (scan_mantissa_then _ _ _ _ _ M Ex) as Sm. rewrite <- Eq in Sm. vm_compute in Sm. injection Sm as <- <- <-. inversion Ex. subst x. split; reflexivity. }
    destruct W as [-> ->]. vm_compute in V. discriminate V.
Qed.
(** Text after the number is ignored; hexadecimal is read. *)
Theorem C67_prefix_refuted : to_number (VString $"12abc") = Ok (RVal (VInt $"12")) /\ to_number (VString $"0x10") = Ok (RVal (VInt $"16")).
Proof. split; vm_compute; reflexivity. Qed.
(** "-" gives an Int whose text is no integer; so do numbers in scientific notation. *)
Theorem C67_int_refuted : ~ forall t t', to_number (VString t) = Ok (RVal (VInt t')) -> integer_text t'.
Proof.
  intro H. assert (I : is_int $"1e+20" = true).
  { apply integer_ok. apply (H $"1e20"). vm_compute. reflexivity. }
  discriminate I.
Qed.
Theorem C67_minus_refuted : ~ forall t t', to_number (VString t) = Ok (RVal (VInt t')) -> exists c, In c t' /\ digit_char c.
Proof.
  intro H. destruct (H $"-" $"-" ltac:(reflexivity)) as (c & [<-|[]] & C). apply digit_iff in C. discriminate C.
Qed.
(** A number out of range is no error but an exception that leaves the builtin. *)
Theorem C67_range_refuted : ~ forall t, exists r, to_number (VString t) = Ok r.
Proof. intro H. destruct (H $"1e400") as [r E]. vm_compute in E. discriminate E. Qed.

Print Assumptions C67_scalars.
Print Assumptions C67_integer.
Print Assumptions C67_roundtrip.
Print Assumptions C67_value.
Print Assumptions C67_refused.
Print Assumptions C67_exact_refuted.
Print Assumptions C67_prefix_refuted.
Print Assumptions C67_int_refuted.
Print Assumptions C67_minus_refuted.
Print Assumptions C67_range_refuted.
