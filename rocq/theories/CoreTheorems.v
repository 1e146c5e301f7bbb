(** C40: [walk] enumerates every sub-value with its path.  C48: [sprintf] reads its format without loss and takes its arguments from
    the left. *)
From Coq Require Import String ZArith List Bool Lia Arith Permutation.
From Verif Require Import Base BigIntSpec BigIntModel DecFacts BigIntProofs SMap SMapFacts ValueModel ValueSpec ResolverModel VmModel
  StrModel StrSpec StrProofs CoreModel CoreSpec CoreProofs.
Import ListNotations.
Local Open Scope Z_scope.
Local Open Scope list_scope.

Theorem C40_walk : forall x, exists L n,
  (forall fuel, (n <= fuel)%nat -> walk fuel x = Ok (RVal (VArray (map (fun pv => VArray [VArray (fst pv); snd pv]) L)))) /\
  (forall p v, In (p, v) L <-> at_path x p v) /\
  (proper x -> NoDup (map fst L)).
Proof.
  intro x. destruct (walk_loop_spec (length (subs x)) [([], x)]) as (L & E & P).
  { cbn [map concat]. rewrite app_nil_r. unfold all. rewrite map_length. cbn [snd]. lia. }
  assert (A : concat (map all [([], x)]) = subs x).
  { cbn [map concat]. rewrite app_nil_r. unfold all. cbn [fst snd app]. rewrite <- map_id. apply map_ext. now intros []. }
  rewrite A in P. exists L, (length (subs x)). split; [|split].
  - intros fuel B. unfold walk. rewrite (walk_more _ _ _ E fuel B). reflexivity.
  - intros p v. rewrite <- in_subs. split; apply Permutation_in; [exact P|now apply Permutation_sym].
  - intro H. apply proper_simple, nodup_subs in H. eapply Permutation_NoDup; [|exact H]. apply Permutation_map. now apply Permutation_sym.
Qed.
Definition demo_tree : value := VObject [(VString $"a", VArray [VInt $"7"; VSet [VTrue; VNull]]); (VString $"b", VArray [])].
Example C40_example : proper demo_tree /\
  walk 9 demo_tree = Ok (RVal (VArray [
    VArray [VArray []; demo_tree];
    VArray [VArray [VString $"a"]; VArray [VInt $"7"; VSet [VTrue; VNull]]];
    VArray [VArray [VString $"b"]; VArray []];
    VArray [VArray [VString $"a"; VInt $"0"]; VInt $"7"];
    VArray [VArray [VString $"a"; VInt $"1"]; VSet [VTrue; VNull]];
    VArray [VArray [VString $"a"; VInt $"1"; VTrue]; VTrue];
    VArray [VArray [VString $"a"; VInt $"1"; VNull]; VNull]])).
Proof.
  split; [|reflexivity]. intros p v H. apply in_subs in H. cbn in H.
  decompose [or] H; try contradiction; match goal with E : (_, _) = (_, _) |- _ => injection E as <- <- end; auto;
    repeat constructor; cbn; intuition discriminate.
Qed.

(** Every format has exactly one reading as literals and directives, and the parts of the reading put together are the format. *)
Theorem C48_reading : forall f, exists! l, spelled l f.
Proof.
  intro f. destruct (spelled_exists f) as (l & H). exists l. split; auto. intros l' H'. eapply spelled_unique; eauto.
Qed.
Definition item_text (i : item) : str :=
  match i with ILit t => t | IDir fl c => [37] ++ fl ++ [c] | ICut fl => [37] ++ fl end.
Theorem C48_lossless : forall l f, spelled l f -> concat (map item_text l) = f.
Proof.
  induction 1 as [|t Nt Np|t fl Np F|t fl c l f Np F Nc H IH]; cbn [map concat item_text app]; auto.
  - apply app_nil_r.
  - now rewrite app_nil_r.
  - rewrite IH, <- app_assoc. reflexivity.
Qed.
(** The result is the concatenation of what the parts print; literals print themselves, %% a percent sign, and each verb the next
    argument.  Arguments that are left over are ignored. *)
Theorem C48_sprintf_partial : forall P f l args rest out, spelled l f -> printed P l args rest out ->
  sprintf P (VString f) (VArray args) = Ok (RVal (mkstr out)) /\ sprintf P (VString f) (VSet args) = Ok (RVal (mkstr out)).
Proof.
  intros P f l args rest out S H. assert (E : parse_format f = Ok (map verb_item l)).
  { unfold parse_format. rewrite find0_from. apply (parse_loop_spec l f S []). unfold str, byte in *. lia. }
  unfold sprintf. rewrite E. cbn [obind]. pose proof (print_spec P l args rest out H [] []) as R. rewrite app_nil_r in R. rewrite R.
  split; reflexivity.
Qed.
(** It is an error when the arguments run out, and when %d meets an argument that is not an integer or %f one that is no number. *)
Definition badly_typed (c : Z) (a : value) : Prop :=
  (In c $"dxXoO" /\ forall z, a = VInt (dec z) -> ~ (- 2 ^ 63 <= z < 2 ^ 63)) \/ (In c $"eEfFgG" /\ forall t, a <> VInt t /\ a <> VFloat t).
Theorem C48_errors_partial : forall P f l1 fl c l2 args rest out, spelled (l1 ++ IDir fl c :: l2) f -> printed P l1 args rest out ->
  takes_arg c ->
  (rest = [] \/ exists a rest', rest = a :: rest' /\ badly_typed c a /\ (forall t, a = VInt t -> exists z, t = dec z)) ->
  sprintf P (VString f) (VArray args) = Ok (RErr EvalTypeError).
Proof.
  intros P f l1 fl c l2 args rest out S H T R. assert (E : parse_format f = Ok (map verb_item (l1 ++ IDir fl c :: l2))).
  { unfold parse_format. rewrite find0_from. apply (parse_loop_spec _ f S []). unfold str, byte in *. lia. }
  unfold sprintf. rewrite E. cbn [obind]. rewrite map_app. rewrite (print_spec P l1 args rest out H). cbn [map verb_item].
  pose proof (takes_verb c ([37] ++ fl ++ [c]) T) as NL.
  destruct R as [->|(a & rest' & -> & B & W)].
  - destruct (verb_of c ([37] ++ fl ++ [c])) eqn:V; try (now elim (NL t)); reflexivity.
  - assert (A : print_arg P (verb_of c ([37] ++ fl ++ [c])) a = Ok (inr (RErr EvalTypeError))).
    { destruct B as [[I B]|[I B]]; cbn in I; decompose [or] I; subst; try contradiction;
        match goal with |- print_arg P (verb_of ?c ?t) _ = _ =>
          first [change (verb_of c t) with (PInteger t)|change (verb_of c t) with (PDouble t)] end; cbn [print_arg];
        destruct a as [| | |t|t|t|t|t|t|t]; try reflexivity;
        try (destruct (W t eq_refl) as (z & ->); rewrite bi_to_int_spec; unfold int64_min, int64_max;
             destruct (Z.leb_spec (-9223372036854775808) z); cbn [andb]; [|reflexivity];
             destruct (Z.leb_spec z 9223372036854775807); [|reflexivity]; elim (B z eq_refl); lia);
        destruct (B t) as [B1 B2]; congruence. }
    destruct (verb_of c ([37] ++ fl ++ [c])) eqn:V; try (now elim (NL t)); cbn [print_verbs]; rewrite A; reflexivity.
Qed.
(** The verb %b throws an exception whatever its argument. *)
Theorem C48_binary_refuted : forall P f l1 fl l2 args a rest out, spelled (l1 ++ IDir fl 98 :: l2) f -> printed P l1 args (a :: rest) out ->
  sprintf P (VString f) (VArray args) = Throw.
Proof.
  intros P f l1 fl l2 args a rest out S H. assert (E : parse_format f = Ok (map verb_item (l1 ++ IDir fl 98 :: l2))).
  { unfold parse_format. rewrite find0_from. apply (parse_loop_spec _ f S []). unfold str, byte in *. lia. }
  unfold sprintf. rewrite E. cbn [obind]. rewrite map_app. rewrite (print_spec P l1 args (a :: rest) out H). reflexivity.
Qed.

Definition print0 : print_ops := {|
  p_raw := fun v => match v with VString t => t | VInt t => t | _ => [] end;
  p_value := fun v => match v with VInt t => t | _ => $"?" end;
  p_int := fun _ z => dec z;
  p_double := fun _ _ => $"1.0"
|}.
Example C48_example :
  spelled [ILit $"a"; IDir [] 115; ILit $"="; IDir $"05" 100; ILit []; IDir [] 37; ILit $" "; ICut $"3"] $"a%s=%05d%% %3" /\
  printed print0 [ILit $"a"; IDir [] 115; ILit $"="; IDir $"05" 100; ILit []; IDir [] 37; ILit $" "; ICut $"3"]
    [VString $"x"; VInt (dec 42); VNull] [VNull] $"ax=42% %3" /\
  sprintf print0 (VString $"a%s=%05d%% %3") (VArray [VString $"x"; VInt $"42"; VNull]) = Ok (RVal (VString $"ax=42% %3")) /\
  sprintf print0 (VString $"%s %s") (VArray [VString $"x"]) = Ok (RErr EvalTypeError).
Proof.
  assert (F : forall c, flag_char c = false -> ~ is_flag c) by (intros c E I; apply flag_iff in I; congruence).
  assert (Fl : forall l, forallb flag_char l = true -> Forall is_flag l).
  { intros l E. apply Forall_forall. intros c I. apply flag_iff. rewrite forallb_forall in E. auto. }
  split; [|split; [|split; reflexivity]].
  - apply (sp_dir $"a" [] 115 _ $"=%05d%% %3"); [cbn; intuition discriminate|constructor|now apply F|].
    apply (sp_dir $"=" $"05" 100 _ $"%% %3"); [cbn; intuition discriminate|now apply Fl|now apply F|].
    apply (sp_dir [] [] 37 _ $" %3"); [cbn; intuition discriminate|constructor|now apply F|].
    apply (sp_cut $" " $"3"); [cbn; intuition discriminate|now apply Fl].
  - apply (pr_lit _ $"a" _ _ _ $"x=42% %3"). apply (pr_arg _ [] 115 _ $"x"); [cbn; tauto|apply (sh_raw print0 [] (VString $"x"))|].
    apply (pr_lit _ $"=" _ _ _ $"42% %3"). apply (pr_arg print0 $"05" 100 _ (dec 42)); [cbn; tauto|apply (sh_int print0 $"05" 100 42); [cbn; tauto|lia]|].
    apply (pr_lit _ [] _ _ _ $"% %3"). apply (pr_percent _ [] _ _ _ $" %3"). apply (pr_lit _ $" " _ _ _ $"%3").
    apply (pr_cut _ $"3" _ _ _ []). constructor.
Qed.

Print Assumptions C40_walk.
Print Assumptions C48_reading.
Print Assumptions C48_lossless.
Print Assumptions C48_sprintf_partial.
Print Assumptions C48_errors_partial.
Print Assumptions C48_binary_refuted.
