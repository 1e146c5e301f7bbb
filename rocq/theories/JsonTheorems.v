(** JSON documents as values, and json.marshal, json.unmarshal, json.is_valid, json.marshal_with_options. *)
From Coq Require Import String ZArith List Bool Lia Sorted Permutation.
From Verif Require Import Base SMap BigIntSpec BigIntModel ValueModel ValueSpec ResolverModel VmModel StrModel StrSpec StrProofs
  EncModel EncSpec EncProofs EncTheorems JsonModel JsonSpec JsonProofs.
Import ListNotations.
Local Open Scope Z_scope.
Local Open Scope list_scope.

(** ** A library, to show that the hypotheses can be met *)
Fixpoint toy_enc (t : jtree) : str :=
  match t with
  | JNull => [0] | JTrue => [1] | JFalse => [2]
  | JNumber t => 3 :: Z.of_nat (length t) :: t
  | JString s => 4 :: Z.of_nat (length s) :: s
  | JArray l => 5 :: Z.of_nat (length l) :: flat_map toy_enc l
  | JObject l => 6 :: Z.of_nat (length l) :: flat_map (fun kt => (Z.of_nat (length (fst kt)) :: fst kt) ++ toy_enc (snd kt)) l
  end.
Definition toy_print (t : jtree) : str := match t with JString s => s | _ => toy_enc t end.
Definition toy_lib (docs : list jtree) : json_lib :=
  {| jl_print := toy_print; jl_pretty := fun indent t => toy_print t ++ [10] ++ indent ++ $"end"; jl_parse := fun s => find (fun t => str_eqb (toy_print t) s) docs; jl_text := json_ops0 |}.
Lemma app_len_inj {A} (a b r r' : list A) : length a = length b -> a ++ r = b ++ r' -> a = b /\ r = r'.
Proof. revert b. induction a as [ | x a IH ]; intros [ | y b ] L E; try discriminate L; [ auto | ]. injection E as -> E. injection L as L. destruct (IH _ L E) as [-> ->]. auto. Qed.
Lemma toy_cut : forall a b r r', toy_enc a ++ r = toy_enc b ++ r' -> a = b /\ r = r'.
Proof.
  apply (jtree_induction (fun a => forall b r r', toy_enc a ++ r = toy_enc b ++ r' -> a = b /\ r = r')).
  1-3: intros b r r' E; destruct b; cbn [toy_enc app] in E; try discriminate E; now injection E as ->.
  1-2: intros t b r r' E; destruct b; cbn [toy_enc app] in E; try discriminate E; injection E as El E; apply app_len_inj in E; [ destruct E as [-> ->]; auto | now apply Nat2Z.inj ].
  - intros l IH b r r' E. destruct b; cbn [toy_enc app] in E; try discriminate E. injection E as El E. apply Nat2Z.inj in El. revert l0 El E. induction IH as [ | x l Hx _ IHl ]; intros [ | y l0 ] El E; try discriminate El; [ auto | ].
    cbn [flat_map] in E. rewrite <- !app_assoc in E. apply Hx in E as [-> E]. injection El as El. destruct (IHl l0 El E) as [Q ->]. injection Q as ->. auto.
  - intros l IH b r r' E. destruct b; cbn [toy_enc app] in E; try discriminate E. injection E as El E. apply Nat2Z.inj in El. revert l0 El E. induction IH as [ | [k x] l Hx _ IHl ]; intros [ | [k' y] l0 ] El E; try discriminate El; [ auto | ].
    cbn [flat_map fst snd] in *. cbn [app] in E. rewrite <- !app_assoc in E. injection E as Ek E. apply app_len_inj in E as [-> E]; [ | now apply Nat2Z.inj ]. apply Hx in E as [-> E]. injection El as El. destruct (IHl l0 El E) as [Q ->]. injection Q as ->. auto.
Qed.
Lemma toy_apart docs : prints_apart (toy_lib docs).
Proof.
  assert (Q : forall q, readable (JString q) -> exists s, q = 34 :: s) by (intros q H; inversion H; eauto).
  intros a b Ra Rb E. cbn [jl_print toy_lib] in E. destruct a, b; cbn [toy_print] in E;
    try (destruct (Q _ Ra) as (s & ->); cbn [toy_enc] in E; discriminate E); try (destruct (Q _ Rb) as (s & ->); cbn [toy_enc] in E; discriminate E); try (now rewrite E);
    match goal with |- ?x = ?y => destruct (toy_cut x y [] []); [ rewrite ?app_nil_r; exact E | assumption ] end.
Qed.
Lemma toy_strings docs : prints_strings (toy_lib docs).
Proof. intros s. reflexivity. Qed.

(** ** C46: the value of a document *)

Theorem C46_read : forall t, readable t -> exists v, json_to_rego t = Some v /\ denotes t v /\ distinct_names v.
Proof. intros t R. destruct (read_spec t R) as (v & E & D). exists (dedup v). unfold json_to_rego. rewrite E. split; [ reflexivity | split; [ exact D | now apply denotes_distinct in D ] ]. Qed.
Print Assumptions C46_read.
Definition doc_ex : jtree :=
  JObject [($"a", JNumber $"1"); ($"b", JString (34 :: $"x" ++ [34])); ($"a", JObject [($"c", JNull); ($"c", JNumber $"-2.50e+3")]); ($"d", JArray [JTrue; JFalse])].
Example C46_read_ex : readable doc_ex /\
  json_to_rego doc_ex = Some (VObject [(VString $"b", VString $"x"); (VString $"a", VObject [(VString $"c", VFloat $"-2.50e+3")]); (VString $"d", VArray [VTrue; VFalse])]).
Proof.
  split; [ | reflexivity ].
  assert (I : int_number $"1") by (now apply int_re_spec). assert (Fl : float_number $"-2.50e+3") by (now apply float_re_spec).
  repeat first [ apply rd_object | apply rd_array | apply Forall_cons | apply Forall_nil | apply rd_null | apply rd_true | apply rd_false | apply (rd_string $"x") | apply rd_number; tauto ].
Qed.

Theorem C46_refused : forall t, json_to_rego t = None <-> bad_number t.
Proof. intros t. rewrite <- read_none. unfold json_to_rego. destruct (from_json t); cbn [option_map]; split; congruence. Qed.
Print Assumptions C46_refused.
(** Not every JSON number is in one of the two forms. *)
Theorem C46_exponents_refused : json_to_rego (JNumber $"1e5") = None /\ json_to_rego (JNumber $"1.5E3") = None /\ bad_number (JArray [JNumber $"1e5"]).
Proof. split; [ reflexivity | split; [ reflexivity | ] ]. apply bn_array with (JNumber $"1e5"); [ now left | ]. apply read_none. reflexivity. Qed.
Print Assumptions C46_exponents_refused.

(** ** C56: there and back *)

Lemma marshal_value L v t : (forall c, v <> VErr c) -> rego_to_json L v = Some t -> json_marshal L v = ok (to_text L (jl_print L t)).
Proof. intros N E. unfold json_marshal. rewrite E. destruct v; try reflexivity. now elim (N code). Qed.
Lemma text_back L s : json_ok (jl_text L) -> j_unescape (jl_text L) (strip_quotes (strip_quotes (strip_quotes (add_quotes (j_escape (jl_text L) s))))) = s.
Proof.
  intros (U & H & _). assert (P := json_text_plain _ (H s)). unfold add_quotes. rewrite P. rewrite strip_quoted. unfold strip_quotes at 1 2. rewrite P. rewrite P. apply U.
Qed.
Theorem C56_round_trip : forall L v t, json_ok (jl_text L) -> prints_strings L -> expressible v -> rego_to_json L v = Some t -> reads_back L t ->
  exists s v', json_marshal L v = ok s /\ json_unmarshal L s = ok v' /\ json_is_valid L s = ok VTrue /\ through_json v v'.
Proof.
  intros L v t J PS E T R. destruct (expressible_through L PS v E) as ((t' & w) & H1 & H2 & _ & H3). cbn [fst snd] in *. rewrite T in H1. injection H1 as <-.
  exists (to_text L (jl_print L t)), (dedup w). split; [ apply marshal_value; [ intros c ->; inversion E | exact T ] | ].
  unfold to_text, json_unmarshal, json_is_valid. rewrite (text_back L (jl_print L t) J), R. unfold json_to_rego. rewrite H2. cbn [option_map vbool]. auto.
Qed.
Print Assumptions C56_round_trip.
Corollary C56_equal : forall F L v t, json_ok (jl_text L) -> prints_strings L -> expressible v -> no_sets v -> rego_to_json L v = Some t -> reads_back L t ->
  exists s v', json_marshal L v = ok s /\ json_unmarshal L s = ok v' /\ veq F v v'.
Proof.
  intros F L v t J PS E N T R. destruct (C56_round_trip L v t J PS E T R) as (s & v' & M & U & _ & Th). exists s, v'. split; [ exact M | split; [ exact U | now apply through_veq ] ].
Qed.
Print Assumptions C56_equal.
Theorem C56_total : forall L v, prints_strings L -> expressible v -> exists t, rego_to_json L v = Some t /\ readable t.
Proof. intros L v PS E. now apply to_json_some. Qed.
Print Assumptions C56_total.
(** Equal sets and objects have one text, in whatever order their members are kept. *)
Theorem C56_canonical : forall L v v', prints_strings L -> prints_apart L -> expressible v -> reordered v v' -> json_marshal L v = json_marshal L v'.
Proof.
  intros L v v' PS PA E R. pose proof (reordered_json L PS PA v E v' R) as Q. destruct (to_json_some L PS v E) as (t & Et & _). rewrite Et in Q.
  rewrite (marshal_value L v t), (marshal_value L v' t); auto; intros c ->; [ discriminate Q | inversion E ].
Qed.
Print Assumptions C56_canonical.
(** json.unmarshal and json.is_valid on every operand: the text must parse, and its numbers must be in one of the two forms. *)
Theorem C56_unmarshal : forall L x,
  (forall s, x = VString (j_escape (jl_text L) s) -> json_ok (jl_text L) ->
    (forall t, jl_parse L s = Some t ->
      json_is_valid L x = ok VTrue /\
      (readable t -> exists v, json_unmarshal L x = ok v /\ denotes t v /\ distinct_names v) /\
      (bad_number t -> json_unmarshal L x = Ok (RErr EvalBuiltInError))) /\
    (jl_parse L s = None -> json_is_valid L x = ok VFalse /\ json_unmarshal L x = Ok (RErr EvalBuiltInError))) /\
  ((forall s, x <> VString s) -> json_is_valid L x = ok VFalse /\ json_unmarshal L x = Ok (RErr EvalTypeError)).
Proof.
  intros L x. split.
  - intros s -> (U & H & _). assert (P := json_text_plain _ (H s)). unfold json_unmarshal, json_is_valid.
    assert (E : j_unescape (jl_text L) (strip_quotes (strip_quotes (j_escape (jl_text L) s))) = s) by (unfold strip_quotes; rewrite P, P; apply U).
    rewrite E. split; [ intros t -> | intros -> ]; auto. split; [ reflexivity | ]. split.
    + intros R. destruct (C46_read t R) as (v & Ev & D). exists v. rewrite Ev. auto.
    + intros B. apply C46_refused in B. now rewrite B.
  - intros N. destruct x; cbn; auto. now elim (N t).
Qed.
Print Assumptions C56_unmarshal.
Example C56_unmarshal_ex : json_unmarshal (toy_lib [JNumber $"1e5"]) (VString $"1e5") = Ok (RErr EvalBuiltInError).
Proof. reflexivity. Qed.
Definition value_ex : value :=
  VObject [(VString $"b", VSet [VInt $"2"; VInt $"1"; VString $"x\""y"]); (VString $"a", VObject [(VString $"c", VFloat $"1.5"); (VString $"a", VNull)])].
Definition value_ex' : value :=
  VObject [(VString $"a", VObject [(VString $"a", VNull); (VString $"c", VFloat $"1.5")]); (VString $"b", VSet [VString $"x\""y"; VInt $"1"; VInt $"2"])].
Definition tree_ex : jtree := JObject [($"a", JObject [($"a", JNull); ($"c", JNumber $"1.5")]); ($"b", JArray [JNumber $"1"; JNumber $"2"; JString (34 :: $"x\""y" ++ [34])])].
Lemma value_ex_expressible : expressible value_ex.
Proof.
  assert (I1 : int_number $"1") by (now apply int_re_spec). assert (I2 : int_number $"2") by (now apply int_re_spec). assert (Fl : float_number $"1.5") by (now apply float_re_spec).
  apply (ex_object [($"b", VSet [VInt $"2"; VInt $"1"; VString $"x\""y"]); ($"a", VObject [(VString $"c", VFloat $"1.5"); (VString $"a", VNull)])]);
    [ repeat constructor; cbn [map fst In]; intuition discriminate | repeat constructor | ].
  constructor; [ | constructor; [ | constructor ] ].
  - constructor. repeat constructor; auto.
  - apply (ex_object [($"c", VFloat $"1.5"); ($"a", VNull)]); [ repeat constructor; cbn [map fst In]; intuition discriminate | repeat constructor | repeat constructor; auto ].
Qed.
Example C56_ex : json_ok (jl_text (toy_lib [tree_ex])) /\ prints_strings (toy_lib [tree_ex]) /\ prints_apart (toy_lib [tree_ex]) /\ expressible value_ex /\ reordered value_ex value_ex' /\
  rego_to_json (toy_lib [tree_ex]) value_ex = Some tree_ex /\ reads_back (toy_lib [tree_ex]) tree_ex.
Proof.
  split; [ apply json_ops0_ok | ]. split; [ apply toy_strings | ]. split; [ apply toy_apart | ]. split; [ apply value_ex_expressible | ]. split; [ | split; reflexivity ].
  assert (Sc : forall v, (forall l, v <> VArray l) -> (forall l, v <> VObject l) -> (forall l, v <> VSet l) -> reordered v v) by (intros; now apply ro_scalar).
  eapply ro_object; [ apply perm_swap | ]. constructor; [ split; [ reflexivity | ] | constructor; [ split; [ reflexivity | ] | constructor ] ]; cbn [snd].
  - eapply ro_object; [ apply perm_swap | ]. repeat (constructor; [ split; [ reflexivity | apply Sc; discriminate ] | ]). constructor.
  - eapply ro_set; [ apply (Permutation_rev [VInt $"2"; VInt $"1"; VString $"x\""y"]) | ]. repeat (constructor; [ apply Sc; discriminate | ]). constructor.
Qed.
(** Values that do not come back: the keys 1 and "1" have one name, and numbers printed with a bare exponent are refused. *)
Theorem C56_key_text_refuted : forall L, prints_strings L -> (forall n, jl_print L (JNumber n) = n) ->
  let v := VObject [(VInt $"1", VTrue); (VString $"1", VFalse)] in
  exists t, rego_to_json L v = Some t /\ json_to_rego t = Some (VObject [(VString $"1", VFalse)]).
Proof.
  intros L PS PN v. exists (JObject [($"1", JTrue); ($"1", JFalse)]). split; [ | reflexivity ]. unfold v. cbn [rego_to_json option_map].
  change (is_quoted $"1") with false. cbv iota. unfold add_quotes. change (is_quoted $"1") with false. cbv iota. rewrite PN, PS, strip_quoted. reflexivity.
Qed.
Print Assumptions C56_key_text_refuted.
Theorem C56_float_text_refuted : forall L, exists t, rego_to_json L (VFloat $"1e+40") = Some t /\ json_to_rego t = None.
Proof. intros L. exists (JNumber $"1e+40"). split; reflexivity. Qed.
Print Assumptions C56_float_text_refuted.

(** ** json.marshal_with_options *)
Theorem C56_options : forall L v t l pretty indent prefix, (forall c, v <> VErr c) -> rego_to_json L v = Some t -> json_ok (jl_text L) -> chosen l pretty indent prefix ->
  exists text, json_marshal_with_options L v (VObject l) = ok (VString (j_escape (jl_text L) text)) /\
    if pretty then with_prefix prefix (jl_pretty L indent t) text else text = jl_print L t.
Proof.
  intros L v t l pretty indent prefix N T J C. destruct (chosen_read _ _ _ _ C) as (o & E & E1 & E2 & E3).
  assert (X : forall s, to_text L s = VString (j_escape (jl_text L) s)).
  { intros s. unfold to_text, add_quotes. destruct J as (_ & H & _). rewrite (json_text_plain _ (H s)), strip_quoted. reflexivity. }
  exists (if pretty && negb (match prefix with [] => true | _ => false end) then prefixed prefix (if pretty then jl_pretty L indent t else jl_print L t) else if pretty then jl_pretty L indent t else jl_print L t).
  split.
  - rewrite <- X. unfold json_marshal_with_options. rewrite E, T, E1, E2, E3. destruct v; try reflexivity. now elim (N code).
  - destruct pretty; [ | reflexivity ]. destruct prefix as [ | c p ]; cbn [andb negb]; [ | apply prefixed_spec ].
    destruct (prefixed_spec [] (jl_pretty L indent t)) as (ls & P & _). exists ls. split; [ exact P | ]. rewrite map_id. symmetry. now apply pieces_join.
Qed.
Print Assumptions C56_options.
Example C56_options_ex : chosen [(VString $"prefix", VString $"# "); (VString $"indent", VString $"  ")] true $"  " $"# " /\
  json_marshal_with_options (toy_lib []) (VString $"x") (VObject [(VString $"prefix", VString $"# "); (VString $"indent", VString $"  ")]) =
    ok (VString ($"# \""x\""" ++ [10] ++ $"#   end")).
Proof.
  split; [ | reflexivity ]. split; [ repeat constructor; cbn [map fst In]; intuition discriminate | ]. split.
  { repeat constructor; cbn; intuition discriminate. }
  split; [ | split; [ left; right; now left | left; now left ] ]. split; [ intros _ | reflexivity ]. right. split; [ unfold given; cbn [In]; intuition discriminate | ].
  exists $"prefix", $"# ". split; [ right; now left | now left ].
Qed.
(** The texts of the options are used in their escaped form: a tab becomes a backslash and a t. *)
Theorem C56_option_text_refuted : json_marshal_with_options (toy_lib []) VNull (VObject [(VString $"indent", VString $"\t")]) = ok (VString ([0; 10] ++ $"\\tend")) /\
  unescaped ($"\\tend") = $"\tend".
Proof. split; reflexivity. Qed.
Print Assumptions C56_option_text_refuted.
