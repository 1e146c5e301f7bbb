(** The standard library's names (C57) and the registry of builtins (C44). *)
From Coq Require Import String ZArith List Bool Lia.
From Verif Require Import Base ValueModel ValueSpec ResolverModel DispatchModel DispatchSpec DispatchProofs RegistryModel RegistrySpec RegistryProofs.
Import ListNotations.
Local Open Scope Z_scope.
Local Open Scope list_scope.

(** ** C57 *)

(** Every name of the standard library leads to its builtin, with its number of arguments. *)
Theorem C57_standard : forall name arity, In (name, arity) standard -> exists b, lookup name = Ok (Some b) /\ b_arity b = arity /\ created_as name (b_name b).
Proof.
  intros name arity I. pose proof all_found as F. rewrite forallb_forall in F. apply F in I. unfold found in I. cbn [fst snd] in I.
  destruct (lookup name) as [[b|]| | | ]; try discriminate. apply andb_true_iff in I. destruct I as [A C]. apply Z.eqb_eq in A. exists b. split; [ reflexivity | ]. split; [ exact A | now apply created_asb_iff ].
Qed.
Print Assumptions C57_standard.
(** No other name leads to a builtin, some odd names apart. *)
Theorem C57_unknown_partial : forall name, ~ In name (map fst standard) -> ~ odd_name name -> lookup name = Ok None.
Proof. exact lookup_unknown. Qed.
Print Assumptions C57_unknown_partial.
Theorem C57_distinct : NoDup (map fst standard).
Proof.
  assert (D : forall l, (fix d (l : list str) := match l with [] => true | n :: l => negb (mem_name l n) && d l end) l = true -> NoDup l).
  { induction l as [ | n l IH ]; intros H; [ constructor | ]. apply andb_true_iff in H. destruct H as [A B]. constructor; [ | auto ]. intros I. apply mem_name_iff in I. rewrite I in A. discriminate. }
  apply D. vm_compute. reflexivity.
Qed.
Print Assumptions C57_distinct.
Example C57_ex : lookup $"trim_prefix" = Ok (Some (bi $"trim_prefix" 2)) /\ lookup $"json.patch" = Ok (Some (bi $"json.patch" 2)) /\ lookup $"json.patches" = Ok None /\
  ~ In $"json.patches" (map fst standard) /\ ~ odd_name $"json.patches".
Proof.
  split; [ reflexivity | ]. split; [ reflexivity | ]. split; [ reflexivity | ]. split; [ intros I; apply known_iff in I; discriminate | ].
  intros [E | [E | (p & r & I & E)]]; try discriminate. cbn [In] in I. repeat (destruct I as [<- | I]; [ discriminate E | ]). destruct I.
Qed.
(** The odd names: aliases, exceptions and undefined behaviour. *)
Theorem C57_unknown_refuted :
  (lookup $"io.xyz.decode" = Ok (Some (bi $"io.jwt.decode" 1)) /\ lookup $"providers.xyz.sign_req" = Ok (Some (bi $"providers.aws.sign_req" 3)) /\
   lookup $"crypto.hmac.parse_private_keys" = Ok (Some (bi $"crypto.parse_private_keys" 1)) /\ lookup $"crypto.hmac.x509.parse_keypair" = Ok (Some (bi $"crypto.x509.parse_keypair" 2))) /\
  (lookup $"io.file" = Ok None /\ lookup $"io.put" = Throw /\ lookup $"providers.gcp" = Throw /\ lookup $"crypto.hash" = Throw /\ forall rest, ~ In rest [$"parse"; $"rfc4122"] -> lookup ($"uuid." ++ rest) = Throw) /\
  (lookup [] = Ub /\ lookup $"crypto." = Ub /\ forall rest, lookup ($"." ++ rest) = Ub).
Proof.
  split; [ repeat split; reflexivity | ]. split.
  - split; [ reflexivity | ]. split; [ reflexivity | ]. split; [ reflexivity | ]. split; [ reflexivity | ]. intros rest N.
    change (lookup ($"uuid." ++ rest)) with (m_uuid ($"uuid." ++ rest)). unfold m_uuid. rewrite (skip_app $"uuid." rest 5 eq_refl). cbn [obind].
    destruct (str_eqb rest $"parse") eqn:E; [ apply str_eqb_eq in E; subst; elim N; cbn; auto | ]. destruct (str_eqb rest $"rfc4122") eqn:E2; [ apply str_eqb_eq in E2; subst; elim N; cbn; auto | reflexivity ].
  - split; [ reflexivity | ]. split; [ reflexivity | ]. intros rest. reflexivity.
Qed.
Print Assumptions C57_unknown_refuted.

(** ** C44 *)

(** What a name means depends on the last policy and on the registrations since then, not on what was asked or called before. *)
Theorem C44_meaning : forall std h s name, run std h new_registry = Ok s ->
  meaning std h name (result (at_name std name s)) /\ forall o, meaning std h name o -> o = result (at_name std name s).
Proof. intros std h s name R. apply run_new in R. split; [ now apply at_meaning | intros o M; now apply (meaning_unique std h) ]. Qed.
Print Assumptions C44_meaning.
(** A builtin runs once, with the arguments, when it is available and accepts the call. *)
Theorem C44_runs : forall std h s name args b f strict, run std h new_registry = Ok s -> meaning std h name (Ok (Some b)) -> strict_after h strict ->
  bu_body b = Runs f -> accepts b name args ->
  result (call std name args s) = let! r := f args in Ok (match r with RErr c => if strict then RErr c else RUndef | _ => r end, [(bu_name b, args)]).
Proof.
  intros std h s name args b f strict R M St B (D & Ar & Er). apply run_new in R. apply (meaning_unique std h s name _ R) in M. unfold call, result in *.
  destruct (at_name std name s) as [[s1 o]| | | ] eqn:A; cbn [obind fst snd] in *; try discriminate. injection M as <-.
  assert (X : mem_name deprecated name = false) by (destruct (mem_name deprecated name) eqn:Q; [ now apply mem_name_iff in Q | reflexivity ]). rewrite X.
  assert (Y : match bu_arity b with None => false | Some n => negb (n =? Z.of_nat (length args)) end = false) by (destruct Ar as [-> | ->]; [ reflexivity | now rewrite Z.eqb_refl ]). rewrite Y.
  apply error_arg_none in Er. rewrite Er, B. pose proof (at_inv std h s name s1 _ R A) as I1. apply (inv_strict _ _ _ I1) in St. subst strict.
  destruct (f args) as [[v| |c]| | | ]; reflexivity.
Qed.
Print Assumptions C44_runs.
(** Otherwise nothing runs, and the call is an error or undefined. *)
Theorem C44_never_runs : forall std h s name args m, run std h new_registry = Ok s -> meaning std h name m ->
  (forall b f, m = Ok (Some b) -> bu_body b = Runs f -> ~ accepts b name args) ->
  forall r ev, result (call std name args s) = Ok (r, ev) -> ev = [] /\ ((exists c, r = RErr c) \/ r = RUndef).
Proof.
  intros std h s name args m R M N r ev E. apply run_new in R. apply (meaning_unique std h s name _ R) in M. unfold call, result in *.
  destruct (at_name std name s) as [[s1 o]| | | ] eqn:A; cbn [obind fst snd] in *; try discriminate. subst m.
  assert (P : forall c q, err_at args c = Ok q -> snd q = [] /\ exists c, fst q = RErr c) by (intros c q; destruct args; cbn; [ discriminate | intros Q; injection Q as <-; split; [ reflexivity | now exists c ] ]).
  destruct o as [b|].
  - destruct (mem_name deprecated name) eqn:D.
    { destruct (err_at args RegoTypeError) as [q| | | ] eqn:Q; try discriminate. cbn [obind snd] in E. injection E as E. apply P in Q. rewrite E in Q. cbn [fst snd] in Q. tauto. }
    destruct (match bu_arity b with None => false | Some n => negb (n =? Z.of_nat (length args)) end) eqn:Ar.
    { destruct (err_at args WellFormedError) as [q| | | ] eqn:Q; try discriminate. cbn [obind snd] in E. injection E as E. apply P in Q. rewrite E in Q. cbn [fst snd] in Q. tauto. }
    destruct (error_arg args) as [c|] eqn:Er.
    { cbn [obind snd] in E. injection E as <- <-. eauto. }
    destruct (bu_body b) as [f | ] eqn:B.
    + elim (N b f eq_refl B). split; [ intros I; apply mem_name_iff in I; congruence | ]. split; [ | now apply error_arg_none ].
      destruct (bu_arity b) as [n|]; [ right | now left ]. apply negb_false_iff, Z.eqb_eq in Ar. now subst.
    + cbn [obind snd relax] in E. destruct (r_strict s1); injection E as <- <-; eauto.
  - destruct (err_at args WellFormedError) as [q| | | ] eqn:Q; try discriminate. cbn [obind snd] in E. injection E as E. apply P in Q. rewrite E in Q. cbn [fst snd] in Q. tauto.
Qed.
Print Assumptions C44_never_runs.
(** A builtin that the policy forbids, or that is a placeholder, is an error with strict errors and undefined without. *)
Theorem C44_unavailable : forall std h s name args b strict, run std h new_registry = Ok s -> meaning std h name (Ok (Some b)) -> strict_after h strict ->
  bu_body b = NotAvailable -> accepts b name args -> result (call std name args s) = Ok (if strict then RErr EvalBuiltInError else RUndef, []).
Proof.
  intros std h s name args b strict R M St B (D & Ar & Er). apply run_new in R. apply (meaning_unique std h s name _ R) in M. unfold call, result in *.
  destruct (at_name std name s) as [[s1 o]| | | ] eqn:A; cbn [obind fst snd] in *; try discriminate. injection M as <-.
  assert (X : mem_name deprecated name = false) by (destruct (mem_name deprecated name) eqn:Q; [ now apply mem_name_iff in Q | reflexivity ]). rewrite X.
  assert (Y : match bu_arity b with None => false | Some n => negb (n =? Z.of_nat (length args)) end = false) by (destruct Ar as [-> | ->]; [ reflexivity | now rewrite Z.eqb_refl ]). rewrite Y.
  apply error_arg_none in Er. rewrite Er, B. pose proof (at_inv std h s name s1 _ R A) as I1. apply (inv_strict _ _ _ I1) in St. subst strict. cbn [obind snd relax]. destruct (r_strict s1); reflexivity.
Qed.
Print Assumptions C44_unavailable.
(** With arguments, a call of a name with a meaning always comes back. *)
Theorem C44_total : forall std h s name args ob, run std h new_registry = Ok s -> meaning std h name (Ok ob) -> args <> [] ->
  (forall b f, ob = Some b -> bu_body b = Runs f -> exists r, f args = Ok r) -> exists r, result (call std name args s) = Ok r.
Proof.
  intros std h s name args ob R M A T. apply run_new in R. apply (meaning_unique std h s name _ R) in M. unfold call, result in *.
  destruct (at_name std name s) as [[s1 o]| | | ]; cbn [obind fst snd] in *; try discriminate. injection M as <-. assert (P : forall c, err_at args c = Ok (RErr c, [])) by (intros c; destruct args; [ now elim A | reflexivity ]).
  destruct ob as [b|]; rewrite ?P; cbn [obind snd]; eauto. destruct (mem_name deprecated name); cbn [obind snd]; eauto. match goal with |- context [if ?c then _ else _] => destruct c end; cbn [obind snd]; eauto.
  destruct (error_arg args); cbn [obind snd]; eauto. destruct (bu_body b) as [f|] eqn:B; cbn [obind snd]; eauto. destruct (T b f eq_refl B) as (r & E). rewrite E. cbn [obind snd]. eauto.
Qed.
Print Assumptions C44_total.
(** What a call that is refused reports: an unknown name, a deprecated one, a wrong number of arguments, or the first argument that is an error. *)
Theorem C44_refused : forall std h s name args ob, run std h new_registry = Ok s -> meaning std h name (Ok ob) -> args <> [] ->
  (ob = None -> result (call std name args s) = Ok (RErr WellFormedError, [])) /\
  (forall b, ob = Some b ->
    (In name deprecated -> result (call std name args s) = Ok (RErr RegoTypeError, [])) /\
    (~ In name deprecated -> (exists n, bu_arity b = Some n /\ n <> Z.of_nat (length args)) -> result (call std name args s) = Ok (RErr WellFormedError, [])) /\
    (~ In name deprecated -> (bu_arity b = None \/ bu_arity b = Some (Z.of_nat (length args))) ->
      forall a1 c a2, args = a1 ++ VErr c :: a2 -> (forall c', ~ In (VErr c') a1) -> result (call std name args s) = Ok (RErr c, []))).
Proof.
  intros std h s name args ob R M A. apply run_new in R. apply (meaning_unique std h s name _ R) in M. unfold call, result in *.
  destruct (at_name std name s) as [[s1 o]| | | ]; cbn [obind fst snd] in *; try discriminate. injection M as <-. assert (P : forall c, err_at args c = Ok (RErr c, [])) by (intros c; destruct args; [ now elim A | reflexivity ]).
  split; [ intros ->; now rewrite P | ]. intros b ->.
  assert (D : ~ In name deprecated -> mem_name deprecated name = false) by (intros N; destruct (mem_name deprecated name) eqn:Q; [ now apply mem_name_iff in Q | reflexivity ]).
  split; [ | split ].
  - intros I. apply mem_name_iff in I. rewrite I, P. reflexivity.
  - intros N (n & -> & Nn). rewrite (D N). apply Z.eqb_neq in Nn. rewrite Nn, P. reflexivity.
  - intros N Ar a1 c a2 -> Na. rewrite (D N).
    replace (match bu_arity b with None => false | Some n => negb (n =? Z.of_nat (length (a1 ++ VErr c :: a2))) end) with false by (destruct Ar as [-> | ->]; [ reflexivity | now rewrite Z.eqb_refl ]).
    replace (error_arg (a1 ++ VErr c :: a2)) with (Some c); [ reflexivity | ]. clear -Na. induction a1 as [ | x a1 IH ]; [ reflexivity | ]. cbn [app error_arg].
    destruct x; try (apply IH; intros c' I; apply (Na c'); now right). elim (Na code). now left.
Qed.
Print Assumptions C44_refused.
(** The standard library under a name of the standard list: what the build makes available runs, the rest is a placeholder. *)
Theorem C44_library : forall available impl name arity, In (name, arity) standard -> exists b n, library available impl name = Ok (Some b) /\ created_as name n /\ bu_name b = n /\ bu_arity b = Some arity /\
  (available n = true -> bu_body b = Runs (impl n)) /\ (available n = false -> bu_body b = NotAvailable).
Proof.
  intros available impl name arity I. destruct (C57_standard name arity I) as (b & E & A & C). unfold library. rewrite E. cbn [obind]. eexists _, (b_name b).
  split; [ reflexivity | ]. cbn [bu_name bu_arity bu_body]. rewrite A. split; [ exact C | ]. split; [ reflexivity | ]. split; [ reflexivity | ]. split; intros ->; reflexivity.
Qed.
Print Assumptions C44_library.
(** The question whether a builtin is available has the right answer. *)
Theorem C44_available : forall std h s name ob, run std h new_registry = Ok s -> meaning std h name (Ok ob) ->
  result (is_builtin std name s) = Ok (match ob with Some _ => true | None => false end) /\
  exists a, result (is_available std name s) = Ok a /\ (a = true <-> exists b f, ob = Some b /\ bu_body b = Runs f).
Proof.
  intros std h s name ob R M. apply run_new in R. apply (meaning_unique std h s name _ R) in M. unfold is_builtin, is_available, result in *.
  destruct (at_name std name s) as [[s1 o]| | | ]; cbn [obind fst snd] in *; try discriminate. injection M as <-. split; [ reflexivity | ]. eexists. split; [ reflexivity | ].
  destruct ob as [b|]; [ | split; [ discriminate | intros (b & f & E & _); discriminate ] ]. destruct (bu_body b) as [f|] eqn:B; split; try discriminate; eauto. intros (b' & f & E & Q). congruence.
Qed.
Print Assumptions C44_available.

Definition twice : builtin := {| bu_name := $"my.twice"; bu_arity := Some 1; bu_body := Runs (fun args => Ok (match args with [VTrue] => RVal VTrue | _ => RErr EvalTypeError end)) |}.
Definition lib0 := library (fun _ => true) (fun n args => Ok (RVal (VString n))).
Definition history : list op := [Register twice; SetBlacklist [$"http.send"; $"plus"]; AskBuiltin $"plus"; Register twice; Call $"count" [VArray []]].
Example C44_ex : exists s, run lib0 history new_registry = Ok s /\ meaning lib0 history $"my.twice" (Ok (Some twice)) /\ strict_after history false /\ accepts twice $"my.twice" [VTrue] /\
  result (call lib0 $"my.twice" [VTrue] s) = Ok (RVal VTrue, [($"my.twice", [VTrue])]) /\ result (call lib0 $"my.twice" [VFalse] s) = Ok (RUndef, [($"my.twice", [VFalse])]) /\
  result (call lib0 $"plus" [VTrue; VTrue] s) = Ok (RUndef, []) /\ result (call lib0 $"minus" [VTrue; VTrue] s) = Ok (RVal (VString $"minus"), [($"minus", [VTrue; VTrue])]) /\
  result (is_available lib0 $"plus" s) = Ok false /\ result (call lib0 $"minus" [VTrue] s) = Ok (RErr WellFormedError, []).
Proof.
  eexists. split; [ reflexivity | ]. split.
  { apply mn_registered. exists [Register twice; SetBlacklist [$"http.send"; $"plus"]; AskBuiltin $"plus"], (Register twice), [Call $"count" [VArray []]]. repeat split. repeat constructor. }
  split; [ right; split; [ repeat constructor | reflexivity ] | ]. split; [ split; [ intros I; apply mem_name_iff in I; discriminate | split; [ right; reflexivity | intros c [E | []]; discriminate ] ] | ].
  repeat split.
Qed.
(** Forbidding a builtin by name does not forbid it: it also runs under other names. *)
Theorem C44_blacklist_refuted : exists s, run lib0 [SetBlacklist [$"crypto.parse_private_keys"]] new_registry = Ok s /\
  result (call lib0 $"crypto.parse_private_keys" [VString $"k"] s) = Ok (RUndef, []) /\
  result (call lib0 $"crypto.hmac.parse_private_keys" [VString $"k"] s) = Ok (RVal (VString $"crypto.parse_private_keys"), [($"crypto.parse_private_keys", [VString $"k"])]).
Proof. eexists. repeat split. Qed.
Print Assumptions C44_blacklist_refuted.
Example C44_refused_ex : exists s, run lib0 [Register {| bu_name := $"any"; bu_arity := Some 1; bu_body := NotAvailable |}] new_registry = Ok s /\ result (call lib0 $"count" [VErr $"e"] s) = Ok (RErr $"e", []) /\ result (call lib0 $"count" [VNull; VNull] s) = Ok (RErr WellFormedError, []) /\
  result (call lib0 $"any" [VNull] s) = Ok (RErr RegoTypeError, []) /\ result (call lib0 $"nothing" [VNull] s) = Ok (RErr WellFormedError, []).
Proof. eexists. repeat split. Qed.
(** With a whitelist, asking for a name that is neither on it nor in the library dereferences a null pointer; so does asking for an unknown name on a blacklist. *)
Theorem C44_unknown_refuted : forall std h s name l, run std h new_registry = Ok s -> (forall b, ~ registered h name b) -> std name = Ok None ->
  (policy_after h (Whitelist l) /\ ~ In name l) \/ (policy_after h (Blacklist l) /\ In name l) -> is_builtin std name s = Ub /\ forall args, call std name args s = Ub.
Proof.
  intros std h s name l R N S P. apply run_new in R.
  assert (M : meaning std h name Ub).
  { destruct P as [[P I] | [P I]]; [ apply (mn_broken std h name (Whitelist l) (Ok None)) | apply (mn_broken std h name (Blacklist l) (Ok None)) ]; auto; try discriminate; cbn; tauto. }
  apply (meaning_unique std h s name _ R) in M. unfold result, is_builtin, call in *. destruct (at_name std name s) as [r| | | ]; cbn [obind] in *; try discriminate. split; reflexivity.
Qed.
Print Assumptions C44_unknown_refuted.
Example C44_unknown_ex : exists s, run lib0 [SetWhitelist [$"plus"]] new_registry = Ok s /\ is_builtin lib0 $"my.twice" s = Ub /\ lib0 $"my.twice" = Ok None.
Proof. eexists. repeat split. Qed.
(** Calls without arguments that are refused read an argument that is not there. *)
Theorem C44_no_arguments_refuted : exists s, run lib0 [] new_registry = Ok s /\ call lib0 $"nothing" [] s = Ub /\ call lib0 $"count" [] s = Ub.
Proof. eexists. repeat split. Qed.
Print Assumptions C44_no_arguments_refuted.
(** A change of policy forgets the builtins that were registered before it. *)
Theorem C44_registration_refuted : exists s, run lib0 [Register twice; SetAllowAll] new_registry = Ok s /\ result (is_builtin lib0 $"my.twice" s) = Ok false.
Proof. eexists. split; reflexivity. Qed.
Print Assumptions C44_registration_refuted.
