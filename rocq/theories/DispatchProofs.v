(** Lemmas about the lookup of builtins. *)
From Coq Require Import String ZArith List Bool Lia.
From Verif Require Import Base ValueModel StrModel StrSpec StrProofs DispatchModel DispatchSpec.
Import ListNotations.
Local Open Scope Z_scope.
Local Open Scope list_scope.

Fixpoint leaves {A} (b : block A) : list (str * A) :=
  match b with BEnd => [] | BIf _ body next => leaves body ++ leaves next | BEq s a next => (s, a) :: leaves next end.
Lemma exec_leaf {A} (b : block A) view a : exec b view = Some a -> In (view, a) (leaves b).
Proof.
  induction b as [ | t body IHb next IHn | s x next IHn ]; cbn [exec leaves]; [ discriminate | | ].
  - rewrite in_app_iff. destruct (holds t view); [ | auto ]. destruct (exec body view); [ | auto ]. intros E. left. now apply IHb.
  - destruct (str_eqb view s) eqn:E; [ | right; auto ]. apply str_eqb_eq in E. intros Q. left. congruence.
Qed.
Lemma chain_leaf {A} (l : list (str * A)) view a : chain l view = Some a -> In (view, a) l.
Proof.
  induction l as [ | [s x] l IH ]; cbn [chain]; [ discriminate | ]. destruct (str_eqb view s) eqn:E; [ | right; auto ]. apply str_eqb_eq in E. intros Q. left. congruence.
Qed.

Definition known (n : str) : bool := existsb (fun q => str_eqb n (fst q)) standard.
Lemma known_iff n : known n = true <-> In n (map fst standard).
Proof.
  unfold known. rewrite existsb_exists, in_map_iff. split.
  - intros (q & I & E). apply str_eqb_eq in E. now exists q.
  - intros (q & <- & I). exists q. split; [ exact I | apply str_eqb_refl ].
Qed.
Definition created_asb (name created : str) : bool :=
  str_eqb created name || (str_eqb name $"strings.reverse" && str_eqb created $"reverse") || (str_eqb name $"strings.render_template" && str_eqb created $"render_template").
Lemma created_asb_iff n c : created_asb n c = true -> created_as n c.
Proof. unfold created_asb, created_as. rewrite !orb_true_iff, !andb_true_iff, !str_eqb_eq. tauto. Qed.

Definition found (q : str * Z) : bool :=
  match lookup (fst q) with Ok (Some b) => (b_arity b =? snd q) && created_asb (fst q) (b_name b) | _ => false end.
Lemma all_found : forallb found standard = true.
Proof. vm_compute. reflexivity. Qed.

(** A chain of a module holds known names only. *)
Lemma chain_unknown (prefix : str) l rest : forallb (fun q => known (prefix ++ fst q)) l = true -> ~ In (prefix ++ rest) (map fst standard) -> chain (A := std_builtin) l rest = None.
Proof.
  intros F N. destruct (chain l rest) as [b|] eqn:E; [ | reflexivity ]. elim N. apply chain_leaf in E. rewrite forallb_forall in F. apply F in E. now apply known_iff in E.
Qed.
Lemma skip_app (p rest : str) n : length p = n -> skip n (p ++ rest) = Ok rest.
Proof.
  intros <-. unfold skip. unfold str, byte in *. rewrite app_length. destruct (Nat.ltb_spec (length p + length rest) (length p)); [ lia | ]. f_equal. apply skipn_app_length.
Qed.
Lemma in_module_unknown prefix n l name rest : name = prefix ++ rest -> length prefix = n -> forallb (fun q => known (prefix ++ fst q)) l = true -> ~ In name (map fst standard) ->
  in_module n l name = Ok None.
Proof. intros -> L F N. unfold in_module. rewrite (skip_app prefix rest n L). cbn [obind]. f_equal. now apply (chain_unknown prefix). Qed.
Lemma core_unknown name : name <> [] -> ~ In name (map fst standard) -> core name = Ok None.
Proof.
  intros E N. unfold core. destruct name as [ | c name ]; [ now elim E | ]. f_equal. destruct (exec core_tree (c :: name)) as [b|] eqn:X; [ | reflexivity ]. elim N. apply exec_leaf in X. apply known_iff.
  assert (F : forallb (fun q => known (fst q)) (leaves core_tree) = true) by (vm_compute; reflexivity). rewrite forallb_forall in F. exact (F _ X).
Qed.
(** The name up to and from its first dot. *)
Lemma dot_split (name : str) (i : nat) : find0 $"." name = Some i -> name = firstn i name ++ $"." ++ skipn (i + 1) name.
Proof.
  intros E. pose proof (find0_spec $"." name) as H. rewrite E in H. destruct H as [(a & b & -> & <-) _]. rewrite firstn_app_length. change ($"." ++ b) with ([46] ++ b).
  f_equal. change $"." with [46]. f_equal. symmetry. change (skipn (length a + 1) (a ++ [46] ++ b) = b). rewrite app_assoc. replace (length a + 1)%nat with (length (a ++ [46])) by (rewrite app_length; reflexivity). apply skipn_app_length.
Qed.
Definition plain_modules : list (str * (str -> outcome (option std_builtin))) :=
  filter (fun q => negb (existsb (str_eqb (fst q)) [$"providers"; $"io"; $"uuid"; $"crypto"])) (leaves module_tree).
Definition plain_list : list (str * (str -> outcome (option std_builtin))) :=
  [($"base64url", m_base64url); ($"urlquery", m_urlquery); ($"internal", m_internal); ($"strings", m_strings); ($"numbers", m_numbers); ($"graphql", m_graphql); ($"semver", m_semver); ($"object", m_object); ($"base64", m_base64); ($"units", m_units); ($"regex", m_regex); ($"graph", m_graph); ($"array", m_array); ($"yaml", m_yaml); ($"time", m_time); ($"uri", m_uri); ($"rego", m_rego); ($"rand", m_rand); ($"opa", m_opa); ($"net", m_net); ($"http", m_http); ($"bits", m_bits); ($"hex", m_hex); ($"json", m_json); ($"glob", m_glob)].
Lemma plain_unknown prefix f rest : In (prefix, f) plain_modules -> ~ In (prefix ++ $"." ++ rest) (map fst standard) -> f (prefix ++ $"." ++ rest) = Ok None.
Proof.
  intros I N. rewrite app_assoc in *. replace plain_modules with plain_list in I by reflexivity. cbn [In plain_list] in I.
  repeat (destruct I as [I | I]; [ injection I as <- <-; eapply in_module_unknown; [ reflexivity | reflexivity | vm_compute; reflexivity | exact N ] | ]). destruct I.
Qed.
Lemma crypto_unknown rest : rest <> [] -> (forall s, rest <> 104 :: s) -> (forall s, rest <> 120 :: s) -> ~ In ($"crypto." ++ rest) (map fst standard) -> m_crypto ($"crypto." ++ rest) = Ok None.
Proof.
  intros E H X N. unfold m_crypto. rewrite (skip_app $"crypto." rest 7 eq_refl). cbn [obind]. destruct rest as [ | c rest ]; [ now elim E | ].
  destruct (Z.eqb_spec c 104) as [-> | _]; [ now elim (H rest) | ]. unfold crypto_x. destruct (Z.eqb_spec c 120) as [-> | _]; [ now elim (X rest) | ]. unfold crypto_rest. f_equal.
  apply (chain_unknown $"crypto."); [ vm_compute; reflexivity | exact N ].
Qed.
Lemma lookup_unknown (name : str) : ~ In name (map fst standard) -> ~ odd_name name -> lookup name = Ok None.
Proof.
  intros N O. unfold lookup. destruct (find0 $"." name) as [i|] eqn:E.
  - apply dot_split in E. destruct (ex_intro (fun p => firstn i name = p) _ eq_refl) as (p & Ep). rewrite Ep in E |- *. assert (exists rest, name = p ++ $"." ++ rest) as (rest & Er) by (eexists; exact E). clear E Ep. subst name.
    destruct p as [ | c p ]; [ elim O; right; right; exists $".", rest; split; [ left; reflexivity | reflexivity ] | ]. set (q := c :: p) in *. clearbody q. clear c p.
    destruct (exec module_tree q) as [f|] eqn:X; [ | reflexivity ]. apply exec_leaf in X.
    destruct (existsb (str_eqb q) [$"providers"; $"io"; $"uuid"; $"crypto"]) eqn:S.
    + apply existsb_exists in S. destruct S as (s & I & Q). apply str_eqb_eq in Q. subst s. destruct I as [<- | [<- | [<- | [<- | []]]]].
      * elim O. right. right. exists $"providers.", rest. split; [ cbn; auto | reflexivity ].
      * elim O. right. right. exists $"io.", rest. split; [ cbn; auto | reflexivity ].
      * elim O. right. right. exists $"uuid.", rest. split; [ cbn; auto 10 | reflexivity ].
      * assert (f = m_crypto) as ->.
        { assert (Q : forall g, In ($"crypto", g) (leaves module_tree) -> In ($"crypto", g) (filter (fun q => str_eqb (fst q) $"crypto") (leaves module_tree))) by (intros g I; apply filter_In; split; [ exact I | reflexivity ]).
          apply Q in X. replace (filter (fun q => str_eqb (fst q) $"crypto") (leaves module_tree)) with [($"crypto", m_crypto)] in X by reflexivity. destruct X as [X | []]. congruence. }
        apply crypto_unknown; [ | | | exact N ].
        -- intros ->. apply O. right. left. reflexivity.
        -- intros s ->. apply O. right. right. exists $"crypto.h", s. split; [ cbn; auto 10 | reflexivity ].
        -- intros s ->. apply O. right. right. exists $"crypto.x", s. split; [ cbn; auto 10 | reflexivity ].
    + apply plain_unknown; [ | exact N ]. unfold plain_modules. apply filter_In. split; [ exact X | ]. cbn [fst]. rewrite S. reflexivity.
  - apply core_unknown; [ | exact N ]. intros ->. apply O. left. reflexivity.
Qed.
