(** C38, C39: json.patch, json.filter, json.remove. *)
From Coq Require Import String ZArith List Bool Lia.
From Verif Require Import Base SMap SMapFacts BigIntSpec BigIntModel DecFacts ValueModel ValueSpec ResolverModel VmModel StrModel
  MiscModel UriProofs KeyProofs PatchModel PatchSpec PatchProofs.
Import ListNotations.
Local Open Scope Z_scope.
Local Open Scope list_scope.

(** ** C38: json.patch *)

(** The texts that are read as JSON pointers: those of RFC 6901, and those that lack only the leading slash. *)
Theorem C38_pointer : forall s ts, pointer s = Ok (Some ts) <->
  s = pointer_text ts \/ (s <> [] /\ (forall t, s <> 47 :: t) /\ 47 :: s = pointer_text ts).
Proof.
  intros s ts. split.
  - intros H. apply (pointer_loop_inv _ []) in H as [H | (_ & N & Hd & H)]; auto.
  - intros [-> | (N & Hd & H)]; [ apply pointer_of_text | ]. destruct ts as [ | t ts ]; [ discriminate | ].
    assert (E : s = escape_token t ++ pointer_text ts) by (injection H as H; exact H). clear H. unfold pointer. destruct s as [ | c s ]; [ congruence | ].
    cbn [pointer_loop nth_error]. replace (c =? 47) with false by (symmetry; apply Z.eqb_neq; intros ->; now apply (Hd s)). cbn [negb andb Nat.ltb Nat.leb skipn].
    rewrite E, pointer_token. cbn [fst]. rewrite key_unescape. pose proof (pointer_loop_text ts (length (escape_token t ++ pointer_text ts)) (escape_token t)) as P.
    unfold str, byte in *. rewrite Nat.add_0_l, P; [ reflexivity | ]. rewrite app_length. lia.
Qed.
Example C38_pointer_example :
  pointer $"/a~1b/m~0n/0/" = Ok (Some [$"a/b"; $"m~n"; $"0"; []]) /\ pointer $"a/b" = Ok (Some [$"a"; $"b"]) /\ pointer $"/a~2" = Ok None /\ pointer [] = Ok (Some []).
Proof. vm_compute. auto. Qed.

(** The result of a patch is the document that RFC 6902 prescribes, and an error where it prescribes one.  [regular] excludes the
    departures of the implementation, each shown below: array tokens that are not indices, copy and move to the root, to the source,
    or to below the source.  Missing besides: tests that follow other operations (refuted below). *)
Theorem C38_patch_partial : forall F NI NF, num_domain F NI NF -> forall doc nodes tests others,
  json doc -> wfv F NI NF doc -> Forall2 describes nodes (tests ++ others) ->
  Forall is_test tests -> (forall ts v, In (RTest ts v) tests -> wfv F NI NF v) -> Forall (fun op => ~ is_test op) others ->
  regular F doc (tests ++ others) ->
  (forall doc', json_patch F doc (VArray nodes) = ok doc' <-> steps F (tests ++ others) doc doc') /\
  ((forall doc', ~ steps F (tests ++ others) doc doc') -> json_patch F doc (VArray nodes) = Ok (RErr WellFormedError)).
Proof.
  intros F NI NF D doc nodes tests others J W Ds T Wt N R. destruct (patch_decides F NI NF doc nodes tests others D J W Ds T N Wt R) as (o & -> & H). split.
  - intros doc'. rewrite <- H. unfold ok. destruct o; split; intros E; try discriminate; congruence.
  - intros Nn. destruct o as [d | ]; [ | reflexivity ]. elim (Nn d). now apply H.
Qed.

(** A document, and a patch that meets the hypotheses. *)
Definition doc1 : value := VObject [(VString $"a", VArray [VInt $"1"; VInt $"2"]); (VString $"b/c", VString $"x")].
Definition ops1 : list rfc_op :=
  [RTest [$"b/c"] (VString $"x"); RTest [$"a"; $"1"] (VInt $"2"); RAdd [$"a"; $"1"] (VObject [(VString $"k", VNull)]); RAdd [$"a"; $"-"] VTrue;
   RMove [$"a"; $"0"] [$"b/c"]; RReplace [$"a"; $"2"; $"k"] (VInt $"7"); RCopy [$"d"] [$"a"; $"2"]; RRemove [$"a"; $"1"]].
Definition node_of (op : rfc_op) : value :=
  let obj (type : string) (ts : list str) (rest : list (value * value)) := VObject ([(VString $"op", VString $type); (VString $"path", VString (pointer_text ts))] ++ rest) in
  match op with
  | RTest ts v => obj "test"%string ts [(VString $"value", v)]
  | RAdd ts v => obj "add"%string ts [(VString $"value", v)]
  | RRemove ts => obj "remove"%string ts []
  | RReplace ts v => obj "replace"%string ts [(VString $"value", v)]
  | RCopy ts from => obj "copy"%string ts [(VString $"from", VString (pointer_text from))]
  | RMove ts from => obj "move"%string ts [(VString $"from", VString (pointer_text from))]
  end.
Lemma node_describes op : op_json op -> describes (node_of op) op.
Proof.
  assert (M : forall (l : list (str * value)), NoDup (map fst l) -> Forall (fun kv => json (snd kv)) l -> json (VObject (map (fun kv => (VString (fst kv), snd kv)) l))) by (intros; now constructor).
  intros J. destruct op; cbn [node_of op_json app] in *;
    match goal with |- describes (VObject [(_, ?a); (_, ?b); (VString $?n, ?c)]) _ => pose proof (M [($"op", a); ($"path", b); ($n, c)]) as Mj
                  | |- describes (VObject [(_, ?a); (_, ?b)]) _ => pose proof (M [($"op", a); ($"path", b)]) as Mj end;
    (eexists; split; [ reflexivity | ]; split; [ apply Mj; [ repeat (constructor; [ vm_compute; intuition discriminate | ]); constructor | repeat constructor; assumption ] | ]);
    unfold has; cbn [In]; intuition.
Qed.
Lemma addr_nil doc : addressable doc [].
Proof. intros p t q l E. destruct p; discriminate. Qed.
Lemma addr_obj l k ts : (forall w, In (VString k, w) l -> addressable w ts) -> addressable (VObject l) (k :: ts).
Proof.
  intros H [ | p0 p ] t q l' E L; [ inversion L | ]. injection E as <- ->. apply located_member in L as (w & I & L). now apply (H w I p t q l').
Qed.
Lemma addr_arr l n ts : 0 <= n < 2 ^ 64 -> (forall w, nth_error l (Z.to_nat n) = Some w -> addressable w ts) -> addressable (VArray l) (dec n :: ts).
Proof.
  intros Hn H [ | p0 p ] t q l' E L; injection E as <- ->; [ right; now exists n | ]. apply located_element in L as (m & w & E & I & L). apply dec_inj in E. subst n.
  rewrite Nat2Z.id in H. now apply (H w I p t q l').
Qed.
Lemma addr_end l : addressable (VArray l) [$"-"].
Proof. intros p t q l' E L. destruct p as [ | p0 p ]; injection E as E1 E2; [ left; symmetry; exact E1 | destruct p; discriminate ]. Qed.
Lemma regular_cons F doc op ops d : json doc -> op_json op -> ~ is_test op -> regular_op doc op -> apply F (op_text op) doc = Ok (Some d) ->
  (json d -> regular F d ops) -> regular F doc (op :: ops).
Proof.
  intros J Jo T R E Rd. split; [ exact R | ]. intros d' S. pose proof (step_json _ _ _ _ S Jo J) as Jd. destruct (apply_decides F op doc J R T) as (o & E' & H). apply H in S. rewrite E in E'.
  assert (d' = d) by congruence. subst d'. auto.
Qed.
Lemma regular_test F doc ts v ops : addressable doc ts -> regular F doc ops -> regular F doc (RTest ts v :: ops).
Proof. intros R Rd. split; [ exact R | ]. intros d' S. now inversion S; subst. Qed.
Lemma regular_from F doc ts from ret d : json doc -> addressable doc from -> from <> [] -> run F from ARemove VNull doc = Ok (Some (ret, d)) -> addressable d ts ->
  forall d1, changed removes doc from d1 -> addressable d1 ts.
Proof. intros J A N E Ad d1 C. destruct (run_meets F from ARemove VNull doc N J A) as (o & E' & _ & H). destruct (H d1 C) as (r & ->). rewrite E in E'. assert (d1 = d) by congruence. now subst. Qed.
Lemma doc1_json : json doc1.
Proof. apply (js_object [($"a", VArray [VInt $"1"; VInt $"2"]); ($"b/c", VString $"x")]); [ repeat constructor; vm_compute; intuition discriminate | repeat constructor ]. Qed.
Ltac addr := repeat first
  [ apply addr_nil | apply addr_end
  | match goal with |- addressable (VObject _) _ => apply addr_obj; let w := fresh "w" in let H := fresh "H" in intros w H; cbn [In] in H; repeat destruct H as [H | H]; try discriminate H; try contradiction; injection H; intros; subst w
                  | |- addressable (VArray _) ($"0" :: _) => refine (addr_arr _ 0 _ _ _)
                  | |- addressable (VArray _) ($"1" :: _) => refine (addr_arr _ 1 _ _ _)
                  | |- addressable (VArray _) ($"2" :: _) => refine (addr_arr _ 2 _ _ _)
                  | |- _ <= _ < _ => vm_compute; split; congruence
                  | |- forall w, nth_error _ _ = Some w -> _ => let w := fresh "w" in let H := fresh "H" in intros w H; injection H; intros; subst w end ].
Example C38_hypotheses : json doc1 /\ wfv fops0 any_int no_float doc1 /\ Forall2 describes (map node_of ops1) ops1 /\ regular fops0 doc1 ops1.
Proof.
  split; [ apply doc1_json | ]. split; [ | split ].
  - refine (wf_object fops0 any_int no_float [($"a", VArray [VInt $"1"; VInt $"2"]); ($"b/c", VString $"x")] _ _ _).
    + repeat constructor.
    + repeat constructor; [ now exists 1 | now exists 2 ].
    + repeat constructor; vm_compute; intuition discriminate.
  - repeat (constructor; [ apply node_describes; cbn [op_json]; try exact I; try (now constructor) | ]); [ | constructor ].
    apply (js_object [($"k", VNull)]); [ repeat constructor; intros [] | repeat constructor ].
  - unfold ops1. apply regular_test; [ unfold doc1; addr | ]. apply regular_test; [ unfold doc1; addr | ].
    assert (Jk : json (VObject [(VString $"k", VNull)])) by (apply (js_object [($"k", VNull)]); [ repeat constructor; intros [] | repeat constructor ]).
    eapply regular_cons; [ apply doc1_json | exact Jk | intros (? & ? & ?); discriminate | unfold doc1; cbn [regular_op]; addr | vm_compute; reflexivity | intros J1 ].
    eapply regular_cons; [ exact J1 | constructor | intros (? & ? & ?); discriminate | cbn [regular_op]; addr | vm_compute; reflexivity | clear J1; intros J1 ].
    eapply regular_cons; [ exact J1 | constructor | intros (? & ? & ?); discriminate | cbn [regular_op] | vm_compute; reflexivity | ].
    { split; [ addr | ]. split; [ discriminate | ]. split; [ discriminate | ]. split; [ intros (t & r & E); discriminate | ].
      eapply (regular_from fops0); [ exact J1 | addr | discriminate | vm_compute; reflexivity | addr ]. }
    clear J1; intros J1.
    eapply regular_cons; [ exact J1 | constructor | intros (? & ? & ?); discriminate | cbn [regular_op]; addr | vm_compute; reflexivity | clear J1; intros J1 ].
    eapply regular_cons; [ exact J1 | constructor | intros (? & ? & ?); discriminate | cbn [regular_op] | vm_compute; reflexivity | clear J1; intros J1 ].
    { split; [ addr | ]. split; [ addr | ]. split; discriminate. }
    eapply regular_cons; [ exact J1 | constructor | intros (? & ? & ?); discriminate | cbn [regular_op]; addr | vm_compute; reflexivity | intros _; exact I ].
Qed.
Example C38_example : json_patch fops0 doc1 (VArray (map node_of ops1)) =
  ok (VObject [(VString $"a", VArray [VString $"x"; VObject [(VString $"k", VInt $"7")]; VInt $"2"; VTrue]); (VString $"d", VObject [(VString $"k", VInt $"7")])]).
Proof. vm_compute. reflexivity. Qed.

(** Departures from RFC 6902. *)
Definition obj1 (k : string) (v : value) : value := VObject [(VString $k, v)].
Definition opv (type path : string) (rest : list (value * value)) : value := VObject ([(VString $"op", VString $type); (VString $"path", VString $path)] ++ rest).
Definition val (v : value) : list (value * value) := [(VString $"value", v)].
Definition from (path : string) : list (value * value) := [(VString $"from", VString $path)].
(** Tests see the document as given: a test of what the patch has just added fails, and a test of what it has replaced succeeds. *)
Theorem C38_tests_first_refuted :
  let ops := [RAdd [$"a"] (VInt $"1"); RTest [$"a"] (VInt $"1")] in
  let ops' := [RReplace [$"a"] (VInt $"1"); RTest [$"a"] (VInt $"2")] in
  steps fops0 ops (VObject []) (obj1 "a" (VInt $"1")) /\ json_patch fops0 (VObject []) (VArray (map node_of ops)) = Ok (RErr WellFormedError) /\
  (forall d, ~ steps fops0 ops' (obj1 "a" (VInt $"2")) d) /\ json_patch fops0 (obj1 "a" (VInt $"2")) (VArray (map node_of ops')) = ok (obj1 "a" (VInt $"1")).
Proof.
  cbv zeta. split; [ | split; [ vm_compute; reflexivity | split; [ | vm_compute; reflexivity ] ] ].
  - eapply ss_cons; [ apply st_add, ch_here; apply (ad_new (VInt $"1") [] $"a"); intros w [] | ].
    eapply ss_cons; [ eapply st_test; [ econstructor; [ now left | constructor ] | econstructor; reflexivity ] | constructor ].
  - intros d S. inversion S as [ | ? ? ? d1 ? S1 S2 ]; subst. inversion S2 as [ | ? ? ? d2 ? S3 _ ]; subst.
    assert (R : apply fops0 (op_text (RReplace [$"a"] (VInt $"1"))) (obj1 "a" (VInt $"2")) = Ok (Some (obj1 "a" (VInt $"1")))) by (vm_compute; reflexivity).
    assert (J : json (obj1 "a" (VInt $"2"))) by (apply (js_object [($"a", VInt $"2")]); [ repeat constructor; intros [] | repeat constructor ]).
    assert (A : addressable (obj1 "a" (VInt $"2")) [$"a"]) by (unfold obj1; addr).
    destruct (apply_decides fops0 (RReplace [$"a"] (VInt $"1")) (obj1 "a" (VInt $"2")) J A ltac:(intros (? & ? & ?); discriminate)) as (o & E & H).
    apply H in S1. rewrite R in E. assert (d1 = obj1 "a" (VInt $"1")) by congruence. subst d1. inversion S3; subst. match goal with L : located _ [_] _ |- _ => apply located_member in L as (w' & [I | []] & L) end. injection I as <-.
    match goal with L : located _ [] _ |- _ => inversion L; subst end. match goal with Q : veq _ _ _ |- _ => inversion Q; subst end.
    match goal with A1 : num_text _ _ = Some ?t, A2 : num_text _ _ = Some ?t |- _ => rewrite <- A2 in A1; discriminate A1 end.
Qed.
(** Other departures, by example: copying or moving to the root changes nothing; a token that is no index is the end of the array;
    indices wrap at 2^64; an array may be moved below itself when an index shifts; an absent location may be copied to itself. *)
Theorem C38_departures_refuted :
  json_patch fops0 (obj1 "a" VNull) (VArray [opv "copy" "" (from "/a")]) = ok (obj1 "a" VNull) /\
  json_patch fops0 (obj1 "a" (VArray [])) (VArray [opv "add" "/a/x" (val VNull)]) = ok (obj1 "a" (VArray [VNull])) /\
  json_patch fops0 (obj1 "a" (VArray [VTrue])) (VArray [opv "add" "/a/1x" (val VNull)]) = ok (obj1 "a" (VArray [VTrue; VNull])) /\
  json_patch fops0 (obj1 "a" (VArray [VTrue])) (VArray [opv "remove" "/a/18446744073709551616" []]) = ok (obj1 "a" (VArray [])) /\
  json_patch fops0 (VArray [VArray []; VArray []]) (VArray [opv "move" "/0/0" (from "/0")]) = ok (VArray [VArray [VArray []]]) /\
  json_patch fops0 (VObject []) (VArray [opv "copy" "/a" (from "/a")]) = ok (VObject []).
Proof. vm_compute. auto 10. Qed.
(** A pointer into an array that ends in a slash, and one with a token outside ASCII, are undefined behaviour. *)
Theorem C38_undefined_refuted :
  json_patch fops0 (VArray []) (VArray [opv "add" "/" (val VNull)]) = Ub /\
  json_patch fops0 (VArray []) (VArray [VObject ([(VString $"op", VString $"add"); (VString $"path", VString (47 :: [195; 169]))] ++ val VNull)]) = Ub.
Proof. vm_compute. auto. Qed.
(** A path given as an array is joined without escapes: the segment "b/c" is read as two. *)
Theorem C38_path_array_refuted :
  json_patch fops0 (obj1 "b/c" VNull) (VArray [VObject [(VString $"op", VString $"remove"); (VString $"path", VArray [VString $"b/c"])]]) = Ok (RErr WellFormedError).
Proof. vm_compute. reflexivity. Qed.

(** A token with a leading zero is no index, whatever the operation. *)
Theorem C38_leading_zero : forall F l d ts v node op, l <> [] -> In op [RTest [48 :: d :: ts] v; RAdd [48 :: d :: ts] v; RRemove [48 :: d :: ts]; RReplace [48 :: d :: ts] v] ->
  describes node op -> json_patch F (VArray l) (VArray [node]) = Ok (RErr WellFormedError).
Proof.
  intros F l d ts v node op Nl I D. destruct (describes_op F _ _ D) as [E _]. cbn [json_patch read_ops]. rewrite E.
  assert (A : forall act w, operation F (pointer_text [48 :: d :: ts]) act w (VArray l) = failed).
  { intros act w. unfold operation. rewrite pointer_of_text. cbn [obind run]. unfold array_action.
    assert (Ei : array_index (length l) (48 :: d :: ts) = Ok (false, 0)) by reflexivity. rewrite Ei. cbn [obind].
    replace (0 =? Z.of_nat (length l)) with false by (symmetry; apply Z.eqb_neq; destruct l; [ congruence | cbn; lia ]). destruct act; reflexivity. }
  assert (N : exists c s, pointer_text [48 :: d :: ts] = c :: s) by (eexists _, _; reflexivity). destruct N as (c & s & N).
  destruct I as [<- | [<- | [<- | [<- | [] ]]]]; cbn [op_text obind read_ops option_map apply_all apply]; rewrite ?N, <- ?N; rewrite A; reflexivity.
Qed.
Example C38_leading_zero_example : describes (opv "remove" "/01" []) (RRemove [$"01"]) /\ json_patch fops0 (VArray [VTrue; VFalse]) (VArray [opv "remove" "/01" []]) = Ok (RErr WellFormedError).
Proof. split; [ apply (node_describes (RRemove [$"01"])); exact I | vm_compute; reflexivity ]. Qed.
(** Sets, which RFC 6902 does not know: the members of a set of strings are addressed by their text. *)
Lemma strip_string F t : strip_quotes (to_key F (VString t)) = t.
Proof. cbn [to_key]. unfold strip_quotes. rewrite is_quoted_quote. unfold quote. cbn [app tl]. apply removelast_last. Qed.
Lemma split_absent F k ss : ~ In k ss -> split_member F k (map VString ss) = None.
Proof.
  induction ss as [ | x ss IH ]; intros N; [ reflexivity | ]. cbn [map split_member]. rewrite IH by (intros I; apply N; now right). rewrite strip_string.
  destruct (str_eqb x k) eqn:E; [ | reflexivity ]. apply str_eqb_eq in E. subst. elim N. now left.
Qed.
Lemma split_present F k ss1 ss2 : ~ In k ss2 -> split_member F k (map VString (ss1 ++ k :: ss2)) = Some (map VString ss1, VString k, map VString ss2).
Proof.
  intros N. induction ss1 as [ | x ss1 IH ]; cbn [app map split_member].
  - rewrite split_absent by exact N. rewrite strip_string. now rewrite (proj2 (str_eqb_eq k k) eq_refl).
  - now rewrite IH.
Qed.
Theorem C38_set : forall F ss node op k, NoDup ss -> describes node op ->
  let patched := json_patch F (VSet (map VString ss)) (VArray [node]) in let fails := patched = Ok (RErr WellFormedError) in
  (op = RRemove [k] -> (forall a b, ss = a ++ k :: b -> patched = ok (VSet (map VString (a ++ b)))) /\ (~ In k ss -> fails)) /\
  (op = RAdd [k] (VString k) -> (In k ss -> patched = ok (VSet (map VString ss))) /\ (~ In k ss -> patched = ok (VSet (map VString (ss ++ [k]))))) /\
  (forall k', op = RAdd [k] (VString k') -> k' <> k -> ~ In k ss -> fails) /\
  (op = RReplace [k] (VString k) -> (In k ss -> patched = ok (VSet (map VString ss))) /\ (~ In k ss -> fails)) /\
  (forall k', op = RReplace [k] (VString k') -> k' <> k -> fails) /\
  (op = RTest [k] (VString k) -> (In k ss -> patched = ok (VSet (map VString ss))) /\ (~ In k ss -> fails)).
Proof.
  intros F ss node op k ND D. cbv zeta. destruct (describes_op F _ _ D) as [E _]. cbn [json_patch read_ops]. rewrite E.
  assert (O : forall act w, operation F (pointer_text [k]) act w (VSet (map VString ss)) = set_action F act w (map VString ss) k).
  { intros act w. unfold operation. rewrite pointer_of_text. reflexivity. }
  assert (Pr : forall a b, ss = a ++ k :: b -> split_member F k (map VString ss) = Some (map VString a, VString k, map VString b)).
  { intros a b ->. apply split_present. apply NoDup_remove_2 in ND. intros I. apply ND. apply in_app_iff. now right. }
  assert (Qn : exists c s, pointer_text [k] = c :: s) by (eexists _, _; reflexivity). destruct Qn as (c & s & Qn).
  assert (M : forall t, str_eqb k (strip_quotes (to_key F (VString t))) = str_eqb k t) by (intros t; now rewrite strip_string).
  assert (Mk : str_eqb k k = true) by now apply str_eqb_eq.
  assert (Mn : forall t, t <> k -> str_eqb k t = false) by (intros t Nt; destruct (str_eqb k t) eqn:Q; [ apply str_eqb_eq in Q; congruence | reflexivity ]).
  assert (Key : str_eqb (to_key F (VString k)) (to_key F (VString k)) = true) by now apply str_eqb_eq.
  repeat split; intros; subst op; cbn [op_text obind read_ops option_map apply_all apply]; rewrite ?Qn, <- ?Qn; rewrite O; unfold set_action; rewrite ?M, ?Mk;
    try match goal with H : _ <> k |- _ => rewrite (Mn _ H) end;
    try (rewrite split_absent by assumption);
    try match goal with H : ss = _ ++ k :: _ |- _ => rewrite (Pr _ _ H) | H : In k ss |- _ => destruct (in_split _ _ H) as (a0 & b0 & Es); rewrite (Pr _ _ Es) end.
  all: unfold compare; cbn [is_error]; rewrite ?Key; cbn; rewrite ?map_app; try reflexivity.
  destruct (split_member F k (map VString ss)) as [[[? ?] ?] | ]; reflexivity.
Qed.
Example C38_set_example : let s := VSet [VString $"a"; VString $"b/c"; VString $"d"] in describes (opv "remove" "/b~1c" []) (RRemove [$"b/c"]) /\
  json_patch fops0 s (VArray [opv "remove" "/b~1c" []]) = ok (VSet [VString $"a"; VString $"d"]) /\
  json_patch fops0 s (VArray [opv "add" "/e" (val (VString $"e"))]) = ok (VSet [VString $"a"; VString $"b/c"; VString $"d"; VString $"e"]) /\
  json_patch fops0 s (VArray [opv "add" "/e" (val (VString $"f"))]) = Ok (RErr WellFormedError).
Proof. cbv zeta. split; [ apply (node_describes (RRemove [$"b/c"])); exact I | vm_compute; auto ]. Qed.
(** A path may be an array of its tokens, provided that these need no escapes. *)
Theorem C38_path_array : forall F doc type ts rest, Forall (fun t => ~ In 47 t /\ ~ In 126 t) ts ->
  let with_path p := VArray [VObject ([(VString $"op", type); (VString $"path", p)] ++ rest)] in
  json_patch F doc (with_path (VArray (map VString ts))) = json_patch F doc (with_path (VString (pointer_text ts))).
Proof.
  intros F doc type ts rest H. cbv zeta. cbn [json_patch read_ops].
  assert (P : op_path F (VArray (map VString ts)) = Some (pointer_text ts)).
  { cbn [op_path]. f_equal. induction H as [ | t ts [H1 H2] _ IH ]; [ reflexivity | ]. cbn [map flat_map pointer_text]. rewrite strip_string.
    change (flat_map (fun t => $"/" ++ escape_token t) ts) with (pointer_text ts). rewrite IH. change ($"/") with [47]. cbn [app]. f_equal. f_equal.
    clear -H1 H2. induction t as [ | c t IH ]; [ reflexivity | ]. cbn [escape_token flat_map]. destruct (c =? 126) eqn:E1; [ apply Z.eqb_eq in E1; subst; elim H2; now left | ].
    destruct (c =? 47) eqn:E2; [ apply Z.eqb_eq in E2; subst; elim H1; now left | ]. cbn [app]. f_equal. apply IH; intros I; [ apply H1 | apply H2 ]; now right. }
  set (n1 := VObject ([(VString $"op", type); (VString $"path", VArray (map VString ts))] ++ rest)). set (n2 := VObject ([(VString $"op", type); (VString $"path", VString (pointer_text ts))] ++ rest)).
  assert (Sel : forall path k, pointer path = Ok (Some [k]) -> forall o, select F (VObject o) path = Ok (match split_item k o with Some (_, w, _) => if is_error w then None else Some w | None => None end)).
  { intros path k Hp o. unfold select, operation. rewrite Hp. cbn [obind run]. unfold object_action. destruct (split_item k o) as [[[l1 w] l2] | ]; [ | reflexivity ]. destruct (is_error w); reflexivity. }
  assert (E : op_of F n1 = op_of F n2).
  { assert (S : forall path k, pointer path = Ok (Some [k]) -> k <> $"path" -> select F n1 path = select F n2 path).
    { intros path k Hp Nk. unfold n1, n2. rewrite !(Sel _ _ Hp). cbn [app split_item]. destruct (str_eqb $"op" k); [ reflexivity | ].
      destruct (str_eqb $"path" k) eqn:Q; [ apply str_eqb_eq in Q; congruence | ]. destruct (split_item k rest) as [[[? ?] ?] | ]; reflexivity. }
    unfold op_of, select_string. rewrite (S $"/op" $"op"), (S $"/from" $"from"), (S $"/value" $"value") by (vm_compute; congruence || reflexivity || discriminate).
    assert (Q1 : select F n1 $"/path" = Ok (Some (VArray (map VString ts)))) by (unfold n1; rewrite (Sel $"/path" $"path" eq_refl); reflexivity).
    assert (Q2 : select F n2 $"/path" = Ok (Some (VString (pointer_text ts)))) by (unfold n2; rewrite (Sel $"/path" $"path" eq_refl); reflexivity).
    rewrite Q1, Q2. cbn [obind]. rewrite P. reflexivity. }
  rewrite E. reflexivity.
Qed.
Example C38_path_array_example : json_patch fops0 doc1 (VArray [VObject [(VString $"op", VString $"remove"); (VString $"path", VArray [VString $"a"; VString $"0"])]]) =
  ok (VObject [(VString $"a", VArray [VInt $"2"]); (VString $"b/c", VString $"x")]).
Proof. vm_compute. reflexivity. Qed.

(** ** C39: json.filter, json.remove *)

(** For documents of nested objects: filter keeps what lies on, before or behind one of the paths, unchanged. *)
Definition collection (paths : value) (vs : list value) : Prop := paths = VArray vs \/ paths = VSet vs.
Theorem C39_filter_partial : forall F l paths vs ps, string_keyed (VObject l) -> collection paths vs -> Forall2 names_path vs ps -> within_objects (VObject l) ps ->
  exists doc', json_filter F (VObject l) paths = ok doc' /\
  forall ts, ts <> [] ->
    ((exists x, leads doc' ts x) <-> (exists v, leads (VObject l) ts v) /\ selected ps ts) /\
    (forall v x, leads (VObject l) ts v -> leads doc' ts x -> (leaf v \/ covered ps ts -> x = v) /\ (leaf x -> leaf v)).
Proof.
  intros F l paths vs ps K C N W. destruct (paths_tree F vs ps N) as (t & E & _ & R & M & Nn). exists (prune F true t (VObject l)). split.
  - unfold json_filter, json_select. destruct C as [-> | ->]; now rewrite E.
  - intros ts Nt. pose proof (tree_wt t ps _ R M W) as Wt. destruct (filter_leads F ts t l Nt K Wt) as [D V]. split.
    + rewrite D, (tree_covered t ps ts M Nn), (R ts Nt). unfold selected, covered. apply and_iff_compat_l. split.
      * intros [(p & I & P) | (p & I & P)]; exists p; auto.
      * intros (p & I & [P | P]); [ left | right ]; now exists p.
    + intros v x Lv Lx. destruct (V v x Lv Lx) as [V1 V2]. split; [ | exact V2 ]. rewrite <- (tree_covered t ps ts M Nn). exact V1.
Qed.
(** Remove drops what lies on or behind one of the paths, and keeps the rest unchanged.  (A leaf that a path would lead beyond is
    dropped as well: see below.) *)
Theorem C39_remove_partial : forall F l paths vs ps, string_keyed (VObject l) -> collection paths vs -> Forall2 names_path vs ps -> within_objects (VObject l) ps ->
  exists doc', json_remove F (VObject l) paths = ok doc' /\
  forall ts, ts <> [] ->
    ((exists x, leads doc' ts x) <-> exists v, leads (VObject l) ts v /\ ~ covered ps ts /\ (leaf v -> ~ selected ps ts)) /\
    (forall v x, leads (VObject l) ts v -> leads doc' ts x -> (~ selected ps ts -> x = v) /\ (leaf x -> x = v)).
Proof.
  intros F l paths vs ps K C N W. destruct (paths_tree F vs ps N) as (t & E & _ & R & M & Nn). exists (prune F false t (VObject l)). split.
  - unfold json_remove, json_select. destruct C as [-> | ->]; now rewrite E.
  - intros ts Nt. pose proof (tree_wt t ps _ R M W) as Wt. destruct (remove_leads F ts t l Nt K Wt) as [D V].
    assert (S : selected ps ts <-> covered ps ts \/ reach t ts).
    { rewrite (R ts Nt). unfold selected, covered. split; [ intros (p & I & [P | P]); [ left | right ]; now exists p | intros [(p & I & P) | (p & I & P)]; exists p; auto ]. }
    pose proof (tree_covered t ps ts M Nn) as Cv. split.
    + rewrite D. split; intros (v & L & N1 & N2); exists v; (split; [ exact L | ]); rewrite S in *; tauto.
    + intros v x Lv Lx. destruct (V v x Lv Lx) as [V1 V2]. split; [ | exact V2 ]. intros Ns. apply V1. rewrite S in Ns. tauto.
Qed.
(** Filter and remove share the leaves of the document out between them. *)
Theorem C39_leaves_partial : forall F l paths vs ps, string_keyed (VObject l) -> collection paths vs -> Forall2 names_path vs ps -> within_objects (VObject l) ps ->
  exists kept rest, json_filter F (VObject l) paths = ok kept /\ json_remove F (VObject l) paths = ok rest /\
  forall ts v, ts <> [] -> leaf v ->
    (leads kept ts v <-> leads (VObject l) ts v /\ selected ps ts) /\ (leads rest ts v <-> leads (VObject l) ts v /\ ~ selected ps ts).
Proof.
  intros F l paths vs ps K C N W. destruct (C39_filter_partial F l paths vs ps K C N W) as (d1 & E1 & H1). destruct (C39_remove_partial F l paths vs ps K C N W) as (d2 & E2 & H2).
  exists d1, d2. split; [ exact E1 | ]. split; [ exact E2 | ]. intros ts v Nt Lf. destruct (H1 ts Nt) as [D1 V1]. destruct (H2 ts Nt) as [D2 V2]. split; split.
  - intros L. destruct (proj1 D1 (ex_intro _ v L)) as [(w & Lw) S]. split; [ | exact S ]. destruct (V1 w v Lw L) as [Q1 Q2]. rewrite Q1; auto.
  - intros [L S]. destruct (proj2 D1 (conj (ex_intro _ v L) S)) as (x & Lx). destruct (V1 v x L Lx) as [Q1 _]. rewrite <- Q1; auto.
  - intros L. destruct (proj1 D2 (ex_intro _ v L)) as (w & Lw & Nc & Ns). destruct (V2 w v Lw L) as [_ Q2]. specialize (Q2 Lf). subst w. auto.
  - intros [L S]. destruct (proj2 D2) as (x & Lx).
    + exists v. split; [ exact L | ]. split; [ | auto ]. intros (p & I & P). apply S. exists p. auto.
    + destruct (V2 v x L Lx) as [Q1 _]. rewrite <- Q1; auto.
Qed.
(** Below a member that is an array: the elements whose indices are given. *)
Theorem C39_elements_partial : forall F k l is vs paths, is <> [] -> collection paths vs -> Forall2 names_path vs (map (fun i => [k; dec (Z.of_nat i)]) is) ->
  json_filter F (VObject [(VString k, VArray l)]) paths = ok (VObject [(VString k, VArray (elements_at (fun i => existsb (Nat.eqb i) is) l))]) /\
  json_remove F (VObject [(VString k, VArray l)]) paths = ok (VObject [(VString k, VArray (elements_at (fun i => negb (existsb (Nat.eqb i) is)) l))]).
Proof.
  intros F k l is vs paths Ni C N. destruct (paths_tree F vs _ N) as (t & E & _ & R & M & _).
  assert (Rk : reach t [k]). { apply R; [ discriminate | ]. destruct is as [ | i is ]; [ congruence | ]. exists [k; dec (Z.of_nat i)]. split; [ now left | now exists [dec (Z.of_nat i)] ]. }
  destruct Rk as (c & Ec). cbn [node] in Ec. destruct (sm_find k (p_children t)) as [c' | ] eqn:Fk; [ injection Ec as -> | discriminate ].
  assert (Tc : p_terminal c = false).
  { destruct (p_terminal c) eqn:T; [ exfalso | reflexivity ]. assert (Q : marked t [k]) by (exists c; cbn [node]; now rewrite Fk). apply M in Q. apply in_map_iff in Q as (i & Q & _). discriminate. }
  assert (El : forall i, match sm_find (dec (Z.of_nat i)) (p_children c) with Some d => p_terminal d = true /\ existsb (Nat.eqb i) is = true | None => existsb (Nat.eqb i) is = false end).
  { intros i. destruct (existsb (Nat.eqb i) is) eqn:Q.
    - apply existsb_exists in Q as (j & I & Q). apply Nat.eqb_eq in Q. subst j. assert (Mi : marked t [k; dec (Z.of_nat i)]) by (apply M, in_map_iff; eauto).
      destruct Mi as (d & Ed & Td). cbn [node] in Ed. rewrite Fk in Ed. destruct (sm_find (dec (Z.of_nat i)) (p_children c)); [ | discriminate ]. injection Ed as ->. auto.
    - destruct (sm_find (dec (Z.of_nat i)) (p_children c)) as [d | ] eqn:Fd; [ exfalso | reflexivity ].
      assert (Ri : reach t [k; dec (Z.of_nat i)]) by (exists d; cbn [node]; now rewrite Fk, Fd). apply R in Ri as (p & I & (r & P)); [ | discriminate ].
      apply in_map_iff in I as (j & <- & I). injection P as P _. apply dec_inj, Nat2Z.inj in P. subst j. assert (X : existsb (Nat.eqb i) is = true) by (apply existsb_exists; exists i; split; [ exact I | apply Nat.eqb_refl ]). congruence. }
  assert (P : forall keep, prune F keep t (VObject [(VString k, VArray l)]) = VObject [(VString k, VArray (elements_at (fun i => if keep then existsb (Nat.eqb i) is else negb (existsb (Nat.eqb i) is)) l))]).
  { intros keep. rewrite prune_object. cbn [flat_map item indexable]. rewrite Fk, Tc, prune_array. unfold elements_at. now rewrite (elements_spec F keep c _ El l 0). }
  unfold json_filter, json_remove, json_select. destruct C as [-> | ->]; rewrite E, (P true), (P false); auto.
Qed.
Definition doc2 : value :=
  VObject [(VString $"a", VObject [(VString $"b", VInt $"1"); (VString $"c", VArray [VInt $"2"])]); (VString $"d", VObject []); (VString $"e", VString $"x")].
Definition paths2 : list value := [VString $"a/c"; VArray [VString $"d"; VInt $"0"]; VString $"e/f"].
Example C39_hypotheses : string_keyed doc2 /\ Forall2 names_path paths2 [[$"a"; $"c"]; [$"d"; $"0"]; [$"e"; $"f"]] /\ within_objects doc2 [[$"a"; $"c"]; [$"d"; $"0"]; [$"e"; $"f"]].
Proof.
  assert (Kd : forall l : list (str * value), NoDup (map fst l) -> Forall (fun kv => string_keyed (snd kv)) l -> string_keyed (VObject (map (fun kv => (VString (fst kv), snd kv)) l))) by (intros; now apply sk_object).
  split; [ | split ].
  - apply (Kd [($"a", VObject [(VString $"b", VInt $"1"); (VString $"c", VArray [VInt $"2"])]); ($"d", VObject []); ($"e", VString $"x")]).
    + repeat constructor; vm_compute; intuition discriminate.
    + constructor; [ | constructor; [ | constructor; [ | constructor ] ] ]; cbn [snd].
      * apply (Kd [($"b", VInt $"1"); ($"c", VArray [VInt $"2"])]); [ repeat constructor; vm_compute; intuition discriminate | repeat constructor; intros ? ?; discriminate ].
      * apply (Kd []); constructor.
      * apply sk_leaf. intros ? ?. discriminate.
  - unfold paths2. constructor; [ | constructor; [ | constructor; [ | constructor ] ] ].
    + apply (np_text [$"a"; $"c"]); [ discriminate | repeat constructor; vm_compute; intuition discriminate ].
    + apply (np_array [VString $"d"; VInt $"0"] [$"d"; $"0"]); [ discriminate | constructor; [ now left | constructor; [ now right | constructor ] ] ].
    + apply (np_text [$"e"; $"f"]); [ discriminate | repeat constructor; vm_compute; intuition discriminate ].
  - intros p q v I L A. unfold doc2 in L. cbn [In] in I. destruct q as [ | q0 q ]; [ reflexivity | exfalso ].
    destruct p as [ | p0 p ]; [ apply leads_nil in L; subst v; destruct A as [(l & A) | (l & A)]; discriminate | ].
    assert (Lp : p = []) by (destruct p as [ | ? [ | ] ]; auto; repeat destruct I as [I | I]; try contradiction; discriminate). subst p.
    apply leads_cons in L as (l & w & E & In0 & L). injection E as <-. apply leads_nil in L. subst v. cbn [In] in In0.
    repeat destruct In0 as [In0 | In0]; try contradiction; injection In0 as _ <-; destruct A as [(m & A) | (m & A)]; discriminate.
Qed.
Example C39_example :
  json_filter fops0 doc2 (VArray paths2) = ok (VObject [(VString $"a", VObject [(VString $"c", VArray [VInt $"2"])]); (VString $"d", VObject []); (VString $"e", VString $"x")]) /\
  json_remove fops0 doc2 (VArray paths2) = ok (VObject [(VString $"a", VObject [(VString $"b", VInt $"1")]); (VString $"d", VObject [])]).
Proof. vm_compute. auto. Qed.

(** Departures: removing a path that leads beyond a scalar removes the scalar; members whose keys are not strings are lost, even
    when no path is given; a leading slash makes an empty first key; members of a set are matched by their JSON text. *)
Theorem C39_departures_refuted :
  json_remove fops0 (obj1 "a" (VInt $"3")) (VArray [VString $"a/b"]) = ok (VObject []) /\
  json_remove fops0 (VObject [(VInt $"1", VNull)]) (VArray []) = ok (VObject []) /\
  json_filter fops0 (obj1 "a" VNull) (VArray [VString $"/a"]) = ok (VObject []) /\
  json_filter fops0 (obj1 "a" (VSet [VString $"x"])) (VArray [VString $"a/x"]) = ok (obj1 "a" (VSet [])).
Proof. vm_compute. auto. Qed.

Print Assumptions C38_pointer.
Print Assumptions C38_leading_zero.
Print Assumptions C38_set.
Print Assumptions C38_path_array.
Print Assumptions C38_patch_partial.
Print Assumptions C38_tests_first_refuted.
Print Assumptions C38_departures_refuted.
Print Assumptions C38_undefined_refuted.
Print Assumptions C38_path_array_refuted.
Print Assumptions C39_filter_partial.
Print Assumptions C39_remove_partial.
Print Assumptions C39_leaves_partial.
Print Assumptions C39_elements_partial.
Print Assumptions C39_departures_refuted.
