(** C34 (base64, base64url, hex), C35 (urlquery) and C54 (URIs). *)
From Coq Require Import String ZArith List Bool Lia.
From Verif Require Import Base SMap SMapFacts BigIntSpec ValueModel ValueSpec ResolverModel VmModel StrModel StrSpec StrProofs EncModel EncSpec EncProofs UriProofs.
Import ListNotations.
Local Open Scope Z_scope.
Local Open Scope list_scope.

(** ** C34 *)

Lemma exists_last_default {A} (t : A) ts d d' : last (t :: ts) d = last (t :: ts) d'.
Proof. revert t. induction ts; intros t; [ reflexivity | ]. change (last (a :: ts) d = last (a :: ts) d'). apply IHts. Qed.

(** The encoder follows RFC 4648 for every byte string, in both alphabets. *)
Theorem C34_encode url s : octets s -> rfc4648 url s (base64_encode s url).
Proof. apply encode_rfc. Qed.
Print Assumptions C34_encode.
(** The decoder reads every RFC 4648 text of either alphabet, padded or not. *)
Theorem C34_decode url s t : octets s -> rfc4648 url s t ->
  base64_decode t = Ok s /\ exists u, unpadded t u /\ base64_decode u = Ok s.
Proof. intros H R. split; [ eapply decode_rfc; eauto | ]. destruct (rfc_unpadded url s t H R) as (u & U & D & _). eauto. Qed.
Print Assumptions C34_decode.
Example C34_decode_ex : rfc4648 false $"Many ha" $"TWFueSBoYQ==" /\ base64_decode $"TWFueSBoYQ" = Ok $"Many ha".
Proof. split; [ apply (C34_encode false $"Many ha"); repeat constructor; lia | reflexivity ]. Qed.

(** Bare strings: a string value is never quoted twice. *)
Lemma mkstr_id t : escaped t = true -> mkstr t = VString t.
Proof.
  unfold mkstr, strip_quotes. intros H. replace (is_quoted t) with false; [ reflexivity | ]. destruct t as [ | c [ | d t ] ]; auto.
  cbn [is_quoted]. destruct (c =? 34) eqn:E; auto. exfalso. revert H. cbn [escaped]. rewrite E. discriminate.
Qed.
Lemma b64_no_quote t : octets t -> forall url, mkstr (base64_encode t url) = VString (base64_encode t url).
Proof.
  intros O url. unfold mkstr, strip_quotes. replace (is_quoted _) with false; [ reflexivity | ]. pose proof (encode_rfc url t O) as R.
  assert (Q : forall c d, digit64 url c d -> (c =? 34) = false).
  { intros c d D. destruct (c =? 34) eqn:E; auto. apply Z.eqb_eq in E. subst c. apply digit_pos in D. destruct D as [D _]. discriminate D. }
  destruct R; auto; cbn [is_quoted]; erewrite Q by eassumption; reflexivity.
Qed.
(** The builtins: decoding undoes encoding for every string value.  What is encoded is the JSON-escaped text. *)
Theorem C34_base64_round_trip url t : octets t -> escaped t = true ->
  exists e, b64_encode url (VString t) = Ok (RVal e) /\ b64_decode e = Ok (RVal (VString t)).
Proof.
  intros O E. cbn [b64_encode]. eexists. split; [ reflexivity | ]. rewrite b64_no_quote by auto. cbn [b64_decode].
  erewrite decode_rfc; [ | exact O | apply encode_rfc; exact O ]. cbn [obind]. unfold ok. now rewrite mkstr_id.
Qed.
Print Assumptions C34_base64_round_trip.
Example C34_base64_round_trip_ex : octets $"a\n" /\ escaped $"a\n" = true /\ b64_encode true (VString $"a\n") = Ok (RVal (VString $"YVxu")).
Proof. repeat split; repeat constructor; lia. Qed.
Theorem C34_no_pad_round_trip_partial t : octets t -> escaped t = true -> t <> [] ->
  exists e, b64url_encode_no_pad (VString t) = Ok (RVal (VString e)) /\ unpadded (base64_encode t true) e /\
    b64_decode (VString e) = Ok (RVal (VString t)).
Proof.
  intros O E N. destruct (rfc_unpadded true t _ O (encode_rfc true t O)) as (u & U & D & Nu). exists u.
  cbn [b64url_encode_no_pad]. rewrite (drop_unpadded _ _ U). specialize (Nu N).
  replace (match u with [] => true | _ => false end) with false by (destruct u; [ congruence | reflexivity ]). cbn [obind]. rewrite rev_involutive.
  split; [ | split; [ exact U | ] ].
  - unfold ok, mkstr, strip_quotes. replace (is_quoted u) with false; [ reflexivity | ].
    destruct U as (k & Ek & _). pose proof (encode_rfc true t O) as R.
    assert (Q : forall c d, digit64 true c d -> (c =? 34) = false).
    { intros c d Dg. destruct (c =? 34) eqn:E34; auto. apply Z.eqb_eq in E34. subst c. apply digit_pos in Dg. destruct Dg as [Dg _]. discriminate Dg. }
    destruct u as [ | c [ | d u ] ]; auto. cbn [is_quoted]. rewrite Ek in R. inversion R; subst; erewrite Q by eassumption; reflexivity.
  - cbn [b64_decode]. rewrite D. cbn [obind]. unfold ok. now rewrite mkstr_id.
Qed.
Print Assumptions C34_no_pad_round_trip_partial.
Example C34_no_pad_ex : b64url_encode_no_pad (VString $"a") = Ok (RVal (VString $"YQ")).
Proof. reflexivity. Qed.
(** Not for the empty string, whose encoding has no last character to look at. *)
Theorem C34_no_pad_refuted : b64url_encode_no_pad (VString []) = Ub.
Proof. reflexivity. Qed.

(** Malformed text makes the decoder throw; it never reads outside the text.  Exactly what is rejected is known for text without
    padding. *)
Theorem C34_decode_safe x : match b64_decode x with
  | Ok (RVal (VString _)) | Ok (RErr _) | Throw => True
  | _ => False end.
Proof. destruct x; cbn; auto. destruct (decode_outcomes t) as [[s ->] | ->]; exact I. Qed.
Print Assumptions C34_decode_safe.
Theorem C34_reject_unpadded t : ~ In 61 t -> ~ In 46 t ->
  ((exists s, base64_decode t = Ok s) <-> Forall alphabetic t /\ (length t mod 4 <> 1)%nat) /\
  ((forall s, base64_decode t <> Ok s) -> base64_decode t = Throw).
Proof.
  intros N1 N2. assert (P : Forall (fun c => pad_char c = false) t).
  { apply Forall_forall. intros c Hc. unfold pad_char. destruct (c =? 61) eqn:E1; [ apply Z.eqb_eq in E1; subst; now elim N1 | ].
    destruct (c =? 46) eqn:E2; [ apply Z.eqb_eq in E2; subst; now elim N2 | reflexivity ]. }
  destruct (decode_no_pad t P) as [((s & E) & A & M) | (E & A)]; rewrite E.
  - split; [ split; eauto | ]. intros H. now elim (H s).
  - split; [ | reflexivity ]. split; [ intros [s H]; discriminate | ]. intros [A' M]. destruct A; contradiction.
Qed.
Print Assumptions C34_reject_unpadded.
Example C34_reject_ex : base64_decode $"YWJ" = Ok $"ab" /\ base64_decode $"YW!J" = Throw /\ base64_decode $"YWJjY" = Throw.
Proof. repeat split; reflexivity. Qed.
(** A malformed text is an exception, not an error value; padding inside the text and anything after it is accepted; and
    base64.is_valid accepts text that cannot be decoded. *)
Theorem C34_error_refuted : b64_decode (VString $"YQ!!") = Throw.
Proof. reflexivity. Qed.
Theorem C34_padding_refuted :
  b64_decode (VString $"YQ==YQ==") = Ok (RVal (VString $"aa")) /\ b64_decode (VString $"YQ=!") = Ok (RVal (VString $"a")) /\
  ~ (exists url s, rfc4648 url s $"YQ==YQ==").
Proof.
  repeat split; try reflexivity. intros (url & s & H). inversion H; subst.
  match goal with D : digit64 _ 61 _ |- _ => now apply digit_not_pad in D end.
Qed.
Theorem C34_is_valid_refuted :
  b64_is_valid (VString $"YWJjY") = Ok (RVal VTrue) /\ b64_decode (VString $"YWJjY") = Throw /\
  b64_is_valid (VString [195; 169]) = Ub.
Proof. repeat split; reflexivity. Qed.
(** The decoded text is not escaped, and a text in quotes loses them. *)
Theorem C34_decode_value_refuted :
  b64_decode (VString (base64_encode [97; 34; 98] false)) = Ok (RVal (VString [97; 34; 98])) /\ escaped [97; 34; 98] = false /\
  b64_decode (VString (base64_encode [34; 97; 34] false)) = Ok (RVal (VString [97])).
Proof. repeat split; reflexivity. Qed.

(** Hex: decoding accepts exactly the pairs of hexadecimal digits and everything else is an error. *)
Theorem C34_hex_decode t :
  (forall s, hex_text s t -> hex_decode (VString t) = Ok (RVal (mkstr s))) /\
  ((forall s, ~ hex_text s t) -> hex_decode (VString t) = Ok (RErr EvalBuiltInError)).
Proof.
  cbn [hex_decode]. split.
  - intros s H. apply hex_pairs_spec in H. now rewrite H.
  - intros H. destruct (hex_pairs t) as [s | ] eqn:E; [ | reflexivity ]. apply hex_pairs_spec in E. now apply H in E.
Qed.
Print Assumptions C34_hex_decode.
Example C34_hex_decode_ex : hex_text $"Az" $"417A" /\ hex_decode (VString $"417A") = Ok (RVal (VString $"Az")) /\
  hex_decode (VString $"417") = Ok (RErr EvalBuiltInError).
Proof. repeat split; try reflexivity. now apply hex_pairs_spec. Qed.
Lemma hex_encode_text s : ascii s -> hex_text s (flat_map hex_byte s) /\ Forall (fun c => In c $"0123456789abcdef") (flat_map hex_byte s).
Proof.
  induction 1 as [ | c s Hc Hs [IH1 IH2] ]; [ split; constructor | ]. cbn [flat_map].
  destruct (hex_byte_ascii c Hc) as (a & b & x & y & -> & Da & Db & -> & Ia & Ib). cbn [app]. split; [ now constructor | ]. repeat (constructor; auto).
Qed.
Theorem C34_hex_round_trip_partial t : ascii t -> escaped t = true ->
  exists e, hex_encode (VString t) = Ok (RVal (VString e)) /\ hex_text t e /\ Forall (fun c => In c $"0123456789abcdef") e /\
    hex_decode (VString e) = Ok (RVal (VString t)).
Proof.
  intros A E. destruct (hex_encode_text t A) as [H L]. exists (flat_map hex_byte t). split; [ | split; [ exact H | split; [ exact L | ] ] ].
  - cbn [hex_encode]. unfold ok, mkstr, strip_quotes. replace (is_quoted _) with false; [ reflexivity | ]. destruct (flat_map hex_byte t) as [ | c [ | d l ] ]; auto.
    cbn [is_quoted]. destruct (c =? 34) eqn:Ec; auto. apply Z.eqb_eq in Ec. subst c. inversion L as [ | ? ? L1 _ ]; subst.
    apply existsb_eqb in L1. discriminate L1.
  - rewrite (proj1 (C34_hex_decode _) t H). now rewrite mkstr_id.
Qed.
Print Assumptions C34_hex_round_trip_partial.
Example C34_hex_round_trip_ex : hex_encode (VString $"a~\n") = Ok (RVal (VString $"617e5c6e")) /\ ascii $"a~\n" /\ escaped $"a~\n" = true.
Proof. repeat split; repeat constructor; lia. Qed.
(** Not for other characters: a byte from 128 on is printed as a negative number. *)
Theorem C34_hex_round_trip_refuted :
  hex_encode (VString [195; 169]) = Ok (RVal (VString $"ffffffc3ffffffa9")) /\
  exists r, hex_decode (VString $"ffffffc3ffffffa9") = Ok (RVal r) /\ r <> VString [195; 169].
Proof. split; [ reflexivity | ]. eexists. split; [ reflexivity | discriminate ]. Qed.

(** ** C35 *)

(** Encoding: unreserved characters and upper-case escapes only; decoding gives the text back. *)
Theorem C35_query_round_trip_partial J s : json_ok J -> ascii s ->
  exists e, urlquery_encode J (VString (j_escape J s)) = Ok (RVal (VString e)) /\
    only_unreserved e /\ pct_text s e /\ urlquery_decode J (VString e) = Ok (RVal (VString (j_escape J s))).
Proof.
  intros JOK A. destruct (query_encode_spec s A) as (t & E & P & O & _). exists t.
  assert (Ht : j_escape J t = t).
  { destruct JOK as (_ & _ & H). apply H. clear -O. induction O as [ | c t U O IH | a b t Ia Ib O IH ]; [ constructor | | ].
    - constructor; auto. assert (Q : forallb (fun c => (32 <=? c) && (c <? 127) && negb (c =? 34) && negb (c =? 92))
        $"ABCDEFGHIJKLMNOPQRSTUVWXYZabcdefghijklmnopqrstuvwxyz0123456789-._~" = true) by reflexivity.
      rewrite forallb_forall in Q. specialize (Q c U). lia.
    - assert (Q : forallb (fun c => (32 <=? c) && (c <? 127) && negb (c =? 34) && negb (c =? 92)) $"0123456789ABCDEF" = true) by reflexivity.
      rewrite forallb_forall in Q. pose proof (Q a Ia). pose proof (Q b Ib).
      constructor; [ lia | ]. constructor; [ lia | ]. constructor; [ lia | auto ]. }
  split; [ | split; [ exact O | split; [ exact P | ] ] ].
  - cbn [urlquery_encode]. rewrite raw_escape, E by auto. cbn [obind]. unfold ok. now rewrite quoted_string_eq, Ht.
  - cbn [urlquery_decode]. rewrite <- Ht at 1. rewrite raw_escape by auto. apply query_decode_spec in P. rewrite P. cbn [obind]. unfold ok.
    now rewrite quoted_string_eq.
Qed.
Print Assumptions C35_query_round_trip_partial.
Lemma jescape_unescaped s : unescaped (jescape s) = s.
Proof.
  induction s as [ | c s IH ]; [ reflexivity | ]. cbn [jescape]. destruct ((c =? 34) || (c =? 92)) eqn:E.
  - cbn [unescaped]. change (92 =? 92) with true. cbv iota. cbn [unescaped].
    replace ((c =? 34) || (c =? 92) || (c =? 47)) with true by (rewrite E; reflexivity). now rewrite IH.
  - apply orb_false_elim in E. destruct E as [_ E]. cbn [unescaped]. now rewrite E, IH.
Qed.
Lemma json_ops0_ok : json_ok json_ops0.
Proof.
  split; [ exact jescape_unescaped | split ].
  - cbn [j_escape json_ops0]. induction s as [ | c s IH ]; [ reflexivity | ]. cbn [jescape]. destruct ((c =? 34) || (c =? 92)) eqn:E.
    + cbn [json_text]. change (92 =? 34) with false. change (92 =? 92) with true. cbv iota. rewrite IH.
      cbn [existsb]. apply orb_prop in E. destruct E as [-> | ->]; rewrite ?orb_true_r; reflexivity.
    + apply orb_false_elim in E. destruct E as [E1 E2]. cbn [json_text]. now rewrite E1, E2.
  - cbn [j_escape json_ops0]. induction 1 as [ | c s Hc Hs IH ]; [ reflexivity | ]. cbn [jescape].
    replace ((c =? 34) || (c =? 92)) with false by lia. now rewrite IH.
Qed.
Example C35_query_round_trip_ex : json_ok json_ops0 /\
  urlquery_encode json_ops0 (VString $"a b&c/d") = Ok (RVal (VString $"a%20b%26c%2Fd")).
Proof. split; [ exact json_ops0_ok | reflexivity ]. Qed.
(** A string with other characters cannot be encoded: they are negative arguments of [isalnum]. *)
Theorem C35_encode_refuted : urlquery_encode json_ops0 (VString [195; 169]) = Ub.
Proof. reflexivity. Qed.
(** Decoding accepts exactly the percent-encoded texts; every other text is undefined behaviour instead of an error. *)
Theorem C35_decode J t : json_ok J ->
  (forall s, pct_text s t -> urlquery_decode J (VString (j_escape J t)) = Ok (RVal (VString (j_escape J s)))) /\
  ((forall s, ~ pct_text s t) -> urlquery_decode J (VString (j_escape J t)) = Ub).
Proof.
  intros JOK. cbn [urlquery_decode]. rewrite raw_escape by auto. split.
  - intros s H. apply query_decode_spec in H. rewrite H. cbn [obind]. unfold ok. now rewrite quoted_string_eq.
  - intros H. now rewrite (query_decode_else t H).
Qed.
Print Assumptions C35_decode.
Theorem C35_malformed_refuted : (forall s, ~ pct_text s $"100%") /\ urlquery_decode json_ops0 (VString $"100%") = Ub.
Proof. split; [ intros s H; apply query_decode_spec in H; discriminate | reflexivity ]. Qed.
Example C35_decode_ex : pct_text $"a b" $"a%20b" /\ urlquery_decode json_ops0 (VString $"a%20b") = Ok (RVal (VString $"a b")).
Proof. split; [ now apply query_decode_spec | reflexivity ]. Qed.
(** Two or more parameters: every name has the values given to it, in order. *)
Theorem C35_decode_object_partial J F ts ps :
  json_ok J -> Forall2 parameter ts ps -> Forall (fun t => ~ In 38 t) ts -> last ts [0] <> [] -> (2 <= length ts)%nat ->
  exists o, urlquery_decode_object J F (VString (j_escape J (intercalate [38] ts))) = Ok (RVal (VObject o)) /\ NoDup o /\
    forall k v, In (k, v) o <->
      exists name, values_of name ps <> [] /\ k = VString (j_escape J name) /\
        v = VArray (map (fun x => VString (j_escape J x)) (values_of name ps)).
Proof. intros JOK. now apply decode_object_many. Qed.
Print Assumptions C35_decode_object_partial.
Example C35_decode_object_ex F : parameter $"a=1" ($"a", $"1") /\ parameter $"b" ($"b", []) /\
  urlquery_decode_object json_ops0 F (VString $"a=1&b&a=%32") =
    Ok (RVal (VObject [(VString $"a", VArray [VString $"1"; VString $"2"]); (VString $"b", VArray [VString []])])).
Proof.
  split; [ | split; [ | reflexivity ] ].
  - apply (param_value $"a" $"1" $"a" $"1"); [ intros [H | []]; discriminate | now apply query_decode_spec .. ].
  - apply (param_bare $"b" $"b"); [ intros [H | []]; discriminate | now apply query_decode_spec ].
Qed.
(** Encoding an object: one parameter for every name and value, in order; decoding the result gives every name its values. *)
Theorem C35_encode_object_partial J l ps : json_ok J -> parameters J l ps -> Forall (fun p => ascii (fst p) /\ ascii (snd p)) ps ->
  exists ts, urlquery_encode_object J (VObject l) = Ok (RVal (VString (intercalate [38] ts))) /\ Forall2 parameter ts ps /\
    Forall (fun t => ~ In 38 t) ts /\
    ((2 <= length ps)%nat -> forall F, exists o,
       urlquery_decode_object J F (VString (intercalate [38] ts)) = Ok (RVal (VObject o)) /\ NoDup o /\
       forall k v, In (k, v) o <->
         exists name, values_of name ps <> [] /\ k = VString (j_escape J name) /\
           v = VArray (map (fun x => VString (j_escape J x)) (values_of name ps))).
Proof.
  intros JOK P A. destruct (encode_object_spec J JOK l ps P A) as (ts & E & Q & F2 & G). exists ts.
  assert (N : Forall (fun t => ~ In 38 t) ts) by (eapply Forall_impl; [ | exact G ]; intros t (H & _); exact H).
  repeat split; auto. intros L F. rewrite <- Q. apply decode_object_many; auto.
  - assert (H : In 61 (last ts [61])).
    { clear -G. induction ts as [ | t ts IH ]; [ now left | ]. inversion G as [ | ? ? (_ & H & _) G' ]; subst. cbn [last]. destruct ts; auto. }
    destruct ts as [ | t ts ]; [ discriminate | ]. intros H0. unfold str, byte in *. rewrite (exists_last_default t ts [0] [61]) in H0. rewrite H0 in H. destruct H.
  - clear -F2 L. assert (Hl : forall ts ps, Forall2 parameter ts ps -> length ts = length ps) by (induction 1; cbn; congruence). apply Hl in F2. lia.
Qed.
Print Assumptions C35_encode_object_partial.
Example C35_encode_object_ex : urlquery_encode_object json_ops0 (VObject [(VString $"a", VArray [VString $"1"; VString $"=2"]); (VString $"b c", VString $"3")])
  = Ok (RVal (VString $"a=1&a=%3D2&b%20c=3")) /\
  parameters json_ops0 [(VString $"a", VArray [VString $"1"; VString $"=2"]); (VString $"b c", VString $"3")] [($"a", $"1"); ($"a", $"=2"); ($"b c", $"3")].
Proof.
  split; [ reflexivity | ]. apply (ps_array json_ops0 $"a" [$"1"; $"=2"] _ [($"b c", $"3")]); [ discriminate | ].
  apply (ps_one json_ops0 $"b c" $"3"). constructor.
Qed.
(** A name with no values leaves an empty parameter behind. *)
Theorem C35_empty_values_refuted :
  urlquery_encode_object json_ops0 (VObject [(VString $"a", VString $"1"); (VString $"b", VArray []); (VString $"c", VString $"2")])
  = Ok (RVal (VString $"a=1&&c=2")).
Proof. reflexivity. Qed.
(** A single parameter is recorded twice. *)
Theorem C35_single_refuted J F t p : json_ok J -> parameter t p -> ~ In 38 t -> t <> [] ->
  exists o, urlquery_decode_object J F (VString (j_escape J t)) = Ok (RVal (VObject o)) /\
    forall k v, In (k, v) o <->
      k = VString (j_escape J (fst p)) /\ v = VArray [VString (j_escape J (snd p)); VString (j_escape J (snd p))].
Proof. intros JOK. now apply decode_object_one. Qed.
Print Assumptions C35_single_refuted.
Example C35_single_ex F : urlquery_decode_object json_ops0 F (VString $"a=1") = Ok (RVal (VObject [(VString $"a", VArray [VString $"1"; VString $"1"])])).
Proof. reflexivity. Qed.

(** ** C54 *)

(** uri.parse describes exactly the valid URI references: their five parts, host and port, with percent escapes decoded. *)
Theorem C54_parse t u : url_parse t = Some u <-> uri_means t u.
Proof. apply url_parse_spec. Qed.
Print Assumptions C54_parse.
Theorem C54_parts t : exists scheme authority path query fragment, uri_parts t scheme authority path query fragment /\
  forall scheme' authority' path' query' fragment', uri_parts t scheme' authority' path' query' fragment' ->
    scheme' = scheme /\ authority' = authority /\ path' = path.
Proof.
  destruct (match_uri_parts t) as (sc & au & path & q & f & P). exists sc, au, path, q, f. split; [ exact P | ].
  intros sc' au' path' q' f' P'. pose proof (match_uri_some _ _ _ _ _ _ P) as M. rewrite (match_uri_some _ _ _ _ _ _ P') in M.
  injection M as M1 M2 M3 _ _. destruct P as (_ & H & _). destruct P' as (_ & H' & _). repeat split; auto.
  - destruct sc as [s | ], sc' as [s' | ]; cbn [dflt] in M1; try congruence.
    + destruct (H s eq_refl) as (c & r & -> & _). discriminate.
    + destruct (H' s' eq_refl) as (c & r & -> & _). discriminate.
  - destruct au, au'; cbn in M2; congruence.
Qed.
Print Assumptions C54_parts.
(** The builtins report what was found, or an error. *)
Theorem C54_builtin J t :
  (forall u, uri_means (j_unescape J t) u ->
     exists l, uri_parse J (VString t) = Ok (RVal (VObject l)) /\
       forall k v, In (VString k, VString v) l <-> v <> [] /\
         (k = $"scheme" /\ v = u_scheme u \/ k = $"hostname" /\ v = u_hostname u \/ k = $"port" /\ v = u_port u \/
          k = $"path" /\ v = u_path u \/ k = $"raw_query" /\ v = u_raw_query u \/ k = $"fragment" /\ v = u_fragment u \/
          k = $"raw_path" /\ u_path u <> [] /\ v = match u_raw_path u with [] => u_path u | p => p end)) /\
  ((forall u, ~ uri_means (j_unescape J t) u) -> uri_parse J (VString t) = Ok (RErr EvalBuiltInError)) /\
  (j_unescape J t <> [] -> (exists u, uri_means (j_unescape J t) u) -> uri_is_valid J (VString t) = Ok (RVal VTrue)) /\
  (j_unescape J t = [] \/ (forall u, ~ uri_means (j_unescape J t) u) -> uri_is_valid J (VString t) = Ok (RVal VFalse)) /\
  (forall v, (forall t, v <> VString t) -> uri_is_valid J v = Ok (RVal VFalse)).
Proof.
  split; [ | split; [ | split; [ | split ] ] ].
  - intros u H. apply url_parse_spec in H. cbn [uri_parse]. rewrite H. exists (uri_items u). split; [ reflexivity | ]. intros k v.
    unfold uri_items.
    assert (I : forall n x, In (VString k, VString v) (item n x) <-> v <> [] /\ k = n /\ v = x).
    { intros n x. unfold item. destruct x as [ | c x ]; cbn [In].
      - split; [ tauto | ]. intros (Hv & _ & ->). congruence.
      - split; [ intros [E | []]; injection E as <- <-; repeat split; discriminate | ]. intros (_ & -> & ->). now left. }
    rewrite !in_app_iff, !I.
    assert (P : In (VString k, VString v) match u_path u with [] => [] | p => [(VString $"path", VString p); (VString $"raw_path", VString (match u_raw_path u with [] => p | q => q end))] end
      <-> v <> [] /\ (k = $"path" /\ v = u_path u \/ k = $"raw_path" /\ u_path u <> [] /\ v = match u_raw_path u with [] => u_path u | p => p end)).
    { destruct (u_path u) as [ | c p ]; cbn [In].
      - split; [ tauto | ]. intros (Hv & [[_ ->] | (_ & Hp & _)]); congruence.
      - split.
        + intros [E | [E | []]]; injection E as <- <-; (split; [ | ]); try discriminate; auto.
          * destruct (u_raw_path u); discriminate.
          * right. repeat split; auto. discriminate.
        + intros (Hv & [[-> ->] | (-> & _ & ->)]); auto. }
    rewrite P. tauto.
  - intros H. cbn [uri_parse]. destruct (url_parse (j_unescape J t)) as [u | ] eqn:E; [ | reflexivity ]. apply url_parse_spec in E. now apply H in E.
  - intros Hn [u Hu]. apply url_parse_spec in Hu. cbn [uri_is_valid]. destruct (j_unescape J t) as [ | c s ] eqn:Et; [ congruence | ]. now rewrite Hu.
  - intros H. cbn [uri_is_valid]. destruct (j_unescape J t) as [ | c s ] eqn:Et; [ reflexivity | ]. destruct H as [ H | H ]; [ discriminate | ].
    destruct (url_parse (c :: s)) as [u | ] eqn:E; [ | reflexivity ]. apply url_parse_spec in E. now apply H in E.
  - intros v Hv. destruct v; try reflexivity. now destruct (Hv t0).
Qed.
Print Assumptions C54_builtin.
Example C54_ex : exists u, uri_means $"HTTP://me@[::1%25eth0]:80/a%20b/%C3?x=1&y#f%21" u /\
  u_scheme u = $"http" /\ u_hostname u = $"::1%eth0" /\ u_port u = $"80" /\ u_path u = $"/a b/" ++ [195] /\ u_raw_query u = $"x=1&y" /\ u_fragment u = $"f!".
Proof. eexists. rewrite <- C54_parse. split; [ vm_compute; reflexivity | repeat split; reflexivity ]. Qed.
(** The raw path is the text of the path only if that text is not the canonical encoding; and the parts are put into string
    values without escaping. *)
Theorem C54_raw_path_refuted : exists l, uri_parse json_ops0 (VString $"/a%20b") = Ok (RVal (VObject l)) /\
  In (VString $"raw_path", VString $"/a b") l.
Proof. eexists. split; [ reflexivity | ]. cbn. auto. Qed.
Theorem C54_escaping_refuted : exists l p, uri_parse json_ops0 (VString $"/a%22b") = Ok (RVal (VObject l)) /\
  In (VString $"path", VString p) l /\ escaped p = false.
Proof. eexists. exists $"/a""b". split; [ reflexivity | ]. split; [ cbn; auto | reflexivity ]. Qed.
