(** C69: digests and message authentication codes are those of the strings. *)
From Coq Require Import String ZArith List Bool Lia.
From Verif Require Import Base ValueModel ResolverModel EncSpec EncProofs JwtModel JwtProofs JwtSignProofs PrintSpec CryptoModel.
Import ListNotations.
Local Open Scope Z_scope.
Local Open Scope list_scope.

(** The library yields octets. *)
Definition lib_octets (L : hash_lib) : Prop := (forall h s, octets (h_digest L h s)) /\ (forall h k s, octets (h_hmac L h k s)).
Definition lower_hex (t : str) : Prop := Forall (fun c => In c $"0123456789abcdef") t.
(** [x] is the value of a string with the lower-case hexadecimal text of the octets [s]. *)
Definition hex_value_of (s : str) (r : res) : Prop := exists x, r = RVal (VString x) /\ hex_text s x /\ lower_hex x.
(** A text without escapes stands for itself. *)
Definition plain (t : str) : Prop := Forall (fun c => c <> 92) t.

Lemma to_hex_bytes s : octets s -> to_hex s = bytes_to_hex s.
Proof.
  intro O. unfold to_hex, bytes_to_hex. induction O as [|c s R O IH]; [reflexivity|]. cbn [flat_map]. rewrite IH.
  assert (E : Z.land (Z.shiftr c 4) 15 = Z.shiftr c 4).
  { change 15 with (Z.ones 4). rewrite Z.land_ones by lia. apply Z.mod_small. rewrite Z.shiftr_div_pow2 by lia. split; [apply Z.div_pos; lia|apply Z.div_lt_upper_bound; lia]. }
  rewrite E. reflexivity.
Qed.
Lemma to_hex_value s : octets s -> hex_value_of s (RVal (VString (to_hex s))).
Proof. intro O. exists (to_hex s). rewrite (to_hex_bytes s O). split; [reflexivity|]. split; [now apply bytes_to_hex_spec|now apply bytes_to_hex_lower]. Qed.
Lemma plain_denotes t s : plain t -> denotes t s -> s = t.
Proof.
  intros P D. induction D as [|c t s A B C D IH|c t s I D IH|c d t s I D IH]; [reflexivity| | |].
  - inversion P; subst. f_equal. auto.
  - inversion P; subst. congruence.
  - inversion P; subst. congruence.
Qed.
Lemma differences_zero a : forall b r, length a = length b -> octets a -> octets b -> (differences a b r = 0 <-> r = 0 /\ a = b).
Proof.
  induction a as [|x a IH]; intros [|y b] r E A B; try discriminate; cbn [differences]; [tauto|]. injection E as E. inversion A; inversion B; subst. rewrite IH by assumption.
  rewrite Z.lor_eq_0_iff, Z.lxor_eq_0_iff. split; [intros [[-> ->] ->]; auto|]. intros [-> H]. injection H as -> ->. auto.
Qed.
Lemma macs_equal_iff a b : octets a -> octets b -> (macs_equal a b = true <-> a = b).
Proof.
  intros A B. unfold macs_equal. destruct (Nat.eqb_spec (length a) (length b)) as [E|N].
  - rewrite Z.eqb_eq, (differences_zero a b 0 E A B). tauto.
  - split; [discriminate|]. intros ->. congruence.
Qed.
Lemma hex_injective s s' t : hex_text s t -> hex_text s' t -> s = s'.
Proof. intros A B. apply hex_pairs_spec in A, B. congruence. Qed.

(** The digest of the octets of a string without escapes. *)
Theorem C69_digest_partial : forall L h t s, lib_octets L -> plain t -> denotes t s -> hex_value_of (h_digest L h s) (crypto_digest L h (VString t)).
Proof. intros L h t s [O _] P D. rewrite (plain_denotes t s P D). apply to_hex_value, O. Qed.
(** The code of data under a key: the data is the first argument. *)
Theorem C69_hmac_partial : forall L h t s k u, lib_octets L -> plain t -> denotes t s -> plain k -> denotes k u ->
  hex_value_of (h_hmac L h u s) (crypto_hmac L h (VString t) (VString k)).
Proof. intros L h t s k u [_ O] P D Q E. rewrite (plain_denotes t s P D), (plain_denotes k u Q E). apply to_hex_value, O. Qed.
(** Comparison of codes, over the whole of both texts. *)
Theorem C69_equal : forall a b, octets a -> octets b ->
  (a = b -> crypto_hmac_equal (VString a) (VString b) = RVal VTrue) /\ (a <> b -> crypto_hmac_equal (VString a) (VString b) = RVal VFalse).
Proof.
  intros a b A B. unfold crypto_hmac_equal. pose proof (macs_equal_iff a b A B) as E. destruct (macs_equal a b); split; intro H; try reflexivity; exfalso; [apply H, E; reflexivity|].
  apply E in H. discriminate.
Qed.
(** A message is accepted exactly if its code is the one that was given. *)
Theorem C69_verify : forall L h t k t' k', lib_octets L ->
  exists m m', crypto_hmac L h (VString t) (VString k) = RVal m /\ crypto_hmac L h (VString t') (VString k') = RVal m' /\
  (crypto_hmac_equal m m' = RVal VTrue <-> h_hmac L h k t = h_hmac L h k' t').
Proof.
  intros L h t k t' k' [_ O]. exists (VString (to_hex (h_hmac L h k t))), (VString (to_hex (h_hmac L h k' t'))). split; [reflexivity|]. split; [reflexivity|].
  assert (X : forall s, octets s -> octets (to_hex s)).
  { intros s Os. rewrite (to_hex_bytes s Os). pose proof (bytes_to_hex_lower s Os) as F. revert F. apply Forall_impl. intros c C. cbn in C. intuition lia. }
  destruct (C69_equal _ _ (X _ (O h k t)) (X _ (O h k' t'))) as [E N]. split.
  - intro H. destruct (str_eq_dec (to_hex (h_hmac L h k t)) (to_hex (h_hmac L h k' t'))) as [Q|Q]; [|rewrite (N Q) in H; discriminate].
    destruct (to_hex_value _ (O h k t)) as (x & Ex & Hx & _). destruct (to_hex_value _ (O h k' t')) as (y & Ey & Hy & _). injection Ex as <-. injection Ey as <-. rewrite <- Q in Hy. eapply hex_injective; eassumption.
  - intro H. apply E. now rewrite H.
Qed.
(** Arguments that are no strings. *)
Theorem C69_types : forall L h v w, (forall t, v <> VString t) ->
  crypto_digest L h v = RErr EvalTypeError /\ crypto_hmac L h v w = RErr EvalTypeError /\ crypto_hmac L h w v = RErr EvalTypeError /\
  crypto_hmac_equal v w = RErr EvalTypeError /\ crypto_hmac_equal w v = RErr EvalTypeError.
Proof.
  intros L h v w N. destruct v as [| | |a|a|a|l|l|l|c]; try (now elim (N a)); repeat split; destruct w; reflexivity.
Qed.

(** A library that puts the key before the data, with the octets reduced. *)
Definition lib69 : hash_lib := {| h_digest := fun _ s => map (fun c => c mod 256) s; h_hmac := fun _ k s => map (fun c => c mod 256) (k ++ s) |}.
Lemma mod_octets s : octets (map (fun c => c mod 256) s).
Proof. apply Forall_map, Forall_forall. intros c _. apply Z.mod_pos_bound. lia. Qed.
Example C69_meets : lib_octets lib69 /\ plain $"ab" /\ denotes $"ab" $"ab" /\ crypto_hmac lib69 Sha256 (VString $"ab") (VString $"K") = RVal (VString $"4b6162").
Proof.
  split; [split; intros; apply mod_octets|]. split; [apply Forall_cons; [discriminate|apply Forall_cons; [discriminate|apply Forall_nil]]|]. split; [|vm_compute; reflexivity].
  repeat (apply dn_plain; [discriminate|discriminate|discriminate|]). apply dn_nil.
Qed.

(** What fails: of a string with escapes the digest is that of the text with the escapes, for a newline that of a backslash and an n. *)
Theorem C69_escapes_refuted : ~ forall L h t s, lib_octets L -> denotes t s -> hex_value_of (h_digest L h s) (crypto_digest L h (VString t)).
Proof.
  intro H. destruct (H lib69 Sha256 $"\n" [10]) as (x & E & X & _).
  - split; intros; apply mod_octets.
  - apply (dn_letter 110 10); [cbn; auto|constructor].
  - injection E as <-. apply hex_pairs_spec in X. vm_compute in X. discriminate X.
Qed.

Print Assumptions C69_digest_partial.
Print Assumptions C69_hmac_partial.
Print Assumptions C69_equal.
Print Assumptions C69_verify.
Print Assumptions C69_types.
Print Assumptions C69_escapes_refuted.
