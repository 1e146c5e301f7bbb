From Coq Require Import String ZArith List Bool Lia.
From Verif Require Import Base SMap SMapFacts BigIntSpec ValueModel ValueSpec ResolverModel VmModel StrModel StrSpec StrProofs EncModel EncSpec.
Import ListNotations.
Local Open Scope Z_scope.
Local Open Scope list_scope.

Lemma Some_inj {A} (a b : A) : Some a = Some b -> a = b.
Proof. congruence. Qed.
Lemma Ok_inj' {A} (a b : A) : Ok a = Ok b -> a = b.
Proof. congruence. Qed.

(** ** Checking all small numbers *)

Definition upto (n : nat) : list Z := map Z.of_nat (seq 0 n).
Lemma in_upto n a : 0 <= a < Z.of_nat n -> In a (upto n).
Proof. intros H. apply in_map_iff. exists (Z.to_nat a). split; [ lia | ]. apply in_seq. lia. Qed.
Lemma all_below n (P : Z -> bool) : forallb P (upto n) = true -> forall a, 0 <= a < Z.of_nat n -> P a = true.
Proof. intros H a Ha. rewrite forallb_forall in H. apply H, in_upto, Ha. Qed.
Lemma all_below2 n (P : Z -> Z -> bool) :
  forallb (fun a => forallb (P a) (upto n)) (upto n) = true -> forall a b, 0 <= a < Z.of_nat n -> 0 <= b < Z.of_nat n -> P a b = true.
Proof. intros H a b Ha Hb. apply (all_below n (P a)); auto. apply (all_below n (fun a => forallb (P a) (upto n))); auto. Qed.

(** ** Base 64 *)

Lemma bits_a a : 0 <= a < 256 -> Z.shiftr (Z.land a 252) 2 = a / 4 /\ Z.shiftl (Z.land a 3) 4 = a mod 4 * 16.
Proof.
  intros H. assert (Q := all_below 256 (fun a => (Z.shiftr (Z.land a 252) 2 =? a / 4) && (Z.shiftl (Z.land a 3) 4 =? a mod 4 * 16))
    ltac:(vm_compute; reflexivity) a H). apply andb_prop in Q. lia.
Qed.
Lemma bits_b a : 0 <= a < 256 -> Z.shiftr (Z.land a 240) 4 = a / 16 /\ Z.shiftl (Z.land a 15) 2 = a mod 16 * 4.
Proof.
  intros H. assert (Q := all_below 256 (fun a => (Z.shiftr (Z.land a 240) 4 =? a / 16) && (Z.shiftl (Z.land a 15) 2 =? a mod 16 * 4))
    ltac:(vm_compute; reflexivity) a H). apply andb_prop in Q. lia.
Qed.
Lemma bits_c a : 0 <= a < 256 -> Z.shiftr (Z.land a 192) 6 = a / 64 /\ Z.land a 63 = a mod 64.
Proof.
  intros H. assert (Q := all_below 256 (fun a => (Z.shiftr (Z.land a 192) 6 =? a / 64) && (Z.land a 63 =? a mod 64))
    ltac:(vm_compute; reflexivity) a H). apply andb_prop in Q. lia.
Qed.
Lemma byte1_eq p q : 0 <= p < 64 -> 0 <= q < 64 -> byte1 p q = p * 4 + q / 16.
Proof. intros Hp Hq. assert (Q := all_below2 64 (fun p q => byte1 p q =? p * 4 + q / 16) ltac:(vm_compute; reflexivity) p q Hp Hq). cbv beta in Q. lia. Qed.
Lemma byte2_eq p q : 0 <= p < 64 -> 0 <= q < 64 -> byte2 p q = p mod 16 * 16 + q / 4.
Proof. intros Hp Hq. assert (Q := all_below2 64 (fun p q => byte2 p q =? p mod 16 * 16 + q / 4) ltac:(vm_compute; reflexivity) p q Hp Hq). cbv beta in Q. lia. Qed.
Lemma byte3_eq p q : 0 <= p < 64 -> 0 <= q < 64 -> byte3 p q = p mod 4 * 64 + q.
Proof. intros Hp Hq. assert (Q := all_below2 64 (fun p q => byte3 p q =? p mod 4 * 64 + q) ltac:(vm_compute; reflexivity) p q Hp Hq). cbv beta in Q. lia. Qed.

Lemma alphabet_length url : length (alphabet url) = 64%nat.
Proof. now destruct url. Qed.
Lemma digit_range url c d : digit64 url c d -> 0 <= d < 64.
Proof. intros [H0 H]. assert (Z.to_nat d < length (alphabet url))%nat by (apply nth_error_Some; congruence). rewrite alphabet_length in *. lia. Qed.
Lemma char_at_digit url d : 0 <= d < 64 -> digit64 url (char_at url d) d.
Proof.
  intros H. split; [ lia | ]. unfold char_at. change (chars url) with (alphabet url). apply nth_error_nth'. rewrite alphabet_length. lia.
Qed.
Lemma digit_pos url c d : digit64 url c d -> pos_of_char c = Some d /\ pad_char c = false.
Proof.
  intros H. pose proof (digit_range _ _ _ H) as R. destruct H as [_ H].
  assert (Q := all_below 64 (fun d => match nth_error (alphabet url) (Z.to_nat d) with
    | Some c => (match pos_of_char c with Some p => p =? d | None => false end) && negb (pad_char c) | None => false end)
    ltac:(destruct url; vm_compute; reflexivity) d R). cbv beta in Q. rewrite H in Q. apply andb_prop in Q. destruct Q as [Q1 Q2].
  destruct (pos_of_char c) eqn:E; [ | discriminate ]. split; [ f_equal; lia | ]. now destruct (pad_char c).
Qed.
Lemma pos_digit c d : pos_of_char c = Some d -> exists url, digit64 url c d.
Proof.
  unfold pos_of_char. intros H.
  assert (Hc : 0 <= c < 128 /\ 0 <= d < 64).
  { repeat match type of H with context [if ?b then _ else _] => destruct b eqn:?E end; try discriminate; injection H as <-;
    repeat match goal with Q : (_ && _) = true |- _ => apply andb_prop in Q; destruct Q | Q : (_ || _) = true |- _ => apply orb_prop in Q; destruct Q end; lia. }
  destruct Hc as [Hc Hd].
  assert (Q := all_below 128 (fun c => match pos_of_char c with
     | Some d => (match nth_error (alphabet false) (Z.to_nat d) with Some x => x =? c | None => false end) ||
                 (match nth_error (alphabet true) (Z.to_nat d) with Some x => x =? c | None => false end)
     | None => true end) ltac:(vm_compute; reflexivity) c Hc).
  cbv beta in Q. unfold pos_of_char in Q. rewrite H in Q. apply orb_prop in Q. destruct Q as [Q | Q].
  - exists false. split; [ lia | ]. destruct (nth_error (alphabet false) _); [ f_equal; lia | discriminate ].
  - exists true. split; [ lia | ]. destruct (nth_error (alphabet true) _); [ f_equal; lia | discriminate ].
Qed.

(** Three elements at a time. *)
Lemma list3_ind {A} (P : list A -> Prop) :
  P [] -> (forall a, P [a]) -> (forall a b, P [a; b]) -> (forall a b c s, P s -> P (a :: b :: c :: s)) -> forall s, P s.
Proof.
  intros H0 H1 H2 H3. fix IH 1. intros [ | a [ | b [ | c s ] ] ]; [ exact H0 | apply H1 | apply H2 | apply H3, IH ].
Qed.
Lemma list4_ind {A} (P : list A -> Prop) :
  P [] -> (forall a, P [a]) -> (forall a b, P [a; b]) -> (forall a b c, P [a; b; c]) -> (forall a b c d s, P s -> P (a :: b :: c :: d :: s)) ->
  forall s, P s.
Proof.
  intros H0 H1 H2 H3 H4. fix IH 1. intros [ | a [ | b [ | c [ | d s ] ] ] ]; [ exact H0 | apply H1 | apply H2 | apply H3 | apply H4, IH ].
Qed.

Lemma div_mod_facts a : 0 <= a < 256 ->
  a = a / 4 * 4 + a mod 4 /\ 0 <= a / 4 < 64 /\ 0 <= a mod 4 < 4 /\ a = a / 16 * 16 + a mod 16 /\ 0 <= a / 16 < 16 /\ 0 <= a mod 16 < 16 /\
  a = a / 64 * 64 + a mod 64 /\ 0 <= a / 64 < 4 /\ 0 <= a mod 64 < 64.
Proof. intros H. repeat split; try (Z.div_mod_to_equations; lia). Qed.

Lemma encode_rfc url s : octets s -> rfc4648 url s (base64_encode s url).
Proof.
  unfold octets. induction s as [ | a | a b | a b c s IH ] using list3_ind; intros H; cbn [base64_encode].
  - constructor.
  - inversion H as [ | ? ? Ha _ ]; subst. destruct (bits_a a Ha) as [-> ->]. pose proof (div_mod_facts a Ha).
    eapply b64_one; [ apply char_at_digit; lia .. | lia ].
  - inversion H as [ | ? ? Ha Hb' ]; subst. inversion Hb' as [ | ? ? Hb _ ]; subst.
    destruct (bits_a a Ha) as [-> ->]. destruct (bits_b b Hb) as [-> ->].
    pose proof (div_mod_facts a Ha). pose proof (div_mod_facts b Hb).
    eapply b64_two; [ apply char_at_digit; lia .. | lia ].
  - inversion H as [ | ? ? Ha Hb' ]; subst. inversion Hb' as [ | ? ? Hb Hc' ]; subst. inversion Hc' as [ | ? ? Hc Hs ]; subst.
    destruct (bits_a a Ha) as [-> ->]. destruct (bits_b b Hb) as [-> ->]. destruct (bits_c c Hc) as [-> ->].
    pose proof (div_mod_facts a Ha). pose proof (div_mod_facts b Hb). pose proof (div_mod_facts c Hc).
    eapply b64_three; [ apply char_at_digit; lia .. | lia | auto ].
Qed.
Ltac digits := repeat match goal with H : digit64 _ _ _ |- _ =>
  let R := fresh "R" in pose proof (digit_range _ _ _ H) as R; let P1 := fresh "P" in let P2 := fresh "P" in
  destruct (digit_pos _ _ _ H) as [P1 P2]; clear H end.
Lemma byte_unique x y z : 0 <= x < 256 -> 0 <= y < 256 -> 0 <= z < 256 -> forall a b c, 0 <= a < 256 -> 0 <= b < 256 -> 0 <= c < 256 ->
  (x * 256 + y) * 256 + z = (a * 256 + b) * 256 + c -> x = a /\ y = b /\ z = c.
Proof. intros. lia. Qed.
Lemma decode_rfc url s t : octets s -> rfc4648 url s t -> base64_decode t = Ok s.
Proof.
  unfold octets. intros Hs H. revert Hs. induction H as [ | a c0 c1 d0 d1 D0 D1 E | a b c0 c1 c2 d0 d1 d2 D0 D1 D2 E
    | a b c c0 c1 c2 c3 d0 d1 d2 d3 s t D0 D1 D2 D3 E H IH ]; intros Hs.
  - reflexivity.
  - inversion Hs as [ | ? ? Ha _ ]; subst. digits. cbn [base64_decode]. unfold char_pos. rewrite P, P1. cbn [obind].
    change (pad_char 61) with true. cbn [obind app]. rewrite byte1_eq by lia.
    do 2 f_equal. Z.div_mod_to_equations; lia.
  - inversion Hs as [ | ? ? Ha Hb' ]; subst. inversion Hb' as [ | ? ? Hb _ ]; subst. digits.
    cbn [base64_decode]. unfold char_pos. rewrite P, P1, P3. cbn [obind]. rewrite P0. change (pad_char 61) with true. cbn [obind app].
    rewrite byte1_eq, byte2_eq by lia. do 2 f_equal; [ | f_equal ]; Z.div_mod_to_equations; lia.
  - inversion Hs as [ | ? ? Ha Hb' ]; subst. inversion Hb' as [ | ? ? Hb Hc' ]; subst. inversion Hc' as [ | ? ? Hc Hs' ]; subst.
    digits. cbn [base64_decode]. unfold char_pos in *. rewrite P, P1, P3, P5. cbn [obind].
    repeat match goal with Q : pad_char _ = false |- _ => rewrite Q; clear Q end. cbn [obind]. rewrite IH by assumption. cbn [obind app].
    rewrite byte1_eq, byte2_eq, byte3_eq by lia.
    destruct (byte_unique (d0 * 4 + d1 / 16) (d1 mod 16 * 16 + d2 / 4) (d2 mod 4 * 64 + d3)
      ltac:(Z.div_mod_to_equations; lia) ltac:(Z.div_mod_to_equations; lia) ltac:(Z.div_mod_to_equations; lia) a b c Ha Hb Hc
      ltac:(Z.div_mod_to_equations; lia)) as (-> & -> & ->). reflexivity.
Qed.

Lemma digit_not_pad url c d : digit64 url c d -> c <> 61.
Proof. intros H ->. apply digit_pos in H. destruct H as [_ H]. discriminate H. Qed.
Lemma rfc_unpadded url s t : octets s -> rfc4648 url s t ->
  exists u, unpadded t u /\ base64_decode u = Ok s /\ (s <> [] -> u <> []).
Proof.
  unfold octets. intros Hs H. revert Hs. induction H as [ | a c0 c1 d0 d1 D0 D1 E | a b c0 c1 c2 d0 d1 d2 D0 D1 D2 E
    | a b c c0 c1 c2 c3 d0 d1 d2 d3 s t D0 D1 D2 D3 E H IH ]; intros Hs.
  - exists []. repeat split; auto. exists O. split; auto.
  - exists [c0; c1]. pose proof (decode_rfc url [a] [c0; c1; 61; 61] Hs (b64_one _ _ _ _ _ _ D0 D1 E)) as Q.
    repeat split; [ exists 2%nat; split; [ reflexivity | ] | | discriminate ].
    + intros [-> | [-> | []]]; [ now apply digit_not_pad in D0 | now apply digit_not_pad in D1 ].
    + cbn [base64_decode] in *. destruct (char_pos c1); try discriminate Q. destruct (char_pos c0); exact Q.
  - exists [c0; c1; c2]. pose proof (decode_rfc url [a; b] [c0; c1; c2; 61] Hs (b64_two _ _ _ _ _ _ _ _ _ D0 D1 D2 E)) as Q.
    repeat split; [ exists 1%nat; split; [ reflexivity | ] | | discriminate ].
    + intros [-> | [-> | [-> | []]]]; [ now apply digit_not_pad in D0 | now apply digit_not_pad in D1 | now apply digit_not_pad in D2 ].
    + destruct (digit_pos _ _ _ D2) as [Q2 Q2']. cbn [base64_decode] in *. rewrite Q2' in *. unfold char_pos in *. rewrite Q2 in *.
      destruct (pos_of_char c1); try discriminate Q. destruct (pos_of_char c0); exact Q.
  - pose proof (decode_rfc url _ _ Hs (b64_three _ _ _ _ _ _ _ _ _ _ _ _ _ _ D0 D1 D2 D3 E H)) as Q.
    inversion Hs as [ | ? ? Ha Hb' ]; subst. inversion Hb' as [ | ? ? Hb Hc' ]; subst. inversion Hc' as [ | ? ? Hc Hs' ]; subst.
    destruct (IH Hs') as (u & (k & Hk & Hi) & Hd & Hn). exists (c0 :: c1 :: c2 :: c3 :: u). repeat split.
    + exists k. split; [ now rewrite Hk | ]. intros [-> | [-> | [-> | [-> | Hin]]]]; auto;
        match goal with D : digit64 _ 61 _ |- _ => now apply digit_not_pad in D end.
    + pose proof (decode_rfc url s t Hs' H) as Q'.
      cbn [base64_decode] in *. rewrite Q' in Q. now rewrite Hd.
    + discriminate.
Qed.
Lemma drop_padding_repeat k u : drop_padding (repeat 61 k ++ u) = drop_padding u.
Proof. induction k; cbn; auto. Qed.
Lemma drop_unpadded t u : unpadded t u -> drop_padding (rev t) = if match u with [] => true | _ => false end then Ub else Ok (rev u).
Proof.
  intros (k & -> & Hi). unfold str, byte in *. rewrite rev_app_distr.
  assert (Hr : rev (repeat 61 k) = repeat 61 k).
  { clear. induction k; cbn; auto. rewrite IHk. clear. induction k; cbn; auto. now rewrite IHk. }
  rewrite Hr, drop_padding_repeat. destruct u as [ | c u ] using rev_ind; [ reflexivity | ].
  rewrite rev_app_distr. cbn [rev app drop_padding]. destruct (c =? 61) eqn:E.
  - exfalso. apply Hi. apply in_or_app. right. left. lia.
  - now destruct u.
Qed.

Definition alphabetic (c : Z) : Prop := exists url d, digit64 url c d.
Lemma pos_alphabetic c : (exists d, pos_of_char c = Some d) <-> alphabetic c.
Proof.
  split.
  - intros [d H]. destruct (pos_digit c d H) as [url Hu]. now exists url, d.
  - intros (url & d & H). exists d. now apply digit_pos in H.
Qed.
Lemma decode_no_pad t : Forall (fun c => pad_char c = false) t ->
  (exists s, base64_decode t = Ok s) /\ Forall alphabetic t /\ (length t mod 4 <> 1)%nat \/
  base64_decode t = Throw /\ (~ Forall alphabetic t \/ (length t mod 4 = 1)%nat).
Proof.
  assert (N : forall c, pos_of_char c = None -> ~ alphabetic c).
  { intros c E A. apply pos_alphabetic in A. destruct A as [d A]. congruence. }
  assert (Y : forall c d, pos_of_char c = Some d -> alphabetic c) by (intros c d E; apply pos_alphabetic; eauto).
  induction t as [ | a | a b | a b c | a b c d s IH ] using list4_ind; intros H.
  - left. repeat split; [ now exists [] | constructor | discriminate ].
  - right. split; [ reflexivity | now right ].
  - cbn [base64_decode]. unfold char_pos. destruct (pos_of_char b) eqn:Eb; cbn [obind].
    + destruct (pos_of_char a) eqn:Ea; cbn [obind].
      * left. repeat split; [ eauto | repeat constructor; eauto | discriminate ].
      * right. split; auto. left. intros A. inversion A; subst. eapply N; eauto.
    + right. split; auto. left. intros A. inversion A as [ | ? ? ? A' ]; subst. inversion A'; subst. eapply N; eauto.
  - inversion H as [ | ? ? Ha H' ]; subst. inversion H' as [ | ? ? Hb H'' ]; subst. inversion H'' as [ | ? ? Hc _ ]; subst.
    cbn [base64_decode]. unfold char_pos. rewrite Hc. destruct (pos_of_char b) eqn:Eb; cbn [obind].
    + destruct (pos_of_char a) eqn:Ea; cbn [obind].
      * destruct (pos_of_char c) eqn:Ec; cbn [obind].
        -- left. repeat split; [ eauto | repeat constructor; eauto | discriminate ].
        -- right. split; auto. left. intros A. inversion A as [ | ? ? ? A' ]; subst. inversion A' as [ | ? ? ? A'' ]; subst. inversion A''; subst. eapply N; eauto.
      * right. split; auto. left. intros A. inversion A; subst. eapply N; eauto.
    + right. split; auto. left. intros A. inversion A as [ | ? ? ? A' ]; subst. inversion A'; subst. eapply N; eauto.
  - inversion H as [ | ? ? Ha H1 ]; subst. inversion H1 as [ | ? ? Hb H2 ]; subst. inversion H2 as [ | ? ? Hc H3 ]; subst.
    inversion H3 as [ | ? ? Hd H4 ]; subst. specialize (IH H4).
    assert (L : (length (a :: b :: c :: d :: s) mod 4 = length s mod 4)%nat).
    { cbn [length]. replace (S (S (S (S (length s))))) with (length s + 1 * 4)%nat by lia. apply Nat.mod_add. lia. }
    rewrite L. cbn [base64_decode]. unfold char_pos. rewrite Hc, Hd.
    destruct (pos_of_char b) eqn:Eb; cbn [obind];
      [ | right; split; auto; left; intros A; inversion A as [ | ? ? ? A' ]; subst; inversion A'; subst; eapply N; eauto ].
    destruct (pos_of_char a) eqn:Ea; cbn [obind];
      [ | right; split; auto; left; intros A; inversion A; subst; eapply N; eauto ].
    destruct (pos_of_char c) eqn:Ec; cbn [obind];
      [ | right; split; auto; left; intros A; inversion A as [ | ? ? ? A' ]; subst; inversion A' as [ | ? ? ? A'' ]; subst; inversion A''; subst; eapply N; eauto ].
    destruct (pos_of_char d) eqn:Ed; cbn [obind];
      [ | right; split; auto; left; intros A; inversion A as [ | ? ? ? A' ]; subst; inversion A' as [ | ? ? ? A'' ]; subst; inversion A'' as [ | ? ? ? A3 ]; subst;
          inversion A3; subst; eapply N; eauto ].
    destruct IH as [((r & ->) & F & M) | (-> & R)]; cbn [obind].
    + left. repeat split; [ eauto | repeat constructor; eauto | exact M ].
    + right. split; auto. destruct R as [R | R]; [ left | now right ]. intros A. apply R. now repeat (apply Forall_inv_tail in A).
Qed.
Lemma decode_outcomes t : (exists s, base64_decode t = Ok s) \/ base64_decode t = Throw.
Proof.
  assert (C : forall c, (exists p, char_pos c = Ok p) \/ char_pos c = Throw) by (intros c; unfold char_pos; destruct (pos_of_char c); eauto).
  induction t as [ | a | a b | a b c | a b c d s IH ] using list4_ind; cbn [base64_decode]; eauto.
  - destruct (C b) as [[p ->] | ->]; cbn [obind]; auto. destruct (C a) as [[q ->] | ->]; cbn [obind]; eauto.
  - destruct (C b) as [[p ->] | ->]; cbn [obind]; auto. destruct (C a) as [[q ->] | ->]; cbn [obind]; auto.
    destruct (pad_char c); eauto. destruct (C c) as [[r ->] | ->]; cbn [obind]; eauto.
  - destruct (C b) as [[p ->] | ->]; cbn [obind]; auto. destruct (C a) as [[q ->] | ->]; cbn [obind]; auto.
    destruct (pad_char c); cbn [obind].
    + destruct IH as [[r ->] | ->]; cbn [obind]; eauto.
    + destruct (C c) as [[r ->] | ->]; cbn [obind]; auto. destruct (pad_char d); cbn [obind].
      * destruct IH as [[x ->] | ->]; cbn [obind]; eauto.
      * destruct (C d) as [[x ->] | ->]; cbn [obind]; auto. destruct IH as [[y ->] | ->]; cbn [obind]; eauto.
Qed.

(** ** Base 16 *)

Lemma digit16_range c d : digit16 c d -> 0 <= d < 16.
Proof.
  intros [H0 [H | H]]; (assert (L : (Z.to_nat d < 16)%nat); [ | lia ]);
    [ change 16%nat with (length $"0123456789abcdef") | change 16%nat with (length $"0123456789ABCDEF") ]; apply nth_error_Some; congruence.
Qed.
Lemma digit16_hex c d : digit16 c d <-> hexdigit c = Some d.
Proof.
  split.
  - intros H. pose proof (digit16_range c d H) as R. destruct H as [_ H].
    assert (Q := all_below 16 (fun d =>
      match nth_error $"0123456789abcdef" (Z.to_nat d), nth_error $"0123456789ABCDEF" (Z.to_nat d) with
      | Some a, Some b => match hexdigit a, hexdigit b with Some x, Some y => (x =? d) && (y =? d) | _, _ => false end
      | _, _ => false end) ltac:(vm_compute; reflexivity) d R). cbv beta in Q.
    destruct H as [H | H]; rewrite H in Q.
    + destruct (nth_error $"0123456789ABCDEF" _); [ | discriminate ]. destruct (hexdigit c); [ | discriminate ]. destruct (hexdigit _); [ | discriminate ]. f_equal. lia.
    + destruct (nth_error $"0123456789abcdef" _); [ | discriminate ]. destruct (hexdigit _); [ | discriminate ]. destruct (hexdigit c); [ | discriminate ]. f_equal. lia.
  - intros H.
    assert (Hc : 0 <= c < 128 /\ 0 <= d < 16).
    { unfold hexdigit in H. repeat match type of H with context [if ?b then _ else _] => destruct b eqn:?E end; try discriminate; injection H as <-;
      repeat match goal with Q : (_ && _) = true |- _ => apply andb_prop in Q; destruct Q end; lia. }
    destruct Hc as [Hc Hd].
    assert (Q := all_below 128 (fun c => match hexdigit c with
      | Some d => (match nth_error $"0123456789abcdef" (Z.to_nat d) with Some x => x =? c | None => false end) ||
                  (match nth_error $"0123456789ABCDEF" (Z.to_nat d) with Some x => x =? c | None => false end)
      | None => true end) ltac:(vm_compute; reflexivity) c Hc).
    cbv beta in Q. rewrite H in Q. split; [ lia | ]. apply orb_prop in Q. destruct Q as [Q | Q]; [ left | right ];
      (destruct (nth_error _ (Z.to_nat d)); [ f_equal; lia | discriminate ]).
Qed.
Lemma lor_16 x y : 0 <= x < 16 -> 0 <= y < 16 -> Z.lor (Z.shiftl x 4) y = x * 16 + y.
Proof. intros Hx Hy. assert (Q := all_below2 16 (fun x y => Z.lor (Z.shiftl x 4) y =? x * 16 + y) ltac:(vm_compute; reflexivity) x y Hx Hy). cbv beta in Q. lia. Qed.
Lemma hexdigit_range c d : hexdigit c = Some d -> 0 <= d < 16.
Proof. intros H. apply digit16_hex in H. now apply digit16_range in H. Qed.
Lemma hex_pairs_spec t s : hex_pairs t = Some s <-> hex_text s t.
Proof.
  split.
  - revert s. assert (G : forall n t s, (length t <= n)%nat -> hex_pairs t = Some s -> hex_text s t); [ | intros s; now apply (G (length t)) ].
    induction n; intros [ | a [ | b t' ] ] s L H; cbn [hex_pairs length] in *; try lia; try discriminate; try (injection H as <-; constructor).
    destruct (hexdigit a) eqn:Ea; [ | discriminate ]. destruct (hexdigit b) eqn:Eb; [ | discriminate ].
    destruct (hex_pairs t') eqn:Et; [ | discriminate ]. apply Some_inj in H. subst s.
    rewrite lor_16 by (eapply hexdigit_range; eauto). constructor; [ now apply digit16_hex .. | apply IHn; [ lia | auto ] ].
  - induction 1 as [ | a b x y s t Ha Hb H IH ]; [ reflexivity | ]. cbn [hex_pairs].
    pose proof (digit16_range _ _ Ha). pose proof (digit16_range _ _ Hb).
    apply digit16_hex in Ha. apply digit16_hex in Hb. now rewrite Ha, Hb, IH, lor_16.
Qed.
Lemma hex_byte_ascii c : 0 <= c < 128 -> exists a b x y, hex_byte c = [a; b] /\ digit16 a x /\ digit16 b y /\ c = x * 16 + y /\
  In a $"0123456789abcdef" /\ In b $"0123456789abcdef".
Proof.
  intros H. assert (Q := all_below 128 (fun c => match hex_byte c with
    | [a; b] => match hexdigit a, hexdigit b with
                | Some x, Some y => (c =? x * 16 + y) && existsb (Z.eqb a) $"0123456789abcdef" && existsb (Z.eqb b) $"0123456789abcdef"
                | _, _ => false end
    | _ => false end) ltac:(vm_compute; reflexivity) c H). cbv beta in Q.
  destruct (hex_byte c) as [ | a [ | b [ | ] ] ]; try discriminate. destruct (hexdigit a) as [x | ] eqn:Ea; [ | discriminate ].
  destruct (hexdigit b) as [y | ] eqn:Eb; [ | discriminate ]. apply andb_prop in Q. destruct Q as [Q Qb]. apply andb_prop in Q. destruct Q as [Q Qa].
  exists a, b, x, y. rewrite !digit16_hex. apply existsb_exists in Qa, Qb. destruct Qa as (a' & Ia & Qa). destruct Qb as (b' & Ib & Qb).
  apply Z.eqb_eq in Qa, Qb. subst a' b'. repeat split; auto. lia.
Qed.

(** ** Percent encoding *)

Lemma query_decode_spec t s : query_decode t = Ok s <-> pct_text s t.
Proof.
  split.
  - assert (G : forall n t s, (length t <= n)%nat -> query_decode t = Ok s -> pct_text s t); [ | now apply (G (length t)) ].
    clear. induction n; intros [ | c t' ] s L H; cbn [query_decode length] in *; try lia; try (injection H as <-; constructor).
    destruct (c =? 37) eqn:Ec.
    + destruct t' as [ | a [ | b t'' ] ]; try discriminate. cbn [length] in L.
      destruct (hexdigit a) eqn:Ea; [ | discriminate ]. destruct (hexdigit b) eqn:Eb; [ | discriminate ].
      destruct (query_decode t'') eqn:Et; cbn [obind] in H; try discriminate. apply Ok_inj' in H. subst s.
      apply Z.eqb_eq in Ec. subst c. rewrite lor_16 by (eapply hexdigit_range; eauto).
      constructor; [ now apply digit16_hex .. | apply IHn; [ lia | auto ] ].
    + destruct (query_decode t') eqn:Et; cbn [obind] in H; try discriminate. injection H as <-. constructor; [ lia | apply IHn; [ lia | auto ] ].
  - induction 1 as [ | c s t Hc H IH | a b x y s t Ha Hb H IH ]; [ reflexivity | | ]; cbn [query_decode].
    + replace (c =? 37) with false by lia. now rewrite IH.
    + pose proof (digit16_range _ _ Ha). pose proof (digit16_range _ _ Hb).
      apply digit16_hex in Ha. apply digit16_hex in Hb. rewrite Z.eqb_refl, Ha, Hb, IH. cbn [obind]. now rewrite lor_16.
Qed.
Lemma query_decode_else t : (forall s, ~ pct_text s t) -> query_decode t = Ub.
Proof.
  intros N. assert (G : forall n t, (length t <= n)%nat -> (exists s, query_decode t = Ok s) \/ query_decode t = Ub).
  { clear. induction n; intros [ | c t' ] L; cbn [query_decode length] in *; try lia; eauto. destruct (c =? 37).
    - destruct t' as [ | a [ | b t'' ] ]; auto. cbn [length] in L. destruct (hexdigit a); auto. destruct (hexdigit b); auto.
      destruct (IHn t'' ltac:(lia)) as [[s ->] | ->]; cbn [obind]; eauto.
    - destruct (IHn t' ltac:(lia)) as [[s ->] | ->]; cbn [obind]; eauto. }
  destruct (G _ t (le_n _)) as [[s H] | H]; auto. apply query_decode_spec in H. now apply N in H.
Qed.
Lemma hex_is c : is_hex c = true <-> exists d, hexdigit c = Some d /\ hex_value c = d.
Proof.
  unfold is_hex, hexdigit, hex_value. split.
  - intros H. destruct ((48 <=? c) && (c <=? 57)) eqn:E1; [ eauto | ]. cbn [orb] in H.
    destruct ((97 <=? c) && (c <=? 102)) eqn:E2; cbn [orb] in H.
    + destruct ((65 <=? c) && (c <=? 70)) eqn:E3; eauto. apply andb_prop in E2, E3. lia.
    + rewrite H. eauto.
  - intros (d & H & _). destruct ((48 <=? c) && (c <=? 57)); auto. destruct ((65 <=? c) && (c <=? 70)); [ apply orb_true_r | ].
    destruct ((97 <=? c) && (c <=? 102)); [ auto | discriminate ].
Qed.
Lemma uri_unescape_spec t s : uri_unescape t = Some s <-> pct_text s t.
Proof.
  split.
  - assert (G : forall n t s, (length t <= n)%nat -> uri_unescape t = Some s -> pct_text s t); [ | now apply (G (length t)) ].
    clear. induction n; intros [ | c t' ] s L H; cbn [uri_unescape length] in *; try lia; try (injection H as <-; constructor).
    destruct (c =? 37) eqn:Ec.
    + destruct t' as [ | a [ | b t'' ] ]; try discriminate. cbn [length] in L.
      destruct (is_hex a) eqn:Ea; [ | discriminate ]. destruct (is_hex b) eqn:Eb; [ | discriminate ]. cbn [andb] in H.
      apply hex_is in Ea, Eb. destruct Ea as (x & Ea & Va). destruct Eb as (y & Eb & Vb). rewrite Va, Vb in H.
      destruct (uri_unescape t'') eqn:Et; try discriminate. apply Some_inj in H. subst s.
      apply Z.eqb_eq in Ec. subst c. rewrite lor_16 by (eapply hexdigit_range; eauto).
      constructor; [ now apply digit16_hex .. | apply IHn; [ lia | auto ] ].
    + destruct (uri_unescape t') eqn:Et; try discriminate. injection H as <-. constructor; [ lia | apply IHn; [ lia | auto ] ].
  - induction 1 as [ | c s t Hc H IH | a b x y s t Ha Hb H IH ]; [ reflexivity | | ]; cbn [uri_unescape].
    + replace (c =? 37) with false by lia. now rewrite IH.
    + pose proof (digit16_range _ _ Ha). pose proof (digit16_range _ _ Hb).
      apply digit16_hex in Ha. apply digit16_hex in Hb.
      assert (Ha' : is_hex a = true) by (apply hex_is; exists x; split; auto; revert Ha; clear; unfold hexdigit, hex_value;
        destruct ((48 <=? a) && (a <=? 57)) eqn:?; [ congruence | ]; destruct ((65 <=? a) && (a <=? 70)) eqn:E;
        destruct ((97 <=? a) && (a <=? 102)) eqn:E'; try congruence; apply andb_prop in E; apply andb_prop in E'; lia).
      assert (Hb' : is_hex b = true) by (apply hex_is; exists y; split; auto; revert Hb; clear; unfold hexdigit, hex_value;
        destruct ((48 <=? b) && (b <=? 57)) eqn:?; [ congruence | ]; destruct ((65 <=? b) && (b <=? 70)) eqn:E;
        destruct ((97 <=? b) && (b <=? 102)) eqn:E'; try congruence; apply andb_prop in E; apply andb_prop in E'; lia).
      rewrite Z.eqb_refl, Ha', Hb'. cbn [andb]. rewrite IH. apply hex_is in Ha', Hb'. destruct Ha' as (x' & Qx & ->), Hb' as (y' & Qy & ->).
      rewrite Ha in Qx. rewrite Hb in Qy. injection Qx as <-. injection Qy as <-. now rewrite lor_16.
Qed.
Lemma existsb_eqb c l : existsb (Z.eqb c) l = true <-> In c l.
Proof.
  rewrite existsb_exists. split.
  - intros (x & Hx & E). apply Z.eqb_eq in E. now subst.
  - intros H. exists c. split; [ auto | apply Z.eqb_refl ].
Qed.
Lemma pct_digits c : 0 <= c < 256 -> exists a b x y, pct c = [37; a; b] /\ digit16 a x /\ digit16 b y /\ c = x * 16 + y /\
  In a $"0123456789ABCDEF" /\ In b $"0123456789ABCDEF".
Proof.
  intros H. assert (Q := all_below 256 (fun c => match pct c with
    | [_; a; b] => match hexdigit a, hexdigit b with
                | Some x, Some y => (c =? x * 16 + y) && existsb (Z.eqb a) $"0123456789ABCDEF" && existsb (Z.eqb b) $"0123456789ABCDEF"
                | _, _ => false end
    | _ => false end) ltac:(vm_compute; reflexivity) c H). cbv beta in Q. unfold pct in *.
  set (a := upper_digit (c / 16)) in *. set (b := upper_digit (c mod 16)) in *.
  destruct (hexdigit a) as [x | ] eqn:Ea; [ | discriminate ].
  destruct (hexdigit b) as [y | ] eqn:Eb; [ | discriminate ]. apply andb_prop in Q. destruct Q as [Q Qb]. apply andb_prop in Q. destruct Q as [Q Qa].
  exists a, b, x, y. rewrite !digit16_hex. apply existsb_eqb in Qa, Qb. repeat split; auto. lia.
Qed.
Lemma unreserved_class c : 0 <= c < 256 ->
  (is_alnum c || (c =? 45) || (c =? 46) || (c =? 95) || (c =? 126)) = true <-> unreserved c.
Proof.
  intros H. unfold unreserved. rewrite <- existsb_eqb.
  assert (Q := all_below 256 (fun c => Bool.eqb (is_alnum c || (c =? 45) || (c =? 46) || (c =? 95) || (c =? 126))
    (existsb (Z.eqb c) $"ABCDEFGHIJKLMNOPQRSTUVWXYZabcdefghijklmnopqrstuvwxyz0123456789-._~")) ltac:(vm_compute; reflexivity) c H).
  apply eqb_prop in Q. now rewrite Q.
Qed.
Lemma query_encode_spec s : ascii s -> exists t, query_encode s = Ok t /\ pct_text s t /\ only_unreserved t /\ ascii t.
Proof.
  induction 1 as [ | c s Hc Hs (t & E & P & O & A) ]; [ exists []; repeat split; constructor | ]. cbn [query_encode].
  unfold negative_char. replace (128 <=? c) with false by lia. cbn [andb]. rewrite E. cbn [obind]. eexists. split; [ reflexivity | ].
  destruct (is_alnum c || _ || _ || _ || _) eqn:U.
  - assert (Hu : unreserved c) by (apply unreserved_class; [ lia | auto ]). cbn [app]. repeat split; constructor; auto.
    intros ->. revert Hu. unfold unreserved. rewrite <- existsb_eqb. vm_compute. discriminate.
  - destruct (pct_digits c ltac:(lia)) as (a & b & x & y & -> & Da & Db & -> & Ia & Ib). cbn [app]. split; [ now constructor | ]. split; [ now constructor | ].
    assert (D : forall z, In z $"0123456789ABCDEF" -> 0 <= z < 128).
    { assert (Q : forallb (fun z => (0 <=? z) && (z <? 128)) $"0123456789ABCDEF" = true) by reflexivity.
      intros z Hz. rewrite forallb_forall in Q. specialize (Q z Hz). lia. }
    constructor; [ lia | ]. constructor; [ auto | ]. constructor; auto.
Qed.
Lemma query_encode_high s : ~ Forall (fun c => negative_char c = false) s -> query_encode s = Ub.
Proof.
  induction s as [ | c s IH ]; intros H; [ exfalso; apply H; constructor | ]. cbn [query_encode].
  destruct (negative_char c) eqn:E; auto. rewrite IH; auto.
Qed.
Lemma usual_path_eq p : usual_path p = escape_path p.
Proof.
  unfold usual_path, escape_path. apply flat_map_ext. intros c. unfold should_escape_path, path_mark.
  replace (Z.shiftr c 4) with (c / 16) by (rewrite Z.shiftr_div_pow2 by lia; reflexivity). replace (Z.land c 15) with (c mod 16) by (change 15 with (Z.ones 4); rewrite Z.land_ones by lia; reflexivity).
  change $"-_.~$&+,/:;=@" with [45; 95; 46; 126; 36; 38; 43; 44; 47; 58; 59; 61; 64].
  destruct (_ || _ || ((48 <=? c) && (c <=? 57))); [ reflexivity | ]. cbn [orb]. now destruct (existsb _ _).
Qed.
Lemma escape_path_spec p : octets p -> pct_text p (escape_path p).
Proof.
  induction 1 as [ | c s Hc Hs IH ]; [ constructor | ]. cbn [escape_path flat_map]. fold (escape_path s).
  destruct (should_escape_path c) eqn:E.
  - assert (Q := all_below 256 (fun c => match hexdigit (nth (Z.to_nat (Z.shiftr c 4)) hex_upper 0), hexdigit (nth (Z.to_nat (Z.land c 15)) hex_upper 0) with
      | Some x, Some y => c =? x * 16 + y | _, _ => false end) ltac:(vm_compute; reflexivity) c Hc). cbv beta in Q.
    destruct (hexdigit _) as [x | ] eqn:Ex; [ | discriminate ]. destruct (hexdigit (nth (Z.to_nat (Z.land c 15)) hex_upper 0)) as [y | ] eqn:Ey; [ | discriminate ].
    apply digit16_hex in Ex, Ey. apply Z.eqb_eq in Q. rewrite Q at 1. cbn [app]. now constructor.
  - cbn [app]. constructor; auto. intros ->. discriminate E.
Qed.

(** ** Query parameters *)

Section Objects.
Variable F : fops.
Lemma object_loop_distinct l : forall m, keyed m -> NoDup (map (fun p => to_key F (fst p)) l) ->
  (forall p, In p l -> sm_find (to_key F (fst p)) m = None) ->
  exists m', object_loop F l m = RVal (VObject (map snd m')) /\ keyed m' /\
    (forall k, sm_find k m' = match find (fun p => str_eqb k (to_key F (fst p))) l with Some p => Some p | None => sm_find k m end).
Proof.
  induction l as [ | [k v] l IH ]; intros m Km N D.
  - exists m. repeat split; auto.
  - cbn [object_loop]. pose proof (D (k, v) (or_introl eq_refl)) as Q. cbn [fst] in Q. rewrite Q. cbn [map fst] in N. inversion N as [ | ? ? N1 N2 ]; subst.
    destruct (IH (sm_set (to_key F k) (k, v) m)) as (m' & E & K' & S').
    + now apply sm_set_keyed.
    + auto.
    + intros p Hp. rewrite sm_find_set by auto. destruct (str_eqb (to_key F (fst p)) (to_key F k)) eqn:Ek.
      * apply str_eqb_eq in Ek. elim N1. rewrite <- Ek. apply in_map_iff. eauto.
      * apply D. now right.
    + exists m'. repeat split; auto. intros k'. rewrite S'. cbn [find fst]. rewrite sm_find_set by auto.
      destruct (str_eqb k' (to_key F k)) eqn:Ek; auto. apply str_eqb_eq in Ek. subst k'.
      destruct (find _ l) as [p | ] eqn:Ef; auto. apply find_some in Ef. destruct Ef as [Hp Ep]. apply str_eqb_eq in Ep.
      elim N1. rewrite Ep. apply in_map_iff. eauto.
Qed.
Lemma object_of_distinct l : NoDup (map (fun p => to_key F (fst p)) l) ->
  exists l', object_of F l = RVal (VObject l') /\ NoDup l' /\ (forall p, In p l' <-> In p l).
Proof.
  intros N. destruct (object_loop_distinct l [] keyed_nil N) as (m' & E & K & S'); [ reflexivity | ].
  exists (map snd m'). split; [ exact E | ].
  assert (Hk : forall k p, In (k, p) m' -> k = to_key F (fst p)).
  { intros k p H. apply keyed_in in H; auto. rewrite S' in H. destruct (find _ l) as [q | ] eqn:Ef; [ | discriminate ].
    injection H as ->. apply find_some in Ef. destruct Ef as [_ Ef]. now apply str_eqb_eq in Ef. }
  split.
  - apply keyed_nodup in K. clear S' E N. induction m' as [ | [k p] m' IH ]; [ constructor | ]. cbn [map fst snd] in *.
    inversion K as [ | ? ? K1 K2 ]; subst. constructor.
    + intros H. apply K1. apply in_map_iff in H. destruct H as ([k' p'] & Ep & Hi). cbn [snd] in Ep. subst p'.
      rewrite (Hk k p (or_introl eq_refl)), <- (Hk k' p (or_intror Hi)). apply in_map_iff. now exists (k', p).
    + apply IH; auto. intros k' p' H. apply Hk. now right.
  - intros p. split.
    + intros H. apply in_map_iff in H. destruct H as ([k q] & <- & H). cbn [snd]. apply keyed_in in H; auto. rewrite S' in H.
      destruct (find _ l) as [r | ] eqn:Ef; [ | discriminate ]. injection H as ->. now apply find_some in Ef.
    + intros H. apply in_map_iff. exists (to_key F (fst p), p). split; [ reflexivity | ]. apply keyed_in; auto. rewrite S'.
      clear -N H. induction l as [ | q l IH ]; [ destruct H | ]. cbn [map fst find] in *. inversion N as [ | ? ? N1 N2 ]; subst.
      destruct (str_eqb (to_key F (fst p)) (to_key F (fst q))) eqn:Ek.
      * destruct H as [-> | H]; auto. elim N1. apply str_eqb_eq in Ek. rewrite <- Ek. apply in_map_iff. eauto.
      * destruct H as [-> | H]; auto. rewrite str_eqb_refl in Ek. discriminate.
Qed.
End Objects.

Section Query.
Variable J : json_ops.
Hypothesis JOK : json_ok J.
Lemma json_text_plain t : json_text t = true -> is_quoted t = false.
Proof. destruct t as [ | c [ | d t ] ]; auto. cbn [json_text is_quoted]. destruct (c =? 34); [ discriminate | auto ]. Qed.
Lemma quoted_string_eq s : quoted_string J s = VString (j_escape J s).
Proof.
  destruct JOK as (_ & H & _). specialize (H s). apply json_text_plain in H. unfold quoted_string, mkstr. rewrite H. f_equal.
  generalize (j_escape J s). intros e. unfold strip_quotes. cbn [app].
  assert (Q : is_quoted (34 :: e ++ [34]) = true).
  { destruct e as [ | c e ]; [ reflexivity | ]. cbn [app is_quoted]. rewrite Z.eqb_refl. cbn [andb]. change (c :: e ++ [34]) with ((c :: e) ++ [34]).
    now rewrite last_last. }
  rewrite Q. cbn [tl]. apply removelast_last.
Qed.
Lemma raw_escape s : raw J (j_escape J s) = s.
Proof. destruct JOK as (U & H & _). unfold raw, strip_quotes. rewrite (json_text_plain _ (H s)). apply U. Qed.
Lemma escape_nil : j_escape J [] = [].
Proof. destruct JOK as (_ & _ & H). apply H. constructor. Qed.
Lemma escape_inj s s' : j_escape J s = j_escape J s' -> s = s'.
Proof. destruct JOK as (U & _ & _). intros E. rewrite <- (U s), <- (U s'). now rewrite E. Qed.

Definition represents (l : list (str * str)) (m : list (str * list value)) : Prop :=
  keyed m /\ forall k, sm_find k m = match values_of k l with [] => None | vs => Some (map (fun v => VString (j_escape J v)) vs) end.
Lemma values_of_app k l l' : values_of k (l ++ l') = values_of k l ++ values_of k l'.
Proof. unfold values_of. now rewrite filter_app, map_app. Qed.
Lemma values_of_one k p : values_of k [p] = if str_eqb k (fst p) then [snd p] else [].
Proof. unfold values_of. cbn. now destruct (str_eqb k (fst p)). Qed.
Lemma represents_add l m k v : represents l m ->
  represents (l ++ [(k, v)]) (sm_set k (match sm_find k m with Some vs => vs | None => [] end ++ [VString (j_escape J v)]) m).
Proof.
  intros [K R]. split; [ now apply sm_set_keyed | ]. intros k'. rewrite sm_find_set, values_of_app, values_of_one by auto. cbn [fst snd].
  destruct (str_eqb k' k) eqn:E.
  - apply str_eqb_eq in E. subst k'. rewrite R. destruct (values_of k l) as [ | x vs ]; [ reflexivity | ]. cbn [app map]. now rewrite map_app.
  - rewrite app_nil_r. apply R.
Qed.
Lemma find_char_none c t : ~ In c t -> find0 [c] t = None.
Proof.
  intros N. pose proof (find0_spec [c] t) as H. destruct (find0 [c] t) as [i | ]; auto. destruct H as [(a & b & -> & _) _].
  elim N. apply in_or_app. right. now left.
Qed.
Lemma find_char_some c t u : ~ In c t -> find0 [c] (t ++ [c] ++ u) = Some (length t).
Proof.
  intros N. induction t as [ | x t IH ].
  - cbn. now rewrite Z.eqb_refl.
  - cbn [app find0 prefixb]. destruct (c =? x) eqn:E.
    + elim N. left. lia.
    + cbn [andb]. change (t ++ c :: u) with (t ++ [c] ++ u). rewrite IH; auto. intros H. apply N. now right.
Qed.
Lemma query_item_spec t p l m : parameter t p -> represents l m -> exists m', query_item J t m = Ok m' /\ represents (l ++ [p]) m'.
Proof.
  intros P R. unfold query_item. unfold str, byte in *. destruct P as [k t N Pk | k v t u N Pk Pv].
  - rewrite (find_char_none _ _ N). apply query_decode_spec in Pk. rewrite Pk. cbn [obind]. eexists. split; [ reflexivity | ].
    pose proof (represents_add l m k [] R) as Q. rewrite escape_nil in Q. exact Q.
  - rewrite (find_char_some _ _ u N).
    assert (E1 : substr (t ++ [61%Z] ++ u) 0 (length t) = t).
    { unfold substr. cbn [skipn]. now apply firstn_app_length. }
    assert (E2 : skipn (length t + 1) (t ++ [61%Z] ++ u) = u).
    { rewrite app_assoc. replace (length t + 1)%nat with (length (t ++ [61%Z])) by (rewrite app_length; cbn; lia). now apply skipn_app_length. }
    rewrite E1, E2. apply query_decode_spec in Pk, Pv. rewrite Pk. cbn [obind]. rewrite Pv. cbn [obind]. eexists. split; [ reflexivity | ].
    rewrite quoted_string_eq. now apply represents_add.
Qed.
Lemma no_amp_occurs t : ~ In 38 t -> ~ occurs [38%Z] t.
Proof. intros N (i & a & b & -> & _). apply N. apply in_or_app. right. now left. Qed.
Lemma find_amp a ts t ts' : ts = t :: ts' -> ~ In 38 t ->
  match find_from [38%Z] (a ++ intercalate [38%Z] ts) (length a) with Some e => Some e | None => Some (length (a ++ intercalate [38%Z] ts)) end
  = Some (length a + length t)%nat.
Proof.
  intros -> N. destruct ts' as [ | t' ts' ].
  - cbn [intercalate]. rewrite find_from_none by (now apply no_amp_occurs). now rewrite app_length.
  - change (intercalate [38%Z] (t :: t' :: ts')) with (t ++ [38%Z] ++ intercalate [38%Z] (t' :: ts')).
    rewrite find_from_some; auto. intros i (x & y & E & Li). destruct (Nat.le_gt_cases (length t) i) as [ | L ]; auto. exfalso. apply N.
    assert (Hn : nth_error (t ++ [38%Z] ++ intercalate [38%Z] (t' :: ts')) i = Some 38).
    { unfold str, byte in *. rewrite E, nth_error_app2 by lia. now replace (i - length x)%nat with O by lia. }
    rewrite nth_error_app1 in Hn by auto. now apply nth_error_In in Hn.
Qed.
Lemma query_loop_end fuel x start e m : (length x <= start)%nat -> query_loop J fuel x start e m = Ok m.
Proof.
  intros L. apply Nat.ltb_ge in L. destruct fuel; cbn [query_loop]; unfold str, byte in *; now rewrite L.
Qed.
Lemma query_loop_spec ts ps : Forall2 parameter ts ps -> Forall (fun t => ~ In 38 t) ts -> last ts [0] <> [] ->
  forall fuel a l m t, head ts = Some t -> represents l m -> (length ts <= fuel)%nat ->
  exists m', query_loop J fuel (a ++ intercalate [38%Z] ts) (length a) (Some (length a + length t)%nat) m = Ok m' /\ represents (l ++ ps) m'.
Proof.
  induction 1 as [ | t p ts ps P H IH ]; intros N La fuel a l m t0 H0 R Lf; [ discriminate | ]. injection H0 as <-.
  inversion N as [ | ? ? N1 N2 ]; subst. destruct fuel as [ | fuel ]; [ cbn in Lf; lia | ].
  assert (Es : (length a <? length (a ++ intercalate [38%Z] (t :: ts)))%nat = true).
  { apply Nat.ltb_lt. rewrite app_length. destruct ts as [ | t' ts ]; cbn [intercalate].
    - cbn [last] in La. destruct t; [ congruence | cbn [length]; lia ].
    - rewrite !app_length. cbn [length]. lia. }
  assert (Ei : substr (a ++ intercalate [38%Z] (t :: ts)) (length a) (length a + length t - length a) = t).
  { unfold substr. rewrite skipn_app_length by auto. replace (length a + length t - length a)%nat with (length t) by lia.
    destruct ts; cbn [intercalate]; [ apply firstn_all | now apply firstn_app_length ]. }
  cbn [query_loop]. unfold str, byte in *. rewrite Es, Ei. destruct (query_item_spec t p l m P R) as (m' & -> & R'). cbn [obind].
  destruct ts as [ | t' ts ].
  - inversion H; subst. exists m'. split; auto. apply query_loop_end. rewrite app_length. cbn [intercalate]. lia.
  - change (intercalate [38%Z] (t :: t' :: ts)) with (t ++ [38%Z] ++ intercalate [38%Z] (t' :: ts)).
    replace (a ++ t ++ [38%Z] ++ intercalate [38%Z] (t' :: ts)) with ((a ++ t ++ [38%Z]) ++ intercalate [38%Z] (t' :: ts)) by (now rewrite <- !app_assoc).
    replace (length a + length t + 1)%nat with (length (a ++ t ++ [38%Z])) by (rewrite !app_length; cbn [length]; lia).
    inversion N2 as [ | ? ? N3 N4 ]; subst.
    rewrite (find_amp (a ++ t ++ [38%Z]) (t' :: ts) t' ts eq_refl N3).
    destruct (IH N2 La fuel (a ++ t ++ [38%Z]) (l ++ [p]) m' t' eq_refl R') as (m'' & E & R''); [ cbn [length] in *; lia | ].
    exists m''. split; [ exact E | ]. now rewrite <- app_assoc in R''.
Qed.
Lemma represents_nil : represents [] [].
Proof. split; [ apply keyed_nil | reflexivity ]. Qed.
Lemma items_object F l m : represents l m ->
  exists o, object_of F (map (fun kv => (quoted_string J (fst kv), VArray (snd kv))) m) = RVal (VObject o) /\ NoDup o /\
    forall k v, In (k, v) o <->
      exists name, values_of name l <> [] /\ k = VString (j_escape J name) /\ v = VArray (map (fun x => VString (j_escape J x)) (values_of name l)).
Proof.
  intros [K R]. destruct (object_of_distinct F (map (fun kv => (quoted_string J (fst kv), VArray (snd kv))) m)) as (o & E & N & I).
  - rewrite map_map. apply keyed_nodup in K. clear R. induction m as [ | [k vs] m IH ]; [ constructor | ]. cbn [map fst snd] in *.
    inversion K as [ | ? ? K1 K2 ]; subst. constructor; auto. intros H. apply K1. apply in_map_iff in H. destruct H as ([k' vs'] & Ek & Hi).
    cbn [fst] in Ek. rewrite !quoted_string_eq in Ek. cbn [to_key] in Ek.
    assert (j_escape J k' = j_escape J k) by (revert Ek; cbn; unfold quote; intros Ek; injection Ek as Ek; now apply app_inv_tail in Ek).
    apply escape_inj in H. subst k'. apply in_map_iff. now exists (k, vs').
  - exists o. repeat split; auto.
    + intros H. apply I in H. apply in_map_iff in H. destruct H as ([name vs] & Ep & H). cbn [fst snd] in Ep. injection Ep as <- <-.
      apply keyed_in in H; auto. rewrite R in H. exists name. rewrite quoted_string_eq. destruct (values_of name l) as [ | x xs ]; [ discriminate | ].
      injection H as <-. repeat split; auto. discriminate.
    + intros (name & H & -> & ->). apply I. apply in_map_iff. exists (name, map (fun x => VString (j_escape J x)) (values_of name l)). cbn [fst snd].
      rewrite quoted_string_eq. split; [ reflexivity | ]. apply keyed_in; auto. rewrite R. destruct (values_of name l); [ congruence | reflexivity ].
Qed.
Lemma decode_object_many F ts ps : Forall2 parameter ts ps -> Forall (fun t => ~ In 38 t) ts -> last ts [0] <> [] -> (2 <= length ts)%nat ->
  exists o, urlquery_decode_object J F (VString (j_escape J (intercalate [38%Z] ts))) = Ok (RVal (VObject o)) /\ NoDup o /\
    forall k v, In (k, v) o <->
      exists name, values_of name ps <> [] /\ k = VString (j_escape J name) /\ v = VArray (map (fun x => VString (j_escape J x)) (values_of name ps)).
Proof.
  intros P N La L. destruct ts as [ | t [ | t' ts ] ]; try (cbn in L; lia). unfold urlquery_decode_object. rewrite raw_escape.
  assert (E : find0 [38%Z] (intercalate [38%Z] (t :: t' :: ts)) = Some (length t)).
  { cbn [intercalate]. apply find_char_some. now inversion N. }
  rewrite E. set (x := intercalate [38%Z] (t :: t' :: ts)).
  destruct (query_loop_spec _ _ P N La (S (S (length x))) [] [] [] t eq_refl represents_nil) as (m' & Em & R).
  { assert (Hl : (length (t :: t' :: ts) <= S (length x))%nat); [ | lia ]. subst x. generalize (t :: t' :: ts). clear.
    induction l as [ | a l IH ]; [ cbn; lia | ]. cbn [intercalate]. destruct l; [ cbn; lia | ]. rewrite !app_length. cbn [length] in *. lia. }
  cbn [app length Nat.add] in Em. fold x in Em. unfold str, byte in *. rewrite Em. cbn [obind].
  destruct (items_object F _ _ R) as (o & Eo & No & I). unfold str, byte in *. rewrite Eo. now exists o.
Qed.
Lemma decode_object_one F t p : parameter t p -> ~ In 38 t -> t <> [] ->
  exists o, urlquery_decode_object J F (VString (j_escape J t)) = Ok (RVal (VObject o)) /\
    forall k v, In (k, v) o <-> k = VString (j_escape J (fst p)) /\ v = VArray [VString (j_escape J (snd p)); VString (j_escape J (snd p))].
Proof.
  intros P N Ne. unfold urlquery_decode_object. rewrite raw_escape. rewrite (find_char_none _ _ N).
  assert (Es : (0 <? length t)%nat = true) by (destruct t; [ congruence | reflexivity ]).
  set (fuel := length t). cbn [query_loop]. unfold str, byte in *. rewrite Es. cbn [skipn].
  destruct (query_item_spec t p [] [] P represents_nil) as (m & Em & R). unfold str, byte in *. rewrite Em. cbn [obind].
  assert (Ef : find_from [38%Z] t 0 = None) by (rewrite <- find0_from; now apply find_char_none). rewrite Ef. cbn [query_loop].
  assert (Eu : substr t 0 (length t - 0) = t) by (unfold substr; cbn [skipn]; rewrite Nat.sub_0_r; apply firstn_all). rewrite Eu.
  destruct (query_item_spec t p _ m P R) as (m' & -> & R'). cbn [obind app] in *.
  rewrite query_loop_end by (unfold str, byte in *; lia).
  cbn [obind]. destruct (items_object F _ _ R') as (o & Eo & _ & I). unfold str, byte in *. rewrite Eo. exists o. split; [ reflexivity | ]. intros k v. rewrite I. split.
  - intros (name & H & -> & ->). revert H. unfold values_of, str, byte. cbn [app filter]. destruct (str_eqb name (fst p)) eqn:E; intros H; cbn [map] in H; [ | congruence ].
    apply str_eqb_eq in E. subst name. auto.
  - intros [-> ->]. exists (fst p). unfold values_of, str, byte. cbn [app filter]. rewrite str_eqb_refl. repeat split. discriminate.
Qed.

Lemma unreserved_not c t : only_unreserved t -> In c t -> c <> 38 /\ c <> 61 /\ 32 <= c < 127 /\ c <> 34 /\ c <> 92.
Proof.
  assert (Q1 : forallb (fun c => (32 <=? c) && (c <? 127) && negb (existsb (Z.eqb c) [38; 61; 34; 92]))
    $"ABCDEFGHIJKLMNOPQRSTUVWXYZabcdefghijklmnopqrstuvwxyz0123456789-._~" = true) by reflexivity.
  assert (Q2 : forallb (fun c => (32 <=? c) && (c <? 127) && negb (existsb (Z.eqb c) [38; 61; 34; 92])) $"0123456789ABCDEF" = true) by reflexivity.
  rewrite forallb_forall in Q1, Q2.
  assert (G : forall c, (32 <=? c) && (c <? 127) && negb (existsb (Z.eqb c) [38; 61; 34; 92]) = true -> c <> 38 /\ c <> 61 /\ 32 <= c < 127 /\ c <> 34 /\ c <> 92).
  { intros x H. cbn [existsb] in H. lia. }
  induction 1 as [ | d t U O IH | a b t Ia Ib O IH ]; cbn [In].
  - tauto.
  - intros [<- | H]; auto.
  - intros [<- | [<- | [<- | H]]]; auto; lia.
Qed.
Lemma encoded_parameter k v : ascii k -> ascii v -> exists tk tv, query_encode k = Ok tk /\ query_encode v = Ok tv /\
  parameter (tk ++ [61] ++ tv) (k, v) /\ ~ In 38 (tk ++ [61] ++ tv) /\ Forall (fun c => 32 <= c < 127 /\ c <> 34 /\ c <> 92) (tk ++ [61] ++ tv).
Proof.
  intros Hk Hv. destruct (query_encode_spec k Hk) as (tk & Ek & Pk & Ok & _). destruct (query_encode_spec v Hv) as (tv & Ev & Pv & Ov & _).
  exists tk, tv. repeat split; auto.
  - constructor; auto. intros H. apply unreserved_not in H; tauto.
  - intros H. apply in_app_or in H. destruct H as [H | [H | H]]; [ apply unreserved_not in H; tauto | discriminate | apply unreserved_not in H; tauto ].
  - apply Forall_forall. intros c H. apply in_app_or in H.
    destruct H as [H | [<- | H]]; [ apply unreserved_not in H; tauto | lia | apply unreserved_not in H; tauto ].
Qed.
Definition good (t : str) : Prop := ~ In 38 t /\ In 61 t /\ Forall (fun c => 32 <= c < 127 /\ c <> 34 /\ c <> 92) t.
Lemma encode_values_spec k tk vs : ascii k -> query_encode k = Ok tk -> Forall ascii vs -> forall first,
  exists ts, encode_values J tk (map (fun v => VString (j_escape J v)) vs) first =
    Ok (Some ((if first then [] else flat_map (app [38]) (firstn 1 ts)) ++ (if first then intercalate [38] ts else flat_map (app [38]) (skipn 1 ts)))) /\
    Forall2 parameter ts (map (pair k) vs) /\ Forall good ts.
Proof.
  intros Hk Ek Hvs. induction Hvs as [ | v vs Hv Hvs IH ]; intros first.
  - exists []. destruct first; cbn; repeat split; constructor.
  - destruct (encoded_parameter k v Hk Hv) as (tk' & tv & Ek' & Ev & P & N & G). assert (tk' = tk) by congruence. subst tk'.
    destruct (IH false) as (ts & E & F & Gs). exists ((tk ++ [61] ++ tv) :: ts). split; [ | split; [ now constructor | constructor; auto ] ].
    + cbn [map encode_values]. rewrite raw_escape, Ev. cbn [obind]. rewrite E. cbn [obind]. do 2 f_equal.
      assert (Q : flat_map (app [38]) (firstn 1 ts) ++ flat_map (app [38]) (skipn 1 ts) = flat_map (app [38]) ts)
        by (rewrite <- flat_map_app, firstn_skipn; reflexivity).
      unfold str, byte in *. rewrite Q. destruct first.
      * clear. cbn [app]. revert tv. assert (L : forall x, x ++ flat_map (app [38]) ts = intercalate [38] (x :: ts)).
        { induction ts as [ | t ts IH ]; intros x; [ apply app_nil_r | ]. cbn [flat_map]. rewrite <- app_assoc, IH. reflexivity. }
        intros tv. rewrite <- L. now rewrite <- !app_assoc.
      * cbn [firstn skipn flat_map]. rewrite app_nil_r. now rewrite <- !app_assoc.
    + split; [ exact N | split; [ | exact G ] ]. apply in_or_app. right. now left.
Qed.
Lemma prefixed_join (ts : list str) : ts <> [] -> flat_map (app [38]) ts = [38] ++ intercalate [38] ts.
Proof.
  induction ts as [ | t ts IH ]; intros N; [ congruence | ]. cbn [flat_map]. destruct ts as [ | t' ts ]; [ now rewrite app_nil_r | ].
  rewrite IH by discriminate. cbn [intercalate app]. reflexivity.
Qed.
Lemma join_app (ts us : list str) : ts <> [] -> us <> [] -> intercalate [38] (ts ++ us) = intercalate [38] ts ++ [38] ++ intercalate [38] us.
Proof.
  induction ts as [ | t ts IH ]; intros N M; [ congruence | ]. destruct ts as [ | t' ts ].
  - cbn [app intercalate]. destruct us; [ congruence | reflexivity ].
  - cbn [app]. change (intercalate [38] (t :: (t' :: ts) ++ us) = intercalate [38] (t :: t' :: ts) ++ [38] ++ intercalate [38] us).
    cbn [intercalate app] in *. rewrite IH by (auto; discriminate). now rewrite <- !app_assoc.
Qed.
Lemma encode_items_spec l ps : parameters J l ps -> Forall (fun p => ascii (fst p) /\ ascii (snd p)) ps -> forall first,
  exists ts, encode_items J l first = Ok (Some (if first then intercalate [38] ts else flat_map (app [38]) ts)) /\
    Forall2 parameter ts ps /\ Forall good ts.
Proof.
  assert (Jn : forall (first : bool) (x : str) (ts us : list str), ts <> [] -> x = intercalate [38] ts ->
    (if first then [] else [38]) ++ x ++ flat_map (app [38]) us = if first then intercalate [38] (ts ++ us) else flat_map (app [38]) (ts ++ us)).
  { intros first x ts us N ->. assert (E : intercalate [38] ts ++ flat_map (app [38]) us = intercalate [38] (ts ++ us)).
    { destruct us as [ | u us ]; [ now rewrite !app_nil_r | ]. rewrite join_app, prefixed_join by (auto; discriminate). reflexivity. }
    unfold str, byte in *. rewrite E. destruct first; [ reflexivity | ]. rewrite prefixed_join; [ reflexivity | ]. destruct ts; [ congruence | discriminate ]. }
  intros H. induction H as [ | k v l ps H IH | k vs l ps N H IH | k vs l ps N H IH ]; intros A first.
  - exists []. destruct first; cbn; repeat split; constructor.
  - inversion A as [ | ? ? [A1 A2] A3 ]; subst. cbn [fst snd] in *. destruct (encoded_parameter k v A1 A2) as (tk & tv & Ek & Ev & P & N & G).
    destruct (IH A3 false) as (ts & E & F & Gs). exists ((tk ++ [61] ++ tv) :: ts). split; [ | split; [ now constructor | constructor; auto ] ].
    + cbn [encode_items]. rewrite !raw_escape, Ek. cbn [obind]. rewrite Ev. cbn [obind]. rewrite E. cbn [obind]. do 2 f_equal.
      apply (Jn first (tk ++ [61] ++ tv) [tk ++ [61] ++ tv] ts); [ discriminate | reflexivity ].
    + split; [ exact N | split; [ | exact G ] ]. apply in_or_app. right. now left.
  - apply Forall_app in A. destruct A as [A1 A2]. assert (Hk : ascii k /\ Forall ascii vs).
    { destruct vs as [ | v vs ]; [ congruence | ]. inversion A1 as [ | ? ? [Q _] _ ]; subst. split; [ exact Q | ].
      apply Forall_forall. intros x Hx. rewrite Forall_forall in A1. apply (A1 (k, x)). change ((k, v) :: map (pair k) vs) with (map (pair k) (v :: vs)). now apply in_map. }
    destruct Hk as [Hk Hvs]. destruct (query_encode_spec k Hk) as (tk & Ek & _). destruct (encode_values_spec k tk vs Hk Ek Hvs true) as (us & Eu & Fu & Gu).
    destruct (IH A2 false) as (ts & E & F & Gs). exists (us ++ ts). split; [ | split; [ now apply Forall2_app | apply Forall_app; auto ] ].
    cbn [encode_items]. rewrite raw_escape, Ek. cbn [obind]. rewrite Eu. cbn [obind app]. rewrite E. cbn [obind]. do 2 f_equal. apply Jn; [ | reflexivity ].
    intros ->. inversion Fu as [ E1 | ]. destruct vs; [ congruence | discriminate ].
  - apply Forall_app in A. destruct A as [A1 A2]. assert (Hk : ascii k /\ Forall ascii vs).
    { destruct vs as [ | v vs ]; [ congruence | ]. inversion A1 as [ | ? ? [Q _] _ ]; subst. split; [ exact Q | ].
      apply Forall_forall. intros x Hx. rewrite Forall_forall in A1. apply (A1 (k, x)). change ((k, v) :: map (pair k) vs) with (map (pair k) (v :: vs)). now apply in_map. }
    destruct Hk as [Hk Hvs]. destruct (query_encode_spec k Hk) as (tk & Ek & _). destruct (encode_values_spec k tk vs Hk Ek Hvs true) as (us & Eu & Fu & Gu).
    destruct (IH A2 false) as (ts & E & F & Gs). exists (us ++ ts). split; [ | split; [ now apply Forall2_app | apply Forall_app; auto ] ].
    cbn [encode_items]. rewrite raw_escape, Ek. cbn [obind]. rewrite Eu. cbn [obind app]. rewrite E. cbn [obind]. do 2 f_equal. apply Jn; [ | reflexivity ].
    intros ->. inversion Fu as [ E1 | ]. destruct vs; [ congruence | discriminate ].
Qed.
Lemma encode_object_spec l ps : parameters J l ps -> Forall (fun p => ascii (fst p) /\ ascii (snd p)) ps ->
  exists ts, urlquery_encode_object J (VObject l) = Ok (RVal (VString (intercalate [38] ts))) /\ j_escape J (intercalate [38] ts) = intercalate [38] ts /\
    Forall2 parameter ts ps /\ Forall good ts.
Proof.
  intros P A. destruct (encode_items_spec l ps P A true) as (ts & E & F & G). exists ts.
  assert (Q : j_escape J (intercalate [38] ts) = intercalate [38] ts).
  { destruct JOK as (_ & _ & H). apply H. clear -G. induction ts as [ | t ts IH ]; [ constructor | ]. inversion G as [ | ? ? (_ & _ & G1) G2 ]; subst.
    cbn [intercalate]. destruct ts; auto. apply Forall_app. split; auto. apply Forall_app. split; [ constructor; [ lia | constructor ] | auto ]. }
  split; [ | auto ]. cbn [urlquery_encode_object]. rewrite E. cbn [obind]. unfold ok. now rewrite quoted_string_eq, Q.
Qed.
End Query.
