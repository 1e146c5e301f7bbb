(** Proofs that the binary loader terminates and keeps its limits on every input. *)
From Coq Require Import String ZArith List Bool Lia Arith.
From Verif Require Import Base BigIntSpec BigIntModel SMap ValueModel ValueSpec ResolverModel VmModel
  BinModel CrcProofs BinSpec BinProofs BinLoadProofs.
Import ListNotations.
Local Open Scope Z_scope.
Local Open Scope list_scope.

(** On at most [n] unread bytes: the fuel suffices, no byte is made up, results satisfy [P], and the reader makes room for at
    most [cap] bytes beyond those present. *)
Definition safe {A} (cap : Z) (n : nat) (P : A -> Prop) (r : rdr A) : Prop :=
  forall s, wf_str (rs_rest s) -> (length (rs_rest s) <= n)%nat -> 0 <= rs_over s ->
    match r s with
    | Ok (a, s') =>
        P a /\ wf_str (rs_rest s') /\ (length (rs_rest s') <= length (rs_rest s))%nat /\
        0 <= rs_over s' <= Z.max (rs_over s) cap
    | OutOfFuel => False
    | _ => True
    end.
Definition any {A} : A -> Prop := fun _ => True.

Lemma safe_ret {A} cap n (P : A -> Prop) a : P a -> safe cap n P (rret a).
Proof. intros H s W L O. cbn. repeat split; auto; lia. Qed.
Lemma safe_throw {A} cap n (P : A -> Prop) : safe cap n P rthrow.
Proof. intros s W L O. exact I. Qed.
Lemma safe_bind {A B} cap n (P : A -> Prop) (Q : B -> Prop) m f :
  safe cap n P m -> (forall a, P a -> safe cap n Q (f a)) -> safe cap n Q (rbind m f).
Proof.
  intros M K s W L O. unfold rbind. specialize (M s W L O). destruct (m s) as [[a s1]| | |]; auto.
  destruct M as (Pa & W1 & L1 & O1). specialize (K a Pa s1 W1 ltac:(lia) ltac:(lia)).
  destruct (f a s1) as [[b s2]| | |]; auto. destruct K as (Qb & W2 & L2 & O2). repeat split; auto; lia.
Qed.
Lemma safe_impl {A} cap n (P Q : A -> Prop) r : (forall a, P a -> Q a) -> safe cap n P r -> safe cap n Q r.
Proof. intros I M s W L O. specialize (M s W L O). destruct (r s) as [[a s1]| | |]; intuition auto. Qed.
Lemma safe_any {A} cap n (P : A -> Prop) r : safe cap n P r -> safe cap n any r.
Proof. apply safe_impl. intros a H. exact I. Qed.
Lemma safe_mono {A} cap cap' n n' (P : A -> Prop) r : 0 <= cap <= cap' -> (n' <= n)%nat -> safe cap n P r -> safe cap' n' P r.
Proof.
  intros C N M s W L O. specialize (M s W ltac:(lia) O). destruct (r s) as [[a s1]| | |]; auto.
  destruct M as (A1 & A2 & A3 & A4). repeat split; auto; lia.
Qed.
Lemma safe_cap {A} cap n (P : A -> Prop) r : 0 <= cap -> safe 0 n P r -> safe cap n P r.
Proof. intro C. apply safe_mono; lia. Qed.

Lemma wf_skipn k (l : str) : wf_str l -> wf_str (skipn k l).
Proof. intro W. rewrite <- (firstn_skipn k l) in W. apply Forall_app in W. tauto. Qed.
Lemma wf_firstn k (l : str) : wf_str l -> wf_str (firstn k l).
Proof. intro W. rewrite <- (firstn_skipn k l) in W. apply Forall_app in W. tauto. Qed.

Lemma safe_take n k : safe 0 n (fun l => wf_str l /\ (length l <= k)%nat) (take k).
Proof.
  intros s W L O. cbn. rewrite skipn_length. repeat split; try lia.
  - now apply wf_firstn.
  - rewrite firstn_length. lia.
  - now apply wf_skipn.
Qed.
Lemma unle_bound l : wf_str l -> 0 <= unle l < 256 ^ Z.of_nat (length l).
Proof.
  induction l as [|b l IH]; intro W; [cbn; lia|]. inversion W; subst. specialize (IH H2). red in H1.
  cbn [unle length]. rewrite Nat2Z.inj_succ, Z.pow_succ_r by lia. nia.
Qed.
Lemma safe_le n k : safe 0 n (fun x => 0 <= x < 256 ^ Z.of_nat k) (r_le k).
Proof.
  unfold r_le. eapply safe_bind; [apply safe_take|]. intros l [W L]. destruct (Nat.ltb_spec (length l) k).
  - intros s _ _ _. exact I.
  - apply safe_ret. replace k with (length l) by lia. now apply unle_bound.
Qed.
Lemma safe_size n : safe 0 n (fun x => 0 <= x < 2 ^ 32) r_size.
Proof. apply (safe_le n 4). Qed.
Lemma safe_get n : safe 0 n any get.
Proof.
  intros [[|b l] o] W L O; cbn.
  - repeat split; auto; lia.
  - inversion W; subst. repeat split; auto; lia.
Qed.
Lemma safe_byte n : safe 0 n any r_byte.
Proof. eapply safe_bind; [apply safe_get|]. intros. apply safe_ret. exact I. Qed.
Lemma safe_sbyte n : safe 0 n any r_sbyte.
Proof. eapply safe_bind; [apply safe_byte|]. intros. apply safe_ret. exact I. Qed.
(** After a byte one byte less is left, if there was any. *)
Lemma safe_byte_bind {B} cap n (Q : B -> Prop) f : 0 <= cap ->
  (forall b, safe cap n Q (f b)) -> safe cap (S n) Q (rbind r_sbyte f).
Proof.
  intros C K [[|b l] o] W L O; cbn in *.
  - specialize (K (signed 8 255) (RS [] o) W ltac:(cbn; lia) O). unfold rbind. cbn. exact K.
  - inversion W; subst. specialize (K (signed 8 b) (RS l o) H2 ltac:(cbn; lia) O). unfold rbind. cbn.
    destruct (f (signed 8 b) (RS l o)) as [[x s]| | |]; auto. cbn in K. intuition lia.
Qed.
Lemma safe_uint64 n : safe 0 n any skip_uint64.
Proof. eapply safe_bind; [apply safe_take|]. intros. apply safe_ret. exact I. Qed.
Lemma safe_room n k cap : 0 <= cap -> k <= cap -> safe cap n any (room k).
Proof.
  intros C K s W L O. unfold room. pose proof (zlen_nonneg (rs_rest s)).
  destruct (k <=? zlen (rs_rest s)); cbn; repeat split; auto; lia.
Qed.
Lemma safe_times {A} cap n (P : A -> Prop) r : safe cap n P r -> forall k, safe cap n (Forall P) (r_times k r).
Proof.
  intros R. induction k as [|k IH]; cbn [r_times]; [now apply safe_ret|].
  eapply safe_bind; [exact R|]. intros a Pa. eapply safe_bind; [exact IH|]. intros l Pl. apply safe_ret. now constructor.
Qed.
Lemma safe_list8 {A} cap n (P : A -> Prop) r : 0 <= cap -> safe cap n P r -> safe cap n (Forall P) (r_list8 r).
Proof.
  intros C R. unfold r_list8. eapply safe_bind; [apply safe_cap, safe_byte; auto|]. intros. now apply safe_times.
Qed.

(** A checked length is at most what is left. *)
Lemma safe_capped {B} cap n (Q : B -> Prop) m f : 0 <= cap ->
  (forall k s, wf_str (rs_rest s) -> (length (rs_rest s) <= n)%nat -> 0 <= rs_over s ->
     0 <= k <= zlen (rs_rest s) -> k <= m ->
     match f k s with
     | Ok (a, s') =>
         Q a /\ wf_str (rs_rest s') /\ (length (rs_rest s') <= length (rs_rest s))%nat /\
         0 <= rs_over s' <= Z.max (rs_over s) cap
     | OutOfFuel => False
     | _ => True
     end) ->
  safe cap n Q (rbind (r_size_capped m) f).
Proof.
  intros C K s W L O. unfold r_size_capped, r_size_checked, rbind, take.
  destruct (Nat.ltb_spec (length (firstn 4 (rs_rest s))) 4); cbn [rthrow]; [exact I|].
  cbn [rs_rest rs_over].
  pose proof (wf_skipn 4 _ W) as W1. pose proof (unle_bound _ (wf_firstn 4 _ W)) as U.
  set (rest := skipn 4 (rs_rest s)) in *. set (k := unle (firstn 4 (rs_rest s))) in *.
  assert (Hl : (length rest <= length (rs_rest s))%nat) by (unfold rest; rewrite skipn_length; lia).
  destruct (Z.ltb_spec (zlen rest) k); [exact I|].
  destruct (Z.ltb_spec m k); cbn [rthrow rret]; [exact I|].
  specialize (K k (RS rest (rs_over s)) W1 ltac:(cbn [rs_rest]; zlia) O ltac:(cbn [rs_rest]; zlia) ltac:(lia)).
  destruct (f k (RS rest (rs_over s))) as [[a s2]| | |]; auto. cbn [rs_rest rs_over] in K. destruct K as (A1 & A2 & A3 & A4).
  repeat split; auto; lia.
Qed.
Lemma safe_list32 {A} cap n (P : A -> Prop) r : 0 <= cap -> safe cap n P r -> safe cap n (Forall P) (r_list32 r).
Proof.
  intros C R. apply safe_capped; auto. intros k s W L O _ _. now apply (safe_times _ _ _ _ R).
Qed.
Lemma safe_string n : safe 0 n any r_string.
Proof.
  apply safe_capped; [lia|]. intros k s W L O K _. unfold rbind, room.
  destruct (Z.leb_spec k (zlen (rs_rest s))); [|lia]. apply (safe_any _ _ _ _ (safe_take n (Z.to_nat k))); auto.
Qed.
Lemma safe_skip_string n : safe 0 n any skip_string.
Proof.
  apply safe_capped; [lia|]. intros k s W L O K _.
  apply (safe_bind 0 n _ any _ (fun _ => rret tt) (safe_take n (Z.to_nat k)) (fun _ _ => safe_ret 0 n any tt I)); auto.
Qed.
Lemma safe_assert n id : safe 0 n any (assert_id id).
Proof.
  eapply safe_bind; [apply safe_sbyte|]. intros a _. destruct (a =? id); [now apply safe_ret | apply safe_throw].
Qed.

(** Splits one step of a reader. *)
Ltac srd :=
  match goal with
  | |- safe _ _ _ (rret _) => apply safe_ret; try exact I
  | |- safe _ _ _ rthrow => apply safe_throw
  | |- safe _ _ _ (if ?c then _ else _) => destruct c
  | |- safe _ _ _ (match ?c with Some _ => _ | None => _ end) => destruct c
  | |- safe _ _ _ (rbind _ _) => eapply safe_bind; [| let H := fresh "H" in intros ? H]
  | |- safe _ _ _ r_size => apply safe_cap; [lia | apply safe_size]
  | |- safe _ _ _ (r_le _) => apply safe_cap; [lia | apply safe_le]
  | |- safe _ _ _ r_string => apply safe_cap; [lia | apply safe_string]
  | |- safe _ _ _ r_sbyte => apply safe_cap; [lia | apply safe_sbyte]
  | |- safe _ _ _ r_byte => apply safe_cap; [lia | apply safe_byte]
  | |- safe _ _ _ (r_list8 _) => apply safe_list8; [lia|]
  | |- safe _ _ _ (r_list32 _) => apply safe_list32; [lia|]
  end.

Lemma safe_location n files : safe 0 n any (r_location files).
Proof. unfold r_location. repeat srd. Qed.
Lemma safe_file n : safe 0 n any r_file.
Proof. unfold r_file. repeat srd. Qed.
Lemma safe_utf8 n utf8 : safe 0 n any (r_utf8 utf8).
Proof. unfold r_utf8. repeat srd. Qed.
Lemma safe_btype : forall n, safe 0 n any (r_btype (S n)).
Proof.
  induction n as [|n IH].
  - intros [[|b l] o] W L O; [|cbn in L; lia]. exact I.
  - assert (K : safe 0 n any (read! name := r_string in read! t := r_btype (S n) in rret (name, t))).
    { repeat srd. exact IH. }
    remember (S n) as m eqn:E. cbn [r_btype]. rewrite E. apply safe_byte_bind; [lia|]. intro id. rewrite <- E.
    repeat first [exact IH | exact K | srd].
Qed.
Lemma safe_type n : safe 0 n any r_type.
Proof. intros s W L O. unfold r_type. now apply safe_btype. Qed.
Lemma safe_barg n : safe 0 n any r_barg.
Proof. unfold r_barg. repeat first [apply safe_type | srd]. Qed.
Lemma safe_bdecl n : safe 0 n any r_bdecl.
Proof.
  unfold r_bdecl. srd; [srd|]. srd.
  { instantiate (1 := any). srd; repeat first [apply safe_barg | srd]. }
  srd; [srd|]. srd.
  { instantiate (1 := any). srd; repeat first [apply safe_barg | srd]. }
  srd.
Qed.
Lemma safe_builtin n : safe 0 n any r_builtin.
Proof. unfold r_builtin. repeat first [apply safe_bdecl | srd]. Qed.
Lemma safe_operand n : safe 0 n any r_operand.
Proof. unfold r_operand. repeat srd. Qed.
Lemma safe_target n : safe 0 n any r_target.
Proof. unfold r_target. repeat srd. Qed.

Lemma safe_int64 n : safe 0 n any r_int64.
Proof. unfold r_int64. repeat srd. Qed.
Lemma safe_int32 n : safe 0 n any r_int32.
Proof. unfold r_int32. repeat srd. Qed.

Section Stmts.
Variable files : list source.
Variable n : nat.
Lemma safe_stmt d rb : safe 0 n (block_within d) rb ->
  safe 0 n (fun s => Forall (block_within d) (stmt_blocks s)) (r_stmt files rb).
Proof.
  intro R. unfold r_stmt. srd; [srd|]. srd; [apply safe_location|]. srd; [|srd].
  assert (N : Forall (block_within d) []) by constructor.
  destruct s; unfold r_stmt_body;
    repeat first [exact R | apply safe_int32 | apply safe_int64 | apply safe_operand | apply safe_target | srd];
    cbn [stmt_blocks]; auto.
Qed.
Lemma safe_block : forall d, safe 0 n (block_within d) (r_block files d).
Proof.
  induction d as [|d IH]; cbn [r_block]; [apply safe_throw|].
  apply safe_list32; [lia|]. now apply safe_stmt.
Qed.
Lemma safe_blocks : safe 0 n (Forall (block_within 256)) (r_blocks files).
Proof. apply safe_list32; [lia|]. apply (safe_block 256). Qed.
Lemma safe_plan : safe 0 n (fun p => Forall (block_within 256) (bp_blocks p)) (r_plan files).
Proof. unfold r_plan. srd; [srd|]. srd; [apply safe_blocks|]. srd. exact H0. Qed.
Lemma safe_func : safe 0 n (fun p => Forall (block_within 256) (bf_blocks p)) (r_func files).
Proof.
  unfold r_func. srd; [srd|]. srd; [srd; srd|]. srd; [srd; srd|]. srd; [srd|]. srd; [apply safe_blocks|]. srd. exact H3.
Qed.
Lemma safe_section {A} id (P : A -> Prop) r : safe 0 n P r -> safe 0 n (Forall P) (r_section id r).
Proof.
  intro R. unfold r_section. srd; [apply safe_assert|]. srd; [srd; exact R|]. srd.
  { instantiate (1 := any). unfold skip_table. srd; [apply safe_uint64|]. srd.
    { srd. instantiate (1 := any). srd; [apply safe_skip_string | apply safe_uint64]. }
    srd. }
  srd. auto.
Qed.
End Stmts.

(** ** Data *)

Lemma cstring_len l : wf_str l -> wf_str (snd (cstring l)) /\ (length (snd (cstring l)) <= length l)%nat.
Proof.
  induction l as [|b l IH]; intro W; cbn; [split; auto|]. inversion W; subst.
  destruct (b =? 0); cbn; [split; auto|]. specialize (IH H2). destruct (cstring l); cbn in *. split; [tauto | lia].
Qed.
Lemma safe_cstring n : safe 0 n any r_cstring.
Proof.
  intros s W L O. unfold r_cstring. pose proof (cstring_len _ W) as [W1 L1]. destruct (cstring (rs_rest s)); cbn in *.
  repeat split; auto; lia.
Qed.
Lemma safe_padded n k : k < 2 ^ 32 -> safe (2 ^ 32) n any (r_padded k).
Proof.
  intro K. unfold r_padded. srd; [apply safe_room; lia|]. srd; [apply safe_cap; [lia | apply safe_take]|]. srd.
Qed.
Lemma safe_bson_string n : safe (2 ^ 32) n any r_bson_string.
Proof.
  unfold r_bson_string. srd; [srd|]. cbv beta in H. srd; [srd|]. srd; [apply safe_padded; lia|].
  srd; [apply safe_cap; [lia | apply safe_get]|]. srd.
Qed.

Definition item_within d (kv : str * dnode) := data_within d (node_value (snd kv)).
Lemma safe_element n d rdoc id : safe (2 ^ 32) n (Forall (item_within d)) rdoc ->
  safe (2 ^ 32) n (fun x => data_within (S d) (node_value x)) (r_element rdoc id).
Proof.
  intro R. unfold r_element.
  srd. { srd; [srd|]. srd; [srd|]. srd; srd. }
  srd; [srd|].
  srd. { srd; [apply safe_bson_string|]. srd. }
  srd. { srd; [srd|]. cbv beta in H. srd; [srd|]. srd; [|srd]. srd; [apply safe_padded; lia|]. srd. destruct (_ =? _); exact I. }
  srd. { srd; [exact R|]. srd. cbn [node_value data_within]. rewrite map_map. apply Forall_map. exact H. }
  srd; [|srd].
  srd; [exact R|]. srd. cbn [node_value data_within]. rewrite map_map. apply Forall_map.
  eapply Forall_impl; [|exact H]. intros [k x] Hx. unfold item_within in Hx. cbn [fst snd] in *.
  split; [destruct d; exact I|]. destruct x; exact Hx.
Qed.
Lemma safe_element_0 n id : safe (2 ^ 32) n (fun x => data_within 0 (node_value x)) (r_element (r_doc 0) id).
Proof.
  unfold r_element.
  srd. { srd; [srd|]. srd; [srd|]. srd; srd. }
  srd; [srd|].
  srd. { srd; [apply safe_bson_string|]. srd. }
  srd. { srd; [srd|]. cbv beta in H. srd; [srd|]. srd; [|srd]. srd; [apply safe_padded; lia|]. srd. destruct (_ =? _); exact I. }
  srd. { srd; [apply (safe_throw _ _ (fun _ => False))|]. destruct H. }
  srd; [|srd].
  srd; [apply (safe_throw _ _ (fun _ => False))|]. destruct H.
Qed.
Lemma safe_loop P rdoc : (forall n id, safe (2 ^ 32) n P (r_element rdoc id)) ->
  forall n len size, safe (2 ^ 32) n (Forall (fun kv : str * dnode => P (snd kv))) (doc_loop rdoc (S n) len size).
Proof.
  intros E. induction n as [|n IH]; intros len size.
  - intros [[|b l] o] W L O; [|cbn in L; lia]. cbn. repeat split; auto; lia.
  - remember (S n) as m eqn:Em. cbn [doc_loop]. rewrite Em. intros [[|b l] o] W L O.
    + cbn. repeat split; auto; lia.
    + unfold rbind at 1. cbn [get rs_rest]. inversion W; subst.
      destruct (negb (b =? 0) && _).
      * cbn [length rs_rest] in L. cbn [rs_over] in *.
        assert (S1 : safe (2 ^ 32) n (Forall (fun kv : str * dnode => P (snd kv)))
          (read! key := r_cstring in read! x := r_element rdoc (signed 8 b) in
           read! l := doc_loop rdoc (S n) len size in rret ((key, x) :: l))).
        { srd; [apply safe_cap; [lia | apply safe_cstring]|]. srd; [apply E|]. srd; [apply IH|]. srd. constructor; auto. }
        specialize (S1 (RS l o) H2 ltac:(cbn; lia) O).
        match goal with |- match ?x with _ => _ end => destruct x as [[a s1]| | |]; auto end.
        cbn in *. intuition lia.
      * cbn. repeat split; auto. all: cbn in O; lia.
Qed.
Lemma safe_doc : forall d n, safe (2 ^ 32) n (Forall (item_within (pred d))) (r_doc d).
Proof.
  induction d as [|d IH]; intro n; cbn [r_doc]; [apply safe_throw|]. cbn [pred].
  srd; [srd|]. intros s W L O.
  apply (safe_loop (fun x => data_within d (node_value x))); auto.
  intros m id. destruct d as [|d].
  - apply safe_element_0.
  - apply safe_element. apply IH.
Qed.
Lemma safe_data n : safe (2 ^ 32) n (fun x => data_within 256 (node_value x)) r_data.
Proof.
  unfold r_data. srd; [apply safe_cap; [lia | apply safe_assert]|]. apply safe_element. apply (safe_doc 256).
Qed.

Definition bundle_within (b : bbundle) : Prop :=
  Forall (fun p => Forall (block_within 256) (bp_blocks p)) (bb_plans b) /\
  Forall (fun f => Forall (block_within 256) (bf_blocks f)) (bb_functions b) /\
  data_within 256 (node_value (bb_data b)).
Lemma safe_bundle n utf8 locals q : safe (2 ^ 32) n bundle_within (r_bundle utf8 locals q).
Proof.
  unfold r_bundle.
  srd; [apply safe_cap; [lia | apply safe_assert]|].
  srd; [srd; apply safe_cap; [lia | apply safe_file]|].
  srd; [srd; apply safe_cap; [lia | apply safe_utf8]|].
  srd; [srd; apply safe_cap; [lia | apply safe_builtin]|].
  srd; [srd|].
  srd. { instantiate (1 := any). srd; [|srd]. srd; [srd|]. srd. }
  srd; [apply safe_cap; [lia | apply safe_section, safe_plan]|].
  srd; [apply safe_cap; [lia | apply safe_section, safe_func]|].
  srd; [apply safe_data|].
  srd. split; [|split]; assumption.
Qed.

Lemma load_safe utf8 bytes : wf_str bytes ->
  match load_state utf8 bytes with
  | Ok (b, s) => bundle_within b /\ 0 <= rs_over s <= 2 ^ 32
  | OutOfFuel => False
  | _ => True
  end.
Proof.
  intro W. unfold load_state. repeat match goal with
  | |- match (if ?c then _ else _) with _ => _ end => destruct c; [exact I|]
  | |- match (let x := _ in _) with _ => _ end => cbv zeta
  end.
  match goal with |- match r_bundle ?u ?l ?q (RS ?p 0) with _ => _ end =>
    pose proof (safe_bundle (length p) u l q (RS p 0) (wf_firstn _ _ (wf_skipn _ _ W)) (le_n _) ltac:(cbn; lia)) as H;
    destruct (r_bundle u l q (RS p 0)) as [[b s]| | |]; auto
  end. cbn in H. split; [tauto | lia].
Qed.
