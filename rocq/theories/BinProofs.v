(** The binary bundle format: what is written is read back. *)
From Coq Require Import String ZArith List Bool Lia.
From Verif Require Import Base BigIntSpec BigIntModel DecFacts SMap SMapFacts ValueModel ValueSpec ResolverModel VmModel BinModel
  BinSpec.
Import ListNotations.
Local Open Scope Z_scope.
Local Open Scope list_scope.

Ltac crush_cases := repeat match goal with |- context [if ?b then _ else _] => destruct b end.

Definition reads {A} (r : rdr A) (w : str) (x : A) : Prop :=
  forall rest o, r (RS (w ++ rest) o) = Ok (x, RS rest o).

Lemma reads_ret {A} (x : A) : reads (rret x) [] x.
Proof. intros rest o. reflexivity. Qed.
Lemma reads_bind {A B} (m : rdr A) (f : A -> rdr B) w w' x y :
  reads m w x -> reads (f x) w' y -> reads (rbind m f) (w ++ w') y.
Proof. intros H H' rest o. unfold rbind. rewrite <- app_assoc, H. apply H'. Qed.
Lemma reads_map {A B} (m : rdr A) (f : A -> B) w x : reads m w x -> reads (read! a := m in rret (f a)) w (f x).
Proof. intro H. rewrite <- (app_nil_r w). eapply reads_bind; [exact H|]. apply reads_ret. Qed.
Lemma reads_last {A B} (m : rdr A) (f : A -> B) w x y : reads m w x -> f x = y -> reads (read! a := m in rret (f a)) w y.
Proof. intros; subst. now apply reads_map. Qed.
Lemma reads_eq {A} (r : rdr A) w w' x x' : reads r w x -> w = w' -> x = x' -> reads r w' x'.
Proof. intros; subst; auto. Qed.

Lemma zlen_app {A} (l l' : list A) : zlen (l ++ l') = zlen l + zlen l'.
Proof. unfold zlen. rewrite app_length. lia. Qed.
Lemma zlen_nonneg {A} (l : list A) : 0 <= zlen l.
Proof. unfold zlen. lia. Qed.
Lemma zlen_cons {A} (x : A) l : zlen (x :: l) = 1 + zlen l.
Proof. unfold zlen. simpl length. lia. Qed.

(** ** Numbers *)

Lemma le_length k : forall n, length (le k n) = k.
Proof. induction k; simpl; intros; auto. Qed.
Lemma unle_le k : forall n, unle (le k n) = n mod 256 ^ Z.of_nat k.
Proof.
  induction k as [|k IH]; intro n.
  - simpl. now rewrite Z.mod_1_r.
  - cbn [le unle]. rewrite IH, Nat2Z.inj_succ, Z.pow_succ_r by lia.
    rewrite (Z.rem_mul_r n 256) by (try lia; apply Z.pow_nonzero; lia). reflexivity.
Qed.
Lemma take_app k w rest o : length w = k -> take k (RS (w ++ rest) o) = Ok (w, RS rest o).
Proof.
  intro H. unfold take. cbn [rs_rest rs_over]. rewrite <- H.
  rewrite firstn_app, Nat.sub_diag, firstn_O, firstn_all, app_nil_r.
  rewrite skipn_app, Nat.sub_diag, skipn_all. reflexivity.
Qed.
Lemma r_le_reads k n : reads (r_le k) (le k n) (n mod 256 ^ Z.of_nat k).
Proof.
  intros rest o. unfold r_le, rbind. rewrite take_app by apply le_length.
  rewrite le_length, Nat.ltb_irrefl, unle_le. reflexivity.
Qed.
Lemma r_size_reads n : fits32 n -> reads r_size (w_size n) n.
Proof.
  intro H. pose proof (r_le_reads 4 n) as R. unfold fits32 in H.
  rewrite (Z.mod_small n) in R; [exact R|]. change (256 ^ Z.of_nat 4) with (2 ^ 32). lia.
Qed.
Lemma signed_mod w n : 0 < w -> - 2 ^ (w - 1) <= n < 2 ^ (w - 1) -> signed w (n mod 2 ^ w) = n.
Proof.
  intros Hw H. unfold signed.
  assert (P : 2 ^ w = 2 * 2 ^ (w - 1)) by (rewrite <- Z.pow_succ_r by lia; f_equal; lia).
  destruct (Z.lt_ge_cases n 0) as [L|L].
  - replace (n mod 2 ^ w) with (n + 2 ^ w).
    + destruct (Z.ltb_spec (n + 2 ^ w) (2 ^ (w - 1))); lia.
    + apply Z.mod_unique with (q := -1); lia.
  - rewrite Z.mod_small by lia. destruct (Z.ltb_spec n (2 ^ (w - 1))); lia.
Qed.
Lemma r_target_reads n : - 2 ^ 31 <= n < 2 ^ 31 -> reads r_target (w_size n) n.
Proof.
  intro H. pose proof (reads_map _ (signed 32) _ _ (r_le_reads 4 n)) as R.
  change (256 ^ Z.of_nat 4) with (2 ^ 32) in R. rewrite (signed_mod 32) in R by lia. exact R.
Qed.
Lemma r_int32_reads n : - 2 ^ 31 <= n < 2 ^ 31 -> reads r_int32 (le 4 n) n.
Proof. apply r_target_reads. Qed.
Lemma r_int64_reads n : - 2 ^ 63 <= n < 2 ^ 63 -> reads r_int64 (le 8 n) n.
Proof.
  intro H. pose proof (reads_map _ (signed 64) _ _ (r_le_reads 8 n)) as R.
  change (256 ^ Z.of_nat 8) with (2 ^ 64) in R. rewrite (signed_mod 64) in R by lia. exact R.
Qed.
Lemma r_byte_reads n : 0 <= n < 256 -> reads r_byte (w_byte n) n.
Proof.
  intros H rest o. unfold r_byte, rbind, w_byte. cbn [app get rs_rest].
  rewrite Z.mod_small by lia. reflexivity.
Qed.
Lemma r_sbyte_reads n : -128 <= n < 128 -> reads r_sbyte (w_byte n) n.
Proof.
  intros H rest o. unfold r_sbyte, r_byte, rbind, w_byte. cbn [app get rs_rest rret].
  change 256 with (2 ^ 8). now rewrite (signed_mod 8) by lia.
Qed.
Lemma assert_id_reads n : -128 <= n < 128 -> reads (assert_id n) (w_byte n) tt.
Proof.
  intro H. rewrite <- (app_nil_r (w_byte n)). eapply reads_bind; [now apply r_sbyte_reads|].
  rewrite Z.eqb_refl. apply reads_ret.
Qed.
Lemma skip_uint64_reads n : reads skip_uint64 (le 8 n) tt.
Proof. intros rest o. unfold skip_uint64, rbind. now rewrite take_app by apply le_length. Qed.

(** ** Strings *)

Lemma r_capped_reads cap n w : 0 <= n <= cap -> cap < 2 ^ 32 -> n <= zlen w ->
  forall rest o, r_size_capped cap (RS (w_size n ++ w ++ rest) o) = Ok (n, RS (w ++ rest) o).
Proof.
  intros H C L rest o. unfold r_size_capped, r_size_checked, rbind, w_size.
  rewrite take_app by apply le_length.
  rewrite le_length, Nat.ltb_irrefl, unle_le. cbn [rs_rest].
  rewrite (Z.mod_small n) by (change (256 ^ Z.of_nat 4) with (2 ^ 32); lia).
  pose proof (zlen_nonneg rest).
  destruct (Z.ltb_spec (zlen (w ++ rest)) n) as [G|G]; [rewrite zlen_app in G; lia|].
  destruct (Z.ltb_spec cap n); [lia|]. reflexivity.
Qed.
Lemma zlen_to_nat {A} (l : list A) : Z.to_nat (zlen l) = length l.
Proof. unfold zlen. lia. Qed.
Lemma r_string_reads t : short t -> reads r_string (w_string t) t.
Proof.
  intros H rest o. unfold r_string, w_string. rewrite <- app_assoc. unfold rbind.
  rewrite r_capped_reads; try (unfold short, MaxStringBytes in *; pose proof (zlen_nonneg t); lia).
  unfold room. cbn [rs_rest].
  pose proof (zlen_nonneg rest).
  destruct (Z.leb_spec (zlen t) (zlen (t ++ rest))) as [G|G]; [|rewrite zlen_app in G; lia].
  rewrite zlen_to_nat. now apply take_app.
Qed.
Lemma skip_string_reads t : short t -> reads skip_string (w_string t) tt.
Proof.
  intros H rest o. unfold skip_string, w_string. rewrite <- app_assoc. unfold rbind.
  rewrite r_capped_reads; try (unfold short, MaxStringBytes in *; pose proof (zlen_nonneg t); lia).
  rewrite zlen_to_nat. now rewrite take_app.
Qed.
Lemma w_string_len t : 4 <= zlen (w_string t).
Proof. unfold w_string, w_size. rewrite zlen_app. pose proof (zlen_nonneg t). unfold zlen at 1. rewrite le_length. lia. Qed.

(** ** Lists *)

Lemma r_times_reads {A B} (r : rdr B) (w : A -> str) (f : A -> B) l :
  Forall (fun a => reads r (w a) (f a)) l -> reads (r_times (length l) r) (concat (map w l)) (map f l).
Proof.
  induction 1 as [|a l Ha Hl IH]; cbn [r_times length map concat].
  - apply reads_ret.
  - eapply reads_bind; [exact Ha|]. eapply reads_eq; [apply reads_map with (f := fun l => f a :: l); exact IH | auto | auto].
Qed.
Lemma concat_len {A} (w : A -> str) l : Forall (fun a => 1 <= zlen (w a)) l -> zlen l <= zlen (concat (map w l)).
Proof.
  induction 1; cbn [map concat]; [unfold zlen; simpl; lia|].
  rewrite zlen_cons, zlen_app. lia.
Qed.
Lemma r_list8_reads {A B} (r : rdr B) (w : A -> str) (f : A -> B) l :
  few l -> Forall (fun a => reads r (w a) (f a)) l -> reads (r_list8 r) (w_list8 w l) (map f l).
Proof.
  intros L H. unfold r_list8, w_list8, few in *. pose proof (zlen_nonneg l).
  eapply reads_bind; [apply r_byte_reads; lia|]. rewrite zlen_to_nat. now apply r_times_reads.
Qed.
Lemma r_list32_reads {A B} (r : rdr B) (w : A -> str) (f : A -> B) l :
  many l -> Forall (fun a => reads r (w a) (f a)) l -> Forall (fun a => 1 <= zlen (w a)) l ->
  reads (r_list32 r) (w_list32 w l) (map f l).
Proof.
  intros L H P rest o. unfold r_list32, w_list32, many in *. pose proof (zlen_nonneg l).
  rewrite <- app_assoc. unfold rbind.
  rewrite r_capped_reads; try (unfold MaxCollectionElements; lia). 2: now apply concat_len.
  rewrite zlen_to_nat. now apply r_times_reads.
Qed.

(** When writing can fail. *)
Definition enc {A B} (w : A -> outcome str) (r : rdr B) (f : A -> B) (a : A) : Prop :=
  exists x, w a = Ok x /\ 1 <= zlen x /\ reads r x (f a).
Lemma w_all_enc {A B} (w : A -> outcome str) (r : rdr B) (f : A -> B) l :
  Forall (enc w r f) l ->
  exists x, w_all w l = Ok x /\ zlen l <= zlen x /\ reads (r_times (length l) r) x (map f l).
Proof.
  induction 1 as [|a l (x & E & P & R) Hl IH]; cbn [w_all r_times length map].
  - exists []. repeat split; try apply reads_ret. unfold zlen; simpl; lia.
  - destruct IH as (y & E' & P' & R').
    fold (w_all w l). rewrite E, E'. exists (x ++ y). split; [reflexivity|]. split.
    + rewrite zlen_cons, zlen_app. lia.
    + eapply reads_bind; [exact R|]. exact (reads_map _ (cons (f a)) _ _ R').
Qed.
Lemma counted_enc {A B} (w : A -> outcome str) (r : rdr B) (f : A -> B) l :
  many l -> Forall (enc w r f) l ->
  exists x, w_all w l = Ok x /\ reads (r_list32 r) (w_size (zlen l) ++ x) (map f l).
Proof.
  intros L H. destruct (w_all_enc w r f l H) as (x & E & P & R). exists x. split; auto.
  intros rest o. unfold r_list32, rbind, many in *. pose proof (zlen_nonneg l). rewrite <- app_assoc.
  rewrite r_capped_reads; try (unfold MaxCollectionElements; lia).
  rewrite zlen_to_nat. apply R.
Qed.

(** ** Builtin declarations *)

Lemma in_concat_len {A} (w : A -> str) a l : In a l -> (length (w a) <= length (concat (map w l)))%nat.
Proof.
  induction l as [|b l IH]; simpl; [tauto|]. rewrite app_length. intros [->|H]; [lia|]. specialize (IH H). lia.
Qed.
Lemma all_in (l : list btype) :
  (fix all l := match l with [] => True | x :: l' => btype_ok x /\ all l' end) l -> forall x, In x l -> btype_ok x.
Proof. induction l as [|y l IH]; simpl; [tauto|]. intros [H H'] x [->|Hx]; auto. Qed.
Lemma all_in_kv (l : list (str * btype)) :
  (fix all (l : list (str * btype)) := match l with [] => True | (n, x) :: l' => (short n /\ btype_ok x) /\ all l' end) l ->
  forall n x, In (n, x) l -> short n /\ btype_ok x.
Proof. induction l as [|[m y] l IH]; simpl; [tauto|]. intros [H H'] n x [E|Hx]; auto. inversion E; subst; auto. Qed.

Lemma r_btype_reads : forall n t, btype_ok t -> (length (w_btype t) <= n)%nat -> reads (r_btype n) (w_btype t) t.
Proof.
  induction n as [|n IH]; intros t Ok_t L.
  { exfalso. destruct t; simpl in L; lia. }
  assert (LST : forall l : list btype, few l ->
            (fix all l := match l with [] => True | x :: l' => btype_ok x /\ all l' end) l ->
            (length (concat (map w_btype l)) <= n)%nat ->
            reads (r_list8 (r_btype n)) (w_byte (zlen l) ++ concat (map w_btype l)) l).
  { intros l Fl Al Ll. rewrite <- (map_id l) at 3. apply (r_list8_reads (r_btype n) w_btype (fun x => x)); auto.
    apply Forall_forall. intros x Hx. apply IH; [eapply all_in; eauto|].
    pose proof (in_concat_len w_btype x l Hx). lia. }
  set (wkv := fun nt : str * btype => let '(n, t) := nt in w_string n ++ w_btype t).
  assert (KV : forall l : list (str * btype), few l ->
            (fix all (l : list (str * btype)) := match l with [] => True | (n, x) :: l' => (short n /\ btype_ok x) /\ all l' end) l ->
            (length (concat (map wkv l)) <= n)%nat ->
            reads (r_list8 (read! name := r_string in read! t := r_btype n in rret (name, t)))
              (w_byte (zlen l) ++ concat (map wkv l)) l).
  { intros l Fl Al Ll. rewrite <- (map_id l) at 3.
    apply (r_list8_reads _ wkv (fun x => x)); auto.
    apply Forall_forall. intros [m x] Hx. destruct (all_in_kv l Al m x Hx) as [Sm Bx].
    pose proof (in_concat_len wkv (m, x) l Hx) as Lx.
    change (length (w_string m ++ w_btype x) <= length (concat (map wkv l)))%nat in Lx. rewrite app_length in Lx.
    unfold wkv. eapply reads_bind; [now apply r_string_reads|].
    apply (reads_map (r_btype n) (fun t => (m, t))). apply IH; [exact Bx|].
    etransitivity; [|exact Ll]. etransitivity; [|exact Lx]. apply Nat.le_add_l. }
  assert (ID : forall i (k : rdr btype) w, 1 <= i <= 12 ->
            reads ((fun id => if id =? 1 then rret BAny
      else if id =? 2 then rret BNumber
      else if id =? 3 then rret BString
      else if id =? 4 then rret BBoolean
      else if id =? 5 then rret BNull
      else if id =? 6 then read! t := r_btype n in rret (BDynArray t)
      else if id =? 7 then read! l := r_list8 (r_btype n) in rret (BStaticArray l)
      else if id =? 8 then read! k := r_btype n in read! v := r_btype n in rret (BDynObject k v)
      else if id =? 9 then read! l := r_list8 (read! name := r_string in read! t := r_btype n in rret (name, t)) in rret (BStaticObject l)
      else if id =? 10 then
        read! k := r_btype n in read! v := r_btype n in
        read! l := r_list8 (read! name := r_string in read! t := r_btype n in rret (name, t)) in rret (BHybrid k v l)
      else if id =? 11 then read! t := r_btype n in rret (BSet t)
      else if id =? 12 then read! l := r_list8 (r_btype n) in rret (BTypeSeq l)
      else rthrow) i) w t -> reads (r_btype (S n)) (w_byte i ++ w) t).
  { intros i k w Hi R. cbn [r_btype]. eapply reads_bind; [apply r_sbyte_reads; lia|]. exact R. }
  destruct t; cbn [w_btype] in *; rewrite ?app_length in L; cbn [w_byte length app] in L; cbn [btype_ok] in Ok_t.
  - apply (ID 1 rthrow []); [lia|]. apply reads_ret.
  - apply (ID 2 rthrow []); [lia|]. apply reads_ret.
  - apply (ID 3 rthrow []); [lia|]. apply reads_ret.
  - apply (ID 4 rthrow []); [lia|]. apply reads_ret.
  - apply (ID 5 rthrow []); [lia|]. apply reads_ret.
  - apply (ID 6 rthrow); [lia|]. apply (reads_map (r_btype n) BDynArray). apply IH; auto; lia.
  - apply (ID 7 rthrow); [lia|]. apply (reads_map (r_list8 (r_btype n)) BStaticArray).
    destruct Ok_t. apply LST; auto. lia.
  - apply (ID 8 rthrow); [lia|]. destruct Ok_t as [K V].
    eapply reads_bind; [apply (IH t1); auto; lia|]. apply (reads_map (r_btype n) (BDynObject t1)). apply IH; auto; lia.
  - apply (ID 9 rthrow); [lia|]. destruct Ok_t. apply (reads_map _ BStaticObject). apply KV; auto. unfold wkv. lia.
  - apply (ID 10 rthrow); [lia|]. destruct Ok_t as (K & V & A & B).
    eapply reads_bind; [apply (IH t1); auto; lia|].
    eapply reads_bind; [apply (IH t2); auto; lia|].
    apply (reads_map _ (BHybrid t1 t2)). apply KV; auto. unfold wkv. lia.
  - apply (ID 11 rthrow); [lia|]. apply (reads_map (r_btype n) BSet). apply IH; auto; lia.
  - apply (ID 12 rthrow); [lia|]. apply (reads_map (r_list8 (r_btype n)) BTypeSeq).
    destruct Ok_t. apply LST; auto. lia.
Qed.
Lemma r_type_reads t : btype_ok t -> reads r_type (w_btype t) t.
Proof. intros H rest o. unfold r_type. apply r_btype_reads; auto. cbn [rs_rest]. rewrite app_length. lia. Qed.

Lemma r_barg_reads a : barg_ok a -> reads r_barg (w_barg a) a.
Proof.
  destruct a as [an ad at_]. intros (N & D & T). unfold r_barg, w_barg. cbn [ba_name ba_desc ba_type] in *.
  eapply reads_bind; [now apply r_string_reads|].
  eapply reads_bind; [now apply r_string_reads|].
  apply (reads_map r_type (BArg an ad)). now apply r_type_reads.
Qed.
Lemma r_bdecl_reads d : bdecl_ok d -> reads r_bdecl (w_bdecl d) d.
Proof.
  intros [A R]. unfold r_bdecl, w_bdecl.
  assert (RR : forall args, reads
     (read! r := r_sbyte in
      read! res := (if r =? 2 then read! x := r_barg in rret (Some x) else rret None) in rret (BDecl args res))
     (match bd_ret d with None => w_byte 1 | Some r => w_byte 2 ++ w_barg r end) (BDecl args (bd_ret d))).
  { intro args. destruct (bd_ret d) as [r|].
    - eapply reads_bind; [apply r_sbyte_reads; lia|].
      apply (reads_map _ (BDecl args)). apply (reads_map r_barg Some). now apply r_barg_reads.
    - rewrite <- (app_nil_r (w_byte 1)). eapply reads_bind; [apply r_sbyte_reads; lia|]. apply reads_ret. }
  destruct d as [args ret]; cbn [bd_args bd_ret] in *. destruct args as [l|].
  - rewrite <- app_assoc. eapply reads_bind; [apply r_sbyte_reads; lia|].
    eapply reads_bind; [|apply RR].
    apply (reads_map (r_list8 r_barg) Some).
    rewrite <- (map_id l) at 2. apply (r_list8_reads r_barg w_barg (fun x => x)); [tauto|].
    destruct A as [_ A]. eapply Forall_impl; [|exact A]. intros; now apply r_barg_reads.
  - eapply reads_bind; [apply r_sbyte_reads; lia|].
    change (match ret with None => w_byte 1 | Some r => w_byte 2 ++ w_barg r end)
      with ([] ++ match ret with None => w_byte 1 | Some r => w_byte 2 ++ w_barg r end).
    eapply reads_bind; [|apply RR]. apply reads_ret.
Qed.

(** ** Statements *)

Lemma r_operand_enc o : op_ok o -> enc w_operand r_operand same_op o.
Proof.
  unfold op_ok, enc, w_operand, same_op. destruct o as [ty w]. cbn [o_type o_word].
  assert (SZ : forall n, 1 <= zlen (w_byte n ++ w_size (o_index (Op ty w)))).
  { intro n. rewrite zlen_app. unfold zlen. cbn [w_byte length]. lia. }
  assert (IX : fits32 w -> o_index (Op ty w) = w).
  { intro H. unfold o_index. cbn [o_word]. apply Z.mod_small. unfold fits32 in H. lia. }
  destruct ty; try tauto; intro H.
  - eexists. split; [reflexivity|]. split; auto. rewrite IX by auto.
    eapply reads_bind; [apply r_sbyte_reads; lia|]. apply (reads_map r_size (Op TLocal)). now apply r_size_reads.
  - eexists. split; [reflexivity|]. split; auto. rewrite IX by auto.
    eapply reads_bind; [apply r_sbyte_reads; lia|]. apply (reads_map r_size (Op TString)). now apply r_size_reads.
  - eexists. split; [reflexivity|]. split; [unfold zlen; simpl; lia|].
    rewrite <- (app_nil_r (w_byte 3)). eapply reads_bind; [apply r_sbyte_reads; lia|]. apply reads_ret.
  - eexists. split; [reflexivity|]. split; [unfold zlen; simpl; lia|].
    rewrite <- (app_nil_r (w_byte 4)). eapply reads_bind; [apply r_sbyte_reads; lia|]. apply reads_ret.
Qed.
Lemma r_operands_enc l : few l -> Forall op_ok l ->
  exists x, w_operands l = Ok x /\ reads (r_list8 r_operand) x (map same_op l).
Proof.
  intros L H. destruct (w_all_enc w_operand r_operand same_op l) as (x & E & _ & R).
  { eapply Forall_impl; [|exact H]. intros; now apply r_operand_enc. }
  exists (w_byte (zlen l) ++ x). unfold w_operands. rewrite E. split; auto.
  unfold few in L. pose proof (zlen_nonneg l).
  unfold r_list8. eapply reads_bind; [apply r_byte_reads; lia|]. now rewrite zlen_to_nat.
Qed.
Lemma r_location_reads files l : loc_ok files l -> reads (r_location files) (w_location l) l.
Proof.
  destruct l as [[f p n]|]; cbn [loc_ok w_location loc_file loc_pos loc_len]; intro H.
  - destruct H as ((more & ->) & P & N).
    eapply reads_bind; [apply r_sbyte_reads; lia|]. cbn [Z.eqb Pos.eqb negb].
    eapply reads_bind; [apply r_size_reads; unfold fits32; lia|].
    eapply reads_bind; [now apply r_size_reads|].
    rewrite <- (app_nil_r (w_size n)).
    eapply reads_bind; [now apply r_size_reads|]. apply reads_ret.
  - rewrite <- (app_nil_r (w_byte 1)). eapply reads_bind; [apply r_sbyte_reads; lia|]. apply reads_ret.
Qed.
Lemma stmt_type_id ty : znth stmt_types (stmt_id ty) = Some ty.
Proof. destruct ty; reflexivity. Qed.
Lemma stmt_id_range ty : -128 <= stmt_id ty < 128.
Proof. destruct ty; simpl; lia. Qed.
Lemma o_value_range o : - 2 ^ 63 <= o_value o < 2 ^ 63.
Proof.
  unfold o_value. pose proof (Z.mod_pos_bound (o_word o) (2 ^ 64)).
  destruct (Z.ltb_spec (o_word o mod 2 ^ 64) (2 ^ 63)); lia.
Qed.

(** The writer of a statement in terms of the writer of a block. *)
Definition w_body (s : bstmt) : outcome str :=
  match s with
  | BStmt ty loc op0 op1 target e =>
        match ty with
        | SArrayAppend => let! o := w_operand op0 in Ok (w_size target ++ o)
        | SAssignInt | SMakeNumberInt => Ok (le 8 (o_value op0) ++ w_size target)
        | SAssignVarOnce | SAssignVar | SLen | SSetAdd => let! o := w_operand op0 in Ok (o ++ w_size target)
        | SBlock => match e with Some (BBlocks bs) => w_blocks bs | _ => no_ext e end
        | SBreak => Ok (w_size (o_index op0))
        | SCall =>
            match e with
            | Some (BCall fn ops) => let! x := w_operands ops in Ok (w_string fn ++ x ++ w_size target)
            | _ => no_ext e
            end
        | SCallDynamic =>
            match e with
            | Some (BDyn path ops) =>
                let! x := w_operands path in let! y := w_operands ops in Ok (x ++ y ++ w_size target)
            | _ => no_ext e
            end
        | SDot | SObjectInsertOnce | SObjectInsert =>
            let! a := w_operand op0 in let! b := w_operand op1 in Ok (a ++ b ++ w_size target)
        | SEqual | SNotEqual => let! a := w_operand op0 in let! b := w_operand op1 in Ok (a ++ b)
        | SIsArray | SIsObject | SIsSet => w_operand op0
        | SIsDefined | SIsUndefined | SMakeNull | SMakeObject | SMakeSet | SResetLocal | SResultSetAdd | SReturnLocal =>
            Ok (w_size target)
        | SMakeArray => Ok (le 4 (o_value op0) ++ w_size target)
        | SMakeNumberRef => Ok (w_size (o_index op0) ++ w_size target)
        | SNot => match e with Some (BBlock b) => w_block b | _ => no_ext e end
        | SObjectMerge => Ok (w_size (o_index op0) ++ w_size (o_index op1) ++ w_size target)
        | SScan =>
            match e with
            | Some (BBlock b) =>
                let! x := w_block b in Ok (w_size target ++ w_size (o_index op0) ++ w_size (o_index op1) ++ x)
            | _ => no_ext e
            end
        | SWith =>
            let! o := w_operand op0 in
            match e with
            | Some (BWith path b) =>
                let! x := w_block b in Ok (w_size target ++ o ++ w_list8 (le 4) path ++ x)
            | _ => no_ext e
            end
        | SNop => Ok []
        end
  end.
Lemma w_stmt_eq s :
  w_stmt s = let! x := w_body s in
             Ok (w_byte (stmt_id (match s with BStmt ty _ _ _ _ _ => ty end)) ++
                 w_location (match s with BStmt _ l _ _ _ _ => l end) ++ x).
Proof. destruct s as [ty loc op0 op1 t e]; destruct ty; reflexivity. Qed.

Section Blocks.
Variable files : list source.

Definition blk (d : nat) (b : bblock) : Prop := enc w_block (r_block files d) (map same_stmt) b.

Ltac rd := first
  [ apply r_target_reads; assumption
  | apply r_size_reads; assumption
  | apply r_int64_reads; apply o_value_range
  | apply r_int32_reads; assumption
  | eassumption ].
(** [m] reads the first part, the rest follows. *)
Ltac step := eapply reads_bind; [rd|].
Ltac last_step := eapply reads_last; [rd | reflexivity].

Lemma r_stmt_enc d s :
  stmt_ok files (fun b => blk d b) s -> enc w_stmt (r_stmt files (r_block files d)) same_stmt s.
Proof.
  destruct s as [ty loc op0 op1 t e]. intros (Hl & Ht & H0 & H1 & He).
  assert (BODY : exists x, w_body (BStmt ty loc op0 op1 t e) = Ok x /\
                 reads (r_stmt_body (r_block files d) ty loc) x (same_stmt (BStmt ty loc op0 op1 t e))).
  { assert (O0 : op_ok op0 -> exists x, w_operand op0 = Ok x /\ reads r_operand x (same_op op0))
      by (intro H; destruct (r_operand_enc op0 H) as (x & ? & _ & ?); eauto).
    assert (O1 : op_ok op1 -> exists x, w_operand op1 = Ok x /\ reads r_operand x (same_op op1))
      by (intro H; destruct (r_operand_enc op1 H) as (x & ? & _ & ?); eauto).
    destruct ty; cbn [fields fst snd field_ok] in H0, H1;
      cbn [w_body same_stmt fields same_field r_stmt_body];
      try (destruct (O0 H0) as (x0 & E0 & R0); rewrite E0);
      try (destruct (O1 H1) as (x1 & E1 & R1); rewrite E1);
      cbn [obind].
    - eexists; split; [reflexivity|]. apply reads_ret.
    - eexists; split; [reflexivity|]. step. last_step.
    - eexists; split; [reflexivity|]. step. last_step.
    - eexists; split; [reflexivity|]. step. last_step.
    - eexists; split; [reflexivity|]. step. last_step.
    - destruct e as [[| | |bs|]|]; try contradiction. destruct He as [Hm Hb].
      destruct (counted_enc w_block (r_block files d) (map same_stmt) bs Hm Hb) as (x & E & R).
      exists (w_size (zlen bs) ++ x). unfold w_blocks. rewrite E. split; [reflexivity|]. last_step.
    - eexists; split; [reflexivity|]. last_step.
    - destruct e as [[|path ops| | |]|]; try contradiction. destruct He as (Hp & Fp & Ho & Fo).
      destruct (r_operands_enc path Hp Fp) as (x & E & R). destruct (r_operands_enc ops Ho Fo) as (y & E' & R').
      rewrite E. cbn. rewrite E'. eexists; split; [reflexivity|]. step. step. last_step.
    - destruct e as [[fn ops| | | |]|]; try contradiction. destruct He as (Hf & Ho & Fo).
      destruct (r_operands_enc ops Ho Fo) as (y & E' & R'). rewrite E'.
      eexists; split; [reflexivity|]. eapply reads_bind; [now apply r_string_reads|]. step. last_step.
    - eexists; split; [reflexivity|]. step. step. last_step.
    - eexists; split; [reflexivity|]. step. last_step.
    - eexists; split; [reflexivity|]. last_step.
    - eexists; split; [reflexivity|]. last_step.
    - eexists; split; [reflexivity|]. last_step.
    - eexists; split; [reflexivity|]. last_step.
    - eexists; split; [reflexivity|]. last_step.
    - eexists; split; [reflexivity|]. step. last_step.
    - eexists; split; [reflexivity|]. step. last_step.
    - eexists; split; [reflexivity|]. last_step.
    - eexists; split; [reflexivity|]. step. last_step.
    - eexists; split; [reflexivity|]. step. last_step.
    - eexists; split; [reflexivity|]. last_step.
    - eexists; split; [reflexivity|]. last_step.
    - eexists; split; [reflexivity|]. step. last_step.
    - destruct e as [[| | | |b]|]; try contradiction. destruct He as (x & E & _ & R).
      exists x. split; auto. last_step.
    - eexists; split; [reflexivity|]. step. step. last_step.
    - eexists; split; [reflexivity|]. step. step. last_step.
    - eexists; split; [reflexivity|]. step. step. last_step.
    - eexists; split; [reflexivity|]. last_step.
    - eexists; split; [reflexivity|]. last_step.
    - eexists; split; [reflexivity|]. last_step.
    - destruct e as [[| | | |b]|]; try contradiction. destruct He as (x & E & _ & R). rewrite E.
      eexists; split; [reflexivity|]. step. step. step. last_step.
    - eexists; split; [reflexivity|]. step. last_step.
    - destruct e as [[| |path b| |]|]; try contradiction. destruct He as (Hp & Fp & x & E & _ & R). rewrite E.
      assert (P : reads (r_list8 r_size) (w_list8 (le 4) path) path).
      { rewrite <- (map_id path) at 2. apply (r_list8_reads r_size (le 4) (fun x => x)); auto.
        eapply Forall_impl; [|exact Fp]. intros; now apply r_size_reads. }
      eexists; split; [reflexivity|]. step. step. step. last_step. }
  destruct BODY as (x & E & R).
  eexists. split; [rewrite w_stmt_eq, E; reflexivity|]. split.
  - rewrite zlen_app. pose proof (zlen_nonneg (w_location loc ++ x)). unfold zlen at 1. cbn [w_byte length]. lia.
  - unfold r_stmt. eapply reads_bind; [apply r_sbyte_reads, stmt_id_range|].
    eapply reads_bind; [now apply r_location_reads|]. rewrite stmt_type_id. exact R.
Qed.

Lemma stmt_ok_impl (P Q : bblock -> Prop) s : (forall b, P b -> Q b) -> stmt_ok files P s -> stmt_ok files Q s.
Proof.
  intro H. destruct s as [ty loc op0 op1 t e]. cbn [stmt_ok]. intros (A & B & C & D & G). repeat split; try tauto.
  destruct ty; auto; destruct e as [[]|]; auto; intuition auto. eapply Forall_impl; eauto.
Qed.

Lemma block_enc : forall d b, block_ok files d b -> blk d b.
Proof.
  induction d as [|d IH]; intros b H; [destruct H|].
  destruct H as [Hm Hb].
  destruct (counted_enc w_stmt (r_stmt files (r_block files d)) same_stmt b Hm) as (x & E & R).
  { eapply Forall_impl; [|exact Hb]. intros s Hs. apply r_stmt_enc. eapply stmt_ok_impl; [|exact Hs]. exact IH. }
  exists (w_size (zlen b) ++ x). unfold w_block. rewrite E. split; [reflexivity|]. split.
  - rewrite zlen_app. pose proof (zlen_nonneg x). unfold zlen at 1, w_size. rewrite le_length. lia.
  - exact R.
Qed.
Lemma blocks_enc bs : blocks_ok files bs ->
  exists x, w_blocks bs = Ok x /\ reads (r_blocks files) x (map (map same_stmt) bs).
Proof.
  intros [Hm Hb].
  destruct (counted_enc w_block (r_block files 256) (map same_stmt) bs Hm) as (x & E & R).
  { eapply Forall_impl; [|exact Hb]. apply block_enc. }
  exists (w_size (zlen bs) ++ x). unfold w_blocks. rewrite E. split; [reflexivity|]. exact R.
Qed.
Lemma plan_enc p : plan_ok files p -> enc w_plan (r_plan files) same_plan p.
Proof.
  intros [N B]. destruct (blocks_enc _ B) as (x & E & R).
  exists (w_string (bp_name p) ++ x). unfold w_plan. rewrite E. split; [reflexivity|]. split.
  - rewrite zlen_app. pose proof (zlen_nonneg x). pose proof (w_string_len (bp_name p)). lia.
  - unfold r_plan. eapply reads_bind; [now apply r_string_reads|]. last_step.
Qed.
Lemma func_enc f : func_ok files f -> enc w_func (r_func files) same_func f.
Proof.
  intros (N & Hp & Fp & Hq & Fq & A & C & R & B). destruct (blocks_enc _ B) as (x & E & Rx).
  eexists. split; [unfold w_func; rewrite E; reflexivity|]. split.
  - rewrite zlen_app. pose proof (w_string_len (bf_name f)).
    match goal with |- 1 <= _ + zlen ?l => pose proof (zlen_nonneg l) end. lia.
  - unfold r_func. eapply reads_bind; [now apply r_string_reads|].
    assert (P : reads (r_list8 r_string) (w_list8 w_string (bf_path f)) (bf_path f)).
    { rewrite <- (map_id (bf_path f)) at 2. apply (r_list8_reads r_string w_string (fun x => x)); auto.
      eapply Forall_impl; [|exact Fp]. intros; now apply r_string_reads. }
    assert (Q : reads (r_list8 r_size) (w_list8 w_size (bf_params f)) (bf_params f)).
    { rewrite <- (map_id (bf_params f)) at 2. apply (r_list8_reads r_size w_size (fun x => x)); auto.
      eapply Forall_impl; [|exact Fq]. intros; now apply r_size_reads. }
    step. step. step.
    eapply reads_eq; [eapply reads_bind; [exact Rx | apply reads_ret] | apply app_nil_r |].
    unfold same_func. now rewrite A, C.
Qed.
End Blocks.
