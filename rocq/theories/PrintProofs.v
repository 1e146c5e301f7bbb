(** Lemmas about [print] and template strings. *)
From Coq Require Import String ZArith List Bool Lia Permutation.
From Verif Require Import Base SMap SMapFacts BigIntModel ValueModel ResolverModel KeyProofs PrintModel PrintSpec.
Import ListNotations.
Local Open Scope Z_scope.
Local Open Scope list_scope.

Section Proofs.
Variable F : fops.

(** ** Display *)
Lemma forall2_map {A} (R : A -> str -> Prop) (f : A -> str) l : Forall (fun x => R x (f x)) l -> Forall2 R l (map f l).
Proof. induction 1; cbn; constructor; auto. Qed.
Lemma display_ok v : displays F v (display F v).
Proof.
  induction v as [| | |t|t|t|l IH|l IH|l IH|c] using value_rect'; try solve [constructor].
  - apply ds_array. now apply forall2_map.
  - set (g := fun kv : value * value => let '(k, x) := kv in (object_key_text (display F k), display F x)).
    change (display F (VObject l)) with ($"{" ++ join $", " (map (fun p : str * str => fst p ++ $": " ++ snd p) (insert_all (map g l) [])) ++ $"}"). assert (K : keyed (insert_all (map g l) [])) by (apply insert_all_keyed, keyed_nil).
    rewrite Forall_forall in IH. apply ds_object.
    + now apply keyed_nodup.
    + intros [a b] I. apply (keyed_in a b _ K) in I. rewrite insert_all_find in I by apply keyed_nil. cbn [sm_find] in I. apply sm_find_in in I. apply in_map_iff in I as ([k x] & E & I).
      injection E as <- <-. exists k, x, (display F k). destruct (IH _ I) as [A B]. auto.
    + intros k x I. exists (display F k). destruct (IH _ I) as [A _]. split; [exact A|].
      destruct (in_dec str_eq_dec (object_key_text (display F k)) (map fst (insert_all (map g l) []))) as [|N]; [assumption|]. exfalso.
      apply sm_find_none in N. rewrite insert_all_find in N by apply keyed_nil. cbn [sm_find] in N. apply sm_find_none in N. apply N. apply in_map_iff.
      exists (g (k, x)). split; [reflexivity|]. now apply in_map.
  - destruct l as [|x l]; [apply ds_empty|].
    set (h := fun x => ((x, to_key F x), display F x)). set (lt := fun a b : value * str * str => nk_lt F (fst a) (fst b)).
    change (display F (VSet (x :: l))) with ($"{" ++ join $", " (map snd (sort_by lt (map h (x :: l)))) ++ $"}").
    pose proof (sort_by_perm lt (map h (x :: l))) as P. set (q := sort_by lt (map h (x :: l))) in *.
    apply (ds_set F (x :: l) (map (fun e => fst (fst e)) q)); [discriminate| |].
    + eapply Permutation_trans; [apply Permutation_map, P|]. rewrite map_map. change (fun x => fst (fst (h x))) with (fun x : value => x). rewrite map_id. apply Permutation_refl.
    + assert (Q : Forall (fun e => displays F (fst (fst e)) (snd e)) q).
      { eapply Permutation_Forall; [apply Permutation_sym, P|]. apply Forall_map. exact IH. }
      clearbody q. clear - Q. induction Q; cbn; constructor; auto.
Qed.
Lemma shown_ok v : shown F v (print_value F v).
Proof. destruct v; try (apply sh_other; [discriminate|apply display_ok]). apply sh_string. Qed.
Lemma column_ok v : column F v (position F v).
Proof.
  destruct v as [| | |t|t|t|l|l|l|c]; try (apply c_single; [discriminate|apply shown_ok]). destruct l as [|x l]; [apply c_undefined|].
  apply c_values; [discriminate|]. apply (forall2_map (shown F)). apply Forall_forall. intros y _. apply shown_ok.
Qed.

(** ** Lines *)
Fixpoint rows (ps : list (list str)) (cur : list str) : list (list str) :=
  match ps with [] => [cur] | p :: ps' => flat_map (fun x => rows ps' (cur ++ [x])) p end.
Lemma cross_rows ps : forall cur, print_cross_product ps cur = concat (map print_line (rows ps cur)).
Proof.
  induction ps as [|p ps IH]; intro cur; [cbn; now rewrite app_nil_r|]. cbn [print_cross_product rows]. induction p as [|x p IHp]; [reflexivity|].
  cbn [map concat flat_map]. now rewrite map_app, concat_app, IH, IHp.
Qed.
Lemma rows_length ps : forall cur, length (rows ps cur) = product (map (@length str) ps).
Proof.
  induction ps as [|p ps IH]; intro cur; [reflexivity|]. cbn [rows map product fold_right]. fold (product (map (@length str) ps)). induction p as [|x p IHp]; [reflexivity|].
  cbn [flat_map length]. rewrite app_length, IH, IHp. lia.
Qed.
Lemma place_bound cols is ts : picks cols is ts -> (place cols is < product (map (@length str) cols))%nat.
Proof.
  induction 1 as [|c cols i is t ts N P IH]; [cbn; lia|]. cbn [place map product fold_right]. fold (product (map (@length str) cols)).
  assert (i < length c)%nat by (apply nth_error_Some; congruence). nia.
Qed.
Lemma block_nth {A B} (f : A -> list B) n p : (forall x, length (f x) = n) -> forall i x k, nth_error p i = Some x -> (k < n)%nat ->
  nth_error (flat_map f p) (i * n + k) = nth_error (f x) k.
Proof.
  intro L. induction p as [|y p IH]; intros i x k N K; [destruct i; discriminate|]. cbn [flat_map]. destruct i as [|i].
  - injection N as ->. cbn [Nat.mul Nat.add]. apply nth_error_app1. now rewrite L.
  - cbn [nth_error] in N. rewrite nth_error_app2 by (rewrite L; lia). rewrite L. replace (S i * n + k - n)%nat with (i * n + k)%nat by lia. now apply IH.
Qed.
Lemma rows_nth cols is ts : picks cols is ts -> forall cur, nth_error (rows cols cur) (place cols is) = Some (cur ++ ts).
Proof.
  induction 1 as [|c cols i is t ts N P IH]; intro cur; [cbn; now rewrite app_nil_r|]. cbn [rows place].
  rewrite (block_nth _ (product (map (@length str) cols)) c (fun x => rows_length cols _) i t); [|exact N|now apply place_bound in P].
  rewrite IH. now rewrite <- app_assoc.
Qed.
Lemma print_ok l : exists cols lines, Forall2 (column F) l cols /\
  print F (VArray l) = (RVal VTrue, concat (map (fun x => x ++ [10]) lines)) /\ length lines = product (map (@length str) cols) /\
  forall is ts, picks cols is ts -> nth_error lines (place cols is) = Some (join $" " ts).
Proof.
  exists (map (position F) l), (map (join $" ") (rows (map (position F) l) [])). split; [|split; [|split]].
  - induction l; cbn; constructor; auto. apply column_ok.
  - unfold print. f_equal. rewrite map_map. fold print_line. replace (map (fun x => join $" " x ++ [10]) (rows (map (position F) l) [])) with (map print_line (rows (map (position F) l) [])) by reflexivity.
    rewrite <- cross_rows. destruct l; reflexivity.
  - rewrite map_length. apply rows_length.
  - intros is ts P. rewrite nth_error_map. rewrite (rows_nth _ _ _ P). reflexivity.
Qed.

(** ** Template strings *)
Lemma denotes_app a s b u : denotes a s -> denotes b u -> denotes (a ++ b) (s ++ u).
Proof. intros A B. induction A; cbn [app]; [exact B|now apply dn_plain|now apply dn_same|now apply (dn_letter c d)]. Qed.
Lemma denotes_chars t s : denotes t s -> Forall (fun c => 32 <= c) t.
Proof.
  induction 1 as [|c t s A B C D IH|c t s I D IH|c d t s I D IH]; constructor; auto; try lia.
  - constructor; [|exact IH]. cbn in I. lia.
  - constructor; [|exact IH]. cbn in I. repeat (destruct I as [I|I]; [injection I as <- <-; lia|]). destruct I.
Qed.
Lemma escape_char_id c : 32 <= c -> escape_char c = [c].
Proof.
  intro H. unfold escape_char. destruct (Z.eqb_spec c 10); [lia|]. destruct (Z.eqb_spec c 13); [lia|]. destruct (Z.eqb_spec c 9); [lia|]. destruct (Z.eqb_spec c 8); [lia|]. destruct (Z.eqb_spec c 12); [lia|].
  destruct (Z.ltb_spec c 32); [lia|reflexivity].
Qed.
Lemma escape_id t : Forall (fun c => 32 <= c) t -> escape_append t = t.
Proof. induction 1 as [|c t H _ IH]; [reflexivity|]. unfold escape_append in *. cbn [flat_map]. rewrite IH, escape_char_id by exact H. reflexivity. Qed.
Lemma escaped_display s : Forall (fun c => 32 <= c /\ c <> 92) s -> denotes (escape_append (flat_map (fun c => if c =? 34 then [92; c] else [c]) s)) s.
Proof.
  induction 1 as [|c s [H N] _ IH]; [constructor|]. unfold escape_append in *. cbn [flat_map]. rewrite flat_map_app. destruct (Z.eqb_spec c 34) as [->|Q].
  - cbn [flat_map]. apply (dn_same 34); [cbn; auto|exact IH].
  - cbn [flat_map]. rewrite escape_char_id by exact H. now apply dn_plain.
Qed.
Lemma piece_ok v : (forall t, v = VString t -> exists s, denotes t s) -> exists s, content F v s /\
  ((match v with VString _ => True | _ => Forall (fun c => 32 <= c /\ c <> 92) s end) -> denotes (escape_append (stringify_value F v)) s).
Proof.
  intro H. assert (G : (forall t, v <> VString t) -> exists s, content F v s /\ (Forall (fun c => 32 <= c /\ c <> 92) s -> denotes (escape_append (flat_map (fun c => if c =? 34 then [92; c] else [c]) (display F v))) s)).
  { intro N. exists (display F v). split; [apply ct_other; [exact N|apply display_ok]|apply escaped_display]. }
  destruct v as [| | |t|t|t|l|l|l|c]; try (apply G; discriminate). destruct (H t eq_refl) as [s D]. exists s. split; [now apply ct_string|]. intros _. cbn [stringify_value].
  now rewrite escape_id by (eapply denotes_chars; eassumption).
Qed.
Definition piece (v : value) : str :=
  match v with VSet [] => $"<undefined>" | VSet [x] => escape_append (stringify_value F x) | _ => escape_append (stringify_value F v) end.
Lemma parts_run l : Forall single l -> forall buf, template_parts F l buf = RVal (VString (buf ++ concat (map piece l))).
Proof.
  induction 1 as [|v l S _ IH]; intro buf; [cbn; now rewrite app_nil_r|]. cbn [map concat]. rewrite app_assoc.
  destruct v as [| | |t|t|t|l0|l0|[|x [|y l0]]|c]; try (cbn [template_parts piece]; apply IH). destruct S.
Qed.
Lemma part_ok v : single v -> sound v -> exists s, part F v s /\ (clear v s -> denotes (piece v) s).
Proof.
  intros Sg So. assert (G : (forall l, v <> VSet l) -> (forall t, v = VString t -> exists s, denotes t s) -> exists s, part F v s /\
    ((match v with VString _ => True | _ => Forall (fun c => 32 <= c /\ c <> 92) s end) -> denotes (escape_append (stringify_value F v)) s)).
  { intros N H. destruct (piece_ok v H) as (s & A & B). exists s. split; [now apply pt_text|exact B]. }
  destruct v as [| | |t|t|t|l0|l0|[|x [|y l0]]|c]; try (apply G; discriminate).
  - apply G; [discriminate|]. intros t' E. injection E as <-. exact So.
  - exists $"<undefined>". split; [constructor|]. intros _. cbn [piece]. repeat (apply dn_plain; [discriminate|discriminate|discriminate|]). apply dn_nil.
  - destruct (piece_ok x) as (s & A & B); [intros t ->; exact So|]. exists s. split; [now apply pt_value|]. intro C. apply B. destruct x; exact C.
  - destruct Sg.
Qed.
Lemma template_ok l : Forall single l -> Forall sound l -> exists t ss, template_string F (VArray l) = RVal (VString t) /\ Forall2 (part F) l ss /\
  (Forall2 clear l ss -> denotes t (concat ss)).
Proof.
  intros S O. exists (concat (map piece l)). unfold template_string. rewrite (parts_run l S). cbn [app].
  assert (G : exists ss, Forall2 (part F) l ss /\ (Forall2 clear l ss -> denotes (concat (map piece l)) (concat ss))).
  { induction S as [|v l Sv S IH]; [exists []; split; [constructor|intros _; constructor]|]. inversion O as [|? ? Ov O']. subst. destruct (IH O') as (ss & A & B). destruct (part_ok v Sv Ov) as (s & C & D).
    exists (s :: ss). split; [now constructor|]. intro H. inversion H; subst. cbn [map concat]. apply denotes_app; auto. }
  destruct G as (ss & A & B). exists ss. auto.
Qed.
Lemma template_conflict l a b r l' : template_string F (VArray (l ++ VSet (a :: b :: r) :: l')) = RErr EvalConflictError.
Proof.
  unfold template_string. generalize (@nil byte). induction l as [|v l IH]; intro buf; [reflexivity|]. cbn [app template_parts].
  destruct v as [| | |t|t|t|l0|l0|[|x [|y l0]]|c]; try apply IH. reflexivity.
Qed.
End Proofs.
