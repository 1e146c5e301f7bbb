(** C60: the regex builtins around the C++ library's regular expressions. *)
From Coq Require Import String ZArith List Bool Arith Lia.
From Verif Require Import Base BigIntModel ValueModel ResolverModel VmModel StrModel StrSpec StrProofs BigIntSpec BigIntProofs DecFacts CollObjProofs RegexModel RegexSpec RegexProofs.
Import ListNotations.
Local Open Scope nat_scope.

Definition texts (s : str) (ms : list rmatch) : value := VArray (map (fun m => VString (hit s m)) ms).
Definition table (rows : list (list str)) : value := VArray (map (fun row => VArray (map VString row)) rows).

(** A library for the examples: a pattern matches itself; the empty pattern is invalid. *)
Definition lib0 : regex_lib := {|
  rx_valid := fun p => match p with [] => false | _ => true end;
  rx_search := fun p c _ s i =>
    match p with
    | [] => NotFound
    | _ => if c then if prefixb p (skipn i s) then Found (RMatch i (length p) []) else NotFound
           else match find_from p s i with Some k => Found (RMatch k (length p) []) | None => NotFound end
    end;
  rx_match := fun p s => Some (str_eqb p s);
  rx_replace := fun _ s _ => Some s
|}.
Definition R0 (p s : str) (i j : nat) : Prop := p <> [] /\ occurs_at p s i /\ j = i + length p.
Lemma lib0_ok : lib_ok lib0 /\ lib_calm lib0 /\ finds R0 lib0.
Proof.
  split; [|split].
  - intros p c prev s i m H. cbn [rx_search lib0] in H. destruct p as [|x p]; [discriminate|]. destruct c.
    + destruct (prefixb (x :: p) (skipn i s)) eqn:E; [|discriminate]. injection H as <-. apply prefixb_iff in E as (b & E).
      cbn [rm_pos rm_len]. assert (Q := f_equal (@length Z) E). rewrite skipn_length, app_length in Q. cbn [length] in *. change byte with Z in *. lia.
    + pose proof (find_from_spec (x :: p) s i) as F. destruct (find_from (x :: p) s i) as [k|]; [|discriminate]. injection H as <-.
      destruct F as (O & A & _). apply occurs_end in O. cbn [rm_pos rm_len]. repeat split; auto; discriminate.
  - intros p c prev s i H. cbn [rx_search lib0] in H. destruct p as [|x p]; [discriminate|]. destruct c; [destruct (prefixb _ _)|destruct (find_from _ _ _)]; discriminate.
  - intros p prev s i _. cbn [rx_search lib0]. destruct p as [|x p]; [intros a b (N & _); congruence|].
    pose proof (find_from_spec (x :: p) s i) as F. destruct (find_from (x :: p) s i) as [k|].
    + destruct F as (O & A & M). cbn [rm_pos rm_len]. split; [split; [discriminate|auto]|]. intros a b (_ & O' & _) I.
      destruct (Nat.le_gt_cases k a); auto. elim (M a); auto.
    + intros a b (_ & O' & _) I. elim (F a); auto.
Qed.

(** ** C60 *)

(** An invalid pattern is an error value in every builtin, and is_valid says so; is_valid is never an error. *)
Theorem C60_patterns : forall L T p s k r fuel, rx_valid L (t_unescape T p) = false ->
  regex_match L T (VString p) (VString s) = Ok (RErr EvalBuiltInError) /\
  regex_replace L T (VString s) (VString p) (VString r) = Ok (RErr EvalBuiltInError) /\
  regex_find_n L T (VString p) (VString s) (VInt k) = Ok (RErr EvalBuiltInError) /\
  regex_find_all L T (VString p) (VString s) (VInt k) = Ok (RErr EvalBuiltInError) /\
  regex_split L T fuel (VString p) (VString s) = Ok (RErr EvalBuiltInError) /\
  regex_is_valid L T (VString p) = Ok (RVal VFalse).
Proof.
  intros L T p s k r fuel H. cbn [regex_match regex_replace regex_find_n regex_find_all regex_split regex_is_valid]. rewrite H. destruct (bi_to_size k); auto 10.
Qed.
Theorem C60_is_valid : forall L T x, regex_is_valid L T x = Ok (RVal VTrue) /\ (exists p, x = VString p /\ rx_valid L (t_unescape T p) = true) \/
  regex_is_valid L T x = Ok (RVal VFalse) /\ ~ exists p, x = VString p /\ rx_valid L (t_unescape T p) = true.
Proof.
  intros L T x. destruct x as [ | | |t|t|t|l|l|l|c]; cbn [regex_is_valid]; try (right; split; [reflexivity|intros (p & E & _); discriminate]).
  destruct (rx_valid L (t_unescape T t)) eqn:V; [left|right]; split; try reflexivity; eauto. intros (p & E & Q). injection E as <-. congruence.
Qed.

(** replace: the library replaces in the first argument what the second matches by the third. *)
Theorem C60_replace : forall L T s p r, rx_valid L (t_unescape T p) = true ->
  regex_replace L T (VString s) (VString p) (VString r) =
  match rx_replace L (t_unescape T p) s (t_unescape T r) with Some t => Ok (RVal (VString t)) | None => Ok (RErr EvalBuiltInError) end.
Proof. intros L T s p r V. cbn [regex_replace]. rewrite V. now destruct (rx_replace L (t_unescape T p) s (t_unescape T r)). Qed.

(** match: whether the pattern matches somewhere. *)
Theorem C60_match : forall L T R p s, lib_calm L -> finds R L -> rx_valid L (t_unescape T p) = true ->
  regex_match L T (VString p) (VString s) = Ok (RVal VTrue) /\ (exists i j, R (t_unescape T p) s i j) \/
  regex_match L T (VString p) (VString s) = Ok (RVal VFalse) /\ ~ exists i j, R (t_unescape T p) s i j.
Proof.
  intros L T R p s CA FD V. cbn [regex_match]. rewrite V. specialize (FD (t_unescape T p) false s 0 (or_intror eq_refl)). unfold search.
  destruct (rx_search L (t_unescape T p) false false s 0) as [m| |] eqn:E; [left|right|now apply CA in E].
  - split; [reflexivity|]. destruct FD as [Q _]. eauto.
  - split; [reflexivity|]. intros (i & j & Q). apply (FD _ _ Q). lia.
Qed.

(** find_n and find_all_string_submatch_n end for any arguments, with a value or an error; an exception of the search is passed on. *)
Theorem C60_ends : forall L T x y z, lib_ok L -> first_ok T ->
  ((exists r, regex_find_n L T x y z = Ok r) \/ regex_find_n L T x y z = Throw /\ ~ lib_calm L) /\
  ((exists r, regex_find_all L T x y z = Ok r) \/ regex_find_all L T x y z = Throw /\ ~ lib_calm L).
Proof.
  intros L T x y z OK FI. split.
  - destruct x as [ | | |?|?|p|?|?|?|?]; try (left; eexists; reflexivity). destruct y as [ | | |?|?|s|?|?|?|?]; try (left; eexists; reflexivity).
    destruct z as [ | | |k|?|?|?|?|?|?]; try (left; eexists; reflexivity). cbn [regex_find_n]. destruct (bi_to_size k) as [n|]; [|left; eexists; reflexivity].
    destruct (rx_valid L _); [|left; eexists; reflexivity]. unfold find_matches.
    destruct (find_loop_ends L OK (t_unescape T p) s n (2 * length s + 3) 0 false (search L (t_unescape T p) s)) as [(ms & E)|E].
    + intros m E. unfold search in E. apply OK in E as (A & B & _). split; [exact B|]. unfold weight. destruct (rm_len m =? 0); lia.
    + lia.
    + rewrite E. left. eexists. reflexivity.
    + rewrite E. right. split; [reflexivity|]. intros CA. revert E. apply find_loop_calm; auto. apply CA.
  - destruct x as [ | | |?|?|p|?|?|?|?]; try (left; eexists; reflexivity). destruct y as [ | | |?|?|s|?|?|?|?]; try (left; eexists; reflexivity).
    destruct z as [ | | |k|?|?|?|?|?|?]; try (left; eexists; reflexivity). cbn [regex_find_all]. destruct (bi_to_size k) as [n|]; [|left; eexists; reflexivity].
    destruct (rx_valid L _); [|left; eexists; reflexivity].
    destruct (all_loop_ends L T OK FI (t_unescape T p) n (S (length s)) s 0) as [(rows & E)|E]; [lia| |].
    + rewrite E. left. eexists. reflexivity.
    + rewrite E. right. split; [reflexivity|]. intros CA. revert E. now apply all_loop_calm.
Qed.

Lemma size_dec z : (- 2 ^ 64 < z < 2 ^ 64)%Z -> bi_to_size (dec z) = Some (z mod 2 ^ 64)%Z.
Proof.
  intros H. destruct (Z.lt_ge_cases z 0) as [N|N]; [|rewrite bi_to_size_spec by lia; now rewrite Z.mod_small by lia].
  unfold bi_to_size. rewrite digits_dec, is_negative_dec. replace (Z.abs z) with (- z)%Z by lia. assert (V := zval_dec_all (- z)). unfold zval in V.
  rewrite is_negative_dec in V. destruct (Z.ltb_spec (- z) 0); [lia|]. rewrite V. destruct (Z.ltb_spec uint64_max (- z)); [unfold uint64_max in *; lia|].
  destruct (Z.ltb_spec z 0); [|lia]. now rewrite Z.opp_involutive.
Qed.
Lemma find_n_runs L T p s z v : (- 2 ^ 64 < z < 2 ^ 64)%Z -> regex_find_n L T (VString p) (VString s) (VInt (dec z)) = Ok (RVal v) ->
  exists ms, v = texts s ms /\ find_loop L (2 * length s + 3) (t_unescape T p) s 0 (z mod 2 ^ 64) false (search L (t_unescape T p) s) = Ok ms.
Proof.
  intros Z H. cbn [regex_find_n] in H. rewrite (size_dec z Z) in H. destruct (rx_valid L _); [|discriminate].
  unfold find_matches in H. destruct (find_loop L _ _ s 0 _ false _) as [ms| | |] eqn:E; cbn [obind] in H; try discriminate. injection H as <-. exists ms. split; [reflexivity|auto].
Qed.
Lemma find_all_runs L T p s z v : (- 2 ^ 64 < z < 2 ^ 64)%Z -> regex_find_all L T (VString p) (VString s) (VInt (dec z)) = Ok (RVal v) ->
  exists rows, v = table rows /\ all_loop L T (S (length s)) (t_unescape T p) s 0 (z mod 2 ^ 64) = Ok rows.
Proof.
  intros Z H. cbn [regex_find_all] in H. rewrite (size_dec z Z) in H. destruct (rx_valid L _); [|discriminate].
  destruct (all_loop L T _ _ s 0 _) as [rows| | |] eqn:E; cbn [obind] in H; try discriminate. injection H as <-. exists rows. split; [reflexivity|auto].
Qed.
Lemma loop_short L p s n : forall fuel i prev it ms, find_loop L fuel p s i n prev it = Ok ms -> length ms < fuel.
Proof.
  induction fuel as [|f IH]; intros i prev it ms H; [discriminate|]. cbn [find_loop] in H. destruct it as [m| |]; try discriminate; [|injection H as <-; simpl; lia].
  destruct (i <? n)%Z; [|injection H as <-; simpl; lia]. destruct (find_loop L f p s (i + 1) n _ _) as [r| | |] eqn:E; cbn [obind] in H; try discriminate. injection H as <-.
  apply IH in E. simpl. lia.
Qed.
Lemma find_bound (z : Z) : (0 <= z mod 2 ^ 64 < 2 ^ 64)%Z.
Proof. apply Z.mod_pos_bound. lia. Qed.

Lemma and_assoc_l (A B C : Prop) : A /\ B /\ C <-> (A /\ B) /\ C.
Proof. tauto. Qed.
(** find_n: at most the number asked for, from left to right without overlap or repetition, the texts being parts of the value. *)
Theorem C60_find_n : forall L T p s z v, lib_ok L -> (- 2 ^ 64 < z < 2 ^ 64)%Z -> regex_find_n L T (VString p) (VString s) (VInt (dec z)) = Ok (RVal v) ->
  exists ms, v = texts s ms /\ ((0 <= z)%Z -> (Z.of_nat (length ms) <= z)%Z) /\ Forall (in_text s) ms /\ in_order ms /\
    forall m, In m ms -> exists c prev i, rx_search L (t_unescape T p) c prev s i = Found m.
Proof.
  intros L T p s z v OK Z H. apply find_n_runs in H as (ms & -> & E); auto. exists ms. split; auto. split.
  - intros P. apply find_loop_count in E; [|apply find_bound]. rewrite Z.mod_small in E by lia. lia.
  - apply find_loop_chain in E. rewrite and_assoc_l. split.
    + eapply chain_order; eauto. intros m Q. unfold search in Q. apply OK in Q. apply Q.
    + remember (search L (t_unescape T p) s) as it eqn:EI. assert (FO : forall m, it = Found m -> exists c prev i, rx_search L (t_unescape T p) c prev s i = Found m).
      { intros m Q. rewrite Q in EI. unfold search in EI. eauto. } clear EI. induction E as [|prev m|prev m ms E IH]; intros x; [intros []|intros []|]. intros [<-|I]; [auto|].
      apply IH; auto. intros m' Q. unfold it_next in Q. destruct (rm_len m =? 0); [|eauto]. destruct (_ =? _); [discriminate|].
      destruct (rx_search L (t_unescape T p) true prev s _) eqn:S1; try discriminate; [injection Q as <-|]; eauto.
Qed.

(** A smaller number gives the first of the matches that a larger number, or -1, gives. *)
Theorem C60_find_n_prefix : forall L T p s z z' v v', (0 <= z < 2 ^ 64)%Z -> (z <= z' < 2 ^ 64 \/ z' = -1)%Z ->
  regex_find_n L T (VString p) (VString s) (VInt (dec z)) = Ok (RVal v) -> regex_find_n L T (VString p) (VString s) (VInt (dec z')) = Ok (RVal v') ->
  exists l, v' = VArray l /\ v = VArray (firstn (Z.to_nat z) l).
Proof.
  intros L T p s z z' v v' Z Z' H H'. apply find_n_runs in H as (ms & -> & E); [|lia]. apply find_n_runs in H' as (ms' & -> & E'); [|lia].
  assert (N : (z mod 2 ^ 64 <= z' mod 2 ^ 64)%Z). { destruct Z' as [Z'| ->]; [rewrite !Z.mod_small by lia; lia|]. rewrite Z.mod_small by lia. change ((-1) mod 2 ^ 64)%Z with (2 ^ 64 - 1)%Z. lia. }
  pose proof (find_loop_prefix L _ s _ _ N _ _ _ _ _ _ E E') as P. exists (map (fun m => VString (hit s m)) ms'). split; [reflexivity|].
  rewrite P. rewrite Z.mod_small by lia. rewrite Z.sub_0_r. now rewrite firstn_map.
Qed.

(** With -1, or a number that is not reached, no match is left out. *)
Theorem C60_find_n_complete : forall L T R p s z v, lib_ok L -> finds R L -> (forall a b, R (t_unescape T p) s a b -> a <= b <= length s) ->
  (- 2 ^ 64 < z < 2 ^ 64)%Z -> regex_find_n L T (VString p) (VString s) (VInt (dec z)) = Ok (RVal v) ->
  exists ms, v = texts s ms /\ ((Z.of_nat (length ms) < z)%Z \/ z = (-1)%Z /\ (Z.of_nat (length s) < 2 ^ 62)%Z -> none_missed R (t_unescape T p) s ms).
Proof.
  intros L T R p s z v OK FD RG Z H. apply find_n_runs in H as (ms & -> & E); auto. exists ms. split; auto. intros N a b AB.
  eapply (loop_complete L OK _ s R FD _ _ _ _ _ _ 0 E); eauto; try lia.
  - pose proof (loop_short _ _ _ _ _ _ _ _ _ E) as S0. destruct N as [N|[-> N]].
    + rewrite Z.mod_small by lia. lia.
    + change ((-1) mod 2 ^ 64)%Z with (2 ^ 64 - 1)%Z. lia.
  - intros m Q. unfold search in Q. apply OK in Q. apply Q.
  - apply search_reaches; auto.
  - intros a' b' Q. apply RG in Q. lia.
Qed.

(** find_all_string_submatch_n: at most the number asked for, and a smaller number gives the first rows. *)
Theorem C60_find_all : forall L T p s z v, (0 <= z < 2 ^ 64)%Z -> regex_find_all L T (VString p) (VString s) (VInt (dec z)) = Ok (RVal v) ->
  exists rows, v = table rows /\ (Z.of_nat (length rows) <= z)%Z /\
  forall z' v', (z <= z' < 2 ^ 64 \/ z' = -1)%Z -> regex_find_all L T (VString p) (VString s) (VInt (dec z')) = Ok (RVal v') ->
    exists rows', v' = table rows' /\ rows = firstn (Z.to_nat z) rows'.
Proof.
  intros L T p s z v Z H. apply find_all_runs in H as (rows & -> & E); [|lia]. exists rows. split; auto. split.
  - apply all_loop_count in E; [|apply find_bound]. rewrite Z.mod_small in E by lia. lia.
  - intros z' v' Z' H'. apply find_all_runs in H' as (rows' & -> & E'); [|lia]. exists rows'. split; auto.
    assert (N : (z mod 2 ^ 64 <= z' mod 2 ^ 64)%Z). { destruct Z' as [Z'| ->]; [rewrite !Z.mod_small by lia; lia|]. rewrite Z.mod_small by lia. change ((-1) mod 2 ^ 64)%Z with (2 ^ 64 - 1)%Z. lia. }
    pose proof (all_loop_prefix L T _ _ _ N _ _ _ _ _ E E') as P. rewrite P. rewrite Z.mod_small by lia. now rewrite Z.sub_0_r.
Qed.

(** Its first column is what find_n gives, for a pattern that matches no empty text and does not look at what is before. *)
Theorem C60_find_all_agrees_partial : forall L T p s z v v', lib_ok L -> (- 2 ^ 64 < z < 2 ^ 64)%Z ->
  (forall t m, search L (t_unescape T p) t = Found m -> 0 < rm_len m) ->
  (forall i, i <= length s -> rx_search L (t_unescape T p) false true s i = shifted i (search L (t_unescape T p) (skipn i s))) ->
  regex_find_all L T (VString p) (VString s) (VInt (dec z)) = Ok (RVal v) -> regex_find_n L T (VString p) (VString s) (VInt (dec z)) = Ok (RVal v') ->
  exists rows, v = table rows /\ v' = VArray (map (fun row => VString (hd [] row)) rows).
Proof.
  intros L T p s z v v' OK Z NE CF H H'. apply find_all_runs in H as (rows & -> & E); auto. apply find_n_runs in H' as (ms & -> & E'); auto.
  exists rows. split; auto. unfold texts. f_equal. rewrite <- (map_map (fun row => hd [] row) VString), <- (map_map (hit s) VString). f_equal.
  symmetry. eapply (agree_loop L T OK _ s _ CF NE _ 0); [|lia|exact E|exact E']. cbn [skipn]. destruct (search L (t_unescape T p) s) as [[? ? ?]| |]; reflexivity.
Qed.
(** In general it is not: [$] is found once by find_n, but once for each character here. *)
Theorem C60_find_all_agrees_refuted : forall L T, rx_valid L $"$" = true -> t_unescape T $"$" = $"$" ->
  (forall t, rx_search L $"$" false false t 0 = Found (RMatch (length t) 0 [])) -> codec_ok T ->
  regex_find_n L T (VString $"$") (VString $"abc") (VInt $"-1") = Ok (RVal (VArray [VString []])) /\
  regex_find_all L T (VString $"$") (VString $"abc") (VInt $"-1") = Ok (RVal (VArray [VArray [VString []]; VArray [VString []]; VArray [VString []]])).
Proof.
  intros L T. change $"$" with [36]%Z. change $"abc" with [97; 98; 99]%Z. intros V U F (_ & C & _).
  assert (K : bi_to_size $"-1" = Some 18446744073709551615%Z) by reflexivity.
  assert (F1 : forall a t, (0 <= a < 128)%Z -> t_first T (a :: t) = 1). { intros a t A. specialize (C a t ltac:(left; lia)). unfold enc in C. destruct (Z.ltb_spec a 0x80); [|lia]. exact C. }
  split.
  - cbn [regex_find_n]. rewrite U, V, K. unfold find_matches, search. rewrite F. change (2 * length [97; 98; 99]%Z + 3) with 9. cbn [find_loop].
    change (0 <? 18446744073709551615)%Z with true. cbv iota.
    unfold it_next. cbn [rm_pos rm_len Nat.add Nat.eqb length find_loop obind]. reflexivity.
  - cbn [regex_find_all]. rewrite U, V, K. change (S (length [97; 98; 99]%Z)) with 4.
    assert (ST : forall n a t i, (0 <= a < 128)%Z -> (i <? 18446744073709551615)%Z = true -> all_loop L T (S n) [36]%Z (a :: t) i 18446744073709551615 =
      if length (a :: t) <=? 1 then Ok [[[]]] else let! rows := all_loop L T n [36]%Z t (i + 1) 18446744073709551615 in Ok ([[]] :: rows)).
    { intros n a t i A I. cbn [all_loop]. rewrite I. unfold search. rewrite F. cbn [length Nat.eqb negb andb rm_len]. rewrite F1 by auto. unfold hit. cbn [firstn rm_len rm_groups skipn]. reflexivity. }
    rewrite !ST by (lia || reflexivity). reflexivity.
Qed.
(** The hypotheses about the library are met by some library. *)
Example C60_ex_dollar : exists L, lib_ok L /\ rx_valid L $"$" = true /\ forall t, rx_search L $"$" false false t 0 = Found (RMatch (length t) 0 []).
Proof.
  exists {| rx_valid := fun _ => true; rx_search := fun _ c _ s i => if c then NotFound else if i <=? length s then Found (RMatch (length s) 0 []) else NotFound;
            rx_match := fun _ _ => None; rx_replace := fun _ _ _ => None |}.
  split; [|split; [reflexivity|reflexivity]]. intros p c prev s i m. cbn [rx_search]. destruct c; [discriminate|]. destruct (Nat.leb_spec i (length s)); [|discriminate].
  intros E. injection E as <-. cbn [rm_pos rm_len]. repeat split; auto; try lia; discriminate.
Qed.

(** split: the parts with the separators between them give the value, the separators are what the pattern finds, the last part is
    empty or has no match.  It ends, if no match is empty and at the start of what remains. *)
Theorem C60_split_partial : forall L T p s, lib_ok L -> rx_valid L (t_unescape T p) = true ->
  (forall t m, t <> [] -> search L (t_unescape T p) t = Found m -> 0 < rm_pos m + rm_len m) ->
  forall fuel, length s < fuel -> regex_split L T fuel (VString p) (VString s) = Throw /\ ~ lib_calm L \/
  exists l seps, regex_split L T fuel (VString p) (VString s) = Ok (RVal (VArray (map VString l))) /\
    length l = S (length seps) /\ weave l seps = s /\
    (forall y, In y seps -> exists u t m, s = u ++ t /\ search L (t_unescape T p) t = Found m /\ y = hit t m) /\
    (search L (t_unescape T p) (last l []) = NotFound \/ last l [] = []).
Proof.
  intros L T p s OK V NE fuel F. cbn [regex_split]. rewrite V.
  destruct (split_spec L OK _ NE fuel s F) as [E|(l & seps & E & Q)]; rewrite E; [left|right; exists l, seps; split; [reflexivity|exact Q]].
  split; [reflexivity|]. intros CA. revert s E F. induction fuel as [|n IH]; intros s E F; [discriminate|]. cbn [split_loop] in E.
  destruct (search L (t_unescape T p) s) as [m| |] eqn:S1; try discriminate; [|now apply CA in S1]. destruct s as [|c s]; [discriminate|].
  assert (N : c :: s <> []) by discriminate. pose proof (NE _ _ N S1) as Q.
  destruct (split_loop L n (t_unescape T p) (after (c :: s) m)) eqn:X; cbn [obind] in E; try discriminate. apply IH in X; auto. unfold after. rewrite skipn_length. apply OK in S1 as (_ & B & _). change byte with Z in *. cbn [length] in *. lia.
Qed.
(** For a pattern that stands for a text, the parts are those between its occurrences. *)
Theorem C60_split_literal : forall L T p s d, lib_ok L -> rx_valid L (t_unescape T p) = true -> d <> [] ->
  (forall t, search L (t_unescape T p) t = match find0 d t with Some i => Found (RMatch i (length d) []) | None => NotFound end) ->
  forall fuel, length s < fuel -> exists l, regex_split L T fuel (VString p) (VString s) = Ok (RVal (VArray (map VString l))) /\ pieces d s l.
Proof.
  intros L T p s d OK V D LIT fuel F. cbn [regex_split]. rewrite V. destruct (split_literal L (t_unescape T p) d D LIT fuel s F) as (l & -> & P). exists l. split; [reflexivity|auto].
Qed.
(** A pattern that matches nothing at the start of the value: the loop never ends. *)
Theorem C60_split_refuted : forall L T p s m, rx_valid L (t_unescape T p) = true -> s <> [] -> search L (t_unescape T p) s = Found m -> rm_pos m = 0 -> rm_len m = 0 ->
  forall fuel, regex_split L T fuel (VString p) (VString s) = OutOfFuel.
Proof.
  intros L T p s m V N S1 P0 L0 fuel. cbn [regex_split]. rewrite V. assert (X : split_loop L fuel (t_unescape T p) s = OutOfFuel); [|now rewrite X].
  induction fuel as [|n IH]; auto. cbn [split_loop]. rewrite S1. destruct s as [|c s]; [congruence|]. unfold after. rewrite P0, L0. cbn [Nat.add skipn]. now rewrite IH.
Qed.

(** template_match: the parts of the template. *)
Theorem C60_template_parts : forall t ds de fuel, ds <> [] \/ de <> [] -> length t + 1 < fuel ->
  exists l, parse_template fuel t ds de = Ok l /\ flat_map (section_text ds de) l = t /\ tidy ds de l /\
    compile_template fuel t ds de = Ok (flat_map (fun x => match x with Literal y => y | Regex y => $"(?:" ++ y ++ $")" end) l).
Proof.
  intros t ds de fuel D F. destruct (template_spec t ds de) with (fuel := fuel) (start := 0) as (l & E & R & TD); [|lia|change byte with Z in *; lia|].
  { destruct D as [D|D]; [destruct ds|destruct de]; try congruence; cbn [length]; lia. }
  exists l. split; [exact E|]. split; [exact R|]. split; [exact TD|]. unfold compile_template, parse_template. change byte with Z in *. rewrite E. reflexivity.
Qed.
(** Two empty delimiters: the loop never ends.  Text outside the delimiters is not taken literally, and a closing delimiter inside a
    regular expression ends it, even if it closes an opening one there. *)
Theorem C60_template_refuted :
  (forall L T t s fuel, regex_template_match L T fuel (VString t) (VString s) (VString []) (VString []) = OutOfFuel) /\
  (forall L T, t_unescape T $"." = $"." -> rx_valid L $"." = true -> rx_match L $"." $"x" = Some true ->
    regex_template_match L T 3 (VString $".") (VString $"x") (VString $"{") (VString $"}") = Ok (RVal VTrue)) /\
  parse_template 9 $"{a{2}}" $"{" $"}" = Ok [Literal []; Regex $"a{2"; Literal $"}"].
Proof.
  split; [|split; [|vm_compute; reflexivity]].
  - intros L T t s fuel. cbn [regex_template_match]. unfold compile_template, parse_template. rewrite template_hangs by lia. reflexivity.
  - intros L T U V M. cbn [regex_template_match]. rewrite U. change (compile_template 3 $"." $"{" $"}") with (Ok $"."). cbn [obind]. now rewrite V, M.
Qed.

(** The value is searched as it is written between quotes: the first character of a newline is a backslash, and the text found is
    no string. *)
Theorem C60_escapes_refuted : forall L T, t_unescape T $"." = $"." -> rx_valid L $"." = true -> rx_search L $"." false false [92; 110]%Z 0 = Found (RMatch 0 1 []) ->
  lib_calm L -> regex_find_n L T (VString $".") (VString [92; 110]%Z) (VInt $"1") = Ok (RVal (VArray [VString [92]%Z])).
Proof.
  intros L T. change $"." with [46]%Z. intros U V S1 CA. cbn [regex_find_n]. rewrite U, V. change (bi_to_size $"1") with (Some 1%Z). cbv iota. unfold find_matches, search. rewrite S1.
  change (2 * length [92; 110]%Z + 3) with 7. cbn [find_loop]. change (0 <? 1)%Z with true. cbv iota.
  destruct (it_next L [46]%Z [92; 110]%Z false (RMatch 0 1 [])) as [m| |] eqn:E; [reflexivity|reflexivity|].
  unfold it_next in E. cbn [rm_len Nat.eqb] in E. now apply CA in E.
Qed.

(** ** The hypotheses are met *)
Definition T1 : text_ops := text_ops0.
Example C60_ex_first : first_ok T1.
Proof. intros [|b s] N; [congruence|]. cbn. unfold rune_len. repeat destruct (_ <? _)%Z; lia. Qed.
Example C60_ex_find : regex_find_n lib0 T1 (VString $"ab") (VString $"xabyabab") (VInt (dec 2)) = Ok (RVal (VArray [VString $"ab"; VString $"ab"])) /\
  regex_find_n lib0 T1 (VString $"ab") (VString $"xabyabab") (VInt (dec (-1))) = Ok (RVal (VArray [VString $"ab"; VString $"ab"; VString $"ab"])).
Proof. split; vm_compute; reflexivity. Qed.
Example C60_ex_agrees : (forall t m, search lib0 $"ab" t = Found m -> 0 < rm_len m) /\
  forall s i, i <= length s -> rx_search lib0 $"ab" false true s i = shifted i (search lib0 $"ab" (skipn i s)).
Proof.
  split.
  - intros t m H. unfold search in H. cbn [rx_search lib0 bytes_of] in H. destruct (find_from _ t 0); [|discriminate]. injection H as <-. cbn. lia.
  - intros s i I. unfold search. cbn [rx_search lib0 bytes_of]. unfold find_from. change byte with Z in *. destruct (Nat.leb_spec i (length s)); [|lia]. cbn [Nat.leb skipn].
    destruct (find0 _ (skipn i s)) as [k|]; reflexivity.
Qed.
Example C60_ex_split : regex_split lib0 T1 9 (VString $"ab") (VString $"xabyab") = Ok (RVal (VArray [VString $"x"; VString $"y"; VString []])).
Proof. vm_compute. reflexivity. Qed.
Example C60_ex_template : parse_template 20 $"urn:{.*}:end" $"{" $"}" = Ok [Literal $"urn:"; Regex $".*"; Literal $":end"].
Proof. vm_compute. reflexivity. Qed.

Print Assumptions C60_patterns.
Print Assumptions C60_is_valid.
Print Assumptions C60_replace.
Print Assumptions C60_match.
Print Assumptions C60_ends.
Print Assumptions C60_find_n.
Print Assumptions C60_find_n_prefix.
Print Assumptions C60_find_n_complete.
Print Assumptions C60_find_all.
Print Assumptions C60_find_all_agrees_partial.
Print Assumptions C60_find_all_agrees_refuted.
Print Assumptions C60_split_partial.
Print Assumptions C60_split_literal.
Print Assumptions C60_split_refuted.
Print Assumptions C60_template_parts.
Print Assumptions C60_template_refuted.
Print Assumptions C60_escapes_refuted.
