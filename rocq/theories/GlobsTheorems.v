(** C59: regex.globs_match says whether two globs have a common text. *)
From Coq Require Import String ZArith List Bool Arith Lia Sorting.Sorted.
From Verif Require Import Base SMap GlobsModel GlobsSpec GlobsProofs GlobsLoopProofs GlobsTextProofs.
Import ListNotations.
Local Open Scope Z_scope.

(** A text that writes a glob whose sets list no more than 2^20 characters. *)
Definition written (r : list Z) (g : glob) : Prop := exists n, glob_text r g n /\ n <= 1048576.

Lemma written_tokens r g : written r g -> tokenize r = Ok (Fine g).
Proof.
  intros (n & G & B). unfold tokenize, tokenize_total.
  rewrite (tokenize_from_complete r r g n G (S (length r)) 0 0 []); auto; try lia.
Qed.

Lemma loop_mono : forall m st x, intersect_loop m st = Ok x -> forall m', (m <= m')%nat -> intersect_loop m' st = Ok x.
Proof.
  induction m as [|m IH]; intros st x E m' L; [discriminate|]. destruct m' as [|m']; [lia|]. cbn [intersect_loop] in *. destruct st as [|f st]; auto.
  destruct (visit f st) as [[[[] st']|]| | |]; cbn [obind] in *; auto. apply IH; auto. lia.
Qed.
Lemma answers_at r1 r2 a m : globs_match m r1 r2 = Ok a -> answers r1 r2 a.
Proof.
  intros E. exists m. intros m' L. unfold globs_match in *. destruct (tokenize r1) as [[g1|]| | |]; cbn [obind] in *; auto.
  destruct (tokenize r2) as [[g2|]| | |]; cbn [obind] in *; auto. destruct (trim (simplify g1) (simplify g2)) as [[[[l a1] a2]|]| | |]; cbn [obind] in *; auto.
  destruct (span_of (simplify g1) l a1) as [s1| | |]; cbn [obind] in *; auto. destruct (span_of (simplify g2) l a2) as [s2| | |]; cbn [obind] in *; auto.
  unfold gintersect in *. destruct (intersect_loop m [Frame s1 0 s2 0]) as [x| | |] eqn:X; cbn [obind] in *; try discriminate. now rewrite (loop_mono _ _ _ X m' L).
Qed.

(** What the answer comes from. *)
Lemma answer_from r1 r2 b : answers r1 r2 (Answer b) -> forall g1 g2, written r1 g1 -> written r2 g2 ->
  sets_sorted (simplify g1) /\ sets_sorted (simplify g2) /\
  (b = false /\ ~ meet (simplify g1) (simplify g2) \/
   exists l a1 a2 m, let h1 := simplify g1 in let h2 := simplify g2 in
     (l <= a1 <= length h1)%nat /\ (l <= a2 <= length h2)%nat /\ paired (firstn l h1) (firstn l h2) /\ paired (skipn a1 h1) (skipn a2 h2) /\
     (a1 = length h1 \/ exists a b, core h1 l a1 = a ++ [b] /\ t_flag b = FNone) /\
     intersect_loop m [Frame (core h1 l a1) 0 (core h2 l a2) 0] = Ok (Some b)).
Proof.
  intros (n & H) g1 g2 W1 W2. specialize (H n (le_n n)). unfold globs_match in H. rewrite (written_tokens _ _ W1), (written_tokens _ _ W2) in H. cbn [obind] in H.
  assert (S1 : sets_sorted (simplify g1)) by (destruct W1 as (? & G & _); eapply simplify_sorted, glob_text_sorted; exact G).
  assert (S2 : sets_sorted (simplify g2)) by (destruct W2 as (? & G & _); eapply simplify_sorted, glob_text_sorted; exact G).
  split; [auto|]. split; [auto|]. pose proof (trim_spec _ _ S1 S2) as T.
  destruct (trim (simplify g1) (simplify g2)) as [[[[l a1] a2]|]| | |]; cbn [obind] in H; try contradiction.
  2:{ left. injection H as <-. auto. }
  right. destruct T as (R1 & R2 & P1 & P2 & LA). unfold span_of in H.
  destruct (Nat.leb_spec a1 (length (simplify g1))); [|lia]. destruct (Nat.leb_spec a2 (length (simplify g2))); [|lia]. cbn [obind] in H.
  unfold gintersect in H. exists l, a1, a2, n. cbn zeta. unfold core at 2 3.
  destruct (intersect_loop n _) as [[x|]| | |]; cbn [obind] in H; try discriminate. injection H as ->. auto 10.
Qed.

Lemma paired_common a b : sets_sorted a -> sets_sorted b -> no_empty_set a -> no_empty_set b -> paired a b ->
  exists s, matches a s /\ matches b s /\ length s = length a.
Proof.
  intros S1 S2 N1 N2 P. induction P as [|x y a b (Fx & Fy & M) P IH]; [exists []; repeat split; constructor|].
  inversion S1 as [|? ? Sx Sa]; inversion S2 as [|? ? Sy Sb]; subst.
  destruct (IH Sa Sb (fun t I => N1 t (or_intror I)) (fun t I => N2 t (or_intror I))) as (s & A & B & L).
  destruct (gmatch_sound x y Sx Sy (N1 x (or_introl eq_refl)) (N2 y (or_introl eq_refl)) M) as (c & Hx & Hy).
  exists (c :: s). split; [now apply match_one|]. split; [now apply match_one|]. simpl. auto.
Qed.
Lemma sorted_part a b : sets_sorted (a ++ b) <-> sets_sorted a /\ sets_sorted b.
Proof. apply Forall_app. Qed.
Lemma nonempty_part a b : no_empty_set (a ++ b) -> no_empty_set a /\ no_empty_set b.
Proof. intros H. split; intros t I; apply H, in_or_app; auto. Qed.

(** ** C59 *)

(** There always is an answer: the search ends, and no token or character is read outside its glob. *)
Theorem C59_answers : forall r1 r2, exists a, answers r1 r2 a.
Proof.
  intros r1 r2. pose proof (tokenize_spec r1) as T1. pose proof (tokenize_spec r2) as T2.
  destruct (tokenize r1) as [[g1|p e]| | |] eqn:E1; try contradiction.
  2:{ exists (Invalid false p e). exists 0%nat. intros m _. unfold globs_match. rewrite E1. reflexivity. }
  destruct (tokenize r2) as [[g2|p e]| | |] eqn:E2; try contradiction.
  2:{ exists (Invalid true p e). exists 0%nat. intros m _. unfold globs_match. rewrite E1, E2. reflexivity. }
  destruct T1 as (n1 & G1), T2 as (n2 & G2). apply glob_text_sorted, simplify_sorted in G1, G2. pose proof (trim_spec _ _ G1 G2) as T.
  destruct (trim (simplify g1) (simplify g2)) as [[[[l a1] a2]|]| | |] eqn:ET; try contradiction.
  2:{ exists (Answer false). exists 0%nat. intros m _. unfold globs_match. rewrite E1, E2. cbn [obind]. rewrite ET. reflexivity. }
  destruct T as (R1 & R2 & _). set (st := [Frame (core (simplify g1) l a1) 0 (core (simplify g2) l a2) 0]).
  destruct (loop_terminates (sizes (Frame (core (simplify g1) l a1) 0 (core (simplify g2) l a2) 0)) _ st (le_n _)) as (k & x & K).
  { constructor; [|constructor]. split; auto. unfold wf_frame. cbn. lia. }
  exists (match x with Some b => Answer b | None => TooComplex end). exists k. intros m L. unfold globs_match. rewrite E1, E2. cbn [obind]. rewrite ET. cbn [obind].
  unfold span_of. destruct (Nat.leb_spec a1 (length (simplify g1))); [|lia]. destruct (Nat.leb_spec a2 (length (simplify g2))); [|lia]. cbn [obind].
  unfold gintersect. fold (core (simplify g1) l a1) (core (simplify g2) l a2). fold st. rewrite (K m L). reflexivity.
Qed.

(** The patterns that are accepted are globs, and every glob is accepted whose sets list at most 2^20 characters; the message is
    about the first pattern that is none. *)
Theorem C59_errors : forall r1 r2 a, answers r1 r2 a ->
  match a with
  | Invalid false _ _ => ~ exists g, written r1 g
  | Invalid true _ _ => (exists g n, glob_text r1 g n) /\ ~ exists g, written r2 g
  | _ => (exists g n, glob_text r1 g n) /\ exists g n, glob_text r2 g n
  end.
Proof.
  intros r1 r2 a (n & H). specialize (H n (le_n n)). unfold globs_match in H. pose proof (tokenize_spec r1) as T1. pose proof (tokenize_spec r2) as T2.
  destruct (tokenize r1) as [[g1|p e]| | |] eqn:E1; try contradiction; cbn [obind] in H.
  2:{ injection H as <-. intros (g & W). apply written_tokens in W. congruence. }
  destruct (tokenize r2) as [[g2|p e]| | |] eqn:E2; try contradiction; cbn [obind] in H.
  2:{ injection H as <-. split; [eauto|]. intros (g & W). apply written_tokens in W. congruence. }
  destruct (trim (simplify g1) (simplify g2)) as [[[[l a1] a2]|]| | |]; cbn [obind] in H; try discriminate; [|injection H as <-; eauto].
  destruct (span_of (simplify g1) l a1) as [s1| | |]; cbn [obind] in H; try discriminate.
  destruct (span_of (simplify g2) l a2) as [s2| | |]; cbn [obind] in H; try discriminate.
  destruct (gintersect n s1 s2) as [[x|]| | |]; cbn [obind] in H; try discriminate; injection H as <-; eauto.
Qed.

(** A text writes one glob only. *)
Theorem C59_unambiguous : forall r g g', written r g -> written r g' -> g = g'.
Proof. intros r g g' W W'. apply written_tokens in W, W'. congruence. Qed.

(** Memory: the sets never hold more than 2^20 characters and one for every character of the pattern, and the stack of the
    search never more than 4096 frames. *)
Theorem C59_memory : (forall r g n, tokenize_total r = Ok (Fine (g, n)) -> glob_text r g n /\ n <= 1048576 + Z.of_nat (length r)) /\
  forall f st b st', visit f st = Ok (Some (b, st')) -> (length st <= 4096)%nat -> (length st' <= 4096)%nat.
Proof.
  split.
  - intros r g n E. unfold tokenize_total in E. pose proof (tokenize_from_spec r (S (length r)) 0 0 [] ltac:(lia) ltac:(lia) ltac:(unfold bounded, max_total_set_runes; lia)) as S.
    rewrite E in S. destruct S as (g' & m & -> & G & -> & B). cbn [app skipn Z.add] in *. split; [exact G|exact B].
  - assert (P : forall fl fi o ks st st', push_all fl fi o ks st = Some st' -> (length st <= gi_max_frames)%nat -> (length st' <= gi_max_frames)%nat).
    { intros fl fi o. induction ks as [|k ks IH]; intros st st' E L; cbn [push_all] in E; [injection E as <-; auto|].
      destruct (Nat.leb_spec gi_max_frames (length st)); [discriminate|]. eapply IH; [exact E|]. cbn [length]. lia. }
    assert (X : forall fl fi o oi st b st', expand_star fl fi o oi st = Ok (Some (b, st')) -> (length st <= gi_max_frames)%nat -> (length st' <= gi_max_frames)%nat).
    { intros fl fi o oi st b st' E L. unfold expand_star in E. destruct (tok_at fl fi); cbn [obind] in E; try discriminate.
      destruct (if (fi + 1 <? length fl)%nat then let! n := tok_at fl (fi + 1) in Ok (Some n) else Ok None); cbn [obind] in E; try discriminate.
      destruct (candidates _ _ _ _ _ _) as [[ks c]| | |]; cbn [obind] in E; try discriminate. destruct (_ && _); [injection E as <- <-; auto|].
      destruct (push_all fl fi o (rev ks) st) as [st2|] eqn:Q; [|discriminate]. injection E as <- <-. eapply P; eauto. }
    intros f st b st' E L. unfold visit in E. change 4096%nat with gi_max_frames in *.
    destruct (advance _ _ _ _ _) as [[[i j]|]| | |]; cbn [obind] in E; try discriminate; [|injection E as <- <-; auto].
    destruct (_ && _); [injection E as <- <-; auto|]. destruct (_ || _); [injection E as <- <-; auto|].
    destruct (tok_at (fr_1 f) i) as [a| | |]; cbn [obind] in E; try discriminate.
    destruct (tok_at _ _) as [t| | |]; cbn [obind] in E; try discriminate. destruct (is_plus (t_flag t)); [|eapply X; eauto].
    destruct (_ <=? _)%nat; [injection E as <- <-; auto|]. destruct (tok_at _ _) as [o| | |]; cbn [obind] in E; try discriminate.
    destruct (negb (gmatch t o)); [injection E as <- <-; auto|]. destruct (negb _); [|eapply X; eauto].
    destruct (Nat.leb_spec gi_max_frames (length st)); [discriminate|]. eapply X; [exact E|]. cbn [length]. lia.
Qed.

(** True means there is a common text, which is not empty unless both patterns are; for globs without empty sets in which no two
    tokens with [+] are merged. *)
Theorem C59_sound_partial : forall r1 r2 g1 g2, written r1 g1 -> written r2 g2 -> no_empty_set g1 -> no_empty_set g2 -> lone_plus g1 -> lone_plus g2 ->
  answers r1 r2 (Answer true) -> exists s, matches g1 s /\ matches g2 s /\ (s = [] -> g1 = [] /\ g2 = []).
Proof.
  intros r1 r2 g1 g2 W1 W2 N1 N2 L1 L2 A. destruct (answer_from _ _ _ A _ _ W1 W2) as (S1 & S2 & [[? _]|(l & a1 & a2 & m & R1 & R2 & P1 & P2 & _ & X)]); [discriminate|].
  set (h1 := simplify g1) in *. set (h2 := simplify g2) in *. assert (M1 : no_empty_set h1) by now apply simplify_nonempty. assert (M2 : no_empty_set h2) by now apply simplify_nonempty.
  pose proof (core_split h1 l a1 ltac:(lia)) as C1. pose proof (core_split h2 l a2 ltac:(lia)) as C2.
  assert (S1' := S1). assert (S2' := S2). assert (M1' := M1). assert (M2' := M2).
  rewrite C1 in S1', M1'. rewrite C2 in S2', M2'. apply sorted_part in S1' as [SA1 S1']. apply sorted_part in S1' as [SB1 SC1].
  apply sorted_part in S2' as [SA2 S2']. apply sorted_part in S2' as [SB2 SC2].
  apply nonempty_part in M1' as [NA1 M1']. apply nonempty_part in M1' as [NB1 NC1]. apply nonempty_part in M2' as [NA2 M2']. apply nonempty_part in M2' as [NB2 NC2].
  destruct (loop_sound m [Frame (core h1 l a1) 0 (core h2 l a2) 0]) as (f & [<-|[]] & s & A1 & A2 & E); auto.
  { constructor; [|constructor]. split; [unfold wf_frame; cbn; lia|]. unfold good_globs. auto. }
  cbn [fr_i fr_j fr_1 fr_2 skipn] in *.
  destruct (paired_common _ _ SA1 SA2 NA1 NA2 P1) as (p & B1 & B2 & LP). destruct (paired_common _ _ SC1 SC2 NC1 NC2 P2) as (q & D1 & D2 & LQ).
  exists (p ++ s ++ q). split; [|split].
  - apply simplify_sound; auto. fold h1. rewrite C1. apply matches_app. exists p, (s ++ q). split; auto. split; auto. apply matches_app. eauto.
  - apply simplify_sound; auto. fold h2. rewrite C2. apply matches_app. exists p, (s ++ q). split; auto. split; auto. apply matches_app. eauto.
  - intros Z. apply app_eq_nil in Z as [-> Z]. apply app_eq_nil in Z as [-> ->]. destruct (E eq_refl) as [Z1 Z2].
    assert (firstn l h1 = []) by (destruct (firstn l h1); auto; discriminate). assert (skipn a1 h1 = []) by (destruct (skipn a1 h1); auto; discriminate).
    assert (firstn l h2 = []). { apply paired_length in P1. rewrite H in P1. destruct (firstn l h2); auto; discriminate. }
    assert (skipn a2 h2 = []). { apply paired_length in P2. rewrite H0 in P2. destruct (skipn a2 h2); auto; discriminate. }
    split; apply simplify_nil; [fold h1; rewrite C1|fold h2; rewrite C2]; now rewrite ?H, ?H0, ?H1, ?H2, ?Z1, ?Z2.
Qed.

(** False means there is no common text that uses every [*] at least once. *)
Theorem C59_complete_partial : forall r1 r2 g1 g2, written r1 g1 -> written r2 g2 -> answers r1 r2 (Answer false) -> ~ meet_used g1 g2.
Proof.
  intros r1 r2 g1 g2 W1 W2 A (s & U1 & U2). destruct (answer_from _ _ _ A _ _ W1 W2) as (S1 & S2 & [[_ N]|(l & a1 & a2 & m & R1 & R2 & P1 & P2 & _ & X)]).
  { apply N. exists s. split; apply used_matches; now apply simplify_used. }
  apply simplify_used in U1, U2. set (h1 := simplify g1) in *. set (h2 := simplify g2) in *.
  pose proof (core_split h1 l a1 ltac:(lia)) as C1. pose proof (core_split h2 l a2 ltac:(lia)) as C2. rewrite C1 in U1. rewrite C2 in U2.
  destruct (paired_plain _ _ P1) as [Q1 Q2]. destruct (paired_plain _ _ P2) as [Q3 Q4].
  destruct (split_prefix _ used_app used_length _ _ _ _ _ Q1 Q2 (paired_length _ _ P1) U1 U2) as (u & v & -> & _ & _ & V1 & V2).
  destruct (split_suffix _ used_app used_length _ _ _ _ _ Q3 Q4 (paired_length _ _ P2) V1 V2) as (w & z & -> & _ & _ & K1 & K2).
  refine (loop_complete _ _ _ _ (in_eq _ []) _ X); [|exists w; cbn [fr_i fr_j fr_1 fr_2 skipn]; auto].
  constructor; [|constructor]. split; [unfold wf_frame; cbn; lia|]. rewrite C1 in S1. rewrite C2 in S2. apply sorted_part in S1 as [_ S1]. apply sorted_part in S1 as [S1 _].
  apply sorted_part in S2 as [_ S2]. apply sorted_part in S2 as [S2 _]. split; auto.
Qed.

(** A glob against a pattern without [*] and [+]: false means there is no common text, if no [*] is last or behind another flag. *)
Theorem C59_complete_text_partial : forall r1 r2 g1 g2, written r1 g1 -> written r2 g2 -> star_inside g1 -> no_flags g2 ->
  answers r1 r2 (Answer false) -> ~ meet g1 g2.
Proof.
  intros r1 r2 g1 g2 W1 W2 SI NF A (s & U1 & U2). destruct (answer_from _ _ _ A _ _ W1 W2) as (S1 & S2 & [[_ N]|(l & a1 & a2 & m & R1 & R2 & P1 & P2 & LA & X)]).
  { apply N. exists s. split; now apply simplify_matches. }
  apply simplify_matches in U1, U2. apply simplify_inside in SI. rewrite (simplify_plain g2 NF) in *. set (h1 := simplify g1) in *.
  pose proof (core_split h1 l a1 ltac:(lia)) as C1. pose proof (core_split g2 l a2 ltac:(lia)) as C2. rewrite C1 in U1. rewrite C2 in U2.
  destruct (paired_plain _ _ P1) as [Q1 Q2]. destruct (paired_plain _ _ P2) as [Q3 Q4].
  destruct (split_prefix _ matches_app plain_length _ _ _ _ _ Q1 Q2 (paired_length _ _ P1) U1 U2) as (u & v & -> & _ & _ & V1 & V2).
  destruct (split_suffix _ matches_app plain_length _ _ _ _ _ Q3 Q4 (paired_length _ _ P2) V1 V2) as (w & z & -> & _ & _ & K1 & K2).
  refine (loop_complete_plain _ _ _ _ (in_eq _ []) _ X); [|exists w; cbn [fr_i fr_j fr_1 fr_2 skipn]; auto].
  constructor; [|constructor]. split; [unfold wf_frame; cbn; lia|]. unfold fplain, sorted_frame. cbn [fr_1 fr_2].
  rewrite C1 in S1. rewrite C2 in S2. apply sorted_part in S1 as [_ S1]. apply sorted_part in S1 as [S1 _].
  apply sorted_part in S2 as [_ S2]. apply sorted_part in S2 as [S2 _]. split; [auto|]. split.
  - intros a t b E F. destruct (SI (firstn l h1 ++ a) t (b ++ skipn a1 h1)) as [HA HB]; auto.
    { rewrite C1 at 1. rewrite E. now rewrite <- !app_assoc. }
    split.
    + intros FS ->. destruct LA as [->|(x & y & E' & F')].
      * apply (HA FS). now rewrite skipn_all.
      * rewrite E' in E. apply app_inj_tail in E as [_ ->]. congruence.
    + intros t' b' ->. now apply (HB t' (b' ++ skipn a1 h1)).
  - intros t I. apply NF. rewrite C2. apply in_or_app. right. apply in_or_app. auto.
Qed.

(** So without [*] the answer is exact, and does not depend on the order of the arguments. *)
Theorem C59_exact_without_star : forall r1 r2 g1 g2, written r1 g1 -> written r2 g2 -> no_star g1 -> no_star g2 ->
  no_empty_set g1 -> no_empty_set g2 -> lone_plus g1 -> lone_plus g2 ->
  forall b, answers r1 r2 (Answer b) -> (b = true <-> meet g1 g2) /\ forall b', answers r2 r1 (Answer b') -> b' = b.
Proof.
  assert (X : forall r1 r2 g1 g2, written r1 g1 -> written r2 g2 -> no_star g1 -> no_star g2 ->
    no_empty_set g1 -> no_empty_set g2 -> lone_plus g1 -> lone_plus g2 -> forall b, answers r1 r2 (Answer b) -> (b = true <-> meet g1 g2)).
  { intros r1 r2 g1 g2 W1 W2 S1 S2 N1 N2 L1 L2 b A. split.
    - intros ->. destruct (C59_sound_partial _ _ _ _ W1 W2 N1 N2 L1 L2 A) as (s & M1 & M2 & _). exists s. auto.
    - intros (s & M1 & M2). destruct b; auto. exfalso. apply (C59_complete_partial _ _ _ _ W1 W2 A). exists s. split; now apply plain_used. }
  intros r1 r2 g1 g2 W1 W2 S1 S2 N1 N2 L1 L2 b A. split; [eauto|]. intros b' A'.
  assert (E1 := X _ _ _ _ W1 W2 S1 S2 N1 N2 L1 L2 _ A). assert (E2 := X _ _ _ _ W2 W1 S2 S1 N2 N1 L2 L1 _ A').
  assert (Q : meet g1 g2 <-> meet g2 g1) by (split; intros (s & Y & Z); exists s; auto). destruct b, b'; intuition congruence.
Qed.

(** *** What fails in general *)

Lemma written_by r g n : tokenize_total r = Ok (Fine (g, n)) -> n <= 1048576 -> written r g.
Proof. intros E L. exists n. split; auto. now apply (proj1 C59_memory). Qed.
Local Ltac wr := eapply written_by; [vm_compute; reflexivity|lia].
Local Ltac an := eapply (answers_at _ _ _ 12); vm_compute; reflexivity.

(** True without a common text: a+a+ needs two characters and is merged to a+; a set without characters matches itself and a dot. *)
Theorem C59_sound_refuted :
  (exists g1 g2, written $"a+a+" g1 /\ written $"a" g2 /\ no_empty_set g1 /\ no_empty_set g2 /\ answers $"a+a+" $"a" (Answer true) /\ ~ meet g1 g2) /\
  exists g1 g2, written $"[]" g1 /\ written $"." g2 /\ lone_plus g1 /\ lone_plus g2 /\ answers $"[]" $"." (Answer true) /\ ~ meet g1 g2.
Proof.
  split; do 2 eexists; (split; [wr|split; [wr|]]).
  - split; [intros t [<-|[<-|[]]]; discriminate|]. split; [intros t [<-|[]]; discriminate|]. split; [an|].
    intros (s & M1 & M2). inversion M1 as [|t g u s' F T M]; subst. inversion M as [|t g u' s'' F' T' M']; subst. inversion M2 as [|t g v w G U N Q W]; subst.
    inversion N; subst. apply (f_equal (@length Z)) in W. rewrite !app_length in W. cbn in *. lia.
  - split; [intros [|? [|? ?]] k m b E; destruct m; try discriminate|]. split; [intros [|? [|? ?]] k m b E; destruct m; try discriminate|]. split; [an|].
    intros (s & M1 & M2). inversion M1 as [|t g u s' F T M]; subst. cbn in *. destruct u as [|c u]; [discriminate|]. inversion F; subst. contradiction.
Qed.

(** False although there is a common text: a star that is last and would stand for nothing. *)
Theorem C59_complete_refuted : exists g1 g2, written $"ab*" g1 /\ written $"a" g2 /\ answers $"ab*" $"a" (Answer false) /\ matches g1 $"a" /\ matches g2 $"a".
Proof.
  do 2 eexists. split; [wr|split; [wr|split; [an|]]]. split.
  - apply (match_one (Tok (KChar 97) FNone) _ 97 []); [reflexivity|]. apply (m_cons (Tok (KChar 98) FStar) [] [] []); [constructor|exact I|constructor].
  - apply (match_one (Tok (KChar 97) FNone) _ 97 []); [reflexivity|constructor].
Qed.

(** The answer depends on the order of the arguments. *)
Theorem C59_symmetric_refuted : answers $"x*y" $"y+" (Answer true) /\ answers $"y+" $"x*y" (Answer false).
Proof. split; an. Qed.

(** *** The hypotheses are met *)

Example C59_ex_exact : exists g1 g2, written $"[a-c]+x" g1 /\ written $"b+." g2 /\ no_star g1 /\ no_star g2 /\
  no_empty_set g1 /\ no_empty_set g2 /\ lone_plus g1 /\ lone_plus g2 /\ answers $"[a-c]+x" $"b+." (Answer true).
Proof.
  do 2 eexists. split; [wr|split; [wr|]].
  assert (H : forall x y : gtoken, (t_flag x <> FPlus \/ t_flag y <> FPlus) -> lone_plus [x; y]).
  { intros x y D a k m b E. assert (L := f_equal (@length _) E). rewrite app_length in L. cbn [length] in L. rewrite app_length in L. cbn [length] in L.
    destruct a; [|cbn in L; lia]. destruct m; [|cbn in L; lia]. injection E; intros; subst; cbn in D; destruct D; congruence. }
  split; [intros t [<-|[<-|[]]]; discriminate|]. split; [intros t [<-|[<-|[]]]; discriminate|]. split; [intros t [<-|[<-|[]]]; discriminate|].
  split; [intros t [<-|[<-|[]]]; discriminate|]. split; [apply H; right; discriminate|]. split; [apply H; right; discriminate|]. an.
Qed.
Example C59_ex_text : exists g1 g2, written $"a*b" g1 /\ written $"aac" g2 /\ star_inside g1 /\ no_flags g2 /\ answers $"a*b" $"aac" (Answer false).
Proof.
  do 2 eexists. split; [wr|split; [wr|]]. split; [|split; [intros t [<-|[<-|[<-|[]]]]; reflexivity|an]].
  intros [|x [|y [|? a]]] t b E F; try discriminate; cbn in E; injection E; intros; subst; cbn in *; try congruence.
  split; [discriminate|]. intros t' b' E'. injection E' as <- <-. discriminate.
Qed.
Example C59_ex_complete : answers $"a*b+" $"[x-z].*c" (Answer false) /\ answers $"a*b+" $"[a-z].*b" (Answer true).
Proof. split; an. Qed.
Example C59_ex_errors : answers $"a" $"[b-a]" (Invalid true 4 RangeOrder).
Proof. an. Qed.

Print Assumptions C59_answers.
Print Assumptions C59_errors.
Print Assumptions C59_unambiguous.
Print Assumptions C59_memory.
Print Assumptions C59_sound_partial.
Print Assumptions C59_complete_partial.
Print Assumptions C59_complete_text_partial.
Print Assumptions C59_exact_without_star.
Print Assumptions C59_sound_refuted.
Print Assumptions C59_complete_refuted.
Print Assumptions C59_symmetric_refuted.
