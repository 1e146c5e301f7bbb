(** Lemmas about durations. *)
From Coq Require Import String ZArith List Bool Lia.
From Verif Require Import Base BigIntModel BigIntSpec BigIntProofs DecFacts ValueModel ResolverModel StrModel StrProofs TimeModel TimeSpec TimeProofs.
Import ListNotations.
Local Open Scope Z_scope.
Local Open Scope list_scope.

(** ** Rounding *)
Lemma nearest_bound n d : 0 < d -> 2 * Z.abs (nearest n d * d - n) <= d.
Proof.
  intro H. unfold nearest. pose proof (Z.div_mod n d ltac:(lia)) as D. pose proof (Z.mod_pos_bound n d H) as B.
  destruct (Z.compare_spec (2 * (n mod d)) d); [destruct (Z.even _)| |]; nia.
Qed.
Lemma nearest_exact q d : 0 < d -> nearest (q * d) d = q.
Proof. intro H. unfold nearest. rewrite Z.div_mul, Z.mod_mul by lia. destruct (Z.compare_spec (2 * 0) d); lia. Qed.
Lemma nearest_nonneg n d : 0 <= n -> 0 < d -> 0 <= nearest n d.
Proof.
  intros Hn Hd. unfold nearest. assert (0 <= n / d) by (apply Z.div_pos; lia).
  destruct (2 * (n mod d) ?= d); [destruct (Z.even _)| |]; lia.
Qed.
(** A fraction of a double is within one part in 2^53 of what was rounded. *)
Lemma pow_split a b : 0 <= a -> 0 <= b -> 2 ^ (a + b) = 2 ^ a * 2 ^ b.
Proof. intros. apply Z.pow_add_r; auto. Qed.
Definition big (n d : Z) : Prop := d <= n * 2 ^ 1022.
Lemma round_close n d : 0 < n -> 0 < d -> big n d -> let '(N, D) := fraction_of (round_double n d) in 0 < D /\ 0 <= N /\ Z.abs (N * d - n * D) * 2 ^ 53 <= n * D.
Proof.
  intros Hn Hd Hb. unfold round_double. replace (n =? 0) with false by (symmetry; apply Z.eqb_neq; lia).
  set (x := n * 2 ^ 1100 / d). assert (Hx : 2 ^ 78 <= x).
  { apply Z.div_le_lower_bound; [lia|]. unfold big in Hb. replace (2 ^ 1100) with (2 ^ 1022 * 2 ^ 78) by (rewrite <- pow_split by lia; f_equal; lia).
    generalize dependent (2 ^ 1022). intros p Hb. assert (0 < 2 ^ 78) by reflexivity. generalize dependent (2 ^ 78). intros r Hr. nia. }
  assert (Hx0 : 0 < x) by (assert (0 < 2 ^ 78) by reflexivity; lia).
  pose proof (Z.log2_spec x Hx0) as [L _]. set (l := Z.log2 x) in *.
  assert (Hl : 78 <= l) by (apply Z.log2_le_pow2; assumption).
  assert (K : 2 ^ l * d <= n * 2 ^ 1100). { pose proof (Z.mul_div_le (n * 2 ^ 1100) d Hd) as M. fold x in M. nia. }
  replace (Z.max (-1074) (l - 1152)) with (l - 1152) by lia. set (e := l - 1152) in *. replace l with (e + 1152) in * by lia. clearbody e. clear l x Hx Hx0 L.
  unfold fraction_of. destruct (Z.leb_spec 0 e) as [E|E].
  - assert (P : 0 < 2 ^ e) by (apply Z.pow_pos_nonneg; lia). split; [lia|]. split. { apply Z.mul_nonneg_nonneg; [apply nearest_nonneg; nia|lia]. }
    pose proof (nearest_bound n (d * 2 ^ e) ltac:(nia)) as B.
    assert (Q : d * 2 ^ e * 2 ^ 52 <= n).
    { replace (e + 1152) with (e + 52 + 1100) in K by lia. rewrite (pow_split (e + 52) 1100), (pow_split e 52) in K by lia.
      assert (0 < 2 ^ 1100) by (apply Z.pow_pos_nonneg; lia). generalize dependent (2 ^ 1100). intros p K Hp. nia. }
    replace (nearest n (d * 2 ^ e) * 2 ^ e * d - n * 1) with (nearest n (d * 2 ^ e) * (d * 2 ^ e) - n) by ring.
    replace (2 ^ 53) with (2 * 2 ^ 52) by reflexivity. assert (0 < 2 ^ 52) by reflexivity. set (A := Z.abs _) in *. generalize dependent (2 ^ 52). intros r Q Hr. nia.
  - assert (P : 0 < 2 ^ (- e)) by (apply Z.pow_pos_nonneg; lia). split; [exact P|]. split. { apply nearest_nonneg; nia. }
    pose proof (nearest_bound (n * 2 ^ (- e)) d Hd) as B.
    assert (Q : d * 2 ^ 52 <= n * 2 ^ (- e)).
    { assert (He : 0 <= e + 1152) by lia. assert (2 ^ (e + 1152) * 2 ^ (- e) = 2 ^ 1152) by (rewrite <- pow_split by lia; f_equal; lia).
      assert (2 ^ 1152 = 2 ^ 1100 * 2 ^ 52) by (rewrite <- pow_split by lia; f_equal).
      assert (0 < 2 ^ 1100) by (apply Z.pow_pos_nonneg; lia). assert (0 < 2 ^ 52) by reflexivity.
      generalize dependent (2 ^ 1100). generalize dependent (2 ^ 1152). generalize dependent (2 ^ (e + 1152)). generalize dependent (2 ^ (- e)). generalize dependent (2 ^ 52).
      intros r Hr me Hme B p q Hpq t K -> Ht. assert (M : p * d * me <= n * t * me) by nia. assert (t * (r * d) <= t * (n * me)) by nia. nia. }
    replace (2 ^ 53) with (2 * 2 ^ 52) by reflexivity. assert (0 < 2 ^ 52) by reflexivity. set (A := Z.abs _) in *. generalize dependent (2 ^ 52). intros r Q Hr. nia.
Qed.
Lemma round_exact z d : 0 <= z <= 2 ^ 53 -> 0 < d -> let '(N, D) := fraction_of (round_double (z * d) d) in 0 < D /\ N = z * D.
Proof.
  intros Hz Hd. unfold round_double. destruct (Z.eqb_spec (z * d) 0) as [E|E]; [cbn; nia|].
  replace (z * d * 2 ^ 1100) with (z * 2 ^ 1100 * d) by ring. rewrite Z.div_mul by lia. rewrite Z.log2_mul_pow2 by nia.
  assert (L : 0 <= Z.log2 z <= 53). { split; [apply Z.log2_nonneg|]. replace 53 with (Z.log2 (2 ^ 53)) by reflexivity. apply Z.log2_le_mono. lia. }
  replace (Z.max (-1074) (1100 + Z.log2 z - 1152)) with (Z.log2 z - 52) by lia. unfold fraction_of.
  destruct (Z.leb_spec 0 (Z.log2 z - 52)) as [G|G].
  - assert (C : Z.log2 z = 52 \/ Z.log2 z = 53) by lia. destruct C as [C|C]; rewrite C.
    + change (52 - 52) with 0. change (2 ^ 0) with 1. rewrite !Z.mul_1_r. rewrite nearest_exact by lia. split; [lia|reflexivity].
    + pose proof (Z.log2_spec z ltac:(nia)) as S2. rewrite C in S2. assert (z = 2 ^ 53) as -> by lia. change (53 - 52) with 1. change (2 ^ 1) with 2.
      replace (2 ^ 53 * d) with (2 ^ 52 * (d * 2)) by (change (2 ^ 53) with (2 ^ 52 * 2); ring). rewrite nearest_exact by lia. split; [lia|reflexivity].
  - split; [apply Z.pow_pos_nonneg; lia|]. replace (z * d * 2 ^ (- (Z.log2 z - 52))) with (z * 2 ^ (- (Z.log2 z - 52)) * d) by ring. now rewrite nearest_exact.
Qed.
Lemma at_least_spec x k : at_least x k = true <-> let '(n, d) := fraction_of x in (0 <= k /\ d * 2 ^ k <= n) \/ (k < 0 /\ d <= n * 2 ^ (- k)).
Proof.
  unfold at_least. destruct (fraction_of x) as [n d]. destruct (Z.leb_spec 0 k); rewrite Z.leb_le; [intuition lia|]. split; [right; auto|]. intros [[? _]|[_ ?]]; [lia|auto].
Qed.

(** ** One term *)
Lemma term_exact sign mant unit : 0 <= mant <= 2 ^ 53 -> 0 < unit -> mant * unit <= 2 ^ 53 -> duration_term sign mant 0 unit = Some (sign * (mant * unit)).
Proof.
  intros Hm Hu Hp. unfold duration_term, stod. change (0 <=? 0) with true. cbv iota. rewrite Z.pow_0_r.
  pose proof (round_exact mant 1 Hm ltac:(lia)) as R. set (x := round_double (mant * 1) 1) in *. clearbody x.
  assert (S1 : (if mant =? 0 then Some x else if at_least x 1024 then None else if at_least x (-1022) then Some x else None) = Some x).
  { destruct (Z.eqb_spec mant 0) as [E|E]; [reflexivity|]. destruct (at_least x 1024) eqn:A.
    - apply at_least_spec in A. destruct (fraction_of x) as [N D]. destruct R as [RD ->]. exfalso. destruct A as [[_ A]|[A _]]; [|lia].
      assert (2 ^ 53 < 2 ^ 1024) by (apply Z.pow_lt_mono_r; lia). nia.
    - replace (at_least x (-1022)) with true; [reflexivity|]. symmetry. apply at_least_spec. destruct (fraction_of x) as [N D]. destruct R as [RD ->]. right. split; [lia|].
      change (- -1022) with 1022. assert (0 < 2 ^ 1022) by (apply Z.pow_pos_nonneg; lia). nia. }
  rewrite S1. destruct (fraction_of x) as [N D]. destruct R as [RD ->].
  replace (mant * D * unit) with (mant * unit * D) by ring. pose proof (round_exact (mant * unit) D ltac:(nia) RD) as R. set (y := round_double (mant * unit * D) D) in *. clearbody y.
  destruct (at_least y 63) eqn:A.
  - apply at_least_spec in A. destruct (fraction_of y) as [N' D']. destruct R as [RD' ->]. exfalso. destruct A as [[_ A]|[A _]]; [|lia].
    assert (2 ^ 53 < 2 ^ 63) by (apply Z.pow_lt_mono_r; lia). nia.
  - destruct (fraction_of y) as [N' D']. destruct R as [RD' ->]. rewrite Z.div_mul by lia. reflexivity.
Qed.
Lemma term_close sign mant exp unit a n d : 0 <= mant -> 0 < unit -> 0 < d ->
  ((0 <= exp /\ n = mant * 10 ^ exp /\ d = 1) \/ (exp < 0 /\ n = mant /\ d = 10 ^ (- exp))) -> (mant = 0 \/ big n d) ->
  duration_term sign mant exp unit = Some (sign * a) -> sign <> 0 -> close a (n * unit) d.
Proof.
  intros Hm Hu Hd V Hb T Hs. unfold duration_term, stod in T.
  assert (X : (if 0 <=? exp then round_double (mant * 10 ^ exp) 1 else round_double mant (10 ^ (- exp))) = round_double n d).
  { destruct V as [(V & -> & ->)|(V & -> & ->)]; [replace (0 <=? exp) with true by (symmetry; apply Z.leb_le; lia)|replace (0 <=? exp) with false by (symmetry; apply Z.leb_gt; lia)]; reflexivity. }
  rewrite X in T. clear X. destruct (Z.eqb_spec mant 0) as [E|E].
  - assert (n = 0) as -> by (destruct V as [(V & -> & _)|(V & -> & _)]; subst mant; lia).
    change (round_double 0 d) with (0, 0) in T. change (fraction_of (0, 0)) with (0, 1) in T. cbv beta iota in T. rewrite Z.mul_0_l in T.
    change (round_double 0 1) with (0, 0) in T. change (at_least (0, 0) 63) with false in T. change (fraction_of (0, 0)) with (0, 1) in T. cbv beta iota in T.
    change (0 / 1) with 0 in T. assert (a = 0) as -> by (injection T; nia). unfold close. lia.
  - destruct Hb as [Hb|Hb]; [congruence|]. assert (Hn : 0 < n).
    { destruct V as [(V & -> & _)|(V & -> & _)]; [|lia]. assert (0 < 10 ^ exp) by (apply Z.pow_pos_nonneg; lia). nia. }
    pose proof (round_close n d Hn Hd Hb) as R. set (x := round_double n d) in *. clearbody x.
    destruct (at_least x 1024); [discriminate|]. destruct (at_least x (-1022)) eqn:AL; [|discriminate].
    apply at_least_spec in AL. destruct (fraction_of x) as [N D]. destruct R as (RD & RN & RE). destruct AL as [[AL _]|[_ AL]]; [lia|]. change (- -1022) with 1022 in AL.
    assert (NP : 0 < N) by nia. pose proof (round_close (N * unit) D ltac:(nia) RD) as R2. assert (Bg : big (N * unit) D).
    { unfold big. assert (0 < 2 ^ 1022) by (apply Z.pow_pos_nonneg; lia). generalize dependent (2 ^ 1022). intros p AL Hp. nia. }
    specialize (R2 Bg). set (y := round_double (N * unit) D) in *. clearbody y. destruct (at_least y 63); [discriminate|].
    destruct (fraction_of y) as [N2 D2]. destruct R2 as (RD2 & RN2 & RE2). injection T as T. assert (a = N2 / D2) as -> by nia.
    pose proof (Z.div_mod N2 D2 ltac:(lia)) as DM. pose proof (Z.mod_pos_bound N2 D2 RD2) as MB. set (a := N2 / D2) in *. clearbody a. clear T Bg AL Hb.
    unfold close.
    (* over the common denominator *)
    set (P := N2 * (D * d)). set (Q := N * unit * (D2 * d)). set (RR := n * unit * (D * D2)). set (S1 := a * D2 * (D * d)). set (W := D2 * (D * d)).
    assert (I1 : Z.abs (P - Q) * 2 ^ 53 <= Q).
    { replace (P - Q) with ((N2 * D - N * unit * D2) * d) by (unfold P, Q; ring). rewrite Z.abs_mul, (Z.abs_eq d) by lia. unfold Q. set (A := Z.abs _) in *. nia. }
    assert (I2 : Z.abs (Q - RR) * 2 ^ 53 <= RR).
    { replace (Q - RR) with ((N * d - n * D) * (unit * D2)) by (unfold Q, RR; ring). rewrite Z.abs_mul, (Z.abs_eq (unit * D2)) by nia. unfold RR. set (A := Z.abs _) in *.
      replace (n * unit * (D * D2)) with (n * D * (unit * D2)) by ring. assert (0 < unit * D2) by nia. nia. }
    assert (I3 : S1 <= P < S1 + W). { unfold S1, P, W. assert (0 < D * d) by nia. nia. }
    assert (I4 : 0 < D * D2) by nia.
    assert (I5 : Z.abs (S1 - RR) * 2 ^ 51 <= RR + W * 2 ^ 51) by (change (2 ^ 53) with 9007199254740992 in *; change (2 ^ 51) with 2251799813685248; lia).
    replace (S1 - RR) with ((a * d - n * unit) * (D * D2)) in I5 by (unfold S1, RR; ring). rewrite Z.abs_mul, (Z.abs_eq (D * D2)) in I5 by lia.
    replace RR with (n * unit * (D * D2)) in I5 by reflexivity. replace W with (d * (D * D2)) in I5 by (unfold W; ring). set (A := Z.abs _) in *. nia.
Qed.
Lemma term_accepts sign mant exp unit n d : 0 <= mant -> 0 < unit -> 0 < d ->
  ((0 <= exp /\ n = mant * 10 ^ exp /\ d = 1) \/ (exp < 0 /\ n = mant /\ d = 10 ^ (- exp))) -> (mant = 0 \/ (n * unit <= d * 2 ^ 62 /\ d <= n * 2 ^ 1021)) ->
  exists a, duration_term sign mant exp unit = Some (sign * a).
Proof.
  intros Hm Hu Hd V Hb. unfold duration_term, stod.
  assert (X : (if 0 <=? exp then round_double (mant * 10 ^ exp) 1 else round_double mant (10 ^ (- exp))) = round_double n d).
  { destruct V as [(V & -> & ->)|(V & -> & ->)]; [replace (0 <=? exp) with true by (symmetry; apply Z.leb_le; lia)|replace (0 <=? exp) with false by (symmetry; apply Z.leb_gt; lia)]; reflexivity. }
  rewrite X. clear X. destruct (Z.eqb_spec mant 0) as [E|E].
  - assert (n = 0) as -> by (destruct V as [(V & -> & _)|(V & -> & _)]; subst mant; reflexivity).
    change (round_double 0 d) with (0, 0). change (fraction_of (0, 0)) with (0, 1). cbv beta iota. rewrite Z.mul_0_l.
    change (round_double 0 1) with (0, 0). change (at_least (0, 0) 63) with false. change (fraction_of (0, 0)) with (0, 1). cbv beta iota. eauto.
  - destruct Hb as [Hb|[Hb1 Hb2]]; [congruence|]. assert (Hn : 0 < n).
    { destruct V as [(V & -> & _)|(V & -> & _)]; [|lia]. assert (0 < 10 ^ exp) by (apply Z.pow_pos_nonneg; lia). nia. }
    assert (P22 : 2 ^ 1022 = 2 ^ 1021 * 2) by (replace 1022 with (1021 + 1) by reflexivity; rewrite pow_split by lia; reflexivity).
    assert (P21 : 0 < 2 ^ 1021) by (apply Z.pow_pos_nonneg; lia).
    assert (Hbig : big n d). { unfold big. rewrite P22. generalize dependent (2 ^ 1021). intros p Hb2 P22 P21. nia. }
    pose proof (round_close n d Hn Hd Hbig) as R. set (x := round_double n d) in *. clearbody x.
    assert (A1 : at_least x 1024 = false).
    { destruct (at_least x 1024) eqn:A; [|reflexivity]. apply at_least_spec in A. destruct (fraction_of x) as [N D]. destruct R as (RD & RN & RE). destruct A as [[_ A]|[A _]]; [|lia]. exfalso.
      assert (2 ^ 64 < 2 ^ 1024) by (apply Z.pow_lt_mono_r; lia). assert (Q : D * 2 ^ 64 < N) by nia. clear A H.
      change (2 ^ 64) with 18446744073709551616 in Q. change (2 ^ 53) with 9007199254740992 in RE. change (2 ^ 62) with 4611686018427387904 in Hb1.
      assert (n <= d * 4611686018427387904) by nia. assert (Q2 : D * d * 18446744073709551616 < N * d) by nia. assert (Q3 : n * D <= d * 4611686018427387904 * D) by nia. nia. }
    rewrite A1. assert (A2 : at_least x (-1022) = true).
    { apply at_least_spec. destruct (fraction_of x) as [N D]. destruct R as (RD & RN & RE). right. split; [lia|]. change (- -1022) with 1022. rewrite P22.
      generalize dependent (2 ^ 1021). intros p Hb2 P22 P21. change (2 ^ 53) with 9007199254740992 in RE.
      assert (Q : n * D <= 2 * (N * d)) by nia. assert (Q2 : D * d <= n * p * D) by nia. assert (Q3 : n * D * p <= 2 * (N * d) * p) by nia. assert (D * d <= N * (p * 2) * d) by nia. nia. }
    rewrite A2. apply at_least_spec in A2. destruct (fraction_of x) as [N D]. destruct R as (RD & RN & RE). destruct A2 as [[AL _]|[_ AL]]; [lia|]. change (- -1022) with 1022 in AL.
    assert (NP : 0 < N) by nia. pose proof (round_close (N * unit) D ltac:(nia) RD) as R2. assert (Bg : big (N * unit) D).
    { unfold big. assert (0 < 2 ^ 1022) by (apply Z.pow_pos_nonneg; lia). generalize dependent (2 ^ 1022). intros p _ AL Hp. nia. }
    specialize (R2 Bg). set (y := round_double (N * unit) D) in *. clearbody y.
    assert (A3 : at_least y 63 = false).
    { destruct (at_least y 63) eqn:A; [|reflexivity]. apply at_least_spec in A. destruct (fraction_of y) as [N2 D2]. destruct R2 as (RD2 & RN2 & RE2). destruct A as [[_ A]|[A _]]; [|lia]. exfalso.
      clear Bg AL P22 P21 Hb2 Hbig. change (2 ^ 63) with 9223372036854775808 in A. change (2 ^ 53) with 9007199254740992 in *. change (2 ^ 62) with 4611686018427387904 in Hb1.
      set (P := N2 * (D * d)). set (Q := N * unit * (D2 * d)). set (RR := n * unit * (D * D2)). set (W := D2 * (D * d)).
      assert (I1 : Z.abs (P - Q) * 9007199254740992 <= Q).
      { replace (P - Q) with ((N2 * D - N * unit * D2) * d) by (unfold P, Q; ring). rewrite Z.abs_mul, (Z.abs_eq d) by lia. unfold Q. set (B := Z.abs _) in *. nia. }
      assert (I2 : Z.abs (Q - RR) * 9007199254740992 <= RR).
      { replace (Q - RR) with ((N * d - n * D) * (unit * D2)) by (unfold Q, RR; ring). rewrite Z.abs_mul, (Z.abs_eq (unit * D2)) by nia. unfold RR. set (B := Z.abs _) in *.
        replace (n * unit * (D * D2)) with (n * D * (unit * D2)) by ring. assert (0 < unit * D2) by nia. nia. }
      assert (I3 : W * 9223372036854775808 <= P). { unfold W, P. assert (0 < D * d) by nia. nia. }
      assert (I4 : RR <= W * 4611686018427387904). { unfold RR, W. assert (0 < D * D2) by nia. nia. }
      assert (0 < W) by (unfold W; apply Z.mul_pos_pos; [lia|nia]). clearbody P Q RR W. lia. }
    rewrite A3. destruct (fraction_of y) as [N2 D2]. eauto.
Qed.

(** ** Texts *)
Lemma number_zval s : number_of s = zval_digits s.
Proof.
  unfold number_of, zval_digits. assert (G : forall a, fold_left (fun a c => 10 * a + (c - 48)) s a = fold_left (fun a c => a * 10 + (c - c0)) s a); [|apply G].
  induction s as [|c s IH]; intro a; cbn [fold_left]; [reflexivity|]. rewrite IH. f_equal. unfold c0. lia.
Qed.
Lemma digit_iff c : digit_char c <-> is_digit c = true.
Proof. unfold digit_char. rewrite is_digit_spec. unfold digit. lia. Qed.
Definition no_digit (s : str) : Prop := match s with c :: _ => is_digit c = false | [] => True end.
Lemma digits_run d r : digit_run d -> no_digit r -> digits_of (d ++ r) = (d, r).
Proof.
  intros H N. induction H as [|c d Hc H IH]; cbn [app digits_of].
  - destruct r as [|c r]; [reflexivity|]. cbn [digits_of no_digit] in *. now rewrite N.
  - apply digit_iff in Hc. rewrite Hc, IH. reflexivity.
Qed.
Lemma digits_split s d r : digits_of s = (d, r) -> s = d ++ r /\ digit_run d /\ no_digit r.
Proof.
  revert d r. induction s as [|c s IH]; intros d r; cbn [digits_of].
  - intro E. injection E as <- <-. repeat split. constructor.
  - destruct (is_digit c) eqn:C.
    + destruct (digits_of s) as [d' r'] eqn:E'. intro E. injection E as <- <-. destruct (IH _ _ eq_refl) as (-> & H1 & H2). repeat split; auto. constructor; [apply digit_iff, C|auto].
    + intro E. injection E as <- <-. repeat split; [constructor|exact C].
Qed.
(** What may follow a term. *)
Definition stops (r : str) : Prop := match r with c :: _ => is_digit c = true \/ c = 45 \/ c = 46 | [] => True end.
Definition unit_head (s : str) : Prop := exists u z r, unit_ns u z /\ s = u ++ r.
Lemma unit_head_chars s : unit_head s -> exists c r, s = c :: r /\ In c [110; 117; 194; 109; 115; 104; 100; 119; 121].
Proof. intros (u & z & r & U & ->). destruct U; cbn; eexists; eexists; (split; [reflexivity|]); cbn; tauto. Qed.
Lemma scan_unit_ok u z r : unit_ns u z -> stops r -> scan_unit duration_units (u ++ r) = Some (z, r).
Proof.
  intros U St. destruct U; try reflexivity.
  (* minutes, not milliseconds *)
  destruct r as [|c r]; [reflexivity|]. cbn in St. assert (c <> 115) by (destruct St as [St|[St|St]]; [intros ->; discriminate|lia|lia]).
  unfold duration_units. cbn [scan_unit].
  change ($"m" ++ c :: r) with (109 :: c :: r). change $"ns" with [110; 115]. change $"us" with [117; 115]. change $"ms" with [109; 115]. change $"s" with [115]. change $"m" with [109].
  cbn [prefixb]. change (110 =? 109) with false. change (117 =? 109) with false. change (194 =? 109) with false. change (109 =? 109) with true. change (115 =? 109) with false. cbn [andb].
  replace (115 =? c) with false by (symmetry; apply Z.eqb_neq; lia). cbn [andb skipn length]. reflexivity.
Qed.
Lemma in_cases (c : Z) l : In c l -> forall P : Z -> Prop, Forall P l -> P c.
Proof. intros H P F. rewrite Forall_forall in F. auto. Qed.
Lemma scan_exponent_ok e x s : exponent e x -> unit_head s -> scan_exponent (e ++ s) = (x, s).
Proof.
  intros E U. destruct (unit_head_chars s U) as (c & r & -> & C). unfold scan_exponent.
  assert (Cn : no_digit (c :: r)) by (cbn; apply (in_cases _ _ C); repeat constructor).
  destruct E as [|g d G D|g d G D|g d G D]; cbn [app].
  - replace ((c =? 101) || (c =? 69)) with false; [reflexivity|]. symmetry. apply (in_cases _ _ C). repeat constructor.
  - replace ((g =? 101) || (g =? 69)) with true by (symmetry; apply (in_cases _ _ G); repeat constructor).
    destruct D as [Dn D]. destruct d as [|h d]; [congruence|]. assert (H : is_digit h = true) by (apply digit_iff; inversion D; assumption). cbn [app].
    assert (E1 : scan_exponent_sign (h :: d ++ c :: r) = (1, h :: d ++ c :: r)).
    { unfold is_digit in H. apply andb_true_iff in H as [H1 H2]. apply Z.leb_le in H1, H2.
      assert (K : h = 48 \/ h = 49 \/ h = 50 \/ h = 51 \/ h = 52 \/ h = 53 \/ h = 54 \/ h = 55 \/ h = 56 \/ h = 57) by lia.
      destruct K as [K|[K|[K|[K|[K|[K|[K|[K|[K|K]]]]]]]]]; subst h; reflexivity. }
    rewrite E1. change (h :: d ++ c :: r) with ((h :: d) ++ c :: r). rewrite digits_run by assumption. rewrite number_zval, Z.mul_1_l. reflexivity.
  - replace ((g =? 101) || (g =? 69)) with true by (symmetry; apply (in_cases _ _ G); repeat constructor).
    destruct D as [Dn D]. cbv beta iota delta [scan_exponent_sign]. rewrite digits_run by assumption. destruct d; [congruence|]. rewrite number_zval, Z.mul_1_l. reflexivity.
  - replace ((g =? 101) || (g =? 69)) with true by (symmetry; apply (in_cases _ _ G); repeat constructor).
    destruct D as [Dn D]. cbv beta iota delta [scan_exponent_sign]. rewrite digits_run by assumption. destruct d; [congruence|]. rewrite number_zval. f_equal; lia.
Qed.
(** What may follow a mantissa. *)
Lemma exponent_head e x s : exponent e x -> unit_head s -> exists c r, e ++ s = c :: r /\ is_digit c = false /\ c <> 46.
Proof.
  intros E U. destruct (unit_head_chars s U) as (c & r & -> & C).
  destruct E as [|g d G D|g d G D|g d G D]; cbn [app]; eexists; eexists; (split; [reflexivity|]).
  - split; [apply (in_cases _ _ C); repeat constructor|]. intros ->. cbn in C. intuition discriminate.
  - split; [apply (in_cases _ _ G); repeat constructor|]. intros ->. cbn in G. intuition discriminate.
  - split; [apply (in_cases _ _ G); repeat constructor|]. intros ->. cbn in G. intuition discriminate.
  - split; [apply (in_cases _ _ G); repeat constructor|]. intros ->. cbn in G. intuition discriminate.
Qed.
Lemma not_dot {A} (c : Z) (x y : A) : c <> 46 -> (match c with 46 => x | _ => y end) = y.
Proof. intro H. destruct c as [|p|p]; try reflexivity. do 6 (destruct p as [p|p|]; try reflexivity). congruence. Qed.
Lemma scan_mantissa_ok m i f c r : mantissa m i f -> is_digit c = false -> c <> 46 -> scan_mantissa (m ++ c :: r) = Some (i, f, c :: r).
Proof.
  intros M C Nd. unfold scan_mantissa. destruct M as [d [Dn D]|d f [Dn D] F|f [Fn F]].
  - rewrite digits_run by assumption. destruct d as [|h d]; [congruence|]. now rewrite not_dot.
  - rewrite <- !app_assoc. cbn [app]. change ($"." ++ f ++ c :: r) with (46 :: f ++ c :: r). rewrite digits_run by (auto; reflexivity). destruct d as [|h d]; [congruence|].
    now rewrite digits_run.
  - change (($"." ++ f) ++ c :: r) with (46 :: f ++ c :: r). change (digits_of (46 :: f ++ c :: r)) with (@nil Z, 46 :: f ++ c :: r). cbv beta iota.
    rewrite digits_run by assumption. destruct f; [congruence|reflexivity].
Qed.
Lemma mantissa_head m i f r : mantissa m i f -> exists c t, m ++ r = c :: t /\ (is_digit c = true \/ c = 46).
Proof.
  intros [d [Dn D]|d g [Dn D] F|g [Fn F]].
  - destruct d as [|h d]; [congruence|]. exists h, (d ++ r). split; [reflexivity|]. left. apply digit_iff. now inversion D.
  - destruct d as [|h d]; [congruence|]. eexists. eexists. split; [reflexivity|]. left. apply digit_iff. now inversion D.
  - eexists. eexists. split; [reflexivity|]. now right.
Qed.
Definition amount (t : term) : option Z := duration_term (t_sign t) (t_mant t) (t_exp t) (t_unit t).
Lemma scan_term_ok s t r : term_text s t -> stops r -> scan_term (s ++ r) = Some (amount t, r).
Proof.
  intros (g & m & e & u & i & f & x & -> & G & M & E & U & E1 & E2) St. unfold scan_term, amount.
  assert (UH : unit_head (u ++ r)) by (exists u, (t_unit t), r; auto).
  destruct (exponent_head _ _ _ E UH) as (c & q & Q & Q1 & Q2). destruct (mantissa_head m i f (e ++ u ++ r) M) as (h & w & Hw & Hh).
  assert (B : scan_sign ((g ++ m ++ e ++ u) ++ r) = (t_sign t, m ++ e ++ u ++ r)).
  { unfold scan_sign. destruct G; cbn [app]; rewrite <- !app_assoc; [|reflexivity]. rewrite Hw.
    assert (K : h <> 45) by (destruct Hh as [Hh|Hh]; [intros ->; discriminate|lia]). clear - K. destruct h as [|p|p]; try reflexivity. do 6 (destruct p as [p|p|]; try reflexivity). congruence. }
  rewrite B. rewrite Q. rewrite (scan_mantissa_ok m i f c q M Q1 Q2). rewrite <- Q, (scan_exponent_ok e x (u ++ r) E UH), (scan_unit_ok u _ r U St), E1, E2, number_zval. reflexivity.
Qed.
Lemma duration_stops s ts : duration_text s ts -> stops s.
Proof.
  intros [|s1 t s' ts' (g & m & e & u & i & f & x & -> & G & M & _) _]; [exact I|]. destruct (mantissa_head m i f (e ++ u ++ s') M) as (h & w & Hw & Hh).
  destruct G; cbn [app]; rewrite <- !app_assoc; [rewrite Hw|]; cbn; tauto.
Qed.
Lemma term_nonempty s t : term_text s t -> s <> [].
Proof. intros (g & m & e & u & i & f & x & -> & G & M & E & U & _) H. apply app_eq_nil in H as [_ H]. apply app_eq_nil in H as [_ H]. apply app_eq_nil in H as [_ ->]. inversion U. Qed.
Lemma terms_ok s ts : duration_text s ts -> forall fuel ns l, (length s <= fuel)%nat -> Forall2 (fun t a => amount t = Some a) ts l ->
  (sums_fit ns l -> duration_terms fuel s ns = Ok (Some (fold_left Z.add l ns))) /\ (~ sums_fit ns l -> duration_terms fuel s ns = Ok None).
Proof.
  induction 1 as [|s t s' ts T D IH]; intros fuel ns l Hf F.
  - inversion F; subst. split; [destruct fuel; reflexivity|]. cbn. tauto.
  - inversion F as [|? a ? l' A F']; subst. pose proof (term_nonempty s t T) as Ne. pose proof (scan_term_ok s t s' T (duration_stops _ _ D)) as Sc.
    destruct s as [|c s]; [congruence|]. destruct fuel as [|fuel]; [cbn in Hf; lia|]. cbn [app duration_terms]. change (c :: s ++ s') with ((c :: s) ++ s'). rewrite Sc, A.
    rewrite app_length in Hf. cbn in Hf. destruct (IH fuel (ns + a) l' ltac:(lia) F') as [I1 I2]. cbn [sums_fit fold_left]. split.
    + intros [B Fit]. rewrite int64b_in by exact B. auto.
    + intro Nf. destruct (int64b (ns + a)) eqn:B; [|reflexivity]. apply int64b_iff in B. apply I2. tauto.
Qed.
Lemma not_bare s ts : duration_text s ts -> s <> [] -> existsb (str_eqb s) [$"0"; $"+0"; $"-0"] = false.
Proof.
  intros D Ne. destruct (existsb _ _) eqn:E; [|reflexivity]. exfalso. apply existsb_exists in E as (z & I & E). apply str_eqb_eq in E. subst z.
  destruct D as [|s1 t s' ts' T D]; [congruence|]. pose proof (scan_term_ok s1 t s' T (duration_stops _ _ D)) as Sc. assert (N0 : scan_term $"0" = None) by reflexivity. assert (N1 : scan_term $"+0" = None) by reflexivity. assert (N2 : scan_term $"-0" = None) by reflexivity.
  destruct I as [I|[I|[I|[]]]]; rewrite <- I in Sc; congruence.
Qed.
Lemma parse_ok s ts l : duration_text s ts -> s <> [] -> Forall2 (fun t a => amount t = Some a) ts l ->
  (sums_fit 0 l -> time_parse_duration (VString s) = Ok (RVal (VInt (dec (total l))))) /\ (~ sums_fit 0 l -> time_parse_duration (VString s) = Ok (RErr EvalBuiltInError)).
Proof.
  intros D Ne F. unfold time_parse_duration, do_parse_duration. pose proof (not_bare s ts D Ne) as B. destruct s as [|c s]; [congruence|]. rewrite B.
  destruct (terms_ok _ _ D (length (c :: s)) 0 l (le_n _) F) as [H1 H2]. split; intro Fit; [rewrite (H1 Fit)|rewrite (H2 Fit)]; reflexivity.
Qed.

(** ** The other way *)
Lemma is_dot (s : str) : (exists r, s = 46 :: r) \/ s = [] \/ (exists c r, s = c :: r /\ c <> 46).
Proof. destruct s as [|c s]; [auto|]. destruct (Z.eq_dec c 46) as [->|N]; [left; eauto|]. right. right. eauto. Qed.
Lemma scan_mantissa_inv s i f r : scan_mantissa s = Some (i, f, r) -> exists m, s = m ++ r /\ mantissa m i f.
Proof.
  unfold scan_mantissa. destruct (digits_of s) as [d q] eqn:E. apply digits_split in E as (-> & D & N). destruct d as [|h d].
  - destruct (is_dot q) as [[t ->]|[->|(c & q' & -> & Q)]].
    + destruct (digits_of t) as [g w] eqn:E. apply digits_split in E as (-> & G & _). destruct g as [|k g]; [discriminate|]. intro H. injection H as <- <- <-.
      exists ($"." ++ k :: g). split; [reflexivity|]. apply m_frac. split; [discriminate|exact G].
    + discriminate.
    + rewrite not_dot by exact Q. discriminate.
  - destruct (is_dot q) as [[t ->]|[->|(c & q' & -> & Q)]].
    + destruct (digits_of t) as [g w] eqn:E. apply digits_split in E as (-> & G & _). intro H. injection H as <- <- <-.
      exists ((h :: d) ++ $"." ++ g). split; [rewrite <- !app_assoc; reflexivity|]. apply m_point; [split; [discriminate|exact D]|exact G].
    + intro H. injection H as <- <- <-. exists (h :: d). split; [reflexivity|]. apply m_int. split; [discriminate|exact D].
    + rewrite not_dot by exact Q. intro H. injection H as <- <- <-. exists (h :: d). split; [reflexivity|]. apply m_int. split; [discriminate|exact D].
Qed.
Lemma sign_cases (r : str) : exists sg r', scan_exponent_sign r = (sg, r') /\
  ((r = 45 :: r' /\ sg = -1) \/ (r = 43 :: r' /\ sg = 1) \/ (r' = r /\ sg = 1)).
Proof.
  destruct r as [|c r]; [eexists; eexists; split; [reflexivity|]; tauto|]. destruct (Z.eq_dec c 45) as [->|N]; [eexists; eexists; split; [reflexivity|]; tauto|].
  destruct (Z.eq_dec c 43) as [->|N']; [eexists; eexists; split; [reflexivity|]; tauto|]. exists 1, (c :: r). split; [|tauto].
  destruct c as [|p|p]; try reflexivity. do 6 (destruct p as [p|p|]; try reflexivity); congruence.
Qed.
Lemma scan_exponent_inv s x r : scan_exponent s = (x, r) -> exists e, s = e ++ r /\ exponent e x.
Proof.
  unfold scan_exponent. destruct s as [|c s]; [intro H; injection H as <- <-; exists []; split; [reflexivity|constructor]|].
  destruct ((c =? 101) || (c =? 69)) eqn:C; [|intro H; injection H as <- <-; exists []; split; [reflexivity|constructor]].
  assert (Cin : In c [101; 69]) by (apply orb_true_iff in C; rewrite !Z.eqb_eq in C; cbn; lia).
  destruct (sign_cases s) as (sg & r' & -> & K). destruct (digits_of r') as [d w] eqn:E. apply digits_split in E as (-> & D & _).
  destruct d as [|h d]; intro H; injection H as <- <-; [exists []; split; [reflexivity|constructor]|].
  assert (D1 : digit_run1 (h :: d)) by (split; [discriminate|exact D]). rewrite <- number_zval.
  destruct K as [[-> ->]|[[-> ->]|[<- ->]]].
  - exists (c :: 45 :: h :: d). split; [reflexivity|]. replace (-1 * number_of (h :: d)) with (- number_of (h :: d)) by lia. now apply e_minus.
  - exists (c :: 43 :: h :: d). split; [reflexivity|]. rewrite Z.mul_1_l. now apply e_plus.
  - exists (c :: h :: d). split; [reflexivity|]. rewrite Z.mul_1_l. now apply e_plain.
Qed.
Lemma scan_unit_inv s z r : scan_unit duration_units s = Some (z, r) -> exists u, s = u ++ r /\ unit_ns u z.
Proof.
  assert (G : forall l, (forall u z, In (u, z) l -> unit_ns u z) -> scan_unit l s = Some (z, r) -> exists u, s = u ++ r /\ unit_ns u z).
  { induction l as [|[u y] l IH]; intros H; cbn [scan_unit]; [discriminate|]. destruct (prefixb u s) eqn:P.
    - intro E. injection E as -> <-. apply prefixb_iff in P as [b ->]. exists u. split; [|apply H; now left]. unfold str, byte in *. now rewrite skipn_app_length.
    - intro E. apply IH; [|exact E]. intros. apply H. now right. }
  apply G. unfold duration_units. intros u y I. cbn [In] in I. 
  repeat (destruct I as [I|I]; [injection I as <- <-; constructor|]). destruct I.
Qed.
Lemma minus_case (s : str) : exists g sg r, scan_sign s = (sg, r) /\ s = g ++ r /\ minus g sg.
Proof.
  destruct s as [|c s]; [exists [], 1, []; repeat split; constructor|]. destruct (Z.eq_dec c 45) as [->|N]; [exists [45], (-1), s; repeat split; constructor|].
  exists [], 1, (c :: s). split; [|split; [reflexivity|constructor]]. destruct c as [|p|p]; try reflexivity. do 6 (destruct p as [p|p|]; try reflexivity). congruence.
Qed.
Lemma scan_term_inv s o r : scan_term s = Some (o, r) -> exists s1 t, s = s1 ++ r /\ term_text s1 t /\ o = amount t.
Proof.
  unfold scan_term. destruct (minus_case s) as (g & sg & q & -> & Eg & G). destruct (scan_mantissa q) as [[[i f] w]|] eqn:M; [|discriminate].
  apply scan_mantissa_inv in M as (m & -> & M). destruct (scan_exponent w) as [x w'] eqn:E. apply scan_exponent_inv in E as (e & -> & E).
  destruct (scan_unit duration_units w') as [[u w'']|] eqn:U; [|discriminate]. apply scan_unit_inv in U as (un & -> & U). intro H. injection H as <- <-.
  exists (g ++ m ++ e ++ un), {| t_sign := sg; t_mant := zval_digits (i ++ f); t_exp := x - Z.of_nat (length f); t_unit := u |}.
  split; [now rewrite <- !app_assoc|]. split; [|reflexivity]. exists g, m, e, un, i, f, x. cbn [t_sign t_mant t_exp t_unit]. rewrite number_zval. repeat split; auto.
Qed.
Lemma terms_inv fuel : forall s ns, (length s <= fuel)%nat -> exists r, duration_terms fuel s ns = Ok r /\ (r <> None -> exists ts, duration_text s ts).
Proof.
  induction fuel as [|fuel IH]; intros s ns H.
  - destruct s; [|cbn in H; lia]. eexists. split; [reflexivity|]. intros _. exists []. constructor.
  - destruct s as [|c s]; [eexists; split; [reflexivity|]; intros _; exists []; constructor|]. cbn [duration_terms].
    destruct (scan_term (c :: s)) as [[[a|] r]|] eqn:E.
    + apply scan_term_inv in E as (s1 & t & E & T & _). destruct (int64b (ns + a)); [|eexists; split; [reflexivity|congruence]].
      assert (L : (length r <= fuel)%nat). { pose proof (term_nonempty _ _ T). apply (f_equal (@length Z)) in E. unfold str, byte in *. rewrite app_length in E. destruct s1; [congruence|]. cbn [length] in *. lia. }
      destruct (IH r (ns + a) L) as (o & O & K). exists o. split; [exact O|]. intro N. destruct (K N) as [ts D]. exists (t :: ts). rewrite E. now constructor.
    + eexists. split; [reflexivity|congruence].
    + eexists. split; [reflexivity|congruence].
Qed.
Lemma mant_nonneg m i f : mantissa m i f -> 0 <= zval_digits (i ++ f).
Proof.
  intro M. assert (D : Forall digit (i ++ f)).
  { apply Forall_impl with digit_char. { unfold digit_char, digit. lia. } destruct M as [d [_ D]|d g [_ D] G|g [_ G]]; [rewrite app_nil_r; exact D|apply Forall_app; auto|exact G]. }
  apply zval_bound in D. lia.
Qed.
