From Coq Require Import String ZArith List Bool Lia.
From Verif Require Import Base SMap SMapFacts BigIntSpec ValueModel ValueSpec ResolverModel VmModel StrModel StrSpec StrProofs EncModel EncSpec EncProofs.
Import ListNotations.
Local Open Scope Z_scope.
Local Open Scope list_scope.

(** ** Scanning *)

Lemma span_spec f s a b : span f s = (a, b) -> s = a ++ b /\ Forall (fun c => f c = true) a /\ (forall c t, b = c :: t -> f c = false).
Proof.
  revert a b. induction s as [ | c s IH ]; intros a b E; cbn [span] in E.
  - injection E as <- <-. repeat split; [ constructor | discriminate ].
  - destruct (f c) eqn:Ec.
    + destruct (span f s) as [a' b'] eqn:Es. injection E as <- <-. destruct (IH a' b' eq_refl) as (-> & A & B). repeat split; auto.
    + injection E as <- <-. repeat split; [ constructor | ]. intros c' t H. congruence.
Qed.
Lemma span_eq f a b : Forall (fun c => f c = true) a -> (forall c t, b = c :: t -> f c = false) -> span f (a ++ b) = (a, b).
Proof.
  induction 1 as [ | c a Hc Ha IH ]; intros B; cbn [app span].
  - destruct b as [ | c b ]; [ reflexivity | ]. cbn [span]. now rewrite (B c b eq_refl).
  - now rewrite Hc, IH.
Qed.
Lemma none_of_true l c : none_of l c = true <-> ~ In c l.
Proof. unfold none_of. rewrite negb_true_iff, <- existsb_eqb. destruct (existsb (Z.eqb c) l); intuition congruence. Qed.
Lemma none_of_false l c : none_of l c = false <-> In c l.
Proof. unfold none_of. rewrite negb_false_iff. apply existsb_eqb. Qed.
Lemma none_of_all l a : Forall (fun c => none_of l c = true) a <-> forall x, In x l -> ~ In x a.
Proof.
  rewrite Forall_forall. split.
  - intros H x Hx Ha. specialize (H x Ha). now apply none_of_true in H.
  - intros H c Hc. apply none_of_true. intros Hl. now apply (H c).
Qed.

(** ** Host and port *)

Definition port_of (p : option str) : str := match p with Some p => p | None => [] end.
Lemma digits_forall p : forallb is_digit p = true <-> Forall (fun c => 48 <= c <= 57) p.
Proof.
  rewrite forallb_forall, Forall_forall. unfold is_digit. split; intros H x Hx; specialize (H x Hx).
  - apply andb_prop in H. lia.
  - apply andb_true_intro. lia.
Qed.
Lemma match_port_spec s q : match_port s = Some q <->
  exists p, s = opt (app [58]) p /\ q = port_of p /\ (forall d, p = Some d -> Forall (fun c => 48 <= c <= 57) d).
Proof.
  split.
  - destruct s as [ | c s ]; cbn [match_port]; intros H.
    + injection H as <-. exists None. repeat split; discriminate.
    + destruct (c =? 58) eqn:Ec; [ | discriminate ]. cbn [andb] in H. destruct (forallb is_digit s) eqn:Ed; [ | discriminate ]. injection H as <-.
      exists (Some s). apply Z.eqb_eq in Ec. subst c. repeat split. intros d Hd. injection Hd as <-. now apply digits_forall.
  - intros (p & -> & -> & H). destruct p as [ p | ]; [ | reflexivity ]. cbn [opt app match_port]. rewrite Z.eqb_refl. cbn [andb port_of].
    now rewrite (proj2 (digits_forall p) (H p eq_refl)).
Qed.
Lemma port_head p c t : opt (app [58]) p = c :: t -> c = 58.
Proof. destruct p; cbn; [ congruence | discriminate ]. Qed.
Lemma match_host_spec s ipv6 name q : match_host s = Some (ipv6, name, q) <->
  exists p, q = port_of p /\ (forall d, p = Some d -> Forall (fun c => 48 <= c <= 57) d) /\
    ((s = [91] ++ ipv6 ++ [93] ++ opt (app [58]) p /\ name = [] /\ ~ In 91 ipv6 /\ ~ In 93 ipv6) \/
     (s = name ++ opt (app [58]) p /\ ipv6 = [] /\ ~ In 91 name /\ ~ In 93 name /\ ~ In 58 name)).
Proof.
  assert (G : forall c s', s = c :: s' -> c <> 91 -> match_host s = let '(name, rest) := span (none_of [91; 93; 58]) s in
      match match_port rest with Some p => Some ([], name, p) | None => None end).
  { intros c s' -> H. unfold match_host. destruct c as [ | c | c ]; try reflexivity.
    do 7 (destruct c as [ c | c | ]; try reflexivity). now elim H. }
  assert (G91 : forall s', match_host (91 :: s') = let '(ipv6, rest) := span (none_of [91; 93]) s' in
      match rest with 93 :: rest' => match match_port rest' with Some p => Some (ipv6, [], p) | None => None end | _ => None end) by reflexivity.
  split.
  - intros H. destruct s as [ | c s ].
    + injection H as <- <- <-. exists None. repeat split; try discriminate. right. repeat split; auto.
    + destruct (Z.eq_dec c 91) as [-> | Nc].
      * rewrite G91 in H. destruct (span (none_of [91; 93]) s) as [a b] eqn:Es. apply span_spec in Es. destruct Es as (-> & A & B).
        destruct b as [ | d b ]; [ discriminate | ]. pose proof (B d b eq_refl) as D. apply none_of_false in D.
        destruct D as [<- | [<- | []]]; [ discriminate | ]. destruct (match_port b) eqn:Ep; [ | discriminate ]. injection H as <- <- <-.
        apply match_port_spec in Ep. destruct Ep as (p & -> & -> & D). exists p. repeat split; auto. left.
        rewrite none_of_all in A. repeat split; auto; apply A; cbn; auto.
      * rewrite (G c s eq_refl Nc) in H. destruct (span _ (c :: s)) as [a b] eqn:Es. apply span_spec in Es. destruct Es as (E & A & B).
        destruct (match_port b) eqn:Ep; [ | discriminate ]. injection H as <- <- <-. apply match_port_spec in Ep. destruct Ep as (p & -> & -> & D).
        exists p. repeat split; auto. right. rewrite none_of_all in A. repeat split; auto; apply A; cbn; auto.
  - intros (p & -> & D & [(-> & -> & N1 & N2) | (-> & -> & N1 & N2 & N3)]).
    + change ([91] ++ ipv6 ++ [93] ++ opt (app [58]) p) with (91 :: (ipv6 ++ [93] ++ opt (app [58]) p)). rewrite G91.
      rewrite span_eq.
      * change ([93] ++ opt (app [58]) p) with (93 :: opt (app [58]) p). assert (Q : match_port (opt (app [58]) p) = Some (port_of p)) by (apply match_port_spec; exists p; auto). unfold str, byte in *. now rewrite Q.
      * apply none_of_all. intros x [<- | [<- | []]]; auto.
      * intros c t E. injection E as <- _. reflexivity.
    + assert (E : match_host (name ++ opt (app [58]) p) = let '(name, rest) := span (none_of [91; 93; 58]) (name ++ opt (app [58]) p) in
        match match_port rest with Some p => Some ([], name, p) | None => None end).
      { destruct (name ++ opt (app [58]) p) as [ | c t ] eqn:E; [ reflexivity | ]. apply (G c t); auto. intros ->.
        destruct name as [ | d name ]; [ cbn in E; now apply port_head in E | ]. injection E as -> _. apply N1. now left. }
      rewrite E, span_eq.
      * assert (Q : match_port (opt (app [58]) p) = Some (port_of p)) by (apply match_port_spec; exists p; auto). unfold str, byte in *. now rewrite Q.
      * apply none_of_all. intros x [<- | [<- | [<- | []]]]; auto.
      * intros c t Ec. apply port_head in Ec. now subst.
Qed.
Lemma after_at_spec s t : after_at s = t <-> exists user, s = user ++ t /\ (user = [] \/ exists u, user = u ++ [64]) /\ ~ In 64 t.
Proof.
  unfold after_at. split.
  - intros <-. destruct (span (none_of [64]) (rev s)) as [a b] eqn:E. apply span_spec in E. destruct E as (E & A & B). cbn [fst].
    exists (rev b). repeat split.
    + rewrite <- rev_app_distr. unfold str, byte in *. rewrite <- E. symmetry. apply rev_involutive.
    + destruct b as [ | c b ]; [ now left | right ]. exists (rev b). cbn [rev]. specialize (B c b eq_refl). apply none_of_false in B. destruct B as [<- | []]. reflexivity.
    + rewrite none_of_all in A. intros H. apply in_rev in H. apply (A 64); cbn; auto.
  - intros (user & -> & U & N). unfold str, byte in *. rewrite rev_app_distr, span_eq; [ apply rev_involutive | | ].
    + apply none_of_all. intros x [<- | []] H. apply N. now apply in_rev.
    + intros c r E. destruct U as [-> | [u ->]]; [ discriminate | ]. rewrite rev_app_distr in E. injection E as <- _. reflexivity.
Qed.
Lemma occurs_zone addr x i : ~ occurs [37; 50; 53] addr -> occurs_at [37; 50; 53] (addr ++ [37; 50; 53] ++ x) i -> (length addr <= i)%nat.
Proof.
  intros N. revert i. induction addr as [ | c addr IH ]; intros i H; [ cbn; lia | ]. destruct i as [ | i ].
  - exfalso. cbn [app] in H. rewrite occurs_at_0 in H. destruct H as [b E].
    destruct addr as [ | d [ | e addr ] ]; cbn [app] in E; try discriminate. injection E as -> -> -> _. apply N. exists O. now exists [], addr.
  - cbn [app] in H. rewrite occurs_at_S in H. assert (L : (length addr <= i)%nat); [ | cbn [length]; lia ]. apply IH; auto. intros (j & Hj). apply N. exists (S j). now rewrite occurs_at_S.
Qed.
Lemma zone_find ipv6 : match find0 [37; 50; 53] ipv6 with
  | Some z => exists addr zone, ipv6 = addr ++ [37; 50; 53] ++ zone /\ length addr = z /\ ~ occurs [37; 50; 53] addr
  | None => ~ occurs [37; 50; 53] ipv6 end.
Proof.
  pose proof (find0_spec [37; 50; 53] ipv6) as H. destruct (find0 [37; 50; 53] ipv6) as [z | ].
  - destruct H as [(a & b & E & L) M]. exists a, b. repeat split; auto. intros (j & u & v & Ej & Lj).
    apply (M j).
    + apply (f_equal (@length _)) in Ej. rewrite !app_length in Ej. cbn [length] in Ej. lia.
    + exists u, (v ++ [37; 50; 53] ++ b). split; [ | auto ]. rewrite E, Ej. now rewrite <- !app_assoc.
  - intros (i & Hi). now apply (H i).
Qed.
Lemma zone_found addr zone : ~ occurs [37; 50; 53] addr -> find0 [37; 50; 53] (addr ++ [37; 50; 53] ++ zone) = Some (length addr).
Proof.
  intros N. pose proof (find0_spec [37; 50; 53] (addr ++ [37; 50; 53] ++ zone)) as H. destruct (find0 _ _) as [z | ].
  - destruct H as [H M]. f_equal. apply occurs_zone in H; auto. destruct (Nat.le_gt_cases z (length addr)); [ lia | ].
    exfalso. apply (M (length addr)); auto. now exists addr, zone.
  - exfalso. apply (H (length addr)). now exists addr, zone.
Qed.
Lemma parse_authority_spec a h p : parse_authority (after_at a) = Some (h, p) <-> host_port a h p.
Proof.
  split.
  - destruct (proj1 (after_at_spec a (after_at a)) eq_refl) as (user & E & U & N). set (b := after_at a) in *. clearbody b. subst a.
    unfold parse_authority. destruct (match_host b) as [[[ipv6 name] port] | ] eqn:Em; [ | discriminate ].
    apply match_host_spec in Em. destruct Em as (pp & -> & D & [(-> & -> & N1 & N2) | (-> & -> & N1 & N2 & N3)]); intros H.
    + destruct ipv6 as [ | c ipv6 ].
      * cbn [uri_unescape] in H. injection H as <- <-. apply (host_ipv6 user [] pp); auto.
        intros (i & x & y & Ex & _). destruct x; discriminate.
      * set (ip := c :: ipv6) in *. pose proof (zone_find ip) as Z. destruct (find0 [37; 50; 53] ip) as [z | ].
        -- destruct Z as (addr & zone & Ez & Lz & Nz). rewrite Ez in *.
           assert (E1 : skipn (z + 3) (addr ++ [37; 50; 53] ++ zone) = zone).
           { rewrite app_assoc. replace (z + 3)%nat with (length (addr ++ [37; 50; 53]))%Z by (rewrite app_length; cbn [length]; unfold str, byte in *; lia). apply skipn_app_length. }
           assert (E2 : substr (addr ++ [37; 50; 53] ++ zone) 0 z = addr) by (unfold substr; cbn [skipn]; rewrite <- Lz; apply firstn_app_length).
           unfold str, byte in *. rewrite E1, E2 in H. destruct (uri_unescape zone) as [zone' | ] eqn:Eu; [ | discriminate ]. injection H as <- <-.
           apply uri_unescape_spec in Eu. apply (host_zone user addr zone zone' pp); auto.
           ++ intros Hi. apply N1. apply in_app_or in Hi. apply in_or_app. destruct Hi; auto. right. apply in_or_app. auto.
           ++ intros Hi. apply N2. apply in_app_or in Hi. apply in_or_app. destruct Hi; auto. right. apply in_or_app. auto.
        -- injection H as <- <-. now apply host_ipv6.
    + destruct (uri_unescape name) eqn:Eu; [ | discriminate ]. injection H as <- <-. apply uri_unescape_spec in Eu. now apply host_name.
  - intros H. destruct H as [user name host port U N N1 N2 N3 P D | user addr port U N N1 N2 Nz D | user addr zone zone' port U N N1 N2 Nz P D].
    + rewrite (proj2 (after_at_spec _ (name ++ opt (app [58]) port))) by (exists user; auto). unfold parse_authority.
      rewrite (proj2 (match_host_spec _ [] name (port_of port))) by (exists port; repeat split; auto; right; auto).
      apply uri_unescape_spec in P. now rewrite P.
    + rewrite (proj2 (after_at_spec _ ([91] ++ addr ++ [93] ++ opt (app [58]) port))) by (exists user; auto). unfold parse_authority.
      rewrite (proj2 (match_host_spec _ addr [] (port_of port))) by (exists port; repeat split; auto; left; auto).
      destruct addr as [ | c addr ]; [ reflexivity | ]. pose proof (zone_find (c :: addr)) as Z. destruct (find0 [37; 50; 53] (c :: addr)); [ | reflexivity ].
      exfalso. destruct Z as (x & y & E & L & _). apply Nz. exists n. now exists x, y.
    + rewrite (proj2 (after_at_spec _ ([91] ++ (addr ++ [37; 50; 53] ++ zone) ++ [93] ++ opt (app [58]) port))) by (exists user; auto). unfold parse_authority.
      rewrite (proj2 (match_host_spec _ (addr ++ [37; 50; 53] ++ zone) [] (port_of port))).
      2:{ exists port. repeat split; auto. left. repeat split; auto.
          - intros Hi. apply in_app_or in Hi. destruct Hi as [Hi | [Hi | [Hi | [Hi | Hi]]]]; try discriminate; [ apply N1 | apply N1 ]; apply in_or_app; auto.
          - intros Hi. apply in_app_or in Hi. destruct Hi as [Hi | [Hi | [Hi | [Hi | Hi]]]]; try discriminate; [ apply N2 | apply N2 ]; apply in_or_app; auto. }
      assert (Ne : exists c t, addr ++ [37; 50; 53] ++ zone = c :: t) by (destruct addr; cbn; eauto). destruct Ne as (c & t & Ne).
      rewrite (zone_found addr zone Nz).
      assert (E1 : skipn (length addr + 3) (addr ++ [37; 50; 53] ++ zone) = zone).
      { rewrite app_assoc. replace (length addr + 3)%nat with (length (addr ++ [37; 50; 53]))%Z by (rewrite app_length; cbn [length]; unfold str, byte in *; lia). apply skipn_app_length. }
      assert (E2 : substr (addr ++ [37; 50; 53] ++ zone) 0 (length addr) = addr) by (unfold substr; cbn [skipn]; apply firstn_app_length).
      unfold str, byte in *. rewrite E1, E2. apply uri_unescape_spec in P. rewrite P. rewrite Ne. reflexivity.
Qed.

(** ** The parts of a URI *)

Lemma is_letter_iff c : is_letter c = true <-> 65 <= c <= 90 \/ 97 <= c <= 122.
Proof. unfold is_letter. rewrite orb_true_iff, !andb_true_iff. lia. Qed.
Lemma scheme_char_iff c : scheme_char c = true <-> (65 <= c <= 90 \/ 97 <= c <= 122 \/ 48 <= c <= 57 \/ c = 43 \/ c = 45 \/ c = 46).
Proof. unfold scheme_char, is_letter, is_digit. rewrite !orb_true_iff, !andb_true_iff. lia. Qed.
Lemma scheme_text_iff s : scheme_text s <-> exists c t, s = c :: t /\ is_letter c = true /\ Forall (fun c => scheme_char c = true) t.
Proof.
  unfold scheme_text. split; intros (c & t & -> & L & R); exists c, t; rewrite is_letter_iff in *; repeat split; auto;
    (eapply Forall_impl; [ | exact R ]); intros x Hx; now apply scheme_char_iff.
Qed.
Lemma match_58 (x : str) : (exists t, x = 58 :: t) \/ (forall A (f : str -> A) d, match x with 58 :: t => f t | _ => d end = d) /\ (forall t, x <> 58 :: t).
Proof.
  destruct x as [ | c x ]; [ right; split; [ reflexivity | discriminate ] | ].
  destruct (Z.eq_dec c 58) as [-> | N]; [ left; eauto | right ]. split; [ | congruence ]. intros A f d. destruct c as [ | c | c ]; try reflexivity.
  do 6 (destruct c as [ c | c | ]; try reflexivity). now elim N.
Qed.
Lemma match_scheme_some s u : scheme_text s -> match_scheme (s ++ [58] ++ u) = (s, u).
Proof.
  rewrite scheme_text_iff. intros (c & t & -> & L & R). unfold match_scheme. cbn [app]. rewrite L.
  rewrite span_eq; auto. intros d r E. injection E as <- _. reflexivity.
Qed.
Lemma match_scheme_spec t sc s1 : match_scheme t = (sc, s1) ->
  (scheme_text sc /\ t = sc ++ [58] ++ s1) \/ (sc = [] /\ s1 = t /\ forall s u, t = s ++ [58] ++ u -> ~ scheme_text s).
Proof.
  intros H. assert (D : (exists s u, t = s ++ [58] ++ u /\ scheme_text s) \/ (forall s u, t = s ++ [58] ++ u -> ~ scheme_text s)).
  { destruct t as [ | c t ]; [ right; intros [ | ] u E; discriminate | ].
    destruct (is_letter c) eqn:L.
    - destruct (span scheme_char t) as [a b] eqn:Es. apply span_spec in Es. destruct Es as (-> & A & B).
      destruct b as [ | d b ].
      + right. intros s u E S. rewrite scheme_text_iff in S. destruct S as (c' & t' & -> & _ & R). rewrite app_nil_r in E. injection E as _ E.
        rewrite E in A. apply Forall_app in A. destruct A as [_ A]. inversion A; subst. discriminate.
      + destruct (Z.eq_dec d 58) as [-> | N].
        * left. exists (c :: a), b. split; [ reflexivity | ]. apply scheme_text_iff. eauto.
        * right. intros s u E S. rewrite scheme_text_iff in S. destruct S as (c' & t' & -> & _ & R). injection E as _ E.
          specialize (B d b eq_refl).
          assert (Q1 : span scheme_char (a ++ d :: b) = (a, d :: b)) by (apply span_eq; auto; intros x y Ex; congruence).
          assert (Q2 : span scheme_char (t' ++ [58] ++ u) = (t', 58 :: u)) by (apply span_eq; auto; intros x y Ex; injection Ex as <- _; reflexivity).
          unfold str, byte in *. rewrite E in Q1. cbn [app] in Q1, Q2. rewrite Q2 in Q1. congruence.
    - right. intros s u E S. rewrite scheme_text_iff in S. destruct S as (c' & t' & -> & L' & R). injection E as -> _. congruence. }
  destruct D as [(s & u & -> & S) | N].
  - left. rewrite match_scheme_some in H by auto. injection H as <- <-. auto.
  - right. unfold match_scheme in H. destruct t as [ | c t ]; [ injection H as <- <-; auto | ]. destruct (is_letter c) eqn:L; [ | injection H as <- <-; auto ].
    destruct (span scheme_char t) as [a b] eqn:Es. apply span_spec in Es. destruct Es as (-> & A & B).
    destruct (match_58 b) as [[b' ->] | [E _]].
    + exfalso. apply (N (c :: a) b'); [ reflexivity | ]. apply scheme_text_iff. eauto.
    + rewrite E in H. injection H as <- <-. auto.
Qed.
Lemma match_scheme_none t : (forall s u, t = s ++ [58] ++ u -> ~ scheme_text s) -> match_scheme t = ([], t).
Proof.
  intros N. destruct (match_scheme t) as [sc s1] eqn:E. apply match_scheme_spec in E. destruct E as [[S E] | (-> & -> & _)]; auto. now apply N in E.
Qed.
Definition authority_of (s1 : str) : str * str :=
  match s1 with 47 :: 47 :: s' => let '(a, b) := span (none_of [47; 63; 35]) s' in (47 :: 47 :: a, b) | _ => ([], s1) end.
Lemma authority_else s : (forall u, s <> 47 :: 47 :: u) -> authority_of s = ([], s).
Proof.
  intros N. unfold authority_of. destruct s as [ | c s ]; [ reflexivity | ].
  destruct (Z.eq_dec c 47) as [-> | Nc].
  - destruct s as [ | d s ]; [ reflexivity | ]. destruct (Z.eq_dec d 47) as [-> | Nd]; [ now elim (N s) | ].
    destruct d as [ | d | d ]; try reflexivity. do 6 (destruct d as [ d | d | ]; try reflexivity). now elim Nd.
  - destruct c as [ | c | c ]; try reflexivity. do 6 (destruct c as [ c | c | ]; try reflexivity). now elim Nc.
Qed.
Definition query_of (s3 : str) : str * str := match s3 with 63 :: s' => span (none_of [35]) s' | _ => ([], s3) end.
Lemma query_else s : (forall u, s <> 63 :: u) -> query_of s = ([], s).
Proof.
  intros N. unfold query_of. destruct s as [ | c s ]; [ reflexivity | ]. destruct (Z.eq_dec c 63) as [-> | Nc]; [ now elim (N s) | ].
  destruct c as [ | c | c ]; try reflexivity. do 6 (destruct c as [ c | c | ]; try reflexivity). now elim Nc.
Qed.
Lemma match_uri_eq t : match_uri t =
  let '(scheme, s1) := match_scheme t in let '(authority, s2) := authority_of s1 in
  let '(rest, s3) := span (none_of [63; 35]) s2 in let '(query, s4) := query_of s3 in
  (scheme, authority, rest, query, match s4 with _ :: s' => s' | [] => [] end).
Proof. reflexivity. Qed.
Definition dflt (o : option str) : str := match o with Some s => s | None => [] end.
Definition auth_text (o : option str) : str := match o with Some a => 47 :: 47 :: a | None => [] end.
Lemma match_uri_some t sc au path q f : uri_parts t sc au path q f ->
  match_uri t = (dflt sc, auth_text au, path, dflt q, dflt f).
Proof.
  intros (E & Hs & Hn & Ha & Hnp & Hap & P1 & P2 & Q). rewrite match_uri_eq.
  set (t4 := opt (app [35]) f). set (t3 := opt (app [63]) q ++ t4). set (t2 := path ++ t3). set (t1 := opt (app [47; 47]) au ++ t2).
  assert (E4 : forall c x, t4 = c :: x -> c = 35) by (subst t4; destruct f; cbn; congruence).
  assert (E3 : forall c x, t3 = c :: x -> c = 35 \/ c = 63).
  { intros c x. subst t3. destruct q; cbn; [ intros Ec; injection Ec; auto | intros Ec; left; eapply E4; eauto ]. }
  assert (M0 : match_scheme t = (dflt sc, t1)).
  { destruct sc as [s | ]; cbn [opt dflt] in *.
    - rewrite E. rewrite <- app_assoc. apply match_scheme_some. now apply Hs.
    - rewrite match_scheme_none by (now apply Hn). now rewrite E. }
  assert (M1 : authority_of t1 = (auth_text au, t2)).
  { subst t1. destruct au as [a | ]; cbn [opt auth_text] in *.
    - destruct (Ha a eq_refl) as (A1 & A2 & A3). cbn [app authority_of]. rewrite span_eq; auto.
      + apply none_of_all. intros x [<- | [<- | [<- | []]]]; auto.
      + intros c x Ex. apply none_of_false. subst t2. destruct path as [ | d path ].
        * cbn [app] in Ex. destruct (E3 c x Ex) as [-> | ->]; cbn; auto.
        * cbn [app] in Ex. injection Ex as <- _. rewrite (Hap a d eq_refl eq_refl). cbn; auto.
    - cbn [app]. apply authority_else. intros u Eu. subst t2. destruct path as [ | c [ | d path ] ]; cbn [app] in Eu.
      + destruct (E3 47 _ Eu); discriminate.
      + injection Eu as -> Eu. destruct (E3 47 _ Eu); discriminate.
      + injection Eu as -> -> _. now apply (Hnp eq_refl path). }
  assert (M2 : span (none_of [63; 35]) t2 = (path, t3)).
  { subst t2. apply span_eq.
    - apply none_of_all. intros x [<- | [<- | []]]; auto.
    - intros c x Ex. apply none_of_false. destruct (E3 c x Ex) as [-> | ->]; cbn; auto. }
  assert (M3 : query_of t3 = (dflt q, t4)).
  { subst t3. destruct q as [q | ]; cbn [opt dflt app] in *.
    - cbn [query_of]. apply span_eq.
      + apply none_of_all. intros x [<- | []]; auto.
      + intros c x Ex. rewrite (E4 c x Ex). reflexivity.
    - apply query_else. intros u Eu. apply E4 in Eu. discriminate. }
  rewrite M0, M1, M2, M3. subst t4. now destruct f.
Qed.
Lemma match_uri_parts t : exists sc au path q f, uri_parts t sc au path q f.
Proof.
  destruct (match_scheme t) as [sc t1] eqn:M0. apply match_scheme_spec in M0.
  assert (S : exists o, t = opt (fun s => s ++ [58]) o ++ t1 /\ (forall s, o = Some s -> scheme_text s) /\
    (o = None -> forall s u, t = s ++ [58] ++ u -> ~ scheme_text s)).
  { destruct M0 as [[S E] | (-> & -> & N)].
    - exists (Some sc). cbn [opt]. rewrite <- app_assoc. repeat split; auto; congruence.
    - exists None. repeat split; auto; discriminate. }
  clear M0. destruct S as (o & E & H1 & H2).
  assert (A : exists au t2, t1 = opt (app [47; 47]) au ++ t2 /\ (forall a, au = Some a -> ~ In 47 a /\ ~ In 63 a /\ ~ In 35 a) /\
    (au = None -> forall u, t2 <> 47 :: 47 :: u) /\ (forall a c x, au = Some a -> t2 = c :: x -> In c [47; 63; 35])).
  { assert (D : (exists s, t1 = 47 :: 47 :: s) \/ (forall s, t1 <> 47 :: 47 :: s)).
    { destruct t1 as [ | c [ | d t1 ] ]; try (right; discriminate). destruct (Z.eq_dec c 47) as [-> | N]; [ | right; congruence ].
      destruct (Z.eq_dec d 47) as [-> | N]; [ left; eauto | right; congruence ]. }
    destruct D as [[s ->] | N].
    - destruct (span (none_of [47; 63; 35]) s) as [a b] eqn:Es. apply span_spec in Es. destruct Es as (-> & Fa & Fb).
      exists (Some a), b. repeat split; try discriminate.
      + injection H as <-. rewrite none_of_all in Fa. apply Fa. cbn; auto.
      + injection H as <-. rewrite none_of_all in Fa. apply Fa. cbn; auto.
      + injection H as <-. rewrite none_of_all in Fa. apply Fa. cbn; auto.
      + intros a' c x _ Eb. apply Fb in Eb. now apply none_of_false in Eb.
    - exists None, t1. repeat split; auto; discriminate. }
  destruct A as (au & t2 & -> & A1 & A2 & A3).
  destruct (span (none_of [63; 35]) t2) as [path t3] eqn:Es. apply span_spec in Es. destruct Es as (-> & Fa & Fb). rewrite none_of_all in Fa.
  assert (Q : exists q t4, t3 = opt (app [63]) q ++ t4 /\ (forall x, q = Some x -> ~ In 35 x) /\ (forall c x, t4 = c :: x -> c = 35)).
  { destruct t3 as [ | c t3 ]; [ exists None, []; repeat split; discriminate | ]. specialize (Fb c t3 eq_refl). apply none_of_false in Fb.
    destruct Fb as [<- | [<- | []]].
    - destruct (span (none_of [35]) t3) as [q t4] eqn:Eq. apply span_spec in Eq. destruct Eq as (-> & Qa & Qb). rewrite none_of_all in Qa.
      exists (Some q), t4. repeat split.
      + intros x Ex. injection Ex as <-. apply Qa. now left.
      + intros c x Ex. apply Qb in Ex. apply none_of_false in Ex. destruct Ex as [-> | []]. reflexivity.
    - exists None, (35 :: t3). repeat split; [ discriminate | congruence ]. }
  destruct Q as (q & t4 & -> & Q1 & Q2).
  assert (Ff : exists f, t4 = opt (app [35]) f).
  { destruct t4 as [ | c t4 ]; [ now exists None | ]. exists (Some t4). now rewrite (Q2 c t4 eq_refl). }
  destruct Ff as (f & ->).
  exists o, au, path, q, f. unfold uri_parts. repeat split; auto.
  - now apply A1 in H.
  - now apply A1 in H.
  - now apply A1 in H.
  - intros Hn u Eu. apply (A2 Hn (u ++ opt (app [63]) q ++ opt (app [35]) f)). rewrite Eu. reflexivity.
  - intros a c Hau Hc. destruct path as [ | d path ]; [ discriminate | ]. injection Hc as ->. 
    specialize (A3 a c _ Hau eq_refl). destruct A3 as [<- | [<- | [<- | []]]]; auto; exfalso.
    + apply (Fa 63); cbn; auto.
    + apply (Fa 35); cbn; auto.
  - apply Fa. cbn; auto.
  - apply Fa. cbn; auto.
Qed.

Lemma control_chars t : existsb (fun c => (c <? 32) || (c =? 127)) t = false <-> Forall (fun c => 32 <= c /\ c <> 127) t.
Proof.
  induction t as [ | c t IH ]; cbn [existsb]; [ split; constructor | ]. rewrite orb_false_iff, IH, orb_false_iff. split.
  - intros [[] ]. constructor; auto. lia.
  - intros H. inversion H; subst. repeat split; auto; lia.
Qed.
Lemma first_segment path : match find0 [58] (match find0 [47] path with Some i => substr path 0 i | None => path end) with Some _ => false | None => true end = true <->
  forall s r, path = s ++ [58] ++ r -> In 47 s.
Proof.
  assert (D : (exists a b, path = a ++ [47] ++ b /\ ~ In 47 a) \/ ~ In 47 path).
  { destruct (in_dec Z.eq_dec 47 path) as [I | I]; [ left | now right ]. induction path as [ | c p IH ]; [ destruct I | ].
    destruct (Z.eq_dec c 47) as [-> | N]; [ exists [], p; auto | ]. destruct I as [-> | I]; [ now elim N | ]. destruct (IH I) as (a & b & -> & Na).
    exists (c :: a), b. split; auto. intros [-> | Hi]; auto. }
  assert (E : exists seg rest, (match find0 [47] path with Some i => substr path 0 i | None => path end) = seg /\ path = seg ++ rest /\ ~ In 47 seg /\
    (rest = [] \/ exists b, rest = 47 :: b)).
  { destruct D as [(a & b & -> & Na) | N].
    - exists a, (47 :: b). rewrite find_char_some by auto. repeat split; eauto. unfold substr. cbn [skipn]. apply firstn_app_length.
    - exists path, []. rewrite find_char_none by auto. rewrite app_nil_r. auto. }
  destruct E as (seg & rest & -> & -> & N & R).
  assert (D2 : (exists a b, seg = a ++ [58] ++ b) \/ ~ In 58 seg).
  { destruct (in_dec Z.eq_dec 58 seg) as [I | I]; [ left | now right ]. apply in_split in I. destruct I as (a & b & ->). now exists a, b. }
  destruct D2 as [(a & b & ->) | N2].
  - destruct (find0 [58] (a ++ [58] ++ b)) eqn:E.
    + split; [ discriminate | ]. intros H. exfalso. apply N. apply in_or_app. left. apply (H a (b ++ rest)). now rewrite <- !app_assoc.
    + exfalso. pose proof (find0_spec [58] (a ++ [58] ++ b)) as Q. rewrite E in Q. apply (Q (length a)). now exists a, b.
  - rewrite find_char_none by auto. split; auto. intros _ s r E.
    destruct R as [-> | [b ->]].
    + rewrite app_nil_r in E. elim N2. rewrite E. apply in_or_app. right. now left.
    + assert (L : (length seg < length s)%nat).
      { destruct (Nat.le_gt_cases (length s) (length seg)) as [L | L]; auto. exfalso.
        assert (Hn : nth_error (seg ++ 47 :: b) (length s) = Some 58) by (unfold str, byte in *; rewrite E, nth_error_app2, Nat.sub_diag by lia; reflexivity).
        destruct (Nat.eq_dec (length s) (length seg)) as [Q | Q].
        - rewrite nth_error_app2, Q, Nat.sub_diag in Hn by (unfold str, byte in *; lia). discriminate.
        - rewrite nth_error_app1 in Hn by (unfold str, byte in *; lia). apply N2. now apply nth_error_In in Hn. }
      assert (Hn : nth_error (s ++ [58] ++ r) (length seg) = Some 47) by (unfold str, byte in *; rewrite <- E, nth_error_app2, Nat.sub_diag by lia; reflexivity).
      rewrite nth_error_app1 in Hn by auto. now apply nth_error_In in Hn.
Qed.
Lemma pct_fun t s s' : pct_text s t -> pct_text s' t -> s = s'.
Proof. intros H H'. apply uri_unescape_spec in H, H'. congruence. Qed.
Lemma auth_has au : negb (match auth_text au with [] => true | _ => false end) = match au with Some _ => true | None => false end.
Proof. now destruct au. Qed.
Lemma rooted_iff (path : str) : (match path with c :: _ => c =? 47 | [] => false end) = true <-> head path = Some 47.
Proof.
  destruct path as [ | c p ]; cbn [hd_error]; [ split; discriminate | ]. rewrite Z.eqb_eq. split; [ now intros -> | intros H; now injection H ].
Qed.
Lemma url_parse_spec t u : url_parse t = Some u <-> uri_means t u.
Proof.
  destruct (match_uri_parts t) as (sc & au & path & q & f & P). pose proof (match_uri_some _ _ _ _ _ _ P) as M.
  assert (Hs : forall s, sc = Some s -> s <> []).
  { intros s Es. destruct P as (_ & Hs & _). apply Hs in Es. destruct Es as (c & r & -> & _). discriminate. }
  set (rooted := match path with c :: _ => c =? 47 | [] => false end) in *.
  assert (E : url_parse t = if existsb (fun c => (c <? 32) || (c =? 127)) t then None else
    match (if negb (match au with Some _ => true | None => false end) && negb rooted then
             match sc with
             | Some _ => Some []
             | None => match find0 [58] (match find0 [47] path with Some i => substr path 0 i | None => path end) with Some _ => None | None => Some path end
             end
           else Some path) with
    | None => None
    | Some rest =>
        match (match au with Some a => parse_authority (after_at a) | None => Some ([], []) end) with
        | None => None
        | Some (host, port) =>
            match uri_unescape rest with
            | None => None
            | Some p =>
                match uri_unescape (dflt f) with
                | None => None
                | Some fragment =>
                    Some {| u_scheme := map to_lower (dflt sc); u_hostname := host; u_port := port; u_path := p;
                            u_raw_path := if str_eqb (escape_path p) rest then [] else rest;
                            u_raw_query := dflt q; u_fragment := fragment |}
                end
            end
        end
    end).
  { unfold url_parse. rewrite M. destruct (existsb (fun c => (c <? 32) || (c =? 127)) t); [ reflexivity | ]. rewrite auth_has. fold rooted.
    destruct sc as [s | ].
    - destruct s as [ | c s ]; [ now elim (Hs [] eq_refl) | ]. destruct au; reflexivity.
    - destruct au; reflexivity. }
  rewrite E. clear E. unfold uri_means. setoid_rewrite usual_path_eq. split.
  - destruct (existsb (fun c => (c <? 32) || (c =? 127)) t) eqn:Ec; [ discriminate | ]. apply control_chars in Ec.
    destruct (if negb (match au with Some _ => true | None => false end) && negb rooted then _ else _) as [rest | ] eqn:Er; [ | discriminate ].
    destruct (match au with Some a => parse_authority (after_at a) | None => Some ([], []) end) as [[h p] | ] eqn:Ea; [ | discriminate ].
    destruct (uri_unescape rest) as [pa | ] eqn:Ep; [ | discriminate ]. destruct (uri_unescape (dflt f)) as [fr | ] eqn:Ef; [ | discriminate ].
    intros H. injection H as <-. split; [ exact Ec | ]. exists sc, au, path, q, f. cbn [u_scheme u_hostname u_port u_path u_raw_path u_raw_query u_fragment].
    split; [ exact P | ]. split; [ reflexivity | ]. split.
    { destruct au as [a | ]; [ now apply parse_authority_spec | ]. injection Ea as <- <-. auto. }
    split; [ reflexivity | ]. split; [ now apply uri_unescape_spec | ].
    destruct (negb _ && negb rooted) eqn:En.
    + apply andb_prop in En. destruct En as [En1 En2]. destruct au; [ discriminate | ]. apply negb_true_iff in En2.
      assert (Hr : head path <> Some 47) by (intros Hr; apply rooted_iff in Hr; fold rooted in Hr; congruence).
      destruct sc as [s | ].
      * left. injection Er as <-. injection Ep as <-. repeat split; auto; discriminate.
      * right. destruct (find0 [58] _) eqn:E58; [ discriminate | ]. injection Er as <-. apply uri_unescape_spec in Ep. repeat split; auto.
        intros _ _. apply first_segment. now rewrite E58.
    + right. injection Er as <-. apply uri_unescape_spec in Ep. apply andb_false_iff in En. repeat split; auto.
      * destruct En as [En | En]; [ left; now destruct au | right; right ]. apply negb_false_iff in En. now apply rooted_iff.
      * intros -> ->. destruct En as [En | En]; [ discriminate | ]. apply negb_false_iff in En. apply rooted_iff in En.
        intros s r Epath. destruct s as [ | c s ]; [ rewrite Epath in En; discriminate | ]. rewrite Epath in En. injection En as ->. now left.
  - intros (Ec & sc' & au' & path' & q' & f' & P' & Es & Ea & Eq & Ef & Ep).
    pose proof (match_uri_some _ _ _ _ _ _ P') as M'. rewrite M in M'. injection M' as M1 M2 <- M3 M4.
    assert (au' = au) by (destruct au, au'; cbn in M2; congruence). subst au'.
    assert (sc' = sc).
    { destruct P' as (_ & Hs' & _). destruct sc as [s | ], sc' as [s' | ]; cbn [dflt] in M1; try congruence.
      - now elim (Hs s eq_refl).
      - destruct (Hs' s' eq_refl) as (c & r & -> & _). discriminate. }
    subst sc'. apply control_chars in Ec. rewrite Ec.
    replace (match q' with Some q => q | None => [] end) with (dflt q) in Eq by (rewrite M3; now destruct q').
    replace (match f' with Some f => f | None => [] end) with (dflt f) in Ef by (rewrite M4; now destruct f').
    apply uri_unescape_spec in Ef. rewrite Ef.
    destruct u as [us uh up upath uraw uq uf]. cbn [u_scheme u_hostname u_port u_path u_raw_path u_raw_query u_fragment] in *.
    assert (A : match au with Some a => parse_authority (after_at a) | None => Some ([], []) end = Some (uh, up)).
    { destruct au; [ now apply parse_authority_spec | ]. destruct Ea as [-> ->]. reflexivity. }
    rewrite A. replace (match sc with Some s => s | None => [] end) with (dflt sc) in Es by (now destruct sc). subst us uq.
    destruct Ep as [(-> & Nsc & Nr & -> & ->) | (C & Pp & Er & Hseg)].
    + assert (rooted = false) by (destruct rooted eqn:R; auto; unfold rooted in R; apply rooted_iff in R; congruence). rewrite H. cbn [negb andb].
      destruct sc; [ reflexivity | congruence ].
    + assert (Er' : (if negb (match au with Some _ => true | None => false end) && negb rooted then
             match sc with
             | Some _ => Some []
             | None => match find0 [58] (match find0 [47] path with Some i => substr path 0 i | None => path end) with Some _ => None | None => Some path end
             end
           else Some path) = Some path).
      { destruct au; [ reflexivity | ]. cbn [negb andb]. destruct rooted eqn:R; [ reflexivity | ]. cbn [negb].
        destruct C as [C | [-> | C]]; [ congruence | | apply rooted_iff in C; fold rooted in C; congruence ].
        specialize (Hseg eq_refl eq_refl). rewrite <- first_segment in Hseg. destruct (find0 [58] _); [ discriminate | reflexivity ]. }
      rewrite Er'. apply uri_unescape_spec in Pp. rewrite Pp, Er. reflexivity.
Qed.
