(** The value of a term depends on the values of its variables only, and more variables do no harm. *)
From Coq Require Import String ZArith List Bool Lia.
From Verif Require Import Base BigIntSpec ValueModel VmModel VmSpec PlanModel PlanSpec RuleModel RuleSpec TermModel TermSpec TermStaticProofs.
Import ListNotations.

Definition agree (D : list str) (r r' : vals) : Prop := forall y, In y D -> r y = r' y.
Lemma agree_bind D r r' x v : agree D r r' -> agree (x :: D) (bind_var x v r) (bind_var x v r').
Proof. intros H y I. unfold bind_var. destruct (str_eqb x y) eqn:Q; [reflexivity|]. destruct I as [->|I]; [now rewrite str_eqb_refl in Q|auto]. Qed.

Section Agree.
Variable F : fops.
Variable call : str -> list value -> value.
Variable rules : str -> option value.
Notation ev := (eval F call rules).
Notation sl := (sols F call rules).
Lemma flat_agree (f : vals -> list value) D l l' : (forall r r', agree D r r' -> f r = f r') -> Forall2 (agree D) l l' -> flat_map f l = flat_map f l'.
Proof. intro H. induction 1 as [|r r' l l' A _ IH]; [reflexivity|]. cbn [flat_map]. now rewrite IH, (H r r' A). Qed.
Lemma flat_agree2 (f : vals -> list (value * value)) D l l' : (forall r r', agree D r r' -> f r = f r') -> Forall2 (agree D) l l' -> flat_map f l = flat_map f l'.
Proof. intro H. induction 1 as [|r r' l l' A _ IH]; [reflexivity|]. cbn [flat_map]. now rewrite IH, (H r r' A). Qed.
Lemma agree_all :
  (forall t D r r', safe D t -> agree D r r' -> ev r t = ev r' t) /\
  (forall l D r r', safes D l -> agree D r r' -> evals F call rules r l = evals F call rules r' l) /\
  (forall l D r r', safe_items D l -> agree D r r' -> eval_items F call rules r l = eval_items F call rules r' l) /\
  (forall q D r r', safe_query D q -> agree D r r' -> Forall2 (agree (scope D q)) (sl r q) (sl r' q)).
Proof.
  apply term_comb.
  - reflexivity.
  - reflexivity.
  - reflexivity.
  - reflexivity.
  - intros x D r r' H A. exact (A x H).
  - intros l IH D r r' H A. change (option_map VArray (evals F call rules r l) = option_map VArray (evals F call rules r' l)). now rewrite (IH D r r' H A).
  - intros l IH D r r' H A.
    change (option_map (fun vs => VSet (fold_left (add_member F) vs [])) (evals F call rules r l) = option_map (fun vs => VSet (fold_left (add_member F) vs [])) (evals F call rules r' l)).
    now rewrite (IH D r r' H A).
  - intros l IH D r r' H A.
    change (option_map (fun kvs => VObject (fold_left (fun o kv => put_item F o (fst kv) (snd kv)) kvs [])) (eval_items F call rules r l) =
            option_map (fun kvs => VObject (fold_left (fun o kv => put_item F o (fst kv) (snd kv)) kvs [])) (eval_items F call rules r' l)).
    now rewrite (IH D r r' H A).
  - intros a IHa b IHb D r r' [H1 H2] A. cbn [eval]. now rewrite (IHa D r r' H1 A), (IHb D r r' H2 A).
  - intros f l IH D r r' H A. change (option_map (call f) (evals F call rules r l) = option_map (call f) (evals F call rules r' l)). now rewrite (IH D r r' H A).
  - intros a IHa D r r' H A. cbn [eval]. now rewrite (IHa D r r' H A).
  - intros a IHa b IHb D r r' [H1 H2] A. cbn [eval]. now rewrite (IHa D r r' H1 A), (IHb D r r' H2 A).
  - intros a IHa b IHb D r r' [H1 H2] A. cbn [eval]. now rewrite (IHa D r r' H1 A), (IHb D r r' H2 A).
  - intros a IHa b IHb c IHc D r r' (H1 & H2 & H3) A. cbn [eval]. now rewrite (IHa D r r' H1 A), (IHb D r r' H2 A), (IHc D r r' H3 A).
  - intros v IHv q IHq D r r' [H1 H2] A.
    change (Some (VArray (flat_map (fun r => match ev r v with Some x => [x] | None => [] end) (sl r q))) = Some (VArray (flat_map (fun r => match ev r v with Some x => [x] | None => [] end) (sl r' q)))).
    do 2 f_equal. apply (flat_agree _ (scope D q)); [|exact (IHq D r r' H1 A)]. intros a a' B. now rewrite (IHv _ a a' H2 B).
  - intros v IHv q IHq D r r' [H1 H2] A.
    change (Some (VSet (fold_left (add_member F) (flat_map (fun r => match ev r v with Some x => [x] | None => [] end) (sl r q)) [])) =
            Some (VSet (fold_left (add_member F) (flat_map (fun r => match ev r v with Some x => [x] | None => [] end) (sl r' q)) []))).
    do 3 f_equal. apply (flat_agree _ (scope D q)); [|exact (IHq D r r' H1 A)]. intros a a' B. now rewrite (IHv _ a a' H2 B).
  - intros k IHk v IHv q IHq D r r' (H1 & H2 & H3) A.
    change (Some (VObject (fold_left (fun o kv => put_item F o (fst kv) (snd kv)) (flat_map (fun r => match ev r k, ev r v with Some x, Some y => [(x, y)] | _, _ => [] end) (sl r q)) [])) =
            Some (VObject (fold_left (fun o kv => put_item F o (fst kv) (snd kv)) (flat_map (fun r => match ev r k, ev r v with Some x, Some y => [(x, y)] | _, _ => [] end) (sl r' q)) []))).
    do 3 f_equal. apply (flat_agree2 _ (scope D q)); [|exact (IHq D r r' H1 A)]. intros a a' B. now rewrite (IHk _ a a' H2 B), (IHv _ a a' H3 B).
  - reflexivity.
  - reflexivity.
  - intros t IHt l IHl D r r' [H1 H2] A.
    change (match ev r t, evals F call rules r l with Some v, Some vs => Some (v :: vs) | _, _ => None end =
            match ev r' t, evals F call rules r' l with Some v, Some vs => Some (v :: vs) | _, _ => None end). now rewrite (IHt D r r' H1 A), (IHl D r r' H2 A).
  - reflexivity.
  - intros k IHk v IHv l IHl D r r' (H1 & H2 & H3) A.
    change (match ev r k, ev r v, eval_items F call rules r l with Some x, Some y, Some z => Some ((x, y) :: z) | _, _, _ => None end =
            match ev r' k, ev r' v, eval_items F call rules r' l with Some x, Some y, Some z => Some ((x, y) :: z) | _, _, _ => None end).
    now rewrite (IHk D r r' H1 A), (IHv D r r' H2 A), (IHl D r r' H3 A).
  - intros D r r' _ A. constructor; [exact A|constructor].
  - intros t IHt q IHq D r r' [H1 H2] A. cbn [scope].
    change (Forall2 (agree (scope D q)) (match ev r t with Some v => if holds F v then sl r q else [] | None => [] end) (match ev r' t with Some v => if holds F v then sl r' q else [] | None => [] end)).
    rewrite (IHt D r r' H1 A). destruct (ev r' t) as [v|]; [|constructor]. destruct (holds F v); [|constructor]. exact (IHq D r r' H2 A).
  - intros x t IHt q IHq D r r' (H1 & H2 & H3) A. cbn [scope].
    change (Forall2 (agree (scope (x :: D) q)) (match ev r t with Some v => sl (bind_var x v r) q | None => [] end) (match ev r' t with Some v => sl (bind_var x v r') q | None => [] end)).
    rewrite (IHt D r r' H1 A). destruct (ev r' t) as [v|]; [|constructor]. exact (IHq _ _ _ H3 (agree_bind _ _ _ x v A)).
  - intros q1 IH1 q IHq D r r' [H1 H2] A. cbn [scope].
    change (Forall2 (agree (scope D q)) (match sl r q1 with [] => sl r q | _ => [] end) (match sl r' q1 with [] => sl r' q | _ => [] end)).
    destruct (IH1 D r r' H1 A); [|constructor]. exact (IHq D r r' H2 A).
  - intros dom key val body IHb q IHq D r r' (H1 & H2 & H3 & H4 & H5) A. cbn [scope sols]. rewrite (A dom H1). destruct (r' dom) as [d|]; [|constructor]. destruct (elements d) as [l|]; [|constructor].
    match goal with |- Forall2 _ (if ?x then _ else _) (if ?y then _ else _) => replace x with y end.
    + destruct (forallb _ l); [|constructor]. exact (IHq D r r' H5 A).
    + clear - IHb H4 A. induction l as [|kv l IH]; [reflexivity|]. cbn [forallb]. rewrite IH. f_equal.
      assert (B : agree (val :: opt_var key ++ D) (bind_var val (snd kv) (match key with Some x => bind_var x (fst kv) r | None => r end))
                                                  (bind_var val (snd kv) (match key with Some x => bind_var x (fst kv) r' | None => r' end))).
      { apply agree_bind. destruct key as [x|]; [now apply agree_bind|exact A]. }
      pose proof (IHb _ _ _ H4 B) as G. destruct G; reflexivity.
  - intros t IHt key val q IHq D r r' (H1 & H2 & H3 & H4 & H5) A. cbn [scope].
    change (Forall2 (agree (scope (val :: key :: D) q))
      (match ev r t with Some d => match elements d with Some l => flat_map (fun kv => sl (bind_var val (snd kv) (bind_var key (fst kv) r)) q) l | None => [] end | None => [] end)
      (match ev r' t with Some d => match elements d with Some l => flat_map (fun kv => sl (bind_var val (snd kv) (bind_var key (fst kv) r')) q) l | None => [] end | None => [] end)).
    rewrite (IHt D r r' H1 A). destruct (ev r' t) as [d|]; [|constructor]. destruct (elements d) as [l|]; [|constructor].
    induction l as [|kv l IH]; [constructor|]. cbn [flat_map]. apply Forall2_app; [|exact IH].
    apply (IHq _ _ _ H5). now do 2 apply agree_bind.
Qed.
End Agree.

(** More variables in scope. *)
Definition more (D D' bs : list str) : Prop := incl D D' /\ forall y, In y D' -> ~ In y D -> ~ In y bs.
Lemma more_sub D D' bs bs' : more D D' bs -> incl bs' bs -> more D D' bs'.
Proof. intros [A B] I. split; [exact A|]. intros y Y N J. exact (B y Y N (I y J)). Qed.
Lemma more_cons D D' bs x : more D D' bs -> more (x :: D) (x :: D') bs.
Proof.
  intros [A B]. split; [intros y [->|I]; [now left|right; auto]|]. intros y [->|I] N; [exfalso; apply N; now left|]. apply B; [exact I|]. intro J. apply N. now right.
Qed.
Lemma more_app D D' bs l : more D D' bs -> more (l ++ D) (l ++ D') bs.
Proof. intro H. induction l as [|x l IH]; [exact H|]. cbn [app]. now apply more_cons. Qed.
Lemma more_not D D' bs x : more D D' bs -> In x bs -> ~ In x D -> ~ In x D'.
Proof. intros [A B] I N J. exact (B x J N I). Qed.
Lemma more_scope bs : forall q D D', more D D' bs -> more (scope D q) (scope D' q) bs.
Proof. induction q; intros D D' H; cbn [scope]; auto; repeat match goal with I : forall D D', more D D' bs -> more (scope D ?q) (scope D' ?q) bs |- more (scope _ ?q) _ _ => apply I end; auto using more_cons. Qed.
Lemma more_all :
  (forall t D D', safe D t -> more D D' (binds t) -> safe D' t) /\
  (forall l D D', safes D l -> more D D' (binds_list l) -> safes D' l) /\
  (forall l D D', safe_items D l -> more D D' (binds_items l) -> safe_items D' l) /\
  (forall q D D', safe_query D q -> more D D' (binds_query q) -> safe_query D' q).
Proof.
  Ltac sub H := eapply more_sub; [exact H|intros ? ?; rewrite ?in_app_iff; cbn [In]; rewrite ?in_app_iff; tauto].
  apply term_comb; try (intros; assumption); try (intros ? IH D D' H M; exact (IH D D' H M)); try (intros ? ? IH D D' H M; exact (IH D D' H M)).
  - intros x D D' H [A _]. exact (A x H).
  - intros a IHa b IHb D D' [H1 H2] M. cbn [binds] in M. split; [apply (IHa D D' H1)|apply (IHb D D' H2)]; sub M.
  - intros a IHa b IHb D D' [H1 H2] M. cbn [binds] in M. split; [apply (IHa D D' H1)|apply (IHb D D' H2)]; sub M.
  - intros a IHa b IHb D D' [H1 H2] M. cbn [binds] in M. split; [apply (IHa D D' H1)|apply (IHb D D' H2)]; sub M.
  - intros a IHa b IHb c IHc D D' (H1 & H2 & H3) M. cbn [binds] in M. split; [apply (IHa D D' H1)|split; [apply (IHb D D' H2)|apply (IHc D D' H3)]]; sub M.
  - intros v IHv q IHq D D' [H1 H2] M. cbn [binds] in M. split; [apply (IHq D D' H1); sub M|]. apply (IHv _ _ H2). apply more_scope. sub M.
  - intros v IHv q IHq D D' [H1 H2] M. cbn [binds] in M. split; [apply (IHq D D' H1); sub M|]. apply (IHv _ _ H2). apply more_scope. sub M.
  - intros k IHk v IHv q IHq D D' (H1 & H2 & H3) M. cbn [binds] in M. split; [apply (IHq D D' H1); sub M|].
    split; [apply (IHk _ _ H2)|apply (IHv _ _ H3)]; apply more_scope; sub M.
  - intros t IHt l IHl D D' [H1 H2] M. cbn [binds_list] in M. split; [apply (IHt D D' H1)|apply (IHl D D' H2)]; sub M.
  - intros k IHk v IHv l IHl D D' (H1 & H2 & H3) M. cbn [binds_items] in M. split; [apply (IHk D D' H1)|split; [apply (IHv D D' H2)|apply (IHl D D' H3)]]; sub M.
  - intros t IHt q IHq D D' [H1 H2] M. cbn [binds_query] in M. split; [apply (IHt D D' H1)|apply (IHq D D' H2)]; sub M.
  - intros x t IHt q IHq D D' (H1 & H2 & H3) M. cbn [binds_query] in M. split; [apply (IHt D D' H1); sub M|]. split; [apply (more_not _ _ _ _ M); [now left|exact H2]|].
    apply (IHq _ _ H3). apply more_cons. sub M.
  - intros q1 IH1 q IHq D D' [H1 H2] M. cbn [binds_query] in M. split; [apply (IH1 D D' H1)|apply (IHq D D' H2)]; sub M.
  - intros dom key val body IHb q IHq D D' (H1 & H2 & H3 & H4 & H5) M. cbn [binds_query] in M. split; [apply (proj1 M), H1|].
    split; [intros x I; apply (more_not _ _ _ _ M); [right; apply in_app_iff; auto|auto]|]. split; [apply (more_not _ _ _ _ M); [now left|exact H3]|].
    split; [|apply (IHq D D' H5); sub M]. apply (IHb _ _ H4). apply more_cons, more_app. sub M.
  - intros t IHt key val q IHq D D' (H1 & H2 & H3 & H4 & H5) M. cbn [binds_query] in M. split; [apply (IHt D D' H1); sub M|]. split; [exact H2|].
    split; [apply (more_not _ _ _ _ M); [right; now left|exact H3]|]. split; [apply (more_not _ _ _ _ M); [now left|exact H4]|].
    apply (IHq _ _ H5). do 2 apply more_cons. sub M.
Qed.
