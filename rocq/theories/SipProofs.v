From Coq Require Import List ZArith Bool PeanoNat Lia.
Import ListNotations.
From Verif Require Import SipSpec SipModel.

Section Run.
Variable consts : name -> Z.
Variable bools : nat -> list nat -> bool.
Variable nums : nat -> list nat -> Z.
Variable methods : nat -> list Z -> list nat -> Z * list Z.
Variable others : nat -> state -> Z * bool * state.
Notation ev := (eval consts bools nums methods others).
Notation ex := (exec consts bools nums methods others).

Lemma ev_block s tail st : ev (EBlock s tail) st = match ex s st with (true, st) => (0%Z, true, st) | (false, st) => ev tail st end.
Proof. reflexivity. Qed.
Lemma ev_and f e st : ev (EAnd f e) st = if bools f (made st) then ev e (called f st) else (0%Z, false, called f st).
Proof. reflexivity. Qed.
Lemma ex_seq a b st : ex (SSeq a b) st = match ex a st with (true, st) => (true, st) | (false, st) => ex b st end.
Proof. reflexivity. Qed.
Lemma ex_push v item st : ex (SPush v item) st = match ev item st with (_, true, st) => (true, st) | (z, false, st) => (false, with_vec v (vecs st v ++ [z]) st) end.
Proof. reflexivity. Qed.
Lemma ex_let e st : ex (SLet e) st = match ev e st with (_, b, st) => (b, st) end.
Proof. reflexivity. Qed.
Lemma ex_semi e st : ex (SSemi e) st = match ev e st with (_, b, st) => (b, st) end.
Proof. reflexivity. Qed.
Lemma occ_block v s t : occurs_e v (EBlock s t) = occurs_s v s || occurs_e v t. Proof. reflexivity. Qed.
Lemma occ_seq v a b : occurs_s v (SSeq a b) = occurs_s v a || occurs_s v b. Proof. reflexivity. Qed.
Lemma occ_push v w e : occurs_s v (SPush w e) = Nat.eqb v w || occurs_e v e. Proof. reflexivity. Qed.
Lemma hid_block v s t : hidden_e v (EBlock s t) = hidden_s v s || occurs_e v t. Proof. reflexivity. Qed.
Lemma hid_seq v a b : hidden_s v (SSeq a b) = hidden_s v a || hidden_s v b. Proof. reflexivity. Qed.
Lemma str_block s t : straight_e (EBlock s t) = straight_s s && straight_e t. Proof. reflexivity. Qed.
Lemma str_seq a b : straight_s (SSeq a b) = straight_s a && straight_s b. Proof. reflexivity. Qed.

Definition left_ (x : Z * bool * state) : bool := snd (fst x).
(* A vector that does not occur stays, and variables do *)
Lemma not_occurs v :
  (forall e st, occurs_e v e = false ->
     vecs (snd (ev e st)) v = vecs st v /\ vars (snd (ev e st)) = vars st /\ (straight_e e = true -> left_ (ev e st) = false)) /\
  (forall s st, occurs_s v s = false ->
     vecs (snd (ex s st)) v = vecs st v /\ vars (snd (ex s st)) = vars st /\ (straight_s s = true -> fst (ex s st) = false)).
Proof.
  apply expr_stmt_ind.
  - intros; cbn; auto.
  - intros; cbn; auto.
  - intros; cbn; auto.
  - intros w f st H. cbn in *. destruct (methods f (vecs st w) (made st)) as [r l]. cbn. rewrite H. auto.
  - intros; cbn; auto.
  - intros; discriminate.
  - intros s IHs t IHt st H. rewrite occ_block in H. apply orb_false_iff in H. destruct H as [H1 H2].
    rewrite ev_block, str_block. specialize (IHs st H1). destruct (ex s st) as [[|] st1]; cbn in IHs; destruct IHs as (A & B & C).
    + cbn. repeat split; auto. intros S. apply andb_true_iff in S. destruct S as [S _]. specialize (C S). discriminate.
    + specialize (IHt st1 H2). destruct IHt as (A' & B' & C'). repeat split; [congruence|congruence|].
      intros S. apply andb_true_iff in S. apply C', S.
  - intros f e IH st H. rewrite ev_and. destruct (bools f (made st)).
    + specialize (IH (called f st) H). destruct IH as (A & B & _). repeat split; auto. discriminate.
    + repeat split.
  - intros st H. cbn. repeat split. discriminate.
  - intros; cbn; auto.
  - intros a IHa b IHb st H. rewrite occ_seq in H. apply orb_false_iff in H. destruct H as [H1 H2].
    rewrite ex_seq, str_seq. specialize (IHa st H1). destruct (ex a st) as [[|] st1]; cbn in IHa; destruct IHa as (A & B & C).
    + cbn. repeat split; auto. intros S. apply andb_true_iff in S. destruct S as [S _]. specialize (C S). discriminate.
    + specialize (IHb st1 H2). destruct IHb as (A' & B' & C'). repeat split; [congruence|congruence|].
      intros S. apply andb_true_iff in S. apply C', S.
  - intros w it IH st H. rewrite occ_push in H. apply orb_false_iff in H. destruct H as [H1 H2].
    rewrite ex_push. specialize (IH st H2). destruct (ev it st) as [[z [|]] st1]; cbn in IH |- *; destruct IH as (A & B & C).
    + repeat split; auto.
    + rewrite H1. auto.
  - intros e IH st H. rewrite ex_let. specialize (IH st H). destruct (ev e st) as [[z b] st1]. exact IH.
  - intros e IH st H. rewrite ex_semi. specialize (IH st H). destruct (ev e st) as [[z b] st1]. exact IH.
Qed.

(* An item whose value is the same in all states with these variables *)
Definition fixed (vs : name -> Z) (item : expr) (z : Z) : Prop := forall st, vars st = vs -> ev item st = (z, false, st).
Definition appended (v : name) (vs : name -> Z) (z : Z) (n : nat) (straight : bool) (st st' : state) (left : bool) : Prop :=
  vars st' = vs /\ (straight = true -> left = false) /\
  exists k, k <= n /\ (straight = true -> k = n) /\ vecs st' v = vecs st v ++ repeat z k.
Definition clean (v : name) (vs : name -> Z) (z : Z) (b : seen) : Prop :=
  non_deterministic b = false /\ ~ In v (used_locals b) /\ (forall w it, In (w, it) (pushes b) -> w = v /\ fixed vs it z).
Lemma clean_both v vs z a b : clean v vs z (both a b) -> clean v vs z a /\ clean v vs z b.
Proof.
  unfold clean, both. cbn. intros (A & B & C). apply orb_false_iff in A. rewrite in_app_iff in B.
  destruct A. split; (split; [auto|split; [tauto|]]); intros w it H'; apply C, in_or_app; auto.
Qed.
Lemma repeat_plus (z : Z) a b : repeat z a ++ repeat z b = repeat z (a + b).
Proof. induction a; cbn; congruence. Qed.
Lemma append_two v vs z n m sa sb st st1 st2 l2 :
  appended v vs z n sa st st1 false -> appended v vs z m sb st1 st2 l2 -> appended v vs z (n + m) (sa && sb) st st2 l2.
Proof.
  intros (A1 & A2 & k & K1 & K2 & K3) (B1 & B2 & j & J1 & J2 & J3). split; [exact B1|split].
  - intros S. apply andb_true_iff in S. apply B2, S.
  - exists (k + j). split; [lia|]. split; [intros S; apply andb_true_iff in S; destruct S; rewrite K2, J2 by assumption; reflexivity|].
    rewrite J3, K3, <- app_assoc, repeat_plus. reflexivity.
Qed.
Lemma append_left v vs z n m sa sb st st1 : appended v vs z n sa st st1 true -> appended v vs z (n + m) (sa && sb) st st1 true.
Proof.
  intros (A1 & A2 & k & K1 & K2 & K3). split; [exact A1|split].
  - intros S. apply andb_true_iff in S. apply A2, S.
  - exists k. split; [lia|]. split; [|exact K3]. intros S. apply andb_true_iff in S. destruct S as [S _]. specialize (A2 S). discriminate.
Qed.
Lemma append_none v vs z (b : bool) st st' l : vars st' = vs -> vecs st' v = vecs st v -> (b = true -> l = false) -> appended v vs z 0 b st st' l.
Proof. intros H1 H2 H3. split; [exact H1|split; [exact H3|]]. exists 0. cbn. rewrite app_nil_r. auto. Qed.

Lemma pushed v vs z :
  (forall e st, clean v vs z (visit_expr e) -> hidden_e v e = false -> vars st = vs ->
     appended v vs z (length (pushes (visit_expr e))) (straight_e e) st (snd (ev e st)) (left_ (ev e st))) /\
  (forall s st, clean v vs z (visit_stmt s) -> hidden_s v s = false -> vars st = vs ->
     appended v vs z (length (pushes (visit_stmt s))) (straight_s s) st (snd (ex s st)) (fst (ex s st))).
Proof.
  apply expr_stmt_ind.
  - intros; apply append_none; cbn; auto.
  - intros; apply append_none; cbn; auto.
  - intros; apply append_none; cbn; auto.
  - intros w f st (_ & U & _) _ V. cbn in U. cbn. destruct (methods f (vecs st w) (made st)) as [r l].
    apply append_none; cbn; auto. destruct (Nat.eqb_spec v w); [subst; tauto|reflexivity].
  - intros; apply append_none; cbn; auto.
  - intros f st (N & _) _ _. discriminate.
  - intros s IHs t _ st C H V. change (visit_expr (EBlock s t)) with (visit_stmt s) in *.
    rewrite hid_block in H. apply orb_false_iff in H. destruct H as [H1 H2]. rewrite ev_block, str_block.
    specialize (IHs st C H1 V). rewrite <- (Nat.add_0_r (length _)). destruct (ex s st) as [[|] st1]; cbn [fst snd] in IHs.
    + apply append_left, IHs.
    + eapply append_two; [exact IHs|]. destruct (proj1 (not_occurs v) t st1 H2) as (A & B & D).
      apply append_none; auto. rewrite B. apply IHs.
  - intros f e IH st C H V. change (visit_expr (EAnd f e)) with (visit_expr e) in *. rewrite ev_and.
    destruct (bools f (made st)).
    + specialize (IH (called f st) C H V). destruct IH as (A1 & _ & k & K1 & _ & K3). split; [exact A1|]. split; [discriminate|].
      exists k. split; [exact K1|]. split; [discriminate|exact K3].
    + split; [exact V|]. split; [discriminate|]. exists 0. split; [lia|]. split; [discriminate|]. cbn. rewrite app_nil_r. reflexivity.
  - intros st _ _ V. apply append_none; auto.
  - intros; apply append_none; cbn; auto.
  - intros a IHa b IHb st C H V. change (visit_stmt (SSeq a b)) with (both (visit_stmt a) (visit_stmt b)) in *.
    apply clean_both in C. destruct C as [Ca Cb]. rewrite hid_seq in H. apply orb_false_iff in H. destruct H as [H1 H2].
    rewrite ex_seq, str_seq. cbn [both pushes]. rewrite app_length. specialize (IHa st Ca H1 V).
    destruct (ex a st) as [[|] st1]; cbn [fst snd] in IHa.
    + apply append_left, IHa.
    + eapply append_two; [exact IHa|]. apply IHb; auto. apply IHa.
  - intros w it IH st (_ & _ & P) H V. destruct (P w it (or_introl eq_refl)) as [-> F]. rewrite ex_push, (F st V). cbn.
    split; [exact V|]. split; [auto|]. exists 1. split; [lia|]. split; [auto|]. cbn. rewrite Nat.eqb_refl. reflexivity.
  - intros e IH st _ H V. rewrite ex_let. destruct (proj1 (not_occurs v) e st H) as (A & B & D).
    destruct (ev e st) as [[u b] st1]. cbn in *. apply append_none; [congruence|exact A|exact D].
  - intros e IH st C H V. rewrite ex_semi. specialize (IH st C H V). destruct (ev e st) as [[u b] st1]. exact IH.
Qed.

Lemma existsb_eqb_false v l : existsb (Nat.eqb v) l = false -> ~ In v l.
Proof.
  intros H I'. assert (existsb (Nat.eqb v) l = true) by (apply existsb_exists; exists v; split; [exact I'|apply Nat.eqb_refl]). congruence.
Qed.
Lemma rounds_push locals body v item : check locals body = Some (v, item) -> hidden_e v body = false ->
  forall n st, exists k, k <= n /\ (straight_e body = true -> k = n) /\
    vecs (rounds consts bools nums methods others n body st) v = vecs st v ++ repeat (fst (fst (ev item st))) k.
Proof.
  intros C H n st. set (z := fst (fst (ev item st))). set (vs := vars st).
  assert (K : pushes (visit_expr body) = [(v, item)] /\ clean v vs z (visit_expr body)).
  { unfold check in C. destruct (should_lint (visit_expr body)) as [[w it]|] eqn:S; [|discriminate].
    assert ((w, it) = (v, item) /\ match it with ELocal _ | EConst _ | ELit _ => True | _ => False end) as [E F].
    { destruct it; try discriminate; try (inversion C; split; [reflexivity|exact Logic.I]).
      destruct (mutable (locals x)); [discriminate|]. destruct (initialised (locals x)); inversion C; split; auto. }
    inversion E; subst w it. unfold should_lint in S. destruct (non_deterministic (visit_expr body)) eqn:N; [discriminate|].
    destruct (pushes (visit_expr body)) as [|[w it] [|]] eqn:P; try discriminate.
    destruct (existsb (Nat.eqb w) (used_locals (visit_expr body))) eqn:U; [discriminate|]. inversion S; subst w it.
    split; [reflexivity|]. split; [exact N|]. split; [apply existsb_eqb_false, U|].
    rewrite P. intros w it [X|[]]. inversion X; subst w it. split; [reflexivity|]. intros st' V. unfold z, vs in *.
    destruct item; try contradiction; cbn; congruence. }
  destruct K as [P K]. clearbody z. assert (V : vars st = vs) by reflexivity. clearbody vs. clear C.
  revert st V. induction n as [|n IH]; intros st V.
  - exists 0. split; [lia|]. split; [auto|]. cbn. rewrite app_nil_r. reflexivity.
  - cbn [rounds]. pose proof (proj1 (pushed v vs z) body st K H V) as A. rewrite P in A. cbn [length] in A.
    destruct (ev body st) as [[u b] st1]. unfold left_ in A. cbn [fst snd] in A. destruct A as (A1 & A2 & k & K1 & K2 & K3).
    destruct b.
    + exists k. split; [lia|]. split; [|exact K3]. intros S. specialize (A2 S). discriminate.
    + destruct (IH st1 A1) as (j & J1 & J2 & J3). exists (k + j). split; [lia|]. split; [intros S; rewrite K2, J2 by exact S; lia|].
      rewrite J3, K3, <- app_assoc, repeat_plus. reflexivity.
Qed.
End Run.
