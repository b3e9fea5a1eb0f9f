From Coq Require Import List ZArith Bool PeanoNat Lia.
Import ListNotations.
From Verif Require Import WhlSpec WhlModel.
Local Open Scope Z_scope.

Section Run.
Variable op : nat -> Z -> Z -> Z.
Variable consts : name -> Z.
Variable calls : nat -> Z -> trace -> Z.
Variable leaves : nat -> Z -> trace -> (name -> Z) -> name -> Z.
Variable writes : nat -> Z -> trace -> Z.
Notation ev := (eval op consts calls leaves writes).
Notation ex := (exec op consts calls leaves writes).

Lemma eval_keeps e : forall st x, ~ In x (mutated_e e) -> vars (snd (ev e st)) x = vars st x.
Proof.
  induction e; intros st y H; cbn [eval mutated_e] in *; try reflexivity.
  - rewrite in_app_iff in H. specialize (IHe1 st y (fun K => H (or_introl K))). destruct (ev e1 st) as [u st1]. cbn in IHe1.
    specialize (IHe2 st1 y (fun K => H (or_intror K))). destruct (ev e2 st1) as [v st2]. cbn in *. congruence.
  - rewrite in_app_iff in H. specialize (IHe1 st y (fun K => H (or_introl K))). destruct (ev e1 st) as [u st1]. cbn in IHe1.
    specialize (IHe2 st1 y (fun K => H (or_intror K))). destruct (ev e2 st1) as [v st2]. cbn in *. congruence.
  - specialize (IHe st y H). destruct (ev e st) as [u st1]. cbn in *. exact IHe.
  - specialize (IHe st y (fun K => H (or_intror K))). destruct (ev e st) as [u st1]. cbn in *.
    destruct (Nat.eqb_spec y x) as [->|]; [exfalso; apply H; left; reflexivity|exact IHe].
  - specialize (IHe st y (fun K => H (or_intror K))). destruct (ev e st) as [u st1]. cbn in *.
    destruct (Nat.eqb_spec y x) as [->|]; [exfalso; apply H; left; reflexivity|exact IHe].
Qed.
Definition keeps (x : name) (st : state) (r : outcome) : Prop :=
  match r with Out => True | Norm st' | Brk _ st' | Cont _ st' | Ret st' => vars st' x = vars st x end.
Lemma exec_keeps x : forall fuel s st, ~ In x (mutated s) -> keeps x st (ex fuel s st).
Proof.
  induction fuel as [|fuel IH]; intros s st H; [exact Logic.I|]. destruct s; cbn [exec mutated] in *.
  - reflexivity.
  - rewrite in_app_iff in H. pose proof (IH s1 st (fun K => H (or_introl K))) as H1.
    destruct (ex fuel s1 st) as [|st1|n st1|n st1|st1]; cbn in H1; auto.
    pose proof (IH s2 st1 (fun K => H (or_intror K))) as H2. destruct (ex fuel s2 st1); cbn in *; congruence.
  - apply eval_keeps, H.
  - pose proof (eval_keeps e st x (fun K => H (or_intror K))) as E. destruct (ev e st) as [v st1]. cbn in *.
    destruct (Nat.eqb_spec x x0) as [->|]; [exfalso; apply H; left; reflexivity|exact E].
  - pose proof (eval_keeps e st x H) as E. destruct (ev e st) as [v st1]. exact E.
  - rewrite !in_app_iff in H. pose proof (eval_keeps c st x (fun K => H (or_introl K))) as E. destruct (ev c st) as [v st1]. cbn in E.
    destruct (v =? 0).
    + pose proof (IH s2 st1 (fun K => H (or_intror (or_intror K)))) as H2. destruct (ex fuel s2 st1); cbn in *; congruence.
    + pose proof (IH s1 st1 (fun K => H (or_intror (or_introl K)))) as H2. destruct (ex fuel s1 st1); cbn in *; congruence.
  - assert (Hw : ~ In x (mutated (SWhile c s))) by exact H.
    rewrite !in_app_iff in H. pose proof (eval_keeps c st x (fun K => H (or_introl K))) as E. destruct (ev c st) as [v st1]. cbn in E.
    destruct (v =? 0); [exact E|].
    pose proof (IH s st1 (fun K => H (or_intror K))) as H1.
    destruct (ex fuel s st1) as [|st2|[|n] st2|[|n] st2|st2]; cbn in *; auto; try congruence.
    + pose proof (IH (SWhile c s) st2 Hw) as H2. destruct (ex fuel (SWhile c s) st2); cbn in *; congruence.
    + pose proof (IH (SWhile c s) st2 Hw) as H2. destruct (ex fuel (SWhile c s) st2); cbn in *; congruence.
  - pose proof (IH s st H) as H1.
    destruct (ex fuel s st) as [|st2|[|n] st2|[|n] st2|st2]; cbn in *; auto; try congruence.
    + pose proof (IH (SLoop s) st2 H) as H2. destruct (ex fuel (SLoop s) st2); cbn in *; congruence.
    + pose proof (IH (SLoop s) st2 H) as H2. destruct (ex fuel (SLoop s) st2); cbn in *; congruence.
  - reflexivity.
  - reflexivity.
  - reflexivity.
Qed.

(* The condition: no effect, and a value that depends on its variables only *)
Lemma disjoint_not a b x : disjoint a b = true -> In x a -> ~ In x b.
Proof.
  unfold disjoint. rewrite forallb_forall. intros H Ha Hb. specialize (H x Ha). apply negb_true_iff in H.
  assert (existsb (Nat.eqb x) b = true) by (apply existsb_exists; exists x; split; [exact Hb|apply Nat.eqb_refl]). congruence.
Qed.
Lemma collect_pure c : forall ids defs, collect c = Some (ids, defs) -> overloaded c = false ->
  (forall x, In x ids -> ~ In x (mutated_e c)) -> existsb (fun m => m) defs = false ->
  forall st st', (forall x, In x ids -> vars st' x = vars st x) -> snd (ev c st) = st /\ fst (ev c st') = fst (ev c st).
Proof.
  induction c; intros ids defs C O D M st st' V; cbn [collect overloaded eval mutated_e] in *; try discriminate.
  - auto.
  - inversion C; subst. split; [reflexivity|]. cbn. apply V. left. reflexivity.
  - auto.
  - inversion C; subst. discriminate.
  - destruct (collect c1) as [[i1 d1]|]; [|discriminate]. destruct (collect c2) as [[i2 d2]|]; [|discriminate].
    inversion C; subst. apply orb_false_iff in O. destruct O as [O1 O2]. rewrite existsb_app in M. apply orb_false_iff in M. destruct M as [M1 M2].
    assert (D1 : forall x, In x i1 -> ~ In x (mutated_e c1)) by (intros x K1 K2; apply (D x); rewrite in_app_iff; auto).
    assert (D2 : forall x, In x i2 -> ~ In x (mutated_e c2)) by (intros x K1 K2; apply (D x); rewrite in_app_iff; auto).
    assert (V1 : forall x, In x i1 -> vars st' x = vars st x) by (intros; apply V, in_or_app; auto).
    assert (V2 : forall x, In x i2 -> vars st' x = vars st x) by (intros; apply V, in_or_app; auto).
    destruct (IHc1 _ _ eq_refl O1 D1 M1 st st' V1) as [A1 B1]. destruct (IHc1 _ _ eq_refl O1 D1 M1 st' st' (fun _ _ => eq_refl)) as [A1' _].
    destruct (IHc2 _ _ eq_refl O2 D2 M2 st st' V2) as [A2 B2]. destruct (IHc2 _ _ eq_refl O2 D2 M2 st' st' (fun _ _ => eq_refl)) as [A2' _].
    destruct (ev c1 st) as [u s1], (ev c1 st') as [u' s1']. cbn in *. subst.
    destruct (ev c2 st) as [w s2], (ev c2 st') as [w' s2']. cbn in *. subst. auto.
  - destruct (collect c) as [[i d]|]; [|discriminate]. inversion C; subst. exfalso. apply (D x); left; reflexivity.
Qed.

Lemma while_loop c b h : check c b = Some h -> overloaded c = false ->
  forall st, fst (ev c st) <> 0 -> forall fuel st', (forall x, ~ In x (mutated b) -> vars st' x = vars st x) ->
  snd (ev c st') = st' /\ fst (ev c st') <> 0 /\ ex fuel (SWhile c b) st' = ex fuel (SLoop b) st'.
Proof.
  unfold check. destruct (collect c) as [[ids defs]|] eqn:C; [|discriminate].
  destruct (disjoint ids (mutated b) && disjoint ids (mutated_e c) && negb (existsb (fun m => m) defs)) eqn:D; [|discriminate].
  intros _ O st NZ. apply andb_true_iff in D. destruct D as [D M]. apply andb_true_iff in D. destruct D as [D1 D2].
  apply negb_true_iff in M.
  assert (P : forall st', (forall x, ~ In x (mutated b) -> vars st' x = vars st x) -> snd (ev c st') = st' /\ fst (ev c st') = fst (ev c st)).
  { intros st' V. destruct (collect_pure c ids defs C O (fun x K => disjoint_not _ _ x D2 K) M st' st' (fun _ _ => eq_refl)) as [A _].
    destruct (collect_pure c ids defs C O (fun x K => disjoint_not _ _ x D2 K) M st st') as [_ B]; [|auto].
    intros x K. apply V. apply (disjoint_not _ _ x D1 K). }
  induction fuel as [|fuel IH]; intros st' V; destruct (P st' V) as [A B]; (split; [exact A|split; [congruence|]]); [reflexivity|].
  cbn [exec]. destruct (ev c st') as [v s1]. cbn in A, B. subst.
  destruct (Z.eqb_spec (fst (ev c st)) 0) as [|_]; [contradiction|].
  assert (K : forall x, ~ In x (mutated b) -> keeps x st' (ex fuel b st')) by (intros; apply exec_keeps; assumption).
  destruct (ex fuel b st') as [|st2|[|n] st2|[|n] st2|st2]; try reflexivity.
  - apply IH. intros x Hx. specialize (K x Hx). cbn in K. rewrite K. apply V, Hx.
  - apply IH. intros x Hx. specialize (K x Hx). cbn in K. rewrite K. apply V, Hx.
Qed.

(* Without break, return, and continue of outer loops *)
Definition stays (depth : nat) (r : outcome) : Prop :=
  match r with Out | Norm _ => True | Cont n _ => (n < depth)%nat | Brk _ _ | Ret _ => False end.
Lemma exec_stays : forall fuel s depth st, has_break_or_return s = false -> continues_outer depth s = false -> stays depth (ex fuel s st).
Proof.
  induction fuel as [|fuel IH]; intros s depth st H K; [exact Logic.I|].
  destruct s; cbn [exec has_break_or_return continues_outer] in *; try discriminate; try exact Logic.I.
  - apply orb_false_iff in H. apply orb_false_iff in K. destruct H as [H1 H2], K as [K1 K2].
    pose proof (IH s1 depth st H1 K1) as A. destruct (ex fuel s1 st); cbn in A; try contradiction; auto.
  - destruct (ev e st). exact Logic.I.
  - destruct (ev e st). exact Logic.I.
  - apply orb_false_iff in H. apply orb_false_iff in K. destruct H as [H1 H2], K as [K1 K2].
    destruct (ev c st) as [v st1]. destruct (v =? 0); apply IH; assumption.
  - destruct (ev c st) as [v st1]. destruct (v =? 0); [exact Logic.I|].
    pose proof (IH s (S depth) st1 H K) as A. destruct (ex fuel s st1) as [|st2|n st2|[|n] st2|st2]; cbn in A; try contradiction; try exact Logic.I.
    + apply IH; assumption.
    + apply IH; assumption.
    + cbn. lia.
  - pose proof (IH s (S depth) st H K) as A. destruct (ex fuel s st) as [|st2|n st2|[|n] st2|st2]; cbn in A; try contradiction; try exact Logic.I.
    + apply IH; assumption.
    + apply IH; assumption.
    + cbn. lia.
  - cbn. apply Nat.leb_gt in K. exact K.
Qed.
Lemma loop_out b : has_break_or_return b = false -> continues_outer 1 b = false -> forall fuel st, ex fuel (SLoop b) st = Out.
Proof.
  intros H K. induction fuel as [|fuel IH]; intros st; [reflexivity|]. cbn [exec].
  pose proof (exec_stays fuel b 1 st H K) as A. destruct (ex fuel b st) as [|st2|n st2|[|n] st2|st2]; cbn in A; try contradiction; auto. lia.
Qed.
End Run.
