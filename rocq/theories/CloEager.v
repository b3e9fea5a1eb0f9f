(** Expressions that may be evaluated eagerly: they have no effect, and depend on the variables they use only. *)
From Verif Require Export CloComb.

Section Eager.
  Variable w : world.
  Variable fuel : nat.
  Notation st := (state w).
  Notation ev := (eval w fuel).

  (** The same value in two scopes, and no effect; or no value in both. *)
  Definition twin (e : expr) : Prop := forall r r' x, (forall y, local_used y e = true -> lookup y r = lookup y r') ->
    (fst (ev e (r, x)) = OStuck /\ fst (ev e (r', x)) = OStuck) \/
    (exists v, ev e (r, x) = (OVal v, (r, x)) /\ ev e (r', x) = (OVal v, (r', x))).
  Definition twin_k {A} (k : A -> st -> out * st) (r r' : env) (x : W w) : Prop := forall a,
    (fst (k a (r, x)) = OStuck /\ fst (k a (r', x)) = OStuck) \/
    (exists v, k a (r, x) = (OVal v, (r, x)) /\ k a (r', x) = (OVal v, (r', x))).

  Lemma stuck_bind : forall r k, fst r = OStuck -> fst (andthen w r k) = OStuck.
  Proof. intros [o s] k H. cbn in H. subst. reflexivity. Qed.
  Lemma twin_bind : forall e k r r' x, twin e -> (forall y, local_used y e = true -> lookup y r = lookup y r') ->
    twin_k k r r' x ->
    (fst (andthen w (ev e (r, x)) k) = OStuck /\ fst (andthen w (ev e (r', x)) k) = OStuck) \/
    (exists v, andthen w (ev e (r, x)) k = (OVal v, (r, x)) /\ andthen w (ev e (r', x)) k = (OVal v, (r', x))).
  Proof.
    intros e k r r' x T A K. destruct (T r r' x A) as [[S S']|(v & E & E')].
    - left. split; apply stuck_bind; assumption.
    - rewrite E, E'. cbn. apply K.
  Qed.
  Lemma twin_evals : forall es, Forall twin es -> forall k r r' x,
    (forall y, existsb (local_used y) es = true -> lookup y r = lookup y r') -> twin_k k r r' x ->
    (fst (evals w fuel es (r, x) k) = OStuck /\ fst (evals w fuel es (r', x) k) = OStuck) \/
    (exists v, evals w fuel es (r, x) k = (OVal v, (r, x)) /\ evals w fuel es (r', x) k = (OVal v, (r', x))).
  Proof.
    induction 1 as [|e es T H IH]; intros k r r' x A K; cbn; [apply K|].
    apply twin_bind; auto.
    - intros y U. apply A. cbn. rewrite U. reflexivity.
    - intros v. apply IH; [|intros vs; apply K]. intros y U. apply A. cbn. rewrite U, orb_true_r. reflexivity.
  Qed.
  Lemma twin_fields : forall fs, Forall (fun f => twin (snd f)) fs -> forall k r r' x,
    (forall y, existsb (fun f : nat * expr => match f with (_, a) => local_used y a end) fs = true -> lookup y r = lookup y r') -> twin_k k r r' x ->
    (fst (efields w fuel fs (r, x) k) = OStuck /\ fst (efields w fuel fs (r', x) k) = OStuck) \/
    (exists v, efields w fuel fs (r, x) k = (OVal v, (r, x)) /\ efields w fuel fs (r', x) k = (OVal v, (r', x))).
  Proof.
    induction 1 as [|[i e] fs T H IH]; intros k r r' x A K; cbn; [apply K|].
    apply twin_bind; auto.
    - intros y U. apply A. cbn. rewrite U. reflexivity.
    - intros v. apply IH; [|intros vs; apply K]. intros y U. apply A. cbn. rewrite U, orb_true_r. reflexivity.
  Qed.
  Lemma lookup_app : forall bs r r' y, lookup y r = lookup y r' -> lookup y (bs ++ r) = lookup y (bs ++ r').
  Proof. induction bs as [|[z v] bs IH]; intros; cbn; auto. destruct (Nat.eqb y z); auto. Qed.
  Lemma leave_app : forall bs (r : env) (x : W w), leave (length r) (bs ++ r, x) = (r, x) :> st.
  Proof. intros. exact (leave_enter w bs ((r, x) : st)). Qed.
  Lemma twin_enter : forall e bs r r' x, twin e -> (forall y, local_used y e = true -> lookup y r = lookup y r') ->
    let run (r : env) := let '(o, s') := ev e (enter bs (r, x)) in (o, leave (length r) s') in
    (fst (run r) = OStuck /\ fst (run r') = OStuck) \/ (exists v, run r = (OVal v, (r, x)) /\ run r' = (OVal v, (r', x))).
  Proof.
    intros e bs r r' x T A run.
    assert (Z : forall r, fst (ev e (enter bs (r, x))) = OStuck -> fst (run r) = OStuck).
    { intros r0 S. unfold run. destruct (ev e (enter bs (r0, x))). cbn in S. subst. reflexivity. }
    assert (Y : forall r v, ev e (enter bs (r, x)) = (OVal v, enter bs (r, x)) -> run r = (OVal v, (r, x))).
    { intros r0 v S. unfold run. rewrite S. f_equal. exact (leave_app bs r0 x). }
    destruct (T (bs ++ r) (bs ++ r') x) as [[S S']|(v & E & E')].
    - intros y U. apply lookup_app; auto.
    - left. split; apply Z; assumption.
    - right. exists v. split; apply Y; assumption.
  Qed.
  Lemma twin_opt : forall o, Opt twin o -> forall r r' x, (forall y, opt_some (local_used y) o = true -> lookup y r = lookup y r') ->
    (fst (eopt w fuel o (r, x)) = OStuck /\ fst (eopt w fuel o (r', x)) = OStuck) \/
    (exists v, eopt w fuel o (r, x) = (OVal v, (r, x)) /\ eopt w fuel o (r', x) = (OVal v, (r', x))).
  Proof. intros [e|] H r r' x A; cbn; [apply H; auto|eauto]. Qed.
  Lemma twin_arms : forall v arms, Forall (ArmP twin) arms -> forall r r' x,
    (forall y, existsb (fun z : pat * option expr * expr => match z with (_, g, b) => opt_some (local_used y) g || local_used y b end) arms = true ->
      lookup y r = lookup y r') ->
    (fst (earms w fuel v arms (r, x)) = OStuck /\ fst (earms w fuel v arms (r', x)) = OStuck) \/
    (exists u, earms w fuel v arms (r, x) = (OVal u, (r, x)) /\ earms w fuel v arms (r', x) = (OVal u, (r', x))).
  Proof.
    induction 1 as [|[[p g] b] arms [Tg Tb] H IH]; intros r r' x A; [left; split; reflexivity|].
    assert (IH' : (fst (earms w fuel v arms (r, x)) = OStuck /\ fst (earms w fuel v arms (r', x)) = OStuck) \/
      (exists u, earms w fuel v arms (r, x) = (OVal u, (r, x)) /\ earms w fuel v arms (r', x) = (OVal u, (r', x)))).
    { apply IH. intros y U. apply A. cbn. rewrite U, orb_true_r. reflexivity. }
    assert (Ab : forall y, local_used y b = true -> lookup y r = lookup y r').
    { intros y U. apply A. cbn. rewrite U, orb_true_r. reflexivity. }
    cbn [earms]. destruct (match_pat p v) as [bs|]; [|exact IH'].
    destruct g as [g|]; [|exact (twin_enter b bs r r' x Tb Ab)].
    change (fst (r, x)) with r. change (fst (r', x)) with r'.
    assert (D : (fst (ev g (enter bs (r, x))) = OStuck /\ fst (ev g (enter bs (r', x))) = OStuck) \/
      (exists u, ev g (enter bs (r, x)) = (OVal u, enter bs (r, x)) /\ ev g (enter bs (r', x)) = (OVal u, enter bs (r', x)))).
    { apply (Tg (bs ++ r) (bs ++ r') x). intros y U. apply lookup_app, A. cbn. rewrite U. reflexivity. }
    destruct D as [[S S']|(u & E & E')].
    - left. destruct (ev g (enter bs (r, x))), (ev g (enter bs (r', x))). cbn in S, S'. subst. split; reflexivity.
    - rewrite E, E'. destruct u as [|[]| | |]; try (left; split; reflexivity).
      + exact (twin_enter b bs r r' x Tb Ab).
      + unfold enter; cbn [fst snd]. rewrite !leave_app. exact IH'.
  Qed.

  Lemma forallb_Forall : forall {A} (f : A -> bool) (P : A -> Prop) l, Forall (fun a => f a = true -> P a) l -> forallb f l = true -> Forall P l.
  Proof. induction 1; cbn; intros E; auto. apply andb_true_iff in E. destruct E; auto. Qed.
  Theorem eager_twin : forall e, eager e = true -> twin e.
  Proof.
    induction e using expr_ind'; intros E; try discriminate.
    - intros r r' x0 A. cbn in E. destruct a; [discriminate|]. cbn. rewrite (A x) by (cbn; apply Nat.eqb_refl).
      destruct (lookup x r'); [right; eauto|left; split; reflexivity].
    - intros r r' x A. right. cbn. eauto.
    - intros r r' x A. right. cbn. eauto.
    - intros r r' x A. rewrite !eval_data. apply twin_evals; auto.
      + eapply forallb_Forall; eauto.
      + intros vs. right. eauto.
    - intros r r' x A. rewrite !eval_struct. apply twin_fields; auto.
      + eapply forallb_Forall; [|exact E]. eapply Forall_impl; [|exact H]. intros [i a]; cbn; auto.
      + intros vs. destruct (build vs); [right; eauto|left; split; reflexivity].
    - intros r r' x A. cbn [eval]. apply twin_bind; auto. intros v. destruct v; try (left; split; reflexivity). right; eauto.
    - cbn in E. apply andb_true_iff in E. destruct E. intros r r' x A. cbn [eval]. apply twin_bind; auto.
      + intros y U. apply A. cbn. rewrite U. reflexivity.
      + intros u. apply twin_bind; auto.
        * intros y U. apply A. cbn. rewrite U, orb_true_r. reflexivity.
        * intros v. right; eauto.
    - cbn in E. apply andb_true_iff in E. destruct E. intros r r' x A. cbn [eval]. apply twin_bind; auto.
      + intros y U. apply A. cbn. rewrite U. reflexivity.
      + intros u. destruct u as [|[]| | |]; try (left; split; reflexivity); [right; eauto|]. apply IHe2; auto.
        intros y U. apply A. cbn. rewrite U, orb_true_r. reflexivity.
    - cbn in E. apply andb_true_iff in E. destruct E as [E E3]. apply andb_true_iff in E. destruct E as [E1 E2].
      intros r r' x A. rewrite !eval_if. apply twin_bind; auto.
      + intros y U. apply A. cbn. rewrite U. reflexivity.
      + intros u. destruct u as [|[]| | |]; try (left; split; reflexivity).
        * apply IHe2; auto. intros y U. apply A. cbn. rewrite U, orb_true_r. reflexivity.
        * apply twin_opt; [destruct b; cbn in *; auto|]. intros y U. apply A. cbn. rewrite U, orb_true_r. reflexivity.
    - cbn in E. apply andb_true_iff in E. destruct E as [E E3]. apply andb_true_iff in E. destruct E as [E1 E2].
      intros r r' x A. rewrite !eval_iflet. apply twin_bind; auto.
      + intros y U. apply A. cbn. rewrite U. reflexivity.
      + intros u. destruct (match_pat p u) as [bs|].
        * apply twin_enter; auto. intros y U. apply A. cbn. rewrite U, orb_true_r. reflexivity.
        * apply twin_opt; [destruct b; cbn in *; auto|]. intros y U. apply A. cbn. rewrite U, orb_true_r. reflexivity.
    - cbn in E. apply andb_true_iff in E. destruct E as [E1 E2]. intros r r' x A. rewrite !eval_match. apply twin_bind; auto.
      + intros y U. apply A. cbn. rewrite U. reflexivity.
      + intros u. apply twin_arms.
        * eapply forallb_Forall; [|exact E2]. eapply Forall_impl; [|exact H]. intros [[p g] b] [Hg Hb] F. cbn in F.
          apply andb_true_iff in F. destruct F as [F1 F2]. split; auto. destruct g; cbn in *; auto.
        * intros y U. apply A. cbn. rewrite U, orb_true_r. reflexivity.
    - cbn in E. destruct ss; [|discriminate]. intros r r' x A. rewrite !eval_block. cbn [estmts].
      destruct (twin_opt t) with (r := r) (r' := r') (x := x) as [[S S']|(v & EV & EV')].
      + destruct t; cbn in *; auto.
      + intros y U. apply A. cbn. exact U.
      + left. destruct (eopt w fuel t (r, x)), (eopt w fuel t (r', x)). cbn in *; subst. split; reflexivity.
      + right. rewrite EV, EV'. cbn [unlabel]. rewrite !leave_self. eauto.
    - intros r r' x A. right. cbn. eauto.
  Qed.

  (** No effect. *)
  Corollary eager_pure : forall e s, eager e = true -> fst (ev e s) = OStuck \/ exists v, ev e s = (OVal v, s).
  Proof.
    intros e [r x] E. destruct (eager_twin e E r r x) as [[S _]|(v & EV & _)]; [reflexivity|left; auto|right; eauto].
  Qed.
  Lemma lookup_skip : forall bs r y, ~ In y (map fst bs) -> lookup y (bs ++ r) = lookup y r.
  Proof.
    induction bs as [|[z v] bs IH]; intros r y N; cbn in *; auto. destruct (Nat.eqb_spec y z); [subst; tauto|]. apply IH. tauto.
  Qed.
  (** Variables it does not use do not matter. *)
  Corollary eager_unused : forall e bs s, eager e = true -> (forall y, In y (map fst bs) -> local_used y e = false) ->
    (fst (ev e (enter bs s)) = OStuck /\ fst (ev e s) = OStuck) \/
    (exists v, ev e (enter bs s) = (OVal v, enter bs s) /\ ev e s = (OVal v, s)).
  Proof.
    intros e bs [r x] E U. unfold enter; cbn [fst snd]. apply eager_twin; auto.
    intros y L. apply lookup_skip. intros I. rewrite (U y I) in L. discriminate.
  Qed.
End Eager.
