(** redundant_guards and collapsible_match: proofs. *)
From Verif Require Export PickPut.

(** ** Environments that differ in what is not used *)
Section F.
  Variable X : nat -> bool.
  Notation F := (F X).
  Lemma F_app : forall m a a' m' b b', F m a a' -> F m' b b' -> F (m ++ m') (a ++ b) (a' ++ b').
  Proof.
    intros m a a' m' b b' H G. induction H as [|c m r r' H IH|c m r r' Hx H IH|c m r r' Hx H IH|c d m r r' N H IH]; cbn [app]; auto.
    1-3: constructor; auto.
    rewrite <- (app_assoc (c ++ d)), <- (app_assoc (d ++ c)). constructor; auto.
  Qed.
  Lemma F_refl : forall r, F (repeat SB (length r)) r r.
  Proof. induction r; cbn; constructor; auto. Qed.
  Lemma F_same : forall k r r', F (repeat SB k) r r' -> r = r'.
  Proof. induction k; cbn; intros r r' H; inversion H; subst; auto. f_equal; auto. Qed.
  Lemma F_lefts : forall a, (forall b, In b a -> X (fst b) = true) -> F (repeat SL (length a)) a [].
  Proof. induction a; cbn; intros H; constructor; auto. Qed.
  Lemma F_rights : forall a, (forall b, In b a -> X (fst b) = true) -> F (repeat SR (length a)) [] a.
  Proof. induction a; cbn; intros H; constructor; auto. Qed.
  Lemma F_back : forall m0 m q q', F (m0 ++ m) q q' -> exists q1 q1' q2 q2', q = q1 ++ q2 /\ q' = q1' ++ q2' /\ F m0 q1 q1' /\ F m q2 q2'.
  Proof.
    induction m0 as [|x m0 IH]; cbn; intros m q q' H; [exists [], [], q, q'; repeat split; auto; constructor|].
    inversion H; subst;
      match goal with G : CloFrame.F _ (m0 ++ m) _ _ |- _ => destruct (IH _ _ _ G) as (q1 & q1' & q2 & q2' & -> & -> & A & B) end.
    - exists (b :: q1), (b :: q1'), q2, q2'. repeat split; auto. constructor; auto.
    - exists (b :: q1), q1', q2, q2'. repeat split; auto. constructor; auto.
    - exists q1, (b :: q1'), q2, q2'. repeat split; auto. constructor; auto.
    - exists ((a ++ b) ++ q1), ((b ++ a) ++ q1'), q2, q2'. rewrite <- !app_assoc. repeat split; auto. rewrite (app_assoc a b q1), (app_assoc b a q1'). constructor; auto.
  Qed.
  Lemma F_swap_inv : forall n k m q q', F (SX n k :: m) q q' -> exists a b r r', q = (a ++ b) ++ r /\ q' = (b ++ a) ++ r' /\
    length a = n /\ length b = k /\ F m r r'.
  Proof. intros n k m q q' H. inversion H; subst. exists a, b, r, r'. auto. Qed.
End F.

Section Pick4.
  Variable w : world.
  Variable fuel : nat.
  Notation st := (state w).
  Notation ev := (eval w fuel).
  Notation sc := (scoped w fuel).
  Notation run := (armrun w fuel).

  Lemma eval_keys : forall e (s : st), map fst (fst (snd (ev e s))) = map fst (fst s).
  Proof.
    intros e s. assert (G : KS w (fun _ => true) s (snd (ev e s))) by (apply eval_keeps; intros x H; discriminate).
    unfold KS, K in G. induction G as [|a b l l' [A _] _ IH]; cbn; congruence.
  Qed.
  Lemma leave_same : forall X m n (t t' : st), RS w X (m ++ repeat SB n) t t' -> leave n t = leave n t'.
  Proof.
    intros X m n [r y] [r' y'] [A B]. cbn in A, B. subst y'. apply F_back in B. destruct B as (q1 & q1' & q2 & q2' & -> & -> & _ & B).
    destruct (F_len _ _ _ _ B) as [L _]. apply F_same in B. subst q2'. unfold leave. cbn. f_equal.
    assert (length q2 = n). { rewrite L. clear. induction n; cbn; auto. }
    rewrite !app_length. replace (length q1 + length q2 - n) with (length q1) by lia. replace (length q1' + length q2 - n) with (length q1') by lia.
    rewrite !skipn_app, !skipn_all, !Nat.sub_diag. reflexivity.
  Qed.
  Lemma RS_scope : forall X m bs bs' (s : st), F X m bs bs' -> RS w X (m ++ repeat SB (length (fst s))) (enter bs s) (enter bs' s).
  Proof. intros X m bs bs' s H. split; auto. cbn. apply F_app; auto. apply F_refl. Qed.
  Lemma body_same : forall X m n b (t t' : st), RS w X (m ++ repeat SB n) t t' -> free X b ->
    (let '(o, u) := ev b t in (o, leave n u)) = (let '(o, u) := ev b t' in (o, leave n u)).
  Proof.
    intros X m n b t t' H FB. pose proof (eval_frame w fuel X b FB _ _ _ H) as [A B].
    destruct (ev b t) as [o u], (ev b t') as [o' u']. cbn in A, B. subst o'. rewrite (leave_same _ _ _ _ _ B). reflexivity.
  Qed.
  Lemma scoped_same : forall X m bs bs' e s, F X m bs bs' -> free X e -> sc bs e s = sc bs' e s.
  Proof. intros X m bs bs' e s H FE. unfold scoped. eapply body_same; [apply RS_scope; exact H|exact FE]. Qed.
  (** What is left when the bindings are not used. *)
  Lemma unused : forall X b bs (t : st) r, fst t = bs ++ r -> (forall y, In y bs -> X (fst y) = true) -> free X b ->
    (let '(o, u) := ev b t in (o, leave (length r) u)) = ev b (leave (length r) t).
  Proof.
    intros X b bs [e y] r E H FB. cbn in E. subst e.
    assert (L : @leave w (length r) (bs ++ r, y) = (r, y)) by (apply (leave_enter w bs (r, y))).
    transitivity (ev b (r, y)); [|f_equal; symmetry; exact L].
    transitivity (let '(o, u) := ev b (r, y) in (o, leave (length r) u)).
    2: { pose proof (leave_eval w fuel b (r, y)) as LE. cbn in LE. destruct (ev b (r, y)) as [o u]. cbn in LE. rewrite LE. reflexivity. }
    apply (body_same X (repeat SL (length bs)) (length r) b (bs ++ r, y) (r, y)); auto.
    split; auto. cbn. replace r with ([] ++ r) at 3 by reflexivity. apply F_app; [apply F_lefts; auto|apply F_refl].
  Qed.
  Lemma scoped_unused : forall X b bs s, (forall y, In y bs -> X (fst y) = true) -> free X b -> sc bs b s = ev b s.
  Proof.
    intros X b bs s H FB. unfold scoped. rewrite (unused X b bs (enter bs s) (fst s)); auto. rewrite leave_enter. reflexivity.
  Qed.
  Lemma armrun_ext : forall g b bs s k k', (forall s, k s = k' s) -> run g b bs s k = run g b bs s k'.
  Proof. intros [g|] b bs s k k' H; cbn; auto. destruct (ev g (enter bs s)) as [[[|[]| | |]| | | | |] t]; auto. Qed.

  (** ** One arm *)
  Definition armval (a : arm) (v : val) (s : st) (k : st -> out * st) : out * st :=
    match a with (p, g, b) => match match_pat p v with Some bs => run g b bs s k | None => k s end end.
  Lemma earms_arm : forall v a arms s, earms w fuel v (a :: arms) s = armval a v s (earms w fuel v arms).
  Proof. intros v [[p g] b] arms s. rewrite earms_cons. cbn. destruct (match_pat p v); reflexivity. Qed.
  Lemma armval_ext : forall a v s k k', (forall s, k s = k' s) -> armval a v s k = armval a v s k'.
  Proof. intros [[p g] b] v s k k' H. cbn. destruct (match_pat p v); auto. apply armrun_ext; auto. Qed.
  Lemma each_arm_spec : forall f arms l, In l (each_arm f arms) -> exists pre a a' post, arms = pre ++ a :: post /\ f a post = Some a' /\ l = pre ++ a' :: post.
  Proof.
    intros f. induction arms as [|a arms IH]; cbn; intros l I; [tauto|]. apply in_app_or in I. destruct I as [I|I].
    - destruct (f a arms) as [a'|] eqn:E; [|destruct I]. destruct I as [<-|[]]. exists [], a, a', arms. auto.
    - apply in_map_iff in I. destruct I as (l' & <- & I). destruct (IH _ I) as (pre & b & b' & post & -> & E & ->).
      exists (a :: pre), b, b', post. auto.
  Qed.
  Lemma earms_replace : forall v a a' post, (forall s, armval a v s (earms w fuel v post) = armval a' v s (earms w fuel v post)) ->
    forall pre s, earms w fuel v (pre ++ a :: post) s = earms w fuel v (pre ++ a' :: post) s.
  Proof.
    intros v a a' post H. induction pre as [|b pre IH]; intros s; cbn [app].
    - rewrite !earms_arm. apply H.
    - rewrite !earms_arm. apply armval_ext. exact IH.
  Qed.

  Lemma match_keys : forall p v bs, match_pat p v = Some bs -> map fst bs = pat_vars p.
  Proof.
    assert (L : forall ps, Forall (fun p => forall v bs, match_pat p v = Some bs -> map fst bs = pat_vars p) ps ->
      forall vs bs, match_all ps vs = Some bs -> map fst bs = flat_map pat_vars ps).
    { induction 1 as [|p ps P _ IH]; intros [|v vs] bs H; try discriminate; [inversion H; auto|]. rewrite match_all_cons in H.
      destruct (match_pat p v) as [a|] eqn:E1; [|discriminate]. destruct (match_all ps vs) as [b|] eqn:E2; [|discriminate]. inversion H; subst.
      rewrite map_app. cbn. f_equal; eauto. }
    induction p using pat_ind'; intros v bs M.
    - inversion M; auto.
    - inversion M; auto.
    - cbn in M. destruct (match_pat p v) as [a|] eqn:E; inversion M; subst. cbn. f_equal. eauto.
    - destruct v as [| |k' vs| |]; try (destruct d; discriminate). destruct d as [n|].
      + rewrite match_dots in M. destruct (kind_eqb k k' && (length ps <=? length vs)); [|discriminate]. eapply L; eauto.
      + rewrite match_data in M. destruct (kind_eqb k k'); [|discriminate]. eapply L; eauto.
    - destruct v as [| |[] vs| |]; try (destruct m; discriminate). destruct m as [m|].
      + rewrite match_slice_rest in M. destruct (length b + length a <=? length vs); [|discriminate].
        destruct (match_all b (firstn (length b) vs)) as [x|] eqn:E1; [|discriminate].
        destruct (match_pat m (VData KArr (firstn (length vs - (length b + length a)) (skipn (length b) vs)))) as [y|] eqn:E2; [|discriminate].
        destruct (match_all a (skipn (length vs - length a) vs)) as [z|] eqn:E3; [|discriminate]. inversion M; subst.
        rewrite !map_app. cbn [pat_vars]. f_equal; [exact (L b H _ _ E1)|f_equal; [exact (H0 _ _ E2)|exact (L a H1 _ _ E3)]].
      + rewrite match_slice in M. destruct (match_all b (firstn (length b) vs)) as [x|] eqn:E1; [|discriminate].
        destruct (match_all a (skipn (length b) vs)) as [z|] eqn:E3; [|discriminate]. inversion M; subst.
        rewrite !map_app. cbn [pat_vars app]. f_equal; [exact (L b H _ _ E1)|exact (L a H1 _ _ E3)].
    - destruct v as [| |[| |c'] vs| |]; try discriminate. rewrite match_struct in M.
      destruct (Nat.eqb c c' && nodupb (map fst fs) && (r || Nat.eqb (length fs) (length vs))); [|discriminate].
      revert bs M. induction H as [|[i p] fs A _ IH]; cbn; intros bs M; [inversion M; reflexivity|].
      destruct (nth_error vs i) as [u|]; [|discriminate]. destruct (match_pat p u) as [a|] eqn:E; [|discriminate].
      destruct (match_fields vs fs) as [b|] eqn:F; [|discriminate]. inversion M; subst. rewrite map_app. f_equal; [eapply A; eauto|auto].
    - cbn in M. destruct v; try discriminate. inversion M; auto. destruct (Z.eqb z z0); inversion M; auto.
    - cbn in M. destruct v; try discriminate. inversion M; auto. destruct (Bool.eqb b b0); inversion M; auto.
    - cbn in M. destruct v; try discriminate. cbn. eauto.
  Qed.
End Pick4.
