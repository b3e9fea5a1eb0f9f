(** Proofs about `loop { let .. else break .. }` as `while let`. *)
From Verif Require Import BlkSpec BlkEnv BlkModel BlkProofs BlkProofs2 BlkProofs4 BlkProofs5.

Lemma simple_break_eval : forall w n e s, simple_break e = true -> eval w n e s = (OBrk None VUnit, s).
Proof.
  intros w n. induction e; intros s H; try discriminate; cbn in H.
  - cbn [eval]. auto.
  - apply andb_true_iff in H. destruct H as [_ H]. cbn [eval]. rewrite IHe1 by auto. auto.
  - destruct l; [discriminate|]. apply is_unit_eq in H. subst. auto.
Qed.
(** What the first thing in the loop does. *)
Definition attempt w n (p : pat) (i b : ex) (s : st) : out * st :=
  next (eval w n i s) (fun v t => match pbind p v (fst t) with Some f => leave (pvars p) t (eval w n b (f, snd t)) | None => (OBrk None VUnit, t) end).
Lemma let_or_break_ok : forall w n i p e b s, let_or_break i = Some (p, e, b) -> rust i -> fst (eval w n i s) <> OStuck -> alike none_of (eval w n i s) (attempt w n p e b s).
Proof.
  intros w n i p e b s H R N. unfold let_or_break in H. destruct (if_let_or_break i) as [[[p' e'] b']|] eqn:I.
  - injection H as -> -> ->. destruct i; try discriminate. destruct i1; try discriminate. cbn in I. destruct (negb (link i1_2) && simple_break i2) eqn:C; [|discriminate]. injection I as -> -> ->.
    apply andb_true_iff in C. destruct C as [C1 C2]. apply negb_true_iff in C1. unfold rust in R. cbn [shape] in R. repeat (apply andb_true_iff in R; destruct R as [R ?]). cbn [andb] in *.
    assert (RB : rust b) by (unfold rust; rewrite (shape_nolink _ false true); auto). assert (RE : rust e) by auto.
    unfold attempt. cbn [eval]. pose proof (rust_else w n e s RE) as NE. destruct (eval w n e s) as [o t]. rewrite !next_pair. cbn [fst] in NE. destruct o; try tauto; try apply alike_refl.
    destruct (pbind p v (fst t)) as [f|].
    + pose proof (rust_else w n b (f, snd t) RB) as NB. unfold leave. destruct (eval w n b (f, snd t)) as [o u]. cbn [fst snd] in *. destruct o; try tauto; apply alike_refl.
    + rewrite simple_break_eval by auto. apply alike_refl.
  - destruct i; try discriminate. cbn in H. destruct (simple_break i3) eqn:C; [|discriminate]. injection H as -> -> ->. unfold attempt. cbn [eval] in *. destruct (eval w n e s) as [o t]. rewrite !next_pair in *. destruct o; try apply alike_refl.
    destruct (pbind p v (fst t)) as [f|]; [apply alike_refl|]. destruct (pbind q v (fst t)) as [g|] eqn:Q; [|exfalso; apply N; reflexivity]. rewrite simple_break_eval by auto.
    split; [auto|]. split; [auto|]. intros y _. cbn. destruct (mem y (pvars q)) eqn:M; [auto|]. eapply pbind_other; eauto.
Qed.
Lemma loop_while : forall w n b k, (forall s, fst (eval w n b s) <> OStuck -> alike none_of (eval w n b s) (match eval w n k s with (OElse, s) => (OBrk None VUnit, s) | r => r end)) ->
  forall s, fst (eval w n (XLoop None b) s) <> OStuck -> alike none_of (eval w n (XLoop None b) s) (eval w n (XWhile None k) s).
Proof.
  intros w n b k H s N. cbn [eval] in *. apply loop_ok; auto; [|apply agree_refl]. intros t t' T. apply (while_ext w n k t t' T).
Qed.
Lemma while_bind : forall w n p i k s, rust i -> rust k -> (match eval w n (XBind p i k) s with (OElse, s) => (OBrk None VUnit, s) | r => r end) = attempt w n p i k s.
Proof.
  intros w n p i k s RI RK. unfold attempt. cbn [eval]. pose proof (rust_else w n i s RI) as NI. destruct (eval w n i s) as [o t]. rewrite !next_pair. cbn [fst] in NI. destruct o; try tauto; auto.
  destruct (pbind p v (fst t)) as [f|]; [|auto]. pose proof (rust_else w n k (f, snd t) RK) as NB. unfold leave. destruct (eval w n k (f, snd t)) as [o u]. cbn [fst snd] in *. destruct o; try tauto; auto.
Qed.
(** The names of [p] are not used in what follows. *)
Lemma attempt_seq : forall w n p i b r s, (forall x, mem x (pvars p) = true -> uses x r = false) ->
  alike none_of (next (attempt w n p i b s) (fun _ t => eval w n r t)) (attempt w n p i (XSeq b r) s).
Proof.
  intros w n p i b r s U. unfold attempt. rewrite next_next. destruct (eval w n i s) as [o t]. rewrite !next_pair. destruct o; try apply alike_refl.
  destruct (pbind p v (fst t)) as [f|]; [|apply alike_refl]. cbn [eval]. rewrite leave_next. unfold next. destruct (eval w n b (f, snd t)) as [o u]. cbn [fst snd]. destruct o; cbn; try apply alike_refl.
  apply (hide_back w n r (pvars p) t u). auto.
Qed.
Lemma back_get : forall xs s u y, fst (back xs s u) y = if mem y xs then fst s y else fst u y.
Proof. reflexivity. Qed.
Lemma attempt_let : forall w n p i q b r s, (forall x, mem x (pvars p) = true -> mem x (pvars q) = false -> uses x r = false) ->
  alike none_of (next (attempt w n p i b s) (fun v t => match pbind q v (fst t) with Some f => leave (pvars q) t (eval w n r (f, snd t)) | None => (OStuck, t) end)) (attempt w n p i (XLet q b r) s).
Proof.
  intros w n p i q b r s U. unfold attempt. rewrite next_next. destruct (eval w n i s) as [o t]. rewrite !next_pair. destruct o; try apply alike_refl.
  destruct (pbind p v (fst t)) as [f|]; [|apply alike_refl]. cbn [eval]. rewrite leave_next. destruct (eval w n b (f, snd t)) as [o u]. unfold next. cbn [fst snd]. destruct o; cbn [fst]; try apply alike_refl.
  set (X := fun y => mem y (pvars p)). assert (A : agree X (back (pvars p) t u) u) by (split; [auto|]; intros y Y; rewrite back_get; unfold X in Y; rewrite Y; auto).
  pose proof (pbind_rel q v0 X _ _ (proj2 A)) as PR. change (leave (pvars p) t (OVal v0, u)) with (OVal v0, back (pvars p) t u). cbn [fst snd]. destruct (pbind q v0 (fst (back (pvars p) t u))) as [g|] eqn:E1, (pbind q v0 (fst u)) as [g'|] eqn:E2; try tauto.
  - assert (B : alike (minus X (pvars q)) (eval w n r (g, snd (back (pvars p) t u))) (eval w n r (g', snd u))).
    { apply eval_off; [|split; [apply A|exact PR]]. intros x Y. unfold minus, X in Y. apply andb_true_iff in Y. destruct Y as [Y1 Y2]. apply negb_true_iff in Y2. auto. }
    destruct B as [B1 [B2 B3]]. split; [exact B1|]. split; [exact B2|]. intros y _. unfold leave. cbn [fst snd]. rewrite !back_get. cbn [fst snd].
    destruct (mem y (pvars q)) eqn:Q; [rewrite ?back_get; destruct (mem y (pvars p)); auto|]. destruct (mem y (pvars p)) eqn:P.
    + rewrite eval_keeps by (apply uses_changes; auto). cbn [fst]. rewrite (pbind_other _ _ _ _ _ E1 Q), back_get, P. auto.
    + apply B3. unfold minus, X. rewrite P. auto.
  - split; [auto|]. split; auto.
Qed.
Lemma attempt_same : forall w n p i y b r s, peel b = XVar y -> (forall x, mem x (pvars p) = true -> x <> y -> uses x r = false) -> mem y (pvars p) = true \/ changes y r = false ->
  let e := next (attempt w n p i b s) (fun v t => match pbind (PVar y) v (fst t) with Some f => leave [y] t (eval w n r (f, snd t)) | None => (OStuck, t) end) in
  fst e <> OStuck -> alike none_of e (attempt w n p i r s).
Proof.
  intros w n p i y b r s PB U D e N. unfold e in *. clear e. unfold attempt in *. rewrite next_next in *. destruct (eval w n i s) as [o t]. rewrite !next_pair in *. destruct o; try apply alike_refl.
  destruct (pbind p v (fst t)) as [f|] eqn:PF; [|apply alike_refl]. rewrite <- (peel_eval w n b) in *. rewrite PB in *. cbn [eval fst] in *.
  assert (F : f y <> VHole) by (intros Q; rewrite Q in N; apply N; reflexivity). rewrite given_solid in * by auto. clear N. unfold leave at 1. cbn [fst snd]. rewrite next_pair. cbn [pbind].
  set (u := back (pvars p) t (f, snd t)).
  assert (B : alike (fun x => mem x (pvars p) && negb (x =? y)) (eval w n r (upd (fst u) y (f y), snd u)) (eval w n r (f, snd t))).
  { apply eval_off.
    - intros x X. apply andb_true_iff in X. destruct X as [X1 X2]. apply negb_true_iff, Nat.eqb_neq in X2. auto.
    - split; [auto|]. intros x X. cbn [fst]. unfold upd. destruct (x =? y) eqn:E; [apply Nat.eqb_eq in E; congruence|]. cbn in X. rewrite andb_true_r in X. unfold u. rewrite back_get, X. auto. }
  destruct B as [B1 [B2 B3]]. split; [exact B1|]. split; [exact B2|]. intros x _. unfold leave. cbn [fst snd]. rewrite !back_get. cbn [mem existsb]. rewrite orb_false_r.
  destruct (x =? y) eqn:E.
  - apply Nat.eqb_eq in E. subst x. unfold u. rewrite back_get. cbn [fst]. destruct (mem y (pvars p)) eqn:M; [auto|]. destruct D as [D|D]; [discriminate|]. rewrite eval_keeps by auto. auto.
  - destruct (mem x (pvars p)) eqn:M.
    + apply Nat.eqb_neq in E. rewrite eval_keeps by (apply uses_changes; auto). cbn [fst]. unfold upd. apply Nat.eqb_neq in E. rewrite E. unfold u. rewrite back_get, M. auto.
    + apply B3. rewrite M. auto.
Qed.
Lemma rust_parts : forall i p e b, let_or_break i = Some (p, e, b) -> rust i -> rust e /\ rust b.
Proof.
  intros i p e b H R. unfold let_or_break in H. destruct (if_let_or_break i) as [[[p' e'] b']|] eqn:I.
  - injection H as -> -> ->. destruct i; try discriminate. destruct i1; try discriminate. cbn in I. destruct (negb (link i1_2) && simple_break i2) eqn:C; [|discriminate]. injection I as -> -> ->.
    apply andb_true_iff in C. destruct C as [C1 C2]. apply negb_true_iff in C1. unfold rust in *. cbn [shape] in R. repeat (apply andb_true_iff in R; destruct R as [R ?]). split; auto. rewrite (shape_nolink _ false true); auto.
  - destruct i; try discriminate. cbn in H. destruct (simple_break i3) eqn:C; [|discriminate]. injection H as -> -> ->. unfold rust in *. cbn [shape] in R. repeat (apply andb_true_iff in R; destruct R as [R ?]). auto.
Qed.
Lemma rust_peel : forall b, rust b -> rust (peel b).
Proof. unfold rust. induction b; intros R; auto. Qed.
Lemma while_let_loop_ok : forall b e', while_let_loop (XLoop None b) = Some e' -> rust b ->
  (forall p i k x, e' = XWhile None (XBind p i k) -> mem x (pvars p) = true -> uses x b = false) ->
  (forall i r, b <> XLet PWild i r) ->
  (forall y i r p i', b = XLet (PVar y) i r -> e' = XWhile None (XBind p i' r) -> mem y (pvars p) = true \/ changes y r = false) ->
  (forall p i d r, b = XLetElse p i d r -> (forall k c, i <> XIf k c) /\ (forall a p' c q c', i <> XMatch a p' c q c')) ->
  same_ok (XLoop None b) e'.
Proof.
  intros b e' H R U NW TR LE w n s N.
  assert (D : (exists py i r p e c, b = XLet py i r /\ let_or_break i = Some (p, e, c) /\ e' = XWhile None (XBind p e (bound_body py c r))) \/
    (exists p i d r, b = XLetElse p i d r /\ simple_break d = true /\ e' = XWhile None (XBind p i r)) \/
    (exists i r p e c, b = XSeq i r /\ let_or_break i = Some (p, e, c) /\ e' = XWhile None (XBind p e (XSeq c r))) \/
    (exists p e c, let_or_break b = Some (p, e, c) /\ e' = XWhile None (XBind p e c))).
  { cbn [while_let_loop] in H. destruct b; try (right; right; right; destruct (let_or_break _) as [[[p1 e1] c1]|] eqn:L in H; [injection H as <-; eauto 9; fail|discriminate]).
    - right; right; left. destruct (let_or_break b1) as [[[p1 e1] c1]|] eqn:L in H; [injection H as <-; eauto 11|discriminate].
    - left. destruct (let_or_break b1) as [[[p1 e1] c1]|] eqn:L in H; [injection H as <-; eauto 12|discriminate].
    - right; left. destruct (LE _ _ _ _ eq_refl) as [L1 L2]. exists p, b1, b2, b3. split; [auto|].
      destruct (if_let_or_break b1) as [[[p1 e1] c1]|] eqn:L in H; [destruct b1; try discriminate; exfalso; eapply L1; reflexivity|].
      destruct (simple_break b2); [injection H as <-; auto|]. destruct (match_or_break b1) as [[[p1 e1] c1]|] eqn:M in H; [destruct b1; try discriminate; exfalso; eapply L2; reflexivity|discriminate]. }
  clear H LE. destruct D as [[py [i [r [p [e [c [-> [L ->]]]]]]]]|[[p [i [d [r [-> [L ->]]]]]]|[[i [r [p [e [c [-> [L ->]]]]]]]|[p [e [c [L ->]]]]]]].
  - unfold rust in R. cbn [shape] in R. apply andb_true_iff in R. destruct R as [R1 R2]. destruct (rust_parts _ _ _ _ L R1) as [RE RC].
    assert (U' : forall x, mem x (pvars p) = true -> mem x (pvars py) = false -> uses x r = false).
    { intros x X Y. specialize (U _ _ _ _ eq_refl X). cbn [uses] in U. rewrite Y in U. apply orb_false_iff in U. tauto. }
    apply loop_while; [|auto]. clear N. intros t N.
    assert (NI : fst (eval w n i t) <> OStuck) by (intros Q; apply N; cbn [eval]; destruct (eval w n i t); cbn in Q; subst; reflexivity).
    pose proof (let_or_break_ok w n i p e c t L R1 NI) as A.
    assert (RB : rust (bound_body py c r)) by (unfold bound_body, rust; destruct (trivial_assignment py (peel c)); [auto|]; cbn [shape]; rewrite (rust_peel c RC); auto).
    rewrite while_bind by auto.
    assert (B : alike none_of (eval w n (XLet py i r) t) (next (attempt w n p e c t) (fun v t => match pbind py v (fst t) with Some f => leave (pvars py) t (eval w n r (f, snd t)) | None => (OStuck, t) end))).
    { cbn [eval]. apply alike_next; [exact A|]. intros v u u' X. apply for_body_ext; auto. }
    eapply alike_trans; [exact B|]. unfold bound_body in *. destruct (trivial_assignment py (peel c)) eqn:TA.
    + destruct py; try discriminate; [exfalso; eapply NW; reflexivity|]. cbn in TA. destruct (peel c) eqn:PC; try discriminate. apply Nat.eqb_eq in TA. subst x0.
      apply attempt_same; [auto| | |].
      * intros y Y1 Y2. apply U'; [auto|]. cbn. rewrite orb_false_r. apply Nat.eqb_neq. auto.
      * eapply TR; reflexivity.
      * destruct B as [B _]. cbn [pvars] in B. rewrite <- B. exact N.
    + eapply alike_trans; [apply attempt_let; auto|]. unfold attempt. apply alike_next; [apply alike_refl|]. intros v u u' X.
      apply (alike_bind none_of p v u u' (eval w n (XLet py c r)) (eval w n (XLet py (peel c) r)) (OBrk None VUnit, u) (OBrk None VUnit, u')); [auto| |split; auto].
      intros q q' Q. cbn [eval]. rewrite peel_eval. apply (eval_off w n (XLet py c r)); [discriminate|auto].
  - unfold rust in R. cbn [shape] in R. apply andb_true_iff in R. destruct R as [R R2]. apply andb_true_iff in R. destruct R as [R1 R3]. apply loop_while; [|auto]. clear N. intros t N. rewrite while_bind by auto.
    unfold attempt. cbn [eval]. apply alike_next; [apply alike_refl|]. intros v u u' X.
    apply (alike_bind none_of p v u u' (eval w n r) (eval w n r) _ (OBrk None VUnit, u')); [auto| |rewrite simple_break_eval by auto; split; auto].
    intros q q' Q. apply eval_off; [discriminate|auto].
  - unfold rust in R. cbn [shape] in R. apply andb_true_iff in R. destruct R as [R1 R2]. destruct (rust_parts _ _ _ _ L R1) as [RE RC].
    apply loop_while; [|auto]. clear N. intros t N.
    assert (NI : fst (eval w n i t) <> OStuck) by (intros Q; apply N; cbn [eval]; destruct (eval w n i t); cbn in Q; subst; reflexivity).
    pose proof (let_or_break_ok w n i p e c t L R1 NI) as A. rewrite while_bind; [|auto|unfold rust; cbn [shape]; rewrite RC; auto].
    eapply alike_trans; [|apply attempt_seq].
    + cbn [eval]. apply alike_next; [exact A|]. intros v u u' X. apply eval_ext; auto.
    + intros x X. specialize (U _ _ _ _ eq_refl X). cbn [uses] in U. apply orb_false_iff in U. tauto.
  - destruct (rust_parts _ _ _ _ L R) as [RE RC]. apply loop_while; [|auto]. clear N. intros t N. rewrite while_bind by auto. apply let_or_break_ok; auto.
Qed.
