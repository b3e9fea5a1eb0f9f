(** Proofs about redundant `let`, swaps and assignment operators. *)
From Verif Require Import BlkSpec BlkEnv BlkModel BlkProofs BlkProofs2 BlkProofs3.

(** ** Programs the compiler accepts. *)
Lemma next_stuck : forall r k, fst (next r k) <> OStuck -> fst r <> OStuck.
Proof. intros [o s] k H E. cbn in E. subst o. apply H. reflexivity. Qed.
Lemma ok_next : forall X r k k', (forall v s, r = (OVal v, s) -> fst (k v s) <> OStuck -> alike X (k v s) (k' v s)) -> fst (next r k) <> OStuck -> alike X (next r k) (next r k').
Proof. intros X [o s] k k' H N. rewrite !next_pair in *. destruct o; try apply alike_refl. auto. Qed.

Lemma drop_local_ok : forall w n x b b' s, drop_local x b = Some b' -> fst (eval w n b s) <> OStuck -> alike (only x) (eval w n b s) (eval w n b' s).
Proof.
  intros w n x. induction b; intros b' s H N; try discriminate; cbn [drop_local] in H.
  - destruct (drop_local x b2) eqn:E; [|discriminate]. injection H as <-. cbn [eval] in *. apply ok_next; auto.
  - destruct (x0 =? x) eqn:Q; [discriminate|]. destruct (drop_local x b) eqn:E; [|discriminate]. injection H as <-. cbn [eval] in *.
    apply leave_only; [apply agree_refl| |apply IHb; auto]. cbn. rewrite orb_false_r, Nat.eqb_sym. auto.
  - assert (G : forall a, (if mem x (pvars p) then None else option_map (XLet p a) (drop_local x b2)) = Some b' -> a = b1 -> alike (only x) (eval w n (XLet p b1 b2) s) (eval w n b' s)).
    { intros a H' ->. destruct (mem x (pvars p)) eqn:M; [discriminate|]. destruct (drop_local x b2) as [c|] eqn:E; [|discriminate]. injection H' as <-. cbn [eval] in *.
      apply ok_next; auto. intros v t _ NS. destruct (pbind p v (fst t)); [|apply alike_refl]. apply leave_only; [apply agree_refl|auto|apply IHb2; auto]. }
    destruct p; try (apply (G b1); auto; fail). destruct b1; try (eapply G; [exact H|reflexivity]).
    destruct ((x0 =? x) && (x1 =? x)) eqn:Q.
    + apply andb_true_iff in Q. destruct Q as [Q1 Q2]. apply Nat.eqb_eq in Q1, Q2. subst x0 x1. injection H as <-. cbn [eval pbind pvars] in *.
      assert (NH : fst s x <> VHole) by (intros Q; rewrite Q in N; apply N; reflexivity). rewrite given_solid, next_pair in * by auto.
      destruct (eval_ext w n b2 (upd (fst s) x (fst s x), snd s) s) as [C1 [C2 C3]].
      { split; [auto|]. intros y _. cbn. unfold upd. destruct (y =? x) eqn:E; auto. apply Nat.eqb_eq in E. subst. auto. }
      split; [exact C1|]. split; [exact C2|]. intros y Y. cbn. unfold only in Y. rewrite Y. cbn. auto.
    + apply (G (XVar x1)); auto. cbn [pvars mem existsb]. rewrite orb_false_r, Nat.eqb_sym. auto.
  - destruct (mem x (pvars p)) eqn:M; [discriminate|]. destruct (drop_local x b3) as [c|] eqn:E; [|discriminate]. injection H as <-. cbn [eval] in *.
    apply ok_next; auto. intros v t _ NS. destruct (pbind p v (fst t)); [|apply alike_refl]. apply leave_only; [apply agree_refl|auto|apply IHb3; auto].
Qed.
Lemma redundant_local_ok : forall x e e', redundant_local x e = Some e' -> same_ok e e'.
Proof.
  intros x e e' H w n s N. destruct e; try discriminate. cbn [redundant_local] in H. destruct (mem x (pvars p)) eqn:M; [|discriminate].
  destruct (drop_local x e2) as [c|] eqn:E; [|discriminate]. injection H as <-. cbn [eval] in *. apply ok_next; auto. intros v t _ NS.
  destruct (pbind p v (fst t)) as [f|]; [|apply alike_refl]. destruct (drop_local_ok w n x e2 c (f, snd t) E) as [C1 [C2 C3]]; [auto|]. split; [exact C1|]. split; [exact C2|].
  intros y _. cbn. destruct (mem y (pvars p)) eqn:My; [auto|]. apply C3. unfold only. apply Nat.eqb_neq. congruence.
Qed.

(** ** Assignment operators. *)
Lemma bin_comm : forall o v w, commutes o = true -> bin o v w = bin o w v.
Proof.
  intros o v w C. destruct o; try discriminate; destruct v, w; cbn; auto;
    [rewrite Z.add_comm|rewrite Z.mul_comm|rewrite Z.lxor_comm|rewrite Z.land_comm|rewrite Z.lor_comm]; auto.
Qed.
Lemma bin_out : forall o v w, match bin o v w with OVal _ | OPanic | OStuck => True | _ => False end.
Proof. intros o v w. destruct o, v; cbn; auto; destruct w; auto; destruct (z0 =? 0)%Z; auto. Qed.
Lemma is_var_eq : forall x e, is_var x e = true -> e = XVar x.
Proof. intros x e H. destruct e; try discriminate. cbn in H. apply Nat.eqb_eq in H. congruence. Qed.
Lemma assign_op_pattern_ok : forall e e', assign_op_pattern e = Some e' -> same_ok e e'.
Proof.
  intros e e' H w n s N. destruct e; try discriminate. destruct e; try discriminate. cbn [assign_op_pattern] in H. destruct (has_assign o); [|discriminate].
  destruct (is_var x e1 && negb (uses x e2)) eqn:G.
  - injection H as <-. apply andb_true_iff in G. destruct G as [G1 G2]. apply is_var_eq in G1. subst e1. apply negb_true_iff in G2. cbn [eval] in *.
    assert (NH : fst s x <> VHole) by (intros Q; rewrite Q in N; apply N; reflexivity). rewrite given_solid, next_pair in * by auto.
    pose proof (eval_keeps w n e2 x s (uses_changes _ _ G2)) as K. rewrite next_next in *. destruct (eval w n e2 s) as [p t]. rewrite !next_pair in *. cbn in K.
    destruct p; try apply alike_refl. rewrite <- K in *. pose proof (bin_out o (fst t x) v) as B. rewrite next_pair in *. destruct (bin o (fst t x) v); try tauto; apply alike_refl.
  - destruct (is_var x e2 && negb (uses x e1) && commutes o) eqn:G'; [|discriminate]. injection H as <-. apply andb_true_iff in G'. destruct G' as [G' C].
    apply andb_true_iff in G'. destruct G' as [G1 G2]. apply is_var_eq in G1. subst e2. apply negb_true_iff in G2. cbn [eval] in *. rewrite !next_next in *.
    destruct (eval w n e1 s) as [p t]. rewrite !next_pair in *. destruct p; try apply alike_refl.
    assert (NH : fst t x <> VHole) by (intros Q; rewrite Q in N; apply N; reflexivity). rewrite given_solid, !next_pair in * by auto.
    rewrite (bin_comm o (fst t x)) by auto. pose proof (bin_out o v (fst t x)) as B. destruct (bin o v (fst t x)); try tauto; apply alike_refl.
Qed.
(** The second suggestion: the assignment written out. *)
Lemma misrefactored_ok : forall o x l r e1 e2, misrefactored_assign_op (XAsgOp o x (XBin o l r)) = Some (e1, e2) ->
  changes x l = false -> changes x r = false -> forall w n s, fst s x <> VHole -> alike none_of (eval w n (XAsgOp o x (XBin o l r)) s) (eval w n e2 s).
Proof.
  intros o x l r e1 e2 H C1 C2 w n s NH.
  assert (E : e2 = XAsg x (XBin o (XVar x) (XBin o l r))).
  { cbn [misrefactored_assign_op] in H. replace (op_eqb o o) with true in H by (destruct o; auto). destruct (is_var x l); [congruence|]. destruct (commutes o && is_var x r); congruence. }
  subst e2. clear H. assert (K : fst (snd (eval w n (XBin o l r) s)) x = fst s x) by (apply eval_keeps; cbn; rewrite C1, C2; auto).
  change (eval w n (XAsgOp o x (XBin o l r)) s) with (next (eval w n (XBin o l r) s) (fun v s => match bin o (fst s x) v with OVal w => (OVal VUnit, setv s x w) | o => (o, s) end)) in *.
  change (eval w n (XAsg x (XBin o (XVar x) (XBin o l r))) s) with (next (next (given (fst s x) s) (fun v s => next (eval w n (XBin o l r) s) (fun w s => (bin o v w, s)))) (fun v s => (OVal VUnit, setv s x v))).
  rewrite given_solid, (next_pair (OVal (fst s x))) by auto. destruct (eval w n (XBin o l r) s) as [p t] eqn:E. cbn in K. rewrite !next_pair.
  destruct p; rewrite ?next_pair; try apply alike_refl.
  rewrite <- K in *. pose proof (bin_out o (fst t x) v) as B. destruct (bin o (fst t x) v); try tauto; apply alike_refl.
Qed.

(** ** Swaps. *)
Lemma setv_get : forall s x y v, fst (setv s x v) y = if y =? x then v else fst s y.
Proof. reflexivity. Qed.
Lemma eqv_eval : forall a b, eqv a b = true -> a = b.
Proof.
  induction a; intros b H; destruct b; try discriminate; try (destruct v; discriminate); cbn in H.
  - destruct v, v0; try discriminate. apply Z.eqb_eq in H. congruence.
  - apply Nat.eqb_eq in H. congruence.
  - apply andb_true_iff in H. destruct H as [H H3]. apply andb_true_iff in H. destruct H as [H H2]. assert (o = o0) by (destruct o, o0; auto; discriminate).
    rewrite (IHa1 _ H2), (IHa2 _ H3). congruence.
  - apply andb_true_iff in H. destruct H as [H H2]. apply Nat.eqb_eq in H. rewrite (IHa _ H2). congruence.
  - apply Nat.eqb_eq in H. congruence.
Qed.
(** Such expressions change nothing, and have the same value while the variables in them do. *)
Lemma eqv_pure : forall w n a s, eqv a a = true -> snd (eval w n a s) = s /\ (match fst (eval w n a s) with OVal _ | OPanic | OStuck => True | _ => False end).
Proof.
  intros w n. induction a; intros s H; try discriminate; cbn [eqv] in H; cbn [eval].
  - destruct v; cbn; auto.
  - destruct (fst s x); cbn; auto.
  - apply andb_true_iff in H. destruct H as [H H3]. apply andb_true_iff in H. destruct H as [H H2].
    destruct (IHa1 s H2) as [A1 A2]. destruct (eval w n a1 s) as [o1 t]. cbn in A1, A2. subst t. rewrite next_pair. destruct o1; try tauto; try (cbn; auto; fail).
    destruct (IHa2 s H3) as [B1 B2]. destruct (eval w n a2 s) as [o2 t]. cbn in B1, B2. subst t. rewrite next_pair. destruct o2; try tauto; try (cbn; auto; fail). cbn. split; [auto|apply bin_out].
  - apply andb_true_iff in H. destruct H as [_ H]. destruct (IHa s H) as [A1 A2]. destruct (eval w n a s) as [o t]. cbn in A1, A2. subst t. rewrite next_pair. destruct o; try tauto; try (cbn; auto; fail).
    destruct (fst s x); try (cbn; auto; fail). destruct v; try (cbn; auto; fail). destruct (at_ l z) as [u|]; [destruct u|]; cbn; auto.
  - destruct (fst s x); cbn; auto.
Qed.
Lemma eqv_refl_l : forall a b, eqv a b = true -> eqv a a = true.
Proof. intros a b H. pose proof (eqv_eval _ _ H). subst. auto. Qed.
Lemma close' : forall w n x e r s s', uses x e = false -> fst s' x = fst s x -> alike (only x) r (eval w n e s') ->
  alike none_of (leave [x] s r) (eval w n e s').
Proof.
  intros w n x e r s s' U S [B1 [B2 B3]]. split; [exact B1|]. split; [exact B2|]. intros y _. cbn. rewrite orb_false_r. destruct (y =? x) eqn:E.
  - apply Nat.eqb_eq in E. subst y. rewrite eval_keeps by (apply uses_changes; auto). auto.
  - apply B3. auto.
Qed.
Lemma swap_solid : forall w n s x y, (x =? y) = false -> fst s x <> VHole -> fst s y <> VHole ->
  eval w n (XSwap x y) s = (OVal VUnit, setv (setv s x (fst s y)) y (fst s x)).
Proof. intros w n s x y E A B. cbn [eval]. rewrite E. destruct (fst s x), (fst s y); congruence. Qed.
Lemma swap_vars_ok : forall t x y r s, t <> x -> t <> y -> x <> y -> uses t r = false ->
  forall w n, fst (eval w n (XLet (PVar t) (XVar x) (XSeq (XAsg x (XVar y)) (XSeq (XAsg y (XVar t)) r))) s) <> OStuck ->
  alike none_of (eval w n (XLet (PVar t) (XVar x) (XSeq (XAsg x (XVar y)) (XSeq (XAsg y (XVar t)) r))) s) (eval w n (XSeq (XSwap x y) r) s).
Proof.
  intros t x y r s TX TY XY U w n N. apply Nat.eqb_neq in TX, TY, XY. assert (YT := TY). assert (XT := TX). assert (YX := XY). rewrite Nat.eqb_sym in YT, XT, YX.
  assert (NX : fst s x <> VHole) by (intros Q; apply N; cbn [eval]; rewrite Q; reflexivity).
  assert (NY : fst s y <> VHole).
  { intros Q. apply N. cbn [eval pbind pvars]. rewrite given_solid, next_pair by auto. cbn [fst]. unfold upd at 1. rewrite YT, Q. reflexivity. }
  change (eval w n (XSeq (XSwap x y) r) s) with (next (eval w n (XSwap x y) s) (fun _ t => eval w n r t)). rewrite swap_solid, next_pair by auto. clear N.
  cbn [eval pbind pvars]. rewrite given_solid, next_pair by auto.
  change (upd (fst s) t (fst s x), snd s) with (setv s t (fst s x)).
  rewrite !setv_get, YT, given_solid, !next_pair, !setv_get, TX, Nat.eqb_refl, given_solid, !next_pair by auto. apply close'; [auto| |].
  - rewrite !setv_get, TX, TY. auto.
  - apply eval_off; [apply only_uses; auto|]. split; [auto|]. intros z Z. unfold only in Z. rewrite !setv_get, Z. auto.
Qed.
Lemma put_some : forall l i v j, nth_error l j <> None -> nth_error (put l i v) j <> None.
Proof. induction l; intros i v j H; destruct i, j; cbn in *; auto; congruence. Qed.
Lemma at_put : forall l i v j, at_ l j <> None -> at_ (put_at l i v) j <> None.
Proof. unfold at_, put_at. intros l i v j H. destruct (j <? 0)%Z; [auto|]. apply put_some; auto. Qed.
Lemma pure_at : forall w n a s s', eqv a a = true -> snd s' = snd s -> (forall z, uses z a = true -> fst s' z = fst s z) -> eval w n a s' = (fst (eval w n a s), s').
Proof.
  intros w n a s s' E L A. destruct (eqv_pure w n a s' E) as [P _].
  destruct (eval_off w n a (fun z => negb (uses z a)) s' s) as [B1 _].
  - intros z Z. apply negb_true_iff. auto.
  - split; [auto|]. intros z Z. apply A. destruct (uses z a); [auto|discriminate].
  - transitivity (fst (eval w n a s'), snd (eval w n a s')); [apply surjective_pairing|]. rewrite P, B1. auto.
Qed.
Lemma swap_idx_ok : forall t x i j r s, t <> x -> eqv i i = true -> eqv j j = true -> uses t i = false -> uses t j = false -> uses x i = false -> uses x j = false -> uses t r = false ->
  forall w n, let e := XLet (PVar t) (XIdx x i) (XSeq (XAsgIdx x i (XIdx x j)) (XSeq (XAsgIdx x j (XVar t)) r)) in fst (eval w n e s) <> OStuck ->
  fst (eval w n (XSeq (XSwapIdx x i j) r) s) <> OStuck -> alike none_of (eval w n e s) (eval w n (XSeq (XSwapIdx x i j) r) s).
Proof.
  intros t x i j r s TX EI EJ TI TJ XI XJ U w n e N N'. unfold e in *. clear e. apply Nat.eqb_neq in TX. assert (XT := TX). rewrite Nat.eqb_sym in XT. cbn [eval pbind pvars] in *.
  destruct (eqv_pure w n i s EI) as [_ PI]. destruct (eqv_pure w n j s EJ) as [_ PJ].
  assert (VI : forall v u, eval w n i (setv (setv s t v) x u) = (fst (eval w n i s), setv (setv s t v) x u)).
  { intros. apply pure_at; auto. intros z Z. rewrite !setv_get. destruct (z =? x) eqn:E1; [apply Nat.eqb_eq in E1; congruence|]. destruct (z =? t) eqn:E2; [apply Nat.eqb_eq in E2; congruence|]. auto. }
  assert (VJ : forall v u, eval w n j (setv (setv s t v) x u) = (fst (eval w n j s), setv (setv s t v) x u)).
  { intros. apply pure_at; auto. intros z Z. rewrite !setv_get. destruct (z =? x) eqn:E1; [apply Nat.eqb_eq in E1; congruence|]. destruct (z =? t) eqn:E2; [apply Nat.eqb_eq in E2; congruence|]. auto. }
  assert (VI1 : forall v, eval w n i (setv s t v) = (fst (eval w n i s), setv s t v)).
  { intros. apply pure_at; auto. intros z Z. rewrite !setv_get. destruct (z =? t) eqn:E2; [apply Nat.eqb_eq in E2; congruence|]. auto. }
  assert (VJ1 : forall v, eval w n j (setv s t v) = (fst (eval w n j s), setv s t v)).
  { intros. apply pure_at; auto. intros z Z. rewrite !setv_get. destruct (z =? t) eqn:E2; [apply Nat.eqb_eq in E2; congruence|]. auto. }
  assert (VI0 : eval w n i s = (fst (eval w n i s), s)) by (apply pure_at; auto).
  assert (VJ0 : eval w n j s = (fst (eval w n j s), s)) by (apply pure_at; auto).
  destruct (fst (eval w n i s)) as [vi| | | | | | |]; try tauto; rewrite VI0, next_pair in *; try (apply alike_refl); try (exfalso; apply N; reflexivity).
  rewrite (next_pair (OVal vi)).
  destruct (fst s x) as [| | | | | |l|] eqn:SX; try (exfalso; apply N; reflexivity). destruct vi as [| |a| | | | |]; try (exfalso; apply N; reflexivity).
  destruct (at_ l a) as [u|] eqn:A1.
  - assert (NU : u <> VHole) by (intros ->; apply N; reflexivity). rewrite given_solid, next_pair in * by auto.
    change (upd (fst s) t u, snd s) with (setv s t u) in *. rewrite VJ1, next_pair in *.
    destruct (fst (eval w n j s)) as [vj| | | | | | |]; try tauto; rewrite VJ0, next_pair in *; try (exfalso; apply N; reflexivity).
    + rewrite !setv_get, XT, SX in *. destruct vj as [| |b| | | | |]; try (exfalso; apply N; reflexivity). destruct (at_ l b) as [v|] eqn:A2.
      * assert (NV : v <> VHole) by (intros ->; apply N; reflexivity). rewrite given_solid, !next_pair in * by auto.
        rewrite VI1, next_pair, setv_get, XT, SX, A1 in *. rewrite next_pair in *. rewrite setv_get, TX, setv_get, Nat.eqb_refl, given_solid, !next_pair, VJ, !next_pair, setv_get, Nat.eqb_refl in * by auto.
        destruct (at_ (put_at l a v) b) eqn:A3; [|exfalso; eapply at_put; [|exact A3]; congruence]. rewrite next_pair in *. rewrite ?SX, ?A1, ?A2, ?next_pair.
        apply close'; [auto| |].
        -- rewrite setv_get, TX. auto.
        -- apply eval_off; [apply only_uses; auto|]. split; [auto|]. intros z Z. unfold only in Z. rewrite !setv_get, Z. destruct (z =? x); auto.
      * rewrite !next_pair in *. rewrite ?SX, ?A1, ?A2, ?next_pair. split; [auto|]. split; [auto|]. intros z _. cbn. unfold upd. rewrite orb_false_r. destruct (z =? t) eqn:E; auto.
    + rewrite !next_pair in *. split; [auto|]. split; [auto|]. intros z _. cbn. unfold upd. rewrite orb_false_r. destruct (z =? t) eqn:E; auto.
  - rewrite next_pair in *.
    destruct (fst (eval w n j s)) as [vj| | | | | | |]; try tauto; rewrite VJ0, next_pair in *; try apply alike_refl; try (exfalso; apply N'; reflexivity).
    rewrite SX, A1 in *. destruct vj; try (exfalso; apply N'; reflexivity). apply alike_refl.
Qed.
Lemma manual_swap_ok : forall e e', manual_swap e = Some e' ->
  (forall t a b, e = XLet (PVar t) a b -> uses t e' = false) ->
  (forall x i j r, e' = XSeq (XSwapIdx x i j) r -> uses x i = false /\ uses x j = false) -> same_typed e e'.
Proof.
  intros e e' H T X w n s N N'. destruct e; try discriminate. destruct p as [|t| | |]; try discriminate. destruct e1; try discriminate.
  - destruct e2; try discriminate. destruct e2_1; try discriminate. destruct e2_1; try discriminate. destruct e2_2; try discriminate. destruct e2_2_1; try discriminate. destruct e2_2_1; try discriminate.
    cbn [manual_swap] in H. destruct (_ && _) eqn:C in H; [|discriminate]. injection H as <-. rewrite !andb_true_iff, !negb_true_iff, !Nat.eqb_eq, !Nat.eqb_neq in C. destruct C as [[[[[C1 C2] C3] C4] C5] C6]. subst.
    specialize (T _ _ _ eq_refl). cbn in T. apply orb_false_iff in T. apply swap_vars_ok; tauto.
  - destruct e2; try discriminate. destruct e2_1; try discriminate. destruct e2_1_2; try discriminate. destruct e2_2; try discriminate. destruct e2_2_1; try discriminate. destruct e2_2_1_2; try discriminate.
    cbn [manual_swap] in H. destruct (_ && _) eqn:C in H; [|discriminate]. injection H as <-. rewrite !andb_true_iff, !negb_true_iff, !Nat.eqb_eq, !Nat.eqb_neq in C. destruct C as [[[[[[[[C1 C2] C3] C4] C5] C6] C7] C8] C9]. subst.
    pose proof (eqv_eval _ _ C5). pose proof (eqv_eval _ _ C6). subst.
    specialize (T _ _ _ eq_refl). cbn in T. apply orb_false_iff in T. destruct (X _ _ _ _ eq_refl). apply swap_idx_ok; tauto.
Qed.
Lemma manual_swap_vars_ok : forall t x a e', manual_swap (XLet (PVar t) (XVar x) a) = Some e' -> uses t e' = false -> same_ok (XLet (PVar t) (XVar x) a) e'.
Proof.
  intros t x e2 e' H T w n s N.
  destruct e2; try discriminate. destruct e2_1; try discriminate. destruct e2_1; try discriminate. destruct e2_2; try discriminate. destruct e2_2_1; try discriminate. destruct e2_2_1; try discriminate.
  cbn [manual_swap] in H. destruct (_ && _) eqn:C in H; [|discriminate]. injection H as <-. rewrite !andb_true_iff, !negb_true_iff, !Nat.eqb_eq, !Nat.eqb_neq in C. destruct C as [[[[[C1 C2] C3] C4] C5] C6]. subst.
  cbn in T. apply orb_false_iff in T. apply swap_vars_ok; tauto.
Qed.
Lemma lxor_back : forall a b, Z.lxor b (Z.lxor a b) = a.
Proof. intros. rewrite (Z.lxor_comm a b), <- Z.lxor_assoc, Z.lxor_nilpotent. apply Z.lxor_0_l. Qed.
Lemma lxor_back' : forall a b, Z.lxor (Z.lxor a b) a = b.
Proof. intros. rewrite (Z.lxor_comm a b), Z.lxor_assoc, Z.lxor_nilpotent. apply Z.lxor_0_r. Qed.
Lemma xor_out : forall v w, bin OXor v w = OStuck \/ exists a b, v = VInt a /\ w = VInt b.
Proof. intros. destruct v; auto. destruct w; auto. right. eauto. Qed.
Lemma xor_vars_ok : forall x y r, x <> y ->
  same_ok (XSeq (XAsgOp OXor x (XVar y)) (XSeq (XAsgOp OXor y (XVar x)) (XSeq (XAsgOp OXor x (XVar y)) r))) (XSeq (XSwap x y) r).
Proof.
  intros x y r XY w n s N. apply Nat.eqb_neq in XY. assert (YX := XY). rewrite Nat.eqb_sym in YX.
  assert (V : exists a b, fst s x = VInt a /\ fst s y = VInt b).
  { cbn [eval] in N. destruct (fst s y) eqn:Y; try (exfalso; apply N; cbn; destruct (fst s x); reflexivity). destruct (fst s x) eqn:X; try (exfalso; apply N; cbn; rewrite X; reflexivity). eauto. }
  destruct V as [a [b [X Y]]]. clear N. cbn [eval]. do 8 (rewrite ?next_pair, ?setv_get, ?Nat.eqb_refl, ?XY, ?YX, ?X, ?Y; cbn [given bin]). rewrite lxor_back, lxor_back'.
  apply eval_off; [discriminate|]. split; [auto|]. intros z _. rewrite !setv_get. destruct (z =? x) eqn:E1, (z =? y) eqn:E2; auto. apply Nat.eqb_eq in E1. subst. congruence.
Qed.
Lemma nth_put : forall l i v j, nth_error (put l i v) j = if i =? j then match nth_error l i with Some _ => Some v | None => None end else nth_error l j.
Proof. induction l; intros i v j; destruct i, j; cbn; auto. destruct (i =? j); auto. Qed.
Lemma nth_ext : forall (l l' : list val), (forall i, nth_error l i = nth_error l' i) -> l = l'.
Proof. induction l; intros l' H; destruct l'; auto; try (specialize (H 0); discriminate). pose proof (H 0) as A. cbn in A. injection A as ->. f_equal. apply IHl. intros i. apply (H (S i)). Qed.
Lemma at_put' : forall l a v b, at_ l a <> None -> (0 <= b)%Z -> at_ (put_at l a v) b = if (a =? b)%Z then Some v else at_ l b.
Proof.
  unfold at_, put_at. intros l a v b A B. destruct (a <? 0)%Z eqn:E; [congruence|]. apply Z.ltb_ge in E. assert (F : (b <? 0)%Z = false) by (apply Z.ltb_ge; auto). rewrite F, nth_put.
  destruct (a =? b)%Z eqn:G.
  - apply Z.eqb_eq in G. subst. rewrite Nat.eqb_refl. destruct (nth_error l (Z.to_nat b)); congruence.
  - apply Z.eqb_neq in G. destruct (Z.to_nat a =? Z.to_nat b) eqn:K; auto. apply Nat.eqb_eq in K. lia.
Qed.
Lemma at_nonneg : forall l a u, at_ l a = Some u -> (0 <= a)%Z.
Proof. unfold at_. intros l a u H. destruct (a <? 0)%Z eqn:E; [discriminate|]. apply Z.ltb_ge in E. auto. Qed.
Lemma put3 : forall l a b u v w, (0 <= a)%Z -> (0 <= b)%Z -> a <> b -> put_at (put_at (put_at l a w) b u) a v = put_at (put_at l a v) b u.
Proof.
  unfold put_at. intros l a b u v w A B AB. assert (AB' : Z.to_nat a <> Z.to_nat b) by lia. generalize dependent (Z.to_nat a). generalize dependent (Z.to_nat b). clear. intros j i AB. apply nth_ext. intros k.
  rewrite !nth_put. apply Nat.eqb_neq in AB. assert (BA := AB). rewrite Nat.eqb_sym in BA. rewrite BA, AB, Nat.eqb_refl.
  destruct (i =? k) eqn:K1.
  - apply Nat.eqb_eq in K1. subst k. rewrite BA. destruct (nth_error l i); auto.
  - destruct (j =? k) eqn:K2; auto.
Qed.
Lemma xor_idx_ok : forall x i j r s, eqv i i = true -> eqv j j = true -> uses x i = false -> uses x j = false ->
  forall w n, fst (eval w n i s) <> fst (eval w n j s) ->
  let e := XSeq (XOpIdx OXor x i (XIdx x j)) (XSeq (XOpIdx OXor x j (XIdx x i)) (XSeq (XOpIdx OXor x i (XIdx x j)) r)) in fst (eval w n e s) <> OStuck ->
  fst (eval w n (XSeq (XSwapIdx x i j) r) s) <> OStuck -> alike none_of (eval w n e s) (eval w n (XSeq (XSwapIdx x i j) r) s).
Proof.
  intros x i j r s EI EJ XI XJ w n D e N N'. unfold e in *. clear e. cbn [eval] in *.
  destruct (eqv_pure w n i s EI) as [_ PI]. destruct (eqv_pure w n j s EJ) as [_ PJ].
  assert (VI : forall u, eval w n i (setv s x u) = (fst (eval w n i s), setv s x u)).
  { intros. apply pure_at; auto. intros z Z. rewrite !setv_get. destruct (z =? x) eqn:E1; [apply Nat.eqb_eq in E1; congruence|]. auto. }
  assert (VJ : forall u, eval w n j (setv s x u) = (fst (eval w n j s), setv s x u)).
  { intros. apply pure_at; auto. intros z Z. rewrite !setv_get. destruct (z =? x) eqn:E1; [apply Nat.eqb_eq in E1; congruence|]. auto. }
  assert (VI2 : forall p q, eval w n i (setv (setv s x p) x q) = (fst (eval w n i s), setv (setv s x p) x q)).
  { intros. apply pure_at; auto. intros z Z. rewrite !setv_get. destruct (z =? x) eqn:E1; [apply Nat.eqb_eq in E1; congruence|]. auto. }
  assert (VJ2 : forall p q, eval w n j (setv (setv s x p) x q) = (fst (eval w n j s), setv (setv s x p) x q)).
  { intros. apply pure_at; auto. intros z Z. rewrite !setv_get. destruct (z =? x) eqn:E1; [apply Nat.eqb_eq in E1; congruence|]. auto. }
  assert (VI0 : eval w n i s = (fst (eval w n i s), s)) by (apply pure_at; auto).
  assert (VJ0 : eval w n j s = (fst (eval w n j s), s)) by (apply pure_at; auto).
  destruct (fst (eval w n i s)) as [vi| | | | | | |] eqn:FI; try tauto; rewrite VI0 in *; try rewrite next_pair in N'; try (exfalso; apply N'; reflexivity).
  - destruct (fst (eval w n j s)) as [vj| | | | | | |] eqn:FJ; try tauto; rewrite VJ0 in *; rewrite !next_pair in *; try (do 4 (rewrite ?VI0, ?VJ0, ?next_pair); apply alike_refl); try (exfalso; apply N'; reflexivity).
    destruct (fst s x) as [| | | | | |l|] eqn:SX; try (exfalso; apply N'; reflexivity).
    destruct vi as [| |a| | | | |]; try (exfalso; apply N'; reflexivity). destruct vj as [| |b| | | | |]; try (exfalso; apply N'; reflexivity).
    assert (AB : a <> b) by congruence. clear D.
    destruct (at_ l b) as [v|] eqn:AT2.
    + assert (NV : v <> VHole) by (intros ->; apply N; reflexivity). rewrite given_solid, !next_pair, VI0, !next_pair, SX in * by auto.
      destruct (at_ l a) as [u|] eqn:AT1; [|do 4 (rewrite ?VI0, ?VJ0, ?next_pair, ?SX, ?AT1, ?AT2); apply alike_refl].
      pose proof (at_nonneg _ _ _ AT1) as PA. pose proof (at_nonneg _ _ _ AT2) as PB.
      destruct (xor_out u v) as [Q|[ua [vb [-> ->]]]]; [exfalso; apply N; rewrite Q; reflexivity|]. cbn [bin] in N |- *.
      rewrite !next_pair, VI, !next_pair, setv_get, Nat.eqb_refl in *.
      assert (BA : (b =? a)%Z = false) by (apply Z.eqb_neq; auto). assert (AB' : (a =? b)%Z = false) by (apply Z.eqb_neq; auto).
      rewrite at_put', Z.eqb_refl in * by (auto; congruence). cbn [given] in N |- *. rewrite !next_pair, VJ, !next_pair, setv_get, Nat.eqb_refl in *. rewrite at_put', AB', AT2 in * by (auto; congruence).
      cbn [bin] in N |- *. rewrite !next_pair, lxor_back in *.
      rewrite VJ2, !next_pair, setv_get, Nat.eqb_refl in *.
      assert (NB : at_ (put_at l a (VInt (Z.lxor ua vb))) b <> None) by (rewrite at_put', AB', AT2; auto; congruence).
      rewrite at_put', Z.eqb_refl in * by auto. cbn [given] in N |- *. rewrite !next_pair, VI2, !next_pair, setv_get, Nat.eqb_refl in *.
      rewrite at_put', BA, at_put', Z.eqb_refl in * by (auto; congruence). cbn [bin] in N |- *. rewrite !next_pair, lxor_back', put3 in * by auto.
      do 4 (rewrite ?VI0, ?VJ0, ?next_pair, ?SX, ?AT1, ?AT2). apply eval_off; [discriminate|]. split; [auto|]. intros z _. rewrite !setv_get. destruct (z =? x); auto.
    + do 4 (rewrite ?VI0, ?VJ0, ?next_pair, ?SX, ?AT1, ?AT2). destruct (at_ l a); rewrite !next_pair; apply alike_refl.
  - destruct (fst (eval w n j s)) as [vj| | | | | | |] eqn:FJ; try tauto; rewrite VJ0 in *; rewrite !next_pair in *; try (do 4 (rewrite ?VI0, ?VJ0, ?next_pair); apply alike_refl); try (exfalso; apply N; reflexivity).
    destruct (fst s x) as [| | | | | |l|] eqn:SX; try (exfalso; apply N; reflexivity).
    destruct vj as [| |b| | | | |]; try (exfalso; apply N; reflexivity). destruct (at_ l b) as [v|]; rewrite ?next_pair in *; [|do 4 (rewrite ?VI0, ?VJ0, ?next_pair); apply alike_refl].
    destruct v; try (exfalso; apply N; reflexivity); cbn [given]; rewrite !next_pair, VI0, !next_pair; apply alike_refl.
Qed.
Lemma xor_swap_ok : forall e e', xor_swap e = Some e' ->
  (forall x i j r, e' = XSeq (XSwapIdx x i j) r -> uses x i = false /\ uses x j = false /\ forall w n s, fst (eval w n i s) <> fst (eval w n j s)) -> same_typed e e'.
Proof.
  intros e e' H X w n s N N'. destruct e; try discriminate. destruct e1; try discriminate; cbn [xor_swap] in H; destruct o; try discriminate.
  - destruct e1; try discriminate. destruct e2; try discriminate. destruct e2_1; try discriminate. destruct o; try discriminate. destruct e2_1; try discriminate.
    destruct e2_2; try discriminate. destruct e2_2_1; try discriminate. destruct o; try discriminate. destruct e2_2_1; try discriminate.
    destruct (_ && _) eqn:C in H; [|discriminate]. injection H as <-. rewrite !andb_true_iff, !negb_true_iff, !Nat.eqb_eq, !Nat.eqb_neq in C. destruct C as [[[[C1 C2] C3] C4] C5]. subst.
    apply xor_vars_ok; auto.
  - destruct e1_2; try discriminate. destruct e2; try discriminate. destruct e2_1; try discriminate. destruct o; try discriminate. destruct e2_1_2; try discriminate.
    destruct e2_2; try discriminate. destruct e2_2_1; try discriminate. destruct o; try discriminate. destruct e2_2_1_2; try discriminate.
    destruct (_ && _) eqn:C in H; [|discriminate]. injection H as <-. rewrite !andb_true_iff, !Nat.eqb_eq in C. destruct C as [[[[[[[[C1 C2] C3] C4] C5] C6] C7] C8] C9]. subst.
    pose proof (eqv_eval _ _ C6). pose proof (eqv_eval _ _ C7). pose proof (eqv_eval _ _ C8). pose proof (eqv_eval _ _ C9). subst. destruct (X _ _ _ _ eq_refl) as [X1 [X2 X3]]. apply xor_idx_ok; auto.
Qed.
(** The second of the two assignments does nothing: this was not a swap. *)
Lemma almost_swapped_ok : forall a b r e', almost_swapped (XSeq a (XSeq b r)) = Some e' -> same_ok (XSeq a (XSeq b r)) (XSeq a r) /\ exists x y, a = XAsg x (XVar y) /\ e' = XSeq (XSwap x y) r.
Proof.
  intros a b r e' H. cbn [almost_swapped] in H. destruct a as [| | | | | | | | | | | | | | | |x a| | | | | | | | | | | | | | | | | | | | | |]; try discriminate. destruct a; try discriminate. destruct b as [| | | | | | | | | | | | | | | |y b| | | | | | | | | | | | | | | | | | | | | |]; try discriminate. destruct b; try discriminate.
  destruct (_ && _) eqn:C in H; [|discriminate]. injection H as <-. rewrite !andb_true_iff, !negb_true_iff, !Nat.eqb_eq, !Nat.eqb_neq in C. destruct C as [[C1 C2] C3]. subst. split; [|eauto].
  intros w n s N. apply Nat.eqb_neq in C3. rename x1 into u, y into z. assert (C4 := C3). rewrite Nat.eqb_sym in C4.
  cbn [eval] in *. destruct (fst s z) eqn:Z; try (exfalso; apply N; reflexivity); cbn [given] in N |- *; rewrite !next_pair, !setv_get, Nat.eqb_refl; cbn [given]; rewrite !next_pair;
    (apply eval_off; [discriminate|]; split; [auto|]; intros k _; rewrite !setv_get; destruct (k =? z) eqn:E1, (k =? u) eqn:E2; auto; apply Nat.eqb_eq in E1; apply Nat.eqb_neq in E2; subst; auto).
Qed.
