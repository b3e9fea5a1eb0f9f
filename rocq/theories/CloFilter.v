(** unnecessary_filter_map: proofs. *)
From Verif Require Export CloBind.

(** ** Spec: what may stand in the body. *)
Definition labelled (e : expr) : bool := match e with EBlock (Some _) _ _ => true | _ => false end.
Definition binds_var (x : nat) (p : pat) : bool := existsb (Nat.eqb x) (pat_vars p).
Definition binds (x : nat) (e : expr) : bool :=
  match e with
  | EIfLet p _ _ _ => binds_var x p
  | EMatch _ _ arms => existsb (fun a => match a with (p, _, _) => binds_var x p end) arms
  | EBlock _ ss _ => existsb (fun s => match s with SLet p _ _ => binds_var x p | _ => false end) ss
  | _ => false
  end.
(** The operands of the `return`s of a body have no `return` in them. *)
Definition flat_returns (b : expr) : Prop := Forall (fun a => contains_return a = false) (returned b).

(** ** Patterns bind their variables only. *)
Lemma match_all_vars : forall ps, Forall (fun p => forall v bs, match_pat p v = Some bs -> incl (map fst bs) (pat_vars p)) ps ->
  forall vs bs, match_all ps vs = Some bs -> incl (map fst bs) (flat_map pat_vars ps).
Proof.
  induction 1 as [|p ps A _ IH]; intros [|v vs] bs H; cbn in H; try discriminate; [inversion H; intros x I; destruct I|].
  destruct (match_pat p v) as [a|] eqn:M; [|discriminate]. destruct (match_all ps vs) as [b|] eqn:N; [|discriminate]. inversion H; subst.
  rewrite map_app. cbn. apply incl_app; [apply incl_appl; eauto|apply incl_appr; eauto].
Qed.
Lemma match_vars : forall p v bs, match_pat p v = Some bs -> incl (map fst bs) (pat_vars p).
Proof.
  induction p using pat_ind'; intros v bs M.
  - inversion M. apply incl_refl.
  - inversion M. apply incl_refl.
  - cbn in M. destruct (match_pat p v) as [a|] eqn:E; inversion M; subst. cbn. intros y [->|I]; [left; auto|right; eapply IHp; eauto].
  - destruct v as [| |k' vs| |]; try (destruct d; discriminate). destruct d as [n|].
    + change (match_pat (PData k ps (Some n)) (VData k' vs)) with
        (if kind_eqb k k' && (length ps <=? length vs) then match_all ps (firstn n vs ++ skipn (length vs - (length ps - n)) vs) else None) in M.
      destruct (kind_eqb k k' && (length ps <=? length vs)); [|discriminate]. eapply match_all_vars; eauto.
    + rewrite match_data in M. destruct (kind_eqb k k'); [|discriminate]. eapply match_all_vars; eauto.
  - destruct v as [| |[] vs| |]; try (destruct m; discriminate). destruct m as [m|].
    + change (match_pat (PSlice b (Some m) a) (VData KArr vs)) with
        (if length b + length a <=? length vs
         then match match_all b (firstn (length b) vs),
                 match_pat m (VData KArr (firstn (length vs - (length b + length a)) (skipn (length b) vs))),
                 match_all a (skipn (length vs - length a) vs) with
              | Some x, Some y, Some z => Some (x ++ y ++ z)
              | _, _, _ => None
              end else None) in M.
      destruct (length b + length a <=? length vs); [|discriminate].
      destruct (match_all b (firstn (length b) vs)) as [x|] eqn:E1; [|discriminate].
      destruct (match_pat m (VData KArr (firstn (length vs - (length b + length a)) (skipn (length b) vs)))) as [y|] eqn:E2; [|discriminate].
      destruct (match_all a (skipn (length vs - length a) vs)) as [z|] eqn:E3; [|discriminate]. inversion M; subst.
      rewrite !map_app. cbn [pat_vars]. pose proof (match_all_vars b H _ _ E1). pose proof (match_all_vars a H1 _ _ E3). pose proof (H0 _ _ E2).
      apply incl_app; [apply incl_appl; auto|]. apply incl_appr. apply incl_app; [apply incl_appl; auto|apply incl_appr; auto].
    + rewrite match_slice in M. destruct (match_all b (firstn (length b) vs)) as [x|] eqn:E1; [|discriminate].
      destruct (match_all a (skipn (length b) vs)) as [z|] eqn:E3; [|discriminate]. inversion M; subst.
      rewrite !map_app. cbn [pat_vars]. pose proof (match_all_vars b H _ _ E1). pose proof (match_all_vars a H1 _ _ E3).
      apply incl_app; [apply incl_appl; auto|]. apply incl_appr. cbn [app]. auto.
  - destruct v as [| |[| |c'] vs| |]; try discriminate. rewrite match_struct in M.
    destruct (Nat.eqb c c' && nodupb (map fst fs) && (r || Nat.eqb (length fs) (length vs))); [|discriminate].
    revert bs M. induction H as [|[i p] fs A _ IH]; cbn; intros bs M; [inversion M; apply incl_refl|].
    destruct (nth_error vs i) as [u|]; [|discriminate]. destruct (match_pat p u) as [a|] eqn:E; [|discriminate].
    destruct (match_fields vs fs) as [b|] eqn:F; [|discriminate]. inversion M; subst. rewrite map_app.
    apply incl_app; [apply incl_appl; eapply A; eauto|apply incl_appr; apply IH; auto].
  - destruct v; try discriminate. cbn in M. destruct (z =? z0)%Z; inversion M. apply incl_refl.
  - destruct v; try discriminate. cbn in M. destruct (Bool.eqb b b0); inversion M. apply incl_refl.
  - destruct v; try discriminate. exact (IHp _ _ M).
Qed.
Lemma lookup_app : forall x bs r, existsb (Nat.eqb x) (map fst bs) = false -> lookup x (bs ++ r) = lookup x r.
Proof.
  induction bs as [|[y v] bs IH]; cbn; intros r H; auto. apply orb_false_iff in H. destruct H as [A B]. rewrite A. auto.
Qed.
Lemma binds_lookup : forall x p v bs r, binds_var x p = false -> match_pat p v = Some bs -> lookup x (bs ++ r) = lookup x r.
Proof.
  intros x p v bs r H M. apply lookup_app. unfold binds_var in H. rewrite existsb_false in *. intros y I.
  apply H. eapply match_vars; eauto.
Qed.

Section Filter.
  Variable w : world.
  Variable fuel : nat.
  (** The variable that is watched, if any, and its value. *)
  Variable track : option (nat * val).
  Notation st := (state w).
  Notation ev := (eval w fuel).

  Definition Inv (s : st) : Prop := match track with None => True | Some (x, a) => lookup x (fst s) = Some a end.
  Definition fixed (e : expr) : Prop := match track with None => True | Some (x, _) => assigned x e = false /\ some_sub (binds x) e = false end.
  Definition pfixed (p : pat) : Prop := match track with None => True | Some (x, _) => binds_var x p = false end.

  Lemma Inv_eval : forall e s, fixed e -> Inv s -> Inv (snd (ev e s)).
  Proof. unfold Inv, fixed. destruct track as [[x a]|]; auto. intros e s [A _] H. rewrite eval_lookup; auto. Qed.
  Lemma Inv_enter : forall p v bs s, pfixed p -> match_pat p v = Some bs -> Inv s -> Inv (enter bs s).
  Proof. unfold Inv, pfixed. destruct track as [[x a]|]; auto. intros p v bs s A M H. cbn. erewrite binds_lookup; eauto. Qed.
  Lemma Inv_leave : forall e bs s, fixed e -> Inv s -> Inv (leave (length (fst s)) (snd (ev e (enter bs s)))).
  Proof.
    unfold Inv, fixed. destruct track as [[x a]|]; auto. intros e bs s [A _] H. rewrite <- H.
    eapply (K_lookup (fun y => negb (Nat.eqb y x))). 2: cbn; rewrite Nat.eqb_refl; auto.
    apply (leave_K w (fun y => negb (Nat.eqb y x)) bs). apply eval_keeps. intros y E. apply negb_false_iff, Nat.eqb_eq in E. subst; auto.
  Qed.

  (** Where the value returned by `return` comes from. *)
  Definition rt (vs : list expr) (r : out * st) : Prop :=
    forall v, fst r = ORet v -> v = unit_v \/ exists a s1 s2, In a vs /\ Inv s1 /\ (ev a s1 = (OVal v, s2) \/ ev a s1 = (ORet v, s2)).
  Lemma rt_incl : forall l l' r, incl l l' -> rt l r -> rt l' r.
  Proof. intros l l' r I H v E. destruct (H v E) as [?|(a & s1 & s2 & J & K)]; auto. right. exists a, s1, s2. split; auto. Qed.
  Lemma rt_bind : forall l r k, rt l r -> Inv (snd r) -> (forall v s, Inv s -> rt l (k v s)) -> rt l (andthen w r k).
  Proof. intros l [o s] k H V G. destruct o; cbn; auto. Qed.
  Lemma rt_nr : forall l r, nr w r -> rt l r.
  Proof. intros l r H v E. destruct (H v E). Qed.
  Lemma rt_leave : forall l r n, rt l r -> rt l (let '(o, s') := r in (o, leave n s')).
  Proof. intros l [o s] n H. exact H. Qed.
  Definition froms (e : expr) : Prop := fixed e -> forall s, Inv s -> rt (returned e) (ev e s).
  (** With what is watched fixed in the parts. *)
  Definition good_part (e : expr) : Prop := fixed e /\ forall s, Inv s -> rt (returned e) (ev e s).
  Lemma part_bind : forall l e s k, good_part e -> incl (returned e) l -> Inv s -> (forall v s, Inv s -> rt l (k v s)) -> rt l (andthen w (ev e s) k).
  Proof. intros l e s k [F G] I V K. apply rt_bind; auto. eapply rt_incl; eauto. apply Inv_eval; auto. Qed.
  Lemma rt_evals : forall es, Forall good_part es -> forall l s k, Inv s -> incl (flat_map returned es) l ->
    (forall vs s, Inv s -> rt l (k vs s)) -> rt l (evals w fuel es s k).
  Proof.
    induction 1; cbn; intros; auto. apply part_bind; auto.
    - intros y I. apply H2, in_or_app; auto.
    - intros. apply IHForall; auto. intros y I. apply H2, in_or_app; auto.
  Qed.
  Lemma rt_fields : forall fs, Forall (fun x => good_part (snd x)) fs -> forall l s k, Inv s ->
    incl (flat_map (fun y => match y with (_, a) => returned a end) fs) l -> (forall vs s, Inv s -> rt l (k vs s)) -> rt l (efields w fuel fs s k).
  Proof.
    induction 1 as [|[i e] fs A _ IH]; cbn; intros; auto. apply part_bind; auto.
    - intros y I. apply H0, in_or_app; auto.
    - intros. apply IH; auto. intros y I. apply H0, in_or_app; auto.
  Qed.
  Definition oret (o : option expr) : list expr := match o with Some a => returned a | None => [] end.
  Lemma rt_opt : forall o l, Opt good_part o -> incl (oret o) l -> forall s, Inv s -> rt l (eopt w fuel o s).
  Proof. intros [e|] l H I s V; [eapply rt_incl; eauto; apply H; auto|apply rt_nr, nr_val]. Qed.
  Lemma rt_arms : forall v arms, Forall (fun a => ArmP good_part a /\ match a with (p, _, _) => pfixed p end) arms -> forall l s, Inv s ->
    incl (flat_map (fun y => match y with (_, g, b) => oret g ++ returned b end) arms) l -> rt l (earms w fuel v arms s).
  Proof.
    intros v; induction 1 as [|[[p g] b] arms [[A B] C] _ IH]; cbn; intros l s V I; [apply rt_nr, nr_stuck|].
    assert (I1 : incl (oret g) l) by (intros y J; apply I, in_or_app; left; apply in_or_app; auto).
    assert (I2 : incl (returned b) l) by (intros y J; apply I, in_or_app; left; apply in_or_app; auto).
    assert (I3 : forall s, Inv s -> rt l (earms w fuel v arms s)) by (intros; apply IH; auto; intros y J; apply I, in_or_app; auto).
    destruct (match_pat p v) as [bs|] eqn:M; auto. pose proof (Inv_enter p v bs s C M V) as V'. destruct g as [g|]; cbn in A.
    - destruct A as [F A]. specialize (A (enter bs s) V'). apply (rt_incl _ l) in A; auto.
      pose proof (Inv_eval g _ F V') as V2. pose proof (Inv_leave g bs s F V) as V3.
      destruct (ev g (enter bs s)) as [o s']. destruct o; try exact A.
      destruct v0; try (apply rt_nr; intros u E; discriminate E). destruct b0; [|apply I3; exact V3].
      apply rt_leave. eapply rt_incl; eauto. apply B. exact V2.
    - apply rt_leave. eapply rt_incl; eauto. apply B; auto.
  Qed.
  Lemma rt_stmts : forall t ss, Forall (fun x => StmtP good_part x /\ match x with SLet p _ _ => pfixed p | _ => True end) ss ->
    Opt good_part t -> forall l s, Inv s ->
    incl (flat_map (fun y => match y with SLet _ i b => oret i ++ oret b | SExpr a | SSemi a => returned a end) ss ++ oret t) l ->
    rt l (estmts w fuel t ss s).
  Proof.
    intros t ss H Ht; induction H as [|x ss [A C] _ IH]; intros l s V I; [apply rt_opt; auto|].
    cbn [flat_map] in I. rewrite <- app_assoc in I.
    assert (I3 : forall s, Inv s -> rt l (estmts w fuel t ss s)) by (intros; apply IH; auto; intros y J; apply I, in_or_app; auto).
    assert (I1 : incl match x with SLet _ i b => oret i ++ oret b | SExpr a | SSemi a => returned a end l)
      by (intros y J; apply I, in_or_app; auto).
    destruct x as [p [i|] b|e|e]; cbn in A; cbn [estmts].
    - destruct A as [A B]. apply part_bind; auto; [intros y J; apply I1, in_or_app; auto|].
      intros v s' V'. destruct (match_pat p v) as [bs|] eqn:M; [apply I3; eapply Inv_enter; eauto|]. destruct b as [b|]; [|apply rt_nr, nr_stuck].
      destruct B as [F B]. specialize (B s' V'). apply (rt_incl _ l) in B; [|intros y J; apply I1, in_or_app; auto].
      destruct (ev b s') as [o s'']. destruct o; try exact B. apply rt_nr, nr_stuck.
    - apply rt_nr, nr_stuck.
    - apply part_bind; auto.
    - apply part_bind; auto.
  Qed.
  Lemma rt_rounds : forall l b, good_part b -> forall k s, Inv s -> rt (returned b) (rounds w fuel l b k s).
  Proof.
    intros l b [F H]; induction k; cbn; intros s V; [apply rt_nr; intros u E; discriminate E|]. specialize (H s V).
    pose proof (Inv_eval b s F V) as V'. destruct (ev b s) as [o s']; destruct o as [v|v|[l'|] v| | |]; auto.
    - apply rt_nr. destruct (same_label l (Some l')); intros u E; discriminate E.
    - apply rt_nr, nr_val.
  Qed.
  Lemma rt_args : forall t m v args, Forall (fun a => match a with AE e => good_part e | _ => True end) args -> forall l s es fs, Inv s ->
    incl (flat_map (fun y => match y with AE a => returned a | AC _ _ | AP _ => [] end) args) l ->
    Forall (fun f => forall vs s, nr w (f vs s)) fs -> rt l (eargs w fuel t m v args s es fs).
  Proof.
    intros t m v args; induction 1 as [|a args A _ IH]; intros l s es fs V I H.
    - apply rt_nr. cbn. apply nr_method, Forall_rev; auto.
    - destruct a as [e|ps b|p]; cbn [eargs flat_map app] in *.
      + apply part_bind; auto; [intros y J; apply I, in_or_app; auto|].
        intros. apply IH; auto. intros y J; apply I, in_or_app; auto.
      + apply IH; auto. constructor; auto. intros; apply nr_apply.
      + apply IH; auto. constructor; auto. intros; apply nr_apply.
  Qed.

  (** The parts of an expression in which the watched variable is fixed. *)
  Lemma fixed_list : forall (mk : list expr -> expr) es,
    (forall x, assigned x (mk es) = existsb (assigned x) es) ->
    (forall x, some_sub (binds x) (mk es) = existsb (some_sub (binds x)) es) ->
    fixed (mk es) -> Forall fixed es.
  Proof.
    intros mk es A B. unfold fixed. destruct track as [[x a]|]; [|intros _; apply Forall_forall; auto].
    rewrite A, B. intros [H1 H2]. rewrite existsb_false in H1, H2. apply Forall_forall. auto.
  Qed.
  Lemma parts : forall es, Forall froms es -> Forall fixed es -> Forall good_part es.
  Proof. intros es H G. rewrite Forall_forall in *. intros e I. split; auto. apply H; auto. Qed.
  Lemma opt_part : forall o, Opt froms o -> Opt fixed o -> Opt good_part o.
  Proof. intros [e|] H G; cbn in *; auto. split; auto. Qed.
  Lemma part : forall e, froms e -> fixed e -> good_part e.
  Proof. intros e H G. split; auto. Qed.
  Lemma fixed_opt : forall o, (match track with None => True | Some (x, _) => opt_some (assigned x) o = false /\ opt_some (some_sub (binds x)) o = false end) -> Opt fixed o.
  Proof. intros [e|]; cbn; auto. Qed.
  Ltac kid F := unfold fixed in F |- *; destruct track as [[? ?]|]; [|exact I]; cbn [assigned some_sub binds orb] in F;
    destruct F as [F1 F2]; repeat (rewrite ?orb_false_iff in F1; rewrite ?orb_false_iff in F2); tauto.
  Ltac okid F := apply fixed_opt; unfold fixed in F; destruct track as [[? ?]|]; [|exact I]; cbn [assigned some_sub binds orb] in F;
    destruct F as [F1 F2]; repeat (rewrite ?orb_false_iff in F1; rewrite ?orb_false_iff in F2); tauto.
  Ltac inc := let y := fresh in let J := fresh in intros y J; repeat first [apply in_or_app; tauto | apply in_or_app; right | exact J]; auto.

  Theorem returned_from : forall e, froms e.
  Proof.
    induction e using expr_ind'; intros F s V.
    - apply rt_nr. cbn. destruct (lookup x (fst s)); [apply nr_val|apply nr_stuck].
    - apply rt_nr, nr_val.
    - apply rt_nr, nr_val.
    - rewrite eval_data. apply rt_evals; auto; [|apply incl_refl|intros; apply rt_nr, nr_val].
      apply parts; auto. eapply (fixed_list (EData k)); eauto.
    - rewrite eval_struct. apply rt_fields; auto; [|apply incl_refl|].
      + rewrite Forall_forall in *. intros [i e] J. apply part; [apply (H _ J)|]. unfold fixed in *. destruct track as [[x a]|]; auto.
        destruct F as [F1 F2]. cbn in F1, F2. rewrite existsb_false in F1, F2. split; [apply (F1 _ J)|apply (F2 _ J)].
      + intros vs t _; apply rt_nr; destruct (build vs); [apply nr_val|apply nr_stuck].
    - rewrite eval_call. apply rt_evals; auto; [|apply incl_refl|intros; apply rt_nr, nr_calls].
      apply parts; auto. eapply (fixed_list (ECall f)); eauto.
    - rewrite eval_callp. apply rt_evals; auto; [|apply incl_refl|intros; apply rt_nr, nr_path].
      apply parts; auto. eapply (fixed_list (ECallPath p)); eauto.
    - cbn [eval returned]. apply part_bind; auto; [apply part; auto|apply incl_refl|].
      intros v t _. apply rt_nr. destruct v; [apply nr_stuck|apply nr_val|apply nr_stuck..].
    - cbn [eval returned]. apply part_bind; auto; [apply part; auto; kid F|inc|]. intros v t V'.
      apply part_bind; auto; [apply part; auto; kid F|inc|]. intros. apply rt_nr, nr_val.
    - cbn [eval returned]. apply part_bind; auto; [apply part; auto; kid F|inc|]. intros v t V'.
      destruct v as [|[] | | |]; try (apply rt_nr, nr_stuck); [apply rt_nr, nr_val|]. eapply rt_incl; [|apply IHe2; auto; kid F]; inc.
    - cbn [eval returned]. apply part_bind; auto; [apply part; auto; kid F|apply incl_refl|].
      intros v t _. apply rt_nr. destruct (assign x v (fst t)); [apply nr_val|apply nr_stuck].
    - rewrite eval_if. cbn [returned]. apply part_bind; auto; [apply part; auto; kid F|inc|]. intros v t V'.
      destruct v as [|[] | | |]; try (apply rt_nr, nr_stuck); [eapply rt_incl; [|apply IHe2; auto; kid F]; inc|].
      apply rt_opt; auto; [|unfold oret; inc]. apply opt_part; auto. okid F.
    - rewrite eval_iflet. cbn [returned]. apply part_bind; auto; [apply part; auto; kid F|inc|]. intros v t V'.
      destruct (match_pat p v) as [bs|] eqn:M.
      + apply rt_leave; eapply rt_incl; [|apply IHe2]; [inc|kid F|]. eapply Inv_enter; eauto. unfold pfixed. kid F.
      + apply rt_opt; auto; [|unfold oret; inc]. apply opt_part; auto. okid F.
    - rewrite eval_match. cbn [returned]. apply part_bind; auto; [apply part; auto; kid F|inc|]. intros v t' V'. apply rt_arms; auto; [|unfold oret; inc].
      rewrite Forall_forall in *. intros [[p g] b] J. destruct (H _ J) as [A B].
      assert (G : Opt fixed g /\ fixed b /\ pfixed p).
      { unfold fixed, pfixed in *. destruct track as [[x a]|]; [|destruct g; cbn; auto]. destruct F as [F1 F2]. cbn [assigned some_sub binds orb] in F1, F2.
        apply orb_false_iff in F1, F2. destruct F1 as [_ F1], F2 as [F2 F3]. apply orb_false_iff in F3. destruct F3 as [_ F3].
        rewrite existsb_false in F1, F2, F3.
        specialize (F1 _ J). specialize (F2 _ J). specialize (F3 _ J). cbn in F1, F2, F3. rewrite orb_false_iff in F1, F3.
        destruct g; cbn in *; tauto. }
      destruct G as (G1 & G2 & G3). split; [split; [apply opt_part; auto|apply part; auto]|auto].
    - rewrite eval_block. cbn [returned].
      assert (X : rt (returned (EBlock l ss t)) (estmts w fuel t ss s)).
      { apply rt_stmts; auto; [| |apply incl_refl].
        - rewrite Forall_forall in *. intros y J. specialize (H _ J).
          assert (G : match y with SLet p i b => Opt fixed i /\ Opt fixed b /\ pfixed p | SExpr e | SSemi e => fixed e end).
          { unfold fixed, pfixed in *. destruct track as [[x a]|]; [|destruct y as [? [] []| |]; cbn; auto]. destruct F as [F1 F2]. cbn [assigned some_sub binds orb] in F1, F2.
            apply orb_false_iff in F1, F2. destruct F1 as [F1 _], F2 as [F2 F3]. apply orb_false_iff in F3. destruct F3 as [F3 _].
            rewrite existsb_false in F1, F2, F3.
            specialize (F1 _ J). specialize (F2 _ J). specialize (F3 _ J). destruct y as [p i b| |]; cbn in *; [|tauto|tauto]. rewrite orb_false_iff in F1, F3.
            destruct i, b; cbn in *; tauto. }
          destruct y as [p i b|e|e]; cbn in *; [|split; auto; apply part; auto..]. destruct H, G as (G1 & G2 & G3).
          split; [split; apply opt_part; auto|auto].
        - apply opt_part; auto. okid F. }
      destruct (estmts w fuel t ss s) as [o s']. intros u E. cbn in E. destruct o as [v|v|l' v| | |]; cbn in E; try discriminate.
      + apply (X u). exact E.
      + destruct (same_label l l'); discriminate.
    - rewrite eval_loop. assert (G : good_part e) by (apply part; auto). exact (rt_rounds l e G fuel s V).
    - rewrite eval_ret. destruct o as [a|]; cbn [eopt returned].
      + intros u E. right. exists a, s. destruct (ev a s) as [o s']. destruct o; cbn in E; try discriminate.
        * exists s'. split; [left; auto|]. inversion E; subst; auto.
        * exists s'. split; [left; auto|]. inversion E; subst; auto.
      + intros u E. cbn in E. inversion E. left; auto.
    - rewrite eval_break. destruct o as [a|]; cbn [eopt returned].
      + apply part_bind; auto; [apply part; auto|apply incl_refl|]. intros v t _. apply rt_nr. intros u E; discriminate E.
      + apply rt_nr. intros u E; discriminate E.
    - apply rt_nr, nr_val.
    - rewrite eval_meth. cbn [returned]. apply part_bind; auto; [apply part; auto; kid F|inc|]. intros v t' V'.
      destruct (view_of t v); [|apply rt_nr, nr_stuck]. apply rt_args; auto; [|inc].
      rewrite Forall_forall in *. intros y J. specialize (H _ J). destruct y as [e0|ps b|p]; auto. apply part; auto.
      unfold fixed in *. destruct track as [[x a]|]; auto. destruct F as [F1 F2]. cbn [assigned some_sub binds orb] in F1, F2.
      apply orb_false_iff in F1, F2. destruct F1 as [_ F1], F2 as [_ F2]. rewrite existsb_false in F1, F2. split; [apply (F1 _ J)|apply (F2 _ J)].
    - rewrite eval_panic. apply rt_evals; auto; [|apply incl_refl|intros vs t _; apply rt_nr; intros u E; discriminate E].
      apply parts; auto. eapply (fixed_list EPanic); eauto.
  Qed.

  Lemma tail_state : forall t ss, Forall (fun x => match x with
        | SLet p i b => Opt fixed i /\ pfixed p
        | SExpr e | SSemi e => fixed e end) ss ->
    forall s v s', Inv s -> estmts w fuel t ss s = (OVal v, s') -> exists s1 s2, Inv s1 /\ eopt w fuel t s1 = (OVal v, s2).
  Proof.
    intros t ss H; induction H as [|x ss A _ IH]; intros s v s' V E; [exists s, s'; auto|].
    destruct x as [p [i|] b|e|e]; cbn in A; cbn [estmts] in E.
    - destruct A as [A C]. pose proof (Inv_eval i s A V) as V'. destruct (ev i s) as [o s1]. destruct o; try discriminate. cbn [andthen] in E.
      destruct (match_pat p v0) as [bs|] eqn:M.
      + eapply IH; [|exact E]. eapply Inv_enter; eauto.
      + destruct b as [b|]; [|discriminate]. destruct (ev b s1) as [o s2]. destruct o; discriminate.
    - discriminate.
    - pose proof (Inv_eval e s A V) as V'. destruct (ev e s) as [o s1]. destruct o; try discriminate. cbn [andthen] in E. eapply IH; eauto.
    - pose proof (Inv_eval e s A V) as V'. destruct (ev e s) as [o s1]. destruct o; try discriminate. cbn [andthen] in E. eapply IH; eauto.
  Qed.

  Variable x : nat.
  Definition only_some (e : expr) (v : val) : Prop := snd (check_expression x e) = false -> v = unit_v \/ exists y, v = some_v y.
  Definition none_or_arg (e : expr) (v : val) : Prop := forall a, track = Some (x, a) -> fst (check_expression x e) = false ->
    v = unit_v \/ v = none_v \/ v = some_v a \/ v = some_v (adjust w a).
  Definition checked (e : expr) : Prop := some_sub labelled e = false -> fixed e ->
    forall s v s', Inv s -> ev e s = (OVal v, s') -> only_some e v /\ none_or_arg e v.

  Lemma unchecked : forall e, check_expression x e = (true, true) -> checked e.
  Proof. intros e H _ _ s v s' _ _. split; unfold only_some, none_or_arg; rewrite H; [discriminate|]. intros a _ E; discriminate E. Qed.
  Lemma local_val : forall e s v s' a, is_local x e = true -> track = Some (x, a) -> Inv s -> ev e s = (OVal v, s') -> v = a \/ v = adjust w a.
  Proof.
    intros e s v s' a L T V E. destruct e; try discriminate. cbn in L. apply Nat.eqb_eq in L. subst x0. unfold Inv in V. rewrite T in V.
    cbn in E. rewrite V in E. destruct adj; inversion E; auto.
  Qed.
  Lemma or2_false : forall a b, (snd (or2 a b) = false -> snd a = false /\ snd b = false) /\ (fst (or2 a b) = false -> fst a = false /\ fst b = false).
  Proof. intros [[] []] [[] []]; cbn; auto. Qed.
  Lemma or2_checked : forall (A B : expr) r v, (check_expression x A = or2 (check_expression x B) r \/ check_expression x A = or2 r (check_expression x B)) ->
    only_some B v /\ none_or_arg B v -> only_some A v /\ none_or_arg A v.
  Proof.
    intros A B r v H [P Q]. unfold only_some, none_or_arg. split.
    - intros E. apply P. destruct H as [H|H]; rewrite H in E; apply or2_false in E; tauto.
    - intros a T E. apply (Q a T). destruct H as [H|H]; rewrite H in E; apply or2_false in E; tauto.
  Qed.
  Lemma arms_checked : forall u arms,
    Forall (fun a => match a with (p, g, b) => checked b /\ some_sub labelled b = false /\ fixed b /\ Opt fixed g /\ pfixed p end) arms ->
    forall s v s', Inv s -> earms w fuel u arms s = (OVal v, s') ->
    (snd (fold_right (fun arm r => match arm with (_, _, b) => or2 (check_expression x b) r end) (false, false) arms) = false ->
       v = unit_v \/ exists y, v = some_v y) /\
    (forall a, track = Some (x, a) ->
       fst (fold_right (fun arm r => match arm with (_, _, b) => or2 (check_expression x b) r end) (false, false) arms) = false ->
       v = unit_v \/ v = none_v \/ v = some_v a \/ v = some_v (adjust w a)).
  Proof.
    intros u; induction 1 as [|[[p g] b] arms (C & L & F & G & P) _ IH]; intros s v s' V E; [discriminate|].
    assert (N : forall s, Inv s -> earms w fuel u arms s = (OVal v, s') ->
      (snd (fold_right (fun arm r => match arm with (_, _, b) => or2 (check_expression x b) r end) (false, false) ((p, g, b) :: arms)) = false ->
        v = unit_v \/ exists y, v = some_v y) /\
      (forall a, track = Some (x, a) ->
       fst (fold_right (fun arm r => match arm with (_, _, b) => or2 (check_expression x b) r end) (false, false) ((p, g, b) :: arms)) = false ->
       v = unit_v \/ v = none_v \/ v = some_v a \/ v = some_v (adjust w a))).
    { intros s0 V0 E0. destruct (IH s0 v s' V0 E0) as [A B]. split.
      - intros H. apply A. cbn [fold_right] in H. apply or2_false in H. tauto.
      - intros a T H. apply (B a T). cbn [fold_right] in H. apply or2_false in H. tauto. }
    assert (Y : forall s s'', Inv s -> ev b s = (OVal v, s'') ->
      (snd (fold_right (fun arm r => match arm with (_, _, b) => or2 (check_expression x b) r end) (false, false) ((p, g, b) :: arms)) = false ->
        v = unit_v \/ exists y, v = some_v y) /\
      (forall a, track = Some (x, a) ->
       fst (fold_right (fun arm r => match arm with (_, _, b) => or2 (check_expression x b) r end) (false, false) ((p, g, b) :: arms)) = false ->
       v = unit_v \/ v = none_v \/ v = some_v a \/ v = some_v (adjust w a))).
    { intros s0 s'' V0 E0. destruct (C L F s0 v s'' V0 E0) as [A B]. split.
      - intros H. apply A. cbn [fold_right] in H. apply or2_false in H. tauto.
      - intros a T H. apply (B a T). cbn [fold_right] in H. apply or2_false in H. tauto. }
    cbn [earms] in E. destruct (match_pat p u) as [bs|] eqn:M; [|apply (N s V E)].
    pose proof (Inv_enter p u bs s P M V) as V'. destruct g as [g|]; cbn in G.
    - pose proof (Inv_eval g _ G V') as V2. pose proof (Inv_leave g bs s G V) as V3.
      destruct (ev g (enter bs s)) as [o t]. destruct o as [q| | | | |]; try discriminate. destruct q as [|[] | | |]; try discriminate.
      + destruct (ev b t) as [o t'] eqn:EB. inversion E; subst. exact (Y _ _ V2 EB).
      + apply (N _ V3 E).
    - destruct (ev b (enter bs s)) as [o t'] eqn:EB. inversion E; subst. eapply Y; eauto.
  Qed.

  Ltac kid2 F := let X := fresh in let Y := fresh in unfold fixed in F |- *; destruct track as [[? ?]|]; [|exact I]; cbn [assigned some_sub binds orb] in F;
    destruct F as [X Y]; repeat (rewrite ?orb_false_iff in X; rewrite ?orb_false_iff in Y); tauto.
  Theorem check_expression_sound : forall e, checked e.
  Proof.
    induction e using expr_ind'; try (apply unchecked; reflexivity).
    - destruct k as [| |c]; try (apply unchecked; reflexivity). destruct es as [|a [|]]; [| |apply unchecked; reflexivity].
      + intros _ _ s v s' V E. inversion E; subst. unfold only_some, none_or_arg; cbn [check_expression].
        destruct (Nat.eqb_spec c c_none); [subst; split; [discriminate|auto]|]. split; [discriminate|intros a _ E'; discriminate E'].
      + intros L F s v s' V E. unfold only_some, none_or_arg. cbn [check_expression]. rewrite eval_data in E. cbn in E.
        destruct (ev a s) as [o s1] eqn:EA. destruct o; try discriminate. inversion E; subst.
        destruct (Nat.eqb_spec c c_some); [subst c|split; [discriminate|intros q _ E'; discriminate E']].
        destruct (is_local x a) eqn:LO.
        * split; [intros _; right; eexists; reflexivity|]. intros q T _. destruct (local_val _ _ _ _ _ LO T V EA); subst; auto.
        * split; [intros _; right; eexists; reflexivity|]. intros q _ E'; discriminate E'.
    - destruct b as [b|]; [|apply unchecked; reflexivity].
      intros L F s v s' V E. rewrite eval_if in E. cbn [some_sub labelled orb] in L. apply orb3 in L. destruct L as (L1 & L2 & L3).
      assert (F1 : fixed e1) by kid2 F. assert (F2 : fixed e2) by kid2 F. assert (F3 : fixed b) by kid2 F.
      pose proof (Inv_eval e1 s F1 V) as V'. destruct (ev e1 s) as [o s1]. destruct o as [q| | | | |]; try discriminate. cbn [andthen eopt] in E.
      destruct q as [|[] | | |]; try discriminate.
      + apply (or2_checked _ e2 (check_expression x b)); [left; reflexivity|]. eapply IHe2; eauto.
      + apply (or2_checked _ b (check_expression x e2)); [right; reflexivity|]. eapply H; eauto.
    - destruct b as [b|]; [|apply unchecked; reflexivity].
      intros L F s v s' V E. rewrite eval_iflet in E. cbn [some_sub labelled orb] in L. apply orb3 in L. destruct L as (L1 & L2 & L3).
      assert (F1 : fixed e1) by kid2 F. assert (F2 : fixed e2) by kid2 F. assert (F3 : fixed b) by kid2 F. assert (P : pfixed p) by (unfold pfixed; kid2 F).
      pose proof (Inv_eval e1 s F1 V) as V'. destruct (ev e1 s) as [o s1]. destruct o as [q| | | | |]; try discriminate. cbn [andthen eopt] in E.
      destruct (match_pat p q) as [bs|] eqn:M.
      + apply (or2_checked _ e2 (check_expression x b)); [left; reflexivity|].
        destruct (ev e2 (enter bs s1)) as [o2 s2] eqn:E2. inversion E; subst. refine (IHe2 L2 F2 (enter bs s1) v s2 _ E2). exact (Inv_enter p q bs s1 P M V').
      + apply (or2_checked _ b (check_expression x e2)); [right; reflexivity|]. eapply H; eauto.
    - intros L F s v s' V E. rewrite eval_match in E. cbn [some_sub labelled orb] in L. apply orb_false_iff in L. destruct L as [L1 L2].
      assert (F0 : fixed e) by kid2 F.
      pose proof (Inv_eval e s F0 V) as V'. destruct (ev e s) as [o s1]. destruct o as [q| | | | |]; try discriminate. cbn [andthen] in E.
      eapply arms_checked; [|exact V'|exact E].
      rewrite existsb_false in L2. rewrite Forall_forall in *. intros [[p g] b] J. destruct (H _ J) as [A B].
      specialize (L2 _ J). cbn in L2. apply orb_false_iff in L2. destruct L2 as [L2 L3].
      assert (G : Opt fixed g /\ fixed b /\ pfixed p).
      { unfold fixed, pfixed in *. destruct track as [[y a]|]; [|destruct g; cbn; auto]. destruct F as [F1 F2]. cbn [assigned some_sub binds orb] in F1, F2.
        apply orb_false_iff in F1, F2. destruct F1 as [_ F1], F2 as [F2 F3]. apply orb_false_iff in F3. destruct F3 as [_ F3].
        rewrite existsb_false in F1, F2, F3.
        specialize (F1 _ J). specialize (F2 _ J). specialize (F3 _ J). cbn in F1, F2, F3. rewrite orb_false_iff in F1, F3.
        destruct g; cbn in *; tauto. }
      tauto.
    - intros L F s v s' V E. cbn [some_sub labelled] in L. apply orb_false_iff in L. destruct L as [L0 L]. destruct l as [l|]; [discriminate|].
      apply orb_false_iff in L. destruct L as [L1 L2]. rewrite eval_block in E. destruct (estmts w fuel t ss s) as [o s1] eqn:ES.
      assert (o = OVal v) by (destruct o; cbn in E; inversion E; auto). subst o.
      destruct (tail_state t ss) with (s := s) (v := v) (s' := s1) as (s2 & s3 & V2 & E2); auto.
      + rewrite Forall_forall in *. intros y J.
        unfold fixed, pfixed in *. destruct track as [[z a]|]; [|destruct y as [? i b| |]; [destruct i|..]; cbn; auto]. destruct F as [F1 F2]. cbn [assigned some_sub binds orb] in F1, F2.
        apply orb_false_iff in F1, F2. destruct F1 as [F1 _], F2 as [F2 F3]. apply orb_false_iff in F3. destruct F3 as [F3 _].
        rewrite existsb_false in F1, F2, F3.
        specialize (F1 _ J). specialize (F2 _ J). specialize (F3 _ J). destruct y as [p i b| |]; cbn in *; [|tauto|tauto]. rewrite orb_false_iff in F1, F3.
        destruct i, b; cbn in *; tauto.
      + destruct t as [t|]; cbn [eopt] in E2.
        * cbn in H0. eapply (H0 L2); [|exact V2|exact E2]. kid2 F.
        * inversion E2; subst. split; unfold only_some, none_or_arg; auto.
    - destruct t; try (apply unchecked; destruct m; reflexivity). destruct m; try (apply unchecked; reflexivity).
      destruct args as [|[a| |] [|]]; try (apply unchecked; reflexivity).
      intros L F s v s' V E. rewrite eval_meth in E. assert (F0 : fixed e) by kid2 F.
      pose proof (Inv_eval e s F0 V) as V'. destruct (ev e s) as [o s1]. destruct o as [q| | | | |]; try discriminate. cbn [andthen] in E.
      destruct (view_of TBool q) as [vw|] eqn:VQ; [|discriminate]. cbn [eargs] in E.
      destruct (ev a s1) as [o s2] eqn:EA. destruct o as [u| | | | |]; try discriminate. cbn [andthen rev app] in E. unfold method in E. rewrite VQ in E.
      unfold only_some, none_or_arg. cbn [check_expression]. destruct (is_local x a) eqn:LO;
        (split; [discriminate|intros z T E']; try discriminate E').
      destruct vw; inversion E; subst; auto. destruct (local_val _ _ _ _ _ LO T V' EA); subst; auto.
  Qed.
End Filter.

(** The operand of a `return` is a part of the body. *)
Lemma returned_sub : forall f b, some_sub f b = false -> forall a, In a (returned b) -> some_sub f a = false.
Proof.
  intros f. assert (O : forall o : option expr, Opt (fun b => some_sub f b = false -> forall a, In a (returned b) -> some_sub f a = false) o ->
    opt_some (some_sub f) o = false -> forall a, In a (match o with Some a => returned a | None => [] end) -> some_sub f a = false).
  { intros [e|] H L a J; [apply (H L a J)|destruct J]. }
  assert (LL : forall es, Forall (fun b => some_sub f b = false -> forall a, In a (returned b) -> some_sub f a = false) es ->
    existsb (some_sub f) es = false -> forall a, In a (flat_map returned es) -> some_sub f a = false).
  { intros es H L a J. apply in_flat_map in J. destruct J as (e & J & K). rewrite existsb_false in L. rewrite Forall_forall in H. eauto. }
  induction b using expr_ind'; intros L aa J; cbn [some_sub] in L; apply orb_false_iff in L; destruct L as [L0 L]; cbn [returned] in J; try (destruct J; fail); eauto.
  - apply in_flat_map in J. destruct J as ([i e] & J & K). rewrite existsb_false in L. rewrite Forall_forall in H. exact (H _ J (L _ J) _ K).
  - apply orb_false_iff in L. destruct L. apply in_app_or in J. destruct J; eauto.
  - apply orb_false_iff in L. destruct L. apply in_app_or in J. destruct J; eauto.
  - apply orb3 in L. destruct L as (L1 & L2 & L3). apply in_app_or in J. destruct J as [J|J]; eauto. apply in_app_or in J. destruct J as [J|J]; eauto.
  - apply orb3 in L. destruct L as (L1 & L2 & L3). apply in_app_or in J. destruct J as [J|J]; eauto. apply in_app_or in J. destruct J as [J|J]; eauto.
  - apply orb_false_iff in L. destruct L as [L1 L2]. apply in_app_or in J. destruct J as [J|J]; eauto.
    apply in_flat_map in J. destruct J as ([[p g] e] & J & K). rewrite existsb_false in L2. rewrite Forall_forall in H. specialize (L2 _ J). destruct (H _ J) as [A B].
    cbn in L2. apply orb_false_iff in L2. destruct L2. apply in_app_or in K. destruct K as [K|K]; eauto.
  - apply orb_false_iff in L. destruct L as [L1 L2]. apply in_app_or in J. destruct J as [J|J]; eauto.
    apply in_flat_map in J. destruct J as (y & J & K). rewrite existsb_false in L1. rewrite Forall_forall in H. specialize (L1 _ J). specialize (H _ J).
    destruct y as [p i e|e|e]; cbn in *; eauto. apply orb_false_iff in L1. destruct L1, H. apply in_app_or in K. destruct K as [K|K]; eauto.
  - destruct o as [a|]; [|destruct J]. destruct J as [<-|[]]. exact L.
  - apply orb_false_iff in L. destruct L as [L1 L2]. apply in_app_or in J. destruct J as [J|J]; eauto.
    apply in_flat_map in J. destruct J as (y & J & K). rewrite existsb_false in L2. rewrite Forall_forall in H. specialize (L2 _ J). specialize (H _ J).
    destruct y as [e|ps e|p]; cbn in *; eauto; destruct K.
Qed.
Lemma returned_assigned : forall x b, assigned x b = false -> forall a, In a (returned b) -> assigned x a = false.
Proof.
  intros x. assert (O : forall o : option expr, Opt (fun b => assigned x b = false -> forall a, In a (returned b) -> assigned x a = false) o ->
    opt_some (assigned x) o = false -> forall a, In a (match o with Some a => returned a | None => [] end) -> assigned x a = false).
  { intros [e|] H L a J; [apply (H L a J)|destruct J]. }
  assert (LL : forall es, Forall (fun b => assigned x b = false -> forall a, In a (returned b) -> assigned x a = false) es ->
    existsb (assigned x) es = false -> forall a, In a (flat_map returned es) -> assigned x a = false).
  { intros es H L a J. apply in_flat_map in J. destruct J as (e & J & K). rewrite existsb_false in L. rewrite Forall_forall in H. eauto. }
  induction b using expr_ind'; intros L aa J; cbn [assigned] in L; cbn [returned] in J; try (destruct J; fail); eauto.
  - apply in_flat_map in J. destruct J as ([i e] & J & K). rewrite existsb_false in L. rewrite Forall_forall in H. exact (H _ J (L _ J) _ K).
  - apply orb_false_iff in L. destruct L. apply in_app_or in J. destruct J; eauto.
  - apply orb_false_iff in L. destruct L. apply in_app_or in J. destruct J; eauto.
  - apply orb_false_iff in L. destruct L. eauto.
  - apply orb3 in L. destruct L as (L1 & L2 & L3). apply in_app_or in J. destruct J as [J|J]; eauto. apply in_app_or in J. destruct J as [J|J]; eauto.
  - apply orb3 in L. destruct L as (L1 & L2 & L3). apply in_app_or in J. destruct J as [J|J]; eauto. apply in_app_or in J. destruct J as [J|J]; eauto.
  - apply orb_false_iff in L. destruct L as [L1 L2]. apply in_app_or in J. destruct J as [J|J]; eauto.
    apply in_flat_map in J. destruct J as ([[p g] e] & J & K). rewrite existsb_false in L2. rewrite Forall_forall in H. specialize (L2 _ J). destruct (H _ J) as [A B].
    cbn in L2. apply orb_false_iff in L2. destruct L2. apply in_app_or in K. destruct K as [K|K]; eauto.
  - apply orb_false_iff in L. destruct L as [L1 L2]. apply in_app_or in J. destruct J as [J|J]; eauto.
    apply in_flat_map in J. destruct J as (y & J & K). rewrite existsb_false in L1. rewrite Forall_forall in H. specialize (L1 _ J). specialize (H _ J).
    destruct y as [p i e|e|e]; cbn in *; eauto. apply orb_false_iff in L1. destruct L1, H. apply in_app_or in K. destruct K as [K|K]; eauto.
  - destruct o as [a|]; [|destruct J]. destruct J as [<-|[]]. exact L.
  - apply orb_false_iff in L. destruct L as [L1 L2]. apply in_app_or in J. destruct J as [J|J]; eauto.
    apply in_flat_map in J. destruct J as (y & J & K). rewrite existsb_false in L2. rewrite Forall_forall in H. specialize (L2 _ J). specialize (H _ J).
    destruct y as [e|ps e|p]; cbn in *; eauto; destruct K.
Qed.

Lemma found_false : forall x b, (snd (found x b) = false -> snd (check_expression x b) = false /\ forall a, In a (returned b) -> snd (check_expression x a) = false) /\
  (fst (found x b) = false -> fst (check_expression x b) = false /\ forall a, In a (returned b) -> fst (check_expression x a) = false).
Proof.
  intros x b. unfold found. induction (returned b) as [|e l [A B]]; cbn [fold_right]; [split; intros H; (split; [exact H|intros a []])|].
  split; intros H; apply or2_false in H; destruct H as [H1 H2].
  - destruct (A H2) as [C D]. split; auto. intros a [<-|J]; auto.
  - destruct (B H2) as [C D]. split; auto. intros a [<-|J]; auto.
Qed.

(** What the closure of `filter_map` returns, given what the lint says. *)
Theorem filter_verdict : forall k x b vd, unnecessary_filter_map k x b = Some vd -> some_sub labelled b = false -> flat_returns b ->
  forall w fuel a s v s', apply w fuel (AC [PBind false x None] b) [a] s = (OVal v, s') -> view_of TOption v <> None ->
  match vd with
  | JustFilter => some_sub (binds x) b = false -> adjust w a = a -> v = none_v \/ v = some_v a
  | _ => exists y, v = some_v y
  end.
Proof.
  intros k x b vd H L FR w fuel a s v s' E T.
  assert (U : v <> unit_v) by (intros ->; apply T; reflexivity).
  cbn [apply] in E. rewrite bind_one in E. cbn [match_pat] in E.
  set (s0 := enter [(x, a)] s) in *. destruct (eval w fuel b s0) as [o s1] eqn:EB.
  assert (C : forall track, Inv w track s0 -> fixed track b ->
    (snd (found x b) = false -> exists y, v = some_v y) /\
    (track = Some (x, a) -> fst (found x b) = false -> v = none_v \/ v = some_v a \/ v = some_v (adjust w a))).
  { intros track V F. destruct o; try discriminate; inversion E; subst.
    - destruct (check_expression_sound w fuel track x b L F s0 v s1 V EB) as [A B]. split.
      + intros G. apply found_false in G. destruct (A (proj1 G)) as [?|?]; [tauto|auto].
      + intros -> G. apply found_false in G. destruct (B a eq_refl (proj1 G)) as [?|?]; [tauto|auto].
    - pose proof (returned_from w fuel track b F s0 V v) as R. rewrite EB in R. destruct (R eq_refl) as [?|(e & s2 & s3 & J & V2 & D)]; [tauto|].
      unfold flat_returns in FR. rewrite Forall_forall in FR.
      assert (EV : eval w fuel e s2 = (OVal v, s3)).
      { destruct D as [D|D]; auto. destruct (no_return_quiet w fuel e (FR _ J) s2 v). rewrite D. reflexivity. }
      assert (Fe : fixed track e).
      { unfold fixed in *. destruct track as [[y q]|]; auto. destruct F. split; [eapply returned_assigned; eauto|eapply returned_sub; eauto]. }
      destruct (check_expression_sound w fuel track x e (returned_sub labelled b L e J) Fe s2 v s3 V2 EV) as [A B]. split.
      + intros G. apply found_false in G. destruct (A (proj2 G _ J)) as [?|?]; [tauto|auto].
      + intros -> G. apply found_false in G. destruct (B a eq_refl (proj2 G _ J)) as [?|?]; [tauto|auto]. }
  unfold unnecessary_filter_map in H. destruct (found x b) as [mapping filtering] eqn:Fo.
  destruct filtering.
  - destruct (negb mapping && negb (assigned x b)) eqn:G; [|discriminate]. inversion H; subst. intros Bi Ad.
    apply andb_true_iff in G. destruct G as [G1 G2]. apply negb_true_iff in G1, G2.
    destruct (C (Some (x, a))) as [_ D]; [unfold Inv; cbn; rewrite Nat.eqb_refl; auto|split; auto|].
    destruct (D eq_refl G1) as [?|[?|?]]; auto. rewrite Ad in *. auto.
  - destruct (C None) as [D _]; [exact I|exact I|]. cbn in H. specialize (D eq_refl).
    destruct k; [destruct (as_ctor c_some b) as [[]|]|]; inversion H; exact D.
Qed.
