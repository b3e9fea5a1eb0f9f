(** `return` at the end of a body. *)
From Verif Require Export TailModel MatProofs3.

Section Tail.
  Variable tuple : expr -> bool.
  Notation final := (final_expr tuple).

  Lemma in_opt_map : forall (f : expr -> expr) o l, In o (map (option_map f) l) -> exists x, In x l /\ o = option_map f x.
  Proof. intros. apply in_map_iff in H as [x [A B]]. eauto. Qed.

  Lemma not_in_some : forall (f : option expr -> expr) l, ~ In None (map (fun b => Some (f b)) l).
  Proof. intros f l H. apply in_map_iff in H as [x [A B]]. discriminate. Qed.

  Lemma no_none : forall e repl mt, In None (final repl mt e) -> e = ERet None /\ repl = None /\ mt = None.
  Proof.
    induction e using expr_ind'; intros repl mt H9; cbn in H9; try contradiction.
    - apply in_app_iff in H9 as [H9|H9].
      + destruct e2; try contradiction. apply in_opt_map in H9 as [x [A B]]. destruct x; try discriminate.
        destruct (IHe2 _ _ A) as [K _]. discriminate.
      + destruct b as [b|]; [|contradiction]. apply not_in_some in H9. contradiction.
    - apply in_app_iff in H9 as [H9|H9].
      + destruct e2; try contradiction. apply in_opt_map in H9 as [x [A B]]. destruct x; try discriminate.
        destruct (IHe2 _ _ A) as [K _]. discriminate.
      + destruct b as [b|]; [|contradiction]. apply not_in_some in H9. contradiction.
    - destruct t; [contradiction|]. exfalso. revert H9.
      generalize (tuple (EMatch false e arms)) as tu. generalize (@nil (pat * option expr * expr)).
      induction arms as [|[[p g] b] arms IA]; intros before tu H9; [contradiction|].
      pose proof (Forall_inv H) as [_ Hb]; pose proof (Forall_inv_tail H) as Hrest. apply in_app_iff in H9 as [H9|H9].
      + apply in_opt_map in H9 as [x [A B]]. destruct x; try discriminate. destruct (Hb _ _ A) as [_ [K _]]. discriminate.
      + apply (IA Hrest _ _ H9).
    - destruct t as [t|].
      + apply not_in_some in H9. contradiction.
      + exfalso. revert H9. clear H. generalize (@nil stmt). induction ss as [|x ss IA]; intros before H9; [contradiction|].
        destruct x; try apply (IA _ H9). destruct ss as [|y ss]; [|apply (IA _ H9)].
        apply not_in_some in H9. contradiction.
    - destruct o as [a|]; [cbn in H9; destruct H9; [discriminate|contradiction]|].
      destruct mt as [[]|]; cbn in H9; try (destruct H9; [|contradiction]); try discriminate; try contradiction.
      subst. auto.
  Qed.

  Variable w : world.
  Variable fuel : nat.
  Notation st := (state w).
  Notation ev := (eval w fuel).

  (** The same, but for a value that is now a value where it was returned, or where it was thrown away. *)
  Definition tail (r r' : out * st) : Prop :=
    r' = r \/ exists v s, r' = (OVal v, s) /\ (r = (ORet v, s) \/ r = (OVal unit_v, s)).

  Lemma tail_same : forall r, tail r r.
  Proof. left. reflexivity. Qed.
  Lemma tail_leave : forall n r r', tail r r' -> tail (fst r, leave n (snd r)) (fst r', leave n (snd r')).
  Proof.
    intros n r r' [E|[v [s [E [F|F]]]]]; subst.
    - apply tail_same.
    - right. exists v, (leave n s). auto.
    - right. exists v, (leave n s). auto.
  Qed.
  Lemma tail_unlabel : forall l r r', tail r r' -> tail (unlabel l (fst r), snd r) (unlabel l (fst r'), snd r').
  Proof.
    intros l r r' [E|[v [s [E [F|F]]]]]; subst.
    - apply tail_same.
    - right. exists v, s. auto.
    - right. exists v, s. auto.
  Qed.
  Lemma tail_block : forall l n r r', tail r r' ->
    tail (let '(o, s) := r in (unlabel l o, leave n s)) (let '(o, s) := r' in (unlabel l o, leave n s)).
  Proof.
    intros l n [o s] [o' s'] H. apply (tail_unlabel l) in H. apply (tail_leave n) in H. exact H.
  Qed.
  Lemma tail_let : forall n r r', tail r r' ->
    tail (let '(o, s) := r in (o, leave n s)) (let '(o, s) := r' in (o, leave n s)).
  Proof. intros n [o s] [o' s'] H. apply (tail_leave n) in H. exact H. Qed.
  Lemma tail_then : forall r k k', (forall v s, tail (k v s) (k' v s)) -> tail (andthen w r k) (andthen w r k').
  Proof. intros [o s] k k' H. destruct o; try apply tail_same. apply H. Qed.
  Lemma tail_semi : forall r r', tail r r' -> tail (andthen w r (fun _ s => (OVal unit_v, s))) r'.
  Proof.
    intros r r' [E|[v [s [E [F|F]]]]]; subst.
    - destruct r as [o s]. destruct o; try apply tail_same. right. exists v, s. auto.
    - right. exists v, s. auto.
    - right. exists v, s. auto.
  Qed.
  (** Two ends of a block. *)
  Lemma tail_stmts : forall ss a a' t t', (forall s, tail (estmts w fuel t a s) (estmts w fuel t' a' s)) ->
    forall s, tail (estmts w fuel t (ss ++ a) s) (estmts w fuel t' (ss ++ a') s).
  Proof.
    intros ss a a' t t' H. induction ss as [|x ss IH]; intros s; [apply H|].
    destruct x as [p [i|] els|e|e]; cbn [app estmts].
    - apply tail_then. intros v s'. destruct (match_pat p v); [apply IH|]. apply tail_same.
    - apply tail_same.
    - apply tail_then. intros v s'. apply IH.
    - apply tail_then. intros v s'. apply IH.
  Qed.
  Lemma tail_arms : forall v before arms p g b b', (forall s, tail (ev b s) (ev b' s)) ->
    forall s, tail (earms w fuel v (before ++ (p, g, b) :: arms) s) (earms w fuel v (before ++ (p, g, b') :: arms) s).
  Proof.
    intros v before arms p g b b' H. induction before as [|[[q h] c] before IH]; intros s; cbn [app earms].
    - destruct (match_pat p v) as [bs|]; [|apply tail_same]. destruct g as [g|].
      + destruct (ev g (enter bs s)) as [o s']. destruct o as [u| | | | |]; try apply tail_same.
        destruct u as [|[]| | |]; try apply tail_same. apply tail_let, H.
      + apply tail_let, H.
    - destruct (match_pat q v) as [bs|]; [|apply IH]. destruct h as [h|]; [|apply tail_same].
      destruct (ev h (enter bs s)) as [o s']. destruct o as [u| | | | |]; try apply tail_same.
      destruct u as [|[]| | |]; try apply tail_same. apply IH.
  Qed.

  Lemma empty_block : forall (s : st), ev (EBlock None [] None) s = (OVal unit_v, s).
  Proof. intros. rewrite eval_block. cbn. rewrite leave_self. reflexivity. Qed.

  Definition nothing (repl : option expr) : Prop :=
    repl = None \/ repl = Some unit_e \/ repl = Some (EBlock None [] None).
  Lemma nothing_eval : forall repl s, nothing repl -> eopt w fuel repl s = (OVal unit_v, s).
  Proof. intros repl s [E|[E|E]]; subst; auto. apply empty_block. Qed.

  Theorem final_tail : forall e repl mt o, nothing repl -> In o (final repl mt e) ->
    forall s, tail (ev e s) (eopt w fuel o s).
  Proof.
    assert (N0 : nothing None) by (left; reflexivity).
    assert (N1 : nothing (Some unit_e)) by (right; left; reflexivity).
    induction e using expr_ind'; intros repl mt o' N Hin s; cbn in Hin; try contradiction.
    - (* if *)
      apply in_app_iff in Hin as [Hin|Hin].
      + destruct e2; try contradiction. apply in_opt_map in Hin as [x [A B]].
        destruct x as [a'|]; [|destruct (no_none _ _ _ A) as [K _]; discriminate]. subst o'. cbn [option_map eopt].
        rewrite !eval_if. apply tail_then. intros v s'. destruct v as [|[]| | |]; try apply tail_same.
        apply (IHe2 _ _ _ N0 A).
      + destruct b as [b|]; [|contradiction]. apply in_map_iff in Hin as [b' [A B]]. subst o'. cbn [eopt].
        rewrite !eval_if. apply tail_then. intros v s'. destruct v as [|[]| | |]; try apply tail_same.
        apply (H _ _ _ N0 B).
    - (* if let *)
      apply in_app_iff in Hin as [Hin|Hin].
      + destruct e2; try contradiction. apply in_opt_map in Hin as [x [A B]].
        destruct x as [a'|]; [|destruct (no_none _ _ _ A) as [K _]; discriminate]. subst o'. cbn [option_map eopt].
        rewrite !eval_iflet. apply tail_then. intros v s'. destruct (match_pat p v); [|apply tail_same].
        apply tail_let, (IHe2 _ _ _ N0 A).
      + destruct b as [b|]; [|contradiction]. apply in_map_iff in Hin as [b' [A B]]. subst o'. cbn [eopt].
        rewrite !eval_iflet. apply tail_then. intros v s'. destruct (match_pat p v); [apply tail_same|].
        apply (H _ _ _ N0 B).
    - (* match *)
      destruct t; [contradiction|]. revert Hin. generalize (tuple (EMatch false e arms)) as tu.
      change arms with (rev [] ++ arms) at 2. revert H. generalize (@nil (pat * option expr * expr)).
      induction arms as [|[[p g] b] arms IA]; intros before H tu Hin; [contradiction|].
      pose proof (Forall_inv H) as [_ Hb]; pose proof (Forall_inv_tail H) as Hrest. apply in_app_iff in Hin as [Hin|Hin].
      + apply in_opt_map in Hin as [x [A B]].
        destruct x as [b'|]; [|destruct (no_none _ _ _ A) as [_ [K _]]; discriminate]. subst o'. cbn [option_map eopt].
        rewrite !eval_match. apply tail_then. intros v s'. apply tail_arms. intros s''. apply (Hb _ _ _ N1 A).
      + replace (rev before ++ (p, g, b) :: arms) with (rev ((p, g, b) :: before) ++ arms)
          by (cbn; rewrite <- app_assoc; reflexivity).
        apply (IA ((p, g, b) :: before) Hrest tu Hin).
    - (* block *)
      destruct t as [t|].
      + apply in_map_iff in Hin as [t' [A B]]. subst o'. cbn [eopt]. rewrite !eval_block. apply tail_block.
        rewrite <- (app_nil_r ss). apply (tail_stmts ss [] [] (Some t) t'). intros s'. apply (H0 _ _ _ N0 B).
      + change ss with (rev [] ++ ss) at 1. revert Hin. generalize (@nil stmt).
        induction ss as [|x ss IA]; intros before Hin; [contradiction|].
        pose proof (Forall_inv H) as Hx; pose proof (Forall_inv_tail H) as Hrest.
        assert (R : rev before ++ x :: ss = rev (x :: before) ++ ss) by (cbn; rewrite <- app_assoc; reflexivity).
        destruct x as [p i els|a|a].
        * rewrite R. apply (IA Hrest _ Hin).
        * rewrite R. apply (IA Hrest _ Hin).
        * destruct ss as [|y ss].
          -- apply in_map_iff in Hin as [a' [A B]]. subst o'. cbn [eopt]. rewrite !eval_block. apply tail_block.
             rewrite <- (app_nil_r (rev before)) at 2.
             apply (tail_stmts (rev before) [SSemi a] [] None a'). intros s'. cbn [estmts eopt].
             apply tail_semi, (Hx _ _ _ N0 B).
          -- rewrite R. apply (IA Hrest _ Hin).
    - (* return *)
      destruct o as [a|].
      + destruct Hin as [E|[]]. subst o'. cbn [eopt]. rewrite eval_ret. cbn [eopt].
        destruct (ev a s) as [u s']. destruct u; try apply tail_same. right. exists v, s'. auto.
      + rewrite eval_ret. cbn [eopt andthen]. right. exists unit_v, s. split; [|auto].
        destruct mt as [[]|]; cbn in Hin; try contradiction; destruct Hin as [E|[]]; subst o'.
        * reflexivity.
        * apply nothing_eval; exact N.
  Qed.

  (** As the body of a function, when a function that returns the unit value still does. *)
  Definition out_of (o : out) : out := match o with ORet v => OVal v | OBrk _ _ => OStuck | _ => o end.
  Lemma tail_run : forall r r', tail r r' ->
    (forall v, out_of (fst r) = OVal unit_v -> out_of (fst r') = OVal v -> v = unit_v) ->
    out_of (fst r') = out_of (fst r) /\ snd r' = snd r.
  Proof.
    intros r r' [E|[v [s [E [F|F]]]]] T; subst; auto. cbn in *. rewrite (T v); auto.
  Qed.
End Tail.
