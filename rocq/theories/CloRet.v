(** The values a body returns: proofs about [ret_map] and the lint bind_instead_of_map. *)
From Verif Require Export CloIdent.

Lemma orb3 : forall a b c, a || b || c = false -> a = false /\ b = false /\ c = false.
Proof. intros [] [] []; auto. Qed.
Lemma some_sub_list : forall f es, existsb (some_sub f) es = false -> Forall (fun e => some_sub f e = false) es.
Proof. intros. apply Forall_forall. rewrite existsb_false in H. auto. Qed.

Section NoRet.
  Variable w : world.
  Variable fuel : nat.
  Notation st := (state w).
  Notation ev := (eval w fuel).

  Definition nr (r : out * st) : Prop := forall v, fst r <> ORet v.
  Definition quiet_ret (e : expr) : Prop := forall s, nr (ev e s).
  Lemma nr_bind : forall r k, nr r -> (forall v s, nr (k v s)) -> nr (andthen w r k).
  Proof. intros [o s] k H G. destruct o; cbn; auto. Qed.
  Lemma nr_val : forall v s, nr (OVal v, s).
  Proof. intros v s u H; discriminate H. Qed.
  Lemma nr_stuck : forall s, nr (OStuck, s).
  Proof. intros s u H; discriminate H. Qed.
  Lemma nr_calls : forall f vs s, nr (calls w f vs s).
  Proof. intros f vs s u H. unfold calls in H. destruct (call w f vs (snd s)) as [[] ?]; discriminate. Qed.
  Lemma nr_path : forall p vs s, nr (call_path w p vs s).
  Proof. intros [] vs s; cbn; try apply nr_val; [apply nr_calls|]. destruct vs as [|? [|]]; [apply nr_stuck|apply nr_val|apply nr_stuck]. Qed.
  Lemma nr_evals : forall es, Forall quiet_ret es -> forall s k, (forall vs s, nr (k vs s)) -> nr (evals w fuel es s k).
  Proof. induction 1; cbn; intros; auto. apply nr_bind; auto. Qed.
  Lemma nr_fields : forall fs, Forall (fun x => quiet_ret (snd x)) fs -> forall s k, (forall vs s, nr (k vs s)) -> nr (efields w fuel fs s k).
  Proof. induction 1 as [|[i e] fs A _ IH]; cbn; intros; auto. apply nr_bind; auto. Qed.
  Lemma nr_leave : forall r n, nr r -> nr (let '(o, s') := r in (o, leave n s')).
  Proof. intros [o s] n H. exact H. Qed.
  Lemma nr_opt : forall o, Opt quiet_ret o -> forall s, nr (eopt w fuel o s).
  Proof. intros [e|] H s; [apply H|apply nr_val]. Qed.
  Lemma nr_arms : forall v arms, Forall (ArmP quiet_ret) arms -> forall s, nr (earms w fuel v arms s).
  Proof.
    intros v; induction 1 as [|[[p g] b] arms [A B] _ IH]; cbn; intros s; [apply nr_stuck|].
    destruct (match_pat p v) as [bs|]; auto. destruct g as [g|]; cbn in A.
    - specialize (A (enter bs s)). destruct (ev g (enter bs s)) as [o s']. destruct o; try exact A.
      destruct v0; try (intros u H; discriminate H). destruct b0; auto.
      specialize (B s'). apply nr_leave; auto.
    - apply nr_leave, B.
  Qed.
  Lemma nr_stmts : forall t ss, Forall (StmtP quiet_ret) ss -> Opt quiet_ret t -> forall s, nr (estmts w fuel t ss s).
  Proof.
    intros t ss H Ht; induction H as [|x ss A _ IH]; cbn; intros s; [apply nr_opt; auto|].
    destruct x as [p [i|] b|e|e]; cbn in A; try (apply nr_bind; auto; fail); [|apply nr_stuck].
    destruct A as [A B]. apply nr_bind; [apply A|]. intros v s'. destruct (match_pat p v); auto.
    destruct b as [b|]; [|apply nr_stuck]. specialize (B s'). destruct (ev b s') as [o s'']. destruct o; try exact B.
    apply nr_stuck.
  Qed.
  Lemma nr_rounds : forall l b, quiet_ret b -> forall k s, nr (rounds w fuel l b k s).
  Proof.
    intros l b H; induction k; cbn; intros s; [intros u E; discriminate E|]. specialize (H s).
    destruct (ev b s) as [o s']; destruct o as [v|v|[l'|] v| | |]; auto.
    - destruct (same_label l (Some l')); intros u E; discriminate E.
    - apply nr_val.
  Qed.
  Lemma nr_apply : forall a vs s, nr (apply w fuel a vs s).
  Proof.
    intros [e|ps b|p] vs s; cbn [apply]; [apply nr_stuck| |apply nr_path].
    destruct (bind_all ps vs) as [bs|]; [|apply nr_stuck]. destruct (ev b (enter bs s)) as [o s'].
    intros u E. destruct o; discriminate E.
  Qed.
  Ltac nn := repeat match goal with
    | |- nr (andthen _ _ _) => apply nr_bind; [|intros ? ?]
    | |- context [match ?x with _ => _ end] => destruct x
    | |- nr (OVal _, _) => apply nr_val
    | |- nr (OStuck, _) => apply nr_stuck
    | |- nr (OPanic, _) => let u := fresh in let H := fresh in intros u H; discriminate H
    | |- nr (calls _ _ _ _) => apply nr_calls
    end; auto.
  Lemma nr_method : forall t m v es fs, Forall (fun f => forall vs s, nr (f vs s)) fs -> forall s, nr (method w t m v es fs s).
  Proof.
    intros t m v es fs H s. unfold method. destruct (view_of t v) as [vw|]; [|apply nr_stuck].
    destruct H as [|f ? F [|f' ? F' [|]]].
    - destruct m, vw, es as [|? [|]]; nn.
    - destruct m, vw, es as [|? [|]]; nn.
    - destruct m, vw, es as [|? [|]]; nn.
    - destruct m, vw, es as [|? [|]]; nn.
  Qed.
  Lemma nr_args : forall t m v args, Forall (fun a => match a with AE e => quiet_ret e | _ => True end) args ->
    forall s es fs, Forall (fun f => forall vs s, nr (f vs s)) fs -> nr (eargs w fuel t m v args s es fs).
  Proof.
    intros t m v args; induction 1 as [|a args A _ IH]; intros s es fs H.
    - cbn. apply nr_method, Forall_rev; auto.
    - destruct a as [e|ps b|p]; cbn [eargs].
      + apply nr_bind; auto.
      + apply IH. constructor; auto. intros; apply nr_apply.
      + apply IH. constructor; auto. intros; apply nr_apply.
  Qed.

  Definition is_ret (e : expr) : bool := match e with ERet _ => true | _ => false end.
  Ltac split_or H := cbn [some_sub] in H;
    repeat match type of H with (_ || _) = false => let H' := fresh in apply orb_false_iff in H; destruct H as [H H'] end.
  Theorem no_return_quiet : forall e, contains_return e = false -> quiet_ret e.
  Proof.
    unfold contains_return. change (fun e => match e with ERet _ => true | _ => false end) with is_ret.
    induction e using expr_ind'; intros L s; cbn [some_sub is_ret orb] in L.
    - cbn. destruct (lookup x (fst s)); [apply nr_val|apply nr_stuck].
    - apply nr_val.
    - apply nr_val.
    - rewrite eval_data. apply nr_evals; [|intros; apply nr_val]. refine (Forall_mp _ _ _ H _). apply some_sub_list; auto.
    - rewrite eval_struct. apply nr_fields; [|intros vs t; destruct (build vs); [apply nr_val|apply nr_stuck]].
      rewrite Forall_forall in *. intros [i e] I. apply (H _ I). rewrite existsb_false in L. exact (L _ I).
    - rewrite eval_call. apply nr_evals; [|intros; apply nr_calls]. refine (Forall_mp _ _ _ H _). apply some_sub_list; auto.
    - rewrite eval_callp. apply nr_evals; [|intros; apply nr_path]. refine (Forall_mp _ _ _ H _). apply some_sub_list; auto.
    - cbn [eval]. apply nr_bind; [apply IHe; auto|]. intros v t. destruct v; [apply nr_stuck|apply nr_val|apply nr_stuck..].
    - apply orb_false_iff in L. destruct L. cbn [eval]. apply nr_bind; [apply IHe1; auto|]. intros.
      apply nr_bind; [apply IHe2; auto|]. intros; apply nr_val.
    - apply orb_false_iff in L. destruct L. cbn [eval]. apply nr_bind; [apply IHe1; auto|]. intros v t.
      destruct v as [|[] | | |]; try apply nr_stuck; [apply nr_val|apply IHe2; auto].
    - cbn [eval]. apply nr_bind; [apply IHe; auto|]. intros v t. destruct (assign x v (fst t)); [apply nr_val|apply nr_stuck].
    - apply orb3 in L. destruct L as (L1 & L2 & L3). rewrite eval_if. apply nr_bind; [apply IHe1; auto|]. intros v t.
      destruct v as [|[] | | |]; try apply nr_stuck; [apply IHe2; auto|]. apply nr_opt. destruct b; cbn in *; auto; try exact (H L3).
    - apply orb3 in L. destruct L as (L1 & L2 & L3). rewrite eval_iflet. apply nr_bind; [apply IHe1; auto|]. intros v t.
      destruct (match_pat p v); [apply nr_leave, IHe2; auto|]. apply nr_opt. destruct b; cbn in *; auto; try exact (H L3).
    - apply orb_false_iff in L. destruct L as [L1 L2]. rewrite eval_match. apply nr_bind; [apply IHe; auto|]. intros v. apply nr_arms.
      rewrite Forall_forall in *. intros [[p g] b] I. destruct (H _ I) as [A B]. rewrite existsb_false in L2.
      specialize (L2 _ I). cbn in L2. apply orb_false_iff in L2. destruct L2 as [L2 L3].
      split; [destruct g; cbn in *; auto; try exact (A L2)|exact (B L3)].
    - apply orb_false_iff in L. destruct L as [L1 L2]. rewrite eval_block.
      assert (X : nr (estmts w fuel t ss s)).
      { apply nr_stmts.
        - rewrite Forall_forall in *. intros y I. specialize (H _ I). rewrite existsb_false in L1. specialize (L1 _ I).
          destruct y as [p i b|e|e]; cbn in *; [|exact (H L1)|exact (H L1)]. apply orb_false_iff in L1. destruct L1 as [L3 L4], H as [A B].
          split; [destruct i; cbn in *; auto; try exact (A L3)|destruct b; cbn in *; auto; try exact (B L4)].
        - destruct t; cbn in *; auto; try exact (H0 L2). }
      destruct (estmts w fuel t ss s) as [o s']. intros u E. cbn in E. destruct o as [v|v|l' v| | |]; cbn in E; try discriminate.
      + apply (X u). exact E.
      + destruct (same_label l l'); discriminate.
    - rewrite eval_loop. apply nr_rounds. apply IHe; auto.
    - discriminate.
    - rewrite eval_break. apply nr_bind; [|intros v t u E; discriminate E]. apply nr_opt. destruct o; cbn in *; auto; try exact (H L).
    - apply nr_val.
    - apply orb_false_iff in L. destruct L as [L1 L2]. rewrite eval_meth. apply nr_bind; [apply IHe; auto|]. intros v t'.
      destruct (view_of t v); [|apply nr_stuck]. apply nr_args; [|constructor].
      rewrite Forall_forall in *. intros y I. specialize (H _ I). rewrite existsb_false in L2. specialize (L2 _ I).
      destruct y; cbn in *; auto; try exact (H L2).
    - rewrite eval_panic. apply nr_evals; [|intros vs t u E; discriminate E]. refine (Forall_mp _ _ _ H _). apply some_sub_list; auto.
  Qed.
End NoRet.

(** ** Spec of what may stand in a body: no labelled block, no `return` in a guard. *)
Definition awkward (e : expr) : bool :=
  match e with
  | EBlock (Some _) _ _ => true
  | EMatch _ _ arms => existsb (fun x => match x with (_, g, _) => opt_some contains_return g end) arms
  | _ => false
  end.

Section RetMap.
  Variable w : world.
  Variable fuel : nat.
  Variable c : nat.
  Notation st := (state w).
  Notation ev := (eval w fuel).

  (** [m] is the flag [in_stmt]. *)
  Definition esc (m : bool) (o : out) : Prop := o = ORet unit_v \/ (m = false /\ o = OVal unit_v).
  Definition rel (m : bool) (o o' : out) : Prop :=
    match o with
    | OVal u => if m then o' = OVal u else exists v, u = VData (KCtor c) [v] /\ o' = OVal v
    | ORet u => exists v, u = VData (KCtor c) [v] /\ o' = ORet v
    | _ => o' = o
    end.
  Definition RS (m : bool) (r r' : out * st) : Prop := esc m (fst r) \/ (snd r' = snd r /\ rel m (fst r) (fst r')).
  Definition sim (m : bool) (e e' : expr) : Prop := forall s, RS m (ev e s) (ev e' s).

  Lemma RS_bind : forall m r r' k k', RS true r r' -> (forall v s, RS m (k v s) (k' v s)) -> RS m (andthen w r k) (andthen w r' k').
  Proof.
    intros m [o s] [o' s'] k k' H G. destruct H as [[E|[E _]]|[A B]]; cbn in *.
    - subst. left. left. reflexivity.
    - discriminate.
    - subst s'. destruct o; cbn in B; try (subst o'; cbn).
      + apply G.
      + destruct B as (u & -> & ->). cbn. right. cbn. eauto.
      + right; cbn; auto.
      + right; cbn; auto.
      + right; cbn; auto.
      + right; cbn; auto.
  Qed.
  Lemma RS_refl : forall r, nr w r -> RS true r r.
  Proof.
    intros [o s] H. destruct o; try (right; cbn; auto; fail). destruct (H v eq_refl).
  Qed.
  Lemma RS_leave : forall m r r' n, RS m r r' -> RS m (let '(o, s) := r in (o, leave n s)) (let '(o, s) := r' in (o, leave n s)).
  Proof.
    intros m [o s] [o' s'] n [E|[A B]]; cbn in *; [left; auto|]. subst. right. cbn. auto.
  Qed.
  Lemma RS_unlabel : forall r r' l n, RS true r r' -> RS true (let '(o, s) := r in (unlabel l o, leave n s)) (let '(o, s) := r' in (unlabel l o, leave n s)).
  Proof.
    intros [o s] [o' s'] l n [[E|[E _]]|[A B]]; cbn in *; [subst; left; left; reflexivity|discriminate|]. subst s'. destruct o; cbn in B; try (subst; right; cbn; auto; fail).
    - destruct B as (u & -> & ->). right; cbn. eauto.
    - subst. right. cbn. destruct (same_label l l0); cbn; auto.
  Qed.
  Lemma evals_sim : forall es es', Forall2 (sim true) es es' ->
    forall m s k k', (forall vs s, RS m (k vs s) (k' vs s)) -> RS m (evals w fuel es s k) (evals w fuel es' s k').
  Proof. induction 1; cbn; intros; auto. apply RS_bind; auto. Qed.
  Lemma fields_sim : forall fs fs', Forall2 (fun x y => fst x = fst y /\ sim true (snd x) (snd y)) fs fs' ->
    forall m s k k', (forall vs s, RS m (k vs s) (k' vs s)) -> RS m (efields w fuel fs s k) (efields w fuel fs' s k').
  Proof.
    induction 1 as [|[i e] [j e'] fs fs' [A B] _ IH]; cbn; intros; auto. cbn in A. subst j. apply RS_bind; auto.
  Qed.
  Definition optsim (m : bool) (a b : option expr) : Prop :=
    match a, b with Some a, Some b => sim m a b | None, None => True | _, _ => False end.
  Lemma opt_sim : forall m a b, optsim m a b -> forall s, RS m (eopt w fuel a s) (eopt w fuel b s).
  Proof.
    intros m [a|] [b|] H s; cbn in *; try tauto; [apply H|]. destruct m; [right; cbn; auto|left; right; auto].
  Qed.
  Definition armsim (m : bool) (a b : pat * option expr * expr) : Prop :=
    match a, b with (p, g, e), (p', g', e') => p = p' /\ optsim true g g' /\ sim m e e' end.
  Lemma arms_sim : forall m v arms arms', Forall2 (armsim m) arms arms' ->
    forall s, RS m (earms w fuel v arms s) (earms w fuel v arms' s).
  Proof.
    intros m v; induction 1 as [|[[p g] b] [[p' g'] b'] arms arms' (P & G & B) _ IH]; intros s; [right; cbn; auto|].
    subst p'. cbn [earms]. destruct (match_pat p v) as [bs|]; [|apply IH]. destruct g as [g|], g' as [g'|]; cbn in G; try tauto.
    - specialize (G (enter bs s)). destruct (ev g (enter bs s)) as [o t], (ev g' (enter bs s)) as [o' t'].
      destruct G as [[E|[E _]]|[E F]]; cbn in *; [subst; left; left; reflexivity|discriminate|]. subst t'.
      destruct o; cbn in F; try (subst o'; right; cbn; auto; fail).
      + subst o'. destruct v0 as [|[] | | |]; try (right; cbn; auto; fail); [apply RS_leave, B|apply IH].
      + destruct F as (u & -> & ->). right; cbn; eauto.
    - apply RS_leave, B.
  Qed.
  Definition stmtsim (a b : stmt) : Prop :=
    match a, b with
    | SLet p i e, SLet p' i' e' => p = p' /\ optsim true i i' /\ optsim true e e'
    | SExpr a, SExpr b | SSemi a, SSemi b => sim true a b
    | _, _ => False
    end.
  Lemma stmts_sim : forall m t t' ss ss', Forall2 stmtsim ss ss' -> optsim m t t' ->
    forall s, RS m (estmts w fuel t ss s) (estmts w fuel t' ss' s).
  Proof.
    intros m t t' ss ss' H Ht; induction H as [|x y ss ss' A _ IH]; intros s; [apply opt_sim; auto|].
    destruct x as [p i b|e|e], y as [p' i' b'|e'|e']; cbn in A; try tauto; cbn [estmts].
    - destruct A as (-> & A & B). destruct i as [i|], i' as [i'|]; cbn in A; try tauto; [|right; cbn; auto].
      apply RS_bind; [apply A|]. intros v u. destruct (match_pat p' v); [apply IH|].
      destruct b as [b|], b' as [b'|]; cbn in B; try tauto; [|right; cbn; auto].
      specialize (B u). destruct (ev b u) as [o x], (ev b' u) as [o' x']. destruct B as [[E|[E _]]|[E F]]; cbn in *.
      + subst. left. left. reflexivity.
      + discriminate.
      + subst. destruct o; cbn in F; try (subst o'; right; cbn; auto; fail). destruct F as (q & -> & ->). right; cbn; eauto.
    - apply RS_bind; auto.
    - apply RS_bind; auto.
  Qed.
  Lemma rounds_sim : forall l b b', sim true b b' -> forall k s, RS true (rounds w fuel l b k s) (rounds w fuel l b' k s).
  Proof.
    intros l b b' H; induction k; cbn; intros s; [right; cbn; auto|]. specialize (H s).
    destruct (ev b s) as [o t], (ev b' s) as [o' t']. destruct H as [[E|[E _]]|[E F]]; cbn in *.
    - subst. left; left; reflexivity.
    - discriminate.
    - subst t'. destruct o as [v|v|l' v| | |]; cbn in F.
      + subst o'. apply IHk.
      + destruct F as (q & -> & ->). right; cbn; eauto.
      + subst o'. destruct l' as [l'|]; [destruct (same_label l (Some l'))|]; right; cbn; auto.
      + subst o'. right; cbn; auto.
      + subst o'. right; cbn; auto.
      + subst o'. right; cbn; auto.
  Qed.
  Definition argsim (a b : arg) : Prop :=
    match a, b with AE a, AE b => sim true a b | AE _, _ | _, AE _ => False | _, _ => a = b end.
  Lemma args_sim : forall t m v args args', Forall2 argsim args args' ->
    forall s es fs, Forall (fun f => forall vs s, nr w (f vs s)) fs -> RS true (eargs w fuel t m v args s es fs) (eargs w fuel t m v args' s es fs).
  Proof.
    intros t m v; induction 1 as [|a b args args' A _ IH]; intros s es fs N.
    - apply RS_refl. cbn. apply nr_method, Forall_rev; auto.
    - destruct a as [e|ps e|p], b as [e'|ps' e'|p']; cbn in A; try tauto; try discriminate; cbn [eargs].
      + apply RS_bind; auto.
      + inversion A; subst. apply IH. constructor; auto. intros; apply nr_apply.
      + inversion A; subst. apply IH. constructor; auto. intros; apply nr_apply.
  Qed.

  Lemma wrapped_sim : forall e e', wrapped c e = Some e' -> sim false e e'.
  Proof.
    intros e e' H s. unfold wrapped, as_ctor in H.
    destruct e as [| | |[| |d] [|a [|]]| | | | | | | | | | | | | | | | |]; try discriminate.
    destruct (Nat.eqb_spec d c); [|discriminate]. destruct (contains_return a) eqn:R; [discriminate|]. inversion H; subst.
    rewrite eval_data. cbn. pose proof (no_return_quiet w fuel _ R s) as N. destruct (ev e' s) as [o t].
    destruct o; cbn; try (right; cbn; eauto; fail). destruct (N v eq_refl).
  Qed.
  Lemma same_sim : forall e, contains_return e = false -> sim true e e.
  Proof. intros e H s. apply RS_refl. apply no_return_quiet; auto. Qed.

  Definition main (e : expr) : Prop := some_sub awkward e = false -> forall m e', ret_map (wrapped c) m e = Some e' -> sim m e e'.

  Lemma trav_sim : forall {A} (P : A -> Prop) (Q : A -> A -> Prop) (f : A -> option A) l l',
    Forall P l -> (forall a b, P a -> f a = Some b -> Q a b) -> trav f l = Some l' -> Forall2 Q l l'.
  Proof.
    intros A P Q f l l' H G; revert l'; induction H as [|a l Pa _ IH]; cbn; intros l' T.
    - inversion T. constructor.
    - destruct (f a) eqn:F; [|discriminate]. destruct (trav f l) eqn:T'; [|discriminate]. inversion T; subst. constructor; auto.
  Qed.
  Lemma travo_sim : forall m o o', Opt main o -> opt_some (some_sub awkward) o = false -> travo (ret_map (wrapped c) m) o = Some o' -> optsim m o o'.
  Proof.
    intros m [e|] o' H L T; cbn in *; [|inversion T; cbn; auto].
    destruct (ret_map (wrapped c) m e) eqn:E; inversion T; subst. cbn. apply H; auto.
  Qed.
  Definition pm (m : bool) (e : expr) : Prop := forall e', ret_map (wrapped c) m e = Some e' -> sim m e e'.
  Lemma pm_list : forall m es, Forall main es -> existsb (some_sub awkward) es = false -> Forall (pm m) es.
  Proof.
    intros m es H L. rewrite existsb_false in L. rewrite Forall_forall in *. intros e I e'. apply (H _ I). auto.
  Qed.
  Lemma list_sim : forall es es', Forall main es -> existsb (some_sub awkward) es = false ->
    trav (ret_map (wrapped c) true) es = Some es' -> Forall2 (sim true) es es'.
  Proof. intros es es' H L T. eapply (trav_sim (pm true)); [apply pm_list; eauto| |exact T]. intros a b P. apply P. Qed.

  Ltac om H := match type of H with
    | option_map _ ?x = Some _ => let E := fresh "E" in destruct x eqn:E; [cbn [option_map] in H; inversion H; subst; clear H|discriminate H]
    | lift2 _ ?x ?y = Some _ => let E := fresh "E" in let F := fresh "F" in destruct x eqn:E; [|discriminate H]; destruct y eqn:F; [|discriminate H];
        cbn [lift2] in H; inversion H; subst; clear H
    | lift3 _ ?x ?y ?z = Some _ => let E := fresh "E" in let F := fresh "F" in let G := fresh "G" in
        destruct x eqn:E; [|discriminate H]; destruct y eqn:F; [|discriminate H]; destruct z eqn:G; [|discriminate H];
        cbn [lift3] in H; inversion H; subst; clear H
    end.
  Ltac leaf := let H := fresh in intros [] ? H; cbn [ret_map] in H; [inversion H; subst; apply same_sim; reflexivity|apply wrapped_sim; exact H].

  Lemma stmts_map : forall ss ss', Forall (StmtP main) ss ->
    existsb (fun x => match x with
                      | SLet _ i b => opt_some (some_sub awkward) i || opt_some (some_sub awkward) b
                      | SExpr a | SSemi a => some_sub awkward a
                      end) ss = false ->
    trav (fun s => match s with
                   | SLet p i b => lift2 (SLet p) (travo (ret_map (wrapped c) true) i) (travo (ret_map (wrapped c) true) b)
                   | SExpr a => option_map SExpr (ret_map (wrapped c) true a)
                   | SSemi a => option_map SSemi (ret_map (wrapped c) true a)
                   end) ss = Some ss' -> Forall2 stmtsim ss ss'.
  Proof.
    intros ss ss' H L T. eapply (trav_sim (fun x => StmtP main x /\ match x with
                      | SLet _ i b => opt_some (some_sub awkward) i || opt_some (some_sub awkward) b
                      | SExpr a | SSemi a => some_sub awkward a
                      end = false)); [| |exact T].
    - rewrite existsb_false in L. rewrite Forall_forall in *. intros x I. split; auto.
    - intros x y [A B] E. destruct x as [p i b|e|e]; cbn in A, B.
      + om E. apply orb_false_iff in B. destruct A, B. cbn. split; [auto|split]; eapply travo_sim; eauto.
      + om E. cbn. apply A; auto.
      + om E. cbn. apply A; auto.
  Qed.

  Theorem ret_map_sim : forall e, main e.
  Proof.
    induction e using expr_ind'; intros L; cbn [some_sub awkward orb] in L.
    - leaf.
    - leaf.
    - leaf.
    - intros [] e' M; cbn [ret_map] in M; [|apply wrapped_sim; exact M]. om M. intros s. rewrite !eval_data.
      apply evals_sim; [apply list_sim; auto|]. intros; right; cbn; auto.
    - intros [] e' M; cbn [ret_map] in M; [|apply wrapped_sim; exact M]. om M. intros s. rewrite !eval_struct.
      apply fields_sim.
      + eapply (trav_sim (fun x => pm true (snd x))); [| |exact E].
        * rewrite existsb_false in L. rewrite Forall_forall in *. intros [i e] I e'. apply (H _ I). exact (L _ I).
        * intros [i e] b P Q. om Q. cbn. split; auto.
      + intros vs t. destruct (build vs); right; cbn; auto.
    - intros [] e' M; cbn [ret_map] in M; [|apply wrapped_sim; exact M]. om M. intros s. rewrite !eval_call.
      apply evals_sim; [apply list_sim; auto|]. intros; apply RS_refl, nr_calls.
    - intros [] e' M; cbn [ret_map] in M; [|apply wrapped_sim; exact M]. om M. intros s. rewrite !eval_callp.
      apply evals_sim; [apply list_sim; auto|]. intros; apply RS_refl, nr_path.
    - intros [] e' M; cbn [ret_map] in M; [|apply wrapped_sim; exact M]. om M. intros s. cbn [eval].
      apply RS_bind; [apply IHe; auto|]. intros v t. destruct v; right; cbn; auto.
    - intros [] e' M; cbn [ret_map] in M; [|apply wrapped_sim; exact M]. om M. apply orb_false_iff in L. destruct L. intros s. cbn [eval].
      apply RS_bind; [apply IHe1; auto|]. intros v t. apply RS_bind; [apply IHe2; auto|]. intros; right; cbn; auto.
    - intros [] e' M; cbn [ret_map] in M; [|apply wrapped_sim; exact M]. om M. apply orb_false_iff in L. destruct L. intros s. cbn [eval].
      apply RS_bind; [apply IHe1; auto|]. intros v t. destruct v as [|[] | | |]; try (right; cbn; auto; fail). apply IHe2; auto.
    - intros [] e' M; cbn [ret_map] in M; [|apply wrapped_sim; exact M]. om M. intros s. cbn [eval].
      apply RS_bind; [apply IHe; auto|]. intros v t. destruct (assign x v (fst t)); right; cbn; auto.
    - apply orb3 in L. destruct L as (L1 & L2 & L3). intros m e' M.
      assert (M' : lift3 EIf (ret_map (wrapped c) true e1) (ret_map (wrapped c) m e2) (travo (ret_map (wrapped c) m) b) = Some e') by (destruct m; exact M).
      clear M. om M'. intros s. rewrite !eval_if. apply RS_bind; [apply IHe1; auto|]. intros v t.
      destruct v as [|[] | | |]; try (right; cbn; auto; fail); [apply IHe2; auto|]. apply opt_sim. eapply travo_sim; eauto.
    - apply orb3 in L. destruct L as (L1 & L2 & L3). intros m e' M.
      assert (M' : lift3 (EIfLet p) (ret_map (wrapped c) true e1) (ret_map (wrapped c) m e2) (travo (ret_map (wrapped c) m) b) = Some e') by (destruct m; exact M).
      clear M. om M'. intros s. rewrite !eval_iflet. apply RS_bind; [apply IHe1; auto|]. intros v t.
      destruct (match_pat p v); [apply RS_leave, IHe2; auto|]. apply opt_sim. eapply travo_sim; eauto.
    - rewrite orb_assoc in L; apply orb3 in L. destruct L as (L1 & L2 & L3). rewrite existsb_false in L1, L3.
      intros [] e' M; cbn [ret_map] in M; om M; intros s; rewrite !eval_match; (apply RS_bind; [apply IHe; auto|]); intros v; apply arms_sim.
      + eapply (trav_sim (fun x => ArmP main x /\ match x with (_, g, b) => opt_some (some_sub awkward) g || some_sub awkward b end = false)); [| |exact F].
        * rewrite Forall_forall in *. intros x I. split; auto.
        * intros [[p g] b] y [[A B] C] Q. om Q. apply orb_false_iff in C. destruct C. cbn. split; [auto|split]; [eapply travo_sim; eauto|apply B; auto].
      + eapply (trav_sim (fun x => ArmP main x /\ match x with (_, g, b) => opt_some (some_sub awkward) g || some_sub awkward b end = false
                                   /\ match x with (_, g, _) => opt_some contains_return g = false end)); [| |exact F].
        * rewrite Forall_forall in *. intros x I. split; [auto|split]; [exact (L3 _ I)|]. specialize (L1 _ I). destruct x as [[? ?] ?]. exact L1.
        * intros [[p g] b] y ([A B] & C & D) Q. om Q. apply orb_false_iff in C. destruct C. cbn. split; [auto|split]; [|apply B; auto].
          destruct g as [g|]; cbn in *; auto. apply same_sim; auto.
    - destruct l as [l|]; [discriminate|]. cbn [orb] in L. apply orb_false_iff in L. destruct L as [L1 L2]. intros m e' M.
      assert (M' : lift2 (EBlock None) (trav (fun s => match s with
                   | SLet p i b => lift2 (SLet p) (travo (ret_map (wrapped c) true) i) (travo (ret_map (wrapped c) true) b)
                   | SExpr a => option_map SExpr (ret_map (wrapped c) true a)
                   | SSemi a => option_map SSemi (ret_map (wrapped c) true a)
                   end) ss) (travo (ret_map (wrapped c) m) t) = Some e') by (destruct m; exact M).
      clear M. om M'. intros s. rewrite !eval_block.
      assert (X : RS m (estmts w fuel t ss s) (estmts w fuel o l s)).
      { apply stmts_sim; [apply stmts_map; auto|eapply travo_sim; eauto]. }
      destruct (estmts w fuel t ss s) as [o1 s1], (estmts w fuel o l s) as [o2 s2].
      replace (unlabel None o1) with o1 by (destruct o1; reflexivity). replace (unlabel None o2) with o2 by (destruct o2; reflexivity).
      apply (RS_leave m (o1, s1) (o2, s2)); auto.
    - intros [] e' M; cbn [ret_map] in M; [|apply wrapped_sim; exact M]. om M. intros s. rewrite !eval_loop. apply rounds_sim. apply IHe; auto.
    - destruct o as [a|].
      + intros m e' M. assert (M' : option_map (fun a => ERet (Some a)) (ret_map (wrapped c) false a) = Some e') by (destruct m; exact M).
        clear M. om M'. intros s. rewrite !eval_ret. cbn [eopt]. specialize (H L false _ E s).
        destruct (ev a s) as [o1 s1], (ev e s) as [o2 s2]. destruct H as [[X|[_ X]]|[X Y]]; cbn in X.
        * subst. left; left; reflexivity.
        * subst. left; left; reflexivity.
        * subst. cbn in Y. destruct o1; cbn in *; try (subst; right; cbn; auto; fail).
          -- destruct Y as (u & -> & ->). right; cbn; eauto.
          -- destruct Y as (u & -> & ->). right; cbn; eauto.
      + intros [] e' M; cbn [ret_map] in M; [|apply wrapped_sim; exact M]. inversion M; subst. intros s. left; left; reflexivity.
    - intros [] e' M; cbn [ret_map] in M; [|apply wrapped_sim; exact M]. om M. intros s. rewrite !eval_break.
      apply RS_bind; [apply opt_sim; eapply travo_sim; eauto|]. intros; right; cbn; auto.
    - leaf.
    - apply orb_false_iff in L. destruct L as [L1 L2]. intros [] e' M; cbn [ret_map] in M; [|apply wrapped_sim; exact M]. om M.
      intros s. rewrite !eval_meth. apply RS_bind; [apply IHe; auto|]. intros v t'. destruct (view_of t v); [|right; cbn; auto].
      apply args_sim; [|constructor].
      eapply (trav_sim (fun x => ArgP main x /\ match x with AE a => some_sub awkward a | AC _ _ | AP _ => false end = false)); [| |exact F].
      + rewrite existsb_false in L2. rewrite Forall_forall in *. intros x I. split; auto.
      + intros x y [A B] Q. destruct x; cbn in A, B.
        * om Q. cbn. apply A; auto.
        * inversion Q; subst. reflexivity.
        * inversion Q; subst. reflexivity.
    - intros [] e' M; cbn [ret_map] in M; [|apply wrapped_sim; exact M]. om M. intros s. rewrite !eval_panic.
      apply evals_sim; [apply list_sim; auto|]. intros; right; cbn; auto.
  Qed.
End RetMap.
