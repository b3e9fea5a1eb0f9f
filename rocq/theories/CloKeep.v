(** What evaluation keeps of the local variables. *)
From Verif Require Export CloEval.

Lemma existsb_false : forall {A} (f : A -> bool) l, existsb f l = false <-> forall a, In a l -> f a = false.
Proof.
  intros A f l; induction l; cbn; [split; intros; tauto|]. rewrite orb_false_iff, IHl. split.
  - intros [H1 H2] b [->|H]; auto.
  - intros H; split; auto.
Qed.

Section Keep.
  Variable w : world.
  Variable fuel : nat.
  Variable may : nat -> bool.
  Notation st := (state w).
  Notation ev := (eval w fuel).

  Definition K1 (a b : binding) : Prop := fst a = fst b /\ (may (fst a) = false -> snd a = snd b).
  Definition K (r r' : env) : Prop := Forall2 K1 r r'.
  Definition KS (s s' : st) : Prop := K (fst s) (fst s').

  Lemma K_refl : forall r, K r r.
  Proof. induction r; constructor; auto. split; auto. Qed.
  Lemma K_trans : forall a b c, K a b -> K b c -> K a c.
  Proof.
    intros a b c H; revert c; induction H as [|x y l l' [A B] H IH]; intros c H'; inversion H' as [|? z ? l'' [C D] H'']; subst;
      constructor.
    - split; [congruence|]. intros E. rewrite B by auto. apply D. congruence.
    - apply IH; auto.
  Qed.
  Lemma K_len : forall a b, K a b -> length a = length b.
  Proof. induction 1; cbn; congruence. Qed.
  Lemma K_skip : forall bs r r', K (bs ++ r) r' -> K r (skipn (length r' - length r) r').
  Proof.
    intros bs r r' H. pose proof (K_len _ _ H) as E. rewrite app_length in E.
    apply Forall2_app_inv_l in H. destruct H as (l1 & l2 & H1 & H2 & ->).
    pose proof (K_len _ _ H1). pose proof (K_len _ _ H2). rewrite app_length.
    replace (length l1 + length l2 - length r) with (length l1) by lia.
    rewrite skipn_app, skipn_all, Nat.sub_diag. exact H2.
  Qed.
  Lemma K_lookup : forall x r r', K r r' -> may x = false -> lookup x r' = lookup x r.
  Proof.
    intros x r r' H E. induction H as [|[y u] [z v] l l' [A B] H IH]; cbn in *; auto. subst z.
    destruct (Nat.eqb_spec x y); auto. subst. rewrite B; auto.
  Qed.
  Lemma K_assign : forall x v r r', assign x v r = Some r' -> may x = true -> K r r'.
  Proof.
    intros x v r; induction r as [|[y u] r IH]; cbn; intros r' H E; [discriminate|].
    destruct (Nat.eqb_spec x y).
    - inversion H; subst. constructor; [|apply K_refl]. split; auto. cbn. congruence.
    - destruct (assign x v r) eqn:F; inversion H; subst. constructor; [split; auto|]. apply IH; auto.
  Qed.

  Definition good (e : expr) : Prop := forall s, KS s (snd (ev e s)).
  Definition goodk {A} (k : A -> st -> out * st) : Prop := forall a s, KS s (snd (k a s)).

  Lemma KS_refl : forall s, KS s s.
  Proof. intros; apply K_refl. Qed.
  Lemma KS_trans : forall a b c, KS a b -> KS b c -> KS a c.
  Proof. intros a b c; apply K_trans. Qed.
  Lemma andthen_K : forall s r k, KS s (snd r) -> goodk k -> KS s (snd (andthen w r k)).
  Proof. intros s [o t] k H G. destruct o; cbn in *; auto. eapply KS_trans; eauto. Qed.
  Lemma evals_K : forall es, Forall good es -> forall s k, goodk k -> KS s (snd (evals w fuel es s k)).
  Proof.
    induction 1; cbn; intros; [apply H|]. apply andthen_K; auto.
    intros v t. apply IHForall. intros vs t'. apply H1.
  Qed.
  Lemma fields_K : forall fs, Forall (fun x => good (snd x)) fs -> forall s k, goodk k -> KS s (snd (efields w fuel fs s k)).
  Proof.
    induction 1 as [|[i e] fs A B IH]; cbn; intros; [apply H|]. apply andthen_K; auto.
    intros v t. apply IH. intros vs t'. apply H.
  Qed.
  Lemma leave_K : forall bs (s : st) s', KS (enter bs s) s' -> KS s (leave (length (fst s)) s').
  Proof. intros bs s s' H. unfold KS, leave; cbn. exact (K_skip bs _ _ H). Qed.
  Lemma leave_K2 : forall bs (s : st) s' s'', KS (enter bs s) s' -> KS s' s'' -> KS s (leave (length (fst s)) s'').
  Proof. intros. eapply leave_K, KS_trans; eauto. Qed.
  Lemma calls_K : forall f, goodk (calls w f).
  Proof. intros f vs s. unfold calls. destruct (call w f vs (snd s)). apply K_refl. Qed.
  Lemma call_path_K : forall p, goodk (call_path w p).
  Proof. intros p vs s. destruct p; cbn; try apply K_refl. apply calls_K. destruct vs as [|? [|]]; apply K_refl. Qed.
  Lemma opt_K : forall o, Opt good o -> forall s, KS s (snd (eopt w fuel o s)).
  Proof. intros [e|] H s; [apply H|apply K_refl]. Qed.
  Lemma arms_K : forall v arms, Forall (ArmP good) arms -> forall s, KS s (snd (earms w fuel v arms s)).
  Proof.
    intros v; induction 1 as [|[[p g] b] arms [A B] _ IH]; cbn; intros s; [apply K_refl|].
    destruct (match_pat p v) as [bs|]; auto. destruct g as [g|]; cbn in A.
    - specialize (A (enter bs s)). destruct (ev g (enter bs s)) as [o s']; cbn in A.
      destruct o; cbn; try (eapply leave_K; eassumption).
      destruct v0; cbn; try (eapply leave_K; eassumption). destruct b0.
      + specialize (B s'). destruct (ev b s') as [o s'']; cbn in *. eapply leave_K2; eassumption.
      + eapply KS_trans; [|apply IH]. eapply leave_K; eassumption.
    - specialize (B (enter bs s)). destruct (ev b (enter bs s)); cbn in *. eapply leave_K; eassumption.
  Qed.
  (** Statements may leave bindings on top. *)
  Definition KX (s s' : st) : Prop := exists pre r, fst s' = pre ++ r /\ K (fst s) r.
  Lemma KX_of : forall s s', KS s s' -> KX s s'.
  Proof. intros s s' H. exists [], (fst s'). auto. Qed.
  Lemma KX_enter : forall bs s s', KX (enter bs s) s' -> KX s s'.
  Proof.
    intros bs s s' (pre & r & A & B). cbn in B. apply Forall2_app_inv_l in B. destruct B as (l1 & l2 & B1 & B2 & ->).
    exists (pre ++ l1), l2. rewrite <- app_assoc. auto.
  Qed.
  Lemma KX_trans : forall s s' s'', KS s s' -> KX s' s'' -> KX s s''.
  Proof. intros s s' s'' H (pre & r & A & B). exists pre, r. split; auto. eapply K_trans; eauto. Qed.
  Lemma KX_leave : forall s s', KX s s' -> KS s (leave (length (fst s)) s').
  Proof.
    intros s s' (pre & r & A & B). unfold KS, leave; cbn. rewrite A, app_length, (K_len _ _ B).
    replace (length pre + length r - length r) with (length pre) by lia.
    rewrite skipn_app, skipn_all, Nat.sub_diag. exact B.
  Qed.
  Lemma stmts_K : forall t ss, Forall (StmtP good) ss -> Opt good t -> forall s, KX s (snd (estmts w fuel t ss s)).
  Proof.
    intros t ss H Ht; induction H as [|x ss A _ IH]; cbn; intros s.
    - apply KX_of, opt_K; auto.
    - destruct x as [p [i|] b|e|e]; cbn in A.
      + destruct A as [A B]. specialize (A s). destruct (ev i s) as [o s']. cbn in A.
        destruct o; cbn; try (apply KX_of; assumption).
        destruct (match_pat p v) as [bs|].
        * eapply KX_trans; [eassumption|]. eapply KX_enter. apply IH.
        * apply KX_of. destruct b as [b|]; cbn; auto. cbn in B. specialize (B s').
          destruct (ev b s') as [o s'']; cbn in B. destruct o; cbn; eapply KS_trans; eauto.
      + apply KX_of, K_refl.
      + specialize (A s). destruct (ev e s) as [o s']; cbn in A. destruct o; cbn; try (apply KX_of; assumption).
        eapply KX_trans; eauto.
      + specialize (A s). destruct (ev e s) as [o s']; cbn in A. destruct o; cbn; try (apply KX_of; assumption).
        eapply KX_trans; eauto.
  Qed.
  Lemma rounds_K : forall l b, good b -> forall k s, KS s (snd (rounds w fuel l b k s)).
  Proof.
    intros l b H; induction k; cbn; intros s; [apply K_refl|]. specialize (H s). destruct (ev b s) as [o s']; cbn in H.
    destruct o as [v|v|[l'|] v| | |]; cbn; auto. eapply KS_trans; eauto.
  Qed.
  Lemma apply_K : forall a, ArgP good a -> goodk (apply w fuel a).
  Proof.
    intros a H vs s. destruct a as [e|ps b|p]; cbn [ArgP apply] in *; [apply K_refl| |apply call_path_K].
    destruct (bind_all ps vs) as [bs|]; [|apply K_refl]. specialize (H (enter bs s)).
    destruct (ev b (enter bs s)) as [o s']; cbn in *. eapply leave_K; eassumption.
  Qed.
  Ltac kk := repeat match goal with
    | |- KS _ (snd (andthen _ _ _)) => apply andthen_K; [|intros ? ?]
    | |- goodk _ => intros ? ?
    | |- context [match ?x with _ => _ end] => destruct x
    | |- KS _ (snd (_, _)) => cbn
    end; try apply K_refl; try apply calls_K; auto.
  Lemma method_K : forall t m v es fs, Forall goodk fs -> forall s, KS s (snd (method w t m v es fs s)).
  Proof.
    intros t m v es fs H s. unfold method. destruct (view_of t v) as [vw|]; [|apply K_refl].
    assert (G : forall f, In f fs -> goodk f) by (apply Forall_forall; exact H). clear H.
    destruct fs as [|f [|f' [|? ?]]].
    - destruct m, vw, es as [|? [|]]; kk.
    - assert (F : goodk f) by (apply G; cbn; auto). destruct m, vw, es as [|? [|]]; kk.
    - assert (F : goodk f) by (apply G; cbn; auto). assert (F' : goodk f') by (apply G; cbn; auto).
      destruct m, vw, es as [|? [|]]; kk.
    - destruct m, vw, es as [|? [|]]; kk.
  Qed.
  Lemma args_K : forall t m v args, Forall (ArgP good) args ->
    forall s es fs, Forall goodk fs -> KS s (snd (eargs w fuel t m v args s es fs)).
  Proof.
    intros t m v args; induction 1 as [|a args A _ IH]; intros s es fs H.
    - cbn. apply method_K. apply Forall_rev; auto.
    - destruct a as [e|ps b|p].
      + cbn. apply andthen_K; [apply A|]. intros u s'. apply IH; auto.
      + cbn [eargs]. apply IH. constructor; auto. exact (apply_K _ A).
      + cbn [eargs]. apply IH. constructor; auto. exact (apply_K (AP p) I).
  Qed.

  (** The expression assigns no variable that must stay. *)
  Definition leaves (e : expr) : Prop := forall x, may x = false -> assigned x e = false.


  Ltac kids H := let x := fresh "x" in let E := fresh in
    intros x E; specialize (H x E); cbn [assigned] in H;
    repeat match type of H with (_ || _) = false => let H' := fresh in apply orb_false_iff in H; destruct H as [H H'] end; auto.
  Lemma kids_list : forall (f : nat -> expr -> bool) es, (forall x, may x = false -> existsb (f x) es = false) ->
    Forall (fun e => forall x, may x = false -> f x e = false) es.
  Proof. intros f es H. apply Forall_forall. intros e I x E. specialize (H x E). rewrite existsb_false in H. auto. Qed.
  Lemma Forall_mp : forall {A} (P Q : A -> Prop) l, Forall (fun a => P a -> Q a) l -> Forall P l -> Forall Q l.
  Proof. intros A P Q l H G. rewrite Forall_forall in *. intros; auto. Qed.
  Lemma opt_kids : forall (P Q : expr -> Prop) o, Opt (fun e => P e -> Q e) o -> Opt P o -> Opt Q o.
  Proof. intros P Q [e|]; cbn; auto. Qed.
  Lemma opt_leaves : forall o, (forall x, may x = false -> opt_some (assigned x) o = false) -> Opt leaves o.
  Proof. intros [e|] H; cbn; auto. Qed.

  Theorem eval_keeps : forall e, leaves e -> good e.
  Proof.
    induction e using expr_ind'; intros L; unfold good; intros s.
    - cbn. destruct (lookup x (fst s)); apply K_refl.
    - apply K_refl.
    - apply K_refl.
    - rewrite eval_data. apply evals_K. 2: intros ? ?; apply K_refl.
      refine (Forall_mp _ _ _ H _). apply kids_list. exact L.
    - rewrite eval_struct. apply fields_K. 2: intros a t; destruct (build a); apply K_refl.
      rewrite Forall_forall in *. intros [i e] I. apply (H _ I). intros x E. specialize (L x E). cbn in L.
      rewrite existsb_false in L. exact (L _ I).
    - rewrite eval_call. apply evals_K. 2: apply calls_K. refine (Forall_mp _ _ _ H _). apply kids_list. exact L.
    - rewrite eval_callp. apply evals_K. 2: apply call_path_K. refine (Forall_mp _ _ _ H _). apply kids_list. exact L.
    - cbn [eval]. apply andthen_K; [apply IHe; kids L|]. intros v t. destruct v; apply K_refl.
    - cbn [eval]. apply andthen_K; [apply IHe1; kids L|]. intros v t. apply andthen_K; [apply IHe2; kids L|].
      intros ? ?; apply K_refl.
    - cbn [eval]. apply andthen_K; [apply IHe1; kids L|]. intros v t. destruct v as [|[] | | |]; try apply K_refl.
      apply IHe2; kids L.
    - cbn [eval]. apply andthen_K; [apply IHe; kids L|]. intros v t.
      destruct (assign x v (fst t)) eqn:E; [|apply K_refl]. apply (K_assign _ _ _ _ E).
      destruct (may x) eqn:F; auto. specialize (L x F). cbn in L. rewrite Nat.eqb_refl in L. discriminate.
    - rewrite eval_if. apply andthen_K; [apply IHe1; kids L|]. intros v t. destruct v as [|[] | | |]; try apply K_refl.
      + apply IHe2; kids L.
      + apply opt_K. refine (opt_kids _ _ _ H _). apply opt_leaves. kids L.
    - rewrite eval_iflet. apply andthen_K; [apply IHe1; kids L|]. intros v t. destruct (match_pat p v) as [bs|].
      + assert (G : good e2) by (apply IHe2; kids L). specialize (G (enter bs t)).
        destruct (ev e2 (enter bs t)); cbn in *. eapply leave_K; eassumption.
      + apply opt_K. refine (opt_kids _ _ _ H _). apply opt_leaves. kids L.
    - rewrite eval_match. apply andthen_K; [apply IHe; kids L|]. intros v. apply arms_K.
      rewrite Forall_forall in *. intros [[p g] b] I. destruct (H _ I) as [A B].
      assert (C : forall x, may x = false -> opt_some (assigned x) g = false /\ assigned x b = false).
      { intros x E. specialize (L x E). cbn in L. apply orb_false_iff in L. destruct L as [_ L].
        rewrite existsb_false in L. specialize (L _ I). cbn in L. apply orb_false_iff in L. auto. }
      split; [refine (opt_kids _ _ _ A _); apply opt_leaves; intros; apply C; auto|]. apply B. intros x E; apply C; auto.
    - rewrite eval_block.
      assert (X : KX s (snd (estmts w fuel t ss s))).
      { apply stmts_K.
        - rewrite Forall_forall in *. intros y I. specialize (H _ I).
          assert (C : forall x, may x = false -> match y with
             | SLet _ i b => opt_some (assigned x) i || opt_some (assigned x) b
             | SExpr a | SSemi a => assigned x a end = false).
          { intros x E. specialize (L x E). cbn in L. apply orb_false_iff in L. destruct L as [L _].
            rewrite existsb_false in L. exact (L _ I). }
          destruct y as [p i b|e|e]; cbn in *; auto. destruct H as [A B].
          split; (refine (opt_kids _ _ _ _ _); [eassumption|]); apply opt_leaves; intros x E; specialize (C x E);
            apply orb_false_iff in C; tauto.
        - refine (opt_kids _ _ _ H0 _). apply opt_leaves. intros x E. specialize (L x E). cbn in L.
          apply orb_false_iff in L. tauto. }
      destruct (estmts w fuel t ss s) as [o s']. cbn in *. apply KX_leave; auto.
    - rewrite eval_loop. apply rounds_K. apply IHe; kids L.
    - rewrite eval_ret. apply andthen_K. 2: intros ? ?; apply K_refl. apply opt_K.
      refine (opt_kids _ _ _ H _). apply opt_leaves. exact L.
    - rewrite eval_break. apply andthen_K. 2: intros ? ?; apply K_refl. apply opt_K.
      refine (opt_kids _ _ _ H _). apply opt_leaves. exact L.
    - apply K_refl.
    - rewrite eval_meth. apply andthen_K; [apply IHe; kids L|]. intros v t'. destruct (view_of t v); [|apply K_refl].
      apply args_K; [|constructor].
      rewrite Forall_forall in *. intros y I. specialize (H _ I).
      assert (C : forall x, may x = false -> match y with AE a => assigned x a | AC _ b => assigned x b | AP _ => false end = false).
      { intros x E. specialize (L x E). cbn in L. apply orb_false_iff in L. destruct L as [_ L].
        rewrite existsb_false in L. exact (L _ I). }
      destruct y; cbn in *; auto.
    - rewrite eval_panic. apply evals_K. 2: intros ? ?; apply K_refl. refine (Forall_mp _ _ _ H _). apply kids_list. exact L.
  Qed.
End Keep.

(** The variables in scope stay. *)
Theorem eval_len : forall w fuel e s, length (fst (snd (eval w fuel e s))) = length (fst s).
Proof.
  intros. symmetry. eapply K_len. apply (eval_keeps w fuel (fun _ => true)). intros x H; discriminate.
Qed.
Lemma estmts_len : forall w fuel t ss (s : state w), length (fst s) <= length (fst (snd (estmts w fuel t ss s))).
Proof.
  intros. assert (X : KX w (fun _ => true) s (snd (estmts w fuel t ss s))).
  { assert (G : forall e, good w fuel (fun _ => true) e) by (intros e; apply eval_keeps; intros x H; discriminate).
    apply stmts_K.
    - apply Forall_forall. intros x _. destruct x as [? i b| |]; cbn; auto. split; [destruct i|destruct b]; cbn; auto.
    - destruct t; cbn; auto. }
  destruct X as (pre & r & A & B). rewrite A, app_length. rewrite (K_len _ _ _ B). lia.
Qed.
Theorem eval_lookup : forall w fuel x e s, assigned x e = false ->
  lookup x (fst (snd (eval w fuel e s))) = lookup x (fst s).
Proof.
  intros. eapply (K_lookup (fun y => negb (Nat.eqb y x))). 2: cbn; rewrite Nat.eqb_refl; auto.
  apply eval_keeps. intros y E. apply negb_false_iff, Nat.eqb_eq in E. subst; auto.
Qed.
Lemma leave_eval : forall w fuel e (s : state w), leave (length (fst s)) (snd (eval w fuel e s)) = snd (eval w fuel e s).
Proof.
  intros. unfold leave. rewrite eval_len, Nat.sub_diag. destruct (eval w fuel e s) as [o [r x]]. reflexivity.
Qed.
Lemma leave_self : forall w (s : state w), leave (length (fst s)) s = s.
Proof. intros w [r x]. unfold leave. cbn. rewrite Nat.sub_diag. reflexivity. Qed.
Lemma leave_enter : forall w bs (s : state w), leave (length (fst s)) (enter bs s) = s.
Proof.
  intros w bs [r x]. unfold leave, enter. cbn. rewrite app_length.
  replace (length bs + length r - length r) with (length bs) by lia.
  rewrite skipn_app, skipn_all, Nat.sub_diag. reflexivity.
Qed.
