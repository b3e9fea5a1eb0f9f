(** Variables an expression does not mention make no difference to it: two runs whose environments differ only in extra
    bindings of such variables, or in the order of two runs of bindings of different variables, do the same, and leave the environments
    differing in the same way. *)
From Coq Require Export Permutation.
From Verif Require Export CloKeep.

Inductive side := SB | SL | SR | SX (n k : nat).

Section Frame.
  Variable w : world.
  Variable fuel : nat.
  Variable X : nat -> bool.
  Notation st := (state w).
  Notation ev := (eval w fuel).

  (** The mask says which bindings are shared, which are only in the left, which only in the right environment. *)
  Inductive F : list side -> env -> env -> Prop :=
  | F_nil : F [] [] []
  | F_both b m r r' : F m r r' -> F (SB :: m) (b :: r) (b :: r')
  | F_left b m r r' : X (fst b) = true -> F m r r' -> F (SL :: m) (b :: r) r'
  | F_right b m r r' : X (fst b) = true -> F m r r' -> F (SR :: m) r (b :: r')
  | F_swap a b m r r' : NoDup (map fst (a ++ b)) -> F m r r' -> F (SX (length a) (length b) :: m) ((a ++ b) ++ r) ((b ++ a) ++ r').

  Fixpoint ln (m : list side) : nat :=
    match m with [] => 0 | SR :: m => ln m | SX n k :: m => n + k + ln m | _ :: m => S (ln m) end.
  Fixpoint rn (m : list side) : nat :=
    match m with [] => 0 | SL :: m => rn m | SX n k :: m => n + k + rn m | _ :: m => S (rn m) end.
  Lemma F_len : forall m r r', F m r r' -> length r = ln m /\ length r' = rn m.
  Proof.
    induction 1 as [|? ? ? ? ? [A B]|? ? ? ? ? ? [A B]|? ? ? ? ? ? [A B]|a b ? ? ? ? ? [A B]]; cbn; try lia.
    unfold env, binding in *. rewrite !app_length, A, B. split; lia.
  Qed.

  Lemma lookup_app : forall y (a b : env), lookup y (a ++ b) = match lookup y a with Some v => Some v | None => lookup y b end.
  Proof. intros y a b; induction a as [|[x v] a IH]; cbn; auto. destruct (Nat.eqb y x); auto. Qed.
  Lemma lookup_in : forall y v (a : env), lookup y a = Some v -> In (y, v) a.
  Proof.
    intros y v a; induction a as [|[x u] a IH]; cbn; [discriminate|]. destruct (Nat.eqb_spec y x); auto.
    intros H; inversion H; subst; auto.
  Qed.
  Lemma lookup_nodup : forall y v (a : env), NoDup (map fst a) -> In (y, v) a -> lookup y a = Some v.
  Proof.
    intros y v a; induction a as [|[x u] a IH]; cbn; [contradiction|]. intros N I. inversion N; subst.
    destruct (Nat.eqb_spec y x).
    - subst. destruct I as [I|I]; [congruence|]. destruct H1. apply in_map_iff. exists (x, v); auto.
    - destruct I as [I|I]; [congruence|auto].
  Qed.
  Lemma lookup_perm : forall y (a b : env), Permutation a b -> NoDup (map fst a) -> lookup y a = lookup y b.
  Proof.
    intros y a b P N. assert (N' : NoDup (map fst b)) by (eapply Permutation_NoDup; [apply Permutation_map, P|exact N]).
    destruct (lookup y a) as [v|] eqn:E.
    - symmetry. apply lookup_nodup; auto. eapply Permutation_in; [exact P|]. apply lookup_in; auto.
    - destruct (lookup y b) as [v|] eqn:E'; auto. apply lookup_in in E'.
      assert (I : In (y, v) a) by (eapply Permutation_in; [apply Permutation_sym, P|exact E']).
      apply lookup_nodup in I; congruence.
  Qed.
  Lemma assign_app : forall y v (a b : env), assign y v (a ++ b) =
    match assign y v a with
    | Some a' => Some (a' ++ b)
    | None => match assign y v b with Some b' => Some (a ++ b') | None => None end
    end.
  Proof.
    intros y v a b; induction a as [|[x u] a IH]; cbn; [destruct (assign y v b); reflexivity|].
    destruct (Nat.eqb y x); auto. rewrite IH. destruct (assign y v a); auto. destruct (assign y v b); auto.
  Qed.
  Lemma assign_map : forall y v (a : env), NoDup (map fst a) ->
    assign y v a = match lookup y a with
                   | Some _ => Some (map (fun z => if Nat.eqb y (fst z) then (fst z, v) else z) a)
                   | None => None
                   end.
  Proof.
    intros y v a; induction a as [|[x u] a IH]; cbn; auto. intros N. inversion N; subst.
    destruct (Nat.eqb_spec y x).
    - subst. do 2 f_equal. rewrite <- (map_id a) at 1. apply map_ext_in. intros [z q] I. cbn.
      destruct (Nat.eqb_spec x z); auto. subst. destruct H1. apply in_map_iff. exists (z, q); auto.
    - rewrite IH by auto. destruct (lookup y a); auto.
  Qed.
  Lemma map_assign_fst : forall y v (a : env), map fst (map (fun z => if Nat.eqb y (fst z) then (fst z, v) else z) a) = map fst a.
  Proof. intros. rewrite map_map. apply map_ext. intros [z q]; cbn. destruct (Nat.eqb y z); auto. Qed.

  Lemma F_lookup : forall y m r r', X y = false -> F m r r' -> lookup y r = lookup y r'.
  Proof.
    intros y m r r' E H; induction H as [|[x v] m r r' H IH|[x v] m r r' Hx H IH|[x v] m r r' Hx H IH|a b m r r' N H IH]; cbn in *; auto.
    - rewrite IH; auto.
    - destruct (Nat.eqb_spec y x); auto. subst. congruence.
    - destruct (Nat.eqb_spec y x); auto. subst. congruence.
    - rewrite (lookup_app y (a ++ b)), (lookup_app y (b ++ a)), (lookup_perm y (a ++ b) (b ++ a) (Permutation_app_comm _ _) N), IH. reflexivity.
  Qed.
  Lemma F_assign : forall y v m r r', X y = false -> F m r r' ->
    match assign y v r, assign y v r' with Some q, Some q' => F m q q' | None, None => True | _, _ => False end.
  Proof.
    intros y v m r r' E H; induction H as [|[x u] m r r' H IH|[x u] m r r' Hx H IH|[x u] m r r' Hx H IH|a b m r r' N H IH]; cbn in *; auto.
    - destruct (Nat.eqb_spec y x); [constructor; auto|].
      destruct (assign y v r), (assign y v r'); auto. constructor; auto.
    - destruct (Nat.eqb_spec y x); [subst; congruence|].
      destruct (assign y v r), (assign y v r'); auto. constructor; auto.
    - destruct (Nat.eqb_spec y x); [subst; congruence|].
      destruct (assign y v r), (assign y v r'); auto. constructor; auto.
    - pose proof (Permutation_app_comm a b) as P.
      assert (N' : NoDup (map fst (b ++ a))) by (eapply Permutation_NoDup; [apply Permutation_map, P|exact N]).
      rewrite (assign_app y v (a ++ b)), (assign_app y v (b ++ a)), (assign_map y v (a ++ b) N), (assign_map y v (b ++ a) N'), <- (lookup_perm y (a ++ b) (b ++ a) P N).
      destruct (lookup y (a ++ b)).
      + set (f := fun z : nat * val => _). rewrite !map_app, <- (map_length f a), <- (map_length f b). constructor; auto.
        rewrite <- map_app. unfold f. rewrite map_assign_fst. auto.
      + destruct (assign y v r), (assign y v r'); auto. constructor; auto.
  Qed.
  Lemma F_enter : forall bs m r r', F m r r' -> F (repeat SB (length bs) ++ m) (bs ++ r) (bs ++ r').
  Proof. induction bs; cbn; intros; auto. constructor; auto. Qed.
  Lemma F_split : forall k m q q', F (repeat SB k ++ m) q q' ->
    exists q1 q2 q2', q = q1 ++ q2 /\ q' = q1 ++ q2' /\ F m q2 q2'.
  Proof.
    induction k; cbn; intros m q q' H; [exists [], q, q'; auto|].
    inversion H as [|b m1 r r' H1| | |]; subst. destruct (IHk _ _ _ H1) as (q1 & q2 & q2' & -> & -> & G). exists (b :: q1), q2, q2'. auto.
  Qed.

  Definition RS (m : list side) (s s' : st) : Prop := snd s = snd s' /\ F m (fst s) (fst s').
  Definition R (m : list side) (a a' : out * st) : Prop := fst a = fst a' /\ RS m (snd a) (snd a').
  Definition RX (m : list side) (a a' : out * st) : Prop := exists k, R (repeat SB k ++ m) a a'.
  Definition same (e : expr) : Prop := forall m s s', RS m s s' -> R m (ev e s) (ev e s').
  Definition samek {A} (k k' : A -> st -> out * st) : Prop := forall m a s s', RS m s s' -> R m (k a s) (k' a s').

  Lemma RS_enter : forall bs m s s', RS m s s' -> RS (repeat SB (length bs) ++ m) (enter bs s) (enter bs s').
  Proof. intros bs m s s' [A B]. split; auto. apply F_enter; auto. Qed.
  Lemma skip_split : forall (q1 q2 r : env), length q2 = length r -> skipn (length (q1 ++ q2) - length r) (q1 ++ q2) = q2.
  Proof.
    intros q1 q2 r E. rewrite app_length. replace (length q1 + length q2 - length r) with (length q1) by lia.
    rewrite skipn_app, skipn_all, Nat.sub_diag. reflexivity.
  Qed.
  Lemma RS_leave : forall k m s s' t t', RS m s s' -> RS (repeat SB k ++ m) t t' ->
    RS m (leave (length (fst s)) t) (leave (length (fst s')) t').
  Proof.
    intros k m s s' t t' [A B] [C D]. split; auto. unfold leave; cbn.
    destruct (F_split _ _ _ _ D) as (q1 & q2 & q2' & E1 & E2 & G). rewrite E1, E2.
    destruct (F_len _ _ _ B) as [L1 L2]. destruct (F_len _ _ _ G) as [L3 L4].
    rewrite (skip_split q1 q2 (fst s)) by lia. rewrite (skip_split q1 q2' (fst s')) by lia. exact G.
  Qed.
  Lemma R_ret : forall m o s s', RS m s s' -> R m (o, s) (o, s').
  Proof. split; auto. Qed.
  Lemma R_leave : forall k m s s' o t t', RS m s s' -> RS (repeat SB k ++ m) t t' ->
    R m (o, leave (length (fst s)) t) (o, leave (length (fst s')) t').
  Proof. intros. apply R_ret. eapply RS_leave; eauto. Qed.
  Lemma andthen_R : forall m a a' k k', R m a a' -> (forall v s s', RS m s s' -> R m (k v s) (k' v s')) ->
    R m (andthen w a k) (andthen w a' k').
  Proof. intros m [o s] [o' s'] k k' [E H] G. cbn in E; subst o'. destruct o; cbn; try (apply R_ret; exact H). apply G; auto. Qed.

  Lemma scoped_R : forall e, same e -> forall bs m s s', RS m s s' ->
    R m (let '(o, t) := ev e (enter bs s) in (o, leave (length (fst s)) t))
        (let '(o, t) := ev e (enter bs s') in (o, leave (length (fst s')) t)).
  Proof.
    intros e H bs m s s' E. specialize (H _ _ _ (RS_enter bs _ _ _ E)).
    destruct (ev e (enter bs s)) as [o t], (ev e (enter bs s')) as [o' t'], H as [A B]; cbn in *. subst o'.
    eapply R_leave; eauto.
  Qed.
  Lemma evals_R : forall es, Forall same es -> forall k k', samek k k' ->
    forall m s s', RS m s s' -> R m (evals w fuel es s k) (evals w fuel es s' k').
  Proof.
    induction 1; cbn; intros; [apply H; auto|]. apply andthen_R; [apply H; auto|].
    intros. apply IHForall; auto. intros ? ? ? ? ?. apply H1; auto.
  Qed.
  Lemma fields_R : forall fs, Forall (fun x => same (snd x)) fs -> forall k k', samek k k' ->
    forall m s s', RS m s s' -> R m (efields w fuel fs s k) (efields w fuel fs s' k').
  Proof.
    induction 1 as [|[i e] fs A B IH]; cbn; intros; [apply H; auto|]. apply andthen_R; [apply A; auto|].
    intros. apply IH; auto. intros ? ? ? ? ?. apply H; auto.
  Qed.
  Lemma calls_R : forall f, samek (calls w f) (calls w f).
  Proof.
    intros f m vs s s' [A B]. unfold calls. rewrite A. destruct (call w f vs (snd s')). split; auto. split; auto.
  Qed.
  Lemma call_path_R : forall p, samek (call_path w p) (call_path w p).
  Proof.
    intros p m vs s s' H. destruct p; cbn; try (apply R_ret; exact H); [apply calls_R; auto|].
    destruct vs as [|? [|]]; apply R_ret; exact H.
  Qed.
  Lemma opt_R : forall o, Opt same o -> forall m s s', RS m s s' -> R m (eopt w fuel o s) (eopt w fuel o s').
  Proof. intros [e|] H m s s' E; [apply H; auto|apply R_ret; auto]. Qed.
  Lemma arms_R : forall v arms, Forall (ArmP same) arms -> forall m s s', RS m s s' ->
    R m (earms w fuel v arms s) (earms w fuel v arms s').
  Proof.
    intros v; induction 1 as [|[[p g] b] arms [A B] _ IH]; cbn; intros m s s' E; [apply R_ret; auto|].
    destruct (match_pat p v) as [bs|]; auto. destruct g as [g|]; cbn in A.
    - specialize (A _ _ _ (RS_enter bs _ _ _ E)).
      destruct (ev g (enter bs s)) as [o t], (ev g (enter bs s')) as [o' t'], A as [C D]; cbn in C, D. subst o'.
      destruct o; cbn; try (eapply R_leave; eassumption).
      destruct v0; cbn; try (eapply R_leave; eassumption). destruct b0.
      + specialize (B _ _ _ D). destruct (ev b t) as [o t1], (ev b t') as [o' t1'], B as [B1 B2]; cbn in B1, B2.
        subst o'. eapply R_leave; eassumption.
      + apply IH. eapply RS_leave; eassumption.
    - apply scoped_R; auto.
  Qed.
  Lemma RX_of : forall m a a', R m a a' -> RX m a a'.
  Proof. intros m a a' H. exists 0. exact H. Qed.
  Lemma stmts_R : forall t ss, Forall (StmtP same) ss -> Opt same t -> forall m s s', RS m s s' ->
    RX m (estmts w fuel t ss s) (estmts w fuel t ss s').
  Proof.
    intros t ss H Ht; induction H as [|x ss A _ IH]; cbn; intros m s s' E.
    - apply RX_of, opt_R; auto.
    - destruct x as [p [i|] b|e|e]; cbn in A.
      + destruct A as [A B]. specialize (A _ _ _ E). destruct (ev i s) as [o t1], (ev i s') as [o' t1'], A as [A1 A2].
        cbn in A1, A2. subst o'. destruct o; cbn; try (apply RX_of, R_ret; assumption).
        destruct (match_pat p v) as [bs|].
        * destruct (IH _ _ _ (RS_enter bs _ _ _ A2)) as [k G]. exists (k + length bs).
          rewrite repeat_app, <- app_assoc. exact G.
        * apply RX_of. destruct b as [b|]; cbn; [|apply R_ret; auto]. cbn in B. specialize (B _ _ _ A2).
          destruct (ev b t1) as [o t2], (ev b t1') as [o' t2'], B as [B1 B2]. cbn in B1, B2. subst o'.
          destruct o; cbn; apply R_ret; auto.
      + apply RX_of, R_ret; auto.
      + specialize (A _ _ _ E). destruct (ev e s) as [o t1], (ev e s') as [o' t1'], A as [A1 A2].
        cbn in A1, A2. subst o'. destruct o; cbn; try (apply RX_of, R_ret; assumption). auto.
      + specialize (A _ _ _ E). destruct (ev e s) as [o t1], (ev e s') as [o' t1'], A as [A1 A2].
        cbn in A1, A2. subst o'. destruct o; cbn; try (apply RX_of, R_ret; assumption). auto.
  Qed.
  Lemma rounds_R : forall l b, same b -> forall k m s s', RS m s s' -> R m (rounds w fuel l b k s) (rounds w fuel l b k s').
  Proof.
    intros l b H; induction k; cbn; intros m s s' E; [apply R_ret; auto|]. specialize (H _ _ _ E).
    destruct (ev b s) as [o t1], (ev b s') as [o' t1'], H as [A1 A2]. cbn in A1, A2. subst o'.
    destruct o as [v|v|[l'|] v| | |]; cbn; try (apply R_ret; assumption). auto.
  Qed.
  Lemma apply_R : forall a, ArgP same a -> samek (apply w fuel a) (apply w fuel a).
  Proof.
    intros a H m vs s s' E. destruct a as [e|ps b|p]; cbn [ArgP apply] in *; [apply R_ret; auto| |apply call_path_R; auto].
    destruct (bind_all ps vs) as [bs|]; [|apply R_ret; auto]. specialize (H _ _ _ (RS_enter bs _ _ _ E)).
    destruct (ev b (enter bs s)) as [o t], (ev b (enter bs s')) as [o' t'], H as [A B]; cbn in A, B. subst o'.
    eapply R_leave; eauto.
  Qed.
  Ltac kk := repeat match goal with
    | |- R _ (andthen _ _ _) (andthen _ _ _) => apply andthen_R; [|intros ? ? ? ?]
    | |- R _ (match ?x with _ => _ end) _ => destruct x
    end; try (apply R_ret; assumption); try (apply calls_R; assumption); auto.
  Lemma method_R : forall t m v es fs fs', Forall2 samek fs fs' -> forall k s s', RS k s s' ->
    R k (method w t m v es fs s) (method w t m v es fs' s').
  Proof.
    intros t m v es fs fs' H k s s' E. unfold method. destruct (view_of t v) as [vw|]; [|apply R_ret; auto].
    destruct H as [|f f' fs fs' Hf [|g g' fs1 fs1' Hg [|]]].
    - destruct m, vw, es as [|? [|]]; kk.
    - destruct m, vw, es as [|? [|]]; kk.
    - destruct m, vw, es as [|? [|]]; kk.
    - destruct m, vw, es as [|? [|]]; kk.
  Qed.
  Lemma Forall2_rev : forall {A B} (P : A -> B -> Prop) l l', Forall2 P l l' -> Forall2 P (rev l) (rev l').
  Proof. induction 1; cbn; auto. apply Forall2_app; auto. Qed.
  Lemma args_R : forall t m v args, Forall (ArgP same) args ->
    forall es fs fs' k s s', Forall2 samek fs fs' -> RS k s s' ->
    R k (eargs w fuel t m v args s es fs) (eargs w fuel t m v args s' es fs').
  Proof.
    intros t m v args; induction 1 as [|a args A _ IH]; intros es fs fs' k s s' H E.
    - cbn. apply method_R; auto. apply Forall2_rev; auto.
    - destruct a as [e|ps b|p].
      + cbn. apply andthen_R; [apply A; auto|]. intros. apply IH; auto.
      + cbn [eargs]. apply IH; auto. constructor; auto. exact (apply_R _ A).
      + cbn [eargs]. apply IH; auto. constructor; auto. exact (apply_R (AP p) I).
  Qed.

  (** The expression mentions none of the extra variables. *)
  Definition free (e : expr) : Prop := forall x, X x = true -> local_used x e = false.

  Ltac kids H := let x := fresh "x" in let E := fresh in
    intros x E; specialize (H x E); cbn [local_used] in H;
    repeat match type of H with (_ || _) = false => let H' := fresh in apply orb_false_iff in H; destruct H as [H H'] end; auto.
  Lemma free_list : forall es, (forall x, X x = true -> existsb (local_used x) es = false) -> Forall free es.
  Proof. intros es H. apply Forall_forall. intros e I x E. specialize (H x E). rewrite existsb_false in H. auto. Qed.
  Lemma opt_free : forall o, (forall x, X x = true -> opt_some (local_used x) o = false) -> Opt free o.
  Proof. intros [e|] H; cbn; auto. Qed.

  Theorem eval_frame : forall e, free e -> same e.
  Proof.
    induction e using expr_ind'; intros L; unfold same; intros m0 s s' E0.
    - cbn. assert (Z : X x = false).
      { destruct (X x) eqn:Z; auto. specialize (L x Z). cbn in L. rewrite Nat.eqb_refl in L. discriminate. }
      destruct E0 as [E1 E2]. rewrite (F_lookup _ _ _ _ Z E2).
      destruct (lookup x (fst s')); apply R_ret; split; auto.
    - apply R_ret; auto.
    - apply R_ret; auto.
    - rewrite !eval_data. apply evals_R; auto. 2: intros ? ? ? ? ?; apply R_ret; auto.
      refine (Forall_mp _ _ _ H _). apply free_list. exact L.
    - rewrite !eval_struct. apply fields_R; auto. 2: intros ? a ? ? ?; destruct (build a); apply R_ret; auto.
      rewrite Forall_forall in *. intros [i e] I. apply (H _ I). intros x E. specialize (L x E). cbn in L.
      rewrite existsb_false in L. exact (L _ I).
    - rewrite !eval_call. apply evals_R; auto. 2: apply calls_R. refine (Forall_mp _ _ _ H _). apply free_list. exact L.
    - rewrite !eval_callp. apply evals_R; auto. 2: apply call_path_R. refine (Forall_mp _ _ _ H _). apply free_list. exact L.
    - cbn [eval]. apply andthen_R; [apply IHe; auto|]. intros v t t' E. destruct v; apply R_ret; auto.
    - cbn [eval]. apply andthen_R; [apply IHe1; auto; kids L|]. intros v t t' E. apply andthen_R; [apply IHe2; auto; kids L|].
      intros; apply R_ret; auto.
    - cbn [eval]. apply andthen_R; [apply IHe1; auto; kids L|]. intros v t t' E.
      destruct v as [|[] | | |]; try (apply R_ret; assumption). apply IHe2; auto; kids L.
    - cbn [eval]. apply andthen_R; [apply IHe; auto; kids L|]. intros v t t' [E1 E2].
      assert (Z : X x = false).
      { destruct (X x) eqn:Z; auto. specialize (L x Z). cbn in L. rewrite Nat.eqb_refl in L. discriminate. }
      generalize (F_assign x v _ _ _ Z E2).
      destruct (assign x v (fst t)), (assign x v (fst t')); try contradiction; intros; apply R_ret; split; auto.
    - rewrite !eval_if. apply andthen_R; [apply IHe1; auto; kids L|]. intros v t t' E.
      destruct v as [|[] | | |]; try (apply R_ret; assumption).
      + apply IHe2; auto; kids L.
      + apply opt_R; auto. refine (opt_kids _ _ _ H _). apply opt_free. kids L.
    - rewrite !eval_iflet. apply andthen_R; [apply IHe1; auto; kids L|]. intros v t t' E. destruct (match_pat p v) as [bs|].
      + apply scoped_R; auto. apply IHe2; kids L.
      + apply opt_R; auto. refine (opt_kids _ _ _ H _). apply opt_free. kids L.
    - rewrite !eval_match. apply andthen_R; [apply IHe; auto; kids L|]. intros v s1 s2 E. apply arms_R; auto.
      rewrite Forall_forall in *. intros [[p g] b] I. destruct (H _ I) as [A B].
      assert (C : forall x, X x = true -> opt_some (local_used x) g = false /\ local_used x b = false).
      { intros x E1. specialize (L x E1). cbn in L. apply orb_false_iff in L. destruct L as [_ L].
        rewrite existsb_false in L. specialize (L _ I). cbn in L. apply orb_false_iff in L. auto. }
      split; [refine (opt_kids _ _ _ A _); apply opt_free; intros; apply C; auto|]. apply B. intros x E1; apply C; auto.
    - rewrite !eval_block.
      assert (Z : RX m0 (estmts w fuel t ss s) (estmts w fuel t ss s')).
      { apply stmts_R; auto.
        - rewrite Forall_forall in *. intros y I. specialize (H _ I).
          assert (C : forall x, X x = true -> match y with
             | SLet _ i b => opt_some (local_used x) i || opt_some (local_used x) b
             | SExpr a | SSemi a => local_used x a end = false).
          { intros x E. specialize (L x E). cbn in L. apply orb_false_iff in L. destruct L as [L _].
            rewrite existsb_false in L. exact (L _ I). }
          destruct y as [p i b|e|e]; cbn in *; auto. destruct H as [A B].
          split; (refine (opt_kids _ _ _ _ _); [eassumption|]); apply opt_free; intros x E; specialize (C x E);
            apply orb_false_iff in C; tauto.
        - refine (opt_kids _ _ _ H0 _). apply opt_free. intros x E. specialize (L x E). cbn in L.
          apply orb_false_iff in L. tauto. }
      destruct Z as [k [Z1 Z2]].
      destruct (estmts w fuel t ss s) as [o t1], (estmts w fuel t ss s') as [o' t1']. cbn in Z1, Z2. subst o'.
      eapply R_leave; eauto.
    - rewrite !eval_loop. apply rounds_R; auto.
    - rewrite !eval_ret. apply andthen_R. 2: intros; apply R_ret; auto. apply opt_R; auto.
      refine (opt_kids _ _ _ H _). apply opt_free. exact L.
    - rewrite !eval_break. apply andthen_R. 2: intros; apply R_ret; auto. apply opt_R; auto.
      refine (opt_kids _ _ _ H _). apply opt_free. exact L.
    - apply R_ret; auto.
    - rewrite !eval_meth. apply andthen_R; [apply IHe; auto; kids L|]. intros v t1 t1' E.
      destruct (view_of t v); [|apply R_ret; auto].
      apply args_R; auto.
      rewrite Forall_forall in *. intros y I. specialize (H _ I).
      assert (C : forall x, X x = true -> match y with AE a => local_used x a | AC _ b => local_used x b | AP _ => false end = false).
      { intros x E1. specialize (L x E1). cbn in L. apply orb_false_iff in L. destruct L as [_ L].
        rewrite existsb_false in L. exact (L _ I). }
      destruct y; cbn in *; auto.
    - rewrite !eval_panic. apply evals_R; auto. 2: intros ? ? ? ? ?; apply R_ret; auto.
      refine (Forall_mp _ _ _ H _). apply free_list. exact L.
  Qed.
End Frame.
