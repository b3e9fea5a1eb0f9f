(** Expressions that can be moved into a closure: nothing escapes from them. *)
From Verif Require Export MatModel CloLazy.

Lemma same_label_sym : forall a b, same_label a b = same_label b a.
Proof. intros [a|] [b|]; auto. apply Nat.eqb_sym. Qed.
Lemma same_label_eq : forall a b, same_label a b = true -> a = b.
Proof. intros [a|] [b|] H; try discriminate. apply Nat.eqb_eq in H. congruence. Qed.

Section Calm.
  Variable w : world.
  Variable fuel : nat.
  Notation st := (state w).
  Notation ev := (eval w fuel).

  (** The loops a `break` may go to. *)
  Definition reaches (ls : list (option nat)) (o : out) : Prop :=
    match o with
    | ORet _ => False
    | OBrk None _ => ls <> []
    | OBrk (Some l) _ => existsb (same_label (Some l)) ls = true
    | _ => True
    end.
  Definition calm (ls : list (option nat)) (r : out * st) : Prop := reaches ls (fst r).
  Definition calm_e (ls : list (option nat)) (e : expr) : Prop := forall s, calm ls (ev e s).

  Lemma calm_bind : forall ls r k, calm ls r -> (forall v s, calm ls (k v s)) -> calm ls (andthen w r k).
  Proof. intros ls [o s] k H G. destruct o; cbn; auto. Qed.
  Lemma calm_calls : forall ls f vs s, calm ls (calls w f vs s).
  Proof. intros. unfold calls. destruct (call w f vs (snd s)) as [[] ?]; exact I. Qed.
  Lemma calm_path : forall ls p vs s, calm ls (call_path w p vs s).
  Proof. intros ls [] vs s; cbn; try exact I; [apply calm_calls|]. destruct vs as [|? [|]]; exact I. Qed.
  Lemma calm_evals : forall ls es, Forall (calm_e ls) es -> forall s k, (forall vs s, calm ls (k vs s)) -> calm ls (evals w fuel es s k).
  Proof. induction 1; cbn; intros; auto. apply calm_bind; auto. Qed.
  Lemma calm_fields : forall ls fs, Forall (fun x => calm_e ls (snd x)) fs -> forall s k, (forall vs s, calm ls (k vs s)) -> calm ls (efields w fuel fs s k).
  Proof. induction 1 as [|[i e] fs A _ IH]; cbn; intros; auto. apply calm_bind; auto. Qed.
  Lemma calm_leave : forall ls r n, calm ls r -> calm ls (let '(o, s') := r in (o, leave n s')).
  Proof. intros ls [o s] n H. exact H. Qed.
  Lemma calm_opt : forall ls o, Opt (calm_e ls) o -> forall s, calm ls (eopt w fuel o s).
  Proof. intros ls [e|] H s; [apply H|exact I]. Qed.
  Lemma calm_arms : forall ls v arms, Forall (ArmP (calm_e ls)) arms -> forall s, calm ls (earms w fuel v arms s).
  Proof.
    intros ls v; induction 1 as [|[[p g] b] arms [A B] _ IH]; cbn; intros s; [exact I|].
    destruct (match_pat p v) as [bs|]; auto. destruct g as [g|]; cbn in A.
    - specialize (A (enter bs s)). destruct (ev g (enter bs s)) as [o s']. destruct o; try exact A.
      destruct v0; try exact I. destruct b0; auto. specialize (B s'). apply calm_leave; auto.
    - apply calm_leave, B.
  Qed.
  Lemma calm_stmts : forall ls t ss, Forall (StmtP (calm_e ls)) ss -> Opt (calm_e ls) t -> forall s, calm ls (estmts w fuel t ss s).
  Proof.
    intros ls t ss H Ht; induction H as [|x ss A _ IH]; cbn; intros s; [apply calm_opt; auto|].
    destruct x as [p [i|] b|e|e]; cbn in A; try (apply calm_bind; auto; fail); [|exact I].
    destruct A as [A B]. apply calm_bind; [apply A|]. intros v s'. destruct (match_pat p v); auto.
    destruct b as [b|]; [|exact I]. specialize (B s'). destruct (ev b s') as [o s'']. destruct o; exact B.
  Qed.
  Lemma calm_rounds : forall ls l b, calm_e (l :: ls) b -> forall k s, calm ls (rounds w fuel l b k s).
  Proof.
    intros ls l b H; induction k; cbn; intros s; [exact I|]. specialize (H s). unfold calm in *.
    destruct (ev b s) as [o s']; destruct o as [v|v|[l'|] v| | |]; auto; cbn in *; try exact I.
    destruct (same_label l (Some l')) eqn:E; [exact I|]. rewrite same_label_sym in E.
    change (same_label (Some l') l || existsb (same_label (Some l')) ls = true) in H. rewrite E in H. exact H.
  Qed.
  Lemma calm_apply : forall ls a vs s, calm ls (apply w fuel a vs s).
  Proof.
    intros ls [e|ps b|p] vs s; cbn [apply]; [exact I| |apply calm_path].
    destruct (bind_all ps vs) as [bs|]; [|exact I]. destruct (ev b (enter bs s)) as [o s']. destruct o; exact I.
  Qed.
  Ltac cc := repeat match goal with
    | |- calm _ (andthen _ _ _) => apply calm_bind; [|intros ? ?]
    | |- context [match ?x with _ => _ end] => destruct x
    | |- calm _ (OVal _, _) => exact I
    | |- calm _ (OStuck, _) => exact I
    | |- calm _ (OPanic, _) => exact I
    | |- calm _ (calls _ _ _ _) => apply calm_calls
    end; auto.
  Lemma calm_method : forall ls t m v es fs, Forall (fun f => forall vs s, calm ls (f vs s)) fs -> forall s, calm ls (method w t m v es fs s).
  Proof.
    intros ls t m v es fs H s. unfold method. destruct (view_of t v) as [vw|]; [|exact I].
    destruct H as [|f ? F [|f' ? F' [|]]]; destruct m, vw, es as [|? [|]]; cc.
  Qed.
  Lemma calm_args : forall ls t m v args, Forall (fun a => match a with AE e => calm_e ls e | _ => True end) args ->
    forall s es fs, Forall (fun f => forall vs s, calm ls (f vs s)) fs -> calm ls (eargs w fuel t m v args s es fs).
  Proof.
    intros ls t m v args; induction 1 as [|a args A _ IH]; intros s es fs H.
    - cbn. apply calm_method, Forall_rev; auto.
    - destruct a as [e|ps b|p]; cbn [eargs].
      + apply calm_bind; auto.
      + apply IH. constructor; auto. intros; apply calm_apply.
      + apply IH. constructor; auto. intros; apply calm_apply.
  Qed.
  Lemma reaches_mono : forall ls ls' o, incl ls ls' -> reaches ls o -> reaches ls' o.
  Proof.
    intros ls ls' o H. destruct o as [v|v|[l|] v| | |]; cbn [reaches]; auto.
    - intros E. rewrite existsb_exists in *. destruct E as (x & J & E). exists x. auto.
    - intros N ->. apply N. destruct ls as [|a ls]; auto. destruct (H a); left; auto.
  Qed.

  Theorem movable_calm : forall e ls, movable ls e = true -> calm_e ls e.
  Proof.
    induction e using expr_ind'; intros ls L s; cbn [movable] in L.
    - cbn. destruct (lookup x (fst s)); exact I.
    - exact I.
    - exact I.
    - rewrite eval_data. apply calm_evals; [|intros; exact I]. eapply forallb_Forall; [|exact L].
      eapply Forall_impl; [|exact H]. intros a Q; apply Q.
    - rewrite eval_struct. apply calm_fields; [|intros vs t; destruct (build vs); exact I].
      eapply forallb_Forall; [|exact L]. eapply Forall_impl; [|exact H]. intros [i a] Q; apply Q.
    - rewrite eval_call. apply calm_evals; [|intros; apply calm_calls]. eapply forallb_Forall; [|exact L].
      eapply Forall_impl; [|exact H]. intros a Q; apply Q.
    - rewrite eval_callp. apply calm_evals; [|intros; apply calm_path]. eapply forallb_Forall; [|exact L].
      eapply Forall_impl; [|exact H]. intros a Q; apply Q.
    - cbn [eval]. apply calm_bind; [apply IHe; auto|]. intros v t. destruct v; exact I.
    - apply andb_true_iff in L. destruct L. cbn [eval]. apply calm_bind; [apply IHe1; auto|]. intros.
      apply calm_bind; [apply IHe2; auto|]. intros; exact I.
    - apply andb_true_iff in L. destruct L. cbn [eval]. apply calm_bind; [apply IHe1; auto|]. intros v t.
      destruct v as [|[] | | |]; try exact I. apply IHe2; auto.
    - cbn [eval]. apply calm_bind; [apply IHe; auto|]. intros v t. destruct (assign x v (fst t)); exact I.
    - apply andb_true_iff in L. destruct L as [L L3]. apply andb_true_iff in L. destruct L as [L1 L2].
      rewrite eval_if. apply calm_bind; [apply IHe1; auto|]. intros v t.
      destruct v as [|[] | | |]; try exact I; [apply IHe2; auto|]. apply calm_opt. destruct b; cbn in *; auto.
    - apply andb_true_iff in L. destruct L as [L L3]. apply andb_true_iff in L. destruct L as [L1 L2].
      rewrite eval_iflet. apply calm_bind; [apply IHe1; auto|]. intros v t.
      destruct (match_pat p v); [apply calm_leave, IHe2; auto|]. apply calm_opt. destruct b; cbn in *; auto.
    - apply andb_true_iff in L. destruct L as [L1 L2]. rewrite eval_match. apply calm_bind; [apply IHe; auto|]. intros v. apply calm_arms.
      eapply forallb_Forall; [|exact L2]. eapply Forall_impl; [|exact H]. intros [[p g] b] [Hg Hb] F. cbn in F.
      apply andb_true_iff in F. destruct F as [F1 F2]. split; [destruct g; cbn in *; auto|apply Hb; auto].
    - apply andb_true_iff in L. destruct L as [L1 L2]. rewrite eval_block.
      set (ls' := match l with Some _ => filter (fun l' => negb (same_label l l')) ls | None => ls end) in *.
      assert (IN : incl ls' ls).
      { unfold ls'. destruct l; [|apply incl_refl]. intros x J. apply filter_In in J. tauto. }
      assert (X : calm ls' (estmts w fuel t ss s)).
      { apply calm_stmts.
        - eapply forallb_Forall; [|exact L1]. eapply Forall_impl; [|exact H]. intros [p i b|e|e] Q F; cbn in *; auto.
          apply andb_true_iff in F. destruct F as [F1 F2], Q as [A B]. split; [destruct i|destruct b]; cbn in *; auto.
        - destruct t; cbn in *; auto. }
      unfold calm in *. destruct (estmts w fuel t ss s) as [o s']. cbn [fst] in *. apply (reaches_mono _ _ _ IN) in X.
      destruct o as [v|v|l' v| | |]; auto. cbn [unlabel]. destruct (same_label l l'); [exact I|exact X].
    - rewrite eval_loop. apply calm_rounds. apply IHe; auto.
    - discriminate.
    - apply andb_true_iff in L. destruct L as [L1 L2]. rewrite eval_break. apply calm_bind; [apply calm_opt; destruct o; cbn in *; auto|].
      intros v t. unfold calm. cbn. destruct l; [exact L1|]. destruct ls; [discriminate|]. discriminate.
    - exact I.
    - apply andb_true_iff in L. destruct L as [L1 L2]. rewrite eval_meth. apply calm_bind; [apply IHe; auto|]. intros v t'.
      destruct (view_of t v); [|exact I]. apply calm_args; [|constructor].
      eapply forallb_Forall; [|exact L2]. eapply Forall_impl; [|exact H]. intros [e'| |] Q F; cbn in *; auto.
    - rewrite eval_panic. apply calm_evals; [|intros; exact I]. eapply forallb_Forall; [|exact L].
      eapply Forall_impl; [|exact H]. intros a Q; apply Q.
  Qed.

  (** What a closure does whose body can be moved. *)
  Definition scoped (bs : list binding) (b : expr) (s : st) : out * st :=
    let '(o, s') := ev b (enter bs s) in (o, leave (length (fst s)) s').
  Lemma movable_apply : forall ps b vs bs s, movable [] b = true -> bind_all ps vs = Some bs ->
    apply w fuel (AC ps b) vs s = scoped bs b s.
  Proof.
    intros ps b vs bs s M B. cbn [apply]. rewrite B. unfold scoped. pose proof (movable_calm b [] M (enter bs s)) as C.
    unfold calm in C. destruct (ev b (enter bs s)) as [o s']. cbn [fst] in C. destruct o as [v|v|[l|] v| | |]; try reflexivity.
    - destruct C.
    - discriminate.
    - destruct (C eq_refl).
  Qed.
  Lemma bind_one : forall p v, bind_all [p] [v] = match match_pat p v with Some bs => Some bs | None => None end.
  Proof. intros. change (bind_all [p] [v]) with (match match_pat p v with Some a => Some (a ++ []) | None => None end).
    destruct (match_pat p v); auto. rewrite app_nil_r. auto. Qed.
End Calm.
