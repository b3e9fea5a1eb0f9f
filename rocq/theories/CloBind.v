(** bind_instead_of_map and unnecessary_filter_map: proofs. *)
From Verif Require Export CloRet.

Definition clean (b : expr) : Prop := some_sub awkward b = false.

Section Bind.
  Variable w : world.
  Variable fuel : nat.
  Notation st := (state w).
  Notation ev := (eval w fuel).

  Lemma peel_one : forall a s, ev (EBlock None [] (Some a)) s = ev a s.
  Proof.
    intros a s. rewrite eval_block. cbn [estmts eopt]. pose proof (leave_eval w fuel a s) as L.
    destruct (ev a s) as [o s']. cbn in L. rewrite L. destruct o; reflexivity.
  Qed.
  Lemma peel_clean : forall b, clean b -> clean (peel_blocks b).
  Proof.
    fix IH 1. intros b H. destruct b as [| | | | | | | | | | | | | |l [|] [a|]| | | | | |]; try exact H.
    cbn [peel_blocks]. apply IH. unfold clean in *. destruct l; [discriminate|]. cbn in H. exact H.
  Qed.
  Lemma peel_eval : forall b, clean b -> forall s, ev (peel_blocks b) s = ev b s.
  Proof.
    fix IH 1. intros b H s. destruct b as [| | | | | | | | | | | | | |l [|] [a|]| | | | | |]; try reflexivity.
    cbn [peel_blocks]. unfold clean in H. destruct l; [discriminate|]. cbn in H. rewrite peel_one. apply IH. exact H.
  Qed.

  Lemma sim_apply : forall c ps b b' vs s, (forall s, RS w c false (ev b s) (ev b' s)) ->
    fst (apply w fuel (AC ps b) vs s) = OVal unit_v \/
    apply w fuel (AC ps b) vs s =
    andthen w (apply w fuel (AC ps b') vs s) (fun v s => (OVal (VData (KCtor c) [v]), s)).
  Proof.
    intros c ps b b' vs s H. cbn [apply]. destruct (bind_all ps vs) as [bs|]; [|right; reflexivity].
    specialize (H (enter bs s)). destruct (ev b (enter bs s)) as [o t], (ev b' (enter bs s)) as [o' t'].
    destruct H as [[E|[_ E]]|[E F]]; cbn in E; subst; [left; reflexivity|left; reflexivity|].
    right. cbn in F. destruct o; cbn in F; try (subst o'; reflexivity).
    - destruct F as (u & -> & ->). reflexivity.
    - destruct F as (u & -> & ->). reflexivity.
  Qed.

  (** What the type checker says of the value of an expression. *)
  Definition typed (t : rty) (r : out * st) : Prop :=
    match fst r with OStuck => False | OVal v => view_of t v <> None | _ => True end.

  Lemma view_good : forall t v x, t <> TBool -> view_of t v = Some (Good x) -> v = VData (KCtor (good_ctor t)) [x].
  Proof.
    intros t v x N H. destruct t; [| |congruence]; destruct v as [| |[| |c] [|y [|]]| |]; cbn in H; try discriminate.
    - destruct c; discriminate.
    - destruct (Nat.eqb_spec c c_some); inversion H; subst; auto.
    - destruct (Nat.eqb_spec c c_ok); [inversion H; subst; auto|]. destruct (Nat.eqb c c_err); discriminate.
  Qed.
  Lemma view_bad : forall v us, view_of TResult v = Some (Bad us) -> exists u, us = [u] /\ v = err_v u.
  Proof.
    intros v us H. destruct v as [| |[| |c] [|y [|]]| |]; cbn in H; try discriminate.
    destruct (Nat.eqb_spec c c_ok); [discriminate|]. destruct (Nat.eqb_spec c c_err); inversion H; subst. eauto.
  Qed.
  Lemma unit_view : forall t, view_of t unit_v = None.
  Proof. destruct t; reflexivity. Qed.

  Theorem bind_sound : forall e e', bind_instead_of_map e = Some e' ->
    forall t m r a, e = EMeth t m r [a] ->
    match a with AC _ b => clean b | _ => True end ->
    forall s, typed t (ev e s) -> ev e' s = ev e s.
  Proof.
    intros e e' H t m r a -> C s T. cbn [bind_instead_of_map] in H.
    assert (G : forall c m' ps b b', bind_kind t m = Some (c, m') -> a = AC ps b ->
              (forall s, RS w c false (ev b s) (ev b' s)) -> ev (EMeth t m' r [AC ps b']) s = ev (EMeth t m r [a]) s).
    { intros c m' ps b b' K -> S. unfold typed in T. rewrite !eval_meth in *. destruct (ev r s) as [o s1]. destruct o; try reflexivity.
      cbn [andthen] in *. destruct (view_of t v) as [vw|] eqn:V; [|reflexivity].
      cbn [eargs rev app] in *. unfold method in *. rewrite V in *.
      destruct t, m; cbn in K; try discriminate; inversion K; subst; destruct vw as [x|us]; try reflexivity.
      - destruct (sim_apply c_some ps b b' [x] s1 S) as [E|E].
        + exfalso. destruct (apply w fuel (AC ps b) [x] s1) as [o2 s2]. cbn in E. subst. cbn in T. apply T; reflexivity.
        + rewrite E. reflexivity.
      - destruct (sim_apply c_ok ps b b' [x] s1 S) as [E|E].
        + exfalso. destruct (apply w fuel (AC ps b) [x] s1) as [o2 s2]. cbn in E. subst. cbn in T. apply T; reflexivity.
        + rewrite E. reflexivity.
      - destruct (sim_apply c_err ps b b' us s1 S) as [E|E].
        + exfalso. destruct (apply w fuel (AC ps b) us s1) as [o2 s2]. cbn in E. subst. cbn in T. apply T; reflexivity.
        + rewrite E. reflexivity. }
    destruct (bind_kind t m) as [[c m']|] eqn:K; [|discriminate]. destruct a as [a|ps b|[d| |]]; try discriminate.
    - destruct (wrapped c (peel_blocks b)) as [i|] eqn:Wr.
      + inversion H; subst. apply (G c m' ps b i eq_refl eq_refl). intros s0. rewrite <- (peel_eval b C). apply wrapped_sim. exact Wr.
      + unfold find_all_ret in H. destruct (contains_try (peel_blocks b)); [discriminate|].
        destruct (ret_map (wrapped c) false (peel_blocks b)) as [b'|] eqn:R; [|discriminate]. cbn in H. inversion H; subst.
        apply (G c m' ps b b' eq_refl eq_refl). intros s0. rewrite <- (peel_eval b C).
        apply (ret_map_sim w fuel c (peel_blocks b)); auto. apply peel_clean; auto.
    - destruct (Nat.eqb_spec c d); [|discriminate]. inversion H; subst. unfold typed in T.
      rewrite !eval_meth in *. destruct (ev e' s) as [o s1]. destruct o; try reflexivity.
      cbn [andthen] in *. destruct (view_of t v) as [vw|] eqn:V; [|destruct T].
      cbn [eargs rev app] in *. unfold method in *. rewrite V in *.
      destruct t, m; cbn in K; try discriminate; inversion K; subst; destruct vw as [x|us]; try reflexivity; cbn.
      + rewrite (view_good TOption v x) by (auto; discriminate). reflexivity.
      + rewrite (view_good TResult v x) by (auto; discriminate). reflexivity.
      + destruct (view_bad _ _ V) as (u & -> & ->). reflexivity.
  Qed.
End Bind.

