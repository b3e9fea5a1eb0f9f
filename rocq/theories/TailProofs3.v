(** question_mark *)
From Verif Require Export TailProofs2.

(** The type a constructor belongs to. *)
Definition ty_of (c : nat) : rty := if Nat.eqb c c_some || Nat.eqb c c_none then TOption else TResult.

Section Question.
  Variable w : world.
  Variable fuel : nat.
  Notation st := (state w).
  Notation ev := (eval w fuel).
  Notation sc := (scoped w fuel).
  Ltac recv r s := let o := fresh "o" in let v := fresh "v" in let s1 := fresh "s1" in
    destruct (ev r s) as [o s1] eqn:?; destruct o as [v| | | | |]; try reflexivity; cbn [andthen] in *.

  (** What is returned has the type. *)
  Definition returns_a (t : rty) (b : expr) : Prop := forall s v, fst (ev b s) = ORet v -> view_of t v <> None.
  (** It never goes on. *)
  Definition leaves (b : expr) : Prop := forall s v, fst (ev b s) <> OVal v.

  Section Bad.
    Variable name : nat -> nat.
    Variable t : rty.
    Variable cond : expr.
    Variable err : option nat.
    Definition target (s : st) (v : val) : Prop :=
      match t with
      | TOption => v = none_v
      | TResult =>
          (exists y, cond = EVar y false /\ lookup y (fst s) = Some v) \/
          (exists x y u, err = Some y /\ name x = name y /\ lookup x (fst s) = Some u /\ v = err_v u)
      | TBool => False
      end.
    Definition lands (e : expr) (s : st) : Prop :=
      (exists v, ev e s = (OVal v, s) /\ (target s v \/ v = unit_v)) \/
      (exists v, ev e s = (ORet v, s) /\ (target s v \/ v = unit_v)) \/ ev e s = (OStuck, s).
    Lemma lands_tail : forall l a s, lands a s -> lands (EBlock l [] (Some a)) s.
    Proof.
      intros l a s [(v & E & T)|[(v & E & T)|E]]; unfold lands; rewrite !eval_block; cbn [estmts eopt]; rewrite E; cbn [unlabel];
        rewrite leave_self; eauto.
    Qed.
    Lemma lands_stmt : forall l x a s, x = SExpr a \/ x = SSemi a -> lands a s -> lands (EBlock l [x] None) s.
    Proof.
      intros l x a s X [(v & E & T)|[(v & E & T)|E]]; unfold lands; rewrite !eval_block; destruct X; subst x; cbn [estmts eopt]; rewrite E;
        cbn [andthen unlabel]; rewrite leave_self; eauto.
    Qed.
    Lemma return_bad_lands : forall e peeled s, return_bad name t cond err peeled e = true -> lands e s.
    Proof.
      induction e using expr_ind'; intros peeled s G; try discriminate.
      - destruct a; [discriminate|]. cbn in G. destruct t eqn:TT; try discriminate.
        destruct cond as [y [|]| | | | | | | | | | | | | | | | | | | |] eqn:CC; try discriminate.
        destruct (Nat.eqb_spec x y); [subst y|discriminate]. unfold lands. cbn [eval].
        destruct (lookup x (fst s)) as [v|] eqn:L; [|auto]. left. exists v. split; [reflexivity|]. left. unfold target. rewrite TT. left. exists x. auto.
      - destruct k as [| |c]; try discriminate. destruct es as [|[x [|]| | | | | | | | | | | | | | | | | | | |] [|]]; try discriminate.
        + cbn in G. destruct t eqn:TT; try discriminate. apply Nat.eqb_eq in G. subst c. left. exists none_v. split; [reflexivity|]. left. unfold target. rewrite TT. reflexivity.
        + cbn in G. destruct t eqn:TT; try discriminate. destruct err as [y|] eqn:EE; try discriminate. apply andb_true_iff in G as [C NM].
          apply Nat.eqb_eq in C, NM. subst c. unfold lands. rewrite eval_ctor. cbn [eval]. destruct (lookup x (fst s)) as [u|] eqn:L; cbn [andthen]; [|auto].
          left. exists (err_v u). split; [reflexivity|]. left. unfold target. rewrite TT. right. exists x, y, u. auto.
      - destruct ss as [|[|a|a] [|]], t0 as [b|]; try discriminate; cbn in G.
        + apply lands_tail. exact (H0 true s G).
        + apply (lands_stmt _ _ a); auto. exact (Forall_inv H true s G).
        + apply (lands_stmt _ _ a); auto. exact (Forall_inv H true s G).
      - destruct o as [a|]; [|discriminate]. cbn in G.
        destruct (H false s G) as [(v & E & T)|[(v & E & T)|E]]; unfold lands; rewrite eval_ret; cbn [eopt]; rewrite E; cbn [andthen]; eauto.
    Qed.
    (** With `return` under the blocks, it returns. *)
    Lemma return_bad_ret : forall e peeled s, return_bad name t cond err peeled e = true -> is_ret (peel_stmt e) = true ->
      (exists v, ev e s = (ORet v, s) /\ (target s v \/ v = unit_v)) \/ ev e s = (OStuck, s).
    Proof.
      fix IH 1. intros e peeled s H P.
      destruct e as [x [|]| | |k es| | | | | | | | | | |l ss tl| |[a|]| | | |]; try discriminate.
      - destruct ss as [|[|a|a] [|]], tl as [b|]; try discriminate; cbn in H, P.
        + destruct (IH b true s H P) as [(v & E & T)|E]; rewrite !eval_block; cbn [estmts eopt]; rewrite E; cbn [unlabel]; rewrite leave_self; eauto.
        + destruct (IH a true s H P) as [(v & E & T)|E]; rewrite !eval_block; cbn [estmts eopt]; rewrite E; cbn [andthen unlabel]; rewrite leave_self; eauto.
        + destruct (IH a true s H P) as [(v & E & T)|E]; rewrite !eval_block; cbn [estmts eopt]; rewrite E; cbn [andthen unlabel]; rewrite leave_self; eauto.
      - cbn in H. destruct (return_bad_lands a false s H) as [(v & E & T)|[(v & E & T)|E]]; rewrite eval_ret; cbn [eopt]; rewrite E; cbn [andthen]; eauto.
    Qed.
    Lemma returned_target : forall e s, t <> TBool -> returns_a t e ->
      (exists v, ev e s = (ORet v, s) /\ (target s v \/ v = unit_v)) -> exists v, ev e s = (ORet v, s) /\ target s v.
    Proof.
      intros e s NB R (v & E & [T|U]); [eauto|]. subst v. specialize (R s unit_v). rewrite E in R. destruct (R eq_refl). destruct t; reflexivity || tauto.
    Qed.
    Lemma return_bad_left : forall e s, t <> TBool -> return_bad name t cond err false e = true -> leaves e -> returns_a t e ->
      (exists v, ev e s = (ORet v, s) /\ target s v) \/ ev e s = (OStuck, s).
    Proof.
      intros e s NB H L R. destruct (return_bad_lands e false s H) as [(v & E & _)|[X|E]]; auto.
      - destruct (L s v). rewrite E. reflexivity.
      - left. apply returned_target; auto.
    Qed.
  End Bad.

  Lemma try_plain : forall t x r s v s1 vw, t <> TBool -> ev r s = (OVal v, s1) -> view_of t v = Some vw ->
    ev (try_expr t x r) s = match vw with Good y => (OVal y, s1) | Bad us => escape w false t us s1 end.
  Proof. intros. rewrite try_false. eapply try_eval; eauto. Qed.
  Lemma semi_block : forall q s, ev (EBlock None [SSemi q] None) s = andthen w (ev q s) (fun _ s1 => (OVal unit_v, s1)).
  Proof.
    intros q s. rewrite eval_block. cbn [estmts eopt]. pose proof (leave_eval w fuel q s) as L. destruct (ev q s) as [o s1]. cbn in L.
    destruct o as [v|v|[l|] v| | |]; cbn [andthen unlabel same_label]; rewrite L; reflexivity.
  Qed.
  (** `opt.as_ref()` *)
  Lemma as_ref_eval : forall t r s v s1 vw, t <> TBool -> ev r s = (OVal v, s1) -> view_of t v = Some vw ->
    exists v', ev (EMeth t MAsRef r []) s = (OVal v', s1) /\
    view_of t v' = Some match vw with Good y => Good (VRef y) | Bad us => Bad (map VRef us) end.
  Proof.
    intros t r s v s1 vw NB E V. rewrite meth_0, E. cbn [andthen]. unfold method. rewrite V. apply view_cases in V.
    destruct t; [| |tauto].
    - destruct V as [(u & -> & ->)|(-> & ->)]; eexists; split; reflexivity.
    - destruct V as [(u & -> & ->)|(u & -> & ->)]; eexists; split; reflexivity.
  Qed.

  Theorem question_if_is_sound : forall fresh name by_ref e e', question_if_is fresh name by_ref e = Some e' ->
    (forall t r a b, e = EIf (EMeth t MIsBad r []) a b -> leaves a /\ returns_a t a /\ (t = TResult -> by_ref = false /\ b = None)) ->
    forall s, ok w (ev e s) -> ev e' s = ev e s.
  Proof.
    intros fresh name by_ref e e' H HY s N. unfold question_if_is in H.
    destruct e as [| | | | | | | | | | |[| | | | | | | | | | | | | | | | | | |t [] r [|]|] a b| | | | | | | | |]; try discriminate.
    destruct (HY _ _ _ _ eq_refl) as (LV & RA & RES). clear HY.
    destruct (return_bad name t r None false a) eqn:RB; [|discriminate].
    assert (NB : t <> TBool).
    { intros ->. clear - RB. revert RB. generalize false. revert a. fix IH 1. intros a p H.
      destruct a as [x [|]| | |[| |c] [|[x [|]| | | | | | | | | | | | | | | | | | | |] [|]]| | | | | | | | | | |l [|[|a|a] [|]] [b|]| |[a|]| | | |]; try discriminate;
        cbn in H; eapply IH; exact H. }
    rewrite eval_if in *. rewrite meth_0 in *.
    destruct (ev r s) as [o s1] eqn:E. 
    assert (OTHER : forall q, (forall v, o <> OVal v) -> ev (try_expr t fresh q) s = (o, s1) -> e' = EBlock None [SSemi (try_expr t fresh q)] None \/ e' = EData (KCtor c_some) [try_expr t fresh q] -> ev e' s = (o, s1)).
    { intros q NV Q [K9|K9]; subst e'; [rewrite semi_block|rewrite eval_ctor]; rewrite Q; destruct o; try reflexivity; destruct (NV v eq_refl). }
    destruct o as [v| | | | |].
    2-6: cbn [andthen]; destruct b as [b|];
      [destruct (same_var r (peel_blocks b)); [|discriminate]; inversion H; subst e'; eapply OTHER; [discriminate| |right; reflexivity];
       rewrite try_false; apply try_other; [exact E|discriminate]
      |inversion H; subst e'; eapply OTHER; [discriminate| |left; reflexivity]; rewrite try_false; apply try_other; [|discriminate];
       destruct (by_ref && _); [rewrite meth_0|]; rewrite E; reflexivity].
    clear OTHER. cbn [andthen] in *. unfold method in *. destruct (view_of t v) as [vw|] eqn:V; [|destruct (N eq_refl)].
    assert (SEMI : forall q v' vw', ev q s = (OVal v', s1) -> view_of t v' = Some vw' ->
      match vw, vw' with Good _, Good _ => True | Bad us, Bad us' => escape w false t us s1 = escape w false t us' s1 | _, _ => False end ->
      (forall us, vw = Bad us -> ev a s1 = escape w false t us s1) ->
      ev (EBlock None [SSemi (try_expr t fresh q)] None) s =
      andthen w (match vw with Good _ => (OVal (VBool false), s1) | Bad _ => (OVal (VBool true), s1) end)
        (fun v s => match v with VBool true => ev a s | VBool false => (OVal unit_v, s) | _ => (OStuck, s) end)).
    { intros q v' vw' Q V' M A. rewrite semi_block, (try_plain _ _ _ _ _ _ _ NB Q V').
      destruct vw, vw'; try contradiction; [reflexivity|]. cbn [andthen]. rewrite (A _ eq_refl), M. unfold escape.
      destruct t; [| |tauto]; destruct es0 as [|u [|]]; try reflexivity. }
    assert (BAD : forall us, vw = Bad us -> ok w (ev a s1) -> ev a s1 = escape w false t us s1).
    { intros us -> OK. destruct (return_bad_left _ _ _ _ _ s1 NB RB LV RA) as [(u & X & T)|X]; [|destruct OK; rewrite X; reflexivity].
      rewrite X. unfold target in T. unfold escape. apply view_cases in V. destruct t; [| |tauto].
      - destruct V as [(y & _ & K)|(-> & K)]; inversion K; subst. reflexivity.
      - destruct V as [(y & _ & K)|(y & -> & K)]; inversion K; subst.
        destruct T as [(z & C & L)|(z & y0 & u0 & C & _)]; [|discriminate]. subst r. cbn [eval] in E.
        destruct (lookup z (fst s)) eqn:L2; inversion E; subst. rewrite L in L2. inversion L2; subst. reflexivity. }
    destruct b as [b|].
    - destruct (same_var r (peel_blocks b)) eqn:SV; inversion H; subst e'; clear H.
      destruct t; [|destruct (RES eq_refl); discriminate|tauto].
      rewrite eval_ctor, (try_plain _ _ _ _ _ _ _ NB E V). unfold same_var in SV. destruct r as [x [|]| | | | | | | | | | | | | | | | | | | |]; try discriminate.
      destruct (peel_blocks b) as [y [|]| | | | | | | | | | | | | | | | | | | |] eqn:PB; try discriminate. apply Nat.eqb_eq in SV. subst y.
      destruct vw as [y|us]; cbn [andthen eopt] in *.
      + cbn [eval] in E. destruct (lookup x (fst s)) eqn:L; inversion E; subst.
        rewrite (peel_val_at w fuel b v s1); [|rewrite PB; cbn [eval]; rewrite L; reflexivity].
        apply view_cases in V. destruct V as [(y0 & -> & K)|(_ & K)]; inversion K; subst. reflexivity.
      + rewrite (BAD us eq_refl N). unfold escape. apply view_cases in V. destruct V as [(y0 & _ & K)|(_ & K)]; inversion K; subst. reflexivity.
    - inversion H; subst e'; clear H.
      assert (B : by_ref && match r with ECall _ _ | ECallPath _ _ | EMeth _ _ _ _ => false | _ => true end = true -> t = TOption).
      { intros B. destruct t; [reflexivity| |tauto]. destruct (RES eq_refl) as [-> _]. discriminate. }
      assert (FIN : match vw with Good _ => (OVal (VBool false), s1) | Bad _ => (OVal (VBool true), s1) end =
                    (OVal (VBool match vw with Good _ => false | Bad _ => true end), s1)) by (destruct vw; reflexivity).
      destruct (by_ref && _).
      + rewrite (B eq_refl) in *. destruct (as_ref_eval TOption r s v s1 vw NB E V) as (v' & E' & V').
        rewrite (SEMI _ _ _ E' V').
        * destruct vw; reflexivity.
        * destruct vw; [exact I|]. apply view_cases in V. destruct V as [(y0 & _ & K)|(_ & K)]; inversion K; subst. reflexivity.
        * intros us ->. apply BAD; [reflexivity|]. cbn [andthen] in N. exact N.
      + rewrite (SEMI _ _ _ E V).
        * destruct vw; reflexivity.
        * destruct vw; [exact I|reflexivity].
        * intros us ->. apply BAD; [reflexivity|]. cbn [andthen] in N. exact N.
  Qed.
End Question.
