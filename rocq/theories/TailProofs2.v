(** `let` in front of a result, and the `?` operator. *)
From Verif Require Export TailProofs.

(** The last statement of the block binds by value. *)
Definition by_value (e : expr) : Prop :=
  forall l ss br x sub i els t, e = EBlock l (ss ++ [SLet (PBind br x sub) i els]) t -> br = false.

Section Try.
  Variable w : world.
  Variable fuel : nat.
  Notation st := (state w).
  Notation ev := (eval w fuel).
  Notation sc := (scoped w fuel).
  Ltac recv r s := let o := fresh "o" in let v := fresh "v" in let s1 := fresh "s1" in
    destruct (ev r s) as [o s1] eqn:?; destruct o as [v| | | | |]; try reflexivity; cbn [andthen] in *.

  (** ** let_and_return *)
  Lemma leave_more : forall n bs (s : st), n <= length (fst s) -> leave n (enter bs s) = leave n s.
  Proof.
    intros n bs [r x] H. unfold leave, enter. cbn [fst snd] in *. f_equal. unfold env in *.
    replace (length (bs ++ r) - n) with (length bs + (length r - n)) by (rewrite app_length; lia).
    rewrite skipn_app, skipn_all2 by lia.
    replace (length bs + (length r - n) - length bs) with (length r - n) by lia. reflexivity.
  Qed.
  Lemma let_last_spec : forall x ss ss' i, let_last x ss = Some (ss', i) ->
    exists br sub, ss = ss' ++ [SLet (PBind br x sub) (Some i) None].
  Proof.
    intros x. induction ss as [|a ss IH]; intros ss' i H; [discriminate|].
    assert (REC : match let_last x ss with Some (ss, i) => Some (a :: ss, i) | None => None end = Some (ss', i) ->
      exists br sub, a :: ss = ss' ++ [SLet (PBind br x sub) (Some i) None]).
    { intros R. destruct (let_last x ss) as [[l j]|] eqn:L; [|discriminate]. inversion R; subst.
      destruct (IH _ _ eq_refl) as (br & sub & E). exists br, sub. cbn. rewrite <- E. reflexivity. }
    destruct ss as [|b ss]; [|destruct a as [[] [|] [|]| |]; exact (REC H)].
    destruct a as [[| br y sub| | | | | |] [i0|] [els|]| |]; try discriminate. cbn in H.
    destruct (Nat.eqb_spec x y); inversion H; subst. exists br, sub. reflexivity.
  Qed.
  Theorem let_and_return_sound : forall e e', let_and_return e = Some e' -> by_value e ->
    forall s, ok w (ev e s) -> ev e' s = ev e s.
  Proof.
    intros e e' H BV s N. unfold let_and_return in H.
    destruct e as [| | | | | | | | | | | | | |l ss [[x []| | | | | | | | | | | | | | | | | | | |]|]| | | | | |]; try discriminate.
    destruct (let_last x ss) as [[ss' i]|] eqn:L; inversion H; subst e'; clear H.
    destruct (let_last_spec _ _ _ _ L) as (br & sub & E). subst ss. rewrite (BV _ _ _ _ _ _ _ _ eq_refl) in *. clear L BV.
    rewrite !eval_block in *. set (n := length (fst s)) in *.
    assert (G : forall s1 : st, n <= length (fst s1) ->
      let r := estmts w fuel (Some (EVar x false)) (ss' ++ [SLet (PBind false x sub) (Some i) None]) s1 in fst r <> OStuck ->
      let r' := estmts w fuel (Some i) ss' s1 in fst r' = fst r /\ leave n (snd r') = leave n (snd r)).
    { clear N. induction ss' as [|a ss' IH]; intros s1 LE r NS r'; subst r r'.
      - cbn [app estmts eopt] in *. pose proof (eval_len w fuel i s1) as LEN. destruct (ev i s1) as [o s2]. cbn [snd] in LEN.
        destruct o as [v| | | | |]; cbn [andthen] in *; try (split; reflexivity).
        assert (X : exists bs, match_pat (PBind false x sub) v = Some ((x, v) :: bs)).
        { destruct sub as [q|]; [|exists []; reflexivity]. cbn [match_pat] in NS |- *.
          destruct (match_pat q v) as [bs|]; [eauto|]. destruct (NS eq_refl). }
        destruct X as [bs X]. rewrite X in *. cbn [estmts eopt eval enter fst app lookup] in *. rewrite Nat.eqb_refl in *. cbn [fst snd].
        split; [reflexivity|]. symmetry. apply leave_more. rewrite LEN. exact LE.
      - destruct a as [p [j|] els|a|a]; cbn [app estmts] in *.
        + pose proof (eval_len w fuel j s1) as LEN. destruct (ev j s1) as [o s2]. cbn [snd] in LEN.
          destruct o as [v| | | | |]; cbn [andthen] in *; try (split; reflexivity).
          destruct (match_pat p v) as [bs|]; [|split; reflexivity]. apply IH; [|exact NS].
          unfold enter. cbn [fst]. rewrite app_length, LEN. apply Nat.le_trans with (1 := LE). apply Nat.le_add_l.
        + split; reflexivity.
        + pose proof (eval_len w fuel a s1) as LEN. destruct (ev a s1) as [o s2]. cbn [snd] in LEN.
          destruct o as [v| | | | |]; cbn [andthen] in *; try (split; reflexivity). apply IH; [lia|exact NS].
        + pose proof (eval_len w fuel a s1) as LEN. destruct (ev a s1) as [o s2]. cbn [snd] in LEN.
          destruct o as [v| | | | |]; cbn [andthen] in *; try (split; reflexivity). apply IH; [lia|exact NS]. }
    specialize (G s (le_n _)). cbn zeta in G.
    destruct (estmts w fuel (Some (EVar x false)) (ss' ++ [SLet (PBind false x sub) (Some i) None]) s) as [o s1].
    destruct (estmts w fuel (Some i) ss' s) as [o' s1']. cbn [fst snd] in G.
    destruct G as [A B]; [|subst o'; rewrite B; reflexivity].
    intros E. subst o. destruct (N eq_refl).
  Qed.

  (** ** needless_return_with_question_mark *)
  Lemma stmt_block : forall l pre x y ss t, (forall s, estmts w fuel t (x :: ss) s = estmts w fuel t (y :: ss) s) ->
    forall s, ev (EBlock l (pre ++ x :: ss) t) s = ev (EBlock l (pre ++ y :: ss) t) s.
  Proof.
    intros l pre x y ss t H s. rewrite !eval_block.
    assert (E : forall s, estmts w fuel t (pre ++ x :: ss) s = estmts w fuel t (pre ++ y :: ss) s).
    { induction pre as [|a pre IH]; intros s1; [apply H|]. destruct a as [p [j|] els|a|a]; cbn [app estmts]; try reflexivity;
        recv j s1 || recv a s1; try apply IH. destruct (match_pat p v); [apply IH|reflexivity]. }
    rewrite E. reflexivity.
  Qed.

  (** ** `?` *)
  Lemma calls_enter : forall f vs bs (s : st), (let '(o, s') := calls w f vs (enter bs s) in (o, leave (length (fst s)) s')) = calls w f vs s.
  Proof.
    intros. unfold calls. cbn [enter snd fst]. destruct (call w f vs (snd s)) as [c y].
    f_equal. exact (leave_enter w bs (fst s, y)).
  Qed.
  (** What `?` makes of the other variant. *)
  Definition escape (conv : bool) (t : rty) (us : list val) (s : st) : out * st :=
    match t, us with
    | TOption, [] => (ORet none_v, s)
    | TResult, [u] =>
        if conv then andthen w (calls w into [u] s) (fun y s => (ORet (err_v y), s)) else (ORet (err_v u), s)
    | _, _ => (OStuck, s)
    end.
  Lemma try_eval : forall conv t x r s v s1 vw, t <> TBool -> ev r s = (OVal v, s1) -> view_of t v = Some vw ->
    ev (try_conv conv t x r) s = match vw with Good y => (OVal y, s1) | Bad us => escape conv t us s1 end.
  Proof.
    intros conv t x r s v s1 vw NB E V. apply view_cases in V. destruct t; [| |tauto].
    - replace (try_conv conv TOption x r) with (try_expr TOption x r) by (destruct conv; reflexivity).
      unfold try_expr. rewrite eval_match, E. cbn [andthen].
      destruct V as [(y & -> & ->)|(-> & ->)]; cbn -[leave]; rewrite ?Nat.eqb_refl.
      + f_equal. apply (leave_enter w [(x, y)]).
      + f_equal. change (enter [] s1) with ((fst s1, snd s1) : st). destruct s1. apply leave_self.
    - destruct conv; unfold try_conv, try_expr; rewrite eval_match, E; cbn [andthen];
        destruct V as [(y & -> & ->)|(u & -> & ->)]; cbn -[leave calls]; rewrite ?Nat.eqb_refl.
      + f_equal. apply (leave_enter w [(x, y)]).
      + clear E. destruct s1 as [r1 z1]. unfold calls. cbn [enter fst snd].
        cbn [andthen snd fst enter]. destruct (call w into [u] z1) as [[y|] z]; cbn -[leave]; f_equal;
          exact (leave_enter w [(x, u)] (r1, z)).
      + f_equal. apply (leave_enter w [(x, y)]).
      + cbn [andthen]. f_equal. apply (leave_enter w [(x, u)]).
  Qed.
  Lemma try_other : forall conv t x r s o s1, ev r s = (o, s1) -> (forall v, o <> OVal v) -> ev (try_conv conv t x r) s = (o, s1).
  Proof.
    intros. destruct conv, t; unfold try_conv, try_expr; rewrite eval_match, H; destruct o; try reflexivity; destruct (H0 v eq_refl).
  Qed.
  Lemma try_false : forall t x r, try_expr t x r = try_conv false t x r.
  Proof. intros [] x r; reflexivity. Qed.

  (** Blocks around something that does not break. *)
  Lemma peel_at : forall e s o s1, ev (peel_blocks e) s = (o, s1) -> (forall l v, o <> OBrk l v) -> ev e s = (o, s1).
  Proof.
    fix IH 1. intros e s o s1 H N. destruct e as [| | | | | | | | | | | | | |l [|] [a|]| | | | | |]; try exact H.
    cbn [peel_blocks] in H. pose proof (IH a s o s1 H N) as A. rewrite eval_block. cbn [estmts eopt].
    pose proof (leave_eval w fuel a s) as L. rewrite A in *. cbn in L. rewrite L. destruct o; try reflexivity. destruct (N _ _ eq_refl).
  Qed.
  Lemma peel_ret : forall e a s v, peel_blocks e = ERet (Some a) -> ev a s = (OVal v, s) -> ev e s = (ORet v, s).
  Proof. intros e a s v P A. apply peel_at; [|discriminate]. rewrite P, eval_ret. cbn [eopt]. rewrite A. reflexivity. Qed.

  (** ** let ... else *)
  Lemma let_else_ret_eval : forall els ret a s v, let_else_ret els = Some ret -> peel_blocks ret = ERet (Some a) ->
    ev a s = (OVal v, s) -> ev els s = (ORet v, s).
  Proof.
    intros els ret a s v H P A. pose proof (peel_ret ret a s v P A) as R.
    destruct els as [| | | | | | | | | | | | | |l [|[| |[| | | | | | | | | | | | | | | |o| | | |]] [|]] t| | | | | |]; try discriminate.
    - destruct t as [t|]; inversion H; subst. rewrite eval_block. cbn [estmts eopt]. rewrite R. cbn. rewrite leave_self. reflexivity.
    - inversion H; subst. cbn [peel_blocks] in P. inversion P; subst. rewrite eval_block. cbn [estmts]. rewrite R. cbn. rewrite leave_self. reflexivity.
  Qed.
  Lemma some_else_none_spec : forall p ret q, some_else_none p ret = Some q ->
    exists d a, p = PData (KCtor c_some) [q] d /\ peel_blocks ret = ERet (Some a) /\ forall s, ev a s = (OVal none_v, s).
  Proof.
    intros p ret q H. unfold some_else_none in H. destruct p as [| |[| |c] [|q0 [|]] d| | | | |]; try discriminate.
    destruct (peel_blocks ret) as [| | | | | | | | | | | | | | | |[a|]| | | |]; try discriminate.
    unfold given in H. destruct (Nat.eqb_spec c c_some); [|discriminate]. destruct (is_none_expr a) eqn:I; inversion H; subst.
    exists d, a. repeat split. intros s. apply none_eval. destruct a as [| | |[| |c] [|]| | | | | | | | | | | | | | | | |]; try discriminate. exact I.
  Qed.

  (** The initializer is an Option, and the type checker is right about its payload. *)
  Definition typed_let (irr : pat -> bool) (x : stmt) : Prop :=
    forall p i els, x = SLet p (Some i) els -> forall s v s', ev i s = (OVal v, s') ->
    v = none_v \/ exists y, v = some_v y /\ forall q d, p = PData (KCtor c_some) [q] d -> irr q = true -> match_pat q y <> None.
  Lemma let_else_stmt : forall fresh irr x y, let_else_question fresh irr x = Some y ->
    typed_let irr x ->
    forall ss t s, estmts w fuel t (y :: ss) s = estmts w fuel t (x :: ss) s.
  Proof.
    intros fresh irr x y H T0 ss t s. unfold let_else_question in H. destruct x as [p [i|] [els|]| |]; try discriminate.
    destruct (let_else_ret els) as [ret|] eqn:LR; [|discriminate]. destruct (some_else_none p ret) as [q|] eqn:SE; [|discriminate].
    destruct (irr q) eqn:IQ; [|discriminate]. destruct (some_else_none_spec _ _ _ SE) as (d & a & -> & P & A).
    assert (T : forall v s', ev i s = (OVal v, s') -> view_of TOption v <> None).
    { intros v s' E. destruct (T0 _ _ _ eq_refl s _ _ E) as [->|(u & -> & _)]; discriminate. }
    assert (IR : forall u s', ev i s = (OVal (some_v u), s') -> match_pat q u <> None).
    { intros u s' E. destruct (T0 _ _ _ eq_refl s _ _ E) as [K|(u' & K & M)]; [discriminate|]. inversion K; subst u'. apply (M q d eq_refl IQ). }
    apply f_equal with (f := fun o => match o with Some y => y | None => y end) in H. cbv beta iota in H. subst y; clear SE T0. assert (NB : TOption <> TBool) by discriminate.
    assert (ELS : forall s, ev els s = (ORet none_v, s)) by (intros; eapply let_else_ret_eval; eauto).
    assert (OLD : estmts w fuel t (SLet (PData (KCtor c_some) [q] d) (Some i) (Some els) :: ss) s =
      andthen w (ev i s) (fun v s1 => match v with
        | VData (KCtor 1) [y] => match match_pat q y with Some bs => estmts w fuel t ss (enter bs s1) | None => (OStuck, s1) end
        | _ => (ORet none_v, s1)
        end)).
    { cbn [estmts]. destruct (ev i s) as [o s1] eqn:E. destruct o as [v| | | | |]; try reflexivity. cbn [andthen].
      destruct (view_of TOption v) as [vw|] eqn:V; [|destruct (T _ _ eq_refl V)]. apply view_cases in V. destruct V as [(u & -> & ->)|(-> & ->)].
      - unfold some_v. rewrite match_one. cbn [c_some]. destruct (match_pat q u) eqn:M; [reflexivity|destruct (IR u _ eq_refl M)].
      - unfold none_v. rewrite match_other by reflexivity. rewrite ELS. reflexivity. }
    rewrite OLD.
    assert (PLAIN : estmts w fuel t (SLet q (Some (try_expr TOption fresh i)) None :: ss) s =
      andthen w (ev i s) (fun v s1 => match v with
        | VData (KCtor 1) [y] => match match_pat q y with Some bs => estmts w fuel t ss (enter bs s1) | None => (OStuck, s1) end
        | _ => (ORet none_v, s1)
        end)).
    { cbn [estmts]. rewrite try_false. destruct (ev i s) as [o s1] eqn:E.
      destruct o as [v| | | | |]; try (rewrite (try_other _ _ _ _ _ _ _ E) by (intros; discriminate); reflexivity).
      destruct (view_of TOption v) as [vw|] eqn:V; [|destruct (T _ _ eq_refl V)].
      rewrite (try_eval _ _ _ _ _ _ _ _ NB E V).
      apply view_cases in V. destruct V as [(u & -> & ->)|(-> & ->)]; cbn [andthen escape]; [|reflexivity].
      cbn [some_v c_some]. destruct (match_pat q u); reflexivity. }
    destruct q as [|[] x sub| | | | | |]; try exact PLAIN. clear PLAIN.
    cbn [estmts]. rewrite try_false.
    destruct (ev i s) as [o s1] eqn:E.
    destruct o as [v| | | | |];
      try (rewrite (try_other false TOption fresh (EMeth TOption MAsRef i []) s _ s1) by (try (intros; discriminate); rewrite meth_0, E; reflexivity); reflexivity).
    destruct (view_of TOption v) as [vw|] eqn:V; [|destruct (T _ _ eq_refl V)]. apply view_cases in V.
    destruct V as [(u & -> & ->)|(-> & ->)].
    - assert (R : ev (EMeth TOption MAsRef i []) s = (OVal (some_v (VRef u)), s1)) by (rewrite meth_0, E; reflexivity).
      rewrite (try_eval _ _ _ _ _ _ _ (Good (VRef u)) NB R eq_refl). cbn [andthen some_v c_some].
      destruct sub as [sub|]; [|reflexivity].
      assert (X : match_pat (PBind false x (Some match sub with PBind true y None => PBind false y None | _ => PRef sub end)) (VRef u)
                  = match_pat (PBind true x (Some sub)) u).
      { destruct sub as [|[] y [|]| | | | | |]; cbn; reflexivity. }
      assert (X' : (PBind false x (match sub with PBind true y None => Some (PBind false y None) | _ => Some (PRef sub) end))
                   = PBind false x (Some match sub with PBind true y None => PBind false y None | _ => PRef sub end)).
      { destruct sub as [|[] y [|]| | | | | |]; reflexivity. }
      rewrite X', X. destruct (match_pat (PBind true x (Some sub)) u); reflexivity.
    - assert (R : ev (EMeth TOption MAsRef i []) s = (OVal none_v, s1)) by (rewrite meth_0, E; reflexivity).
      rewrite (try_eval _ _ _ _ _ _ _ (Bad []) NB R eq_refl). reflexivity.
  Qed.
End Try.
