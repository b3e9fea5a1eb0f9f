(** question_mark on `if let` and `match`. *)
From Verif Require Export TailProofs3.

Section Question.
  Variable w : world.
  Variable fuel : nat.
  Notation st := (state w).
  Notation ev := (eval w fuel).
  Notation sc := (scoped w fuel).

  (** ** A binding in front of a body *)
  Lemma leave_leave : forall n m (s : st), n <= m -> m <= length (fst s) -> leave n (leave m s) = leave n s.
  Proof.
    intros n m [r x] A B. unfold leave. cbn [fst snd] in *. f_equal. rewrite skipn_length.
    replace (length r - (length r - m) - n) with (m - n) by lia.
    replace (length r - n) with ((length r - m) + (m - n)) by lia.
    generalize (length r - m) as i, (m - n) as j. clear. intros i. revert r. induction i as [|i IH]; intros r j; [reflexivity|].
    destruct r as [|a r]; [destruct j; reflexivity|]. apply IH.
  Qed.
  Lemma bind_block : forall p i ss t s u s1 bs, ev i s = (OVal u, s1) -> match_pat p u = Some bs ->
    ev (EBlock None (SLet p (Some i) None :: ss) t) s = sc bs (EBlock None ss t) s1.
  Proof.
    intros p i ss t s u s1 bs E M. unfold scoped. rewrite !eval_block. cbn [estmts]. rewrite E. cbn [andthen]. rewrite M.
    pose proof (eval_len w fuel i s) as L. rewrite E in L. cbn [snd] in L. rewrite <- L.
    pose proof (estmts_len w fuel t ss (enter bs s1)) as LL.
    assert (LE : length (fst s1) <= length (fst (enter bs s1))) by (unfold enter; cbn [fst]; rewrite app_length; apply Nat.le_add_l).
    destruct (estmts w fuel t ss (enter bs s1)) as [o s2]. cbn [snd] in LL.
    rewrite leave_leave; [|exact LE|exact LL]. destruct o as [v|v|[l|] v| | |]; reflexivity.
  Qed.
  Lemma bind_expr : forall p i b s u s1 bs, ev i s = (OVal u, s1) -> match_pat p u = Some bs ->
    ev (EBlock None [SLet p (Some i) None] (Some b)) s = sc bs b s1.
  Proof.
    intros p i b s u s1 bs E M. unfold scoped. rewrite !eval_block. cbn [estmts eopt]. rewrite E. cbn [andthen]. rewrite M.
    pose proof (eval_len w fuel i s) as L. rewrite E in L. cbn [snd] in L. rewrite <- L.
    destruct (ev b (enter bs s1)) as [o s2]. destruct o as [v|v|[l|] v| | |]; reflexivity.
  Qed.
  Lemma bind_other : forall p i ss t s o s1, ev i s = (o, s1) -> (forall v, o <> OVal v) ->
    ev (EBlock None (SLet p (Some i) None :: ss) t) s = (o, s1).
  Proof.
    intros p i ss t s o s1 E N. rewrite eval_block. cbn [estmts]. rewrite E. pose proof (leave_eval w fuel i s) as L. rewrite E in L.
    cbn [snd] in L. destruct o as [v|v|[l|] v| | |]; cbn [andthen unlabel same_label]; try (rewrite L; reflexivity); try (destruct l; cbn [unlabel]; rewrite L; reflexivity). destruct (N v eq_refl).
  Qed.

  (** ** `if let` *)
  (** What the lint does not look at: the branch that leaves does leave and gives back the error it was given; nothing is
      lost of the branch that stays. *)
  Definition if_let_fits (name : nat -> nat) (e : expr) : Prop :=
    forall c br x r a b, e = EIfLet (PData (KCtor c) [PBind br x None] None) r a b ->
    (c = c_some -> forall b', b = Some b' -> returns_a w fuel TOption b') /\
    (c = c_err -> leaves w fuel a /\ returns_a w fuel TResult a /\ br = false /\ r <> EVar x false /\ forall z, name z = name x -> z = x) /\
    (c = c_ok -> br = false /\ (forall s v, sc [(x, v)] a s = (OVal v, s)) /\
      forall b', b = Some b' -> forall s u s1, ev r s = (OVal (err_v u), s1) -> ev b' s1 = (ORet (err_v u), s1)).
  Definition typed_if_let (s : st) (e : expr) : Prop :=
    forall c ps d r a b, e = EIfLet (PData (KCtor c) ps d) r a b ->
    forall v s', ev r s = (OVal v, s') -> view_of (ty_of c) v <> None.

  Theorem question_if_let_sound : forall fresh name semi e e', question_if_let fresh name semi e = Some e' ->
    if_let_fits name e -> (forall p r a, e = EIfLet p r a None -> semi = true) -> reborrows w ->
    forall s, typed_if_let s e -> ok w (ev e s) -> (semi = true -> forall v, fst (ev e s) = OVal v -> v = unit_v) -> ev e' s = ev e s.
  Proof.
    intros fresh name semi e e' H FITS SM RB s T N U. unfold question_if_let in H.
    destruct e as [| | | | | | | | | | | |[| |[| |c] [|[|br x [|]| | | | | |] [|]] [|]| | | | |] r a b| | | | | | | |]; try discriminate.
    destruct (FITS _ _ _ _ _ _ eq_refl) as (FS & FE & FO). clear FITS. specialize (T _ _ _ _ _ _ eq_refl).
    set (is_option := Nat.eqb c c_some && opt_some (return_bad name TOption r None false) b) in *.
    set (is_result := Nat.eqb c c_ok && opt_some (return_bad name TResult r (Some x) false) b
          || Nat.eqb c c_err && return_bad name TResult r (Some x) false a && match b with None => true | Some _ => false end) in *.
    destruct ((is_option || is_result) && _ && _) eqn:COND; [|discriminate].
    apply andb_true_iff in COND as [COND RET]. apply andb_true_iff in COND as [COND _].
    rewrite eval_iflet in *.
    destruct is_option eqn:IO.
    - (* Some *)
      clear COND is_result. subst is_option. apply andb_true_iff in IO as [C IO]. apply Nat.eqb_eq in C. subst c. clear FE FO.
      destruct b as [b|]; [|discriminate]. cbn [opt_some] in IO. cbn [opt_some andb] in RET. rewrite !negb_involutive in RET.
      specialize (FS eq_refl _ eq_refl). assert (NB : TOption <> TBool) by discriminate. change (ty_of c_some) with TOption in T.
      assert (ELSE : forall s1, ok w (ev b s1) -> ev b s1 = (ORet none_v, s1)).
      { intros s1 OK. destruct (return_bad_ret w fuel _ _ _ _ _ _ s1 IO RET) as [X|X]; [|destruct OK; rewrite X; reflexivity].
        destruct (returned_target w fuel _ _ _ _ _ s1 NB FS X) as (v & E & TG). cbn in TG. subst v. exact E. }
      cbn [negb orb] in H. destruct (is_local x (peel_blocks a)) eqn:LOC.
      + apply f_equal with (f := fun o => match o with Some y => y | None => e' end) in H; cbv beta iota in H. rewrite <- H. clear H.
        assert (MAIN : ev (try_expr TOption fresh (if br then EMeth TOption MAsRef r [] else r)) s =
          andthen w (ev r s) (fun v s1 => match match_pat (PData (KCtor c_some) [PBind br x None] None) v with
            | Some bs => let '(o, s') := ev a (enter bs s1) in (o, leave (length (fst s1)) s') | None => eopt w fuel (Some b) s1 end)).
        { destruct (ev r s) as [o s1] eqn:E. destruct o as [v| | | | |];
            try (rewrite try_false; apply try_other; [destruct br; [rewrite meth_0|]; rewrite E; reflexivity|discriminate]).
          cbn [andthen] in *. destruct (view_of TOption v) as [vw|] eqn:V; [|destruct (T _ _ eq_refl V)].
          assert (X : exists v', ev (if br then EMeth TOption MAsRef r [] else r) s = (OVal v', s1) /\
            view_of TOption v' = Some match vw with Good y => Good (if br then VRef y else y) | Bad us => Bad us end).
          { destruct br.
            - destruct (as_ref_eval w fuel TOption r s v s1 vw NB E V) as (v' & E' & V'). exists v'. split; [exact E'|]. rewrite V'.
              apply view_cases in V. destruct V as [(y & _ & ->)|(_ & ->)]; reflexivity.
            - exists v. split; [exact E|]. rewrite V. destruct vw; reflexivity. }
          destruct X as (v' & E' & V'). rewrite (try_plain _ _ _ _ _ _ _ _ _ NB E' V').
          apply view_cases in V. destruct V as [(y & -> & ->)|(-> & ->)].
          - unfold some_v. rewrite match_one. cbn [match_pat].
            assert (LE := local_eval w fuel x a (if br then VRef y else y) s1 RB LOC). rewrite LE, leave_enter. reflexivity.
          - unfold none_v in *. rewrite match_other in * by reflexivity. cbn [eopt escape] in *. rewrite ELSE; [reflexivity|exact N]. }
        destruct semi; [|exact MAIN]. rewrite semi_block, MAIN.
        destruct (andthen w (ev r s) _) as [o s1] eqn:Z. cbn [fst] in U. destruct o as [v| | | | |]; try reflexivity.
        rewrite (U eq_refl v eq_refl). reflexivity.
      + destruct a as [| | | | | | | | | | | | | |[l|] ss v0| | | | | |]; try discriminate.
        assert (Q : e' = EBlock None (SLet (PBind br x None) (Some (try_expr TOption fresh r)) None :: ss) v0) by (inversion H; reflexivity).
        rewrite Q. clear H Q. destruct (ev r s) as [o s1] eqn:E.
        destruct o as [v| | | | |]; try (apply bind_other; [rewrite try_false; apply try_other; [exact E|discriminate]|discriminate]).
        cbn [andthen] in *. destruct (view_of TOption v) as [vw|] eqn:V; [|destruct (T _ _ eq_refl V)].
        pose proof (try_plain _ _ TOption fresh r s v s1 vw NB E V) as TR. apply view_cases in V. destruct V as [(y & -> & ->)|(-> & ->)].
        * assert (MP : match_pat (PBind br x None) y = Some [(x, if br then VRef y else y)]) by (destruct br; reflexivity).
          rewrite (bind_block _ _ _ _ _ _ _ _ TR MP). unfold some_v. rewrite match_one, MP. reflexivity.
        * unfold none_v in *. rewrite match_other in * by reflexivity. cbn [eopt escape] in *. rewrite ELSE by exact N.
          apply bind_other; [exact TR|discriminate].
    - (* Ok and Err *)
      cbn [orb negb] in COND, H. clear FS RET. assert (NB : TResult <> TBool) by discriminate.
      apply f_equal with (f := fun o => match o with Some y => y | None => e' end) in H; cbv beta iota in H. rewrite <- H. clear H IO is_option.
      subst is_result. apply orb_true_iff in COND as [COND|COND].
      + apply andb_true_iff in COND as [C RBD]. apply Nat.eqb_eq in C. subst c. clear FE. destruct (FO eq_refl) as (-> & BODY & ELSE). clear FO.
        destruct b as [b|]; [|discriminate]. specialize (ELSE _ eq_refl). change (ty_of c_ok) with TResult in T.
        assert (MAIN : ev (try_expr TResult fresh r) s =
          andthen w (ev r s) (fun v s1 => match match_pat (PData (KCtor c_ok) [PBind false x None] None) v with
            | Some bs => let '(o, s') := ev a (enter bs s1) in (o, leave (length (fst s1)) s') | None => eopt w fuel (Some b) s1 end)).
        { destruct (ev r s) as [o s1] eqn:E. destruct o as [v| | | | |]; try (rewrite try_false; apply try_other; [exact E|discriminate]).
          cbn [andthen] in *. destruct (view_of TResult v) as [vw|] eqn:V; [|destruct (T _ _ eq_refl V)].
          rewrite (try_plain _ _ _ _ _ _ _ _ _ NB E V). apply view_cases in V. destruct V as [(y & -> & ->)|(u & -> & ->)].
          - unfold ok_v. rewrite match_one. cbn [match_pat]. symmetry. apply (BODY s1 y).
          - unfold err_v in *. rewrite match_other in * by reflexivity. cbn [eopt escape]. symmetry. apply (ELSE _ _ _ E). }
        destruct semi; [|exact MAIN]. rewrite semi_block, MAIN.
        destruct (andthen w (ev r s) _) as [o s1] eqn:Z. cbn [fst] in U. destruct o as [v| | | | |]; try reflexivity.
        rewrite (U eq_refl v eq_refl). reflexivity.
      + apply andb_true_iff in COND as [COND NE]. apply andb_true_iff in COND as [C RBD]. apply Nat.eqb_eq in C. subst c. clear FO.
        destruct (FE eq_refl) as (LV & RA & -> & RX & NM). clear FE. destruct b as [b|]; [discriminate|]. change (ty_of c_err) with TResult in T.
        destruct (ev r s) as [o s1] eqn:E. destruct o as [v| | | | |];
          try (destruct semi; [rewrite semi_block|]; rewrite try_false; rewrite (try_other _ _ _ _ _ _ _ _ _ E) by discriminate; reflexivity).
        cbn [andthen] in *. destruct (view_of TResult v) as [vw|] eqn:V; [|destruct (T _ _ eq_refl V)].
        pose proof (try_plain _ _ TResult fresh r s v s1 vw NB E V) as TR. apply view_cases in V. destruct V as [(y & -> & ->)|(u & -> & ->)].
        * unfold ok_v in *. rewrite match_other in * by reflexivity. cbn [eopt] in *.
          rewrite (SM _ _ _ eq_refl), semi_block, TR. reflexivity.
        * unfold err_v in *. rewrite match_one in *. cbn [match_pat] in *.
          destruct (return_bad_left w fuel name TResult r (Some x) a (enter [(x, u)] s1) NB RBD LV RA) as [(v & X & TG)|X].
          -- rewrite X, leave_enter in *. cbn [target] in TG.
             assert (V : v = VData (KCtor c_err) [u]).
             { destruct TG as [(y & -> & L)|(z & y & u0 & Y & NZ & L & ->)].
               - cbn [eval] in E. destruct (lookup y (fst s)) as [v1|] eqn:LL; [|discriminate]. inversion E; subst.
                 cbn [enter fst app lookup] in L. destruct (Nat.eqb_spec y x) as [Q|Q]; [subst; destruct RX; reflexivity|]. rewrite LL in L. inversion L. reflexivity.
               - inversion Y; subst y. rewrite (NM z NZ) in L. cbn [enter fst app lookup] in L. rewrite Nat.eqb_refl in L. inversion L; subst. reflexivity. }
             subst v. destruct semi; [rewrite semi_block|]; rewrite TR; reflexivity.
          -- rewrite X in N. destruct (N eq_refl).
  Qed.

  (** ** `match` *)
  (** Where the lint drops a binding, it binds by value. *)
  Definition arms_by_value (e : expr) : Prop :=
    forall h r arms p g b, e = EMatch h r arms -> In (p, g, b) arms ->
    match peel_blocks b with EVar _ _ | ERet _ => has_ref p = false | _ => True end.
  Lemma ctor_binding_spec : forall c p br x, ctor_binding c p = Some (br, x) -> exists d, p = PData (KCtor c) [PBind br x None] d.
  Proof.
    intros c p br x H. destruct p as [| |[| |c'] [|[|br' y [|]| | | | | |] [|]] d| | | | |]; try discriminate.
    unfold ctor_binding, given in H. destruct (Nat.eqb_spec c c'); inversion H; subst. eauto.
  Qed.
  Lemma bind_pat : forall br x v, match_pat (PBind br x None) v = Some [(x, if br then VRef v else v)].
  Proof. intros [] x v; reflexivity. Qed.
  Definition quiet_ref (arm : pat * option expr * expr) : Prop :=
    match peel_blocks (snd arm) with EVar _ _ | ERet _ => has_ref (fst (fst arm)) = false | _ => True end.
  (** The arm that leaves. *)
  Lemma arm_bad_spec : forall t p g b conv, arm_bad t (p, g, b) = Some conv -> quiet_ref (p, g, b) ->
    t <> TBool /\ g = None /\
    forall v vw, view_of t v = Some vw ->
    match vw with
    | Good _ => match_pat p v = None
    | Bad us => exists bs, match_pat p v = Some bs /\ forall s, sc bs b s = escape w conv t us s
    end.
  Proof.
    intros t p g b conv H Q. unfold quiet_ref in Q. cbn [fst snd] in Q. unfold arm_bad in H. destruct g as [|]; [discriminate|].
    destruct t; [| |discriminate].
    - split; [discriminate|]. split; [reflexivity|].
      destruct p as [| |[| |c] [|] [|]| | | | |]; try discriminate.
      destruct (peel_blocks b) as [| | | | | | | | | | | | | | | |[a|]| | | |] eqn:PB; try discriminate.
      destruct (Nat.eqb_spec c c_none); [subst c|discriminate]. destruct (is_none_expr a) eqn:NE; [|discriminate]. inversion H; subst conv.
      intros v vw V. apply view_cases in V. destruct V as [(y & -> & ->)|(-> & ->)]; [apply match_other; reflexivity|].
      exists []. split; [reflexivity|]. intros s. unfold scoped. cbn [escape].
      assert (A : ev a (enter [] s) = (OVal none_v, enter [] s)).
      { apply none_eval. destruct a as [| | |[| |c] [|]| | | | | | | | | | | | | | | | |]; try discriminate. exact NE. }
      rewrite (peel_ret w fuel b a _ _ PB A). rewrite leave_enter. reflexivity.
    - split; [discriminate|]. split; [reflexivity|].
      destruct (peel_blocks b) as [| | | | | | | | | | | | | | | |[[| | |[| |c] [|a [|]]| | | | | | | | | | | | | | | | |]|]| | | |] eqn:PB; try (destruct p; discriminate).
      destruct (ctor_binding c_err p) as [[br x]|] eqn:CB; [|destruct p; discriminate].
      apply ctor_binding_spec in CB. destruct CB as (d & ->). cbn in Q. destruct br; [discriminate|]. clear Q.
      destruct (Nat.eqb_spec c c_err); [subst c|discriminate].
      intros v vw V. apply view_cases in V. destruct V as [(y & -> & ->)|(u & -> & ->)]; [apply match_other; reflexivity|].
      exists [(x, u)]. split; [unfold err_v; rewrite match_one; reflexivity|]. intros s. unfold scoped.
      destruct a as [y [|]| | | | |f [|[y [|]| | | | | | | | | | | | | | | | | | | |] [|]]| | | | | | | | | | | | | | |]; try discriminate.
      + destruct (Nat.eqb_spec x y); [subst y|discriminate]. inversion H; subst conv. cbn [escape].
        rewrite (peel_ret w fuel b _ (enter [(x, u)] s) (err_v u) PB); [rewrite leave_enter; reflexivity|].
        rewrite eval_ctor. cbn [eval enter fst app lookup]. rewrite Nat.eqb_refl. reflexivity.
      + destruct (Nat.eqb f into && Nat.eqb x y) eqn:FX; [|discriminate]. inversion H; subst conv. apply andb_true_iff in FX as [F X].
        apply Nat.eqb_eq in F, X. subst f y. cbn [escape].
        assert (R : ev (ERet (Some (EData (KCtor c_err) [ECall into [EVar x false]]))) (enter [(x, u)] s) =
          andthen w (calls w into [u] (enter [(x, u)] s)) (fun y s => (ORet (err_v y), s))).
        { rewrite eval_ret. cbn [eopt]. rewrite eval_ctor. cbn [eval evals enter fst app lookup andthen]. rewrite Nat.eqb_refl. cbn [andthen].
          destruct (calls w into [u] _) as [[] ?]; reflexivity. }
        pose proof (calls_enter w into [u] [(x, u)] s) as CE. destruct (calls w into [u] (enter [(x, u)] s)) as [o s2] eqn:CC.
        rewrite <- CE. assert (P : forall l v, o <> OBrk l v).
        { unfold calls in CC. destruct (call w into [u] _) as [[]]; inversion CC; discriminate. }
        assert (NR : forall v, o <> ORet v).
        { unfold calls in CC. destruct (call w into [u] _) as [[]]; inversion CC; discriminate. }
        destruct o as [v|v|l v| | |]; cbn [andthen] in R.
        * rewrite (peel_at w fuel b _ (ORet (err_v v)) s2); [reflexivity|rewrite PB; exact R|discriminate].
        * destruct (NR v eq_refl).
        * destruct (P l v eq_refl).
        * rewrite (peel_at w fuel b _ OPanic s2); [reflexivity|rewrite PB; exact R|discriminate].
        * rewrite (peel_at w fuel b _ ODiverge s2); [reflexivity|rewrite PB; exact R|discriminate].
        * rewrite (peel_at w fuel b _ OStuck s2); [reflexivity|rewrite PB; exact R|discriminate].
  Qed.
  (** The arm that stays. *)
  Lemma arm_good_spec : forall t p g b k, arm_good t (p, g, b) = Some k -> t <> TBool -> quiet_ref (p, g, b) -> reborrows w ->
    g = None /\
    (forall us v, view_of t v = Some (Bad us) -> match_pat p v = None) /\
    forall y v, view_of t v = Some (Good y) -> exists bs, match_pat p v = Some bs /\
    match k with
    | None => forall s, sc bs b s = (OVal y, s)
    | Some (br, x, b') => b' = b /\ match_pat (PBind br x None) y = Some bs
    end.
  Proof.
    intros t p g b k H NB Q RB. unfold arm_good in H. unfold quiet_ref in Q. cbn [fst snd] in Q. destruct g; [discriminate|].
    destruct (ctor_binding (good_ctor t) p) as [[br x]|] eqn:CB; [|discriminate]. apply ctor_binding_spec in CB. destruct CB as (d & ->).
    split; [reflexivity|]. split.
    - intros us v V. apply view_cases in V. destruct t; [| |tauto].
      + destruct V as [(y & _ & V)|(-> & _)]; [discriminate|]. apply match_other. reflexivity.
      + destruct V as [(y & _ & V)|(u & -> & _)]; [discriminate|]. apply match_other. reflexivity.
    - intros y v V. exists [(x, if br then VRef y else y)].
      assert (v = VData (KCtor (good_ctor t)) [y]).
      { apply view_cases in V. destruct t; [| |tauto]; destruct V as [(y0 & -> & V)|K]; try (inversion V; reflexivity).
        - destruct K; discriminate.
        - destruct K as (u & _ & K). discriminate. }
      subst v. rewrite match_one. split; [apply bind_pat|].
      destruct (is_local x (peel_blocks b)) eqn:LOC; inversion H; subst k; [|split; [reflexivity|apply bind_pat]].
      intros s. destruct (peel_blocks b) eqn:PB; try discriminate. cbn in Q. destruct br; [discriminate|].
      apply scoped_val. apply local_eval; [exact RB|]. rewrite PB. exact LOC.
  Qed.

  Theorem question_match_sound : forall fresh t e e', question_match fresh t e = Some e' -> arms_by_value e -> reborrows w ->
    forall s, (forall h r arms v s', e = EMatch h r arms -> ev r s = (OVal v, s') -> view_of t v <> None) -> ev e' s = ev e s.
  Proof.
    intros fresh t e e' H BV RB s T. unfold question_match in H.
    destruct e as [| | | | | | | | | | | | |[] r [|[[p1 g1] b1] [|[[p2 g2] b2] [|]]]| | | | | | |]; try discriminate.
    assert (Q1 : quiet_ref (p1, g1, b1)) by (apply (BV _ _ _ p1 g1 b1 eq_refl); left; reflexivity).
    assert (Q2 : quiet_ref (p2, g2, b2)) by (apply (BV _ _ _ p2 g2 b2 eq_refl); right; left; reflexivity).
    clear BV. assert (T' := fun v s' => T _ _ _ v s' eq_refl). clear T. rename T' into T.
    assert (GO : forall conv k, t <> TBool ->
      match k with
      | None => Some (try_conv conv t fresh r)
      | Some (by_ref, x, b) =>
          let bind := SLet (PBind by_ref x None) (Some (try_conv conv t fresh r)) None in
          Some match b with EBlock None ss v => EBlock None (bind :: ss) v | _ => EBlock None [bind] (Some b) end
      end = Some e' ->
      forall K : val -> st -> out * st, (forall v vw, view_of t v = Some vw -> match vw with
         | Bad us => forall s, K v s = escape w conv t us s
         | Good y => match k with None => forall s, K v s = (OVal y, s)
                     | Some (br, x, b) => exists bs, match_pat (PBind br x None) y = Some bs /\ forall s, K v s = sc bs b s end end) ->
      ev e' s = andthen w (ev r s) K).
    { clear H. intros conv k NB H K HK. destruct (ev r s) as [o s1] eqn:E.
      assert (OUT : (forall v, o <> OVal v) -> ev e' s = (o, s1)).
      { intros NV. pose proof (try_other w fuel conv t fresh r s o s1 E NV) as TR.
        destruct k as [[[br x] b]|]; [|inversion H; subst; exact TR].
        destruct b as [| | | | | | | | | | | | | |[l|] ss v0| | | | | |]; inversion H; subst; apply bind_other; assumption. }
      destruct o as [v| | | | |]; try (apply OUT; discriminate). clear OUT. cbn [andthen].
      destruct (view_of t v) as [vw|] eqn:V; [|destruct (T _ _ eq_refl V)]. specialize (HK v vw V).
      pose proof (try_eval w fuel conv t fresh r s v s1 vw NB E V) as TR.
      destruct vw as [y|us].
      - destruct k as [[[br x] b]|].
        + destruct HK as (bs & M & HK). rewrite HK.
          destruct b as [| | | | | | | | | | | | | |[l|] ss v0| | | | | |]; inversion H; subst e'; (eapply bind_block || eapply bind_expr); eassumption.
        + inversion H; subst. rewrite TR. symmetry. apply HK.
      - rewrite HK. destruct k as [[[br x] b]|].
        + assert (NV : forall v, fst (escape w conv t us s1) <> OVal v).
          { unfold escape. destruct t, us as [|u [|]]; try discriminate. destruct conv; [|discriminate].
            unfold calls. destruct (call w into [u] _) as [[]]; discriminate. }
          destruct (escape w conv t us s1) as [o s2]. cbn [fst] in NV.
          destruct b as [| | | | | | | | | | | | | |[l|] ss v0| | | | | |]; inversion H; subst e'; apply bind_other; assumption.
        + inversion H; subst. exact TR. }
    destruct (arm_bad t (p2, g2, b2)) as [conv|] eqn:B2.
    - destruct (arm_good t (p1, g1, b1)) as [k|] eqn:G1; [|discriminate].
      destruct (arm_bad_spec _ _ _ _ _ B2 Q2) as (NB & -> & BS). destruct (arm_good_spec _ _ _ _ _ G1 NB Q1 RB) as (-> & GB & GS).
      rewrite match2. apply (GO conv k NB).
      + destruct k as [[[br x] b]|]; exact H.
      + intros v vw V. unfold arms2. specialize (BS v vw V). destruct vw as [y|us].
        * destruct (GS y v V) as (bs & M & R). rewrite M. destruct k as [[[br x] b]|]; [|exact R]. destruct R as [-> R]. eauto.
        * rewrite (GB us v V). destruct BS as (bs & M & R). rewrite M. exact R.
    - destruct (arm_bad t (p1, g1, b1)) as [conv|] eqn:B1; [|discriminate].
      destruct (arm_good t (p2, g2, b2)) as [k|] eqn:G2; [|discriminate].
      destruct (arm_bad_spec _ _ _ _ _ B1 Q1) as (NB & -> & BS). destruct (arm_good_spec _ _ _ _ _ G2 NB Q2 RB) as (-> & GB & GS).
      rewrite match2. apply (GO conv k NB).
      + destruct k as [[[br x] b]|]; exact H.
      + intros v vw V. unfold arms2. specialize (BS v vw V). destruct vw as [y|us].
        * rewrite BS. destruct (GS y v V) as (bs & M & R). rewrite M. destruct k as [[[br x] b]|]; [|exact R]. destruct R as [-> R]. eauto.
        * destruct BS as (bs & M & R). rewrite M. exact R.
  Qed.
End Question.
