(** manual_map, manual_filter, manual_unwrap_or, manual_ok_err, option_if_let_else, if_then_some_else_none: proofs. *)
From Verif Require Export MatMove.

(** ** Spec: what the type checker knows, and the unusual programs. *)
Definition scrutinee (e : expr) : option expr := match e with EMatch _ r _ | EIfLet _ r _ _ => Some r | _ => None end.
(** The value of the scrutinee is one of the type. *)
Definition typed (w : world) (fuel : nat) (t : rty) (s : state w) (e : expr) : Prop :=
  forall r v s', scrutinee e = Some r -> eval w fuel r s = (OVal v, s') -> view_of t v <> None.
(** The first arm of the `match` matches everything. *)
Definition shadowed (e : expr) : bool := match e with EMatch _ _ ((PWild, _, _) :: _) => true | _ => false end.
(** `Some(x @ p)` in a pattern. *)
Definition at_pat (p : pat) : bool := match p with PData _ [PBind _ _ (Some _)] _ => true | _ => false end.
Definition at_pattern (e : expr) : bool :=
  match e with
  | EMatch _ _ arms => existsb (fun x => match x with (p, _, _) => at_pat p end) arms
  | EIfLet p _ _ _ => at_pat p
  | _ => false
  end.
(** Coercions and reborrows do not change values. *)
Definition reborrows (w : world) : Prop := forall v, adjust w v = v.
Definition bodies (e : expr) : list expr :=
  match e with
  | EMatch _ _ arms => map (fun x => match x with (_, _, b) => peel_blocks b end) arms
  | EIfLet _ _ a b => peel_blocks a :: match b with Some b => [peel_blocks b] | None => [] end
  | _ => []
  end.

(** The defaults of the types of the standard library that are written as literals, and of tuples and arrays of them. *)
Inductive plain_default : val -> Prop :=
| D_int : plain_default (VInt 0)
| D_bool : plain_default (VBool false)
| D_none : plain_default (VData (KCtor c_none) [])
| D_data : forall k vs, k = KTup \/ k = KArr -> Forall plain_default vs -> plain_default (VData k vs).
(** There is a call of Default::default() in it. *)
Fixpoint default_call (e : expr) : bool :=
  match e with
  | ECall f [] => Nat.eqb f dflt
  | EData _ es => existsb default_call es
  | EBlock _ _ (Some a) => default_call a
  | _ => false
  end.
(** Default::default() of the type of the arms: if an arm is always the default of a standard type it gives that, and what an arm makes up
    by such calls is the default, too. *)
Definition has_that_default (w : world) (fuel : nat) (e : expr) : Prop := forall d, In d (bodies e) ->
  (forall u, plain_default u -> (forall s, eval w fuel d s = (OVal u, s)) -> forall s, calls w dflt [] s = (OVal u, s)) /\
  (default_call d = true -> forall s, eval w fuel d s = calls w dflt [] s).

Section Mat.
  Variable w : world.
  Variable fuel : nat.
  Notation st := (state w).
  Notation ev := (eval w fuel).
  Notation ap := (apply w fuel).
  Notation sc := (scoped w fuel).
  Ltac recv r s := let o := fresh "o" in let v := fresh "v" in let s1 := fresh "s1" in
    destruct (ev r s) as [o s1] eqn:?; destruct o as [v| | | | |]; try reflexivity; cbn [andthen] in *.

  Lemma enter_nil : forall s : st, enter [] s = s.
  Proof. intros [r x]. reflexivity. Qed.
  Lemma scoped_nil : forall b s, sc [] b s = ev b s.
  Proof.
    intros. unfold scoped. rewrite enter_nil. pose proof (leave_eval w fuel b s) as L. destruct (ev b s) as [o s']. cbn in L. rewrite L. reflexivity.
  Qed.
  Lemma scoped_val : forall bs b v s, ev b (enter bs s) = (OVal v, enter bs s) -> sc bs b s = (OVal v, s).
  Proof. intros. unfold scoped. rewrite H, leave_enter. reflexivity. Qed.

  (** Blocks around a value. *)
  Lemma block_val : forall l a s v, ev a s = (OVal v, s) -> ev (EBlock l [] (Some a)) s = (OVal v, s).
  Proof. intros l a s v H. rewrite eval_block. cbn [estmts eopt]. rewrite H. cbn [unlabel]. rewrite leave_self. reflexivity. Qed.
  Lemma block_calm : forall l a s, calm w [] (ev a s) -> ev (EBlock l [] (Some a)) s = ev a s.
  Proof.
    intros l a s C. rewrite eval_block. cbn [estmts eopt]. pose proof (leave_eval w fuel a s) as L. unfold calm in C.
    destruct (ev a s) as [o s']. cbn in L, C. rewrite L. destruct o as [v|v|[l'|] v| | |]; try reflexivity; [discriminate|destruct (C eq_refl)].
  Qed.
  Lemma peel_movable : forall b ls, movable ls b = true -> forall s, ev (peel_blocks b) s = ev b s.
  Proof.
    fix IH 1. intros b ls H s. destruct b as [| | | | | | | | | | | | | |l [|] [a|]| | | | | |]; try reflexivity.
    cbn [peel_blocks]. cbn [movable forallb opt_all andb] in H. rewrite (IH _ _ H).
    rewrite eval_block. cbn [estmts eopt]. pose proof (leave_eval w fuel a s) as L. pose proof (movable_calm w fuel _ _ H s) as C. unfold calm in C.
    destruct (ev a s) as [o s']. cbn in L, C. rewrite L. destruct o as [v|v|l' v| | |]; try reflexivity.
    cbn [unlabel]. destruct (same_label l l') eqn:E; [|reflexivity]. exfalso. destruct l as [l|], l' as [l'|]; try discriminate.
    apply same_label_eq in E. inversion E; subst l'. cbn in C. rewrite existsb_exists in C. destruct C as (y & J & F).
    apply filter_In in J. destruct J as [_ J]. apply negb_true_iff in J. apply same_label_eq in F. subst y. cbn in J. rewrite Nat.eqb_refl in J. discriminate.
  Qed.
  Lemma none_eval : forall e s, none_body e = true -> ev e s = (OVal none_v, s).
  Proof.
    fix IH 1. intros e s H. destruct e as [| | |[| |c] [|]| | | | | | | | | | |l [|] [a|]| | | | | |]; try discriminate.
    - cbn in H. apply Nat.eqb_eq in H. subst. reflexivity.
    - apply block_val. apply IH. exact H.
  Qed.
  Lemma peel_val : forall e v, (forall s, ev (peel_blocks e) s = (OVal v, s)) -> forall s, ev e s = (OVal v, s).
  Proof.
    fix IH 1. intros e v H s. destruct e as [| | | | | | | | | | | | | |l [|] [a|]| | | | | |]; try (apply H).
    apply block_val. apply IH. exact H.
  Qed.

  (** ** Two alternatives *)
  Definition arms2 (p : pat) (a : expr) (q : option pat) (b : expr) (v : val) (s : st) : out * st :=
    match match_pat p v with
    | Some bs => sc bs a s
    | None => match match q with Some q => match_pat q v | None => Some [] end with
              | Some bs => sc bs b s
              | None => (OStuck, s)
              end
    end.
  Lemma match2 : forall r p a q b s, ev (EMatch false r [(p, None, a); (q, None, b)]) s =
    andthen w (ev r s) (fun v s => arms2 p a (Some q) b v s).
  Proof.
    intros. rewrite eval_match. recv r s.
  Qed.
  Lemma iflet2 : forall r p a b s, ev (EIfLet p r a (Some b)) s = andthen w (ev r s) (fun v s => arms2 p a None b v s).
  Proof.
    intros. rewrite eval_iflet. recv r s. unfold arms2. destruct (match_pat p v); [reflexivity|]. cbn [eopt]. rewrite scoped_nil. reflexivity.
  Qed.
  Lemma two_eval : forall e r p a q b s, two_arms e = Some (r, p, a, q, b) -> scrutinee e = Some r /\
    (shadowed e = false -> p <> PWild \/ q = None) /\
    ev e s = andthen w (ev r s) (fun v s => arms2 p a q b v s).
  Proof.
    intros e r p a q b s H. destruct e as [| | | | | | | | | | | |p0 c0 a0 [b0|]|[] e0 [|[[p0 [|]] a0] [|[[q0 [|]] b0] [|]]]| | | | | | |]; try discriminate;
      cbn in H; inversion H; subst; (split; [reflexivity|]); (split; [|]).
    - intros; right; reflexivity.
    - apply iflet2.
    - intros S; left; intros ->; discriminate.
    - apply match2.
  Qed.

  Lemma match_one : forall c p d x, match_pat (PData (KCtor c) [p] d) (VData (KCtor c) [x]) = match_pat p x.
  Proof.
    intros. assert (E : match match_pat p x with Some a => Some (a ++ []) | None => None end = match_pat p x)
      by (destruct (match_pat p x); [rewrite app_nil_r|]; reflexivity).
    destruct d as [n|]; cbn -[Nat.eqb]; rewrite Nat.eqb_refl; [|exact E].
    destruct n as [|[|n]]; cbn; rewrite ?firstn_nil; exact E.
  Qed.
  Lemma match_other : forall c d ps vs dd, Nat.eqb c d = false -> match_pat (PData (KCtor c) ps dd) (VData (KCtor d) vs) = None.
  Proof. intros. destruct dd; cbn; rewrite H; reflexivity. Qed.

  Lemma parse_some : forall p x, parse_pat p = Some (OSome x) -> exists d, p = PData (KCtor c_some) [x] d.
  Proof.
    intros p x H. destruct p as [| |[| |c] [|q [|]] d| | | | |]; cbn in H; try discriminate.
    - destruct d; [discriminate|]. destruct (Nat.eqb c c_none); discriminate.
    - destruct (Nat.eqb_spec c c_some); inversion H; subst. eauto.
  Qed.
  Lemma parse_none : forall p, parse_pat p = Some ONone -> p = PData (KCtor c_none) [] None.
  Proof.
    intros p H. destruct p as [| |[| |c] [|q [|]] d| | | | |]; cbn in H; try discriminate.
    - destruct d; [discriminate|]. destruct (Nat.eqb_spec c c_none); inversion H; subst. reflexivity.
    - destruct (Nat.eqb c c_some); discriminate.
  Qed.
  Lemma parse_wild : forall p, parse_pat p = Some OWild -> p = PWild.
  Proof.
    intros p H. destruct p as [| |[| |c] [|q [|]] d| | | | |]; cbn in H; try discriminate; auto.
    - destruct d; [discriminate|]. destruct (Nat.eqb c c_none); discriminate.
    - destruct (Nat.eqb c c_some); discriminate.
  Qed.
  Lemma some_arm_eval : forall p a q b body sp wn, some_arm p a q b = Some (body, sp, wn) -> p <> PWild \/ q = None ->
    (forall s, arms2 p a q b none_v s = (OVal none_v, s)) /\
    (forall x s, arms2 p a q b (some_v x) s =
      match match_pat sp x with Some bs => sc bs body s | None => if wn then (OVal none_v, s) else (OStuck, s) end).
  Proof.
    intros p a q b body sp wn H S. unfold some_arm in H.
    assert (NS : forall x d, match_pat (PData (KCtor c_some) [x] d) none_v = None) by (intros; apply match_other; reflexivity).
    assert (NN : match_pat (PData (KCtor c_none) [] None) none_v = Some []) by reflexivity.
    assert (SN : forall x, match_pat (PData (KCtor c_none) [] None) (some_v x) = None) by reflexivity.
    assert (SS : forall p d x, match_pat (PData (KCtor c_some) [p] d) (some_v x) = match_pat p x) by (intros; apply match_one).
    assert (BB : forall b s, none_body b = true -> sc [] b s = (OVal none_v, s)) by (intros; rewrite scoped_nil; apply none_eval; auto).
    destruct (parse_pat p) as [[| |x]|] eqn:P; [| | |discriminate].
    - apply parse_wild in P. subst p. destruct S as [S|S]; [tauto|]. subst q. discriminate.
    - apply parse_none in P. subst p. destruct q as [q|]; [|discriminate]. destruct (parse_pat q) as [[| |y]|] eqn:Q; try discriminate.
      apply parse_some in Q. destruct Q as (d & ->). destruct (none_body a) eqn:N; inversion H; subst. unfold arms2. split; intros.
      + rewrite NN. auto.
      + rewrite SN, SS. destruct (match_pat sp x); reflexivity.
    - apply parse_some in P. destruct P as (d & ->). destruct q as [q|].
      + destruct (parse_pat q) as [[| |y]|] eqn:Q; try discriminate.
        * apply parse_wild in Q. subst q. destruct (none_body b) eqn:N; inversion H; subst. unfold arms2. split; intros.
          -- rewrite NS. cbn [match_pat]. auto.
          -- rewrite SS. destruct (match_pat sp x); [reflexivity|]. cbn [match_pat]. auto.
        * apply parse_none in Q. subst q. destruct (none_body b) eqn:N; inversion H; subst. unfold arms2. split; intros.
          -- rewrite NS, NN. auto.
          -- rewrite SS, SN. destruct (match_pat sp x); reflexivity.
      + destruct (none_body b) eqn:N; inversion H; subst. unfold arms2. split; intros.
        * rewrite NS. auto.
        * rewrite SS. destruct (match_pat sp x); [reflexivity|]. auto.
  Qed.

  Lemma as_ref_some : forall r s v s1, ev r s = (OVal v, s1) -> forall by_ref,
    (v = none_v -> ev (with_ref by_ref r) s = (OVal none_v, s1)) /\
    (forall x, v = some_v x -> ev (with_ref by_ref r) s = (OVal (some_v (if by_ref then VRef x else x)), s1)).
  Proof.
    intros r s v s1 E by_ref. destruct by_ref; cbn [with_ref]; [|split; intros; subst; exact E].
    rewrite meth_0, E. cbn [andthen]. split; [intros ->; reflexivity|intros x ->; reflexivity].
  Qed.
  Lemma with_ref_bad : forall r s o s1, ev r s = (o, s1) -> (forall v, o <> OVal v) -> forall by_ref, ev (with_ref by_ref r) s = (o, s1).
  Proof.
    intros r s o s1 E N by_ref. destruct by_ref; cbn [with_ref]; [|exact E]. rewrite meth_0, E. destruct o; try reflexivity. exfalso; eapply N; reflexivity.
  Qed.

  (** ** manual_map *)
  Lemma get_some_eval : forall e a, get_some_expr e = Some a -> movable [] a = true ->
    forall s, ev e s = andthen w (ev a s) (fun v s => (OVal (some_v v), s)).
  Proof.
    fix IH 1. intros e a H M s. destruct e as [| | |[| |c] [|x [|]]| | | | | | | | | | |l [|] [y|]| | | | | |]; try discriminate.
    - cbn in H. destruct (Nat.eqb_spec c c_some); inversion H; subst. apply eval_ctor.
    - cbn [get_some_expr] in H. rewrite block_calm; [apply IH; auto|]. rewrite (IH _ _ H M).
      apply calm_bind; [apply movable_calm; exact M|intros; exact I].
  Qed.
  Lemma scoped_some : forall bs e a, (forall s, ev e s = andthen w (ev a s) (fun v s => (OVal (some_v v), s))) ->
    forall s, sc bs e s = andthen w (sc bs a s) (fun v s => (OVal (some_v v), s)).
  Proof. intros bs e a H s. unfold scoped. rewrite H. destruct (ev a (enter bs s)) as [[] ?]; reflexivity. Qed.

  Lemma pass_eval : forall x e f v s, pass_as_func x e = Some f -> sc [(x, v)] e s = call_path w f [v] s.
  Proof.
    intros x e f v s H.
    assert (C : forall f, (let '(o, s') := calls w f [v] (enter [(x, v)] s) in (o, leave (length (fst s)) s')) = calls w f [v] s).
    { intros g. unfold calls. cbn [enter snd fst]. destruct (call w g [v] (snd s)) as [c y].
      unfold leave. cbn [fst snd]. f_equal. f_equal. exact (f_equal fst (leave_enter w [(x, v)] s)). }
    destruct e as [| | |[| |c] [|[y []| | | | | | | | | | | | | | | | | | | |] [|]]| |g [|[y []| | | | | | | | | | | | | | | | | | | |] [|]]|p [|[y []| | | | | | | | | | | | | | | | | | | |] [|]]| | | | | | | | | | | | | |]; try discriminate; cbn [pass_as_func] in H; destruct (Nat.eqb_spec x y); try discriminate; inversion H; subst; unfold scoped.
    - rewrite eval_ctor, var_enter. cbn [andthen]. rewrite leave_enter. reflexivity.
    - rewrite eval_call. cbn [evals]. rewrite var_enter. cbn [andthen evals]. apply C.
    - rewrite eval_callp. cbn [evals]. rewrite var_enter. cbn [andthen evals]. destruct f; cbn [call_path]; [rewrite leave_enter; reflexivity|apply C|rewrite leave_enter; reflexivity].
  Qed.

  Theorem manual_map_sound : forall e e', manual_map e = Some e' -> shadowed e = false ->
    forall s, typed w fuel TOption s e -> ok w (ev e s) -> ev e' s = ev e s.
  Proof.
    intros e e' H S s T N. unfold manual_map in H.
    destruct (check_with _ e) as [[[r0 by_ref] f]|] eqn:C; [|discriminate]. inversion H; subst e'; clear H. unfold check_with in C.
    destruct (two_arms e) as [[[[[r p] a] q] b]|] eqn:TA; [|discriminate].
    destruct (two_eval _ _ _ _ _ _ s TA) as (SCR & SH & EV). specialize (SH S).
    destruct (some_arm p a q b) as [[[body sp] wn]|] eqn:SA; [|discriminate].
    destruct (some_arm_eval _ _ _ _ _ _ _ SA SH) as (EN & ES).
    destruct (get_some_expr body) as [arg|] eqn:GS; [|discriminate]. cbn [option_map] in C.
    destruct (movable [] arg) eqn:MV; [|discriminate]. pose proof (get_some_eval _ _ GS MV) as GE.
    rewrite EV in *. clear EV.
    assert (R : r0 = r).
    { destruct sp as [|br x [|]| | | | | |]; try (destruct (negb wn && _) in C; inversion C; auto; fail).
      destruct (pass_as_func x arg); [inversion C; auto|]. destruct (is_local x arg && br); inversion C; auto. } subst r0.
    destruct (ev r s) as [o s1] eqn:ER.
    assert (BAD : forall g, (forall v, o <> OVal v) -> match g with AE _ => False | _ => True end -> ev (EMeth TOption MMap (with_ref by_ref r) [g]) s = (o, s1)).
    { intros g NV G. rewrite meth_f by exact G. rewrite (with_ref_bad _ _ _ _ ER NV). destruct o; try reflexivity. exfalso; eapply NV; reflexivity. }
    destruct o as [v| | | | |]; try (apply BAD; [discriminate|destruct f; exact I]). clear BAD.
    cbn [andthen] in *. specialize (T r v s1 SCR ER). destruct (view_of TOption v) as [vw|] eqn:V; [|tauto]. clear T.
    apply view_cases in V. destruct (as_ref_some _ _ _ _ ER by_ref) as (RN & RS).
    rewrite meth_f by (destruct f; exact I). destruct V as [(x & -> & ->)|(-> & ->)].
    - rewrite (RS x eq_refl). rewrite ES in *. cbn [andthen].
      change (view_of TOption (some_v (if by_ref then VRef x else x))) with (Some (Good (if by_ref then VRef x else x))). cbv beta iota.
      unfold method. change (view_of TOption (some_v (if by_ref then VRef x else x))) with (Some (Good (if by_ref then VRef x else x))). cbv beta iota.
      destruct (match_pat sp x) as [bs|] eqn:MP.
      + rewrite (scoped_some bs body arg GE).
        match goal with |- andthen _ ?A _ = andthen _ ?B _ => assert (Q : A = B); [|rewrite Q; reflexivity] end.
        assert (PL : forall p0, (negb wn && negb (has_ref sp) = true -> Some (r, false, FBody sp arg) = Some (r, by_ref, f) -> p0 = sp ->
          ap (match f with FPath p => AP p | FBody p b => AC [p] b end) [if by_ref then VRef x else x] s1 = sc bs arg s1)).
        { intros p0 _ E _. inversion E; subst. apply movable_apply; [exact MV|]. rewrite bind_one, MP. reflexivity. }
        destruct sp as [|br y [sub|]| | | | | |];
          try (destruct (negb wn && _) eqn:Z in C; [|discriminate]; eapply PL; eauto; fail).
        inversion MP; subst bs. destruct (pass_as_func y arg) as [g|] eqn:PF.
        * inversion C; subst. cbn [apply]. symmetry. apply pass_eval. exact PF.
        * destruct (is_local y arg && br); [discriminate|]. inversion C; subst. apply movable_apply; [exact MV|].
          rewrite bind_one. reflexivity.
      + destruct wn; [|destruct (N eq_refl)]. exfalso. destruct sp as [|br y [sub|]| | | | | |]; cbn [negb andb] in C; try discriminate.
    - rewrite RN, EN by reflexivity. reflexivity.
  Qed.
End Mat.
