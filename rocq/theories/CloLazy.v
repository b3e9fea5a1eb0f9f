(** unnecessary_literal_unwrap, obfuscated_if_else, return_and_then, unnecessary_lazy_eval: proofs. *)
From Verif Require Export CloMove.

Section Lazy.
  Variable w : world.
  Variable fuel : nat.
  Notation st := (state w).
  Notation ev := (eval w fuel).
  Notation ap := (apply w fuel).
  Ltac recv r s := let o := fresh "o" in let v := fresh "v" in let s1 := fresh "s1" in
    destruct (ev r s) as [o s1] eqn:?; destruct o as [v| | | | |]; try reflexivity; cbn [andthen] in *.

  (** A closure without parameters and without `return` runs its body. *)
  Lemma body_ap : forall ps b s, contains_return b = false -> fst (ap (AC ps b) [] s) <> OStuck -> ap (AC ps b) [] s = ev b s.
  Proof.
    intros ps b s R N. cbn [apply] in *. destruct (bind_all ps []) as [bs|] eqn:B; [|destruct (N eq_refl)].
    assert (bs = []). { destruct ps; [inversion B; auto|discriminate]. } subst bs.
    change (enter [] s) with ((fst s, snd s) : st) in *. replace ((fst s, snd s) : st) with s in * by (destruct s; reflexivity).
    pose proof (leave_eval w fuel b s) as L. pose proof (no_return_quiet w fuel b R s) as Q. unfold nr in Q.
    destruct (ev b s) as [o s']. cbn in L, Q. rewrite L. destruct o; try reflexivity; [exfalso; eapply Q; reflexivity|destruct (N eq_refl)].
  Qed.

  (** ** unnecessary_literal_unwrap *)
  Definition literal_fits (s : st) (e : expr) : Prop :=
    match e with
    | EMeth _ m (EData (KCtor c) cargs) args =>
        (* a value dropped has no effect; a moved body no `return`; an Err has no value to unwrap *)
        (forall d, In (AE d) args -> cargs <> [] -> pure_in w fuel s d) /\
        (forall ps b, In (AC ps b) args -> contains_return b = false) /\
        match m with MUnwrapOr | MUnwrapOrElse | MUnwrapOrDefault _ => c <> c_err | _ => True end
    | _ => True
    end.
  Lemma eval_panic1 : forall a s, ev (EPanic [a]) s = andthen w (ev a s) (fun _ s => (OPanic, s)).
  Proof. reflexivity. Qed.
  Theorem literal_unwrap_sound : forall e e', unnecessary_literal_unwrap e = Some e' ->
    forall s, literal_fits s e -> ok w (ev e s) -> ev e' s = ev e s.
  Proof.
    intros e e' H s F N. unfold unnecessary_literal_unwrap in H.
    destruct e as [| | | | | | | | | | | | | | | | | | |t m r args|]; try discriminate.
    destruct r as [| | |[| |c] cargs| | | | | | | | | | | | | | | | |]; try discriminate.
    destruct (existsb (Nat.eqb c) [c_none; c_some; c_ok; c_err] && _) eqn:G in H; [|discriminate].
    apply andb_true_iff in G. destruct G as [GC GM]. cbn [literal_fits] in F. destruct F as (F1 & F2 & F3). unfold ok in N.
    destruct cargs as [|a cargs].
    - (* None *)
      rewrite eval_meth in *. change (ev (EData (KCtor c) []) s) with (OVal (VData (KCtor c) []), s) in *. cbn [andthen] in *.
      destruct (view_of t (VData (KCtor c) [])) as [vw|] eqn:V; [|destruct (N eq_refl)].
      assert (t = TOption /\ c = c_none /\ vw = Bad []) as (-> & -> & ->).
      { destruct t; cbn in V; try discriminate. destruct c; inversion V; auto. }
      destruct m; try discriminate; destruct args as [|[d|ps b|p] [|]]; try discriminate; inversion H; subst e'; clear H.
      + reflexivity.
      + cbn [eargs rev app]. rewrite eval_panic1. destruct (ev d s) as [o s1]. destruct o; reflexivity.
      + cbn [eargs rev app]. destruct (ev d s) as [o s1]. destruct o; reflexivity.
      + cbn [eargs rev app method view_of Nat.eqb c_none] in *. symmetry. apply body_ap; auto. eapply F2. left; reflexivity.
      + destruct is_bool; reflexivity.
    - (* Some, Ok, Err *)
      destruct cargs; [|discriminate].
      assert (FD : forall d s1, In (AE d) args -> same_vars w s s1 -> exists u, ev d s1 = (OVal u, s1)).
      { intros d s1 I V. apply (F1 d I); [discriminate|exact V]. }
      pose proof (eval_vars w fuel a s) as VA.
      assert (C : (t = TOption /\ c = c_some) \/ (t = TResult /\ (c = c_ok \/ c = c_err)) \/
                  (forall v, view_of t (VData (KCtor c) [v]) = None)).
      { destruct t; [| |auto]; cbn [view_of].
        - destruct (Nat.eqb_spec c c_some); auto.
        - destruct (Nat.eqb_spec c c_ok); [auto|]. destruct (Nat.eqb_spec c c_err); auto. }
      rewrite eval_meth, eval_ctor in *.
      assert (NV : (forall v, view_of t (VData (KCtor c) [v]) = None) -> forall x s1, ev a s = (OVal x, s1) -> False).
      { intros Z x s1 E. apply N. rewrite E. cbn [andthen]. rewrite Z. reflexivity. }
      destruct C as [C|[C|C]].
      3: { assert (D : e' = a \/ exists l, e' = EPanic (a :: l)).
           { destruct m; try discriminate; destruct args as [|[d| |] [|]]; try discriminate;
               repeat match type of H with (if ?x then _ else _) = _ => destruct x end; inversion H; eauto. }
           destruct (ev a s) as [o s1] eqn:E. destruct o; try (destruct D as [->|(? & ->)]; rewrite ?eval_panic; cbn [evals]; rewrite E; reflexivity).
           exact (False_ind _ (NV C _ _ eq_refl)). }
      1: destruct C as [-> ->]. 2: destruct C as [-> [->| ->]].
      all: destruct m; try discriminate; destruct args as [|[d|ps b|p] [|]]; try discriminate; try tauto;
        cbn [Nat.eqb c_ok c_err c_some] in H; inversion H; subst e'; clear H;
        rewrite ?eval_panic; cbn [evals];
        destruct (ev a s) as [o s1]; cbn in VA; destruct o; try reflexivity; cbn [andthen] in *; try stuck;
        cbn [eargs rev app view_of Nat.eqb c_ok c_err c_some] in *; try stuck; try reflexivity.
      all: try (destruct (FD d s1) as (u & E); [left; reflexivity|exact VA|]; rewrite E in *; cbn [andthen] in *; try stuck; reflexivity).
      all: destruct is_bool; reflexivity.
  Qed.

  (** ** obfuscated_if_else *)
  (** Bodies that are moved have no `return`. *)
  Definition moved (e : expr) : Prop :=
    match e with
    | EMeth _ _ (EMeth _ _ _ l) l' => forall ps b, In (AC ps b) (l ++ l') -> contains_return b = false
    | _ => True
    end.
  Theorem obfuscated_if_else_sound : forall e e', obfuscated_if_else e = Some (e', true) -> moved e ->
    forall s, ok w (ev e s) -> ok w (ev e' s) -> ev e' s = ev e s.
  Proof.
    intros e e' H M s N N'. unfold obfuscated_if_else in H.
    destruct e as [| | | | | | | | | | | | | | | | | | |t m r args|]; try discriminate.
    destruct r as [| | | | | | | | | | | | | | | | | | |[] m1 c [|a [|]]|]; try discriminate.
    cbn [moved app] in M.
    (* then *)
    set (th := match m1, a with MThen, AC _ b => Some b | MThenSome, AE b => Some b | _, _ => None end) in *.
    set (el := match m, args with MUnwrapOr, [AE d] => Some (d, eager d) | MUnwrapOrElse, [AC _ b] => Some (b, true)
               | MUnwrapOrElse, [AP p] => Some (ECallPath p [], true) | MUnwrapOrDefault b, [] => Some (default_of b, true) | _, _ => None end) in *.
    destruct th as [b|] eqn:TH; [|discriminate]. destruct el as [[d okd]|] eqn:EL; [|discriminate].
    injection H as HE HO. apply andb_true_iff in HO. destruct HO as [OA OD]. subst okd e'.
    assert (THEN : forall s, fst (ev (EMeth TBool m1 c [a]) s) <> OStuck ->
              ev (EMeth TBool m1 c [a]) s = andthen w (ev c s) (fun v s => match v with
                | VBool true => andthen w (ev b s) (fun y s => (OVal (some_v y), s))
                | VBool false => (OVal none_v, s) | _ => (OStuck, s) end)).
    { intros s0 N0. unfold th in TH. destruct m1; try discriminate; destruct a as [x|ps x|]; try discriminate; inversion TH; subst x.
      - rewrite meth_f in * by exact I. recv c s0. destruct v as [|[]| | |]; try reflexivity. cbn [view_of method] in *.
        assert (R : contains_return b = false) by (eapply M; left; reflexivity).
        rewrite (body_ap ps b s1 R); [reflexivity|]. intros Z. apply N0. destruct (ap (AC ps b) [] s1). cbn in Z. subst. reflexivity.
      - rewrite meth_e in *. recv c s0. destruct (view_of TBool v) as [vw|] eqn:V; [|destruct v as [|[]| | |]; try reflexivity; discriminate].
        destruct (eager_pure w fuel b s1 OA) as [Z|(u & Z)].
        + exfalso. apply N0. destruct (ev b s1). cbn in Z. subst. reflexivity.
        + rewrite Z in *. destruct (view_cases _ _ _ V) as [(-> & ->)|(-> & ->)]; reflexivity. }
    assert (NT : fst (ev (EMeth TBool m1 c [a]) s) <> OStuck).
    { intros Z. apply N. unfold ok. rewrite eval_meth. destruct (ev (EMeth TBool m1 c [a]) s). cbn in Z. subst. reflexivity. }
    unfold ok in *. rewrite eval_if in *. rewrite eval_meth in N |- *. rewrite THEN in N |- * by auto. recv c s.
    destruct v as [|[]| | |]; try stuck.
    - rewrite peel_one in *. recv b s1. destruct (view_of t (some_v v)) as [vw|] eqn:V; [|destruct (N eq_refl)].
      assert (t = TOption) as -> by (destruct t; [reflexivity|discriminate|discriminate]).
      unfold el in EL. destruct m; try discriminate.
      + destruct args as [|[x| |] [|]]; try discriminate. inversion EL; subst x. cbn [eargs rev app] in *.
        destruct (eager_pure w fuel d s0) as [Z|(u & Z)]; [congruence|exfalso; apply N; destruct (ev d s0); cbn in Z; subst; reflexivity|].
        rewrite Z. reflexivity.
      + destruct args as [|[| |] [|]]; try discriminate; reflexivity.
      + destruct args; try discriminate. destruct is_bool; reflexivity.
    - cbn [eopt] in *. rewrite peel_one in *. cbn [andthen] in *. destruct (view_of t none_v) as [vw|] eqn:V; [|destruct (N eq_refl)].
      assert (t = TOption) as -> by (destruct t; [reflexivity|discriminate|discriminate]).
      unfold el in EL. destruct m; try discriminate.
      + destruct args as [|[x| |] [|]]; try discriminate. inversion EL; subst x. cbn [eargs rev app] in *.
        destruct (eager_pure w fuel d s1) as [Z|(u & Z)]; [congruence|exfalso; apply N; destruct (ev d s1); cbn in Z; subst; reflexivity|].
        rewrite Z. reflexivity.
      + destruct args as [|[|ps x|p] [|]]; try discriminate; inversion EL; subst d.
        * symmetry. apply (body_ap ps x s1); [|exact N]. eapply M. right. left. reflexivity.
        * reflexivity.
      + destruct args; try discriminate. inversion EL; subst d. destruct is_bool; reflexivity.
  Qed.

  (** ** return_and_then *)
  Theorem return_and_then_sound : forall z t r p b e', return_and_then z (EMeth t MAndThen r [AC [p] b]) = Some e' -> clean b ->
    forall s, fst (run_fn w fuel (EMeth t MAndThen r [AC [p] b]) s) <> OStuck -> run_fn w fuel e' s = run_fn w fuel (EMeth t MAndThen r [AC [p] b]) s.
  Proof.
    intros z t r p b e' H C s N. cbn [return_and_then] in H. assert (T : t <> TBool) by (destruct t; discriminate).
    assert (e' = EBlock None [SLet p (Some (try_expr t z r)) None] (Some (peel_blocks b))) as -> by (destruct t; inversion H; auto). clear H.
    unfold run_fn in *. rewrite meth_f in * by exact I. rewrite eval_block. cbn [estmts eopt].
    assert (TRY : forall s0 s1 v, ev r s0 = (OVal v, s1) -> forall vw, view_of t v = Some vw ->
              ev (try_expr t z r) s0 = match vw with Good x => (OVal x, s1) | Bad _ => (ORet v, s1) end).
    { intros s0 s1 v E vw V. pose proof (view_cases _ _ _ V) as VC. destruct t; [| |tauto]; cbn [try_expr]; rewrite eval_match, E; cbn [andthen earms].
      - destruct VC as [(x & -> & ->)|(-> & ->)].
        + change (match_pat (PData (KCtor c_some) [PBind false z None] None) (some_v x)) with (Some [(z, x)]). cbv beta iota zeta.
          rewrite var_enter, leave_enter. reflexivity.
        + change (match_pat (PData (KCtor c_some) [PBind false z None] None) none_v) with (@None (list binding)).
          change (match_pat (PData (KCtor c_none) [] None) none_v) with (Some (@nil binding)). cbv beta iota zeta.
          change (ev (ERet (Some (EData (KCtor c_none) []))) (enter [] s1)) with (ORet none_v, @enter w [] s1). cbv beta iota. rewrite leave_enter. reflexivity.
      - destruct VC as [(x & -> & ->)|(u & -> & ->)].
        + change (match_pat (PData (KCtor c_ok) [PBind false z None] None) (ok_v x)) with (Some [(z, x)]). cbv beta iota zeta.
          rewrite var_enter, leave_enter. reflexivity.
        + change (match_pat (PData (KCtor c_ok) [PBind false z None] None) (err_v u)) with (@None (list binding)).
          change (match_pat (PData (KCtor c_err) [PBind false z None] None) (err_v u)) with (Some [(z, u)]). cbv beta iota zeta.
          rewrite eval_ret. cbn [eopt]. rewrite eval_ctor, var_enter. cbn [andthen]. rewrite leave_enter. reflexivity. }
    assert (BAD : forall o s1, ev r s = (o, s1) -> (forall v, o <> OVal v) -> ev (try_expr t z r) s = (o, s1)).
    { intros o s1 E NV. destruct t; [| |tauto]; cbn [try_expr]; rewrite eval_match, E; destruct o; try reflexivity; exfalso; eapply NV; reflexivity. }
    assert (LL : forall o (s' : st), (let '(o, s') := let '(o, s') := (o, s') in (unlabel None o, leave (length (fst s)) s') in
              (match o with ORet v => OVal v | OBrk _ _ => OStuck | _ => o end, leave (length (fst s)) s')) =
              (match o with ORet v => OVal v | OBrk _ _ => OStuck | _ => o end, leave (length (fst s)) s')).
    { intros o s'. cbv beta iota. f_equal; [destruct o; try reflexivity; destruct l; reflexivity|].
      unfold leave; cbn [fst snd]. f_equal. rewrite skipn_length. replace (length (fst s') - (length (fst s') - length (fst s)) - length (fst s)) with 0 by lia. reflexivity. }
    destruct (ev r s) as [o s1] eqn:ER. destruct o as [v| | | | |];
      try (rewrite (BAD _ _ eq_refl) by discriminate; cbn [andthen]; rewrite LL; reflexivity).
    cbn [andthen] in *. destruct (view_of t v) as [vw|] eqn:V; [|destruct (N eq_refl)]. rewrite (TRY _ _ _ ER _ V).
    unfold method in *. rewrite V in *. destruct vw as [x|us].
    - cbn [andthen]. cbn [apply] in *. change (bind_all [p] [x]) with (match match_pat p x with Some a => Some (a ++ []) | None => None end) in *.
      destruct (match_pat p x) as [bs|]; [|destruct (N eq_refl)]. rewrite app_nil_r in *. rewrite (peel_eval w fuel b C).
      destruct (ev b (enter bs s1)) as [o s2] eqn:EB. rewrite LL.
      pose proof (eval_len w fuel r s) as L1. rewrite ER in L1. cbn in L1.
      assert (LEN : length (fst s1) = length (fst s)) by exact L1. rewrite LEN. f_equal.
      + destruct o; reflexivity.
      + unfold leave; cbn [fst snd]. f_equal. rewrite skipn_length.
        replace (length (fst s2) - (length (fst s2) - length (fst s)) - length (fst s)) with 0 by lia. reflexivity.
    - cbn [andthen]. rewrite LL. reflexivity.
  Qed.

  (** ** unnecessary_lazy_eval *)
  Lemma bind_vars : forall ps vs bs, bind_all ps vs = Some bs -> incl (map fst bs) (flat_map pat_vars ps).
  Proof. intros ps vs bs H. unfold bind_all in H. exact (match_vars (PData KTup ps None) (VData KTup vs) bs H). Qed.
  Theorem lazy_eval_sound : forall e e', unnecessary_lazy_eval e = Some e' ->
    forall s, ok w (ev e s) -> ok w (ev e' s) -> ev e' s = ev e s.
  Proof.
    intros e e' H s N N'. unfold unnecessary_lazy_eval in H.
    destruct e as [| | | | | | | | | | | | | | | | | | |t m r [|[|ps b|] [|]]|]; try discriminate.
    destruct (eager_method t m) as [m'|] eqn:EM; [|discriminate].
    destruct (forallb _ _ && eager b) eqn:C in H; inversion H; subst e'. apply andb_true_iff in C. destruct C as [U E]. rewrite forallb_forall in U.
    assert (AP : forall vs s1 v, ev b s1 = (OVal v, s1) -> fst (ap (AC ps b) vs s1) <> OStuck -> ap (AC ps b) vs s1 = (OVal v, s1)).
    { intros vs s1 v EV NS. cbn [apply] in *. destruct (bind_all ps vs) as [bs|] eqn:B; [|destruct (NS eq_refl)].
      destruct (eager_unused w fuel b bs s1 E) as [[_ Z]|(u & E1 & E2)].
      - intros y I. apply negb_true_iff, U. eapply bind_vars; eauto.
      - rewrite EV in Z. discriminate.
      - rewrite E1, leave_enter. congruence. }
    unfold ok in *. rewrite meth_e in *. rewrite meth_f in * by exact I. recv r s. destruct (view_of t v) as [vw|] eqn:V; [|reflexivity].
    destruct (eager_pure w fuel b s1 E) as [Z|(u & Z)]; [exfalso; apply N'; destruct (ev b s1); cbn in Z; subst; reflexivity|].
    rewrite Z in *. cbn [andthen] in *. unfold method in *. rewrite V in *.
    destruct t, m; try discriminate; inversion EM; subst m'; destruct vw as [x|us]; try reflexivity;
      try (rewrite (AP _ s1 u Z); [reflexivity|exact N]);
      (rewrite (AP _ s1 u Z); [reflexivity|intros Q; apply N; destruct (ap (AC ps b) _ s1); cbn in Q; subst; reflexivity]).
  Qed.
End Lazy.
