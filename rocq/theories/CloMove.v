(** manual_ok_or, manual_option_zip, or_then_unwrap, unnecessary_literal_unwrap, obfuscated_if_else, return_and_then,
    unnecessary_lazy_eval: proofs. *)
From Verif Require Export CloVariant.

Section Move.
  Variable w : world.
  Variable fuel : nat.
  Notation st := (state w).
  Notation ev := (eval w fuel).
  Notation ap := (apply w fuel).
  Ltac recv r s := let o := fresh "o" in let v := fresh "v" in let s1 := fresh "s1" in
    destruct (ev r s) as [o s1] eqn:?; destruct o as [v| | | | |]; try reflexivity; cbn [andthen] in *.

  Lemma eval_ctor : forall k a s, ev (EData k [a]) s = andthen w (ev a s) (fun v s => (OVal (VData k [v]), s)).
  Proof. reflexivity. Qed.
  Lemma as_ctor_spec : forall c e a, as_ctor c e = Some a -> e = EData (KCtor c) [a].
  Proof.
    intros c e a H. destruct e as [| | |[| |d] [|x [|]]| | | | | | | | | | | | | | | | |]; try discriminate. cbn in H.
    destruct (Nat.eqb_spec d c); inversion H; subst; reflexivity.
  Qed.
  Lemma var_enter : forall x v s, ev (EVar x false) (enter [(x, v)] s) = (OVal v, enter [(x, v)] s).
  Proof. intros. cbn. rewrite Nat.eqb_refl. reflexivity. Qed.

  (** ** manual_ok_or *)
  Theorem manual_ok_or_sound : forall e e', manual_ok_or e = Some e' ->
    (forall t m r d ps b, e = EMeth t m r [d; AC ps b] -> 
     (forall p, In p ps -> exists x, p = PBind false x None) /\ (forall k y adj, b = EData k [EVar y adj] -> adj = false)) ->
    forall s, ev e' s = ev e s.
  Proof.
    intros e e' H P s. unfold manual_ok_or in H.
    destruct e as [| | | | | | | | | | | | | | | | | | |[] [] r [|[d| |] [|f [|]]]|]; try discriminate.
    destruct (as_ctor c_err d) as [a|] eqn:D; [|discriminate]. apply as_ctor_spec in D. subst d.
    destruct (ok_wrapping f) eqn:F; inversion H; subst.
    assert (FA : match f with AE _ => False | _ => True end /\ forall x s, ap f [x] s = (OVal (ok_v x), s)).
    { destruct f as [|ps b|[c| |]]; try discriminate; (split; [exact I|]); intros x s0.
      - destruct (P _ _ _ _ _ _ eq_refl) as [P1 P2]. cbn in F. destruct ps as [|[|r0 y sub| | | | | |] [|]]; try discriminate.
        destruct (P1 _ (or_introl eq_refl)) as (z & E). injection E as -> -> ->. destruct (as_ctor c_ok b) as [a0|] eqn:A; [|discriminate]. apply as_ctor_spec in A. subst b.
        destruct a0 as [y adj| | | | | | | | | | | | | | | | | | | |]; try discriminate. cbn in F. apply Nat.eqb_eq in F. subst z. rewrite (P2 _ _ _ eq_refl) in *. cbn [apply]. change (bind_all [PBind false y None] [x]) with (Some [(y, x)]). cbv beta iota.
        rewrite eval_ctor, var_enter. cbn [andthen]. rewrite leave_enter. reflexivity.
      - cbn in F. apply Nat.eqb_eq in F. subst. reflexivity. }
    destruct FA as [CF FA]. rewrite meth_ef by auto. rewrite meth_e. recv r s. destruct (view_of TOption v) as [vw|] eqn:V; [|reflexivity].
    rewrite eval_ctor. recv a s1. unfold method. rewrite V. destruct vw; [rewrite FA|]; reflexivity.
  Qed.

  (** ** manual_option_zip *)
  Theorem manual_option_zip_sound : forall r r2 x y b b2 p q e',
    manual_option_zip (EMeth TOption MAndThen r [AC [PBind false x None] b]) = Some e' ->
    braced b (EMeth TOption MMap r2 [AC [PBind false y None] b2]) -> braced b2 (EData KTup [EVar p false; EVar q false]) -> x <> y ->
    forall s, (p = y -> steady w fuel s r2) ->
    ok w (ev (EMeth TOption MAndThen r [AC [PBind false x None] b]) s) -> ok w (ev e' s) ->
    ev e' s = ev (EMeth TOption MAndThen r [AC [PBind false x None] b]) s.
  Proof.
    intros r r2 x y b b2 p q e' H B B2 XY s S N N'. unfold manual_option_zip in H. rewrite (braced_peel _ _ B) in H. cbn [peel_blocks] in H.
    destruct (eager r2) eqn:E; [|discriminate]. destruct (local_used x r2) eqn:U; [discriminate|]. cbn [andb negb] in H.
    rewrite (braced_peel _ _ B2) in H. cbn [peel_blocks is_local] in H.
    (* the closure *)
    assert (IN : forall v u s1, ev b2 (enter [(y, u)] (enter [(x, v)] s1)) =
              match lookup p [(y, u); (x, v)], lookup q [(y, u); (x, v)] with
              | Some a, Some c => (OVal (VData KTup [a; c]), enter [(y, u)] (enter [(x, v)] s1))
              | _, _ => ev b2 (enter [(y, u)] (enter [(x, v)] s1)) end).
    { intros v u s1. rewrite (braced_eval w fuel _ _ B2). destruct (lookup p [(y, u); (x, v)]) eqn:LP; [|reflexivity]. destruct (lookup q [(y, u); (x, v)]) eqn:LQ; [|reflexivity].
      assert (G : forall z a, lookup z [(y, u); (x, v)] = Some a -> lookup z (fst (enter [(y, u)] (enter [(x, v)] s1))) = Some a).
      { intros z a L. cbn in *. destruct (Nat.eqb z y); [exact L|]. destruct (Nat.eqb z x); [exact L|discriminate]. }
      cbn [eval]. rewrite (G p _ LP). cbn [andthen]. rewrite (G q _ LQ). reflexivity. }
    assert (BODY : forall v s1, ap (AC [PBind false x None] b) [v] s1 =
              (let '(o, s') := ev (EMeth TOption MMap r2 [AC [PBind false y None] b2]) (enter [(x, v)] s1) in
               (match o with ORet v => OVal v | OBrk _ _ => OStuck | _ => o end, leave (length (fst s1)) s'))).
    { intros v s1. cbn [apply]. change (bind_all [PBind false x None] [v]) with (Some [(x, v)]). cbv beta iota. rewrite (braced_eval w fuel _ _ B). reflexivity. }
    assert (R2 : forall v s1, (fst (ev r2 (enter [(x, v)] s1)) = OStuck /\ fst (ev r2 s1) = OStuck) \/
              (exists u, ev r2 (enter [(x, v)] s1) = (OVal u, enter [(x, v)] s1) /\ ev r2 s1 = (OVal u, s1))).
    { intros v s1. apply eager_unused; auto. intros z [<-|[]]. exact U. }
    (* the value of the closure *)
    assert (VAL : forall v s1 d, fst (ev r2 s1) <> OStuck -> (p = x /\ q = y /\ d = true) \/ (p = y /\ q = x /\ d = false) ->
              exists u, ev r2 s1 = (OVal u, s1) /\
              ap (AC [PBind false x None] b) [v] s1 =
              match view_of TOption u with
              | Some (Good z) => (OVal (some_v (VData KTup (if d then [v; z] else [z; v]))), s1)
              | Some (Bad _) => (OVal none_v, s1)
              | None => (OStuck, s1)
              end).
    { intros v s1 d NS PQ. destruct (R2 v s1) as [[_ Z]|(u & E1 & E2)]; [tauto|]. exists u. split; auto.
      rewrite BODY, meth_f by exact I. rewrite E1. cbn [andthen]. destruct (view_of TOption u) as [vw|] eqn:V; [|rewrite leave_enter; reflexivity].
      unfold method. rewrite V. destruct vw as [z|us].
      - cbn [apply]. change (bind_all [PBind false y None] [z]) with (Some [(y, z)]). cbv beta iota. rewrite IN.
        assert (Nat.eqb x y = false) by (apply Nat.eqb_neq; auto).
        destruct PQ as [(-> & -> & ->)|(-> & -> & ->)]; cbn [lookup]; rewrite ?Nat.eqb_refl; rewrite H0; cbv iota; rewrite ?Nat.eqb_refl; cbv iota;
          rewrite leave_enter; cbn [andthen]; rewrite leave_enter; reflexivity.
      - apply none_view in V. destruct V as [-> ->]. rewrite leave_enter. reflexivity. }
    unfold ok in *. rewrite meth_f in * by exact I.
    destruct (Nat.eqb_spec x p) as [XP|XP], (Nat.eqb_spec y q) as [YQ|YQ]; cbn [andb] in H.
    - subst p q. inversion H; subst e'. rewrite meth_e in *. recv r s.
      destruct (view_of TOption v) as [vw|] eqn:V; [|reflexivity].
      assert (NS : fst (ev r2 s1) <> OStuck) by (intros Z; apply N'; destruct (ev r2 s1); cbn in Z; subst; reflexivity).
      destruct vw as [a|us].
      + destruct (VAL a s1 true NS) as (u & E2 & A); [auto|]. rewrite E2 in *. cbn [andthen] in *. unfold method in *. rewrite V in *. rewrite A.
        destruct (view_of TOption u) as [[|]|]; reflexivity.
      + destruct (VAL unit_v s1 true NS) as (u & E2 & _); [auto|]. rewrite E2 in *. cbn [andthen] in *. unfold method in *. rewrite V in *.
        apply none_view in V. destruct V as [-> ->]. destruct (view_of TOption u); [reflexivity|destruct (N' eq_refl)].
    - destruct (Nat.eqb_spec y p) as [YP|YP]; [|discriminate]. congruence.
    - destruct (Nat.eqb_spec y p) as [YP|YP]; [|discriminate]. destruct (Nat.eqb_spec x q) as [XQ|XQ]; [|discriminate]. congruence.
    - destruct (Nat.eqb_spec y p) as [YP|YP]; [|discriminate]. destruct (Nat.eqb_spec x q) as [XQ|XQ]; [|discriminate]. subst p q. inversion H; subst e'.
      destruct (S eq_refl) as (u & ST). rewrite meth_e in *. rewrite (ST s eq_refl) in *. cbn [andthen] in *.
      pose proof (eval_vars w fuel r s) as VR. destruct (view_of TOption u) as [vu|] eqn:VU; [|destruct (N' eq_refl)]. recv r s. cbn in VR.
      unfold method in *. rewrite VU in *. destruct (view_of TOption v) as [vw|] eqn:V; [|destruct (N eq_refl)].
      assert (NS : fst (ev r2 s1) <> OStuck) by (rewrite (ST s1 VR); discriminate).
      destruct vw as [a|us].
      + destruct (VAL a s1 false NS) as (u' & E2 & A); [auto|]. rewrite (ST s1 VR) in E2. inversion E2; subst u'. rewrite A, VU.
        destruct vu; reflexivity.
      + apply none_view in V. destruct V as [-> ->]. destruct vu; reflexivity.
  Qed.

  (** ** or_then_unwrap *)
  Theorem or_then_unwrap_sound : forall e e', or_then_unwrap e = Some e' -> forall s, ok w (ev e s) -> ev e' s = ev e s.
  Proof.
    intros e e' H s N. unfold or_then_unwrap in H.
    destruct e as [| | | | | | | | | | | | | | | | | | |t1 [] r' [|]|]; try discriminate;
    destruct r' as [| | | | | | | | | | | | | | | | | | |t [] r [|[d| |] [|]]|]; try discriminate.
    assert (T : t <> TBool) by (destruct t; discriminate).
    assert (D : exists a, d = EData (KCtor (good_ctor t)) [a] /\ e' = EMeth t MUnwrapOr r [AE a]).
    { destruct t; [| |tauto]; (destruct (as_ctor _ d) as [a|] eqn:D; [|discriminate]); apply as_ctor_spec in D; subst; inversion H; eauto. }
    destruct D as (a & -> & ->). unfold ok in N. rewrite meth_0 in *. rewrite meth_e in *. rewrite meth_e. recv r s.
    views t v; try tauto; rewrite eval_ctor in *; recv a s1; cbn in *; destruct t1; try stuck; reflexivity.
  Qed.
End Move.
