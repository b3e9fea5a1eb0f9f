(** unnecessary_map_or, manual_is_variant_and: proofs. *)
From Verif Require Export CloEager.

(** ** Spec: [b] is [a] in braces. *)
Inductive braced : expr -> expr -> Prop :=
| Bare : forall a, braced a a
| Braced : forall a b, braced b a -> braced (EBlock None [] (Some b)) a.
(** `==` is symmetric. *)
Definition symmetric_eq (w : world) : Prop := forall a b, value_eq w a b = value_eq w b a.

Ltac views t v :=
  let V := fresh "V" in let vw := fresh "vw" in
  destruct (view_of t v) as [vw|] eqn:V; [|try reflexivity];
  [apply view_cases in V; destruct t; cbv beta iota in V;
   [destruct V as [(? & -> & ->)|(-> & ->)]|destruct V as [(? & -> & ->)|(? & -> & ->)]|destruct V as [(-> & ->)|(-> & ->)]]].
Ltac stuck := solve [exfalso; match goal with H : _ <> OStuck |- _ => apply H; reflexivity end].

Section Variant.
  Variable w : world.
  Variable fuel : nat.
  Notation st := (state w).
  Notation ev := (eval w fuel).
  Notation ap := (apply w fuel).
  Ltac recv r s := let o := fresh "o" in let v := fresh "v" in let s1 := fresh "s1" in
    destruct (ev r s) as [o s1] eqn:?; destruct o as [v| | | | |]; try reflexivity; cbn [andthen] in *.
  Ltac callf f x s := let o := fresh "o" in let y := fresh "y" in let s2 := fresh "s2" in
    destruct (ap f x s) as [o s2]; destruct o as [y| | | | |]; try reflexivity; cbn in *.

  Lemma eval_eq : forall n a b s, ev (EEq n a b) s =
    andthen w (ev a s) (fun u s => andthen w (ev b s) (fun v s => (OVal (VBool (xorb n (value_eq w u v))), s))).
  Proof. reflexivity. Qed.
  Lemma eval_not : forall a s, ev (ENot a) s =
    andthen w (ev a s) (fun v s => match v with VBool b => (OVal (VBool (negb b)), s) | _ => (OStuck, s) end).
  Proof. reflexivity. Qed.
  Lemma eval_or : forall a b s, ev (EOr a b) s =
    andthen w (ev a s) (fun u s => match u with VBool true => (OVal u, s) | VBool false => ev b s | _ => (OStuck, s) end).
  Proof. reflexivity. Qed.
  Lemma braced_eval : forall b a, braced b a -> forall s, ev b s = ev a s.
  Proof. induction 1; intros s; auto. rewrite peel_one. auto. Qed.
  Lemma braced_peel : forall b a, braced b a -> peel_blocks b = peel_blocks a.
  Proof. induction 1; auto. Qed.
  Lemma const_eval : forall e b, const_bool e = Some b -> forall s, ev e s = (OVal (VBool b), s).
  Proof.
    fix IH 1. intros e b H s. destruct e as [| |k| | | | |e| | | | | | |l [|] [a|]| | | | | |]; try discriminate; cbn [const_bool] in H.
    - inversion H. reflexivity.
    - destruct (const_bool e) as [k|] eqn:E; inversion H; subst. cbn [eval]. rewrite (IH e k E s). reflexivity.
    - rewrite eval_block. cbn [estmts eopt]. rewrite (IH a b H s). cbn [unlabel]. rewrite leave_self. reflexivity.
  Qed.
  Lemma closure_const_ap : forall f b vs s, closure_const_bool f = Some b -> fst (ap f vs s) <> OStuck -> ap f vs s = (OVal (VBool b), s).
  Proof.
    intros f b vs s H N. destruct f as [|[|p [|]] e|]; try discriminate. cbn [closure_const_bool] in H. cbn [apply] in *.
    destruct (bind_all [p] vs) as [bs|]; [|destruct (N eq_refl)]. rewrite (const_eval e b H), leave_enter. reflexivity.
  Qed.

  Lemma variant_query_or : forall t r d f e' b, const_bool d = Some b -> variant_query t r (Some b) f = Some e' ->
    forall s, ok w (ev (EMeth t MMapOr r [AE d; f]) s) -> ev e' s = ev (EMeth t MMapOr r [AE d; f]) s.
  Proof.
    intros t r d f e' b D H s N. unfold variant_query in H. destruct t; try discriminate.
    destruct (closure_const_bool f) as [y|] eqn:F; [|discriminate]. destruct (Bool.eqb b y) eqn:Q; inversion H; subst. unfold ok in N.
    assert (CF : match f with AE _ => False | _ => True end) by (destruct f; try discriminate; exact I).
    rewrite meth_ef in * by auto. rewrite meth_0. recv r s. destruct (view_of TResult v) as [vw|] eqn:V; [|reflexivity].
    rewrite (const_eval d b D) in *. cbn [andthen] in *.
    destruct (view_cases _ _ _ V) as [(x & -> & ->)|(u & -> & ->)]; cbn in N |- *.
    - rewrite (closure_const_ap f y [x] s1 F N). destruct y; reflexivity.
    - destruct y, b; try discriminate; reflexivity.
  Qed.
  Lemma variant_query_or_else : forall t r g f e' b, closure_const_bool g = Some b -> variant_query t r (Some b) f = Some e' ->
    forall s, ok w (ev (EMeth t MMapOrElse r [g; f]) s) -> ev e' s = ev (EMeth t MMapOrElse r [g; f]) s.
  Proof.
    intros t r g f e' b D H s N. unfold variant_query in H. destruct t; try discriminate.
    destruct (closure_const_bool f) as [y|] eqn:F; [|discriminate]. destruct (Bool.eqb b y) eqn:Q; inversion H; subst. unfold ok in N.
    assert (CF : match f with AE _ => False | _ => True end) by (destruct f; try discriminate; exact I).
    assert (CG : match g with AE _ => False | _ => True end) by (destruct g; try discriminate; exact I).
    rewrite meth_ff in * by auto. rewrite meth_0. recv r s. destruct (view_of TResult v) as [vw|] eqn:V; [|reflexivity].
    destruct (view_cases _ _ _ V) as [(x & -> & ->)|(u & -> & ->)]; cbn in N |- *.
    - rewrite (closure_const_ap f y [x] s1 F N). destruct y; reflexivity.
    - rewrite (closure_const_ap g b [u] s1 D N). destruct y, b; try discriminate; reflexivity.
  Qed.

  Lemma value_eq_good : forall t x y, t <> TBool -> value_eq w (VData (KCtor (good_ctor t)) [x]) (VData (KCtor (good_ctor t)) [y]) = value_eq w x y.
  Proof. intros [] x y T; [reflexivity|reflexivity|tauto]. Qed.
  (** A comparison in the closure. *)
  Lemma comparison_sound : forall t r def x b neg l rt e', t <> TBool ->
    braced b (EEq neg l rt) ->
    (forall adj, l = EVar x adj \/ rt = EVar x adj -> adj = false) ->
    (is_local x rt = true -> symmetric_eq w) ->
    map_or_comparison t r def (AC [PBind false x None] b) = Some e' ->
    forall s, ok w (ev (EMeth t MMapOr r [AE (EBool def); AC [PBind false x None] b]) s) -> ok w (ev e' s) ->
    ev e' s = ev (EMeth t MMapOr r [AE (EBool def); AC [PBind false x None] b]) s.
  Proof.
    intros t r def x b neg l rt e' T B U Q H s N N'. unfold map_or_comparison in H. rewrite (braced_peel _ _ B) in H. cbn [peel_blocks] in H.
    set (other := if is_local x l then rt else l) in *. destruct (Bool.eqb neg def && eager other && xorb (is_local x l) (is_local x rt) && negb (local_used x other)) eqn:C; [|discriminate].
    inversion H; subst e'. clear H. apply andb_true_iff in C. destruct C as [C C4]. apply andb_true_iff in C. destruct C as [C C3].
    apply andb_true_iff in C. destruct C as [C1 C2]. apply Bool.eqb_prop in C1. subst def. apply negb_true_iff in C4.
    assert (OT : forall v0 s1, fst (ev other s1) <> OStuck -> exists u, ev other s1 = (OVal u, s1) /\ ev other (enter [(x, v0)] s1) = (OVal u, enter [(x, v0)] s1)).
    { intros v0 s1 NS. destruct (eager_unused w fuel other [(x, v0)] s1 C2) as [[_ S]|(u & E & E')]; [|tauto|eauto].
      intros y [<-|[]]. exact C4. }
    assert (CMP : forall v0 u s1, ev other s1 = (OVal u, s1) -> ev other (enter [(x, v0)] s1) = (OVal u, enter [(x, v0)] s1) ->
              ev b (enter [(x, v0)] s1) = (OVal (VBool (xorb neg (value_eq w v0 u))), enter [(x, v0)] s1)).
    { intros v0 u s1 E E'. rewrite (braced_eval _ _ B).
      assert (LK : lookup x (fst (enter [(x, v0)] s1)) = Some v0) by (cbn; rewrite Nat.eqb_refl; reflexivity). unfold other in *. destruct (is_local x l) eqn:Ll.
      - destruct l as [y adj| | | | | | | | | | | | | | | | | | | |]; try discriminate. cbn in Ll. apply Nat.eqb_eq in Ll. subst y.
        rewrite (U adj (or_introl eq_refl)). cbn [eval]. rewrite LK. cbn [andthen]. rewrite E'. reflexivity.
      - rewrite xorb_false_l in C3. rewrite C3 in Q. specialize (Q eq_refl). destruct rt as [y adj| | | | | | | | | | | | | | | | | | | |]; try discriminate. cbn in C3. apply Nat.eqb_eq in C3. subst y.
        rewrite (U adj (or_intror eq_refl)). cbn [eval]. rewrite E'. cbn [andthen]. rewrite LK. cbn [andthen].
        rewrite Q. reflexivity. }
    unfold ok in *. rewrite meth_ef in * by exact I. rewrite eval_eq in *. recv r s. rewrite eval_data in *. cbn [evals] in *. change (ev (EBool neg) s1) with (OVal (VBool neg), s1) in *. cbn [andthen] in *.
    assert (NS : fst (ev other s1) <> OStuck) by (intros Z; apply N'; destruct (ev other s1); cbn in Z; subst; reflexivity).
    destruct (view_of t v) as [vw|] eqn:V.
    - destruct vw as [x0|us].
      + pose proof (view_good t v x0 T V). subst v. destruct (OT x0 s1 NS) as (u & E & E'). rewrite E. cbn [andthen]. rewrite value_eq_good by auto.
        unfold method. rewrite V. cbn [apply]. change (bind_all [PBind false x None] [x0]) with (Some [(x, x0)]). cbv beta iota. rewrite (CMP x0 u s1 E E').
        rewrite leave_enter. reflexivity.
      + destruct (OT unit_v s1 NS) as (u & E & _). rewrite E. cbn [andthen]. unfold method. rewrite V.
        assert (F : value_eq w v (VData (KCtor (good_ctor t)) [u]) = false).
        { pose proof (view_cases _ _ _ V) as VC. destruct t; [| |tauto].
          - destruct VC as [(z & _ & Z)|(-> & _)]; [discriminate|reflexivity].
          - destruct VC as [(z & _ & Z)|(z & -> & _)]; [discriminate|reflexivity]. }
        rewrite F. destruct neg; reflexivity.
    - destruct (N eq_refl).
  Qed.

  (** The condition the comparison needs. *)
  Definition plain_comparison (f : arg) : Prop := forall ps b neg l rt, f = AC ps b -> peel_blocks b = EEq neg l rt ->
    exists x, ps = [PBind false x None] /\ braced b (EEq neg l rt) /\
              (forall adj, l = EVar x adj \/ rt = EVar x adj -> adj = false) /\ (is_local x rt = true -> symmetric_eq w).

  Theorem unnecessary_map_or_sound : forall e e', unnecessary_map_or e = Some e' ->
    (forall t m r d f, e = EMeth t m r [d; f] -> plain_comparison f) ->
    forall s, ok w (ev e s) -> ok w (ev e' s) -> ev e' s = ev e s.
  Proof.
    intros e e' H P s N N'. unfold unnecessary_map_or in H.
    destruct e as [| | | | | | | | | | | | | | | | | | |t [] r [|d [|f [|]]]|]; try discriminate; try (destruct d; discriminate).
    - destruct d as [d| |]; try discriminate. unfold given in H. destruct (callable f) eqn:CF; [|discriminate]. apply callable_spec in CF.
      destruct (const_bool d) as [db|] eqn:D.
      + destruct (variant_query t r (Some db) f) eqn:VQ; [inversion H; subst; eapply variant_query_or; eauto|].
        assert (HD : exists b, d = EBool b) by (destruct d, t; try discriminate; eauto). destruct HD as (b & ->).
        assert (T : t <> TBool) by (destruct t; discriminate).
        destruct (map_or_comparison t r b f) as [c|] eqn:MC.
        * assert (e' = c) by (destruct t; [| |tauto]; inversion H; auto). subst c.
          unfold map_or_comparison in MC. destruct f as [|[|[|by_ref x sub| | | | | |] [|]] fb|]; try discriminate.
          destruct (peel_blocks fb) as [| | | | | | | |neg l rt| | | | | | | | | | | |] eqn:PB; try discriminate.
          destruct (P _ _ _ _ _ eq_refl _ _ _ _ _ eq_refl PB) as (x' & X & B & U & Q). inversion X; subst.
          eapply comparison_sound; eauto. unfold map_or_comparison. rewrite PB. exact MC.
        * unfold ok in *. destruct b.
          -- destruct t; try discriminate. cbn [negb] in H. inversion H; subst e'. rewrite meth_ef, meth_f in * by auto. recv r s.
             destruct (view_of TOption v) as [vw|] eqn:V; [|reflexivity]. cbn [eval andthen] in *.
             destruct (view_cases _ _ _ V) as [(x & -> & ->)|(-> & ->)]; cbn in *; [|reflexivity].
             callf f [x] s1. destruct y; try stuck. reflexivity.
          -- assert (e' = EMeth t MIsGoodAnd r [f]) by (destruct t; [| |tauto]; inversion H; auto). subst e'. rewrite meth_ef, meth_f in * by auto. recv r s.
             views t v; cbn in *; try tauto; try reflexivity; callf f [x] s1; destruct y; try stuck; reflexivity.
      + replace (variant_query t r None f) with (@None expr) in H by (destruct t; reflexivity). destruct d, t; discriminate.
    - destruct (closure_const_bool d) as [db|] eqn:D; [eapply variant_query_or_else; eauto|].
      destruct t; discriminate.
  Qed.

  (** ** manual_is_variant_and *)
  Definition no_return (f : arg) : Prop := match f with AC _ b => contains_return b = false | _ => True end.
  Definition negate (v : val) (s : st) : out * st := match v with VBool b => (OVal (VBool (negb b)), s) | _ => (OStuck, s) end.
  (** The inverted function gives the opposite. *)
  Lemma inverted_ap : forall z f g x s, inverted z f = Some g -> no_return f -> ap g [x] s = andthen w (ap f [x] s) negate.
  Proof.
    intros z f g x s H N. destruct f as [|ps b|p]; inversion H; subst.
    - cbn [apply]. destruct (bind_all ps [x]) as [bs|]; [|reflexivity]. cbn [eval]. cbn in N.
      pose proof (no_return_quiet w fuel b N (enter bs s)) as Q. destruct (ev b (enter bs s)) as [o s']. unfold nr in Q. cbn in Q.
      destruct o; try reflexivity; [|exfalso; eapply Q; reflexivity]. destruct v; reflexivity.
    - cbn [apply]. change (bind_all [PBind false z None] [x]) with (Some [(z, x)]). cbv beta iota. cbn [eval].
      assert (L : lookup z (fst (enter [(z, x)] s)) = Some x) by (cbn; rewrite Nat.eqb_refl; reflexivity). rewrite L. cbn [andthen].
      destruct p as [c|f|]; cbn [call_path]; try reflexivity.
      + cbn [andthen negate]. rewrite leave_enter. reflexivity.
      + unfold calls. unfold enter; cbn [fst snd]. destruct (call w f [x] (snd s)) as [[v|] y]; cbn [andthen].
        * destruct v; cbn [negate]; f_equal; exact (leave_enter w [(z, x)] ((fst s, y) : st)).
        * f_equal. exact (leave_enter w [(z, x)] ((fst s, y) : st)).
      + cbn [andthen]. destruct x; cbn [negate]; rewrite leave_enter; reflexivity.
  Qed.
  Lemma map_func_callable : forall z f b g, map_func z f b = Some g -> match f with AE _ => False | _ => True end /\ match g with AE _ => False | _ => True end.
  Proof. intros z [] [] g H; inversion H; subst; split; exact I. Qed.
  Lemma map_func_ap : forall z f b g x s, map_func z f b = Some g -> (b = true -> no_return f) ->
    ap g [x] s = if b then andthen w (ap f [x] s) negate else ap f [x] s.
  Proof.
    intros z f b g x s H N. unfold map_func in H. destruct b.
    - assert (inverted z f = Some g) by (destruct f; [discriminate|exact H|exact H]). eapply inverted_ap; eauto.
    - destruct f; inversion H; reflexivity.
  Qed.

  (** `x.map(f) == Some(true)` and the like. *)
  Lemma variant_compare_sound : forall z neg c m e', variant_and_compare z neg c m = Some e' ->
    bool_eq w -> (forall d k t r f, c = EData (KCtor d) [EBool k] -> m = EMeth t MMap r [f] -> d = good_ctor t) ->
    (forall t r f, m = EMeth t MMap r [f] -> no_return f) ->
    forall s, ok w (ev e' s) -> (ok w (ev (EEq neg m c) s) -> ev e' s = ev (EEq neg m c) s) /\ ev (EEq neg c m) s = ev (EEq neg m c) s.
  Proof.
    intros z neg c m e' H B D NR s N'. unfold variant_and_compare in H.
    destruct c as [| | |[| |d] [|[| |k| | | | | | | | | | | | | | | | | |] [|]]| | | | | | | | | | | | | | | | |]; try discriminate.
    destruct m as [| | | | | | | | | | | | | | | | | | |t [] r [|f [|]]|]; try discriminate.
    rewrite (D _ _ _ _ _ eq_refl eq_refl) in *. specialize (NR _ _ _ eq_refl).
    assert (T : t <> TBool) by (destruct t; [discriminate|discriminate|destruct neg; discriminate]).
    assert (ZE : forall a b, value_eq w (VBool a) (VBool b) = Bool.eqb a b) by (intros; cbn; apply B).
    assert (C : forall s, ev (EData (KCtor (good_ctor t)) [EBool k]) s = (OVal (VData (KCtor (good_ctor t)) [VBool k]), s)) by reflexivity.
    assert (G : exists g, map_func z f (match t, neg with TOption, true => k | _, _ => negb k end) = Some g /\
              e' = match t, neg with TOption, true => EMeth t MIsNoneOr r [g] | TResult, true => ENot (EMeth t MIsGoodAnd r [g]) | _, _ => EMeth t MIsGoodAnd r [g] end).
    { destruct t; [| |tauto]; destruct neg; (destruct (map_func z f _) as [g|]; inversion H; eauto). }
    destruct G as (g & MF & ->). destruct (map_func_callable _ _ _ _ MF) as [CF CG].
    pose proof (fun x s => map_func_ap z f _ g x s MF (fun _ => NR)) as GA. clear H.
    unfold ok in *. rewrite !eval_eq, !C. cbn [andthen]. rewrite meth_f by auto. split.
    - intros N.
      destruct t; [| |tauto]; destruct neg; rewrite ?eval_not in *; rewrite ?meth_f in * by auto.
      + recv r s. destruct (view_of TOption v) as [vw|] eqn:V; [|reflexivity]. destruct (view_cases _ _ _ V) as [(x & -> & ->)|(-> & ->)]; cbn in *.
        * rewrite GA in *. destruct (ap f [x] s1) as [o s2]. destruct o as [y| | | | |]; try (destruct k; reflexivity). cbn in *. destruct k, y as [|[]| | |]; cbn in *; try stuck; rewrite ?B; reflexivity.
        * reflexivity.
      + recv r s. destruct (view_of TOption v) as [vw|] eqn:V; [|reflexivity]. destruct (view_cases _ _ _ V) as [(x & -> & ->)|(-> & ->)]; cbn in *.
        * rewrite GA in *. destruct (ap f [x] s1) as [o s2]. destruct o as [y| | | | |]; try (destruct k; reflexivity). cbn in *. destruct k, y as [|[]| | |]; cbn in *; try stuck; rewrite ?B; reflexivity.
        * reflexivity.
      + recv r s. destruct (view_of TResult v) as [vw|] eqn:V; [|reflexivity]. destruct (view_cases _ _ _ V) as [(x & -> & ->)|(u & -> & ->)]; cbn in *.
        * rewrite GA in *. destruct (ap f [x] s1) as [o s2]. destruct o as [y| | | | |]; try (destruct k; reflexivity). cbn in *. destruct k, y as [|[]| | |]; cbn in *; try stuck; rewrite ?B; reflexivity.
        * reflexivity.
      + recv r s. destruct (view_of TResult v) as [vw|] eqn:V; [|reflexivity]. destruct (view_cases _ _ _ V) as [(x & -> & ->)|(u & -> & ->)]; cbn in *.
        * rewrite GA in *. destruct (ap f [x] s1) as [o s2]. destruct o as [y| | | | |]; try (destruct k; reflexivity). cbn in *. destruct k, y as [|[]| | |]; cbn in *; try stuck; rewrite ?B; reflexivity.
        * reflexivity.
    - destruct (ev r s) as [o s1] eqn:ER. destruct o as [v| | | | |]; try reflexivity. cbn [andthen].
      destruct (view_of t v) as [vw|] eqn:V; [|reflexivity]. pose proof (view_cases _ _ _ V) as VC. destruct t; [| |tauto].
      + destruct VC as [(x & -> & ->)|(-> & ->)]; [|reflexivity]. cbn. destruct (ap f [x] s1) as [o s2] eqn:EF. destruct o as [y| | | | |]; try reflexivity. cbn.
        assert (YB : exists q, y = VBool q).
        { destruct y as [|q| | |]; eauto; exfalso; apply N'; destruct neg; rewrite ?eval_not, meth_f by auto; rewrite ER; cbn; rewrite GA, EF; destruct k; reflexivity. }
        destruct YB as (q & ->). repeat rewrite ?B, ?ZE. destruct q, k; cbn; rewrite ?B; reflexivity.
      + destruct VC as [(x & -> & ->)|(u & -> & ->)]; [|reflexivity]. cbn. destruct (ap f [x] s1) as [o s2] eqn:EF. destruct o as [y| | | | |]; try reflexivity. cbn.
        assert (YB : exists q, y = VBool q).
        { destruct y as [|q| | |]; eauto; exfalso; apply N'; destruct neg; rewrite ?eval_not, meth_f by auto; rewrite ER; cbn; rewrite GA, EF; destruct k; reflexivity. }
        destruct YB as (q & ->). repeat rewrite ?B, ?ZE. destruct q, k; cbn; rewrite ?B; reflexivity.
  Qed.

  Section Same.
    Variable same : expr -> expr -> bool.
    Hypothesis same_eq : forall a b, same a b = true -> a = b.
    (** What the theorem asks of the parts: the constructor compared with is that of the receiver; functions written with `!`
        before them have no `return`; a receiver evaluated twice always gives the same. *)
    Definition variant_fits (s : st) (e : expr) : Prop :=
      match e with
      | EEq _ a b =>
          bool_eq w /\
          (forall d k t r f, (a = EData (KCtor d) [EBool k] /\ b = EMeth t MMap r [f]) \/ (b = EData (KCtor d) [EBool k] /\ a = EMeth t MMap r [f]) ->
             d = good_ctor t /\ no_return f)
      | EOr a b => forall t m r args, (a = EMeth t m r args \/ b = EMeth t m r args) -> steady w fuel s r
      | EMeth _ MIsBad (EMeth _ MFilter _ [f]) [] => no_return f
      | _ => True
      end.
    Theorem manual_is_variant_and_sound : forall z e e', manual_is_variant_and same z e = Some e' ->
      forall s, variant_fits s e -> ok w (ev e s) -> ok w (ev e' s) -> ev e' s = ev e s.
    Proof.
      intros z e e' H s F N N'. destruct e as [| | | | | | | |neg a b|a b| | | | | | | | | |t m r args|]; try discriminate.
      - cbn [manual_is_variant_and variant_fits] in *. destruct F as [B F]. destruct (variant_and_compare z neg a b) as [c|] eqn:C1.
        + inversion H; subst c. destruct (variant_compare_sound z neg a b e' C1 B) with (s := s) as [E1 E2]; auto.
          * intros d k t r f Ea Eb. eapply F. eauto.
          * intros t r f Eb. destruct a as [| | |[| |d] [|[| |k| | | | | | | | | | | | | | | | | |] [|]]| | | | | | | | | | | | | | | | |]; try discriminate. eapply F. eauto.
          * rewrite E2 in *. auto.
        + destruct (variant_compare_sound z neg b a e' H B) with (s := s) as [E1 E2]; auto.
          * intros d k t r f Ea Eb. eapply F. eauto.
          * intros t r f Eb. destruct b as [| | |[| |d] [|[| |k| | | | | | | | | | | | | | | | | |] [|]]| | | | | | | | | | | | | | | | |]; try discriminate. eapply F. eauto.
      - cbn [manual_is_variant_and variant_fits] in *. unfold is_none_or_is_some_and in H.
        destruct a as [| | | | | | | | | | | | | | | | | | |[] ma ra la|]; try discriminate.
        destruct b as [| | | | | | | | | | | | | | | | | | |tb mb rb lb|]; try (destruct ma, la as [|[] []]; discriminate).
        destruct (F _ _ _ _ (or_introl eq_refl)) as (va & Sa). destruct (F _ _ _ _ (or_intror eq_refl)) as (vb & Sb).
        destruct ma; try discriminate; destruct la as [|f [|]]; try discriminate;
          destruct tb; try discriminate; destruct mb; try discriminate; destruct lb as [|f' [|]]; try discriminate.
        + assert (CF : match f' with AE _ => False | _ => True end) by (destruct f'; [discriminate|exact I|exact I]).
          assert (SE : same ra rb = true /\ e' = EMeth TOption MIsNoneOr rb [f']).
          { destruct f'; try tauto; destruct (same ra rb); inversion H; auto. }
          destruct SE as [SE ->]. apply same_eq in SE. subst ra. unfold ok in *. rewrite eval_or in *.
          rewrite meth_0 in *. rewrite (meth_f w fuel TOption MIsNoneOr) in * by auto. rewrite (Sb s eq_refl) in *. cbn [andthen] in *.
          destruct (view_of TOption vb) as [vw|] eqn:V; [|reflexivity]. destruct (view_cases _ _ _ V) as [(x & -> & ->)|(-> & ->)]; [|reflexivity].
          change (method w TOption MIsBad (some_v x) [] [] s) with (OVal (VBool false), s). cbn [andthen].
          rewrite meth_f by auto. rewrite (Sb s eq_refl). reflexivity.
        + assert (CF : match f with AE _ => False | _ => True end) by (destruct f; [discriminate|exact I|exact I]).
          assert (SE : same rb ra = true /\ e' = EMeth TOption MIsNoneOr ra [f]).
          { destruct f; try tauto; destruct (same rb ra); inversion H; auto. }
          destruct SE as [SE ->]. apply same_eq in SE. subst rb. unfold ok in *. rewrite eval_or in *.
          rewrite !meth_f in * by auto. rewrite (Sa s eq_refl) in *. cbn [andthen] in *.
          destruct (view_of TOption va) as [vw|] eqn:V; [|reflexivity]. destruct (view_cases _ _ _ V) as [(x & -> & ->)|(-> & ->)].
          * change (method w TOption MIsNoneOr (some_v x) [] [ap f] s) with
              (andthen w (ap f [x] s) (fun y s => match y with VBool b => (OVal (VBool b), s) | _ => (OStuck, s) end)).
            change (method w TOption MIsGoodAnd (some_v x) [] [ap f] s) with
              (andthen w (ap f [x] s) (fun y s => match y with VBool b => (OVal (VBool b), s) | _ => (OStuck, s) end)).
            pose proof (apply_vars w fuel f [x] s) as VF. destruct (ap f [x] s) as [o s2]. destruct o as [y| | | | |]; try reflexivity. cbn [andthen].
            destruct y as [|[]| | |]; try reflexivity. cbn [andthen]. rewrite meth_0, (Sa s2) by exact VF. reflexivity.
          * change (method w TOption MIsGoodAnd none_v [] [ap f] s) with (OVal (VBool false), s). cbn [andthen].
            rewrite meth_0, (Sa s eq_refl). reflexivity.
      - cbn [manual_is_variant_and] in H. destruct m as [| | | | | | | | | | | |[]| | | | | | | | | | | | | | |]; try (destruct t; discriminate).
        + (* unwrap_or_default *)
          destruct r as [| | | | | | | | | | | | | | | | | | |t1 [] r [|f [|]]|]; try discriminate; try (destruct t; discriminate).
          destruct args; [|destruct t; discriminate].
          assert (H' : given (callable f) match t1 with TBool => None | _ => Some (EMeth t1 MIsGoodAnd r [f]) end = Some e') by (destruct t; exact H).
          clear H. unfold given in H'. destruct (callable f) eqn:CF; [|discriminate]. apply callable_spec in CF.
          assert (T1 : t1 <> TBool) by (destruct t1; discriminate). assert (e' = EMeth t1 MIsGoodAnd r [f]) as -> by (destruct t1; inversion H'; auto).
          unfold ok in *. rewrite meth_0 in *. rewrite !meth_f in * by auto. recv r s. views t1 v; cbn in *; try tauto.
          * callf f [x] s1. destruct t; try stuck. destruct y; try stuck. reflexivity.
          * destruct t; try stuck. reflexivity.
          * callf f [x] s1. destruct t; try stuck. destruct y; try stuck. reflexivity.
          * destruct t; try stuck. reflexivity.
        + (* filter, is_some *)
          destruct t; try discriminate. destruct r as [| | | | | | | | | | | | | | | | | | |[] [] r [|f [|]]|]; try discriminate. destruct args; [|discriminate].
          destruct (map_func z f false) as [g|] eqn:G; inversion H; subst e'. destruct (map_func_callable _ _ _ _ G) as [CF CG].
          pose proof (fun x s => map_func_ap z f _ g x s G (fun Z => False_ind _ (Bool.diff_false_true Z))) as GA. cbn in GA.
          unfold ok in *. rewrite meth_0 in *. rewrite !meth_f in * by auto. rewrite meth_0 in *. recv r s.
          destruct (view_of TOption v) as [vw|] eqn:V; [|reflexivity]. destruct (view_cases _ _ _ V) as [(x & -> & ->)|(-> & ->)]; cbn in *; [|reflexivity].
          rewrite GA in *. callf f [VRef x] s1. destruct y as [|[]| | |]; try stuck; reflexivity.
        + (* filter, is_none *)
          destruct t; try discriminate. destruct r as [| | | | | | | | | | | | | | | | | | |[] [] r [|f [|]]|]; try discriminate. destruct args; [|discriminate].
          destruct (map_func z f true) as [g|] eqn:G; inversion H; subst e'. destruct (map_func_callable _ _ _ _ G) as [CF CG].
          cbn in F. pose proof (fun x s => map_func_ap z f _ g x s G (fun _ => F)) as GA. cbn in GA.
          unfold ok in *. rewrite meth_0 in *. rewrite !meth_f in * by auto. rewrite meth_0 in *. recv r s.
          destruct (view_of TOption v) as [vw|] eqn:V; [|reflexivity]. destruct (view_cases _ _ _ V) as [(x & -> & ->)|(-> & ->)]; cbn in *; [|reflexivity].
          rewrite GA in *. callf f [VRef x] s1. destruct y as [|[]| | |]; try stuck; reflexivity.
        + (* ok, is_some_and *)
          destruct t; try discriminate. destruct r as [| | | | | | | | | | | | | | | | | | |[] [] r [|]|]; try discriminate. destruct args as [|f [|]]; try discriminate.
          unfold given in H. destruct (callable f) eqn:CF; [|discriminate]. apply callable_spec in CF. inversion H; subst e'.
          unfold ok in *. rewrite !meth_f in * by auto. rewrite meth_0 in *. recv r s. destruct (view_of TResult v) as [vw|] eqn:V; [|reflexivity].
          destruct (view_cases _ _ _ V) as [(x & -> & ->)|(u & -> & ->)]; reflexivity.
    Qed.
  End Same.
End Variant.
