(** The combinators of Option, Result and bool: proofs. *)
From Verif Require Export CloFilter.

(** ** Spec: expressions without effects. *)
Section Pure.
  Variable w : world.
  Variable fuel : nat.
  (** The same variables are in scope. *)
  Definition same_vars (s s1 : state w) : Prop := map fst (fst s1) = map fst (fst s).
  (** Evaluating the expression gives a value and changes nothing, and goes on doing so. *)
  Definition pure_in (s : state w) (a : expr) : Prop :=
    forall s1, same_vars s s1 -> exists v, eval w fuel a s1 = (OVal v, s1).
  (** It always gives the same value. *)
  Definition steady (s : state w) (a : expr) : Prop :=
    exists v, forall s1, same_vars s s1 -> eval w fuel a s1 = (OVal v, s1).
  Definition ok (r : out * state w) : Prop := fst r <> OStuck.
End Pure.
(** `==` of truth values is equality. *)
Definition bool_eq (w : world) : Prop := forall a b, eq_other w (VBool a) (VBool b) = Bool.eqb a b.

Section Comb.
  Variable w : world.
  Variable fuel : nat.
  Notation st := (state w).
  Notation ev := (eval w fuel).
  Notation ap := (apply w fuel).

  Lemma K_keys : forall may r r', K may r r' -> map fst r' = map fst r.
  Proof. induction 1 as [|a b l l' [A _] H IH]; cbn; auto. congruence. Qed.
  Lemma eval_vars : forall e s, same_vars w s (snd (ev e s)).
  Proof. intros. eapply (K_keys (fun _ => true)). apply eval_keeps. intros x H; discriminate. Qed.
  Lemma apply_vars : forall a vs s, same_vars w s (snd (ap a vs s)).
  Proof.
    intros. eapply (K_keys (fun _ => true)). apply apply_K. assert (G : forall e, good w fuel (fun _ => true) e) by (intros e; apply eval_keeps; intros x H; discriminate).
    destruct a; cbn; auto.
  Qed.
  Lemma vars_trans : forall a b c, same_vars w a b -> same_vars w b c -> same_vars w a c.
  Proof. unfold same_vars; congruence. Qed.

  (** One closure, no other argument. *)
  Lemma meth_f : forall t m r f s, (match f with AE _ => False | _ => True end) -> ev (EMeth t m r [f]) s =
    andthen w (ev r s) (fun v s => match view_of t v with None => (OStuck, s) | Some _ => method w t m v [] [ap f] s end).
  Proof. intros t m r [] s H; [tauto| |]; reflexivity. Qed.
  Lemma meth_0 : forall t m r s, ev (EMeth t m r []) s =
    andthen w (ev r s) (fun v s => match view_of t v with None => (OStuck, s) | Some _ => method w t m v [] [] s end).
  Proof. reflexivity. Qed.
  Lemma meth_e : forall t m r d s, ev (EMeth t m r [AE d]) s =
    andthen w (ev r s) (fun v s => match view_of t v with None => (OStuck, s) | Some _ =>
      andthen w (ev d s) (fun u s => method w t m v [u] [] s) end).
  Proof. reflexivity. Qed.
  Lemma meth_ef : forall t m r d f s, (match f with AE _ => False | _ => True end) -> ev (EMeth t m r [AE d; f]) s =
    andthen w (ev r s) (fun v s => match view_of t v with None => (OStuck, s) | Some _ =>
      andthen w (ev d s) (fun u s => method w t m v [u] [ap f] s) end).
  Proof. intros t m r d [] s H; [tauto| |]; reflexivity. Qed.
  Lemma meth_ff : forall t m r g f s, (match f with AE _ => False | _ => True end) -> (match g with AE _ => False | _ => True end) -> ev (EMeth t m r [g; f]) s =
    andthen w (ev r s) (fun v s => match view_of t v with None => (OStuck, s) | Some _ => method w t m v [] [ap g; ap f] s end).
  Proof. intros t m r [] [] s H H'; try tauto; reflexivity. Qed.

  Theorem map_identity_sound : forall t m r a, map_identity (EMeth t m r [a]) = Some r -> plain_closure a ->
    forall s, ok w (ev (EMeth t m r [a]) s) -> ev (EMeth t m r [a]) s = ev r s.
  Proof.
    intros t m r a H P s N. cbn in H.
    assert (I : identity_function a = true /\ t <> TBool /\ (m = MMap \/ m = MMapErr))
      by (destruct t, m; try discriminate; destruct (identity_function a); try discriminate; repeat split; auto; discriminate).
    destruct I as (I & T & M). unfold ok in N. rewrite meth_f in * by (destruct a as [|[|? [|]]|]; try discriminate; auto).
    destruct (ev r s) as [o s1]. destruct o; try reflexivity. cbn [andthen] in *.
    destruct (view_of t v) as [vw|] eqn:V; [|destruct (N eq_refl)]. unfold method in *. rewrite V in *.
    destruct M; subst; destruct vw as [x|us]; try reflexivity.
    - rewrite (identity_apply w fuel a x s1 I P); [cbn; rewrite (view_good t v x T V); reflexivity|].
      intros E. apply N. destruct (ap a [x] s1); cbn in *; subst; reflexivity.
    - destruct us as [|u [|]].
      + exfalso. apply N. destruct a as [|[|p [|]] b|[]]; try discriminate; reflexivity.
      + rewrite (identity_apply w fuel a u s1 I P).
        * cbn. destruct t; [|destruct (view_bad _ _ V) as (q & Q & ->); inversion Q; reflexivity|tauto].
          destruct v as [| |[| |c] [|y [|]]| |]; cbn in V; try discriminate; [destruct c; discriminate|]. destruct (Nat.eqb c c_some); discriminate.
        * intros E. apply N. destruct (ap a [u] s1); cbn in *; subst; reflexivity.
      + destruct t; [| |tauto]; destruct v as [| |[| |c] [|y [|]]| |]; cbn in V; try discriminate.
        * destruct c; discriminate.
        * destruct (Nat.eqb c c_some); discriminate.
        * destruct (Nat.eqb c c_ok); [discriminate|]. destruct (Nat.eqb c c_err); discriminate.
  Qed.
  Theorem map_or_identity_sound : forall e e', map_or_identity e = Some e' ->
    (forall t m r d a, e = EMeth t m r [d; a] -> plain_closure a) ->
    forall s, ok w (ev e s) -> ev e' s = ev e s.
  Proof.
    intros e e' H P s N. unfold map_or_identity in H.
    destruct e as [| | | | | | | | | | | | | | | | | | |t [] r [|[d| |] [|a [|]]]|]; try discriminate.
    destruct (identity_function a) eqn:I; [|discriminate]. inversion H; subst. specialize (P _ _ _ _ _ eq_refl).
    unfold ok in N. rewrite meth_ef in * by (destruct a as [|[|? [|]]|]; try discriminate; auto). rewrite meth_e.
    destruct (ev r s) as [o s1]. destruct o; try reflexivity. cbn [andthen] in *.
    destruct (view_of t v) as [vw|] eqn:V; [|reflexivity]. destruct (ev d s1) as [o s2]. destruct o; try reflexivity. cbn [andthen] in *.
    unfold method in *. rewrite V in *. destruct vw as [x|us]; [|reflexivity].
    rewrite (identity_apply w fuel a x s2 I P); auto.
  Qed.
  Theorem unnecessary_map_or_else_sound : forall e e', unnecessary_map_or_else e = Some e' ->
    (forall t m r d a, e = EMeth t m r [d; a] -> plain_closure a) ->
    forall s, ok w (ev e s) -> ev e' s = ev e s.
  Proof.
    intros e e' H P s N. unfold unnecessary_map_or_else in H.
    destruct e as [| | | | | | | | | | | | | | | | | | |t [] r [|g [|a [|]]]|]; try discriminate.
    destruct (identity_function a) eqn:I; [|discriminate]. destruct (callable g) eqn:CG; [|discriminate]. inversion H; subst. specialize (P _ _ _ _ _ eq_refl).
    assert (A : match a with AE _ => False | _ => True end) by (destruct a as [|[|? [|]]|]; try discriminate; auto).
    unfold ok in N. destruct g as [d|gps gb|gp]; [discriminate| |].
    - rewrite meth_ff in * by auto. rewrite meth_f by auto. destruct (ev r s) as [o s1]. destruct o; try reflexivity. cbn [andthen] in *.
      destruct (view_of t v) as [vw|] eqn:V; [|reflexivity]. unfold method in *. rewrite V in *. destruct vw as [x|us]; [|reflexivity].
      rewrite (identity_apply w fuel a x s1 I P); auto.
    - rewrite meth_ff in * by auto. rewrite meth_f by auto. destruct (ev r s) as [o s1]. destruct o; try reflexivity. cbn [andthen] in *.
      destruct (view_of t v) as [vw|] eqn:V; [|reflexivity]. unfold method in *. rewrite V in *. destruct vw as [x|us]; [|reflexivity].
      rewrite (identity_apply w fuel a x s1 I P); auto.
  Qed.

  (** ** map_unwrap_or *)
  Lemma none_view : forall v us, view_of TOption v = Some (Bad us) -> v = none_v /\ us = [].
  Proof.
    intros v us H. destruct v as [| |[| |c] [|y [|]]| |]; cbn in H; try discriminate.
    - destruct c; inversion H; auto.
    - destruct (Nat.eqb c c_some); discriminate.
  Qed.
  Lemma view_wrap : forall t y, t <> TBool -> view_of t (VData (KCtor (good_ctor t)) [y]) = Some (Good y).
  Proof. intros [] y H; [reflexivity|reflexivity|tauto]. Qed.
  Lemma view_ctor : forall t t1 y, t <> TBool -> view_of t1 (VData (KCtor (good_ctor t)) [y]) <> None -> t1 = t.
  Proof. intros [] [] y H N; try tauto; exfalso; apply N; reflexivity. Qed.
  Lemma view_same : forall t t1 v us, t <> TBool -> view_of t v = Some (Bad us) -> view_of t1 v <> None -> t1 = t.
  Proof.
    intros t t1 v us T V N. destruct t; [| |tauto].
    - apply none_view in V. destruct V as [-> _]. destruct t1; auto; exfalso; apply N; reflexivity.
    - apply view_bad in V. destruct V as (u & _ & ->). destruct t1; auto; exfalso; apply N; reflexivity.
  Qed.
  Lemma is_none_expr_spec : forall a, is_none_expr a = true -> a = EData (KCtor c_none) [].
  Proof. intros a H. destruct a as [| | |[| |c] []| | | | | | | | | | | | | | | | |]; try discriminate. cbn in H. apply Nat.eqb_eq in H. subst; auto. Qed.


  Lemma callable_spec : forall f, callable f = true -> match f with AE _ => False | _ => True end.
  Proof. intros [] H; [discriminate|exact I|exact I]. Qed.

  Ltac recv r s := let o := fresh "o" in let v := fresh "v" in let s1 := fresh "s1" in
    destruct (ev r s) as [o s1] eqn:?; destruct o as [v| | | | |]; try reflexivity; cbn [andthen] in *.

  Lemma view_cases : forall t v vw, view_of t v = Some vw ->
    match t with
    | TOption => (exists x, v = some_v x /\ vw = Good x) \/ (v = none_v /\ vw = Bad [])
    | TResult => (exists x, v = ok_v x /\ vw = Good x) \/ (exists u, v = err_v u /\ vw = Bad [u])
    | TBool => (v = VBool true /\ vw = Good unit_v) \/ (v = VBool false /\ vw = Bad [])
    end.
  Proof.
    intros t v vw H. destruct t, v as [|[]|[| |c] [|x [|]]| |]; cbn in H; try discriminate.
    - destruct c as [|]; inversion H; right; split; reflexivity.
    - destruct (Nat.eqb_spec c c_some); inversion H; subst; left; eexists; split; reflexivity.
    - destruct (Nat.eqb_spec c c_ok); [inversion H; subst; left; eexists; split; reflexivity|].
      destruct (Nat.eqb_spec c c_err); inversion H; subst; right; eexists; split; reflexivity.
    - inversion H; left; split; reflexivity.
    - inversion H; right; split; reflexivity.
  Qed.
  (** The value [v] of a receiver of type [t], case by case. *)
  Ltac views t v :=
    let V := fresh "V" in let vw := fresh "vw" in
    destruct (view_of t v) as [vw|] eqn:V; [|try reflexivity];
    [apply view_cases in V; destruct t; cbv beta iota in V;
     [destruct V as [(? & -> & ->)|(-> & ->)]|destruct V as [(? & -> & ->)|(? & -> & ->)]|destruct V as [(-> & ->)|(-> & ->)]]].
  Ltac stuck := solve [exfalso; match goal with H : _ <> OStuck |- _ => apply H; reflexivity end].
  Ltac callf f x s := let o := fresh "o" in let y := fresh "y" in let s2 := fresh "s2" in
    destruct (ap f x s) as [o s2]; destruct o as [y| | | | |]; try reflexivity; cbn in *.

  Theorem map_unwrap_or_sound : forall e e', map_unwrap_or e = Some e' ->
    forall s, (forall t1 m r' a, e = EMeth t1 m r' [AE a] -> pure_in w fuel s a) ->
    ok w (ev e s) -> ok w (ev e' s) -> ev e' s = ev e s.
  Proof.
    intros e e' H s P N N'. unfold map_unwrap_or in H.
    destruct e as [| | | | | | | | | | | | | | | | | | |t1 [] r' [|[a| |] [|]]|]; try discriminate;
    destruct r' as [| | | | | | | | | | | | | | | | | | |t [] r [|f [|]]|]; try discriminate.
    unfold given in H. destruct (callable f) eqn:CF; [|discriminate]. apply callable_spec in CF.
    specialize (P _ _ _ _ eq_refl). assert (T : t <> TBool) by (destruct t; discriminate).
    assert (G : e' = EMeth t MMapOr r [AE a; f] \/ (a = EBool false /\ e' = EMeth t MIsGoodAnd r [f]) \/
                (a = EData (KCtor c_none) [] /\ t = TOption /\ e' = EMeth t MAndThen r [f])).
    { destruct t; [| |tauto].
      - destruct (is_none_expr a) eqn:E; [apply is_none_expr_spec in E; subst; inversion H; auto|].
        destruct a as [| |[]| | | | | | | | | | | | | | | | | |]; inversion H; auto.
      - destruct a as [| |[]| | | | | | | | | | | | | | | | | |]; inversion H; auto. }
    clear H. unfold ok in *.
    assert (R : forall s1, same_vars w s s1 -> exists u, ev a s1 = (OVal u, s1)) by exact P. clear P.
    rewrite meth_e in *. rewrite meth_f in * by auto. pose proof (eval_vars r s) as VR.
    destruct G as [->|[[-> ->]|(-> & -> & ->)]].
    - rewrite meth_ef in * by auto. recv r s. cbn in VR. destruct (R s1 VR) as (u & EA). views t v; cbn in *; rewrite ?EA in *; cbn in *.
      + pose proof (apply_vars f [x] s1) as VF. callf f [x] s1. destruct t1; try stuck. cbn.
        destruct (R s2) as (u' & EA'); [eapply vars_trans; eauto|]. rewrite EA'. reflexivity.
      + destruct t1; try stuck. cbn. rewrite ?EA. reflexivity.
      + pose proof (apply_vars f [x] s1) as VF. callf f [x] s1. destruct t1; try stuck. cbn.
        destruct (R s2) as (u' & EA'); [eapply vars_trans; eauto|]. rewrite EA'. reflexivity.
      + destruct t1; try stuck. cbn. rewrite ?EA. reflexivity.
      + tauto.
      + tauto.
    - rewrite meth_f in * by auto. recv r s. views t v; cbn in *.
      + callf f [x] s1. destruct t1; try stuck. cbn. destruct y; try stuck. reflexivity.
      + destruct t1; try stuck. reflexivity.
      + callf f [x] s1. destruct t1; try stuck. cbn. destruct y; try stuck. reflexivity.
      + destruct t1; try stuck. reflexivity.
      + tauto.
      + tauto.
    - rewrite meth_f in * by auto. recv r s. destruct (view_of TOption v) as [vw|] eqn:V; [|reflexivity].
      destruct (view_cases _ _ _ V) as [(x & -> & ->)|(-> & ->)]; cbn in *.
      + callf f [x] s1. destruct t1; try stuck. reflexivity.
      + destruct t1; try stuck. reflexivity.
  Qed.
  Theorem map_unwrap_or_else_sound : forall e e', map_unwrap_or_else e = Some e' ->
    forall s, ok w (ev e s) -> ev e' s = ev e s.
  Proof.
    intros e e' H s N. unfold map_unwrap_or_else in H.
    destruct e as [| | | | | | | | | | | | | | | | | | |t1 [] r' [|g [|]]|]; try discriminate;
    destruct r' as [| | | | | | | | | | | | | | | | | | |t [] r [|f [|]]|]; try discriminate.
    unfold given in H. destruct (callable f) eqn:CF; [|discriminate]. destruct (callable g) eqn:CG; [|discriminate]. apply callable_spec in CF, CG.
    assert (T : t <> TBool) by (destruct t; discriminate). assert (e' = EMeth t MMapOrElse r [g; f]) as -> by (destruct t; inversion H; auto).
    unfold ok in N. rewrite meth_f in N |- * by auto. rewrite meth_f in N |- * by auto. rewrite meth_ff by auto. recv r s.
    destruct (view_of t v) as [vw|] eqn:V; [|reflexivity]. unfold method in *. rewrite V in *. destruct vw as [x|us].
    - destruct (ap f [x] s1) as [o s2]. destruct o as [y| | | | |]; try reflexivity. cbn [andthen] in *.
      destruct (view_of t1 (VData (KCtor (good_ctor t)) [y])) eqn:V1; [|destruct (N eq_refl)].
      assert (t1 = t) by (eapply view_ctor; eauto; rewrite V1; discriminate). subst t1. rewrite view_wrap in * by auto. inversion V1; subst. reflexivity.
    - cbn [andthen] in *. destruct (view_of t1 v) eqn:V1; [|destruct (N eq_refl)].
      assert (t1 = t) by (eapply view_same; eauto; rewrite V1; discriminate). subst t1. rewrite V in V1. inversion V1; subst. reflexivity.
  Qed.

  (** ** option_map_or_none, result_map_or_else_none *)
  Lemma reduce_some_eval : forall b i, reduce_some b = Some i -> clean b -> contains_return i = false ->
    forall s, RS w c_some false (ev b s) (ev i s).
  Proof.
    fix IH 1. intros b i H C R s. destruct b as [| | |k es| | | | | | | | | | |l [|] [a|]| | | | | |]; try discriminate.
    - apply wrapped_sim. unfold wrapped. cbn [reduce_some] in H. rewrite H, R. reflexivity.
    - cbn [reduce_some] in H. unfold clean in C. destruct l; [discriminate|]. cbn in C. rewrite peel_one. apply IH; auto.
  Qed.
  Theorem option_map_or_none_sound : forall e e', option_map_or_none e = Some e' ->
    (forall t m r d ps b, e = EMeth t m r [d; AC ps b] -> clean b /\ forall i, reduce_some b = Some i -> contains_return i = false) ->
    forall s, typed w TOption (ev e s) -> ev e' s = ev e s.
  Proof.
    intros e e' H P s N. unfold option_map_or_none in H.
    destruct e as [| | | | | | | | | | | | | | | | | | |t [] r [|[d| |] [|f [|]]]|]; try discriminate.
    destruct (is_none_expr d) eqn:D; [|discriminate]. apply is_none_expr_spec in D. subst d. destruct (callable f) eqn:CF; [|discriminate]. apply callable_spec in CF.
    unfold typed in N. rewrite meth_ef in * by auto. cbn [andb] in H.
    assert (A : t = TOption -> ev (EMeth TOption MAndThen r [f]) s = ev (EMeth t MMapOr r [AE (EData (KCtor c_none) []); f]) s).
    { intros ->. rewrite meth_ef, meth_f by auto. recv r s. destruct (view_of TOption v) as [vw|] eqn:V; [|reflexivity].
      cbn [eval andthen]. unfold method. rewrite V. destruct vw as [x|us]; [reflexivity|]. apply none_view in V. destruct V as [-> ->]. reflexivity. }
    rewrite meth_ef in A by auto. destruct t; [| |discriminate].
    - destruct f as [|ps b|p]; [tauto| |inversion H; auto]. destruct (reduce_some b) as [i|] eqn:RS; inversion H; subst; auto.
      destruct (P _ _ _ _ _ _ eq_refl) as [C Q]. rewrite meth_f by auto. recv r s. destruct (view_of TOption v) as [vw|] eqn:V; [|reflexivity].
      cbn [eval andthen] in *. unfold method in *. rewrite V in *. destruct vw as [x|us]; [|apply none_view in V; destruct V as [-> ->]; reflexivity].
      destruct (sim_apply w fuel c_some ps b i [x] s1 (reduce_some_eval b i RS C (Q i RS))) as [E|E].
      + exfalso. destruct (ap (AC ps b) [x] s1) as [o2 s2]. cbn in E. subst. cbn in N. apply N; reflexivity.
      + rewrite E. reflexivity.
    - destruct f as [|ps b|[c| |]]; try discriminate. destruct (Nat.eqb_spec c c_some); inversion H; subst. rewrite meth_0. recv r s.
  Qed.
  Lemma peel_none : forall b, is_none_expr (peel_blocks b) = true -> forall s, ev b s = (OVal none_v, s).
  Proof.
    fix IH 1. intros b H s. destruct b as [| | |k es| | | | | | | | | | |l [|] [a|]| | | | | |]; try discriminate.
    - cbn [peel_blocks] in H. apply is_none_expr_spec in H. inversion H. reflexivity.
    - cbn [peel_blocks] in H. rewrite eval_block. cbn [estmts eopt]. rewrite (IH a H). cbn [unlabel]. rewrite leave_self. reflexivity.
  Qed.
  Theorem result_map_or_else_none_sound : forall e e', result_map_or_else_none e = Some e' ->
    forall s, ok w (ev e s) -> ev e' s = ev e s.
  Proof.
    intros e e' H s N. unfold result_map_or_else_none in H.
    destruct e as [| | | | | | | | | | | | | | | | | | |[] [] r [|[|ps b|] [|[| |[c| |]] [|]]]|]; try discriminate.
    destruct (Nat.eqb_spec c c_some); [|discriminate]. cbn [andb] in H. destruct (is_none_expr (peel_blocks b)) eqn:B; inversion H; subst.
    unfold ok in N. rewrite meth_ff in * by exact I. rewrite meth_0. recv r s. destruct (view_of TResult v) as [vw|] eqn:V; [|reflexivity].
    unfold method in *. rewrite V in *. destruct vw as [x|us]; [reflexivity|]. cbn [apply] in *.
    destruct (bind_all ps us) as [bs|]; [|destruct (N eq_refl)]. rewrite (peel_none b B), leave_enter. reflexivity.
  Qed.
End Comb.
