(* Proofs about McoModel.v *)
From Coq Require Import List Bool PeanoNat Lia.
Import ListNotations.
From Verif Require Import McoSpec McoModel.

Ltac bools := repeat match goal with
  | H : _ && _ = true |- _ => apply andb_true_iff in H; destruct H
  | H : _ || _ = false |- _ => apply orb_false_iff in H; destruct H end.
Lemma eq_expr_eq a b : eq_expr a b = true -> a = b.
Proof. unfold eq_expr. destruct (expr_eq_dec a b); [auto|discriminate]. Qed.
Lemma eq_var x : eq_expr (EVar x) (EVar x) = true.
Proof. unfold eq_expr. destruct (expr_eq_dec (EVar x) (EVar x)); [reflexivity|contradiction]. Qed.
Section S.
Variable op : nat -> nat -> nat -> nat.
Notation run := (run op).
Lemma unassigned x e s v l t : run e s v l t -> assigns x e = false -> t x = s x.
Proof.
  induction 1; cbn [assigns]; intros A; bools; auto;
    repeat match goal with H : assigns x _ = false -> _, K : assigns x _ = false |- _ => specialize (H K) end; try congruence.
  - unfold put. rewrite Nat.eqb_sym. rewrite H0. auto.
  - unfold put. rewrite Nat.eqb_sym. rewrite H0. auto.
Qed.
Lemma never_there n e s v l t : run e s v l t -> times n e = 0 -> forall w, ~ In (n, w) l.
Proof.
  induction 1; cbn [times]; intros T z I; try contradiction; rewrite ?in_app_iff in I.
  - destruct I as [I|I]; [eapply IHrun1|eapply IHrun2]; eauto; lia.
  - destruct (Nat.eqb_spec n n0); [lia|]. destruct I as [I|[I|[E|[]]]]; [eapply IHrun1|eapply IHrun2|congruence]; eauto; lia.
  - eapply IHrun; eauto.
  - destruct (Nat.eqb_spec n n0); [lia|]. destruct I as [I|[E|[]]]; [eapply IHrun|congruence]; eauto; lia.
  - destruct I as [I|I]; [eapply IHrun1|eapply IHrun2]; eauto; lia.
  - destruct I as [I|I]; [eapply IHrun1|eapply IHrun2]; eauto; lia.
  - destruct I as [I|I]; [eapply IHrun1|eapply IHrun2]; eauto; lia.
  - destruct I as [I|I]; [eapply IHrun1|eapply IHrun2]; eauto; lia.
Qed.
(* The value of the divisor *)
Lemma pure_value d : pure d = true -> forall s v l t s' v' l' t', (forall x, reads x d = true -> s x = s' x) ->
  run d s v l t -> run d s' v' l' t' -> v = v'.
Proof.
  assert (K : forall d, pure d = true -> forall s v l t, run d s v l t -> t = s).
  { induction d0; cbn; intros P s0 v0 l0 t0 R; try discriminate; inversion R; subst; auto. bools.
    match goal with A : run d0_1 _ _ _ _, B : run d0_2 _ _ _ _ |- _ => apply IHd0_1 in A; auto; apply IHd0_2 in B; auto; congruence end. }
  induction d; cbn [pure reads]; intros P s v0 l t s' v' l' t' S R R'; try discriminate; inversion R; inversion R'; subst; auto.
  - apply S. apply Nat.eqb_refl.
  - bools.
    match goal with A : run d1 s _ _ ?a, B : run d1 s' _ _ ?b |- _ => assert (a = s) by (eapply K; [|exact A]; assumption); assert (b = s') by (eapply K; [|exact B]; assumption) end. subst.
    f_equal.
    + match goal with A : run d1 s _ _ _, B : run d1 s' _ _ _ |- _ =>
        refine (IHd1 _ _ _ _ _ _ _ _ _ _ A B); [assumption|intros x E; apply S; rewrite E; reflexivity] end.
    + match goal with A : run d2 s _ _ _, B : run d2 s' _ _ _ |- _ =>
        refine (IHd2 _ _ _ _ _ _ _ _ _ _ A B); [assumption|intros x E; apply S; rewrite E; apply orb_true_r] end.
Qed.

(* All the divisions at a place divide by d *)
Fixpoint by_d (d : expr) (n : nat) (e : expr) : Prop :=
  match e with
  | EVar _ | ELit _ => True
  | EDiv m a b => (n = m -> b = d) /\ by_d d n a /\ by_d d n b
  | EOp _ a b | ESeq a b => by_d d n a /\ by_d d n b
  | EAssign _ a => by_d d n a
  | EDivAssign m _ a => (n = m -> a = d) /\ by_d d n a
  | EIf a b c => by_d d n a /\ by_d d n b /\ by_d d n c
  | ELoop a => by_d d n a
  end.
Lemma none_by_d d n e : times n e = 0 -> by_d d n e.
Proof.
  induction e; cbn; intros T; auto.
  - split; [apply IHe1|apply IHe2]; lia.
  - destruct (Nat.eqb_spec n n0); [lia|]. split; [congruence|]. split; [apply IHe1|apply IHe2]; lia.
  - destruct (Nat.eqb_spec n n0); [lia|]. split; [congruence|]. apply IHe; lia.
  - split; [apply IHe1|apply IHe2]; lia.
  - split; [apply IHe1|split; [apply IHe2|apply IHe3]]; lia.
Qed.
Lemma visit_by_d d e : forall f f' n, visit d e f = Some f' -> In n f' -> In n f \/ times n e >= 1 /\ (times n e <= 1 -> by_d d n e).
Proof.
  induction e; intros f f' n' V I; cbn [visit] in V.
  - destruct (use _ _ _); [discriminate|]. injection V as <-. auto.
  - destruct (use _ _ _); [discriminate|]. injection V as <-. auto.
  - destruct (use _ _ _); [discriminate|]. destruct (visit d e1 f) as [f1|] eqn:V1; [|discriminate]. cbn.
    destruct (IHe2 _ _ _ V I) as [J|[J1 J2]]; [destruct (IHe1 _ _ _ V1 J) as [J'|[J1 J2]]; auto|]; right; split; try lia; intros T;
      split; try (apply J2; lia); apply none_by_d; lia.
  - destruct (eq_expr e2 d) eqn:Q.
    + injection V as <-. apply in_app_iff in I. destruct I as [I|[<-|[]]]; auto. right. cbn. rewrite Nat.eqb_refl. split; [lia|]. intros T.
      split; [intros _; apply eq_expr_eq; assumption|]. split; apply none_by_d; lia.
    + destruct (use _ _ _); [discriminate|]. destruct (visit d e1 f) as [f1|] eqn:V1; [|discriminate]. cbn.
      destruct (IHe2 _ _ _ V I) as [J|[J1 J2]]; [destruct (IHe1 _ _ _ V1 J) as [J'|[J1 J2]]; auto|]; right; split; try lia; intros T;
        (destruct (Nat.eqb_spec n' n); [lia|]); split; try congruence; split; try (apply J2; lia); apply none_by_d; lia.
  - destruct (use _ _ _); [discriminate|]. destruct (visit d e f) as [f1|] eqn:V1; [|discriminate]. destruct (use _ _ _); [discriminate|].
    injection V as <-. cbn. eauto.
  - destruct (eq_expr e d) eqn:Q.
    + injection V as <-. apply in_app_iff in I. destruct I as [I|[<-|[]]]; auto. right. cbn. rewrite Nat.eqb_refl. split; [lia|]. intros T.
      split; [intros _; apply eq_expr_eq; assumption|]. apply none_by_d; lia.
    + destruct (use _ _ _); [discriminate|]. destruct (visit d e f) as [f1|] eqn:V1; [|discriminate]. destruct (use _ _ _); [discriminate|].
      injection V as <-. cbn. destruct (IHe _ _ _ V1 I) as [J|[J1 J2]]; auto. right; split; [lia|]. intros T.
      destruct (Nat.eqb_spec n' n); [lia|]. split; [congruence|]. apply J2; lia.
  - destruct (use _ _ _); [discriminate|]. destruct (visit d e1 f) as [f1|] eqn:V1; [|discriminate]. cbn.
    destruct (IHe2 _ _ _ V I) as [J|[J1 J2]]; [destruct (IHe1 _ _ _ V1 J) as [J'|[J1 J2]]; auto|]; right; split; try lia; intros T;
      split; try (apply J2; lia); apply none_by_d; lia.
  - destruct (use _ _ _); [discriminate|]. destruct (visit d e1 f) as [f1|] eqn:V1; [|discriminate].
    destruct (visit d e2 f1) as [f2|] eqn:V2; [|discriminate]. cbn.
    destruct (IHe3 _ _ _ V I) as [J|[J1 J2]]; [destruct (IHe2 _ _ _ V2 J) as [J'|[J1 J2]]; [destruct (IHe1 _ _ _ V1 J') as [J''|[J1 J2]]; auto|]|];
      right; split; try lia; intros T; split; try split; try (apply J2; lia); apply none_by_d; lia.
  - destruct (use _ _ _); [discriminate|]. cbn. eauto.
Qed.
(* Where the variables of d are not assigned, every division by d is by the value it had *)
Lemma same_divisor d n e s v l t : run e s v l t -> pure d = true -> (forall x, reads x d = true -> assigns x e = false) -> by_d d n e ->
  forall s0 w0 l0 t0, run d s0 w0 l0 t0 -> (forall x, reads x d = true -> s x = s0 x) -> forall w, In (n, w) l -> w = w0.
Proof.
  induction 1; cbn [assigns by_d]; intros P A B s0 w0 l0 t0 D S z I; try contradiction; rewrite ?in_app_iff in I.
  - assert (A1 : forall x, reads x d = true -> assigns x a = false) by (intros x X; specialize (A x X); bools; auto).
    assert (A2 : forall x, reads x d = true -> assigns x b = false) by (intros x X; specialize (A x X); bools; auto).
    destruct B as [B1 B2]. destruct I as [I|I]; [eapply IHrun1; eauto|eapply IHrun2; eauto].
    intros x X. rewrite (unassigned x _ _ _ _ _ H); auto.
  - assert (A1 : forall x, reads x d = true -> assigns x a = false) by (intros x X; specialize (A x X); bools; auto).
    assert (A2 : forall x, reads x d = true -> assigns x b = false) by (intros x X; specialize (A x X); bools; auto).
    assert (S1 : forall x, reads x d = true -> t x = s0 x) by (intros x X; rewrite (unassigned x _ _ _ _ _ H); auto).
    destruct B as (B0 & B1 & B2). destruct I as [I|[I|[E|[]]]]; [eapply IHrun1; eauto|eapply IHrun2; eauto|].
    injection E as -> ->. specialize (B0 eq_refl). subst b. eapply (pure_value d); eauto.
  - eapply IHrun; eauto. intros y Y. specialize (A y Y). bools. auto.
  - assert (A1 : forall x, reads x d = true -> assigns x a = false) by (intros y Y; specialize (A y Y); bools; auto).
    destruct B as (B0 & B1). destruct I as [I|[E|[]]]; [eapply IHrun; eauto|].
    injection E as -> ->. specialize (B0 eq_refl). subst a. eapply (pure_value d); eauto.
  - assert (A1 : forall x, reads x d = true -> assigns x a = false) by (intros x X; specialize (A x X); bools; auto).
    assert (A2 : forall x, reads x d = true -> assigns x b = false) by (intros x X; specialize (A x X); bools; auto).
    destruct B as [B1 B2]. destruct I as [I|I]; [eapply IHrun1; eauto|eapply IHrun2; eauto].
    intros x X. rewrite (unassigned x _ _ _ _ _ H); auto.
  - assert (A1 : forall x, reads x d = true -> assigns x a = false) by (intros x X; specialize (A x X); bools; auto).
    assert (A2 : forall x, reads x d = true -> assigns x b = false) by (intros x X; specialize (A x X); bools; auto).
    destruct B as (B1 & B2 & B3). destruct I as [I|I]; [eapply IHrun1; eauto|eapply IHrun2; eauto].
    intros x X. rewrite (unassigned x _ _ _ _ _ H); auto.
  - assert (A1 : forall x, reads x d = true -> assigns x a = false) by (intros x X; specialize (A x X); bools; auto).
    assert (A2 : forall x, reads x d = true -> assigns x c = false) by (intros x X; specialize (A x X); bools; auto).
    destruct B as (B1 & B2 & B3). destruct I as [I|I]; [eapply IHrun1; eauto|eapply IHrun2; eauto].
    intros x X. rewrite (unassigned x _ _ _ _ _ H); auto.
  - destruct I as [I|I]; [eapply IHrun1; eauto|eapply IHrun2; eauto].
    intros x X. rewrite (unassigned x _ _ _ _ _ H); auto.
Qed.

(* The first division *)
Lemma visit_more d e : forall f f', visit d e f = Some f' -> exists m, f' = f ++ m.
Proof.
  induction e; intros f f' V; cbn [visit] in V.
  - destruct (use _ _ _); [discriminate|]. injection V as <-. exists []. rewrite app_nil_r. reflexivity.
  - destruct (use _ _ _); [discriminate|]. injection V as <-. exists []. rewrite app_nil_r. reflexivity.
  - destruct (use _ _ _); [discriminate|]. destruct (visit d e1 f) as [f1|] eqn:V1; [|discriminate].
    destruct (IHe1 _ _ V1) as [m1 ->]. destruct (IHe2 _ _ V) as [m2 ->]. exists (m1 ++ m2). rewrite app_assoc. reflexivity.
  - destruct (eq_expr e2 d); [injection V as <-; eexists; reflexivity|].
    destruct (use _ _ _); [discriminate|]. destruct (visit d e1 f) as [f1|] eqn:V1; [|discriminate].
    destruct (IHe1 _ _ V1) as [m1 ->]. destruct (IHe2 _ _ V) as [m2 ->]. exists (m1 ++ m2). rewrite app_assoc. reflexivity.
  - destruct (use _ _ _); [discriminate|]. destruct (visit d e f) as [f1|] eqn:V1; [|discriminate]. destruct (use _ _ _); [discriminate|].
    injection V as <-. eauto.
  - destruct (eq_expr e d); [injection V as <-; eexists; reflexivity|].
    destruct (use _ _ _); [discriminate|]. destruct (visit d e f) as [f1|] eqn:V1; [|discriminate]. destruct (use _ _ _); [discriminate|].
    injection V as <-. eauto.
  - destruct (use _ _ _); [discriminate|]. destruct (visit d e1 f) as [f1|] eqn:V1; [|discriminate].
    destruct (IHe1 _ _ V1) as [m1 ->]. destruct (IHe2 _ _ V) as [m2 ->]. exists (m1 ++ m2). rewrite app_assoc. reflexivity.
  - destruct (use _ _ _); [discriminate|]. destruct (visit d e1 f) as [f1|] eqn:V1; [|discriminate].
    destruct (visit d e2 f1) as [f2|] eqn:V2; [|discriminate].
    destruct (IHe1 _ _ V1) as [m1 ->]. destruct (IHe2 _ _ V2) as [m2 ->]. destruct (IHe3 _ _ V) as [m3 ->].
    exists (m1 ++ m2 ++ m3). rewrite !app_assoc. reflexivity.
  - destruct (use _ _ _); [discriminate|]. eauto.
Qed.
Lemma visit_nil d e f : visit d e f = Some [] -> f = [].
Proof. intros V. destruct (visit_more _ _ _ _ V) as [m E]. symmetry in E. apply app_eq_nil in E. tauto. Qed.
Lemma visit_kept x e : visit (EVar x) e [] = Some [] -> assigns x e = false.
Proof.
  induction e; intros V; cbn [visit] in V; cbn [assigns]; auto.
  - destruct (use _ _ _); [discriminate|]. destruct (visit (EVar x) e1 []) as [f1|] eqn:V1; [|discriminate].
    pose proof (visit_nil _ _ _ V). subst. rewrite IHe1, IHe2; auto.
  - destruct (eq_expr e2 (EVar x)); [discriminate|]. destruct (use _ _ _); [discriminate|].
    destruct (visit (EVar x) e1 []) as [f1|] eqn:V1; [|discriminate]. pose proof (visit_nil _ _ _ V). subst. rewrite IHe1, IHe2; auto.
  - destruct (use _ _ _); [discriminate|]. destruct (visit (EVar x) e []) as [f1|] eqn:V1; [|discriminate].
    destruct (use (EVar x) (EVar x0) f1) eqn:U; [discriminate|]. injection V as ->. rewrite IHe by reflexivity.
    destruct (Nat.eqb_spec x x0); [subst|reflexivity]. unfold use in U. rewrite eq_var in U. discriminate.
  - destruct (eq_expr e (EVar x)); [discriminate|]. destruct (use _ _ _); [discriminate|].
    destruct (visit (EVar x) e []) as [f1|] eqn:V1; [|discriminate].
    destruct (use (EVar x) (EVar x0) f1) eqn:U; [discriminate|]. injection V as ->. rewrite IHe by reflexivity.
    destruct (Nat.eqb_spec x x0); [subst|reflexivity]. unfold use in U. rewrite eq_var in U. discriminate.
  - destruct (use _ _ _); [discriminate|]. destruct (visit (EVar x) e1 []) as [f1|] eqn:V1; [|discriminate].
    pose proof (visit_nil _ _ _ V). subst. rewrite IHe1, IHe2; auto.
  - destruct (use _ _ _); [discriminate|]. destruct (visit (EVar x) e1 []) as [f1|] eqn:V1; [|discriminate].
    destruct (visit (EVar x) e2 f1) as [f2|] eqn:V2; [|discriminate].
    pose proof (visit_nil _ _ _ V). subst. pose proof (visit_nil _ _ _ V2). subst. rewrite IHe1, IHe2, IHe3; auto.
Qed.
Lemma first_there x e n l : visit (EVar x) e [] = Some (n :: l) -> times n e >= 1.
Proof. intros V. destruct (visit_by_d _ _ _ _ n V) as [[]|[A _]]; [left; reflexivity|assumption]. Qed.
Lemma first_of d e n f l : visit d e f = Some (n :: l) -> f = [] \/ exists m, f = n :: m.
Proof. intros V. destruct (visit_more _ _ _ _ V) as [m E]. destruct f; auto. injection E as <- _. right. eauto. Qed.
Lemma first_divisor x n e s v l t : run e s v l t -> once x n e = true -> times n e <= 1 ->
  forall l', visit (EVar x) e [] = Some (n :: l') -> forall w, In (n, w) l -> w = s x.
Proof.
  assert (TWO : forall a b s t u v w l l', run a s v l t -> run b t w l' u ->
    (once x n a = true -> times n a <= 1 -> forall l', visit (EVar x) a [] = Some (n :: l') -> forall w, In (n, w) l -> w = s x) ->
    (once x n b = true -> times n b <= 1 -> forall l'0, visit (EVar x) b [] = Some (n :: l'0) -> forall w, In (n, w) l' -> w = t x) ->
    once x n a = true -> once x n b = true -> times n a + times n b <= 1 ->
    forall r f1, visit (EVar x) a [] = Some f1 -> visit (EVar x) b f1 = Some (n :: r) ->
    (times n a + times n b >= 1) /\ forall z, In (n, z) l \/ In (n, z) l' -> z = s x).
  { intros a b s0 t0 u0 v0 w0 l0 l1 R1 R2 I1 I2 O1 O2 T r f1 V1 V2. destruct (first_of _ _ _ _ _ V2) as [->|[m ->]].
    - pose proof (first_there _ _ _ _ V2). split; [lia|]. intros z [I|I]; [exfalso; eapply (never_there n a); eauto; lia|].
      rewrite <- (unassigned x _ _ _ _ _ R1 (visit_kept _ _ V1)). eapply I2; eauto; lia.
    - pose proof (first_there _ _ _ _ V1). split; [lia|]. intros z [I|I]; [|exfalso; eapply (never_there n b); eauto; lia].
      eapply I1; eauto; lia. }
  induction 1; cbn [once times visit]; intros O T r V z I; bools; try contradiction; rewrite ?in_app_iff in I.
  - destruct (use _ _ _); [discriminate|]. destruct (visit (EVar x) a []) as [f1|] eqn:V1 in V; [|discriminate].
    eapply (TWO a b); eauto.
  - destruct (eq_expr b (EVar x)) eqn:Q.
    + apply eq_expr_eq in Q. subst b. injection V as <- <-. rewrite Nat.eqb_refl in *. 
      match goal with K : negb (assigns x a) = true |- _ => apply negb_true_iff in K; pose proof (unassigned x _ _ _ _ _ H K) as E end.
      destruct I as [I|[I|[J|[]]]].
      * exfalso; eapply (never_there n0 a); eauto; lia.
      * exfalso; eapply (never_there n0 (EVar x)); eauto.
      * injection J as <-. match goal with R : run (EVar x) _ _ _ _ |- _ => inversion R; subst end. assumption.
    + destruct (use _ _ _); [discriminate|]. destruct (visit (EVar x) a []) as [f1|] eqn:V1 in V; [|discriminate].
      destruct (TWO a b s t u v w l l' ltac:(assumption) ltac:(assumption) ltac:(assumption) ltac:(assumption) ltac:(assumption) ltac:(assumption)
        ltac:(lia) r f1 V1 V) as [T1 T2].
      destruct I as [I|[I|[J|[]]]]; auto. injection J as -> ->. rewrite Nat.eqb_refl in T. lia.
  - destruct (use _ _ _); [discriminate|]. destruct (visit (EVar x) a []) as [f1|] eqn:V1 in V; [|discriminate].
    destruct (use _ _ _); [discriminate|]. injection V as ->. eapply IHrun; eauto.
  - destruct (eq_expr a (EVar x)) eqn:Q.
    + apply eq_expr_eq in Q. subst a. injection V as <- <-. destruct I as [I|[J|[]]].
      * exfalso; eapply (never_there n0 (EVar x)); eauto.
      * injection J as <-. match goal with R : run (EVar x) _ _ _ _ |- _ => inversion R; subst end. reflexivity.
    + destruct (use _ _ _); [discriminate|]. destruct (visit (EVar x) a []) as [f1|] eqn:V1 in V; [|discriminate].
      destruct (use _ _ _); [discriminate|]. injection V as ->. pose proof (first_there _ _ _ _ V1).
      destruct I as [I|[J|[]]]; [eapply IHrun; eauto; lia|]. injection J as -> ->. rewrite Nat.eqb_refl in T. lia.
  - destruct (use _ _ _); [discriminate|]. destruct (visit (EVar x) a []) as [f1|] eqn:V1 in V; [|discriminate].
    eapply (TWO a b); eauto.
  - destruct (use _ _ _); [discriminate|]. destruct (visit (EVar x) a []) as [f1|] eqn:V1 in V; [|discriminate].
    destruct (visit (EVar x) b f1) as [f2|] eqn:V2 in V; [|discriminate]. destruct (first_of _ _ _ _ _ V) as [->|[m ->]].
    + pose proof (first_there _ _ _ _ V). exfalso. destruct I as [I|I]; [eapply (never_there n a)|eapply (never_there n b)]; eauto; lia.
    + eapply (TWO a b); eauto. lia.
  - destruct (use _ _ _); [discriminate|]. destruct (visit (EVar x) a []) as [f1|] eqn:V1 in V; [|discriminate].
    destruct (visit (EVar x) b f1) as [f2|] eqn:V2 in V; [|discriminate]. destruct (first_of _ _ _ _ _ V) as [->|[m ->]].
    + pose proof (visit_nil _ _ _ V2). subst f1. eapply (TWO a c); eauto. lia.
    + destruct (first_of _ _ _ _ _ V2) as [->|[m' ->]].
      * pose proof (first_there _ _ _ _ V2). exfalso. destruct I as [I|I]; [eapply (never_there n a)|eapply (never_there n c)]; eauto; lia.
      * pose proof (first_there _ _ _ _ V1). destruct I as [I|I]; [eapply IHrun1; eauto; lia|]. exfalso. eapply (never_there n c); eauto; lia.
  - apply Nat.eqb_eq in O. destruct (use _ _ _); [discriminate|]. pose proof (first_there _ _ _ _ V). lia.
Qed.
End S.
