(* Proofs about CnrModel.v. *)
From Coq Require Import List Bool PeanoNat Lia.
Import ListNotations.
From Verif Require Import CnrSpec CnrModel.

Section Sim.
Variable fn : nat -> nat -> list (nat * nat) -> nat.
Variable local unit_ : nat -> bool.
Variable leaves returns gives : nat -> nat -> nat -> nat.
Variable panics : nat -> nat -> nat -> bool.
Variable items : nat -> nat -> list nat.
Variable id : nat.
Notation eval := (eval fn unit_ leaves returns gives panics).
Notation exec := (exec fn unit_ leaves returns gives panics items).
Notation discreet := (discreet gives panics items).

Definition sim_e (statement : bool) (r r' : result) : Prop :=
  match r, r' with Val n a, Val m b => (statement = false -> n = m) /\ apart id a b | Panic t, Panic t' => t = t' | _, _ => False end.
Lemma set_same x n st st' : apart id st st' -> apart id (set x n st) (set x n st').
Proof. intros [T V]. split; [exact T|]. intros y N. cbn. destruct (Nat.eqb y x); auto. Qed.
Lemma set_id n m st st' : apart id st st' -> apart id (set id n st) (set id m st').
Proof. intros [T V]. split; [exact T|]. intros y N. cbn. destruct (Nat.eqb y id) eqn:E; [apply Nat.eqb_eq in E; contradiction|auto]. Qed.
Lemma method_value m c c' a : reads_by_method local unit_ false m = false -> value unit_ returns m c a = value unit_ returns m c' a.
Proof. unfold reads_by_method, value. cbn [orb]. destruct (unit_ m); [reflexivity|]. rewrite andb_false_r. discriminate. Qed.

Lemma eval_sim e : forall statement, reads_e local unit_ id statement e = false -> (forall m, In m (methods_e id e) -> discreet m) ->
  forall st st', apart id st st' -> sim_e statement (eval e st) (eval e st').
Proof.
  induction e as [x|n|f e IH|a IHa b IHb|x m e IH|x m w]; intros statement RE D st st' A; cbn [reads_e methods_e CnrSpec.eval] in *.
  - split; [|exact A]. intros _. apply A. intros ->. rewrite Nat.eqb_refl in RE. discriminate.
  - split; auto.
  - specialize (IH false RE D st st' A). destruct (eval e st), (eval e st'); cbn in IH |- *; try contradiction; auto.
    destruct IH as [E [T V]]. rewrite (E eq_refl), T. split; auto. split; cbn; auto.
  - apply orb_false_iff in RE. destruct RE as [RA RB].
    specialize (IHa false RA (fun m I => D m (in_or_app _ _ _ (or_introl I))) st st' A).
    destruct (eval a st) as [n s1|], (eval a st') as [n' s1'|]; cbn in IHa |- *; try contradiction; auto. destruct IHa as [E1 A1].
    specialize (IHb false RB (fun m I => D m (in_or_app _ _ _ (or_intror I))) s1 s1' A1).
    destruct (eval b s1), (eval b s1'); cbn in IHb |- *; try contradiction; auto. destruct IHb as [E2 A2].
    rewrite (E1 eq_refl), (E2 eq_refl). auto.
  - apply orb_false_iff in RE. destruct RE as [RM RB].
    specialize (IH false RB (fun m' I => D m' (in_or_app _ _ _ (or_intror I))) st st' A).
    destruct (eval e st) as [n s1|], (eval e st') as [n' s1'|]; cbn [sim_e] in IH |- *; try contradiction; auto. destruct IH as [E1 A1]. rewrite <- (E1 eq_refl).
    destruct (Nat.eqb x id) eqn:X.
    + apply Nat.eqb_eq in X. subst x. cbn [andb] in RM. destruct (D m (or_introl eq_refl)) as (D1 & D2 & D3).
      rewrite (D1 (vars s1 id) (vars s1' id)). destruct (panics m (vars s1' id) n); [exact (proj1 A1)|]. split; [|apply set_id; exact A1].
      intros ->. apply method_value. exact RM.
    + apply Nat.eqb_neq in X. rewrite (proj2 A1 x X). destruct (panics m (vars s1' x) n); [exact (proj1 A1)|]. split; [auto|apply set_same; exact A1].
  - apply orb_false_iff in RE. destruct RE as [RM RW]. apply Nat.eqb_neq in RW. rewrite <- (proj2 A w RW).
    destruct (Nat.eqb x id) eqn:X.
    + apply Nat.eqb_eq in X. subst x. cbn [andb] in RM. destruct (D m (or_introl eq_refl)) as (D1 & D2 & D3).
      rewrite (D1 (vars st id) (vars st' id)). destruct (panics m (vars st' id) (vars st w)); [exact (proj1 A)|].
      rewrite (D2 (vars st id) (vars st' id)). split; [|apply set_same, set_id; exact A].
      intros ->. apply method_value. exact RM.
    + apply Nat.eqb_neq in X. rewrite (proj2 A x X). destruct (panics m (vars st' x) (vars st w)); [exact (proj1 A)|]. split; [auto|apply set_same, set_same; exact A].
Qed.

Lemma while_sim test run : (forall a b, apart id a b -> sim_e false (test a) (test b)) -> (forall a b, apart id a b -> same id (run a) (run b)) ->
  forall n a b, apart id a b -> same id (while test run n a) (while test run n b).
Proof.
  intros T R n. induction n as [|n IH]; intros a b A; cbn; [exact I|].
  specialize (T a b A). destruct (test a) as [v s1|], (test b) as [v' s1'|]; cbn in T |- *; try contradiction; auto. destruct T as [E A1]. rewrite <- (E eq_refl).
  destruct (Nat.eqb v 0); [exact A1|]. specialize (R s1 s1' A1). destruct (run s1), (run s1'); cbn in R |- *; try contradiction; auto.
Qed.
Lemma times_sim run : (forall a b, apart id a b -> same id (run a) (run b)) -> forall n a b, apart id a b -> same id (times run n a) (times run n b).
Proof.
  intros R n. induction n as [|n IH]; intros a b A; cbn; [exact A|].
  specialize (R a b A). destruct (run a), (run b); cbn in R |- *; try contradiction; auto.
Qed.
Lemma each_sim run y : (forall a b, apart id a b -> same id (run a) (run b)) -> forall l a b, apart id a b -> same id (each run y l a) (each run y l b).
Proof.
  intros R l. induction l as [|i l IH]; intros a b A; cbn; [exact A|].
  specialize (R _ _ (set_same y i a b A)). destruct (run (set y i a)), (run (set y i b)); cbn in R |- *; try contradiction; auto.
Qed.

Lemma exec_sim fuel s : reads local unit_ id s = false -> (forall m, In m (methods id s) -> discreet m) ->
  forall st st', apart id st st' -> same id (exec fuel s st) (exec fuel s st').
Proof.
  induction s as [|a IHa b IHb|x e|x e|x e|e|d x m s IH|x m y s IH|c a IHa b IHb|c b IHb]; intros RE D st st' A; cbn [reads methods CnrSpec.exec] in *.
  - exact A.
  - apply orb_false_iff in RE. destruct RE as [RA RB].
    specialize (IHa RA (fun m I => D m (in_or_app _ _ _ (or_introl I))) st st' A).
    destruct (exec fuel a st), (exec fuel a st'); cbn in IHa |- *; try contradiction; auto.
    apply IHb; auto. intros m I. apply D. apply in_or_app. auto.
  - pose proof (eval_sim e false RE D st st' A) as E. destruct (eval e st), (eval e st'); cbn in E |- *; try contradiction; auto.
    destruct E as [E A1]. rewrite (E eq_refl). apply set_same. exact A1.
  - assert (G : reads_e local unit_ id false e = false \/ e = EVar id /\ x = id).
    { destruct e; auto. cbn. destruct (Nat.eqb x0 id) eqn:X; [|auto]. right. apply Nat.eqb_eq in X. cbn in RE. destruct (Nat.eqb x id) eqn:Y; [|discriminate].
      apply Nat.eqb_eq in Y. subst. auto. }
    destruct G as [G|[-> ->]].
    + pose proof (eval_sim e false G D st st' A) as E. destruct (eval e st), (eval e st'); cbn in E |- *; try contradiction; auto.
      destruct E as [E A1]. rewrite (E eq_refl). apply set_same. exact A1.
    + cbn. apply set_id. exact A.
  - apply orb_false_iff in RE. destruct RE as [RX RE]. apply Nat.eqb_neq in RX.
    pose proof (eval_sim e false RE D st st' A) as E. destruct (eval e st), (eval e st'); cbn in E |- *; try contradiction; auto.
    destruct E as [E A1]. rewrite (E eq_refl), (proj2 A1 x RX). apply set_same. exact A1.
  - pose proof (eval_sim e true RE D st st' A) as E. destruct (eval e st), (eval e st'); cbn in E |- *; try contradiction; auto. apply E.
  - apply orb_false_iff in RE. destruct RE as [RM RS].
    specialize (IH RS (fun m' I => D m' (in_or_app _ _ _ (or_intror I)))).
    destruct (Nat.eqb x id) eqn:X.
    + apply Nat.eqb_eq in X. subst x. cbn [andb] in RM. destruct (D m (or_introl eq_refl)) as (D1 & D2 & D3).
      rewrite (D3 (vars st id) (vars st' id)). pose proof (times_sim _ IH (length (items m (vars st' id))) st st' A) as T.
      destruct (times (exec fuel s) (length (items m (vars st' id))) st) as [|s1|], (times (exec fuel s) (length (items m (vars st' id))) st') as [|s1'|];
        cbn [same] in T |- *; try contradiction; auto.
      rewrite (D1 (vars st id) (vars st' id)). destruct (panics m (vars st' id) 0); [exact (proj1 T)|]. cbn [same].
      destruct d as [y|]; [|apply set_id; exact T].
      rewrite (method_value m (vars st id) (vars st' id) 0 RM). apply set_same, set_id. exact T.
    + apply Nat.eqb_neq in X. rewrite (proj2 A x X). pose proof (times_sim _ IH (length (items m (vars st' x))) st st' A) as T.
      destruct (times (exec fuel s) (length (items m (vars st' x))) st) as [|s1|], (times (exec fuel s) (length (items m (vars st' x))) st') as [|s1'|];
        cbn [same] in T |- *; try contradiction; auto.
      destruct (panics m (vars st' x) 0); [exact (proj1 T)|]. cbn [same]. destruct d as [y|]; repeat apply set_same; exact T.
  - apply orb_false_iff in RE. destruct RE as [RX RS]. apply Nat.eqb_neq in RX. rewrite (proj2 A x RX).
    pose proof (each_sim _ y (IH RS (fun m' I => D m' (in_or_app _ _ _ (or_intror I)))) (items m (vars st' x)) st st' A) as T.
    destruct (each (exec fuel s) y (items m (vars st' x)) st) as [|s1|], (each (exec fuel s) y (items m (vars st' x)) st') as [|s1'|]; cbn [same] in T |- *; try contradiction; auto.
    destruct (panics m (vars st' x) 0); [exact (proj1 T)|]. apply set_same. exact T.
  - apply orb_false_iff in RE. destruct RE as [RE RB]. apply orb_false_iff in RE. destruct RE as [RC RA].
    assert (DC : forall m, In m (methods_e id c) -> discreet m) by (intros; apply D; rewrite !in_app_iff; auto).
    pose proof (eval_sim c false RC DC st st' A) as E. destruct (eval c st) as [n s1|], (eval c st') as [n' s1'|]; cbn in E |- *; try contradiction; auto.
    destruct E as [E A1]. rewrite <- (E eq_refl). destruct (Nat.eqb n 0); [apply IHb|apply IHa]; auto; intros; apply D; rewrite !in_app_iff; auto.
  - apply orb_false_iff in RE. destruct RE as [RC RB]. apply while_sim; [apply eval_sim; auto|apply IHb; auto|exact A]; intros; apply D; rewrite !in_app_iff; auto.
Qed.
End Sim.
