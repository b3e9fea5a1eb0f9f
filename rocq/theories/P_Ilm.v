(* C150: mutexes that are locked again in an if let *)
From Coq Require Import List Bool PeanoNat Lia.
Import ListNotations.
From Verif Require Import IlmSpec IlmModel IlmProofs.

(* What is reported are a mutex that is locked in what is matched, and a lock of it in one of the branches *)
Theorem if_let_mutex_reports :
  forall e m n, reported e = Some (m, n) ->
  exists s a b n', e = EIfLet s a b /\ In (n', m) (locks s) /\ In (n, m) (locks a ++ locks b).
Proof.
  intros e m n. destruct e; cbn [reported]; try discriminate. destruct (for_each_expr None e1) as [[n' m']|] eqn:F; [|discriminate].
  apply found_lock in F. destruct F as [F _].
  destruct (for_each_expr (Some m') e2) as [[k x]|] eqn:A; cbn.
  - intros E. injection E as -> ->. apply found_lock in A. destruct A as [A ->]. exists e1, e2, e3, n'. rewrite in_app_iff. auto.
  - destruct (for_each_expr (Some m') e3) as [[k x]|] eqn:B; [|discriminate].
    intros E. injection E as -> ->. apply found_lock in B. destruct B as [B ->]. exists e1, e2, e3, n'. rewrite in_app_iff. auto.
Qed.
Print Assumptions if_let_mutex_reports.

Lemma found_none o e n m : for_each_expr o e = None -> In (n, m) (locks e) -> match o with Some m' => m <> m' | None => False end.
Proof.
  induction e; cbn; [intros _ []| |intros _ []| | | |].
  - destruct o as [m'|]; [|discriminate]. destruct (Nat.eqb_spec m0 m'); [discriminate|]. intros _ [E|[]]. injection E as _ <-. assumption.
  - destruct (for_each_expr o e1); cbn; [discriminate|]. intros E. rewrite in_app_iff. intros [I|I]; [exact (IHe1 eq_refl I)|exact (IHe2 E I)].
  - destruct (for_each_expr o e1); cbn; [discriminate|]. intros E. rewrite in_app_iff. intros [I|I]; [exact (IHe1 eq_refl I)|exact (IHe2 E I)].
  - destruct (for_each_expr o e1); cbn; [discriminate|]. destruct (for_each_expr o e2); cbn; [discriminate|].
    intros E. rewrite !in_app_iff. intros [I|[I|I]]; [exact (IHe1 eq_refl I)|exact (IHe2 eq_refl I)|exact (IHe3 E I)].
  - destruct (for_each_expr o e1); cbn; [discriminate|]. destruct (for_each_expr o e2); cbn; [discriminate|].
    intros E. rewrite !in_app_iff. intros [I|[I|I]]; [exact (IHe1 eq_refl I)|exact (IHe2 eq_refl I)|exact (IHe3 E I)].
Qed.
(* All that lock a mutex again are reported, where what is matched locks no other.  Missing: where it locks others first, see
   if_let_mutex_missed_refuted *)
Theorem if_let_mutex_found_partial :
  forall s a b m n n', (forall k x, In (k, x) (locks s) -> x = m) -> In (n', m) (locks s) -> In (n, m) (locks a ++ locks b) ->
  exists k, reported (EIfLet s a b) = Some (m, k).
Proof.
  intros s a b m n n' O S I. cbn. destruct (for_each_expr None s) as [[k x]|] eqn:F.
  - apply found_lock in F. destruct F as [F _]. apply O in F. subst x.
    destruct (for_each_expr (Some m) a) as [[j y]|] eqn:A; cbn; [eauto|]. destruct (for_each_expr (Some m) b) as [[j y]|] eqn:B; [eauto|].
    apply in_app_or in I. exfalso. destruct I as [I|I]; [exact (found_none _ _ _ _ A I eq_refl)|exact (found_none _ _ _ _ B I eq_refl)].
  - exfalso. exact (found_none _ _ _ _ F S).
Qed.
Print Assumptions if_let_mutex_found_partial.

Lemma nodup_apart (p q : list (nat * nat)) n x y : NoDup (map fst (p ++ q)) -> In (n, x) p -> In (n, y) q -> False.
Proof.
  induction p as [|[k z] p IH]; cbn; [auto|]. intros N. inversion N as [|? ? N1 N2]; subst. intros [E|I] J; [|auto].
  injection E as -> ->. apply N1. rewrite map_app, in_app_iff. right. exact (in_map fst _ _ J).
Qed.
Lemma nodup_same (p : list (nat * nat)) n x y : NoDup (map fst p) -> In (n, x) p -> In (n, y) p -> x = y.
Proof.
  induction p as [|[k z] p IH]; cbn; [contradiction|]. intros N. inversion N as [|? ? N1 N2]; subst. intros [E|I] [F|J].
  - congruence.
  - injection E as -> ->. exfalso. apply N1. exact (in_map fst _ _ J).
  - injection F as -> ->. exfalso. apply N1. exact (in_map fst _ _ I).
  - auto.
Qed.
(* No run gets past the lock that is reported: it always deadlocks.  Missing: where the first lock is not always reached, or is given up
   before the branch, see the refutations *)
Theorem if_let_mutex_deadlocks_partial :
  forall s a b m n, reported (EIfLet s a b) = Some (m, n) -> NoDup (map fst (locks (EIfLet s a b))) ->
  surely m s = true -> no_drop m (EIfLet s a b) = true ->
  forall h l h' t, run (EIfLet s a b) h l h' t -> ~ In n (map fst l).
Proof.
  intros s a b m n R N S D h l h' t X I. apply if_let_mutex_reports in R. destruct R as (s' & a' & b' & n' & E & _ & J).
  injection E as <- <- <-. cbn [locks] in N. cbn [no_drop] in D. bools.
  apply in_map_iff in I. destruct I as ([k x] & <- & I). cbn in J.
  assert (Q : x = m).
  { pose proof (run_locks _ _ _ _ _ X _ I) as I'. cbn [locks] in I'. refine (nodup_same _ _ _ _ N I' _). apply in_or_app. auto. }
  subst x. inversion X; subst.
  - match goal with H : run s _ _ _ _ |- _ => pose proof (run_locks _ _ _ _ _ H) as L; pose proof (surely_held m _ _ _ _ _ H ltac:(assumption) S) as K end.
    apply in_app_or in I. destruct I as [I|I]; [exact (nodup_apart _ _ _ _ _ N (L _ I) J)|].
    match goal with H : run a _ _ _ _ |- _ => destruct (held m _ _ _ _ _ H K ltac:(assumption)) as (_ & _ & Z) end. exact (Z _ I).
  - match goal with H : run s _ _ _ _ |- _ => pose proof (run_locks _ _ _ _ _ H) as L; pose proof (surely_held m _ _ _ _ _ H ltac:(assumption) S) as K end.
    apply in_app_or in I. destruct I as [I|I]; [exact (nodup_apart _ _ _ _ _ N (L _ I) J)|].
    match goal with H : run b _ _ _ _ |- _ => destruct (held m _ _ _ _ _ H K ltac:(assumption)) as (_ & _ & Z) end. exact (Z _ I).
Qed.
Print Assumptions if_let_mutex_deadlocks_partial.
(* if let Ok(g) = f(m.lock()) { other } else { other; m.lock() }: the first branch runs, the second does not get past the lock *)
Example C150_nontrivial :
  let e := EIfLet (EPair EOther (ELock 0 7)) EOther (ESeq EOther (ELock 1 7)) in
  reported e = Some (7, 1) /\ NoDup (map fst (locks e)) /\ surely 7 (EPair EOther (ELock 0 7)) = true /\ no_drop 7 e = true /\
  (exists h t, run e [] [(0, 7)] h t) /\ forall h l h' t, run e h l h' t -> ~ In 1 (map fst l).
Proof.
  cbv zeta. repeat (split; [first [reflexivity | constructor; [cbn; intuition discriminate|constructor; [cbn; tauto|constructor]]]|]). split.
  - eexists. eexists. change [(0, 7)] with (([] ++ [(0, 7)]) ++ @nil (nat * nat)). eapply RLetThen; [eapply RPair; [constructor|constructor; cbn; tauto]|constructor].
  - apply (if_let_mutex_deadlocks_partial _ _ _ 7 1); try reflexivity. constructor; [cbn; intuition discriminate|constructor; [cbn; tauto|constructor]].
Qed.
Definition passes (e : expr) : Prop :=
  exists m n, reported e = Some (m, n) /\ NoDup (map fst (locks e)) /\ exists l h' t, run e [] l h' t /\ In n (map fst l).
Ltac nd := repeat (constructor; [cbn; intuition discriminate|]); constructor.
(* if let .. = { f(m.lock()); x } { .. } else { m.lock() }: the guard is dropped at the end of the statement *)
Theorem if_let_mutex_statement_refuted :
  exists s a b, passes (EIfLet s a b) /\ no_drop 7 (EIfLet s a b) = true.
Proof.
  exists (ESeq (ELock 0 7) EOther), EOther, (ELock 1 7). split; [|reflexivity]. exists 7, 1. split; [reflexivity|]. split; [nd|].
  exists (([(0, 7)] ++ []) ++ [(1, 7)]). eexists. eexists. split; [|cbn; auto]. eapply RLetElse; [eapply RSeq|]; constructor; cbn; tauto.
Qed.
Print Assumptions if_let_mutex_statement_refuted.
(* if let .. = if c { m.lock() } else { .. } { m.lock() } else { .. }: the first lock is not reached *)
Theorem if_let_mutex_branch_refuted :
  exists s a b, passes (EIfLet s a b) /\ no_drop 7 (EIfLet s a b) = true.
Proof.
  exists (EIf EOther (ELock 0 7) EOther), (ELock 1 7), EOther. split; [|reflexivity]. exists 7, 1. split; [reflexivity|]. split; [nd|].
  exists (([] ++ []) ++ [(1, 7)]). eexists. eexists. split; [|cbn; auto]. eapply RLetThen; [eapply RElse|]; constructor; cbn; tauto.
Qed.
Print Assumptions if_let_mutex_branch_refuted.
(* if let Ok(g) = m.lock() { drop(g); m.lock() } else { .. } *)
Theorem if_let_mutex_drop_refuted :
  exists s a b, passes (EIfLet s a b) /\ surely 7 s = true.
Proof.
  exists (ELock 0 7), (ESeq (EDrop 7) (ELock 1 7)), EOther. split; [|reflexivity]. exists 7, 1. split; [reflexivity|]. split; [nd|].
  exists ([(0, 7)] ++ ([] ++ [(1, 7)])). eexists. eexists. split; [|cbn; auto].
  eapply RLetThen; [constructor; cbn; tauto|]. eapply RSeq; constructor. cbn. tauto.
Qed.
Print Assumptions if_let_mutex_drop_refuted.
(* if let .. = (k.lock(), m.lock()) { m.lock() } else { m.lock() }: no run at all, and nothing is reported *)
Theorem if_let_mutex_missed_refuted :
  exists s a b, reported (EIfLet s a b) = None /\ surely 7 s = true /\ (exists l h t, run s [] l h t) /\
  forall h l h' t, ~ run (EIfLet s a b) h l h' t.
Proof.
  exists (EPair (ELock 0 5) (ELock 1 7)), (ELock 2 7), (ELock 3 7). split; [reflexivity|]. split; [reflexivity|]. split.
  - eexists. eexists. eexists. eapply RPair; constructor; cbn; intuition discriminate.
  - intros h l h' t X. inversion X; subst;
      match goal with H : run (EPair _ _) _ _ _ _ |- _ => pose proof (surely_held 7 _ _ _ _ _ H eq_refl eq_refl) as K end;
      match goal with H : run (ELock _ _) _ _ _ _ |- _ => inversion H; subst; contradiction end.
Qed.
Print Assumptions if_let_mutex_missed_refuted.
