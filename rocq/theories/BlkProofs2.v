(** Proofs about the lints on `let`, assignments and swaps. *)
From Verif Require Import BlkSpec BlkEnv BlkModel BlkProofs.

Lemma agree_none_any : forall X s s', agree none_of s s' -> agree X s s'.
Proof. intros X s s' [A B]. split; auto. Qed.
Lemma alike_none_any : forall X r r', alike none_of r r' -> alike X r r'.
Proof. intros X r r' [A B]. split; [auto|apply agree_none_any; auto]. Qed.
Lemma only_uses : forall x e, uses x e = false -> forall y, only x y = true -> uses y e = false.
Proof. intros x e U y Y. unfold only in Y. apply Nat.eqb_eq in Y. subst. auto. Qed.
Lemma minus_only : forall x xs y, mem x xs = false -> minus (only x) xs y = only x y.
Proof.
  intros x xs y M. unfold minus, only. destruct (y =? x) eqn:E; [|auto]. apply Nat.eqb_eq in E. subst. rewrite M. auto.
Qed.
Lemma leave_only : forall x xs s s' r r', agree (only x) s s' -> mem x xs = false -> alike (only x) r r' -> alike (only x) (leave xs s r) (leave xs s' r').
Proof. intros x xs s s' r r' A M B. apply alike_leave; [auto|]. eapply alike_weaken; [|apply B]. intros y. rewrite minus_only; auto. Qed.

(** What is left of [x] after its scope. *)
Lemma close : forall w n x e r s s', uses x e = false -> agree (only x) s s' -> fst s' x = fst s x -> alike (only x) r (eval w n e s') ->
  alike none_of (leave [x] s r) (eval w n e s').
Proof.
  intros w n x e r s s' U A S [B1 [B2 B3]]. split; [exact B1|]. split; [exact B2|]. intros y _. cbn. rewrite orb_false_r. destruct (y =? x) eqn:E.
  - apply Nat.eqb_eq in E. subst y. rewrite eval_keeps by (apply uses_changes; auto). auto.
  - apply B3. auto.
Qed.

(** ** One evaluation assigns to [x] the value that the other yields. *)
Definition assigned (x : nat) (r r' : out * st) : Prop :=
  match fst r' with
  | OVal v => fst r = OVal VUnit /\ agree none_of (snd r) (setv (snd r') x v)
  | o => fst r = o /\ agree (only x) (snd r) (snd r') end.
Lemma agree_only_setv : forall x s s' v, agree (only x) s s' -> agree none_of (setv s x v) (setv s' x v).
Proof. intros x s s' v [A B]. split; [auto|]. intros y _. cbn. unfold upd. destruct (y =? x) eqn:E; auto. Qed.
Lemma assigned_next : forall x r r' k k', alike (only x) r r' -> (forall v s s', agree (only x) s s' -> assigned x (k v s) (k' v s')) ->
  assigned x (next r k) (next r' k').
Proof.
  intros x [o s] [o' s'] k k' [A B] K. cbn in A, B. subst o'. rewrite !next_pair. destruct o; auto; split; auto.
Qed.
Lemma assigned_leave : forall x xs s s' r r', agree (only x) s s' -> mem x xs = false -> assigned x r r' -> assigned x (leave xs s r) (leave xs s' r').
Proof.
  intros x xs s s' [o t] [o' t'] A M B. unfold assigned in *. cbn [fst snd leave] in *.
  assert (Q : agree (only x) t t' -> agree (only x) (back xs s t) (back xs s' t')).
  { intros [C D]. split; [auto|]. intros y Y. cbn. destruct (mem y xs) eqn:E; auto. apply A. auto. }
  destruct o'; try (destruct B; split; auto; fail). destruct B as [B1 [B2 B3]]. split; [auto|]. split; [exact B2|]. intros y _. cbn. specialize (B3 y eq_refl). cbn in B3.
  unfold upd in *. destruct (y =? x) eqn:E.
  - apply Nat.eqb_eq in E. subst y. rewrite M. auto.
  - destruct (mem y xs) eqn:My; auto. apply A. auto.
Qed.
Lemma assigned_bind : forall x p v s s' (k k' : st -> out * st) d d', agree (only x) s s' -> mem x (pvars p) = false ->
  (forall u u', agree (only x) u u' -> assigned x (k u) (k' u')) -> assigned x d d' ->
  assigned x (match pbind p v (fst s) with Some f => leave (pvars p) s (k (f, snd s)) | None => d end)
             (match pbind p v (fst s') with Some f => leave (pvars p) s' (k' (f, snd s')) | None => d' end).
Proof.
  intros x p v s s' k k' d d' A M K D. pose proof (pbind_rel p v (only x) (fst s) (fst s') (proj2 A)) as R.
  destruct (pbind p v (fst s)), (pbind p v (fst s')); try tauto. apply assigned_leave; [auto|auto|]. apply K. split; [apply A|]. intros y Y. apply R.
  rewrite minus_only; auto.
Qed.
Lemma assigned_stop : forall x o s s', (forall v, o <> OVal v) -> agree (only x) s s' -> assigned x (o, s) (o, s').
Proof. intros x o s s' N A. unfold assigned. cbn. destruct o; auto. exfalso. apply (N v). auto. Qed.
Lemma assigned_asg : forall w n x v s s', uses x v = false -> agree (only x) s s' -> assigned x (eval w n (XAsg x v) s) (eval w n v s').
Proof.
  intros w n x v s s' U A. cbn [eval]. pose proof (eval_off w n v (only x) s s' (only_uses _ _ U) A) as [B1 B2].
  destruct (eval w n v s) as [o t], (eval w n v s') as [o' t']. cbn in B1, B2. subst o'. rewrite next_pair. destruct o; try (apply assigned_stop; auto; discriminate).
  split; [auto|]. apply agree_only_setv. auto.
Qed.
Lemma assigned_unit : forall w n x r r', assigned x r r' -> assigned x (next r (fun _ t => eval w n (XVal VUnit) t)) r'.
Proof.
  intros w n x [o t] [o' t'] H. unfold assigned in *. rewrite next_pair. cbn [fst snd] in *. destruct o'; destruct H as [H1 H2]; subst o; auto.
Qed.
Lemma give_ok : forall w n x b b' s s', give x b = Some b' -> uses x b' = false -> agree (only x) s s' -> assigned x (eval w n b s) (eval w n b' s').
Proof.
  intros w n x. induction b; intros b' s s' H U A; try discriminate; cbn [give] in H.
  - destruct (Nat.eqb_spec x0 x) as [E|]; [|discriminate]. subst. injection H as <-. apply assigned_asg; auto.
  - destruct (is_unit b2) eqn:I.
    + apply is_unit_eq in I. subst b2. destruct b1; try discriminate. destruct (Nat.eqb_spec x0 x) as [E|]; [|discriminate]. subst. injection H as <-.
      change (eval w n (XSeq (XAsg x b1) (XVal VUnit)) s) with (next (eval w n (XAsg x b1) s) (fun _ t => eval w n (XVal VUnit) t)).
      apply assigned_unit. apply assigned_asg; auto.
    + destruct (grouped x b1 b2); [discriminate|]. destruct (give x b2) as [b2'|] eqn:E; [|discriminate]. injection H as <-. cbn in U.
      apply orb_false_iff in U. destruct U as [U1 U2]. cbn [eval]. apply assigned_next; [apply eval_off; auto; apply only_uses; auto|]. auto.
  - destruct (Nat.eqb_spec x0 x) as [E|N]; [discriminate|]. destruct (give x b) as [b1|] eqn:E; [|discriminate]. injection H as <-. cbn in U.
    replace (x =? x0) with false in U by (symmetry; apply Nat.eqb_neq; auto). cbn in U. cbn [eval]. apply assigned_leave; [auto| |].
    + cbn. rewrite orb_false_r. apply Nat.eqb_neq. auto.
    + apply IHb; auto. apply agree_setv. auto.
  - destruct (mem x (pvars p)) eqn:M; [discriminate|]. destruct (give x b2) as [b2'|] eqn:E; [|discriminate]. injection H as <-. cbn in U.
    apply orb_false_iff in U. destruct U as [U1 U2]. rewrite M in U2. cbn [eval]. apply assigned_next; [apply eval_off; auto; apply only_uses; auto|].
    intros v t t' T. apply assigned_bind; auto. apply assigned_stop; [discriminate|auto].
  - destruct (mem x (pvars p)) eqn:M; [discriminate|]. destruct (give x b3) as [b3'|] eqn:E; [|discriminate]. injection H as <-. cbn in U.
    apply orb_false_iff in U. destruct U as [U U3]. apply orb_false_iff in U. destruct U as [U1 U2]. rewrite M in U3. cbn [eval].
    apply assigned_next; [apply eval_off; auto; apply only_uses; auto|].
    intros v t t' T. apply assigned_bind; auto. apply assigned_next; [apply eval_off; auto; apply only_uses; auto|].
    intros. apply assigned_stop; [discriminate|auto].
Qed.
Lemma let_if_give : forall x b b', check_assign x b = Some b' -> uses x b' = false -> forall w n s s', agree (only x) s s' -> assigned x (eval w n b s) (eval w n b' s').
Proof.
  intros x. induction b; intros b' H U w n s s' A; try discriminate; cbn [check_assign] in H.
  - destruct (is_unit b2) eqn:I.
    + apply is_unit_eq in I. subst b2. destruct b1; try discriminate. destruct (Nat.eqb_spec x0 x) as [E|]; [|discriminate]. subst. injection H as <-.
      change (eval w n (XSeq (XAsg x b1) (XVal VUnit)) s) with (next (eval w n (XAsg x b1) s) (fun _ t => eval w n (XVal VUnit) t)).
      apply assigned_unit. apply assigned_asg; auto.
    + destruct (uses x b1) eqn:G; [discriminate|]. destruct (check_assign x b2) as [b2'|] eqn:E; [|discriminate]. injection H as <-. cbn in U.
      apply orb_false_iff in U. destruct U as [U1 U2]. cbn [eval]. apply assigned_next; [apply eval_off; auto; apply only_uses; auto|]. auto.
  - destruct (Nat.eqb_spec x0 x) as [E|N]; [discriminate|]. destruct (check_assign x b) as [b1|] eqn:E; [|discriminate]. injection H as <-. cbn in U.
    replace (x =? x0) with false in U by (symmetry; apply Nat.eqb_neq; auto). cbn in U. cbn [eval]. apply assigned_leave; [auto| |].
    + cbn. rewrite orb_false_r. apply Nat.eqb_neq. auto.
    + apply IHb; auto. apply agree_setv. auto.
  - destruct (uses x b1 || mem x (pvars p)) eqn:M; [discriminate|]. apply orb_false_iff in M. destruct M as [_ M].
    destruct (check_assign x b2) as [b2'|] eqn:E; [|discriminate]. injection H as <-. cbn in U.
    apply orb_false_iff in U. destruct U as [U1 U2]. rewrite M in U2. cbn [eval]. apply assigned_next; [apply eval_off; auto; apply only_uses; auto|].
    intros v t t' T. apply assigned_bind; auto. apply assigned_stop; [discriminate|auto].
  - destruct (uses x b1 || uses x b2 || mem x (pvars p)) eqn:M; [discriminate|]. apply orb_false_iff in M. destruct M as [_ M].
    destruct (check_assign x b3) as [b3'|] eqn:E; [|discriminate]. injection H as <-. cbn in U.
    apply orb_false_iff in U. destruct U as [U U3]. apply orb_false_iff in U. destruct U as [U1 U2]. rewrite M in U3. cbn [eval].
    apply assigned_next; [apply eval_off; auto; apply only_uses; auto|].
    intros v t t' T. apply assigned_bind; auto. apply assigned_next; [apply eval_off; auto; apply only_uses; auto|].
    intros. apply assigned_stop; [discriminate|auto].
Qed.
(** Conditions with no `let` in front of it. *)
Lemma assigned_tests : forall w n x k b' s s', tests k = true -> uses x (on_body (fun _ => b') k) = false ->
  (forall s s', agree (only x) s s' -> assigned x (eval w n (body k) s) (eval w n b' s')) -> agree (only x) s s' ->
  assigned x (eval w n k s) (eval w n (on_body (fun _ => b') k) s').
Proof.
  intros w n x. induction k; intros b' s s' T U H A; try discriminate; try (rewrite link_on by auto; apply H; auto; fail).
  cbn [tests body on_body] in *. cbn [uses] in U. apply orb_false_iff in U. destruct U as [U1 U2]. cbn [eval].
  apply assigned_next; [apply eval_off; auto; apply only_uses; auto|]. intros v t t' T'. destruct v; try (apply assigned_stop; [discriminate|auto]).
  destruct b; [auto|apply assigned_stop; [discriminate|auto]].
Qed.
(** The same, for any conditions. *)
Lemma assigned_conds : forall w n x k b' s s', cond_uses x k = false -> mem x (cond_vars k) = false ->
  (forall s s', agree (only x) s s' -> assigned x (eval w n (body k) s) (eval w n b' s')) -> agree (only x) s s' ->
  assigned x (eval w n k s) (eval w n (on_body (fun _ => b') k) s').
Proof.
  intros w n x. induction k; intros b' s s' U M H A; try (rewrite link_on by auto; apply H; auto; fail); cbn [cond_uses cond_vars body on_body] in *.
  - apply orb_false_iff in U. destruct U as [U1 U2]. cbn [eval].
    apply assigned_next; [apply eval_off; auto; apply only_uses; auto|]. intros v t t' T'. destruct v; try (apply assigned_stop; [discriminate|auto]).
    destruct b; [auto|apply assigned_stop; [discriminate|auto]].
  - rewrite mem_app in M. apply orb_false_iff in M. destruct M as [M1 M2]. apply orb_false_iff in U. destruct U as [U1 U2]. rewrite M1 in U2. cbn [eval].
    apply assigned_next; [apply eval_off; auto; apply only_uses; auto|]. intros v t t' T'. apply assigned_bind; auto. apply assigned_stop; [discriminate|auto].
Qed.
Lemma assigned_if : forall w n x k d k' d' s s', assigned x (eval w n k s) (eval w n k' s') ->
  (forall s s', agree (only x) s s' -> assigned x (eval w n d s) (eval w n d' s')) -> assigned x (eval w n (XIf k d) s) (eval w n (XIf k' d') s').
Proof.
  intros w n x k d k' d' s s' K D. cbn [eval]. destruct (eval w n k s) as [o t], (eval w n k' s') as [o' t']. unfold assigned in K. cbn in K.
  destruct o'; destruct K as [-> K]; try (split; auto; fail). apply D. auto.
Qed.

Section Never.
Variable ty_never : ex -> bool.
Hypothesis never_sound : forall e, ty_never e = true -> forall w n s v, fst (eval w n e s) <> OVal v.
Lemma branch_ok : forall w n x b b' f s s', branch ty_never x b = Some (b', f) -> uses x b' = false -> agree (only x) s s' -> assigned x (eval w n b s) (eval w n b' s').
Proof.
  intros w n x b b' f s s' H U A. unfold branch in H. destruct (ty_never b) eqn:N.
  - injection H as <- <-. pose proof (never_sound _ N w n s') as NV. pose proof (eval_off w n b (only x) s s' (only_uses _ _ U) A) as [B1 B2].
    destruct (eval w n b s) as [o t], (eval w n b s') as [o' t']. cbn in B1, B2, NV. subst o'. apply assigned_stop; auto.
  - destruct (give x b) as [c|] eqn:G; [|discriminate]. injection H as <- <-. eapply give_ok; eauto.
Qed.
Lemma uses_on_body : forall x k b', tests k = true -> uses x (on_body (fun _ => b') k) = false -> uses x b' = false.
Proof.
  intros x. induction k; intros b' T U; try discriminate; try (rewrite link_on in U by auto; auto; fail). cbn in U. apply orb_false_iff in U. destruct U as [_ U]. apply IHk2; auto.
Qed.
Lemma arms_ok : forall w n x e e' f s s', arms ty_never x e = Some (e', f) -> uses x e' = false -> agree (only x) s s' -> assigned x (eval w n e s) (eval w n e' s').
Proof.
  intros w n x. induction e; intros e' fl s s' H U A; try (eapply branch_ok; eauto; fail). cbn [arms] in H.
  destruct (tests e1) eqn:T; [|discriminate]. destruct (branch ty_never x (body e1)) as [[b' g]|] eqn:B; [|discriminate].
  destruct (arms ty_never x e2) as [[d' g']|] eqn:D; [|discriminate]. injection H as <- <-. cbn [uses] in U. apply orb_false_iff in U. destruct U as [U1 U2].
  apply assigned_if; [|intros; eapply IHe2; eauto]. apply assigned_tests; auto. intros. eapply branch_ok; eauto. eapply uses_on_body; eauto.
Qed.
Lemma assigned_let : forall w n x a v r s s', assigned x (eval w n a s) (eval w n v s') -> 
  alike (only x) (next (eval w n a s) (fun _ t => eval w n r t)) (eval w n (XLet (PVar x) v r) s').
Proof.
  intros w n x a v r s s' H. cbn [eval pbind pvars]. destruct (eval w n a s) as [o t], (eval w n v s') as [o' t']. unfold assigned in H. cbn in H. rewrite !next_pair.
  destruct o'; destruct H as [-> H]; try (split; auto; fail). pose proof (eval_ext w n r _ _ H) as [B1 [B2 B3]]. split; [exact B1|]. split; [exact B2|].
  intros y Y. cbn. unfold only in Y. rewrite Y. cbn. apply B3. auto.
Qed.
Lemma arm_ok : forall w n x p b b' f v s s' d d', arm ty_never x p b = Some (b', f) -> (negb (mem x (pvars p)) && uses x b')%bool = false -> agree (only x) s s' ->
  assigned x d d' -> 
  assigned x (match pbind p v (fst s) with Some f => leave (pvars p) s (eval w n b (f, snd s)) | None => d end)
             (match pbind p v (fst s') with Some f => leave (pvars p) s' (eval w n b' (f, snd s')) | None => d' end).
Proof.
  intros w n x p b b' f v s s' d d' H U A D. unfold arm in H. destruct (mem x (pvars p)) eqn:M.
  - cbn in H. unfold branch in H. destruct (ty_never b) eqn:N; [|discriminate]. cbn in H. injection H as <- <-.
    pose proof (pbind_rel p v (only x) (fst s) (fst s') (proj2 A)) as R. destruct (pbind p v (fst s)) as [g|], (pbind p v (fst s')) as [g'|]; try tauto.
    assert (B : alike (only x) (leave (pvars p) s (eval w n b (g, snd s))) (leave (pvars p) s' (eval w n b (g', snd s')))).
    { apply alike_leave; [auto|]. apply eval_off.
      - intros y Y. unfold minus, only in Y. apply andb_true_iff in Y. destruct Y as [Y1 Y2]. apply Nat.eqb_eq in Y1. subst. rewrite M in Y2. discriminate.
      - split; [apply A|]. intros y Y. apply R. auto. }
    pose proof (never_sound _ N w n (g', snd s')) as NV. cbn [leave fst snd] in B. destruct B as [B1 B2]. cbn [leave fst snd] in *.
    destruct (eval w n b (g, snd s)) as [o t], (eval w n b (g', snd s')) as [o' t']. cbn [fst snd] in *. subst o'. apply assigned_stop; auto.
  - cbn in H, U. apply assigned_bind; auto. intros. eapply branch_ok; eauto.
Qed.
Lemma usage_ok : forall w n x a r e' s s', late_usage ty_never x a r = Some e' -> uses x e' = false -> agree (only x) s s' ->
  exists v, e' = XLet (PVar x) v r /\ assigned x (eval w n a s) (eval w n v s').
Proof.
  intros w n x a r e' s s' H U A. destruct a; try discriminate; cbn [late_usage] in H.
  - destruct (Nat.eqb_spec x0 x) as [E|]; [|discriminate]. subst. injection H as <-. exists a. split; [auto|]. cbn in U. apply orb_false_iff in U. destruct U as [U _]. apply assigned_asg; auto.
  - destruct (arms ty_never x (XIf a1 a2)) as [[a' []]|] eqn:E; try discriminate. injection H as <-. exists a'. split; [auto|]. cbn in U. apply orb_false_iff in U. destruct U as [U _].
    eapply arms_ok; eauto.
  - destruct (arm ty_never x p a2) as [[b' f]|] eqn:B1; [|discriminate]. destruct (arm ty_never x q a3) as [[d' g]|] eqn:B2; [|discriminate].
    destruct (f || g); [|discriminate]. injection H as <-. eexists. split; [reflexivity|]. cbn [uses] in U. apply orb_false_iff in U. destruct U as [U _].
    apply orb_false_iff in U. destruct U as [U U3]. apply orb_false_iff in U. destruct U as [U1 U2].
    cbn [eval]. apply assigned_next; [apply eval_off; auto; apply only_uses; auto|]. intros v t t' T.
    apply (arm_ok _ _ _ _ _ _ _ v _ _ _ _ B1 U2 T). apply (arm_ok _ _ _ _ _ _ _ v _ _ _ _ B2 U3 T). apply assigned_stop; [discriminate|auto].
Qed.
Lemma usage_tail : forall w n x a e' s s', late_usage ty_never x a (XVal VUnit) = Some e' -> uses x e' = false -> agree (only x) s s' ->
  alike (only x) (eval w n a s) (eval w n e' s').
Proof.
  intros w n x a e' s s' H U A. destruct (usage_ok w n _ _ _ _ _ _ H U A) as (v & -> & K). eapply alike_trans; [|apply assigned_let; apply K].
  unfold assigned in K. destruct (eval w n a s) as [o t], (eval w n v s') as [o' t']. rewrite next_pair. cbn in K. destruct o'; destruct K as [-> K]; apply alike_refl.
Qed.
Lemma usage_stmt : forall w n x a r e' s s', late_usage ty_never x a r = Some e' -> uses x e' = false -> agree (only x) s s' ->
  alike (only x) (next (eval w n a s) (fun _ t => eval w n r t)) (eval w n e' s').
Proof. intros w n x a r e' s s' H U A. destruct (usage_ok w n _ _ _ _ _ _ H U A) as (v & -> & K). apply assigned_let; auto. Qed.
Lemma alike_bind_only : forall x p v s s' (k k' : st -> out * st) d d', agree (only x) s s' -> mem x (pvars p) = false ->
  (forall u u', agree (only x) u u' -> alike (only x) (k u) (k' u')) -> alike (only x) d d' ->
  alike (only x) (match pbind p v (fst s) with Some f => leave (pvars p) s (k (f, snd s)) | None => d end)
             (match pbind p v (fst s') with Some f => leave (pvars p) s' (k' (f, snd s')) | None => d' end).
Proof.
  intros x p v s s' k k' d d' A M K D. apply alike_bind; auto. intros u u' V. eapply alike_weaken; [|apply K].
  - intros y Y. rewrite minus_only in Y; auto.
  - eapply agree_weaken; [|apply V]. intros y Y. rewrite minus_only; auto.
Qed.
Lemma decl_only : forall w n x y b b' s s', (y =? x) = false -> agree (only x) s s' ->
  (forall s s', agree (only x) s s' -> alike (only x) (eval w n b s) (eval w n b' s')) -> alike (only x) (eval w n (XDecl y b) s) (eval w n (XDecl y b') s').
Proof.
  intros w n x y b b' s s' N A H. cbn [eval]. apply leave_only; [auto| |apply H; apply agree_setv; auto]. cbn. rewrite orb_false_r, Nat.eqb_sym. auto.
Qed.
Lemma late_tail_ok : forall w n x b e' s s', late_tail ty_never x b = Some e' -> uses x e' = false -> agree (only x) s s' ->
  alike (only x) (eval w n b s) (eval w n e' s').
Proof.
  intros w n x. induction b; intros e' s s' H U A; cbn [late_tail] in H;
    try (destruct (uses x _); [|discriminate]; eapply usage_tail; eauto; fail).
  - destruct (late_tail ty_never x b2) eqn:E; [|discriminate]. injection H as <-. cbn in U. apply orb_false_iff in U. destruct U as [U1 U2].
    cbn [eval]. apply alike_next; [apply eval_off; auto; apply only_uses; auto|]. auto.
  - destruct (x0 =? x) eqn:N; [discriminate|]. destruct (late_tail ty_never x b) eqn:E; [|discriminate]. injection H as <-. cbn in U. rewrite Nat.eqb_sym, N in U.
    apply decl_only; auto.
  - destruct (mem x (pvars p)) eqn:M; [discriminate|]. destruct (late_tail ty_never x b2) eqn:E; [|discriminate]. injection H as <-. cbn in U. rewrite M in U.
    apply orb_false_iff in U. destruct U as [U1 U2].
    cbn [eval]. apply alike_next; [apply eval_off; auto; apply only_uses; auto|]. intros v t t' T. apply alike_bind_only; auto. split; auto.
  - destruct (mem x (pvars p)) eqn:M; [discriminate|]. destruct (late_tail ty_never x b3) eqn:E; [|discriminate]. injection H as <-. cbn in U. rewrite M in U.
    apply orb_false_iff in U. destruct U as [U U3]. apply orb_false_iff in U. destruct U as [U1 U2].
    cbn [eval]. apply alike_next; [apply eval_off; auto; apply only_uses; auto|]. intros v t t' T. apply alike_bind_only; auto.
    apply alike_next; [apply eval_off; auto; apply only_uses; auto|]. intros. split; auto.
Qed.
Lemma late_ok : forall w n x b e' s s', late ty_never x b = Some e' -> uses x e' = false -> agree (only x) s s' ->
  alike (only x) (eval w n b s) (eval w n e' s').
Proof.
  intros w n x. induction b; intros e' s s' H U A; cbn [late] in H;
    try (destruct (uses x _); [|discriminate]; eapply usage_tail; eauto; fail).
  - destruct (uses x b1) eqn:G; [cbn [eval]; eapply usage_stmt; eauto|]. destruct (late ty_never x b2) eqn:E; [|discriminate]. injection H as <-. cbn in U. apply orb_false_iff in U. destruct U as [U1 U2].
    cbn [eval]. apply alike_next; [apply eval_off; auto; apply only_uses; auto|]. auto.
  - destruct (x0 =? x) eqn:N; [discriminate|]. destruct (late ty_never x b) eqn:E; [|discriminate]. injection H as <-. cbn in U. rewrite Nat.eqb_sym, N in U.
    apply decl_only; auto.
  - destruct (uses x b1) eqn:G; [eapply late_tail_ok; eauto|]. destruct (mem x (pvars p)) eqn:M; [discriminate|]. destruct (late ty_never x b2) eqn:E; [|discriminate]. injection H as <-. cbn in U. rewrite M in U.
    apply orb_false_iff in U. destruct U as [U1 U2].
    cbn [eval]. apply alike_next; [apply eval_off; auto; apply only_uses; auto|]. intros v t t' T. apply alike_bind_only; auto. split; auto.
  - destruct (uses x b1 || uses x b2) eqn:G; [eapply late_tail_ok; eauto|].
    destruct (mem x (pvars p)) eqn:M; [discriminate|]. destruct (late ty_never x b3) eqn:E; [|discriminate]. injection H as <-. cbn in U. rewrite M in U.
    apply orb_false_iff in U. destruct U as [U U3]. apply orb_false_iff in U. destruct U as [U1 U2].
    cbn [eval]. apply alike_next; [apply eval_off; auto; apply only_uses; auto|]. intros v t t' T. apply alike_bind_only; auto.
    apply alike_next; [apply eval_off; auto; apply only_uses; auto|]. intros. split; auto.
Qed.
Lemma needless_late_init_ok : forall x b e', needless_late_init ty_never (XDecl x b) = Some e' -> uses x e' = false -> same (XDecl x b) e'.
Proof.
  intros x b e' H U w n s. cbn [needless_late_init] in H. change (eval w n (XDecl x b) s) with (leave [x] s (eval w n b (setv s x VHole))). apply close; auto.
  - apply agree_refl.
  - apply late_ok; auto. split; [auto|]. intros y Y. cbn. unfold upd. unfold only in Y. rewrite Y. auto.
Qed.
End Never.
