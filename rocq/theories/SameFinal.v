(** The theorems about equal expressions. *)
From Verif Require Export SameRun3.
From Coq Require Import Lia.

Lemma within_trans a b c : within a b -> within b c -> within a c.
Proof. intros H K. induction H as [e|e d f I W IH]; [exact K|]. exact (w_part _ _ _ I (IH K)). Qed.
Lemma norm_silent k k' : norm k = norm k' -> silent k = silent k'.
Proof. destruct k, k'; cbn; intros H; try discriminate; reflexivity. Qed.
Lemma sim_flip konst allow R n : forall e e', size e <= n -> sim konst allow R e e' -> sim konst allow (fun x y => R y x) e' e.
Proof.
  induction n as [|n IH]; intros e e' L H; [pose proof (size_pos e); lia|].
  assert (PS : forall c c', In c (parts e) -> sim konst allow R c c' -> sim konst allow (fun x y => R y x) c' c) by (intros c c' J; apply IH; apply part_size in J; lia).
  assert (PF : forall p q, pat_sim R p q -> pat_sim (fun x y => R y x) q p) by (intros p q; apply (pat_sim_flip R _ p q (Nat.le_refl _))).
  assert (PR : forall c c', In c (parts (reduce_exprkind e)) -> sim konst allow R c c' -> sim konst allow (fun x y => R y x) c' c).
  { intros c c' J. apply IH. destruct (reduce_cases e) as [E|[(lab & u & B & E)|(lab & u & x & B & E)]]; rewrite E in J.
    - apply part_size in J. lia.
    - destruct J.
    - assert (size c < size e); [|lia]. apply part_size in J. assert (size (EExit XReturn x) < size e); [|lia]. destruct B as [->|[->| ->]]; cbn; lia. }
  destruct H as [e e' kk c K K'|l|a b RR|d sg sg'|e e' kk k' es es' PL PR' RL RR NK SI F|op lp rp a b a' b' S1 S2|op a b a' b' AL S1 S2|u u' ss tl ss' tl' B
    |c a b c' a' b' S1 S2 O|p ty e p' ty' e' PP S1|e e' arms arms' S1 FA|lab src ss tl ss' tl' B|e e' x a a' PL PR' RL RR O].
  - exact (si_const _ _ _ _ _ _ _ K' K).
  - constructor.
  - constructor. exact RR.
  - constructor.
  - apply (si_node konst allow _ _ _ k' kk es' es PR' PL RR RL (eq_sym NK)); [rewrite <- (norm_silent _ _ NK); exact SI|].
    apply (list_flip (sim konst allow R)); [exact F|]. rewrite RL in PR. exact PR.
  - constructor; apply PS; cbn; auto.
  - constructor; [exact AL| |]; apply PS; cbn; auto.
  - constructor. apply (block_flip (sim konst allow R) _ (pat_sim R)); [exact PF|exact B|exact PS].
  - constructor; [apply PS; cbn; auto|apply PS; cbn; auto|]. apply (opt_flip (sim konst allow R)); [exact O|]. intros u v J. apply PS. cbn. auto.
  - constructor; [apply PF, PP|]. apply PS; cbn; auto.
  - constructor; [apply PS; cbn; auto|]. apply (arms_flip (sim konst allow R) _ (pat_sim R)); [exact PF|exact FA|]. intros u v J. apply PS. cbn. auto.
  - constructor. apply (block_flip (sim konst allow R) _ (pat_sim R)); [exact PF|exact B|exact PS].
  - apply (si_exit konst allow _ _ _ x a' a PR' PL RR RL). rewrite RL in PR. apply (opt_flip (sim konst allow R)); [exact O|]. exact PR.
Qed.

Section Final.
  Variable w : world.
  Variable konst : expr -> option (nat * lit).
  Variable allow : bool.
  Variable prim : expr -> bool.
  Variables l r : expr.
  Hypothesis cmp : comparable w konst allow prim l r.
  Variable C : expr -> Prop.
  Hypothesis inC : forall d, within r d -> C d.
  Let xs := binds l ++ binds r.
  Variable O : id -> Prop.
  Hypothesis outside : forall x, O x -> ~ In x xs.
  Hypothesis covers : forall x, In x (free l) \/ In x (free r) -> O x.

  Lemma aligned_top n m' : eq_expr konst allow n l r [] = (true, m') ->
    exists r' P, reordered C r r' /\ incl (map fst P) (binds l) /\ incl (map snd P) (binds r) /\ NoDup (map fst P) /\ NoDup (map snd P) /\ sim konst allow (rel O P) l r'.
  Proof.
    intros E. destruct cmp as [KS [ND FR] NL NR ML MR TA]. pose proof (NoDup_app_inv _ _ ND) as (N1 & N2 & N3).
    assert (DJ : forall x, In x (binds l) -> ~ In x (binds r)) by exact N3.
    assert (OU : forall x, O x -> ~ In x (binds l) /\ ~ In x (binds r)).
    { intros x X. apply outside in X. unfold xs in X. rewrite in_app_iff in X. tauto. }
    assert (KE : forall e k c, konst e = Some (k, c) -> exports e = []) by (intros e k c K; exact (proj1 (KS e k c K))).
    assert (AG : forall n a b m m', within l a -> within r b -> eq_expr konst allow n a b m = (true, m') -> prim a = prim b).
    { intros n0 a b m m0 A B Q. apply (TA n0 a b m A B). rewrite Q. reflexivity. }
    destruct (claims (binds l) (binds r) O DJ OU konst allow C KE prim (within l) (within r) AG n) as (EX & _).
    assert (OL : okl prim (within l) l).
    { intros d W. split.
      - destruct d; try exact I. destruct lab; [destruct (NL l0 unsafe_ ss tail W)|exact I].
      - destruct d; try exact I. destruct (ML _ _ _ _ _ W) as [A B]. repeat split; auto;
          apply (within_trans _ _ _ W); (eapply w_part; [|apply w_here]); cbn; auto. }
    assert (OR : okr C prim (within r) r).
    { intros d W. split.
      - destruct d; try exact I. destruct lab; [destruct (NR l0 unsafe_ ss tail W)|exact I].
      - destruct d; try exact I. destruct (MR _ _ _ _ _ W) as [A B]. repeat split; auto;
          apply (within_trans _ _ _ W); (eapply w_part; [|apply w_here]); cbn; auto. }
    destruct (EX l r [] [] m' E OL OR) as (r' & P & R1 & Q & T).
    - constructor; cbn; auto using incl_refl, incl_nil_l; try (intros; contradiction); try discriminate.
    - exists r', P. destruct Q. repeat split; auto. apply T. cbn. apply incl_refl.
  Qed.
  Lemma rel_fun P : incl (map fst P) (binds l) -> NoDup (map fst P) -> forall x y y', rel O P x y -> rel O P x y' -> y = y'.
  Proof.
    intros I N x y y' [A|[-> A]] [B|[-> B]]; auto.
    - clear I. induction P as [|[a b] P IH]; [destruct A|]. cbn in N. inversion N as [|? ? N1 N2]; subst. destruct A as [A|A], B as [B|B].
      + congruence.
      + injection A as -> ->. destruct N1. apply (in_map fst) in B. exact B.
      + injection B as -> ->. destruct N1. apply (in_map fst) in A. exact A.
      + exact (IH N2 A B).
    - destruct (outside _ B). unfold xs. apply in_or_app. left. apply I. apply (in_map fst) in A. exact A.
    - destruct (outside _ A). unfold xs. apply in_or_app. left. apply I. apply (in_map fst) in B. exact B.
  Qed.
  Lemma rel_inj P : incl (map snd P) (binds r) -> NoDup (map snd P) -> forall x x' y, rel O P x y -> rel O P x' y -> x = x'.
  Proof.
    intros I N x x' y [A|[-> A]] [B|[-> B]]; auto.
    - clear I. induction P as [|[a b] P IH]; [destruct A|]. cbn in N. inversion N as [|? ? N1 N2]; subst. destruct A as [A|A], B as [B|B].
      + congruence.
      + injection A as -> ->. destruct N1. apply (in_map snd) in B. exact B.
      + injection B as -> ->. destruct N1. apply (in_map snd) in A. exact A.
      + exact (IH N2 A B).
    - destruct (outside _ B). unfold xs. apply in_or_app. right. apply I. apply (in_map snd) in A. exact A.
    - destruct (outside _ A). unfold xs. apply in_or_app. right. apply I. apply (in_map snd) in B. exact B.
  Qed.
  (** The stores agree on the locals bound outside, and the bindings made inside have no values. *)
  Definition alike (s s' : store) : Prop := (forall x, O x -> s x = s' x) /\ (forall x, In x (binds l) -> s x = None) /\ (forall x, In x (binds r) -> s' x = None).
  Definition follows_ (lax : bool) (a b : result) : Prop :=
    match a with
    | Fine o s t => match b with Fine o' s' t' => o = o' /\ t = t' /\ (forall x, O x -> s x = s' x) | Wrong => lax = true | More => False end
    | _ => True
    end.
  Lemma le_follows lax P a b : le lax (rel O P) a b -> follows_ lax a b.
  Proof.
    destruct a as [o s t| |]; cbn; auto. destruct b as [o' s' t'| |]; auto. intros (A & B & H). repeat split; auto. intros x N. apply H. right. auto.
  Qed.
  Lemma le_follows_back lax P a b : le lax (fun x y => rel O P y x) a b -> follows_ lax a b.
  Proof.
    destruct a as [o s t| |]; cbn; auto. destruct b as [o' s' t'| |]; auto. intros (A & B & H). repeat split; auto. intros x N. apply H. right. auto.
  Qed.
  Lemma behaves : spanless_eq konst allow l r = true ->
    exists r' k, reordered C r r' /\ forall s s' t, alike s s' -> forall n,
      follows_ false (eval w n l s t) (eval w (n + k) r' s' t) /\ follows_ false (eval w n r' s' t) (eval w (n + k) l s t).
  Proof.
    unfold spanless_eq. intros E. destruct (eq_expr konst allow (3 * size l) l r []) as [b m'] eqn:Q. cbn in E. subst b.
    destruct (aligned_top _ _ Q) as (r' & P & R1 & I1 & I2 & D1 & D2 & SM). exists r', (size l + size r'). split; [exact R1|]. intros s s' t (F1 & F2 & F3) n.
    assert (S0 : SR (rel O P) s s').
    { intros x y [J|[-> J]]; [|auto]. rewrite F2, F3; [reflexivity| |].
      - apply I2. apply (in_map snd) in J. exact J.
      - apply I1. apply (in_map fst) in J. exact J. }
    split.
    - apply (le_follows false P). apply (run_sim w konst allow (c_konst _ _ _ _ _ _ cmp) false (rel O P) (rel_fun P I1 D1) (rel_inj P I2 D2)); [exact SM|lia|exact S0].
    - apply (le_follows_back false P). apply (run_sim w konst allow (c_konst _ _ _ _ _ _ cmp) false (fun x y => rel O P y x)).
      + intros x y y' A B. exact (rel_inj P I2 D2 y y' x A B).
      + intros x x' y A B. exact (rel_fun P I1 D1 y x x' A B).
      + exact (sim_flip konst allow _ _ _ _ (Nat.le_refl _) SM).
      + lia.
      + intros x y A. symmetry. apply S0, A.
  Qed.
End Final.
Lemma SR_eq s s' : SR eq s s' <-> forall x, s x = s' x.
Proof. split; [intros H x; apply H; reflexivity|intros H x y <-; apply H]. Qed.
(** The reordered expression and the original. *)
Lemma unreorder w e e' : sensible w -> reordered calm e e' -> forall n s t, le true eq (eval w n e' s t) (eval w (n + size e) e s t).
Proof. intros OK H n s t. apply (run_reordered w OK n (size e) e e' H (Nat.le_refl _)). intros x y <-. reflexivity. Qed.
Lemma behaves_calm w konst allow prim l r (O : id -> Prop) : comparable w konst allow prim l r -> sensible w -> (forall d, within r d -> calm d) ->
  (forall x, O x -> ~ In x (binds l ++ binds r)) -> (forall x, In x (free l) \/ In x (free r) -> O x) -> spanless_eq konst allow l r = true ->
  exists k, forall s s' t, alike l r O s s' -> forall n, follows_ O true (eval w n l s t) (eval w (n + k) r s' t).
Proof.
  intros CM OK CA OU CO E. destruct (behaves w konst allow prim l r CM calm CA O OU CO E) as (r' & k & R & H). exists (k + size r). intros s s' t A n.
  destruct (H s s' t A n) as [F _]. pose proof (unreorder w r r' OK R (n + k) s' t) as U. rewrite <- Nat.add_assoc in U.
  destruct (eval w n l s t) as [o s1 t1| |]; cbn in *; auto. destruct (eval w (n + k) r' s' t) as [o2 s2 t2| |]; try contradiction; try discriminate. destruct F as (-> & -> & F).
  cbn in U. destruct (eval w (n + (k + size r)) r s' t) as [o3 s3 t3| |]; auto. destruct U as (-> & -> & U). repeat split. intros x N. rewrite (F x N). exact (U x x eq_refl).
Qed.
