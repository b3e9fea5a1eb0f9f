(** Proofs about `let` before `if`, `let`-`else`, redundant `let`, swaps and assignment operators. *)
From Verif Require Import BlkSpec BlkEnv BlkModel BlkProofs BlkProofs2.

(** ** A failed condition has left [x] as it was. *)
Lemma conds_keep : forall w n x k s t, shape true k = true -> cond_uses x k = false -> mem x (cond_vars k) = false -> eval w n k s = (OElse, t) -> fst t x = fst s x.
Proof.
  intros w n x. induction k; intros s t R U M E;
    try (match type of E with eval _ _ ?e _ = _ => pose proof (rust_else w n e s R) as X; rewrite E in X; cbn in X; congruence end);
    cbn [cond_uses cond_vars shape eval] in *; apply orb_false_iff in U; destruct U as [U1 U2]; apply andb_true_iff in R; destruct R as [R1 R2]; cbn in R1.
  - pose proof (rust_else w n k1 s R1) as X. pose proof (eval_keeps w n k1 x s (uses_changes _ _ U1)) as K. destruct (eval w n k1 s) as [o u]. rewrite next_pair in E. cbn in K, X.
    destruct o; try congruence. destruct v; try congruence. destruct b.
    + rewrite <- K. apply IHk2; auto.
    + congruence.
  - rewrite mem_app in M. apply orb_false_iff in M. destruct M as [M1 M2]. rewrite M1 in U2. cbn in U2.
    pose proof (rust_else w n k1 s R1) as X. pose proof (eval_keeps w n k1 x s (uses_changes _ _ U1)) as K. destruct (eval w n k1 s) as [o u]. rewrite next_pair in E. cbn in K, X.
    destruct o; try congruence. destruct (pbind p v (fst u)) as [f|] eqn:P.
    + destruct (eval w n k2 (f, snd u)) as [o' u'] eqn:E2. unfold leave in E. cbn in E. injection E as -> <-. cbn. rewrite M1. rewrite (IHk2 _ _ R2 U2 M2 E2). cbn.
      rewrite (pbind_other _ _ _ _ _ P M1). auto.
    + congruence.
Qed.
Lemma app_uses : forall x b r, uses x (app b r) = false -> uses x b = false.
Proof.
  intros x. induction b; intros r U; try (cbn in U; apply orb_false_iff in U; apply U; fail); try reflexivity; cbn [app uses] in *.
  - apply orb_false_iff in U. destruct U as [-> U]. cbn. eauto.
  - destruct (negb (x =? x0)); [|auto]. cbn in *. eauto.
  - apply orb_false_iff in U. destruct U as [-> U]. cbn. destruct (negb (mem x (pvars p))); [|auto]. cbn in *. eauto.
  - apply orb_false_iff in U. destruct U as [-> U]. cbn. destruct (negb (mem x (pvars p))); [|auto]. cbn in *. eauto.
Qed.
Lemma if_parts : forall x k b' d, uses x (XIf (on_body (fun _ => b') k) d) = false -> mem x (cond_vars k) = false -> uses x b' = false /\ uses x d = false.
Proof.
  intros x k b' d U M. cbn in U. apply orb_false_iff in U. destruct U as [U ->]. split; [|auto]. clear d.
  induction k; try (rewrite link_on in U by auto; auto; fail); cbn [on_body uses cond_vars] in *; apply orb_false_iff in U; destruct U as [_ U]; auto.
  rewrite mem_app in M. apply orb_false_iff in M. destruct M as [M1 M2]. rewrite M1 in U. auto.
Qed.
Lemma let_if_ok : forall w n x c i r e' s s', let_if x (XVal c) i r = Some e' -> c <> VHole -> rust i -> uses x e' = false ->
  (forall k d, i = XIf k d -> unit_valued d) -> agree (only x) s s' -> fst s x = c ->
  exists v, e' = XLet (PVar x) v r /\ assigned x (eval w n i s) (eval w n v s').
Proof.
  intros w n x c i r e' s s' H NH R U UV A S. destruct i; try discriminate; cbn [let_if] in H.
  - destruct (cond_uses x i1 || mem x (cond_vars i1) || is_if i2) eqn:G; [discriminate|]. apply orb_false_iff in G. destruct G as [G _]. apply orb_false_iff in G. destruct G as [G1 G2].
    destruct (check_assign x (body i1)) as [b|] eqn:C; [|discriminate]. destruct (uses x (last_value b)); [discriminate|]. injection H as <-.
    eexists. split; [reflexivity|]. cbn [uses] in U. apply orb_false_iff in U. destruct U as [U _].
    apply (if_parts x i1 b) in U; [|auto]. destruct U as [Ub Ud].
    unfold rust in R. cbn [shape] in R. apply andb_true_iff in R. destruct R as [R1 R2].
    assert (K : assigned x (eval w n i1 s) (eval w n (on_body (fun _ => b) i1) s')) by (apply assigned_conds; auto; intros; eapply let_if_give; eauto).
    pose proof (conds_keep w n x i1 s) as KE. cbn [eval].
    destruct (eval w n i1 s) as [o t], (eval w n (on_body (fun _ => b) i1) s') as [o' t']. unfold assigned in K. cbn in K.
    destruct o'; destruct K as [-> K]; try (split; auto; fail). specialize (KE t R1 G1 G2 eq_refl).
    destruct (check_assign x i2) as [d'|] eqn:D; [eapply let_if_give; eauto|].
    assert (A2 : alike none_of (next (eval w n i2 t') (fun _ u => (OVal c, u))) (eval w n (app i2 (XVal c)) t')).
    { eapply alike_trans; [|apply app_scope; auto]. apply alike_next; [apply alike_refl|]. intros v u u' V. cbn [eval]. rewrite given_solid by auto. split; auto. }
    apply app_uses in Ud. pose proof (eval_off w n i2 (only x) t t' (only_uses _ _ Ud) K) as [B1 B2]. pose proof (eval_keeps w n i2 x t (uses_changes _ _ Ud)) as KD.
    pose proof (UV _ _ eq_refl w n t) as UN.
    destruct (eval w n i2 t) as [p u], (eval w n i2 t') as [p' u'], (eval w n (app i2 (XVal c)) t') as [q q']. rewrite next_pair in A2. cbn in B1, B2, KD, UN. subst p'.
    destruct A2 as [A3 A4]. unfold assigned. cbn [fst snd].
    destruct p; cbn [fst snd] in *; subst q; try (split; auto; eapply agree_trans; [apply B2|]; apply agree_none_any; auto; fail).
    rewrite (UN _ _ eq_refl). split; [auto|]. destruct A4 as [A4 A5], B2 as [B2 B3]. split; [cbn; congruence|]. intros y _. cbn. unfold upd. destruct (y =? x) eqn:E.
    + apply Nat.eqb_eq in E. subst y. congruence.
    + rewrite B3 by auto. apply A5. auto.
  - destruct (cond_uses x i || mem x (cond_vars i)) eqn:G; [discriminate|]. apply orb_false_iff in G. destruct G as [G1 G2].
    destruct (check_assign x (body i)) as [b|] eqn:C; [|discriminate]. destruct (uses x (last_value b)); [discriminate|]. injection H as <-.
    eexists. split; [reflexivity|]. cbn [uses] in U. apply orb_false_iff in U. destruct U as [U _].
    apply (if_parts x i b (XVal c)) in U; [|auto]. destruct U as [Ub Ud]. unfold rust in R. cbn [shape] in R.
    assert (K : assigned x (eval w n i s) (eval w n (on_body (fun _ => b) i) s')) by (apply assigned_conds; auto; intros; eapply let_if_give; eauto).
    pose proof (conds_keep w n x i s) as KE. cbn [eval].
    destruct (eval w n i s) as [o t], (eval w n (on_body (fun _ => b) i) s') as [o' t']. unfold assigned in K. cbn in K.
    destruct o'; destruct K as [-> K]; try (split; auto; fail). specialize (KE t R G1 G2 eq_refl). rewrite given_solid by auto.
    split; [auto|]. destruct K as [K1 K2]. split; [auto|]. intros y _. cbn. unfold upd. destruct (y =? x) eqn:E.
    + apply Nat.eqb_eq in E. subst y. congruence.
    + apply K2. auto.
Qed.
Lemma rust_seq : forall a b, rust (XSeq a b) -> rust a /\ rust b.
Proof. intros a b R. unfold rust in *. cbn in R. apply andb_true_iff in R. auto. Qed.
Lemma useless_let_if_seq_ok : forall x c b e', useless_let_if_seq (XLet (PVar x) (XVal c) b) = Some e' -> rust b ->
  (forall k d r, b = XSeq (XIf k d) r \/ b = XIf k d -> unit_valued d) -> uses x e' = false -> same_ok (XLet (PVar x) (XVal c) b) e'.
Proof.
  intros x c b e' H R UV U w n s N. cbn [eval pbind pvars] in *.
  assert (NH : c <> VHole) by (intros ->; apply N; reflexivity). rewrite given_solid, next_pair in * by auto. clear N.
  assert (A : agree (only x) (setv s x c) s). { split; [auto|]. intros y Y. cbn. unfold upd. unfold only in Y. rewrite Y. auto. }
  change (upd (fst s) x c, snd s) with (setv s x c). apply close; auto; [apply agree_refl|].
  destruct b; cbn [useless_let_if_seq] in H; try discriminate.
  - apply rust_seq in R. destruct R as [R1 R2].
    destruct (let_if_ok w n _ _ _ _ _ _ _ H NH R1 U (fun k d Q => UV k d b2 (or_introl (f_equal (fun z => XSeq z b2) Q))) A (upd_same s x c)) as (v & -> & K).
    apply assigned_let. auto.
  - destruct (let_if_ok w n _ _ _ _ _ _ _ H NH R U (fun k d Q => UV k d (XVal VUnit) (or_intror Q)) A (upd_same s x c)) as (v & -> & K).
    eapply alike_trans; [|apply assigned_let; apply K].
    unfold assigned in K. destruct (eval w n (XIf b1 b2) (setv s x c)) as [o t], (eval w n v s) as [o' t']. rewrite next_pair. cbn in K. destruct o'; destruct K as [-> K]; apply alike_refl.
  - destruct (let_if_ok w n _ _ _ _ _ _ _ H NH R U (fun k d Q => UV k d (XVal VUnit) (or_intror Q)) A (upd_same s x c)) as (v & -> & K).
    eapply alike_trans; [|apply assigned_let; apply K].
    unfold assigned in K. destruct (eval w n (XWhen b) (setv s x c)) as [o t], (eval w n v s) as [o' t']. rewrite next_pair. cbn in K. destruct o'; destruct K as [-> K]; apply alike_refl.
Qed.

(** ** Patterns with a pattern in place of a name. *)
Lemma pbind_vals : forall p v f g f', pbind p v f = Some g -> exists g', pbind p v f' = Some g' /\ forall z, mem z (pvars p) = true -> g' z = g z.
Proof.
  intros p v f g f' H. pose proof (pbind_rel p v (fun _ => true) f f') as R. rewrite H in R. destruct (pbind p v f') as [g'|].
  - exists g'. split; [auto|]. intros z Z. symmetry. apply R; [discriminate|]. unfold minus. rewrite Z. auto.
  - exfalso. apply R. discriminate.
Qed.
Lemma pbind_fails : forall p v f f', pbind p v f = None -> pbind p v f' = None.
Proof. intros p v f f' H. destruct (pbind p v f') eqn:E; [|auto]. destruct (pbind_vals _ _ _ _ f E) as (g & G & _). congruence. Qed.
Lemma replace_out : forall y p q, mem y (pvars q) = false -> replace_in y p q = q.
Proof.
  intros y p. induction q; cbn [pvars replace_in]; intros H; auto.
  - cbn in H. rewrite orb_false_r, Nat.eqb_sym in H. rewrite H. auto.
  - f_equal. auto.
  - rewrite mem_app in H. apply orb_false_iff in H. destruct H. f_equal; auto.
Qed.
Lemma replace_fails : forall y p q v f f', pbind q v f = None -> pbind (replace_in y p q) v f' = None.
Proof.
  intros y p. induction q; intros v f f' H; cbn [replace_in]; try discriminate.
  - cbn in *. destruct v; auto. destruct (c =? c0); auto. discriminate.
  - cbn in *. destruct v; auto. destruct (c =? c0); auto. eauto.
  - cbn in *. destruct v; auto. destruct (c =? c0); auto. destruct (pbind q1 v1 f) as [g|] eqn:E.
    + destruct (pbind (replace_in y p q1) v1 f'); auto. eauto.
    + rewrite (IHq1 _ _ _ E). auto.
Qed.
Lemma nodup_app : forall (l m : list nat), NoDup (l ++ m) -> NoDup l /\ NoDup m /\ (forall x, In x l -> ~ In x m).
Proof.
  induction l as [|a l IH]; cbn; intros m H; [repeat split; auto; constructor|]. inversion H; subst. destruct (IH _ H3) as (A & B & C). repeat split; auto.
  - constructor; auto. intros Q. apply H2. apply in_or_app. auto.
  - intros x [->|X] Q; [apply H2, in_or_app; auto|eapply C; eauto].
Qed.
Lemma mem_not : forall x l, mem x l = false <-> ~ In x l.
Proof. intros x l. rewrite <- mem_in. destruct (mem x l); split; congruence. Qed.
Lemma replace_binds : forall y p q v f h f0 g, NoDup (pvars q) -> mem y (pvars q) = true ->
  (forall z, mem z (pvars q) = true -> z <> y -> mem z (pvars p) = false) ->
  pbind q v f = Some h -> pbind p (h y) f0 = Some g ->
  exists g', pbind (replace_in y p q) v f = Some g' /\ (forall z, mem z (pvars p) = true -> g' z = g z) /\
    (forall z, mem z (pvars p) = false -> mem z (pvars q) = false -> g' z = f z).
Proof.
  intros y p. induction q; intros v f h f0 g ND M D H G; cbn [pvars] in *; try discriminate.
  - cbn in M. rewrite orb_false_r in M. cbn [replace_in]. rewrite Nat.eqb_sym, M. apply Nat.eqb_eq in M. subst x. cbn in H. injection H as <-.
    unfold upd in G. rewrite Nat.eqb_refl in G. destruct (pbind_vals _ _ _ _ f G) as (g' & E1 & E2). exists g'. split; [auto|]. split; [auto|].
    intros z Z _. eapply pbind_other; eauto.
  - cbn in H. destruct v; try discriminate. cbn [replace_in pbind]. destruct (c =? c0); [|discriminate]. eauto.
  - cbn in H. destruct v; try discriminate. cbn [replace_in pbind]. destruct (c =? c0); [|discriminate]. destruct (pbind q1 v1 f) as [f1|] eqn:E1; [|discriminate].
    apply nodup_app in ND. destruct ND as (N1 & N2 & N3). rewrite mem_app in M. destruct (mem y (pvars q1)) eqn:M1.
    + assert (M2 : mem y (pvars q2) = false) by (apply mem_not, N3, mem_in; auto). rewrite (replace_out _ _ _ M2).
      rewrite (pbind_other _ _ _ _ _ H M2) in G.
      destruct (IHq1 v1 f f1 f0 g N1 eq_refl) as (g1 & A1 & A2 & A3); auto.
      { intros z Z. apply D. rewrite mem_app, Z. auto. }
      rewrite A1. destruct (pbind_vals _ _ _ _ g1 H) as (g2 & B1 & B2). exists g2. split; [auto|]. split.
      * intros z Z. rewrite (pbind_other _ _ _ _ _ B1); auto. apply not_true_is_false. intros Q. rewrite D in Z; [discriminate| |congruence]. rewrite mem_app, Q. apply orb_true_r.
      * intros z Z1 Z2. rewrite mem_app in Z2. apply orb_false_iff in Z2. destruct Z2. rewrite (pbind_other _ _ _ _ _ B1); auto.
    + cbn in M. rewrite (replace_out _ _ _ M1). rewrite E1.
      destruct (IHq2 v2 f1 h f0 g N2 M) as (g2 & A1 & A2 & A3); auto.
      { intros z Z. apply D. rewrite mem_app, Z. apply orb_true_r. }
      exists g2. split; [auto|]. split; [auto|]. intros z Z1 Z2. rewrite mem_app in Z2. apply orb_false_iff in Z2. destruct Z2. rewrite A3 by auto. eapply pbind_other; eauto.
Qed.
Lemma replace_vars : forall y p q z, mem z (pvars (replace_in y p q)) = true -> mem z (pvars p) = true \/ (mem z (pvars q) = true /\ z <> y).
Proof.
  intros y p. induction q; intros z H; cbn [replace_in pvars] in *; auto; try discriminate.
  - destruct (Nat.eqb_spec x y) as [E|E]; [auto|]. right. split; [auto|]. cbn in H. rewrite orb_false_r in H. apply Nat.eqb_eq in H. congruence.
  - rewrite mem_app in H. rewrite mem_app. apply orb_true_iff in H. destruct H as [H|H]; [destruct (IHq1 _ H) as [?|[-> ?]]|destruct (IHq2 _ H) as [?|[-> ?]]]; auto.
    right. rewrite orb_true_r. auto.
Qed.
Lemma replace_vars_q : forall y p q z, mem z (pvars q) = true -> z <> y -> mem z (pvars (replace_in y p q)) = true.
Proof.
  intros y p. induction q; intros z H N; cbn [replace_in pvars] in *; auto.
  - destruct (Nat.eqb_spec x y) as [E|E]; [|auto]. cbn in H. rewrite orb_false_r in H. apply Nat.eqb_eq in H. congruence.
  - rewrite mem_app in *. apply orb_true_iff in H. destruct H as [H|H]; [rewrite IHq1 by auto; auto|rewrite IHq2 by auto; apply orb_true_r].
Qed.
Lemma replace_vars_p : forall y p q z, mem y (pvars q) = true -> mem z (pvars p) = true -> mem z (pvars (replace_in y p q)) = true.
Proof.
  intros y p. induction q; intros z H N; cbn [replace_in pvars] in *; auto; try discriminate.
  - cbn in H. rewrite orb_false_r, Nat.eqb_sym in H. rewrite H. auto.
  - rewrite mem_app in *. apply orb_true_iff in H. destruct H as [H|H]; [rewrite IHq1 by auto; auto|rewrite IHq2 by auto; apply orb_true_r].
Qed.
Lemma replace_disjoint : forall y p q z, mem y (pvars q) = true -> NoDup (pvars q) -> NoDup (pvars (replace_in y p q)) -> mem z (pvars q) = true -> z <> y -> mem z (pvars p) = false.
Proof.
  intros y p. induction q; intros z M N1 N2 Z E; cbn [replace_in pvars] in *; try discriminate.
  - cbn in *. rewrite orb_false_r in *. apply Nat.eqb_eq in M, Z. congruence.
  - eauto.
  - rewrite mem_app in *. apply nodup_app in N1, N2. destruct N1 as (A1 & A2 & A3), N2 as (B1 & B2 & B3).
    destruct (mem y (pvars q1)) eqn:M1, (mem z (pvars q1)) eqn:Z1; cbn in *; try (eapply IHq1; eauto; fail).
    + apply not_true_is_false. intros Q. apply (B3 z); apply mem_in; [apply replace_vars_p; auto|apply replace_vars_q; auto].
    + apply not_true_is_false. intros Q. apply (B3 z); apply mem_in; [apply replace_vars_q; auto|apply replace_vars_p; auto].
    + eapply IHq2; eauto.
Qed.

Lemma bound_alike : forall w n p q q' r t f g g' u,
  (forall z, mem z (pvars q') = true -> mem z (pvars p) = false -> uses z r = false) ->
  (forall z, mem z (pvars p) = true -> mem z (pvars q') = true) ->
  (forall z, fst u z = fst t z) -> snd u = snd t ->
  pbind p (f : val) (fst u) = Some g -> pbind q' q (fst t) = Some g' ->
  (forall z, mem z (pvars p) = true -> g' z = g z) ->
  alike none_of (leave (pvars p) u (eval w n r (g, snd u))) (leave (pvars q') t (eval w n r (g', snd t))).
Proof.
  intros w n p q q' r t f g g' u U PQ BT SN G G' A2. rewrite SN.
  set (L := fun z => mem z (pvars q') && negb (mem z (pvars p))).
  assert (UL : forall z, L z = true -> uses z r = false).
  { intros z Z. unfold L in Z. apply andb_true_iff in Z. destruct Z as [Z1 Z2]. apply negb_true_iff in Z2. auto. }
  assert (AL : agree L (g, snd t) (g', snd t)).
  { split; [auto|]. intros z Z. cbn. destruct (mem z (pvars p)) eqn:P; [symmetry; auto|]. rewrite (pbind_other _ _ _ _ _ G P), BT.
    symmetry. unfold L in Z. rewrite P, andb_true_r in Z. eapply pbind_other; eauto. }
  destruct (eval_off w n r L _ _ UL AL) as [B1 [B2 B3]]. split; [exact B1|]. split; [exact B2|]. intros z _. cbn.
  destruct (mem z (pvars p)) eqn:P; [rewrite PQ by auto; auto|]. destruct (mem z (pvars q')) eqn:Q.
  - rewrite eval_keeps by (apply uses_changes; auto). cbn. rewrite (pbind_other _ _ _ _ _ G P). auto.
  - apply B3. unfold L. rewrite Q. auto.
Qed.
Lemma back_ext : forall p v t f, pbind p v (fst t) = Some f -> forall z, fst (back (pvars p) t (f, snd t)) z = fst t z.
Proof. intros p v t f H z. cbn. destruct (mem z (pvars p)) eqn:E; auto. eapply pbind_other; eauto. Qed.
(** The value of [b], a name bound by [q], is taken, and bound by [p]. *)
Lemma let_else_hit : forall w n p q b y r t v f, peel b = XVar y -> mem y (pvars q) = true -> NoDup (pvars q) -> NoDup (pvars (replace_in y p q)) ->
  (forall z, mem z (pvars (replace_in y p q)) = true -> mem z (pvars p) = false -> uses z r = false) ->
  pbind q v (fst t) = Some f ->
  let old := next (leave (pvars q) t (eval w n b (f, snd t))) (fun u t' => match pbind p u (fst t') with
    Some g => leave (pvars p) t' (eval w n r (g, snd t')) | None => (OStuck, t') end) in
  fst old <> OStuck -> exists g', pbind (replace_in y p q) v (fst t) = Some g' /\
    alike none_of old (leave (pvars (replace_in y p q)) t (eval w n r (g', snd t))).
Proof.
  intros w n p q b y r t v f P M N1 N2 U B old NS. unfold old in *. clear old.
  rewrite <- (peel_eval w n b) in *. rewrite P in *. cbn [eval fst] in *.
  assert (E : given (f y) (f, snd t) = (OStuck, (f, snd t)) \/ given (f y) (f, snd t) = (OVal (f y), (f, snd t))) by (destruct (f y); auto).
  destruct E as [E|E]; rewrite E in *; unfold leave at 1 in NS; unfold leave at 1; cbn [fst snd] in *; rewrite next_pair in *; [exfalso; apply NS; reflexivity|].
  destruct (pbind p (f y) (fst (back (pvars q) t (f, snd t)))) as [g|] eqn:G; [|exfalso; apply NS; reflexivity].
  destruct (replace_binds y p q v (fst t) f _ g N1 M (fun z Z1 Z2 => replace_disjoint y p q z M N1 N2 Z1 Z2) B G) as (g' & A1 & A2 & A3).
  exists g'. split; [auto|]. eapply bound_alike; eauto.
  - intros z Z. apply replace_vars_p; auto.
  - eapply back_ext; eauto.
Qed.

Section Never.
Variable ty_never : ex -> bool.
Hypothesis never_sound : forall e, ty_never e = true -> forall w n s v, fst (eval w n e s) <> OVal v.
Lemma let_else_inv : forall p q c b d r e', let_else p q c b d r = Some e' -> exists y, peel b = XVar y /\ mem y (pvars q) = true /\ e' = XLetElse (replace_in y p q) c d r.
Proof.
  intros p q c b d r e' H. unfold let_else in H. destruct (peel b); try discriminate. destruct (mem x (pvars q)) eqn:M; [|discriminate]. injection H as <-. eauto.
Qed.
Lemma next_never : forall (r : out * st) k, (forall v, fst r <> OVal v) -> next r k = r.
Proof. intros [o s] k H. rewrite next_pair. destruct o; auto. exfalso. apply (H v). auto. Qed.
Lemma no_vars_bind : forall p v f g, no_vars p = true -> pbind p v f = Some g -> forall z, g z = f z.
Proof.
  intros p v f g N H z. eapply pbind_other; eauto. unfold no_vars in N. destruct (pvars p); [auto|discriminate].
Qed.
Lemma no_vars_nil : forall p, no_vars p = true -> pvars p = [].
Proof. intros p N. unfold no_vars in N. destruct (pvars p); [auto|discriminate]. Qed.
Lemma eval_val_else : forall w n b y s, peel b = XVar y -> fst (eval w n b s) <> OElse.
Proof. intros w n b y s P. rewrite <- (peel_eval w n b), P. apply given_else. Qed.
Lemma manual_let_else_ok : forall e e', manual_let_else ty_never e = Some e' -> linear e -> linear e' -> rust e ->
  (forall p i q c d r, e = XLet p i r -> e' = XLetElse q c d r -> forall z, mem z (pvars q) = true -> mem z (pvars p) = false -> uses z r = false) ->
  (forall p c q1 b1 q2 b2 r, e = XLet p (XMatch c q1 b1 q2 b2) r -> ty_never b1 = true -> forall v f, pbind q1 v f <> None -> pbind q2 v f <> None -> False) ->
  same_ok e e'.
Proof.
  intros e e' H LE LE' R U D w n s NS. destruct e; try discriminate. destruct e1; try discriminate.
  - destruct e1_1; try discriminate. cbn [manual_let_else] in H. destruct (negb (link e1_1_2) && ty_never e1_2) eqn:G; [|discriminate].
    apply andb_true_iff in G. destruct G as [_ G]. destruct (let_else_inv _ _ _ _ _ _ _ H) as (y & P & M & ->).
    specialize (U _ _ _ _ _ _ eq_refl eq_refl). assert (N1 : NoDup (pvars p0)) by (apply LE; cbn; auto). assert (N2 : NoDup (pvars (replace_in y p p0))) by (apply LE'; cbn; auto).
    unfold rust in R. cbn in R. apply andb_true_iff in R. destruct R as [R _]. apply andb_true_iff in R. destruct R as [R _]. apply andb_true_iff in R. destruct R as [R _].
    cbn [eval] in *. pose proof (rust_else w n e1_1_1 s R) as X. destruct (eval w n e1_1_1 s) as [o t]. rewrite !next_pair in *. cbn in X.
    destruct o; try (rewrite next_pair; apply alike_refl); try congruence. destruct (pbind p0 v (fst t)) as [f|] eqn:B.
    + pose proof (eval_val_else w n e1_1_2 y (f, snd t) P) as X2.
      assert (Q : match leave (pvars p0) t (eval w n e1_1_2 (f, snd t)) with (OElse, s0) => eval w n e1_2 s0 | (_, _) as r => r end = leave (pvars p0) t (eval w n e1_1_2 (f, snd t))).
      { unfold leave. destruct (eval w n e1_1_2 (f, snd t)) as [o u]. cbn in *. destruct o; congruence. }
      rewrite Q in *. destruct (let_else_hit w n p p0 e1_1_2 y e2 t v f P M N1 N2 U B NS) as (g' & A1 & A2). rewrite A1. exact A2.
    + rewrite (replace_fails _ _ _ _ _ (fst t) B). rewrite !next_never by (apply never_sound; auto). apply alike_refl.
  - cbn [manual_let_else] in H. unfold rust in R. cbn in R. apply andb_true_iff in R. destruct R as [R _]. apply andb_true_iff in R. destruct R as [R _]. apply andb_true_iff in R. destruct R as [R _].
    destruct (ty_never e1_2 && no_vars p0) eqn:G.
    + apply andb_true_iff in G. destruct G as [G1 G2]. destruct (is_variant p0 && is_variant q); [|discriminate]. destruct (let_else_inv _ _ _ _ _ _ _ H) as (y & P & M & ->).
      specialize (U _ _ _ _ _ _ eq_refl eq_refl). assert (N1 : NoDup (pvars q)) by (apply LE; cbn; auto). assert (N2 : NoDup (pvars (replace_in y p q))) by (apply LE'; cbn; auto).
      specialize (D _ _ _ _ _ _ _ eq_refl G1). cbn [eval] in *. destruct (eval w n e1_1 s) as [o t]. rewrite !next_pair in *. destruct o; try (rewrite next_pair; apply alike_refl).
      destruct (pbind p0 v (fst t)) as [f|] eqn:B.
      * assert (Q : pbind q v (fst t) = None). { specialize (D v (fst t)). rewrite B in D. destruct (pbind q v (fst t)); auto. exfalso. apply D; congruence. }
        rewrite (replace_fails _ _ _ _ _ (fst t) Q). rewrite (next_never (eval w n e1_2 t)) by (apply never_sound; auto).
        rewrite (no_vars_nil _ G2). rewrite next_never by (cbn; apply never_sound; auto).
        destruct (eval_ext w n e1_2 (f, snd t) t) as [C1 [C2 C3]]; [split; [auto|]; intros z _; eapply no_vars_bind; eauto|]. split; [auto|]. split; [auto|]. cbn. auto.
      * destruct (pbind q v (fst t)) as [f|] eqn:B2; [|exfalso; apply NS; reflexivity].
        destruct (let_else_hit w n p q e1_3 y e2 t v f P M N1 N2 U B2 NS) as (g' & A1 & A2). rewrite A1. exact A2.
    + destruct (ty_never e1_3 && no_vars q) eqn:G'; [|discriminate]. apply andb_true_iff in G'. destruct G' as [G1 G2]. destruct (let_else_inv _ _ _ _ _ _ _ H) as (y & P & M & ->).
      specialize (U _ _ _ _ _ _ eq_refl eq_refl). assert (N1 : NoDup (pvars p0)) by (apply LE; cbn; auto). assert (N2 : NoDup (pvars (replace_in y p p0))) by (apply LE'; cbn; auto).
      clear D. cbn [eval] in *. destruct (eval w n e1_1 s) as [o t]. rewrite !next_pair in *. destruct o; try (rewrite next_pair; apply alike_refl).
      destruct (pbind p0 v (fst t)) as [f|] eqn:B.
      * destruct (let_else_hit w n p p0 e1_2 y e2 t v f P M N1 N2 U B NS) as (g' & A1 & A2). rewrite A1. exact A2.
      * rewrite (replace_fails _ _ _ _ _ (fst t) B). destruct (pbind q v (fst t)) as [f|] eqn:B2; [|exfalso; apply NS; reflexivity].
        rewrite (next_never (eval w n e1_3 t)) by (apply never_sound; auto).
        rewrite (no_vars_nil _ G2). rewrite next_never by (cbn; apply never_sound; auto).
        destruct (eval_ext w n e1_3 (f, snd t) t) as [C1 [C2 C3]]; [split; [auto|]; intros z _; eapply no_vars_bind; eauto|]. split; [auto|]. split; [auto|]. cbn. auto.
Qed.
End Never.
