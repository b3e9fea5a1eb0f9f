(** Proofs about the lints on conditions, blocks and `else`. *)
From Verif Require Import BlkSpec BlkEnv BlkModel.

Ltac inv H := inversion H; subst; clear H.

Lemma eval_ext : forall world n e s s', agree none_of s s' -> alike none_of (eval world n e s) (eval world n e s').
Proof. intros. apply eval_off; auto. discriminate. Qed.
Lemma same_refl : forall e, same e e.
Proof. intros e w n s. apply alike_refl. Qed.
Lemma same_eq : forall e e', (forall w n s, eval w n e s = eval w n e' s) -> same e e'.
Proof. intros e e' H w n s. rewrite H. apply alike_refl. Qed.
Lemma next_pair : forall o s k, next (o, s) k = match o with OVal v => k v s | o => (o, s) end.
Proof. destruct o; auto. Qed.
Lemma next_next : forall r f g, next (next r f) g = next r (fun v s => next (f v s) g).
Proof. intros [o s] f g. unfold next; cbn. destruct o; auto. Qed.
Lemma next_eq : forall r f g, (forall v s, r = (OVal v, s) -> f v s = g v s) -> next r f = next r g.
Proof. intros [o s] f g H. unfold next; cbn. destruct o; auto. Qed.
Lemma next_same : forall r r' f g, r = r' -> (forall v s, f v s = g v s) -> next r f = next r' g.
Proof. intros r r' f g -> H. apply next_eq. auto. Qed.
Lemma leave_next : forall xs s r f, leave xs s (next r f) = match fst r with OVal v => leave xs s (f v (snd r)) | _ => leave xs s r end.
Proof. intros xs s [o t] f. unfold next. cbn. destruct o; auto. Qed.

(** Values are not [VHole]. *)
Definition firm (o : out) : Prop := o <> OVal VHole /\ forall l, o <> OBrk l VHole.
Lemma firm_next : forall r k, firm (fst r) -> (forall v s, v <> VHole -> firm (fst (k v s))) -> firm (fst (next r k)).
Proof. intros [o s] k A B. unfold next. cbn in *. destruct o; auto. apply B. destruct A as [A _]. congruence. Qed.
Lemma firm_given : forall v s, firm (fst (given v s)).
Proof. intros v s. split; destruct v; cbn; discriminate. Qed.
Lemma firm_val : forall v, v <> VHole -> firm (OVal v).
Proof. intros v H. split; congruence. Qed.
Lemma firm_bin : forall o v w, firm (bin o v w).
Proof. intros o v w. split; destruct o, v; cbn; try discriminate; destruct w; try discriminate; destruct (z0 =? 0)%Z; discriminate. Qed.
Lemma firm_loop : forall l f m s, (forall s, firm (fst (f s))) -> firm (fst (run_loop l f m s)).
Proof.
  intros l f m. induction m as [|m IH]; intros s F; cbn; [split; discriminate|]. specialize (F s) as G. destruct (f s) as [o t]. cbn in *.
  destruct o; cbn; auto; destruct (hits l l0); cbn; auto. apply firm_val. destruct G as [_ G]. specialize (G l0). congruence.
Qed.
Lemma firm_for : forall l f vs s, (forall v s, firm (fst (f v s))) -> firm (fst (run_for l f vs s)).
Proof.
  intros l f vs. induction vs as [|v vs IH]; intros s F; cbn; [split; discriminate|]. specialize (F v s) as G. destruct (f v s) as [o t]. cbn in *.
  destruct o; cbn; auto; destruct (hits l l0); cbn; auto. split; discriminate.
Qed.
Lemma eval_firm : forall w n e s, firm (fst (eval w n e s)).
Proof.
  intros w n. induction e; intros s; cbn [eval];
    try (apply firm_next; [auto|]; intros v1 t1 N1; try (apply firm_next; [auto|]; intros v2 t2 N2));
    try (repeat match goal with |- firm (fst (match ?u with _ => _ end)) => destruct u eqn:? end; cbn [fst snd leave]; auto;
         try apply firm_given; try apply firm_bin; split; discriminate).
  - destruct (bin o (fst t1 x) v1) eqn:E; cbn; try (split; discriminate); rewrite <- E; apply firm_bin.
  - destruct (fst t2 x); try (split; discriminate). destruct v2; try (split; discriminate). destruct (at_ l z); try (split; discriminate).
    destruct (bin o v v1) eqn:E; cbn; try (split; discriminate); rewrite <- E; apply firm_bin.
  - destruct (pbind p v1 (fst t1)); [cbn; auto|]. apply firm_next; [auto|]. intros. split; discriminate.
  - specialize (IHe1 s). destruct (eval w n e1 s) as [o t]. destruct o; auto.
  - specialize (IHe s). destruct (eval w n e s) as [o t]. destruct o; auto; split; discriminate.
  - apply firm_loop. auto.
  - apply firm_loop. intros t. specialize (IHe t). destruct (eval w n e t) as [o u]. destruct o; auto. split; discriminate.
  - destruct v1; try (split; discriminate). apply firm_for. intros v u. destruct (pbind p v (fst u)); [cbn; auto|split; discriminate].
  - specialize (IHe s). destruct (eval w n e s) as [o t]. destruct o; auto. destruct l0; auto. destruct (l =? n0); auto. cbn in *.
    apply firm_val. destruct IHe as [_ I]. specialize (I (Some n0)). congruence.
  - cbn. split; congruence.
Qed.
Lemma eval_solid : forall w n e s v t, eval w n e s = (OVal v, t) -> v <> VHole.
Proof. intros w n e s v t E H. subst. pose proof (eval_firm w n e s) as [F _]. rewrite E in F. cbn in F. congruence. Qed.
Lemma given_solid : forall v s, v <> VHole -> given v s = (OVal v, s).
Proof. intros v s H. destruct v; auto. congruence. Qed.

(** ** Conditions. *)
Definition settle (r : out * st) : out * st := match r with (OElse, s) | (OVal _, s) => (OVal VUnit, s) | r => r end.
Lemma eval_when : forall w n k s, eval w n (XWhen k) s = settle (eval w n k s).
Proof. intros. cbn. destruct (eval w n k s) as [[] t]; auto. Qed.
Lemma settle_leave : forall xs s r, settle (leave xs s r) = leave xs s (settle r).
Proof. intros xs s [[] t]; auto. Qed.
Lemma link_body : forall k, link k = false -> body k = k.
Proof. destruct k; auto; discriminate. Qed.
Lemma link_on : forall g k, link k = false -> on_body g k = g k.
Proof. destruct k; auto; discriminate. Qed.
Lemma settle_idem : forall r, settle (settle r) = settle r.
Proof. intros [[] s]; auto. Qed.
Lemma body_link : forall k, link (body k) = false.
Proof. induction k; auto. Qed.

(** The body of conditions replaced by one that settles alike. *)
Lemma on_body_settle : forall w n g k s, (forall s, settle (eval w n (body k) s) = settle (eval w n (g (body k)) s)) ->
  settle (eval w n k s) = settle (eval w n (on_body g k) s).
Proof.
  intros w n g. induction k; intros s H; cbn [on_body]; try (rewrite link_body in H by auto; apply H; auto; fail).
  - cbn [body] in H. cbn [eval]. destruct (eval w n k1 s) as [o t]. unfold next; cbn. destruct o; auto. destruct v; auto. destruct b; auto.
  - cbn [body] in H. cbn [eval]. destruct (eval w n k1 s) as [o t]. unfold next; cbn. destruct o; auto. destruct (pbind p v (fst t)); auto.
    rewrite !settle_leave. rewrite IHk2; auto.
Qed.
(** The body of conditions replaced by one that does the same. *)
Lemma on_body_eq : forall w n g k s, (forall s, eval w n (body k) s = eval w n (g (body k)) s) -> eval w n k s = eval w n (on_body g k) s.
Proof.
  intros w n g. induction k; intros s H; cbn [on_body]; try (rewrite link_body in H by auto; apply H; auto; fail).
  - cbn [body] in H. cbn [eval]. apply next_same; [auto|]. intros v t. destruct v; auto. destruct b; auto.
  - cbn [body] in H. cbn [eval]. apply next_same; [auto|]. intros v t. destruct (pbind p v (fst t)); auto. rewrite IHk2; auto.
Qed.

Lemma collapsible_if_ok : forall chains e e', collapsible_if chains e = Some e' -> same e e'.
Proof.
  intros chains e e' H. destruct e; try discriminate. cbn in H. destruct (eligible chains e); [|discriminate].
  destruct (inner_if (body e)) as [k2|] eqn:I; [|discriminate]. destruct (eligible chains k2); [|discriminate]. injection H as <-.
  apply same_eq. intros w n s. rewrite !eval_when. apply on_body_settle. intros t. clear - I.
  destruct (body e) as [| | | | | | | | | | | | | | | | | | | | | | |b1 b2| | | | |k| | | | | | | | | |]; try discriminate; cbn in I.
  - destruct b1; try discriminate. destruct (is_unit b2) eqn:U; [|discriminate]. injection I as <-. cbn [eval]. destruct b2; try discriminate. destruct v; try discriminate.
    destruct (eval w n b1 t) as [[] u]; auto.
  - injection I as <-. rewrite eval_when. apply settle_idem.
Qed.

Lemma collapsible_else_if_ok : forall e e', collapsible_else_if e = Some e' ->
  (forall k c t, e = XIf k (XBrace (XSeq c t)) -> unit_valued c) -> same e e'.
Proof.
  intros e e' H U. destruct e; try discriminate. destruct e2; try discriminate. cbn in H.
  destruct (single_inner (body e1) && single_inner e2); [discriminate|].
  destruct e2; try discriminate; try (injection H as <-; apply same_eq; reflexivity).
  destruct (is_if e2_1 && is_unit e2_2) eqn:C; [|discriminate]. injection H as <-. apply andb_true_iff in C. destruct C as [_ C].
  destruct e2_2; try discriminate. destruct v; try discriminate. specialize (U _ _ _ eq_refl).
  apply same_eq. intros w n s. cbn [eval]. destruct (eval w n e1 s) as [[] t]; auto. unfold next.
  destruct (eval w n e2_1 t) as [[] u] eqn:E; auto. rewrite (U _ _ _ _ _ E). auto.
Qed.

Lemma peel_eval : forall w n e s, eval w n (peel e) s = eval w n e s.
Proof. intros w n. induction e; intros s; auto. cbn. auto. Qed.
Lemma is_unit_eq : forall e, is_unit e = true -> e = XVal VUnit.
Proof. destruct e; try discriminate. destruct v; try discriminate. auto. Qed.

Lemma needless_else_ok : forall e e', needless_else e = Some e' -> unit_valued e -> same e e'.
Proof.
  intros e e' H U. destruct e; try discriminate. cbn in H. destruct (is_unit (peel e2)) eqn:P; [|discriminate]. injection H as <-.
  apply is_unit_eq in P. apply same_eq. intros w n s. specialize (U w n s). rewrite eval_when. cbn [eval] in *.
  destruct (eval w n e1 s) as [[] t]; auto.
  - rewrite (U _ _ eq_refl). auto.
  - rewrite <- peel_eval, P. auto.
Qed.

(** The conditions joined by `&&`. *)
Lemma conj_ok : forall w n k s, link k = true -> tests k = true -> is_unit (body k) = true -> shape true k = true ->
  fst (eval w n k s) <> OStuck -> settle (eval w n k s) = next (eval w n (conj k) s) (fun _ s => (OVal VUnit, s)).
Proof.
  intros w n. induction k; intros s L T U R N; try discriminate. cbn [conj]. cbn in T, U, R. apply andb_true_iff in R. destruct R as [R1 R2].
  destruct (link k2) eqn:L2.
  - cbn [eval] in *. pose proof (rust_else w n k1 s R1) as X. rewrite next_next. destruct (eval w n k1 s) as [o t] eqn:E. rewrite !next_pair in *. cbn [fst snd] in *.
    destruct o; cbn [fst snd settle] in *; try congruence. destruct v; cbn [fst snd] in *; try congruence. destruct b; auto.
  - rewrite link_body in U by auto. apply is_unit_eq in U. subst k2. cbn [eval] in *. pose proof (rust_else w n k1 s R1) as X.
    destruct (eval w n k1 s) as [o t] eqn:E. unfold next in *. cbn in *. destruct o; cbn in *; auto; try congruence.
    destruct v; cbn in *; try congruence. destruct b; auto.
Qed.
(** What an oracle may call free of effects: it ends, with a value, and leaves the state as it was. *)
Lemma needless_ifs_ok : forall effects e e',
  (forall c, effects c = false -> forall w n s, fst (eval w n c s) <> OStuck -> (exists v, fst (eval w n c s) = OVal v) /\ agree none_of s (snd (eval w n c s))) ->
  rust e -> needless_ifs effects e = Some e' -> same_ok e e'.
Proof.
  intros effects e e' O R H w n s N. destruct e; try discriminate. destruct e1; try discriminate. cbn in H.
  destruct (link e1 && tests e1 && is_unit (body e1)) eqn:G; [|discriminate]. apply andb_true_iff in G. destruct G as [G G3]. apply andb_true_iff in G. destruct G as [G1 G2].
  unfold rust in R. cbn in R. apply andb_true_iff in R. destruct R as [R1 R2].
  assert (NS : fst (eval w n e1 s) <> OStuck).
  { intros Q. apply N. cbn [eval]. destruct (eval w n e1 s) as [o t]. cbn in Q. subst o. auto. }
  pose proof (conj_ok w n e1 s G1 G2 G3 R1 NS) as C. change (eval w n (XSeq (XWhen e1) e2) s) with (next (eval w n (XWhen e1) s) (fun _ t => eval w n e2 t)) in *.
  rewrite eval_when, C, next_next in *. destruct (effects (conj e1)) eqn:F; injection H as <-.
  - cbn [eval]. apply alike_refl.
  - assert (NC : fst (eval w n (conj e1) s) <> OStuck).
    { intros Q. apply N. destruct (eval w n (conj e1) s) as [o t]. cbn in Q. subst o. auto. }
    destruct (O _ F w n s NC) as [[v V] A]. destruct (eval w n (conj e1) s) as [o t]. cbn in V, A. subst o. rewrite !next_pair.
    apply eval_ext. apply agree_sym. exact A.
Qed.

Lemma shape_nolink : forall e k k', link e = false -> shape k e = shape k' e.
Proof. destruct e; auto; discriminate. Qed.
Lemma if_not_else_ok : forall e e', rust e -> if_not_else e = Some e' -> same e e'.
Proof.
  intros e e' R H. destruct e as [| | | | | | | | | | | | | | | | | | | | | | | | | | | k d | | | | | | | | | | |]; try discriminate.
  destruct k as [| | | | | | | | | | | | | | | | | | | | | | | | | | | | | c a | | | | | | | | |]; try discriminate. cbn in H.
  destruct (link a || is_if d) eqn:G; [discriminate|]. apply orb_false_iff in G. destruct G as [G _].
  unfold rust in R. cbn in R. apply andb_true_iff in R. destruct R as [R1 R2]. apply andb_true_iff in R1. destruct R1 as [R0 R1].
  rewrite (shape_nolink _ _ false G) in R1. apply same_eq. intros w n s. destruct c; try discriminate.
  - destruct o; try discriminate. destruct (is_zero c2); [discriminate|]. injection H as <-. cbn [eval].
    apply andb_true_iff in R0. destruct R0 as [R01 R02].
    pose proof (rust_else w n c1 s R01) as X. destruct (eval w n c1 s) as [[] t]; cbn; auto; try (cbn in X; congruence).
    pose proof (rust_else w n c2 t R02) as X2. destruct (eval w n c2 t) as [[] u]; cbn; auto; try (cbn in X2; congruence).
    destruct v, v0; cbn; auto. destruct (z =? z0)%Z; cbn.
    + pose proof (rust_else w n d u R2). destruct (eval w n d u) as [[] ?]; auto. cbn in *; congruence.
    + pose proof (rust_else w n a u R1). destruct (eval w n a u) as [[] ?]; auto. cbn in *; congruence.
  - injection H as <-. cbn [eval]. pose proof (rust_else w n c s R0) as X. destruct (eval w n c s) as [[] t]; cbn; auto; try (cbn in X; congruence).
    destruct v; cbn; auto. destruct b; cbn.
    + pose proof (rust_else w n d t R2). destruct (eval w n d t) as [[] ?]; auto. cbn in *; congruence.
    + pose proof (rust_else w n a t R1). destruct (eval w n a t) as [[] ?]; auto. cbn in *; congruence.
Qed.

Lemma blocks_braces_ok : forall e e', blocks_in_conditions_braces e = Some e' -> same e e'.
Proof.
  assert (B : forall c c', braced c = Some c' -> forall w n s, eval w n c s = eval w n c' s).
  { intros c c' H w n s. destruct c; try discriminate. cbn in H. destruct (has_stmts c || contains_return c); [discriminate|]. injection H as <-. auto. }
  intros e e' H. apply same_eq. intros w n s. destruct e; try discriminate; cbn in H.
  - destruct e1; try discriminate. destruct (link e1_2); [discriminate|]. destruct (braced e1_1) eqn:E; [|discriminate]. injection H as <-.
    cbn [eval]. rewrite (B _ _ E). auto.
  - destruct e; try discriminate. destruct (link e2); [discriminate|]. destruct (braced e1) eqn:E; [|discriminate]. injection H as <-.
    cbn [eval]. rewrite (B _ _ E). auto.
  - destruct (braced e1) eqn:E; [|discriminate]. injection H as <-. cbn [eval]. rewrite (B _ _ E). auto.
Qed.

(** A value moved to a `let` before: the rest does not use the name. *)
Lemma uses_changes : forall x e, uses x e = false -> changes x e = false.
Proof.
  intros x. induction e; cbn; intros H; auto; repeat (apply orb_false_iff in H; let C := fresh "C" in destruct H as [H C]);
    repeat (apply orb_false_iff; split); auto;
    match goal with |- (negb ?b && _)%bool = false => destruct b; cbn in *; auto end.
Qed.
Definition only (x y : nat) : bool := y =? x.
Lemma hide : forall w n e x s v, uses x e = false -> alike none_of (eval w n e s) (leave [x] s (eval w n e (setv s x v))).
Proof.
  intros w n e x s v U. assert (A : alike (only x) (eval w n e s) (eval w n e (setv s x v))).
  { apply eval_off.
    - intros y Y. unfold only in Y. apply Nat.eqb_eq in Y. subst. auto.
    - split; [auto|]. intros y Y. cbn. unfold upd. unfold only in Y. rewrite Y. auto. }
  pose proof (eval_keeps w n e x s (uses_changes _ _ U)) as K. destruct A as [A1 [A2 A3]]. split; [exact A1|]. split; [exact A2|].
  intros y _. cbn. rewrite orb_false_r. destruct (y =? x) eqn:E; [apply Nat.eqb_eq in E; subst; auto|auto].
Qed.
Lemma let_first : forall w n x c s k k', (forall v t, v <> VHole -> alike none_of (k v t) (leave [x] t (k' v (setv t x v)))) ->
  alike none_of (next (eval w n c s) k) (next (eval w n c s) (fun v t => leave [x] t (k' v (setv t x v)))).
Proof.
  intros w n x c s k k' K. pose proof (eval_solid w n c s) as S. destruct (eval w n c s) as [[] t]; try apply alike_refl. unfold next. cbn.
  apply K. apply (S v t). auto.
Qed.
Lemma cond_let_ok : forall res i c i', cond_to_let res i = Some (c, i') -> exists C, i = C c /\ i' = C (XVar res) /\
  (forall a w n s, eval w n (C a) s = next (eval w n a s) (fun v t => eval w n (C (XVal v)) t) \/ fst (eval w n a s) = OElse) /\
  (forall a, rust (C a) -> rust a) /\
  (forall a v, uses res (C a) = false -> uses res (C (XVal v)) = false) /\
  (forall w n v t, v <> VHole -> fst t res = v -> eval w n (C (XVar res)) t = eval w n (C (XVal v)) t).
Proof.
  intros res i c i' H. destruct i; try discriminate; cbn in H.
  - destruct i1; try discriminate. destruct (link i1_2 || negb (stmt_block i1_1)); [discriminate|]. injection H as <- <-.
    exists (fun a => XIf (XTest a i1_2) i2). repeat split; auto.
    + intros a w n s. cbn [eval]. pose proof (eval_solid w n a s) as S. destruct (eval w n a s) as [[] t]; cbn; auto.
      specialize (S _ _ eq_refl). rewrite given_solid by auto. left. reflexivity.
    + intros a R. unfold rust in *. cbn in R. apply andb_true_iff in R. destruct R as [R _]. apply andb_true_iff in R. tauto.
    + intros a v. cbn. intros H. apply orb_false_iff in H. destruct H as [H ->]. apply orb_false_iff in H. destruct H as [_ ->]. auto.
    + intros w n v t N F. cbn [eval]. rewrite F. auto.
  - destruct i; try discriminate. destruct (link i2 || negb (stmt_block i1)); [discriminate|]. injection H as <- <-.
    exists (fun a => XWhen (XTest a i2)). repeat split; auto.
    + intros a w n s. cbn [eval]. pose proof (eval_solid w n a s) as S. destruct (eval w n a s) as [[] t]; cbn; auto.
      specialize (S _ _ eq_refl). rewrite given_solid by auto. left. reflexivity.
    + intros a R. unfold rust in *. cbn in R. apply andb_true_iff in R. tauto.
    + intros a v. cbn. intros H. apply orb_false_iff in H. tauto.
    + intros w n v t N F. cbn [eval]. rewrite F. auto.
  - destruct (stmt_block i1); [|discriminate]. injection H as <- <-.
    exists (fun a => XMatch a p i2 q i3). repeat split; auto.
    + intros a w n s. cbn [eval]. pose proof (eval_solid w n a s) as S. destruct (eval w n a s) as [[] t]; cbn; auto.
      specialize (S _ _ eq_refl). rewrite given_solid by auto. left. reflexivity.
    + intros a R. unfold rust in *. cbn in R. apply andb_true_iff in R. destruct R as [R _]. apply andb_true_iff in R. tauto.
    + intros a v. cbn. intros H. apply orb_false_iff in H. destruct H as [H ->]. apply orb_false_iff in H. destruct H as [_ ->]. auto.
    + intros w n v t N F. cbn [eval]. rewrite F. auto.
Qed.
Lemma upd_same : forall s x v, fst (setv s x v) x = v.
Proof. intros. cbn. unfold upd. rewrite Nat.eqb_refl. auto. Qed.
Lemma blocks_let_ok : forall res e e', rust e -> uses res e = false -> blocks_in_conditions_let res e = Some e' -> same e e'.
Proof.
  intros res e e' R U H w n s.
  assert (T : (exists i r c i', e = XSeq i r /\ cond_to_let res i = Some (c, i') /\ e' = XLet (PVar res) c (XSeq i' r)) \/
              (exists c i', cond_to_let res e = Some (c, i') /\ e' = XLet (PVar res) c i')).
  { destruct e; cbn [blocks_in_conditions_let] in H; try (destruct (cond_to_let res _) as [[cc ii]|] eqn:E; [|discriminate]; injection H as <-; right; eauto; fail).
    destruct (cond_to_let res e1) as [[c i']|] eqn:E; [|discriminate]. injection H as <-. left. eauto 8. }
  destruct T as [(i & r & c & i' & -> & E & ->)|(c & i' & E & ->)]; destruct (cond_let_ok _ _ _ _ E) as (C & HC & -> & B & RC & UC & V).
  - subst i. unfold rust in R. cbn in R. apply andb_true_iff in R. destruct R as [R _]. cbn in U. apply orb_false_iff in U. destruct U as [U1 U2].
    cbn [eval]. destruct (B c w n s) as [B'|B']; [|apply rust_else in B'; [tauto|apply RC, R]]. rewrite B'. rewrite next_next. cbn [pbind pvars].
    apply (let_first w n res c s (fun v t => next (eval w n (C (XVal v)) t) (fun _ t => eval w n r t)) (fun v u => next (eval w n (C (XVar res)) u) (fun _ t => eval w n r t))).
    intros v t N. pose proof (hide w n (XSeq (C (XVal v)) r) res t v) as Hd. cbn [eval uses] in Hd. rewrite (V w n v) by (auto using upd_same). apply Hd.
    rewrite U2, (UC c); auto.
  - subst e. cbn [eval]. destruct (B c w n s) as [B'|B']; [|apply rust_else in B'; [tauto|apply RC, R]]. rewrite B'. cbn [pbind pvars].
    apply (let_first w n res c s (fun v t => eval w n (C (XVal v)) t) (fun v u => eval w n (C (XVar res)) u)).
    intros v t N. rewrite (V w n v) by (auto using upd_same). apply hide. apply (UC c); auto.
Qed.

(** ** `else` after a branch that never ends. *)
Section Never.
Variable ty_never : ex -> bool.
Hypothesis never_sound : forall e, ty_never e = true -> forall w n s v, fst (eval w n e s) <> OVal v.
Lemma never_root_ok : forall w n e s v, is_never_root ty_never e = true -> fst (eval w n e s) <> OVal v.
Proof.
  intros w n. induction e; intros s w' H; cbn [is_never_root] in H; try discriminate; try (apply (never_sound _ H); fail); cbn [eval].
  - auto.
  - destruct (is_unit e2); [apply (never_sound _ H)|]. unfold next. destruct (eval w n e1 s) as [[] t]; cbn; auto; discriminate.
  - destruct (is_unit e); [apply (never_sound _ H)|]. cbn. auto.
  - destruct (is_unit e2); [apply (never_sound _ H)|]. unfold next. destruct (eval w n e1 s) as [[] t]; cbn; auto; try discriminate.
    destruct (pbind p v (fst t)); cbn; auto; discriminate.
  - destruct (is_unit e3); [apply (never_sound _ H)|]. unfold next at 1. destruct (eval w n e1 s) as [[] t]; cbn; auto; try discriminate.
    destruct (pbind p v (fst t)); cbn; auto. unfold next. destruct (eval w n e2 t) as [[] u]; cbn; discriminate.
  - apply andb_true_iff in H. destruct H as [H1 H2]. specialize (IHe1 s w' H1). destruct (eval w n e1 s) as [[] t]; cbn in *; auto; discriminate.
  - unfold next. destruct (eval w n e1 s) as [[] t]; cbn; auto; try discriminate. destruct v; cbn; try discriminate. destruct b; cbn; auto; discriminate.
  - unfold next. destruct (eval w n e1 s) as [[] t]; cbn; auto; try discriminate. destruct (pbind p v (fst t)); cbn; auto; discriminate.
  - apply andb_true_iff in H. destruct H as [H1 H2]. unfold next. destruct (eval w n e1 s) as [[] t]; cbn; auto; try discriminate.
    destruct (pbind p v (fst t)); cbn; auto. destruct (pbind q v (fst t)); cbn; auto; discriminate.
  - unfold next. destruct (eval w n e s) as [[] t]; cbn; discriminate.
  - unfold next. destruct (eval w n e s) as [[] t]; cbn; discriminate.
Qed.
Lemma body_never : forall w n k s v, (forall s v, fst (eval w n (body k) s) <> OVal v) -> fst (eval w n k s) <> OVal v.
Proof.
  intros w n. induction k; intros s w' H; try (apply H; fail); cbn [body] in H; cbn [eval]; unfold next.
  - destruct (eval w n k1 s) as [[] t]; cbn; auto; try discriminate. destruct v; cbn; try discriminate. destruct b; cbn; auto; discriminate.
  - destruct (eval w n k1 s) as [[] t]; cbn; auto; try discriminate. destruct (pbind p v (fst t)); cbn; auto; discriminate.
Qed.
Lemma split_else_ok : forall w n e i b s, split_else ty_never e = Some (i, b) ->
  eval w n e s = next (eval w n i s) (fun _ t => eval w n b t).
Proof.
  intros w n. induction e; intros i b s H; try discriminate. cbn [split_else] in H.
  destruct (is_never_root ty_never (body e1)) eqn:N; [|discriminate].
  assert (K : forall s v, fst (eval w n e1 s) <> OVal v) by (intros; apply body_never; intros; apply never_root_ok; auto).
  assert (W : forall d, eval w n (XIf e1 d) s = next (eval w n (XWhen e1) s) (fun _ t => eval w n d t)).
  { intros d. cbn [eval]. specialize (K s). destruct (eval w n e1 s) as [[] t]; cbn in *; auto. exfalso. apply (K v). auto. }
  destruct e2; try (injection H as <- <-; rewrite W; auto; fail); try discriminate.
  destruct (split_else ty_never (XIf e2_1 e2_2)) as [[d' b']|] eqn:E; [|discriminate]. injection H as <- <-.
  cbn [eval]. fold (eval w n). specialize (K s). destruct (eval w n e1 s) as [[] t] eqn:E1; cbn in *; auto.
  - exfalso. apply (K v). auto.
Qed.
Lemma redundant_else_tail_ok : forall e e', redundant_else_tail ty_never e = Some e' -> same e e'.
Proof.
  intros e e' H. unfold redundant_else_tail in H. destruct (split_else ty_never e) as [[i b]|] eqn:E; [|discriminate]. injection H as <-.
  apply same_eq. intros w n s. rewrite (split_else_ok _ _ _ _ _ _ E). auto.
Qed.

(** Statements followed by others, without their braces. *)
Lemma app_plain : forall w n b r s, has_let b = false -> eval w n (app b r) s = next (eval w n b s) (fun _ t => eval w n r t).
Proof.
  intros w n. induction b; intros r s H; try reflexivity; try discriminate. cbn [app eval]. rewrite next_next. apply next_same; auto.
Qed.
Lemma hide_back : forall w n e xs s u, (forall x, mem x xs = true -> uses x e = false) ->
  alike none_of (eval w n e (back xs s u)) (leave xs s (eval w n e u)).
Proof.
  intros w n e xs s u U. assert (A : alike (fun y => mem y xs) (eval w n e (back xs s u)) (eval w n e u)).
  { apply eval_off; [exact U|]. split; [auto|]. intros y Y. cbn. rewrite Y. auto. }
  destruct A as [A1 [A2 A3]]. split; [exact A1|]. split; [exact A2|]. intros y _. cbn. destruct (mem y xs) eqn:M; [|auto].
  rewrite eval_keeps by (apply uses_changes; auto). cbn. rewrite M. auto.
Qed.
Lemma alike_leave0 : forall xs s r r', alike none_of r r' -> alike none_of (leave xs s r) (leave xs s r').
Proof. intros xs s r r' A. apply alike_leave; [apply agree_refl|]. apply (alike_weaken none_of); auto. Qed.
Lemma app_scope : forall w n b r s, (forall x, mem x (let_vars b) = true -> uses x r = false) ->
  alike none_of (next (eval w n b s) (fun _ t => eval w n r t)) (eval w n (app b r) s).
Proof.
  intros w n. induction b; intros r s U; try apply alike_refl; cbn [app eval let_vars] in *.
  - rewrite next_next. apply alike_next; [apply alike_refl|]. intros v t t' T.
    eapply alike_trans; [|apply IHb2; auto]. apply alike_next; [apply eval_ext; auto|]. intros. apply eval_ext; auto.
  - eapply alike_trans; [|apply alike_leave0; apply IHb; intros y Y; apply U; unfold mem in *; cbn; rewrite Y; apply orb_true_r].
    rewrite leave_next. unfold next. destruct (eval w n b (setv s x VHole)) as [[] u]; cbn; try apply alike_refl.
    apply (hide_back w n r [x] s u). intros y Y. apply U. cbn in *. rewrite orb_false_r in Y. rewrite Y. auto.
  - rewrite next_next. apply alike_next; [apply alike_refl|]. intros v t t' T. pose proof (pbind_rel p v none_of (fst t) (fst t') (proj2 T)) as PR.
    destruct (pbind p v (fst t)) as [f|] eqn:E1, (pbind p v (fst t')) as [f'|] eqn:E2; try tauto; [|split; [auto|exact T]].
    apply (alike_trans _ _ (leave (pvars p) t (next (eval w n b2 (f, snd t)) (fun _ t => eval w n r t)))).
    + rewrite leave_next. unfold next. destruct (eval w n b2 (f, snd t)) as [[] u]; cbn; try apply alike_refl.
      apply (hide_back w n r (pvars p) t u). intros y Y. apply U. rewrite mem_app, Y. auto.
    + apply alike_leave; [auto|]. apply (alike_weaken none_of); [auto|]. eapply alike_trans; [|apply IHb2; intros y Y; apply U; rewrite mem_app, Y; apply orb_true_r].
      apply alike_next; [apply eval_ext; split; [apply T|]; intros y _; apply PR; auto|]. intros. apply eval_ext; auto.
  - rewrite next_next. apply alike_next; [apply alike_refl|]. intros v t t' T. pose proof (pbind_rel p v none_of (fst t) (fst t') (proj2 T)) as PR.
    destruct (pbind p v (fst t)) as [f|] eqn:E1, (pbind p v (fst t')) as [f'|] eqn:E2; try tauto.
    + apply (alike_trans _ _ (leave (pvars p) t (next (eval w n b3 (f, snd t)) (fun _ t => eval w n r t)))).
      * rewrite leave_next. unfold next. destruct (eval w n b3 (f, snd t)) as [[] u]; cbn; try apply alike_refl.
        apply (hide_back w n r (pvars p) t u). intros y Y. apply U. rewrite mem_app, Y. auto.
      * apply alike_leave; [auto|]. apply (alike_weaken none_of); [auto|]. eapply alike_trans; [|apply IHb3; intros y Y; apply U; rewrite mem_app, Y; apply orb_true_r].
        apply alike_next; [apply eval_ext; split; [apply T|]; intros y _; apply PR; auto|]. intros. apply eval_ext; auto.
    + rewrite next_next. apply alike_next; [apply eval_ext; auto|]. intros. split; auto.
Qed.
Lemma let_binds : forall x b, mem x (let_vars b) = true -> binds x b = true.
Proof.
  intros x. induction b; cbn [let_vars binds]; intros H; try discriminate.
  - rewrite IHb2 by auto. apply orb_true_r.
  - change (mem x (x0 :: let_vars b)) with ((x =? x0) || mem x (let_vars b)) in H. apply orb_true_iff in H. destruct H as [H|H]; [rewrite H; auto|rewrite IHb by auto; apply orb_true_r].
  - rewrite mem_app in H. apply orb_true_iff in H. destruct H as [H|H]; [rewrite H; rewrite orb_true_r; auto|rewrite IHb2 by auto; apply orb_true_r].
  - rewrite mem_app in H. apply orb_true_iff in H. destruct H as [H|H]; [rewrite H; rewrite orb_true_r; auto|rewrite IHb3 by auto; apply orb_true_r].
Qed.
Lemma split_binds : forall x e i b, split_else ty_never e = Some (i, b) -> binds x b = true -> binds x e = true.
Proof.
  intros x. induction e; intros i b H B; try discriminate. cbn [split_else] in H.
  destruct (is_never_root ty_never (body e1)) eqn:N; [|discriminate]. cbn [binds].
  destruct e2; try (injection H as <- <-; rewrite B; apply orb_true_r); try discriminate.
  - injection H as <- <-. cbn. rewrite B. apply orb_true_r.
  - destruct (split_else ty_never (XIf e2_1 e2_2)) as [[d' b']|] eqn:E; [|discriminate]. injection H as <- <-.
    rewrite (IHe2 _ _ eq_refl B). apply orb_true_r.
Qed.
Lemma redundant_else_stmt_ok : forall e e', redundant_else_stmt ty_never e = Some e' ->
  redundant_else_applicable ty_never e = true \/ tidy e -> same e e'.
Proof.
  intros e e' H D w n s. destruct e; try discriminate. cbn in H, D. destruct (split_else ty_never e1) as [[i b]|] eqn:E; [|discriminate]. injection H as <-.
  cbn [eval]. rewrite (split_else_ok _ _ _ _ _ _ E), next_next. destruct D as [D|[D _]].
  - apply negb_true_iff in D. apply alike_next; [apply alike_refl|]. intros v t t' T. rewrite app_plain by auto.
    apply alike_next; [apply eval_ext; auto|]. intros. apply eval_ext; auto.
  - apply alike_next; [apply alike_refl|]. intros v t t' T. eapply alike_trans; [|apply app_scope].
    + apply alike_next; [apply eval_ext; auto|]. intros. apply eval_ext; auto.
    + intros x X. apply D. eapply split_binds; eauto. apply let_binds; auto.
Qed.
End Never.
