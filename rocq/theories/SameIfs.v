(** A repeated condition in a chain of `if`s. *)
From Verif Require Export SameFinal SameQuiet SameSearch.
From Coq Require Import Sorted Lia.

(** More fuel changes nothing. *)
Definition more (a b : result) : Prop := a = More \/ a = b.
Lemma more_bind a b k k' : more a b -> (forall v s t, more (k v s t) (k' v s t)) -> more (bind a k) (bind b k').
Proof. intros [-> | ->] H; [left; reflexivity|]. destruct b as [[]| |]; cbn; try (right; reflexivity). apply H. Qed.
Lemma more_refl a : more a a.
Proof. right. reflexivity. Qed.
Section Mono.
  Variables ev ev' : expr -> store -> trace -> result.
  Hypothesis H : forall e s t, more (ev e s t) (ev' e s t).
  Lemma more_list es : forall k s t, more (ev_list ev es k s t) (ev_list ev' es k s t).
  Proof. induction es as [|e es IH]; intros k s t; cbn; [apply more_refl|]. apply more_bind; [apply H|]. intros. apply IH. Qed.
  Lemma more_stmts blk blk' : (forall b s t, more (blk b s t) (blk' b s t)) -> forall ss k k' s t, (forall s t, more (k s t) (k' s t)) -> more (ev_stmts ev blk ss k s t) (ev_stmts ev' blk' ss k' s t).
  Proof.
    intros B. induction ss as [|x ss IH]; intros k k' s t K; cbn; [apply K|]. destruct x as [p a b [i|] els|e|e|]; cbn [ev_stmt].
    - apply more_bind; [apply H|]. intros v s1 t1. destruct (matches p v); [apply IH, K|]. destruct els; [|apply more_refl]. apply more_bind; [apply B|]. intros. apply more_refl.
    - apply IH, K.
    - apply more_bind; [apply H|]. intros. apply IH, K.
    - apply more_bind; [apply H|]. intros. apply IH, K.
    - apply IH, K.
  Qed.
  Lemma more_block n n' : n <= n' -> forall b s t, more (block ev n b s t) (block ev' n' b s t).
  Proof.
    revert n'. induction n as [|n IH]; intros [|n'] L b s t; try lia; [left; reflexivity|left; reflexivity|]. cbn [block]. apply more_stmts; [apply IH; lia|].
    intros s1 t1. destruct (snd b); cbn [ev_tail]; [apply H|apply more_refl].
  Qed.
  Lemma more_arms arms : forall v s t, more (ev_arms ev arms v s t) (ev_arms ev' arms v s t).
  Proof.
    induction arms as [|[[p g] b] arms IH]; intros v s t; cbn; [apply more_refl|]. destruct (matches p v); [|apply IH]. destruct g; [|apply H]. apply more_bind; [apply H|].
    intros c s1 t1. destruct (truth c) as [[|]|]; [apply H|apply IH|apply more_refl].
  Qed.
End Mono.
Lemma eval_more w n : forall n' e s t, n <= n' -> more (eval w n e s t) (eval w n' e s t).
Proof.
  induction n as [|n IH]; intros [|n'] e s t L; try lia; [left; reflexivity|left; reflexivity|].
  assert (H : forall e s t, more (eval w n e s t) (eval w n' e s t)) by (intros; apply IH; lia).
  assert (B : forall b s t, more (block (eval w n) n b s t) (block (eval w n') n' b s t)) by (apply more_block; [exact H|lia]).
  destruct e; cbn [eval]; try apply more_refl.
  - apply more_list, H.
  - unfold binary. apply more_bind; [apply H|]. intros v s1 t1.
    assert (X : forall g, more (short g v (fun s t => bind (eval w n e2 s t) boolean) s1 t1) (short g v (fun s t => bind (eval w n' e2 s t) boolean) s1 t1)).
    { intros g. unfold short. destruct (truth v); [|apply more_refl]. destruct (Bool.eqb _ _); [|apply more_refl]. apply more_bind; [apply H|]. intros. apply more_refl. }
    assert (Y : more (bind (eval w n e2 s1 t1) (operate w op lp rp v)) (bind (eval w n' e2 s1 t1) (operate w op lp rp v))) by (apply more_bind; [apply H|intros; apply more_refl]).
    destruct op; first [apply X|apply Y].
  - destruct op; (apply more_bind; [apply H|]); intros; [|apply more_refl]. apply more_bind; [apply H|]. intros. apply more_refl.
  - destruct (B (ss, tail) s t) as [-> | ->]; [left; reflexivity|apply more_refl].
  - apply more_bind; [apply H|]. intros v s1 t1. destruct (truth v) as [[|]|]; [apply H| |apply more_refl]. destruct e3; [apply H|apply more_refl].
  - apply more_bind; [apply H|]. intros. apply more_refl.
  - apply more_bind; [apply H|]. intros. apply more_arms, H.
  - destruct (B (ss, tail) s t) as [-> | ->]; [left; reflexivity|]. destruct (block _ n' _ s t) as [[]| |]; try apply more_refl; try apply H; destruct (for_loop lab l); try apply more_refl; apply H.
  - destruct e; cbn [ev_opt]; [|apply more_refl]. apply more_bind; [apply H|]. intros. apply more_refl.
Qed.
Lemma eval_det w n m e s t r r' : eval w n e s t = r -> eval w m e s t = r' -> r <> More -> r' <> More -> r = r'.
Proof.
  intros E F N N'. destruct (Nat.le_ge_cases n m) as [L|L].
  - destruct (eval_more w n m e s t L); congruence.
  - destruct (eval_more w m n e s t L); congruence.
Qed.

Section Ifs.
  Variable w : world.
  Variable konst : expr -> option (nat * lit).
  Variable prim : expr -> bool.
  Hypothesis sens : sensible w.
  (** One condition is the other, read in another order. *)
  Lemma same_false l r s s' t t' n m s1 t1 s2 t2 : comparable w konst false prim l r -> (forall d, within r d -> calm d) -> eq_expr_value konst l r = true ->
    (forall x, In x (free l) \/ In x (free r) -> s x = s' x) -> (forall x, In x (binds l) -> s x = None) -> (forall x, In x (binds r) -> s' x = None) -> t = t' ->
    eval w n l s t = Fine (Val (VLit (LBool false))) s1 t1 -> eval w m r s' t' <> Fine (Val (VLit (LBool true))) s2 t2.
  Proof.
    intros CM CA E F1 F2 F3 <- EL ER.
    destruct (behaves_calm w konst false prim l r (fun x => In x (free l) \/ In x (free r)) CM sens CA) as [k K]; [|auto|exact E|].
    { intros x J. destruct CM as [_ [_ A] _ _ _ _ _]. apply A, J. }
    specialize (K s s' t (conj F1 (conj F2 F3)) n). rewrite EL in K. cbn in K. destruct (eval w (n + k) r s' t) as [o s3 t3| |] eqn:Q; [|discriminate (eval_det w m (n + k) r s' t _ _ ER Q ltac:(discriminate) ltac:(discriminate))|contradiction].
    destruct K as (<- & _ & _). discriminate (eval_det w m (n + k) r s' t _ _ ER Q ltac:(discriminate) ltac:(discriminate)).
  Qed.
  Lemma same_true l r s s' t t' n m s1 t1 s2 t2 : comparable w konst false prim l r -> (forall d, within r d -> calm d) -> eq_expr_value konst l r = true ->
    (forall x, In x (free l) \/ In x (free r) -> s x = s' x) -> (forall x, In x (binds l) -> s x = None) -> (forall x, In x (binds r) -> s' x = None) -> t = t' ->
    eval w n r s' t' = Fine (Val (VLit (LBool false))) s1 t1 -> eval w m l s t <> Fine (Val (VLit (LBool true))) s2 t2.
  Proof.
    intros CM CA E F1 F2 F3 <- ER EL.
    destruct (behaves_calm w konst false prim l r (fun x => In x (free l) \/ In x (free r)) CM sens CA) as [k K]; [|auto|exact E|].
    { intros x J. destruct CM as [_ [_ A] _ _ _ _ _]. apply A, J. }
    specialize (K s s' t (conj F1 (conj F2 F3)) m). rewrite EL in K. cbn in K. destruct (eval w (m + k) r s' t) as [o s3 t3| |] eqn:Q; [|discriminate (eval_det w n (m + k) r s' t _ _ ER Q ltac:(discriminate) ltac:(discriminate))|contradiction].
    destruct K as (<- & _ & _). discriminate (eval_det w n (m + k) r s' t _ _ ER Q ltac:(discriminate) ltac:(discriminate)).
  Qed.
  Definition without_effects (c : expr) : Prop := forall n s t, harmless (binds c) (eval w n c s t) s t.
  Lemma chain_harmless cs s t s' t' : Forall without_effects cs -> all_false w cs s t s' t' -> t' = t /\ forall x, ~ In x (flat_map binds cs) -> s' x = s x.
  Proof.
    intros F A. induction A as [s t|c cs s t n s1 t1 s2 t2 E A IH]; [auto|]. inversion F as [|? ? W F']; subst. destruct (IH F') as [-> B]. specialize (W n s t). rewrite E in W. destruct W as [-> D].
    split; [reflexivity|]. intros x N. cbn in N. rewrite in_app_iff in N. rewrite B, D; tauto.
  Qed.
  Lemma ifs_head mutable conds i ci rest j cj : (forall k c, In (k, c) conds -> forall m es, c <> ENode (KMethod m) es) ->
    StronglySorted (before fst) conds -> In ((i, ci) :: rest) (ifs_same_cond konst mutable conds) -> In (j, cj) rest ->
    i < j /\ In (i, ci) conds /\ In (j, cj) conds /\ (eq_expr_value konst ci cj = true \/ eq_expr_value konst cj ci = true).
  Proof.
    intros NM S J Jr. destruct (groups_sound _ _ fst conds _ S J) as (_ & I & SS & x & r & Q & H). injection Q as <- <-. inversion SS as [|? ? SS' F]; subst. rewrite Forall_forall in F.
    assert (J1 : In (i, ci) conds) by (apply I; left; reflexivity). assert (J2 : In (j, cj) conds) by (apply I; right; exact Jr).
    split; [exact (F _ Jr)|]. split; [exact J1|]. split; [exact J2|].
    assert (SC : forall k c d, In (k, c) conds -> same_condition konst mutable c d = eq_expr_value konst c d).
    { intros k c d Jc. unfold same_condition. destruct c; try reflexivity. destruct k0; try reflexivity. destruct (NM _ _ Jc m es eq_refl). }
    destruct (H _ Jr) as [E|E]; cbn [snd] in E; [rewrite (SC _ _ _ J1) in E|rewrite (SC _ _ _ J2) in E]; auto.
  Qed.
End Ifs.
