(** What programs do not depend on and do not change. *)
From Verif Require Import BlkSpec.

Lemma mem_in : forall x l, mem x l = true <-> In x l.
Proof. intros x l. unfold mem. rewrite existsb_exists. split; [intros (y & I & E); apply Nat.eqb_eq in E; congruence|intros I; exists x; split; [auto|apply Nat.eqb_refl]]. Qed.
Lemma mem_app : forall x l m, mem x (l ++ m) = mem x l || mem x m.
Proof. intros. unfold mem. apply existsb_app. Qed.

Lemma agree_refl : forall X s, agree X s s.
Proof. split; auto. Qed.
Lemma agree_sym : forall X s s', agree X s s' -> agree X s' s.
Proof. intros X s s' [A B]. split; [auto|]. intros y Y. symmetry. auto. Qed.
Lemma agree_trans : forall X a b c, agree X a b -> agree X b c -> agree X a c.
Proof. intros X a b c [A B] [C D]. split; [congruence|]. intros y Y. rewrite B, D; auto. Qed.
Lemma alike_refl : forall X r, alike X r r.
Proof. split; [auto|apply agree_refl]. Qed.
Lemma alike_sym : forall X s s', alike X s s' -> alike X s' s.
Proof. intros X s s' [A B]. split; [auto|]. apply agree_sym; auto. Qed.
Lemma alike_trans : forall X a b c, alike X a b -> alike X b c -> alike X a c.
Proof. intros X a b c [A B] [C D]. split; [congruence|]. eapply agree_trans; eauto. Qed.
Lemma agree_weaken : forall (X Y : nat -> bool) s s', (forall y, Y y = false -> X y = false) -> agree X s s' -> agree Y s s'.
Proof. intros X Y s s' W [A B]. split; auto. Qed.
Lemma alike_weaken : forall (X Y : nat -> bool) s s', (forall y, Y y = false -> X y = false) -> alike X s s' -> alike Y s s'.
Proof. intros X Y s s' W [A B]. split; [auto|]. eapply agree_weaken; eauto. Qed.

Lemma alike_next : forall X r r' k k', alike X r r' -> (forall v s s', agree X s s' -> alike X (k v s) (k' v s')) ->
  alike X (next r k) (next r' k').
Proof. intros X [o s] [o' s'] k k' [A B] K. cbn in A, B. subst o'. unfold next. cbn. destruct o; try (split; auto; fail). apply K; auto. Qed.

Definition minus (X : nat -> bool) (l : list nat) (y : nat) : bool := X y && negb (mem y l).
Lemma pbind_rel : forall p v X f f', (forall y, X y = false -> f y = f' y) ->
  match pbind p v f, pbind p v f' with
  | Some g, Some g' => forall y, minus X (pvars p) y = false -> g y = g' y
  | None, None => True | _, _ => False end.
Proof.
  induction p; intros v X f f' A; cbn.
  - intros y Y. unfold minus in Y. cbn in Y. rewrite andb_true_r in Y. auto.
  - intros y Y. unfold minus in Y. cbn in Y. unfold upd. destruct (Nat.eqb y x); [auto|]. cbn in Y. rewrite andb_true_r in Y. auto.
  - destruct v; auto. destruct (c =? c0); auto. intros y Y. unfold minus in Y. cbn in Y. rewrite andb_true_r in Y. auto.
  - destruct v; auto. destruct (c =? c0); auto. apply IHp; auto.
  - destruct v; auto. destruct (c =? c0); auto. specialize (IHp1 v1 X f f' A). destruct (pbind p1 v1 f), (pbind p1 v1 f'); try tauto.
    specialize (IHp2 v2 (minus X (pvars p1)) v v0 IHp1). destruct (pbind p2 v2 v), (pbind p2 v2 v0); try tauto.
    intros y Y. apply IHp2. unfold minus in *. rewrite mem_app in Y. destruct (X y), (mem y (pvars p1)), (mem y (pvars p2)); auto.
Qed.
Lemma pbind_other : forall p v f g y, pbind p v f = Some g -> mem y (pvars p) = false -> g y = f y.
Proof.
  induction p; intros v f g y H M; cbn [pbind pvars] in *.
  - congruence.
  - injection H as <-. cbn in M. unfold upd. destruct (y =? x); [discriminate|auto].
  - destruct v; try discriminate. destruct (c =? c0); congruence.
  - destruct v; try discriminate. destruct (c =? c0); [eauto|discriminate].
  - destruct v; try discriminate. destruct (c =? c0); [|discriminate]. destruct (pbind p1 v1 f) eqn:E; [|discriminate].
    rewrite mem_app in M. apply orb_false_iff in M. destruct M as [M1 M2]. rewrite (IHp2 _ _ _ _ H M2). exact (IHp1 _ _ _ _ E M1).
Qed.

Lemma alike_leave : forall X xs s s' r r', agree X s s' -> alike (minus X xs) r r' -> alike X (leave xs s r) (leave xs s' r').
Proof.
  intros X xs s s' r r' [A B] [C [D E]]. split; [auto|]. split; [auto|]. cbn. intros y Y. destruct (mem y xs) eqn:M; [auto|].
  apply E. unfold minus. rewrite Y. auto.
Qed.
Lemma alike_loop : forall X l f f' n s s', (forall s s', agree X s s' -> alike X (f s) (f' s')) -> agree X s s' ->
  alike X (run_loop l f n s) (run_loop l f' n s').
Proof.
  intros X l f f' n. induction n as [|n IH]; intros s s' F A; cbn; [split; auto|].
  specialize (F s s' A) as G. destruct (f s) as [o t], (f' s') as [o' t'], G as [G1 G2]. cbn in *. subst o'.
  destruct o; try (split; auto; fail); try (apply IH; auto; fail); destruct (hits l l0); auto; split; auto.
Qed.
Lemma alike_for : forall X l f f' vs s s', (forall v s s', agree X s s' -> alike X (f v s) (f' v s')) -> agree X s s' ->
  alike X (run_for l f vs s) (run_for l f' vs s').
Proof.
  intros X l f f' vs. induction vs as [|v vs IH]; intros s s' F A; cbn; [split; auto|].
  specialize (F v s s' A) as G. destruct (f v s) as [o t], (f' v s') as [o' t'], G as [G1 G2]. cbn in *. subst o'.
  destruct o; try (split; auto; fail); try (apply IH; auto; fail); destruct (hits l l0); auto; split; auto.
Qed.
Lemma agree_setv : forall X s s' x v, agree X s s' -> agree X (setv s x v) (setv s' x v).
Proof. intros X s s' x v [A B]. split; [auto|]. intros y Y. cbn. unfold upd. destruct (y =? x); auto. Qed.

(** Binding, relationally. *)
Lemma alike_bind : forall X p v s s' (k k' : st -> out * st) (d d' : out * st), agree X s s' ->
  (forall s s', agree (minus X (pvars p)) s s' -> alike (minus X (pvars p)) (k s) (k' s')) -> alike X d d' ->
  alike X (match pbind p v (fst s) with Some f => leave (pvars p) s (k (f, snd s)) | None => d end)
          (match pbind p v (fst s') with Some f => leave (pvars p) s' (k' (f, snd s')) | None => d' end).
Proof.
  intros X p v s s' k k' d d' A K D. pose proof (pbind_rel p v X (fst s) (fst s') (proj2 A)) as R.
  destruct (pbind p v (fst s)), (pbind p v (fst s')); try tauto.
  apply alike_leave; [auto|]. apply K. split; [apply A|auto].
Qed.

Lemma alike_given : forall X v s s', agree X s s' -> alike X (given v s) (given v s').
Proof. intros X v s s' A. destruct v; split; auto. Qed.

Section Off.
Variable world : list ev -> option val.
Variable n : nat.
Notation eval := (eval world n).

Ltac off_split :=
  repeat match goal with
  | H : forall x, _ x = true -> (_ || _)%bool = false |- _ =>
      let H1 := fresh "U" in let H2 := fresh "U" in
      assert (H1 := fun x (Q : _ x = true) => proj1 (proj1 (orb_false_iff _ _) (H x Q)));
      assert (H2 := fun x (Q : _ x = true) => proj2 (proj1 (orb_false_iff _ _) (H x Q))); clear H; cbv beta in H1, H2
  end.
Lemma off_minus : forall (X : nat -> bool) xs (u : nat -> bool), (forall x, X x = true -> negb (mem x xs) && u x = false) ->
  forall x, minus X xs x = true -> u x = false.
Proof. intros X xs u H x M. unfold minus in M. apply andb_true_iff in M. destruct M as [M1 M2]. specialize (H x M1). rewrite M2 in H. auto. Qed.
Lemma off_var : forall (X : nat -> bool) y, (forall x, X x = true -> (x =? y) = false) -> X y = false.
Proof. intros X y H. destruct (X y) eqn:E; [|auto]. specialize (H y E). rewrite Nat.eqb_refl in H. discriminate. Qed.

Lemma eval_off : forall e X s s', (forall x, X x = true -> uses x e = false) -> agree X s s' -> alike X (eval e s) (eval e s').
Proof.
  induction e; intros X s s' U A; cbn in U; off_split; cbn [BlkSpec.eval];
    repeat match goal with
    | U : forall y, ?X y = true -> (y =? ?z) = false |- _ => apply off_var in U; pose proof (proj2 A _ U)
    end;
    try (split; [reflexivity|assumption]; fail).
  - apply alike_given; auto.
  - rewrite <- H. apply alike_given; auto.
  - apply alike_next; [auto|]. intros v t t' T. apply alike_next; [auto|]. intros w u u' V. destruct V as [V1 V2]. rewrite <- V1.
    destruct (world (snd u ++ [(f, v, w)])); [apply alike_given|]; (split; auto; split; auto).
  - apply alike_next; [auto|]. intros v t t' T. apply alike_next; [auto|]. intros w u u' V. split; auto.
  - apply alike_next; [auto|]. intros v t t' T. destruct v; split; auto.
  - apply alike_next; [auto|]. intros v t t' T. destruct v; try (split; auto; fail). destruct b; [auto|split; auto].
  - apply alike_next; [auto|]. intros v t t' T. destruct v; try (split; auto; fail). destruct b; [split; auto|auto].
  - apply alike_next; [auto|]. intros v t t' T. split; auto.
  - apply alike_next; [auto|]. intros v t t' T. apply alike_next; [auto|]. intros w u u' V. split; auto.
  - apply alike_next; [auto|]. intros v t t' T. rewrite <- (proj2 T x U0). destruct (fst t x); try (split; auto; fail).
    destruct v; try (split; auto; fail). destruct (at_ l z); [apply alike_given; auto|split; auto].
  - rewrite <- H. destruct (fst s x); split; auto.
  - rewrite <- H. destruct (fst s x); split; auto.
  - rewrite <- H. destruct (fst s x); try (split; auto; fail). destruct l; [split; auto|]. split; [auto|]. apply agree_setv; auto.
  - apply alike_next; [auto|]. intros v t t' T. destruct v; try (split; auto; fail); destruct c as [|[|c]]; try (split; auto; fail). apply alike_given; auto.
  - apply alike_next; [auto|]. intros v t t' T. split; auto.
  - apply alike_next; [auto|]. intros v t t' T. apply alike_next; [auto|]. intros w u u' V. destruct v; try (split; auto; fail).
    destruct w; split; auto.
  - apply alike_next; [auto|]. intros v t t' T. split; [auto|]. apply agree_setv; auto.
  - apply alike_next; [auto|]. intros v t t' T. rewrite <- (proj2 T x U0). destruct (bin o (fst t x) v); split; auto. apply agree_setv; auto.
  - apply alike_next; [auto|]. intros v t t' T. apply alike_next; [auto|]. intros w u u' V. rewrite <- (proj2 V x U).
    destruct (fst u x); try (split; auto; fail). destruct w; try (split; auto; fail). destruct (at_ l z); split; auto. apply agree_setv; auto.
  - apply alike_next; [auto|]. intros v t t' T. apply alike_next; [auto|]. intros w u u' V. rewrite <- (proj2 V x U).
    destruct (fst u x); try (split; auto; fail). destruct w; try (split; auto; fail). destruct (at_ l z); try (split; auto; fail).
    destruct (bin o v0 v); split; auto. apply agree_setv; auto.
  - destruct (x =? y); [split; auto|]. rewrite <- H, <- H0.
    destruct (fst s x); try (split; auto; fail); destruct (fst s y); try (split; auto; fail); (split; [auto|]); apply agree_setv, agree_setv; auto.
  - apply alike_next; [auto|]. intros v t t' T. apply alike_next; [auto|]. intros w u u' V. rewrite <- (proj2 V x U).
    destruct (fst u x); try (split; auto; fail). destruct v; try (split; auto; fail). destruct w; try (split; auto; fail).
    destruct (at_ l z); try (split; auto; fail). destruct (at_ l z0); split; auto. apply agree_setv; auto.
  - apply IHe; auto.
  - apply alike_next; [auto|]. auto.
  - apply alike_leave; [auto|]. apply IHe.
    + intros y M. unfold minus in M. cbn in M. apply andb_true_iff in M. destruct M as [M1 M2]. rewrite orb_false_r in M2. specialize (U y M1).
      rewrite M2 in U. auto.
    + split; [apply A|]. intros y Y. cbn. unfold upd. unfold minus in Y. cbn in Y. destruct (y =? x); [auto|]. cbn in Y.
      rewrite andb_true_r in Y. apply A; auto.
  - apply alike_next; [auto|]. intros v t t' T. apply alike_bind; [auto| |split; auto]. intros u u' V. apply IHe2; [|auto].
    apply off_minus; auto.
  - apply alike_next; [auto|]. intros v t t' T. apply alike_bind; [auto| |].
    + intros u u' V. apply IHe3; [|auto]. apply off_minus; auto.
    + apply alike_next; [auto|]. intros. split; auto.
  - specialize (IHe1 X s s' U0 A). destruct (eval e1 s) as [o t], (eval e1 s') as [o' t'], IHe1 as [G1 G2]. cbn in G1, G2. subst o'.
    destruct o; try (split; auto; fail). apply IHe2; auto.
  - specialize (IHe X s s' U A). destruct (eval e s) as [o t], (eval e s') as [o' t'], IHe as [G1 G2]. cbn in G1, G2. subst o'.
    destruct o; split; auto.
  - apply alike_next; [auto|]. intros v t t' T. destruct v; try (split; auto; fail). destruct b; [auto|split; auto].
  - apply alike_next; [auto|]. intros v t t' T. apply alike_bind; [auto| |split; auto]. intros u u' V. apply IHe2; [|auto].
    apply off_minus; auto.
  - apply alike_next; [auto|]. intros v t t' T. apply alike_bind; [auto| |].
    + intros u u' V. apply IHe2; [|auto]. apply off_minus; auto.
    + apply alike_bind; [auto| |split; auto]. intros u u' V. apply IHe3; [|auto]. apply off_minus; auto.
  - apply alike_loop; auto.
  - apply alike_loop; [|auto]. intros t t' T. specialize (IHe X t t' U T).
    destruct (eval e t) as [o u], (eval e t') as [o' u'], IHe as [G1 G2]. cbn in G1, G2. subst o'. destruct o; split; auto.
  - apply alike_next; [auto|]. intros v t t' T. destruct v; try (split; auto; fail). apply alike_for; [|auto].
    intros v u u' V. apply alike_bind; [auto| |split; auto]. intros w w' W. apply IHe2; [|auto]. apply off_minus; auto.
  - specialize (IHe X s s' U A). destruct (eval e s) as [o t], (eval e s') as [o' t'], IHe as [G1 G2]. cbn in G1, G2. subst o'.
    destruct o; try (split; auto; fail). destruct l0; [|split; auto]. destruct (l =? n0); split; auto.
  - apply alike_next; [auto|]. intros v t t' T. split; auto.
  - apply alike_next; [auto|]. intros v t t' T. split; auto.
Qed.

(** ** What is not changed keeps its value. *)
Definition kept (x : nat) (s : st) (r : out * st) : Prop := fst (snd r) x = fst s x.
Lemma kept_next : forall x s r k, kept x s r -> (forall v t, fst t x = fst s x -> kept x s (k v t)) -> kept x s (next r k).
Proof. intros x s [o t] k A K. unfold next. cbn. destruct o; auto. Qed.
Lemma kept_leave : forall x s xs t r, fst t x = fst s x -> (mem x xs = false -> kept x s r) -> kept x s (leave xs t r).
Proof. intros x s xs t r A B. unfold kept, leave, back. cbn. destruct (mem x xs); auto. apply B. auto. Qed.
Lemma kept_bind : forall x p v s t (k : st -> out * st) d, fst t x = fst s x ->
  (mem x (pvars p) = false -> forall u, fst u x = fst s x -> kept x s (k u)) -> kept x s d ->
  kept x s (match pbind p v (fst t) with Some f => leave (pvars p) t (k (f, snd t)) | None => d end).
Proof.
  intros x p v s t k d A K D. destruct (pbind p v (fst t)) eqn:E; [|auto]. apply kept_leave; [auto|]. intros M. apply K; [auto|]. cbn.
  rewrite (pbind_other _ _ _ _ _ E M). auto.
Qed.
Lemma kept_loop : forall x l f m s t, (forall u, fst u x = fst s x -> kept x s (f u)) -> fst t x = fst s x -> kept x s (run_loop l f m t).
Proof.
  intros x l f m s. induction m as [|m IH]; intros t F A; cbn; [auto|]. specialize (F t A) as G. unfold kept in G.
  destruct (f t) as [o u]. cbn in G. cbn. destruct o; auto; destruct (hits l l0); auto.
Qed.
Lemma kept_for : forall x l f vs s t, (forall v u, fst u x = fst s x -> kept x s (f v u)) -> fst t x = fst s x -> kept x s (run_for l f vs t).
Proof.
  intros x l f vs s. induction vs as [|v vs IH]; intros t F A; cbn; [auto|]. specialize (F v t A) as G. unfold kept in G.
  destruct (f v t) as [o u]. cbn in G. cbn. destruct o; auto; destruct (hits l l0); auto.
Qed.
Lemma setv_other : forall s x y v, (x =? y) = false -> fst (setv s y v) x = fst s x.
Proof. intros. cbn. unfold upd. rewrite H. auto. Qed.
Lemma kept_given : forall x s v t, fst t x = fst s x -> kept x s (given v t).
Proof. intros. destruct v; auto. Qed.
Lemma kept_eval : forall e x s t, changes x e = false -> fst t x = fst s x -> kept x s (eval e t).
Proof.
  induction e; intros z s t C A; cbn in C; repeat (apply orb_false_iff in C; let C' := fresh "C" in destruct C as [C C']); cbn [BlkSpec.eval];
    try (exact A); try (apply kept_next; [auto|]; intros v1 t1 A1; try (apply kept_next; [auto|]; intros v2 t2 A2));
    try (repeat match goal with |- kept _ _ (match ?u with _ => _ end) => destruct u end; auto; try apply kept_given; auto; unfold kept; cbn [fst snd]; rewrite ?setv_other by auto; auto; fail).
  - (* XDecl *) apply kept_leave; [auto|]. intros M. apply IHe; [|cbn; unfold upd; cbn in M; rewrite orb_false_r in M; rewrite M; auto].
    cbn in M. rewrite orb_false_r in M. rewrite M in C. auto.
  - apply kept_bind; [auto| |auto]. intros M u B. rewrite M in C0. apply IHe2; auto.
  - apply kept_bind; [auto| |].
    + intros M u B. rewrite M in C0. apply IHe3; auto.
    + apply kept_next; [auto|]. intros; auto.
  - specialize (IHe1 z s t C A). unfold kept in IHe1. destruct (eval e1 t) as [o u]. cbn in IHe1. destruct o; auto.
  - specialize (IHe z s t C A). unfold kept in IHe. destruct (eval e t) as [o u]. cbn in IHe. destruct o; auto.
  - apply kept_bind; [auto| |auto]. intros M u B. rewrite M in C0. apply IHe2; auto.
  - apply kept_bind; [auto| |].
    + intros M u B. rewrite M in C1. apply IHe2; auto.
    + apply kept_bind; [auto| |auto]. intros M u B. rewrite M in C0. apply IHe3; auto.
  - apply kept_loop; auto.
  - apply kept_loop; [|auto]. intros u B. specialize (IHe z s u C B). unfold kept in IHe. destruct (eval e u) as [o w]. cbn in IHe. destruct o; auto.
  - destruct v1; auto. apply kept_for; [|auto]. intros v u B. apply kept_bind; [auto| |auto]. intros M w B'. rewrite M in C0. apply IHe2; auto.
  - specialize (IHe z s t C A). unfold kept in IHe. destruct (eval e t) as [o u]. cbn in IHe. destruct o; auto. destruct l0; auto. destruct (l =? n0); auto.
Qed.
Lemma eval_keeps : forall e x s, changes x e = false -> fst (snd (eval e s)) x = fst s x.
Proof. intros. apply kept_eval; auto. Qed.

(** Expressions end in no failed condition. *)
Lemma next_else : forall r k, fst r <> OElse -> (forall v s, fst (k v s) <> OElse) -> fst (next r k) <> OElse.
Proof. intros [o s] k A B. unfold next. cbn in *. destruct o; auto; cbn; discriminate. Qed.
Lemma bin_else : forall o v w, bin o v w <> OElse.
Proof. intros o v w. destruct o, v; cbn; try discriminate; destruct w; try discriminate. destruct (z0 =? 0)%Z; discriminate. Qed.
Lemma loop_else : forall l f m s, (forall s, fst (f s) <> OElse) -> fst (run_loop l f m s) <> OElse.
Proof.
  intros l f m. induction m as [|m IH]; intros s F; cbn; [discriminate|]. specialize (F s) as G. destruct (f s) as [o t]. cbn in *.
  destruct o; cbn; auto; try discriminate; destruct (hits l l0); cbn; auto; discriminate.
Qed.
Lemma for_else : forall l f vs s, (forall v s, fst (f v s) <> OElse) -> fst (run_for l f vs s) <> OElse.
Proof.
  intros l f vs. induction vs as [|v vs IH]; intros s F; cbn; [discriminate|]. specialize (F v s) as G. destruct (f v s) as [o t]. cbn in *.
  destruct o; cbn; auto; try discriminate; destruct (hits l l0); cbn; auto; discriminate.
Qed.
Lemma given_else : forall v s, fst (given v s) <> OElse.
Proof. destruct v; discriminate. Qed.
Lemma rust_else : forall e s, rust e -> fst (eval e s) <> OElse.
Proof.
  unfold rust. induction e; intros s R; cbn in R; repeat (apply andb_true_iff in R; let R' := fresh "R" in destruct R as [R R']); try discriminate; cbn [BlkSpec.eval];
    try (apply next_else; [auto|]; intros v1 t1; try (apply next_else; [auto|]; intros v2 t2));
    try (repeat match goal with |- fst (match ?u with _ => _ end) <> _ => destruct u eqn:? end; cbn; auto; try discriminate; try apply bin_else; apply given_else; fail).
  - destruct (bin o (fst t1 x) v1) eqn:E; cbn; try discriminate. apply bin_else in E. tauto.
  - destruct (fst t2 x); cbn; try discriminate. destruct v2; cbn; try discriminate. destruct (at_ l z); cbn; try discriminate.
    destruct (bin o v v1) eqn:E; cbn; try discriminate. apply bin_else in E. tauto.
  - destruct (pbind p v1 (fst t1)); [cbn; auto|]. apply next_else; [auto|]. cbn. discriminate.
  - apply loop_else. auto.
  - apply loop_else. intros t. destruct (eval e t) as [o u]. destruct o; cbn; discriminate.
  - destruct v1; try discriminate. apply for_else. intros v u. destruct (pbind p v (fst u)); [cbn; auto|discriminate].
  - specialize (IHe s R). destruct (eval e s) as [o t]. cbn in IHe. destruct o; cbn; auto; try discriminate. destruct l0; cbn; try discriminate.
    destruct (l =? n0); discriminate.
Qed.
End Off.
