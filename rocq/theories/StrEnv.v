(** What a program does depends on the variables it uses only. *)
From Verif Require Export StrSplit.

Section Ind.
  Variable P : ex -> Prop.
  Hypothesis HVar : forall x t, P (XVar x t).
  Hypothesis HLit : forall l, P (XLit l).
  Hypothesis HCall : forall f t es, Forall P es -> P (XCall f t es).
  Hypothesis HOp : forall o es, Forall P es -> P (XOp o es).
  Hypothesis HPred : forall m pre c body post, Forall P pre -> P body -> Forall P post -> P (XPred m pre c body post).
  Hypothesis HTry : forall e, P e -> P (XTry e).
  Hypothesis HOr : forall a b, P a -> P b -> P (XOr a b).
  Hypothesis HIf : forall c a b, P c -> P a -> P b -> P (XIf c a b).
  Hypothesis HIfSome : forall x e a b, P e -> P a -> P b -> P (XIfSome x e a b).
  Hypothesis HLet : forall x e b, P e -> P b -> P (XLet x e b).
  Hypothesis HLet2 : forall x y e b, P e -> P b -> P (XLet2 x y e b).
  Hypothesis HAssign : forall x e, P e -> P (XAssign x e).
  Hypothesis HSeq : forall a b, P a -> P b -> P (XSeq a b).
  Hypothesis HNext : forall x, P (XNext x).
  Fixpoint ex_ind' (e : ex) : P e :=
    let all := fix all (es : list ex) : Forall P es := match es with [] => Forall_nil P | e :: es => Forall_cons e (ex_ind' e) (all es) end in
    match e with
    | XVar x t => HVar x t
    | XLit l => HLit l
    | XCall f t es => HCall f t es (all es)
    | XOp o es => HOp o es (all es)
    | XPred m pre c body post => HPred m pre c body post (all pre) (ex_ind' body) (all post)
    | XTry e => HTry e (ex_ind' e)
    | XOr a b => HOr a b (ex_ind' a) (ex_ind' b)
    | XIf c a b => HIf c a b (ex_ind' c) (ex_ind' a) (ex_ind' b)
    | XIfSome x e a b => HIfSome x e a b (ex_ind' e) (ex_ind' a) (ex_ind' b)
    | XLet x e b => HLet x e b (ex_ind' e) (ex_ind' b)
    | XLet2 x y e b => HLet2 x y e b (ex_ind' e) (ex_ind' b)
    | XAssign x e => HAssign x e (ex_ind' e)
    | XSeq a b => HSeq a b (ex_ind' a) (ex_ind' b)
    | XNext x => HNext x
    end.
End Ind.

(** ** Sets of characters with the same members *)
Section Ext.
  Variables (f g : chr -> bool).
  Definition alike (s : str) : Prop := forall c, In c s -> f c = g c.
  Lemma scan_set_ext s : alike s -> forall i, scan_set f i s = scan_set g i s.
  Proof. induction s as [|c s IH]; intros A i; [reflexivity|]. cbn. rewrite (A c), IH; [reflexivity| |now left]. intros d J. apply A. now right. Qed.
  Lemma fwd_ext s : alike s -> fwd (PSet f) s = fwd (PSet g) s. Proof. intros A. apply scan_set_ext, A. Qed.
  Lemma bwd_ext s : alike s -> bwd (PSet f) s = bwd (PSet g) s. Proof. intros A. cbn. rewrite scan_set_ext by exact A. reflexivity. Qed.
  Lemma after_front_ext s : alike s -> after_front (PSet f) s = after_front (PSet g) s. Proof. intros A. destruct s as [|c s]; [reflexivity|]. cbn. rewrite (A c) by now left. reflexivity. Qed.
  Lemma before_back_ext s : alike s -> before_back (PSet f) s = before_back (PSet g) s.
  Proof. intros A. unfold before_back. destruct (rev s) as [|c r] eqn:E; [reflexivity|]. rewrite (A c); [reflexivity|]. apply in_rev. rewrite E. now left. Qed.
  Lemma drop_front_ext n : forall s, alike s -> drop_front n (PSet f) s = drop_front n (PSet g) s.
  Proof.
    induction n as [|n IH]; intros s A; [reflexivity|]. cbn [drop_front]. rewrite <- after_front_ext by exact A. destruct s as [|c s]; [reflexivity|]. cbn. destruct (f c); [|reflexivity]. apply IH. intros d J. apply A. now right.
  Qed.
  Lemma drop_back_ext n : forall s, alike s -> drop_back n (PSet f) s = drop_back n (PSet g) s.
  Proof.
    induction n as [|n IH]; intros s A; [reflexivity|]. cbn [drop_back]. rewrite <- before_back_ext by exact A. unfold before_back. destruct (rev s) as [|c r] eqn:E; [reflexivity|]. destruct (f c); [|reflexivity]. apply IH. intros d J. apply A. apply in_rev. rewrite E. right. apply in_rev. exact J.
  Qed.
  Lemma pmeth_ext m s rest : alike s -> pmeth_apply m (PSet f) s rest = pmeth_apply m (PSet g) s rest.
  Proof. intros A. unfold pmeth_apply. rewrite fwd_ext, bwd_ext, after_front_ext, before_back_ext, drop_front_ext, drop_back_ext by exact A. reflexivity. Qed.
End Ext.

Lemma forallb_ext' {A} (f g : A -> bool) l : (forall x, f x = g x) -> forallb f l = forallb g l.
Proof. intros E. induction l as [|x l IH]; [reflexivity|]. cbn. rewrite E, IH. reflexivity. Qed.
Section Proofs.
  Context (wd : world).
  Notation eval := (eval wd).
  Notation st := (st wd).

  Lemma upd_same s x v : upd s x v x = v. Proof. unfold upd. rewrite Nat.eqb_refl. reflexivity. Qed.
  Lemma upd_other s x v y : y <> x -> upd s x v y = s y. Proof. intros N. unfold upd. destruct (Nat.eqb_spec y x); [contradiction|reflexivity]. Qed.
  Definition agree (D : nat -> bool) (s s' : st) : Prop := (forall y, D y = false -> fst s y = fst s' y) /\ snd s = snd s'.
  Definition R (D : nat -> bool) (r r' : out * st) : Prop := fst r = fst r' /\ agree D (snd r) (snd r').
  Definition unused (D : nat -> bool) (e : ex) : Prop := forall x, D x = true -> uses x e = false.
  Lemma bind_R D r r' k k' : R D r r' -> (forall v s s', agree D s s' -> R D (k v s) (k' v s')) -> R D (bind wd r k) (bind wd r' k').
  Proof. intros [E A] K. destruct r as [o s], r' as [o' s']. cbn in E. subst o'. destruct o; cbn [bind]; try (split; [reflexivity|exact A]). apply K, A. Qed.
  Definition minus (D : nat -> bool) (x : nat) : nat -> bool := fun y => D y && negb (Nat.eqb y x).
  Lemma scoped_R D x v k k' s s' : agree D s s' -> (forall t t', agree (minus D x) t t' -> R (minus D x) (k t) (k' t')) -> R D (scoped wd x v k s) (scoped wd x v k' s').
  Proof.
    intros [A B] K. unfold scoped. assert (G : agree (minus D x) (upd (fst s) x v, snd s) (upd (fst s') x v, snd s')).
    { split; [|exact B]. intros y N. cbn. unfold upd. destruct (Nat.eqb_spec y x); [reflexivity|]. apply A. unfold minus in N. destruct (Nat.eqb_spec y x); [contradiction|]. cbn in N. rewrite andb_true_r in N. exact N. }
    specialize (K _ _ G). destruct (k _) as [o [u w]], (k' _) as [o' [u' w']]. destruct K as [E [A' B']]. cbn in E, A', B'. subst. split; [reflexivity|]. split; [|reflexivity]. cbn. intros y N. unfold upd. destruct (Nat.eqb_spec y x) as [->|NE].
    - apply A, N.
    - apply A'. unfold minus. rewrite N. reflexivity.
  Qed.
  Lemma each_R D es : Forall (fun e => forall D, unused D e -> forall s s', agree D s s' -> R D (eval e s) (eval e s')) es -> Forall (unused D) es -> forall k k' s s', agree D s s' ->
    (forall vs t t', agree D t t' -> R D (k vs t) (k' vs t')) -> R D (each wd eval es k s) (each wd eval es k' s').
  Proof.
    intros F U. induction F as [|e es He F IH]; intros k k' s s' A K; cbn [each]; [apply K, A|]. inversion U as [|? ? U1 U2]; subst. apply bind_R; [apply He; assumption|].
    intros v t t' A'. apply IH; [exact U2|exact A'|]. intros vs u u' A''. apply K, A''.
  Qed.
  Lemma unused_all D es : (forall x, D x = true -> existsb (uses x) es = false) -> Forall (unused D) es.
  Proof.
    intros H. apply Forall_forall. intros e J x X. specialize (H x X). destruct (uses x e) eqn:E; [|reflexivity]. assert (existsb (uses x) es = true) by (apply existsb_exists; exists e; auto). congruence.
  Qed.
  Lemma ok_vars_agree : forall e inner s s', (forall y, inner y = false -> uses y e = true -> s y = s' y) -> ok_vars inner e s = ok_vars inner e s'.
  Proof.
    assert (L : forall es, Forall (fun e => forall inner s s', (forall y, inner y = false -> uses y e = true -> s y = s' y) -> ok_vars inner e s = ok_vars inner e s') es ->
      forall inner s s', (forall y, inner y = false -> existsb (uses y) es = true -> s y = s' y) -> forallb (fun e => ok_vars inner e s) es = forallb (fun e => ok_vars inner e s') es).
    { intros es F. induction F as [|e es He F IH]; intros inner s s' H; [reflexivity|]. cbn. rewrite (He inner s s'), (IH inner s s'); [reflexivity| |]; intros y I U; apply H; auto; cbn; rewrite U; auto using orb_true_r. }
    induction e as [x t|l|f t es F|o es F|m pre c body post Fp Hb Fq|e He|a b Ha Hb|c a b Hc Ha Hb|x e a b He Ha Hb|x e b He Hb|x y e b He Hb|x e He|a b Ha Hb|x] using ex_ind'; intros inner s s' H; cbn [ok_vars].
    - destruct (inner x) eqn:I; [reflexivity|]. rewrite (H x I); [reflexivity|]. cbn. apply Nat.eqb_refl.
    - reflexivity.
    - apply L; assumption.
    - apply L; assumption.
    - rewrite (L pre Fp inner s s'), (L post Fq inner s s'), (Hb _ s s'); [reflexivity| | |]; intros y I U; apply H; auto; cbn [uses]; try (rewrite U; rewrite ?orb_true_r; auto; fail).
      + destruct (inner y); [rewrite orb_true_r in I; discriminate I|reflexivity].
      + rewrite U. apply orb_false_elim in I. destruct I as [I _]. rewrite I. cbn. apply orb_true_r.
    - apply He, H.
    - rewrite (Ha inner s s'), (Hb inner s s'); [reflexivity| |]; intros y I U; apply H; auto; cbn [uses]; rewrite U; auto using orb_true_r.
    - rewrite (Hc inner s s'), (Ha inner s s'), (Hb inner s s'); [reflexivity| | |]; intros y I U; apply H; auto; cbn [uses]; rewrite U; rewrite ?orb_true_r; auto.
    - rewrite (He inner s s'), (Ha _ s s'), (Hb inner s s'); [reflexivity| | |]; intros y I U; apply H; auto; cbn [uses]; try (rewrite U; rewrite ?orb_true_r; auto; fail).
      + apply orb_false_elim in I. apply I.
      + rewrite U. apply orb_false_elim in I. destruct I as [I _]. rewrite I. cbn. rewrite orb_true_r. reflexivity.
    - rewrite (He inner s s'), (Hb _ s s'); [reflexivity| |]; intros y I U; apply H; auto; cbn [uses]; try (rewrite U; rewrite ?orb_true_r; auto; fail).
      + apply orb_false_elim in I. apply I.
      + rewrite U. apply orb_false_elim in I. destruct I as [I _]. rewrite I. cbn. rewrite orb_true_r. reflexivity.
    - rewrite (He inner s s'), (Hb _ s s'); [reflexivity| |]; intros z I U; apply H; auto; cbn [uses]; try (rewrite U; rewrite ?orb_true_r; auto; fail).
      + apply orb_false_elim in I. apply I.
      + rewrite U. apply orb_false_elim in I. destruct I as [I _]. apply orb_false_elim in I. destruct I as [I J]. rewrite I, J. cbn. rewrite orb_true_r. reflexivity.
    - apply He. intros y I U. apply H; auto. cbn. rewrite U. apply orb_true_r.
    - rewrite (Ha inner s s'), (Hb inner s s'); [reflexivity| |]; intros y I U; apply H; auto; cbn [uses]; rewrite U; auto using orb_true_r.
    - destruct (inner x) eqn:I; [reflexivity|]. rewrite (H x I); [reflexivity|]. cbn. apply Nat.eqb_refl.
  Qed.
  Lemma minus_unused D x a : (forall y, D y = true -> negb (Nat.eqb y x) && uses y a = false) -> unused (minus D x) a.
  Proof. intros H y E. unfold minus in E. apply andb_prop in E. destruct E as [E N]. specialize (H y E). rewrite N in H. exact H. Qed.
  Theorem eval_agree : forall e D, unused D e -> forall s s', agree D s s' -> R D (eval e s) (eval e s').
  Proof.
    induction e as [x t|l|f t es F|o es F|m pre c body post Fp Hb Fq|e He|a b Ha Hb|c a b Hc Ha Hb|x e a b He Ha Hb|x e b He Hb|x y e b He Hb|x e He|a b Ha Hb|x] using ex_ind'; intros D U s s' A; cbn [StrSpec.eval].
    - split; [|exact A]. cbn. rewrite (proj1 A); [reflexivity|]. destruct (D x) eqn:E; [|reflexivity]. specialize (U x E). cbn in U. rewrite Nat.eqb_refl in U. discriminate U.
    - split; [reflexivity|exact A].
    - apply (each_R D es F (unused_all D es U) _ _ _ _ A). intros vs t0 t' A'. rewrite (proj2 A'). destruct (call _ _ _ _) as [o w]. split; [reflexivity|]. split; [exact (proj1 A')|reflexivity].
    - apply (each_R D es F (unused_all D es U) _ _ _ _ A). intros vs t0 t' A'. split; [reflexivity|exact A'].
    - assert (U1 : forall x, D x = true -> existsb (uses x) pre = false /\ existsb (uses x) post = false /\ negb (Nat.eqb x c) && uses x body = false).
      { intros x X. specialize (U x X). cbn in U. apply orb_false_elim in U. destruct U as [U U3]. apply orb_false_elim in U. tauto. }
      apply (each_R D pre Fp (unused_all D pre (fun x X => proj1 (U1 x X))) _ _ _ _ A). intros vs t t' A'.
      rewrite (ok_vars_agree body (Nat.eqb c) (fst t) (fst t')).
      2:{ intros y I V. apply (proj1 A'). destruct (D y) eqn:E; [|reflexivity]. destruct (U1 y E) as (_ & _ & Z). rewrite Nat.eqb_sym, I, V in Z. discriminate Z. }
      destruct (ok_vars _ _ _); [|split; [reflexivity|exact A']].
      apply (each_R D post Fq (unused_all D post (fun x X => proj1 (proj2 (U1 x X)))) _ _ _ _ A'). intros us u u' A''. split; [|exact A'']. cbn [fst].
      destruct vs as [|[| | | | |r| | | | |] vs]; try reflexivity.
      assert (EB : forall ch, fst (eval body (upd (fst u) c (VChar ch), snd u)) = fst (eval body (upd (fst u') c (VChar ch), snd u'))).
      { intros ch. assert (E : R (minus D c) (eval body (upd (fst u) c (VChar ch), snd u)) (eval body (upd (fst u') c (VChar ch), snd u'))); [|exact (proj1 E)].
        apply Hb; [apply minus_unused; intros y Y; apply (U1 y Y)|]. split; [|exact (proj2 A'')]. cbn. intros y N. unfold upd. destruct (Nat.eqb_spec y c); [reflexivity|]. apply (proj1 A''). unfold minus in N. destruct (Nat.eqb_spec y c); [contradiction|]. rewrite andb_true_r in N. exact N. }
      cbn zeta. rewrite (forallb_ext' _ (fun ch => is_bool (fst (eval body (upd (fst u') c (VChar ch), snd u'))))) by (intros ch; rewrite EB; reflexivity).
      destruct (forallb _ _); [|reflexivity]. apply pmeth_ext. intros ch _. rewrite EB. reflexivity.
    - apply bind_R; [apply He; assumption|]. intros v t t' A'. split; [reflexivity|exact A'].
    - assert (Ua : unused D a) by (intros x X; specialize (U x X); cbn in U; apply orb_false_elim in U; apply U). assert (Ub : unused D b) by (intros x X; specialize (U x X); cbn in U; apply orb_false_elim in U; apply U).
      apply bind_R; [apply Ha; assumption|]. intros v t t' A'. destruct v as [|[|]| | | | | | | | |]; try (split; [reflexivity|exact A']). apply Hb; assumption.
    - assert (U3 : unused D c /\ unused D a /\ unused D b) by (repeat split; intros x X; specialize (U x X); cbn in U; apply orb_false_elim in U; destruct U as [U V]; apply orb_false_elim in U; tauto).
      destruct U3 as (Uc & Ua & Ub). apply bind_R; [apply Hc; assumption|]. intros v t t' A'. destruct v as [|[|]| | | | | | | | |]; try (split; [reflexivity|exact A']); [apply Ha|apply Hb]; assumption.
    - assert (U3 : forall y, D y = true -> uses y e = false /\ negb (Nat.eqb y x) && uses y a = false /\ uses y b = false) by (intros y Y; specialize (U y Y); cbn in U; apply orb_false_elim in U; destruct U as [U V]; apply orb_false_elim in U; tauto).
      apply bind_R; [apply He; [intros y Y; apply (U3 y Y)|exact A]|]. intros v t t' A'. destruct v; try (split; [reflexivity|exact A']); [apply Hb; [intros y Y; apply (U3 y Y)|exact A']|].
      apply scoped_R; [exact A'|]. apply Ha. apply minus_unused. intros y Y. apply (U3 y Y).
    - assert (U3 : forall y, D y = true -> uses y e = false /\ negb (Nat.eqb y x) && uses y b = false) by (intros y Y; specialize (U y Y); cbn in U; apply orb_false_elim in U; tauto).
      apply bind_R; [apply He; [intros y Y; apply (U3 y Y)|exact A]|]. intros v t t' A'. apply scoped_R; [exact A'|]. apply Hb. apply minus_unused. intros y Y. apply (U3 y Y).
    - assert (U3 : forall z, D z = true -> uses z e = false /\ negb (Nat.eqb z x || Nat.eqb z y) && uses z b = false) by (intros z Y; specialize (U z Y); cbn in U; apply orb_false_elim in U; tauto).
      apply bind_R; [apply He; [intros z Y; apply (U3 z Y)|exact A]|]. intros v t t' A'. destruct v; try (split; [reflexivity|exact A']). apply scoped_R; [exact A'|]. intros u u' Au. apply scoped_R; [exact Au|]. apply Hb. apply minus_unused. intros z Z. unfold minus in Z. apply andb_prop in Z. destruct Z as [Z N]. destruct (U3 z Z) as [_ V]. destruct (Nat.eqb z x); [discriminate N|]. exact V.
    - assert (Ue : unused D e /\ D x = false). { split; [intros z Z; specialize (U z Z); cbn in U; apply orb_false_elim in U; apply U|]. destruct (D x) eqn:E; [|reflexivity]. specialize (U x E). cbn in U. rewrite Nat.eqb_refl in U. discriminate U. }
      destruct Ue as [Ue Dx]. apply bind_R; [apply He; assumption|]. intros v t t' A'. split; [reflexivity|]. split; [|exact (proj2 A')]. cbn. intros z Z. unfold upd. destruct (Nat.eqb z x); [reflexivity|apply (proj1 A'), Z].
    - assert (Ua : unused D a) by (intros x X; specialize (U x X); cbn in U; apply orb_false_elim in U; apply U). assert (Ub : unused D b) by (intros x X; specialize (U x X); cbn in U; apply orb_false_elim in U; apply U).
      apply bind_R; [apply Ha; assumption|]. intros v t t' A'. apply Hb; assumption.
    - assert (Dx : D x = false). { destruct (D x) eqn:E; [|reflexivity]. specialize (U x E). cbn in U. rewrite Nat.eqb_refl in U. discriminate U. }
      rewrite (proj1 A x Dx). destruct (fst s' x); try (split; [reflexivity|exact A]). split; [reflexivity|]. split; [|exact (proj2 A)]. cbn. intros z Z. unfold upd. destruct (Nat.eqb z x); [reflexivity|apply (proj1 A), Z].
  Qed.

  Lemma hid x y b : y <> x -> negb (Nat.eqb x y) && b = false -> b = false.
  Proof. intros N H. destruct (Nat.eqb_spec x y); [congruence|exact H]. Qed.
  (** ** A variable that is not written keeps its value. *)
  Lemma each_frame x es : Forall (fun e => writes x e = false -> forall s : st, fst (snd (eval e s)) x = fst s x) es -> existsb (writes x) es = false -> forall k s v,
    (forall vs (t : st), fst t x = v -> fst (snd (k vs t)) x = v) -> fst s x = v -> fst (snd (each wd eval es k s)) x = v.
  Proof.
    intros F. induction F as [|e es He F IH]; intros W k s v K E; cbn [each]; [apply K, E|]. cbn in W. apply orb_false_elim in W. destruct W as [W1 W2].
    specialize (He W1 s). destruct (eval e s) as [[u|u| |] t]; cbn [bind fst snd] in He |- *; try exact (eq_trans He E). apply IH; [exact W2| |exact (eq_trans He E)]. intros vs t' E'. apply K, E'.
  Qed.
  Lemma bind_frame x (r : out * st) k v : fst (snd r) x = v -> (forall u (t : st), fst t x = v -> fst (snd (k u t)) x = v) -> fst (snd (bind wd r k)) x = v.
  Proof. intros E K. destruct r as [[u|u| |] t]; cbn in *; auto. Qed.
  Lemma scoped_frame x y u k (s : st) : (y <> x -> forall t : st, fst (snd (k t)) x = fst t x) -> fst (snd (scoped wd y u k s)) x = fst s x.
  Proof.
    intros K. unfold scoped. destruct (Nat.eq_dec y x) as [->|N].
    - destruct (k _) as [o [a w]]. cbn. apply upd_same.
    - specialize (K N (upd (fst s) y u, snd s)). destruct (k (upd (fst s) y u, snd s)) as [o [a w]]. cbn in *. rewrite upd_other by congruence. rewrite K. apply upd_other. congruence.
  Qed.
  Theorem eval_frame x : forall e, writes x e = false -> forall s : st, fst (snd (eval e s)) x = fst s x.
  Proof.
    induction e as [y t|l|f t es F|o es F|m pre c body post Fp Hb Fq|e He|a b Ha Hb|c a b Hc Ha Hb|y e a b He Ha Hb|y e b He Hb|y z e b He Hb|y e He|a b Ha Hb|y] using ex_ind'; intros W s; cbn [StrSpec.eval].
    - reflexivity.
    - reflexivity.
    - apply (each_frame x es F W _ _ (fst s x)); [|reflexivity]. intros vs t0 E. destruct (call _ _ _ _). exact E.
    - apply (each_frame x es F W _ _ (fst s x)); [|reflexivity]. intros vs t0 E. exact E.
    - cbn in W. apply orb_false_elim in W. destruct W as [W W3]. apply orb_false_elim in W. destruct W as [W1 W2]. apply (each_frame x pre Fp W1 _ _ (fst s x)); [|reflexivity]. intros vs t0 E. destruct (ok_vars _ _ _); [|exact E]. apply (each_frame x post Fq W2 _ _ (fst s x)); [|exact E]. intros us u E'. exact E'.
    - apply bind_frame; [apply He, W|]. intros u t E. exact E.
    - cbn in W. apply orb_false_elim in W. destruct W as [W1 W2]. apply bind_frame; [apply Ha, W1|]. intros u t E. destruct u as [|[|]| | | | | | | | |]; try exact E. rewrite (Hb W2). exact E.
    - cbn in W. apply orb_false_elim in W. destruct W as [W W3]. apply orb_false_elim in W. destruct W as [W1 W2]. apply bind_frame; [apply Hc, W1|]. intros u t E. destruct u as [|[|]| | | | | | | | |]; try exact E; [rewrite (Ha W2)|rewrite (Hb W3)]; exact E.
    - cbn in W. apply orb_false_elim in W. destruct W as [W W3]. apply orb_false_elim in W. destruct W as [W1 W2]. apply bind_frame; [apply He, W1|]. intros u t E. destruct u; try exact E; [rewrite (Hb W3); exact E|]. rewrite scoped_frame; [exact E|]. intros N. apply Ha, (hid x y); assumption.
    - cbn in W. apply orb_false_elim in W. destruct W as [W1 W2]. apply bind_frame; [apply He, W1|]. intros u t E. rewrite scoped_frame; [exact E|]. intros N. apply Hb, (hid x y); assumption.
    - cbn in W. apply orb_false_elim in W. destruct W as [W1 W2]. apply bind_frame; [apply He, W1|]. intros u t E. destruct u; try exact E. rewrite scoped_frame; [exact E|]. intros N t0. rewrite scoped_frame; [reflexivity|]. intros N'. apply Hb, (hid x z); [assumption|]. apply (hid x y); [assumption|]. rewrite andb_assoc, <- negb_orb. exact W2.
    - cbn in W. apply orb_false_elim in W. destruct W as [W1 W2]. apply bind_frame; [apply He, W2|]. intros u t E. cbn. rewrite upd_other; [exact E|]. apply Nat.eqb_neq. exact W1.
    - cbn in W. apply orb_false_elim in W. destruct W as [W1 W2]. apply bind_frame; [apply Ha, W1|]. intros u t E. rewrite (Hb W2). exact E.
    - cbn in W. destruct (fst s y); try reflexivity. cbn. apply upd_other. apply Nat.eqb_neq. exact W.
  Qed.
End Proofs.
