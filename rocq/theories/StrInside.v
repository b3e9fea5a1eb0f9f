(** Changes anywhere in a program. *)
From Verif Require Export StrStrip.

(** [e'] is [e] with some parts changed as [P] says; the bodies of closures are left as they are. *)
Inductive inside (P : ex -> ex -> Prop) : ex -> ex -> Prop :=
| in_here e e' : P e e' -> inside P e e'
| in_same e : inside P e e
| in_call f t es es' : Forall2 (inside P) es es' -> inside P (XCall f t es) (XCall f t es')
| in_op o es es' : Forall2 (inside P) es es' -> inside P (XOp o es) (XOp o es')
| in_pred m pre pre' c body post post' : Forall2 (inside P) pre pre' -> Forall2 (inside P) post post' -> inside P (XPred m pre c body post) (XPred m pre' c body post')
| in_try e e' : inside P e e' -> inside P (XTry e) (XTry e')
| in_or a a' b b' : inside P a a' -> inside P b b' -> inside P (XOr a b) (XOr a' b')
| in_if c c' a a' b b' : inside P c c' -> inside P a a' -> inside P b b' -> inside P (XIf c a b) (XIf c' a' b')
| in_if_some x e e' a a' b b' : inside P e e' -> inside P a a' -> inside P b b' -> inside P (XIfSome x e a b) (XIfSome x e' a' b')
| in_let x e e' b b' : inside P e e' -> inside P b b' -> inside P (XLet x e b) (XLet x e' b')
| in_let2 x y e e' b b' : inside P e e' -> inside P b b' -> inside P (XLet2 x y e b) (XLet2 x y e' b')
| in_assign x e e' : inside P e e' -> inside P (XAssign x e) (XAssign x e')
| in_seq a a' b b' : inside P a a' -> inside P b b' -> inside P (XSeq a b) (XSeq a' b').

Section Proofs.
  Context (wd : world).
  Notation eval := (eval wd).
  Notation st := (st wd).
  Notation same := (same wd).
  Definition none : nat -> bool := fun _ => false.
  (** The same from states with the same values. *)
  Definition alike (e e' : ex) : Prop := forall s s' : st, agree wd none s' s -> R wd none (eval e' s') (eval e s).
  Lemma same_alike e e' : (forall s, same (eval e' s) (eval e s)) -> alike e e'.
  Proof.
    intros H s s' A. destruct (eval_agree wd e' none ltac:(intros x X; discriminate X) s' s A) as [E1 [A1 A2]]. destruct (H s) as (E2 & B2 & B1). split; [congruence|]. split; [|congruence]. intros y Y. rewrite A1 by exact Y. apply B1.
  Qed.
  Lemma alike_same e e' : alike e e' -> forall s, same (eval e' s) (eval e s).
  Proof. intros H s. destruct (H s s) as [E [A B]]; [split; [intros y _; reflexivity|reflexivity]|]. split; [exact E|]. split; [exact B|]. intros x. apply A. reflexivity. Qed.
  Lemma alike_each es es' : Forall2 alike es es' -> forall k k' s s', agree wd none s' s -> (forall vs t t', agree wd none t' t -> R wd none (k' vs t') (k vs t)) -> R wd none (each wd eval es' k' s') (each wd eval es k s).
  Proof. intros F. induction F as [|e e' es es' He F IH]; intros k k' s s' A K; cbn [each]; [apply K, A|]. apply bind_R; [apply He, A|]. intros v t' t A'. apply IH; [exact A'|]. intros vs u u' A''. apply K, A''. Qed.
  Lemma scoped_alike x v k k' s s' : agree wd none s' s -> (forall t t', agree wd none t' t -> R wd none (k' t') (k t)) -> R wd none (scoped wd x v k' s') (scoped wd x v k s).
  Proof.
    intros A K. apply scoped_R; [exact A|]. intros t t' B. assert (B' : agree wd none t t') by (split; [intros y _; apply (proj1 B); reflexivity|exact (proj2 B)]). destruct (K t' t B') as [E [C D]]. split; [exact E|]. split; [intros y _; apply C; reflexivity|exact D].
  Qed.
  Lemma inside_ind' (P : ex -> ex -> Prop) (Q : ex -> ex -> Prop) :
    (forall e e', P e e' -> Q e e') -> (forall e, Q e e) ->
    (forall f t es es', Forall2 Q es es' -> Q (XCall f t es) (XCall f t es')) -> (forall o es es', Forall2 Q es es' -> Q (XOp o es) (XOp o es')) ->
    (forall m pre pre' c body post post', Forall2 Q pre pre' -> Forall2 Q post post' -> Q (XPred m pre c body post) (XPred m pre' c body post')) ->
    (forall e e', Q e e' -> Q (XTry e) (XTry e')) -> (forall a a' b b', Q a a' -> Q b b' -> Q (XOr a b) (XOr a' b')) ->
    (forall c c' a a' b b', Q c c' -> Q a a' -> Q b b' -> Q (XIf c a b) (XIf c' a' b')) ->
    (forall x e e' a a' b b', Q e e' -> Q a a' -> Q b b' -> Q (XIfSome x e a b) (XIfSome x e' a' b')) ->
    (forall x e e' b b', Q e e' -> Q b b' -> Q (XLet x e b) (XLet x e' b')) -> (forall x y e e' b b', Q e e' -> Q b b' -> Q (XLet2 x y e b) (XLet2 x y e' b')) ->
    (forall x e e', Q e e' -> Q (XAssign x e) (XAssign x e')) -> (forall a a' b b', Q a a' -> Q b b' -> Q (XSeq a b) (XSeq a' b')) ->
    forall e e', inside P e e' -> Q e e'.
  Proof.
    intros H1 H2 H3 H4 H5 H6 H7 H8 H9 H10 H11 H12 H13. fix IH 3. intros e e' I.
    assert (L : forall es es', Forall2 (inside P) es es' -> Forall2 Q es es') by (fix IL 3; intros ? ? [|? ? ? ? J K]; constructor; [apply IH, J|apply IL, K]).
    destruct I; eauto.
  Qed.
  Theorem inside_same (P : ex -> ex -> Prop) : (forall e e', P e e' -> forall s, same (eval e' s) (eval e s)) -> forall e e', inside P e e' -> forall s, same (eval e' s) (eval e s).
  Proof.
    intros HP e e' I. apply alike_same. revert e e' I. apply inside_ind'.
    - intros e e' H. apply same_alike, HP, H.
    - intros e. apply same_alike. intros s. apply same_refl.
    - intros f t es es' F s s' A. apply (alike_each _ _ F); [exact A|]. intros vs u u' B. rewrite (proj2 B). destruct (call _ _ _ _) as [o w]. split; [reflexivity|]. split; [exact (proj1 B)|reflexivity].
    - intros o es es' F s s' A. apply (alike_each _ _ F); [exact A|]. intros vs u u' B. split; [reflexivity|exact B].
    - intros m pre pre' c body post post' F G s s' A. cbn [StrSpec.eval]. apply (alike_each _ _ F); [exact A|]. intros vs u u' B. rewrite (ok_vars_agree body (Nat.eqb c) (fst u') (fst u)) by (intros; apply (proj1 B); reflexivity).
      destruct (ok_vars _ _ _); [|split; [reflexivity|exact B]]. apply (alike_each _ _ G); [exact B|]. intros us t t' C. split; [|exact C]. cbn [fst]. destruct vs as [|[| | | | |r| | | | |] vs]; try reflexivity.
      assert (EB : forall ch, fst (eval body (upd (fst t') c (VChar ch), snd t')) = fst (eval body (upd (fst t) c (VChar ch), snd t))).
      { intros ch. destruct (eval_agree wd body none ltac:(intros x X; discriminate X) (upd (fst t') c (VChar ch), snd t') (upd (fst t) c (VChar ch), snd t)) as [E _]; [|exact E]. split; [|exact (proj2 C)]. intros y _. cbn. unfold upd. destruct (Nat.eqb y c); [reflexivity|apply (proj1 C); reflexivity]. }
      cbn zeta. rewrite (forallb_ext' _ (fun ch => is_bool (fst (eval body (upd (fst t) c (VChar ch), snd t))))) by (intros ch; rewrite EB; reflexivity).
      destruct (forallb _ _); [|reflexivity]. apply pmeth_ext. intros ch _. rewrite EB. reflexivity.
    - intros e e' H s s' A. cbn [StrSpec.eval]. apply bind_R; [apply H, A|]. intros v t t' B. split; [reflexivity|exact B].
    - intros a a' b b' Ha Hb s s' A. cbn [StrSpec.eval]. apply bind_R; [apply Ha, A|]. intros v t t' B. destruct v as [|[|]| | | | | | | | |]; try (split; [reflexivity|exact B]). apply Hb, B.
    - intros c c' a a' b b' Hc Ha Hb s s' A. cbn [StrSpec.eval]. apply bind_R; [apply Hc, A|]. intros v t t' B. destruct v as [|[|]| | | | | | | | |]; try (split; [reflexivity|exact B]); [apply Ha, B|apply Hb, B].
    - intros x e e' a a' b b' He Ha Hb s s' A. cbn [StrSpec.eval]. apply bind_R; [apply He, A|]. intros v t t' B. destruct v; try (split; [reflexivity|exact B]); [apply Hb, B|]. apply scoped_alike; [exact B|]. intros u u' C. apply Ha, C.
    - intros x e e' b b' He Hb s s' A. cbn [StrSpec.eval]. apply bind_R; [apply He, A|]. intros v t t' B. apply scoped_alike; [exact B|]. intros u u' C. apply Hb, C.
    - intros x y e e' b b' He Hb s s' A. cbn [StrSpec.eval]. apply bind_R; [apply He, A|]. intros v t t' B. destruct v; try (split; [reflexivity|exact B]). apply scoped_alike; [exact B|]. intros u u' C. apply scoped_alike; [exact C|]. intros u0 u0' C0. apply Hb, C0.
    - intros x e e' He s s' A. cbn [StrSpec.eval]. apply bind_R; [apply He, A|]. intros v t t' B. split; [reflexivity|]. split; [|exact (proj2 B)]. cbn. intros y _. unfold upd. destruct (Nat.eqb y x); [reflexivity|apply (proj1 B); reflexivity].
    - intros a a' b b' Ha Hb s s' A. cbn [StrSpec.eval]. apply bind_R; [apply Ha, A|]. intros v t t' B. apply Hb, B.
  Qed.
End Proofs.
