(** Proofs about the lints on loops and `continue`. *)
From Verif Require Import BlkSpec BlkEnv BlkModel BlkProofs BlkProofs2 BlkProofs4.

Lemma loop_ok : forall l f f', (forall s, fst (f s) <> OStuck -> alike none_of (f s) (f' s)) ->
  (forall s s', agree none_of s s' -> alike none_of (f' s) (f' s')) ->
  forall m s s', agree none_of s s' -> fst (run_loop l f m s) <> OStuck -> alike none_of (run_loop l f m s) (run_loop l f' m s').
Proof.
  intros l f f' F X. induction m as [|m IH]; intros s s' A N; cbn in *; [split; auto|].
  assert (N1 : fst (f s) <> OStuck) by (intros Q; rewrite Q in N; congruence).
  pose proof (alike_trans _ _ _ _ (F s N1) (X s s' A)) as [B1 B2]. destruct (f s) as [o t], (f' s') as [o' t']. cbn in *. subst o'.
  destruct o; try (split; auto; fail); auto; destruct (hits l l0); try (split; auto; fail); auto.
Qed.

(** ** single_element_loop. *)
Definition calm (o : out) : Prop := match o with OBrk _ _ | OCnt _ => False | _ => True end.
Lemma calm_next : forall r k, calm (fst r) -> (forall v s, calm (fst (k v s))) -> calm (fst (next r k)).
Proof. intros [o s] k A B. unfold next. cbn in *. destruct o; auto. Qed.
Lemma calm_bin : forall o v w, calm (bin o v w).
Proof. intros o v w. destruct o, v; cbn; auto; destruct w; cbn; auto. destruct (z0 =? 0)%Z; cbn; auto. Qed.
Lemma calm_given : forall v s, calm (fst (given v s)).
Proof. destruct v; cbn; auto. Qed.
Lemma calm_loop : forall l f m s, (forall s, calm (fst (f s))) -> calm (fst (run_loop l f m s)).
Proof.
  intros l f m. induction m as [|m IH]; intros s F; cbn; [auto|]. specialize (F s) as G. destruct (f s) as [o t]. cbn in *.
  destruct o; try (apply IH; auto; fail); try (destruct G; fail); exact I.
Qed.
Lemma calm_while : forall l f m s, (forall s, calm (fst (f s))) -> calm (fst (run_loop l (fun s => match f s with (OElse, s) => (OBrk None VUnit, s) | r => r end) m s)).
Proof.
  intros l f m. induction m as [|m IH]; intros s F; cbn; [auto|]. specialize (F s) as G. destruct (f s) as [o t]. cbn in *.
  destruct o; try (apply IH; auto; fail); try (destruct G; fail); exact I.
Qed.
Lemma calm_for : forall l f vs s, (forall v s, calm (fst (f v s))) -> calm (fst (run_for l f vs s)).
Proof.
  intros l f vs. induction vs as [|v vs IH]; intros s F; cbn; [auto|]. specialize (F v s) as G. destruct (f v s) as [o t]. cbn in *.
  destruct o; try (apply IH; auto; fail); try (destruct G; fail); exact I.
Qed.
Lemma nojump : forall w n e s, jumps e = false -> calm (fst (eval w n e s)).
Proof.
  intros w n. induction e; intros s J; cbn in J; repeat (apply orb_false_iff in J; let J' := fresh "J" in destruct J as [J J']); try discriminate; cbn [eval];
    try (apply calm_next; [auto|]; intros v1 t1; try (apply calm_next; [auto|]; intros v2 t2));
    try (repeat match goal with |- calm (fst (match ?u with _ => _ end)) => destruct u eqn:? end; cbn; auto; try apply calm_bin; try apply calm_given; fail).
  - pose proof (calm_bin o (fst t1 x) v1) as Q. destruct (bin o (fst t1 x) v1); exact Q || exact I.
  - destruct (fst t2 x); cbn; auto. destruct v2; cbn; auto. destruct (at_ l z) as [u|]; cbn; auto. pose proof (calm_bin o u v1) as Q. destruct (bin o u v1); exact Q || exact I.
  - destruct (pbind p v1 (fst t1)); cbn; auto. apply calm_next; auto. cbn. auto.
  - specialize (IHe1 s J). destruct (eval w n e1 s) as [[] t]; cbn in *; auto.
  - specialize (IHe s J). destruct (eval w n e s) as [[] t]; cbn in *; auto.
  - apply calm_loop. auto.
  - apply calm_while. auto.
  - destruct v1; cbn; auto. apply calm_for. intros v s0. destruct (pbind p v (fst s0)); cbn; auto.
  - specialize (IHe s J). destruct (eval w n e s) as [[] t]; cbn in *; auto. tauto.
Qed.
Lemma single_element_loop_ok : forall e e', single_element_loop e = Some e' -> (forall l p a b, e = XFor l p a b -> unit_valued b) -> same e e'.
Proof.
  intros e e' H U. destruct e; try discriminate. destruct e1; try discriminate. cbn [single_element_loop] in H. destruct (is_unit e2 || jumps e2) eqn:J; [discriminate|]. injection H as <-.
  apply orb_false_iff in J. destruct J as [_ J]. specialize (U _ _ _ _ eq_refl). apply same_eq. intros w n s. cbn [eval]. rewrite next_next. apply next_same; [auto|]. intros v t. rewrite next_pair. cbn [run_for].
  destruct (pbind p v (fst t)) as [f|]; cbn; [|auto]. pose proof (nojump w n e2 (f, snd t) J) as C. pose proof (U w n (f, snd t)) as V. destruct (eval w n e2 (f, snd t)) as [[] u]; cbn in *; auto; try tauto.
  rewrite (V _ _ eq_refl). auto.
Qed.

(** ** manual_while_let_some. *)
Lemma while_body : forall w n k s, (match eval w n k s with (OElse, s) => (OBrk None VUnit, s) | r => r end) =
  (match fst (eval w n k s) with OElse => OBrk None VUnit | o => o end, snd (eval w n k s)).
Proof. intros w n k s. destruct (eval w n k s) as [[] t]; auto. Qed.
Lemma while_ext : forall w n k s s', agree none_of s s' ->
  alike none_of (match eval w n k s with (OElse, s) => (OBrk None VUnit, s) | r => r end) (match eval w n k s' with (OElse, s) => (OBrk None VUnit, s) | r => r end).
Proof. intros w n k s s' A. rewrite (while_body w n k s), (while_body w n k s'). pose proof (eval_ext w n k s s' A) as [B1 B2]. split; cbn; [rewrite B1; auto|auto]. Qed.
Lemma while_ok : forall l k k', (forall w n s, (match fst (eval w n k s) with OElse => OBrk None VUnit | o => o end) <> OStuck -> alike none_of (eval w n k s) (eval w n k' s)) -> same_ok (XWhile l k) (XWhile l k').
Proof.
  intros l k k' H w n s N. cbn [eval] in *. apply loop_ok; auto; [| |apply agree_refl].
  - intros t M. rewrite (while_body w n k t) in *. rewrite (while_body w n k' t). specialize (H w n t M). destruct H as [H1 H2]. split; cbn; [rewrite H1; auto|auto].
  - intros t t' T. apply (while_ext w n k' t t' T).
Qed.

Definition popped (s : st) (x : nat) (l : list val) : st := setv s x (VVec (removelast l)).
Lemma pop_ok : forall w n x s, fst (eval w n (XUnwrap (XPop x)) s) <> OStuck -> exists l, fst s x = VVec l /\
  (l = [] /\ eval w n (XUnwrap (XPop x)) s = (OPanic, s) \/ l <> [] /\ last l VUnit <> VHole /\ eval w n (XUnwrap (XPop x)) s = (OVal (last l VUnit), popped s x l) /\ eval w n (XPop x) s = (OVal (vsome (last l VUnit)), popped s x l)).
Proof.
  intros w n x s N. cbn [eval] in *. destruct (fst s x) as [| | | | | |l|]; try (exfalso; apply N; reflexivity). exists l. split; [auto|].
  destruct l as [|v l]; [left; auto|right]. split; [discriminate|]. rewrite next_pair in *. unfold vsome in *. assert (S : last (v :: l) VUnit <> VHole) by (intros Q; rewrite Q in N; apply N; reflexivity).
  rewrite given_solid in * by auto. auto.
Qed.
Lemma not_empty : forall w n x s l b, fst s x = VVec l -> eval w n (XTest (XNot (XIsEmpty x)) b) s = match l with [] => (OElse, s) | _ => eval w n b s end.
Proof. intros w n x s l b E. cbn [eval]. rewrite E. destruct l; auto. Qed.
Lemma pop_unwrap_eq : forall x a, pop_unwrap x a = true -> a = XUnwrap (XPop x).
Proof. intros x a H. destruct a; try discriminate. destruct a; try discriminate. apply Nat.eqb_eq in H. congruence. Qed.
Lemma empty_ok : forall w n x b p r s, (match fst (eval w n (XTest (XNot (XIsEmpty x)) b) s) with OElse => OBrk None VUnit | o => o end) <> OStuck ->
  (forall l, fst s x = VVec l -> l <> [] -> (match fst (eval w n b s) with OElse => OBrk None VUnit | o => o end) <> OStuck -> alike none_of (eval w n b s) (eval w n (XBind (P1 1 p) (XPop x) r) s)) ->
  alike none_of (eval w n (XTest (XNot (XIsEmpty x)) b) s) (eval w n (XBind (P1 1 p) (XPop x) r) s).
Proof.
  intros w n x b p r s N H. destruct (fst s x) as [| | | | | |l|] eqn:E; try (exfalso; apply N; cbn; rewrite E; reflexivity).
  rewrite (not_empty w n x s l b E) in *. destruct l as [|v l].
  - cbn [eval]. rewrite E. apply alike_refl.
  - apply (H (v :: l)); [auto|discriminate|auto].
Qed.
Lemma manual_while_let_some_ok : forall elem e e', manual_while_let_some elem e = Some e' ->
  (forall l x f a b r, e = XWhile l (XTest (XNot (XIsEmpty x)) (XSeq (XCall f a b) r)) -> uses elem e = false /\
     (a <> XUnwrap (XPop x) -> (exists v, a = XVal v) \/ (exists y, a = XVar y /\ y <> x))) -> same_ok e e'.
Proof.
  intros elem e e' H U. destruct e; try discriminate. destruct e; try discriminate. destruct e1; try discriminate. destruct e1; try discriminate. cbn [manual_while_let_some] in H. destruct e2; try discriminate.
  - destruct e2_1; try discriminate. destruct (U _ _ _ _ _ _ eq_refl) as [U1 U2]. cbn [uses] in U1. apply orb_false_iff in U1. destruct U1 as [U1 U3]. apply orb_false_iff in U3. destruct U3 as [U3 V]. apply orb_false_iff in U3. destruct U3 as [UA V0].
    destruct (pop_unwrap x e2_1_1) eqn:PU1.
    + injection H as <-. apply pop_unwrap_eq in PU1. subst e2_1_1. apply while_ok. intros w n s N. apply empty_ok; [auto|]. clear N. intros vs E NE N.
      change (eval w n (XSeq (XCall f (XUnwrap (XPop x)) e2_1_2) e2_2) s) with (next (next (eval w n (XUnwrap (XPop x)) s) (fun v s => next (eval w n e2_1_2 s) (fun w0 s =>
         let h := snd s ++ [(f, v, w0)] in match w h with Some r => given r (fst s, h) | None => (OPanic, (fst s, h)) end))) (fun _ s => eval w n e2_2 s)) in *.
      destruct (pop_ok w n x s) as [l' [E' D]].
      { intros Q. apply N. destruct (eval w n (XUnwrap (XPop x)) s). cbn in Q. subst. reflexivity. }
      rewrite E in E'. injection E' as <-. destruct D as [[D _]|[_ [S [D1 D2]]]]; [tauto|].
      change (eval w n (XBind (P1 1 (PVar elem)) (XPop x) (XSeq (XCall f (XVar elem) e2_1_2) e2_2)) s) with (next (eval w n (XPop x) s) (fun v s => match pbind (P1 1 (PVar elem)) v (fst s) with
         | Some g => leave [elem] s (eval w n (XSeq (XCall f (XVar elem) e2_1_2) e2_2) (g, snd s)) | None => (OElse, s) end)).
      rewrite D1, D2, !next_pair. cbn [pbind vsome]. rewrite Nat.eqb_refl. set (t := popped s x vs) in *. set (v := last vs VUnit) in *.
      change (upd (fst t) elem v, snd t) with (setv t elem v).
      assert (K : eval w n (XSeq (XCall f (XVar elem) e2_1_2) e2_2) (setv t elem v) = eval w n (XSeq (XCall f (XVal v) e2_1_2) e2_2) (setv t elem v)).
      { cbn [eval]. rewrite upd_same. auto. }
      rewrite K. eapply alike_trans; [|apply hide; cbn [uses]; rewrite V0, V; auto].
      cbn [eval]. rewrite given_solid, next_pair by auto. apply alike_refl.
    + destruct (pop_unwrap x e2_1_2) eqn:PU2; [|discriminate]. injection H as <-. apply pop_unwrap_eq in PU2. subst e2_1_2.
      assert (NP : e2_1_1 <> XUnwrap (XPop x)) by (intros ->; cbn in PU1; rewrite Nat.eqb_refl in PU1; discriminate).
      specialize (U2 NP). apply while_ok. intros w n s N. apply empty_ok; [auto|]. clear N. intros vs E NE N.
      assert (G : exists v, v <> VHole /\ forall t, (forall y, y <> x -> fst t y = fst s y) -> eval w n e2_1_1 t = (OVal v, t)).
      { destruct U2 as [[v ->]|[y [-> Y]]].
        - exists v. assert (v <> VHole) by (intros ->; apply N; reflexivity). split; [auto|]. intros t _. cbn [eval]. apply given_solid; auto.
        - exists (fst s y). assert (fst s y <> VHole) by (intros Q; apply N; cbn [eval]; rewrite Q; reflexivity). split; [auto|]. intros t T. cbn [eval]. rewrite T by auto. apply given_solid; auto. }
      destruct G as [va [NA G]].
      change (eval w n (XSeq (XCall f e2_1_1 (XUnwrap (XPop x))) e2_2) s) with (next (next (eval w n e2_1_1 s) (fun v s => next (eval w n (XUnwrap (XPop x)) s) (fun w0 s =>
         let h := snd s ++ [(f, v, w0)] in match w h with Some r => given r (fst s, h) | None => (OPanic, (fst s, h)) end))) (fun _ s => eval w n e2_2 s)) in *.
      rewrite G, next_pair in * by auto.
      destruct (pop_ok w n x s) as [l' [E' D]].
      { intros Q. apply N. destruct (eval w n (XUnwrap (XPop x)) s). cbn in Q. subst. reflexivity. }
      rewrite E in E'. injection E' as <-. destruct D as [[D _]|[_ [S [D1 D2]]]]; [tauto|].
      change (eval w n (XBind (P1 1 (PVar elem)) (XPop x) (XSeq (XCall f e2_1_1 (XVar elem)) e2_2)) s) with (next (eval w n (XPop x) s) (fun v s => match pbind (P1 1 (PVar elem)) v (fst s) with
         | Some g => leave [elem] s (eval w n (XSeq (XCall f e2_1_1 (XVar elem)) e2_2) (g, snd s)) | None => (OElse, s) end)).
      rewrite D1, D2, !next_pair. cbn [pbind vsome]. rewrite Nat.eqb_refl. set (t := popped s x vs) in *. set (v := last vs VUnit) in *.
      change (upd (fst t) elem v, snd t) with (setv t elem v).
      assert (T : forall y, y <> x -> fst t y = fst s y) by (intros y Y; unfold t, popped; rewrite setv_get; apply Nat.eqb_neq in Y; rewrite Y; auto).
      assert (K : eval w n (XSeq (XCall f e2_1_1 (XVar elem)) e2_2) (setv t elem v) = eval w n (XSeq (XCall f e2_1_1 (XVal v)) e2_2) (setv t elem v)).
      { cbn [eval]. f_equal. apply next_eq. intros u t' Q. assert (t' = setv t elem v). { destruct U2 as [[vv ->]|[y [-> Y]]]; cbn [eval] in Q; [destruct vv|destruct (fst (setv t elem v) y)]; cbn in Q; congruence. } subst t'. rewrite upd_same. auto. }
      rewrite K. eapply alike_trans; [|apply hide; cbn [uses]; rewrite UA, V; auto].
      cbn [eval]. rewrite (G t T), next_pair, (given_solid v), next_pair by auto. apply alike_refl.
  - destruct (pop_unwrap x e2_1) eqn:P; [|discriminate]. injection H as <-. apply pop_unwrap_eq in P. subst e2_1. apply while_ok. intros w n s N. apply empty_ok; [auto|]. clear N. intros vs E NE N.
    change (eval w n (XLet p (XUnwrap (XPop x)) e2_2) s) with (next (eval w n (XUnwrap (XPop x)) s) (fun v s => match pbind p v (fst s) with
      | Some f => leave (pvars p) s (eval w n e2_2 (f, snd s)) | None => (OStuck, s) end)) in *.
    change (eval w n (XBind (P1 1 p) (XPop x) e2_2) s) with (next (eval w n (XPop x) s) (fun v s => match pbind (P1 1 p) v (fst s) with
         | Some g => leave (pvars p) s (eval w n e2_2 (g, snd s)) | None => (OElse, s) end)).
    destruct (pop_ok w n x s) as [l' [E' D]].
    { intros Q. apply N. destruct (eval w n (XUnwrap (XPop x)) s). cbn in Q. subst. reflexivity. }
    rewrite E in E'. injection E' as <-. destruct D as [[D _]|[_ [S [D1 D2]]]]; [tauto|].
    rewrite D1, D2, !next_pair in *. cbn [pbind vsome]. rewrite Nat.eqb_refl. destruct (pbind p (last vs VUnit) (fst (popped s x vs))); [apply alike_refl|]. exfalso. apply N. reflexivity.
Qed.

(** ** needless_continue.  [onward]: both go on with the loop, or end alike. *)
Definition goes (l : option nat) (o : out) : Prop := match o with OVal _ => True | OCnt c => hits l c = true | _ => False end.
Definition onward (l : option nat) (r r' : out * st) : Prop := agree none_of (snd r) (snd r') /\ (fst r = fst r' \/ goes l (fst r) /\ goes l (fst r')).
Lemma onward_refl : forall l r, onward l r r.
Proof. intros. split; [apply agree_refl|auto]. Qed.
Lemma onward_alike : forall l r r', alike none_of r r' -> onward l r r'.
Proof. intros l r r' [A B]. split; auto. Qed.
Lemma onward_trans : forall l a b c, onward l a b -> onward l b c -> onward l a c.
Proof.
  intros l a b c [A B] [C D]. split; [eapply agree_trans; eauto|]. destruct B as [B|[B1 B2]], D as [D|[D1 D2]]; try rewrite B; try rewrite <- D; auto.
Qed.
Lemma onward_next : forall l r k k', (forall v s, onward l (k v s) (k' v s)) -> onward l (next r k) (next r k').
Proof. intros l [o s] k k' H. rewrite !next_pair. destruct o; auto; apply onward_refl. Qed.
Lemma onward_leave : forall l xs s r r', onward l r r' -> onward l (leave xs s r) (leave xs s r').
Proof. intros l xs s r r' [[A1 A2] B]. split; [|exact B]. split; [exact A1|]. intros y Y. cbn. destruct (mem y xs); auto. Qed.
Lemma onward_loop : forall l f f', (forall s s', agree none_of s s' -> onward l (f s) (f' s')) ->
  forall m s s', agree none_of s s' -> alike none_of (run_loop l f m s) (run_loop l f' m s').
Proof.
  intros l f f' F. induction m as [|m IH]; intros s s' A; cbn [run_loop]; [split; auto|].
  destruct (F s s' A) as [B C]. destruct (f s) as [o t], (f' s') as [o' t']. cbn [fst snd] in *. destruct C as [<-|[C1 C2]].
  - destruct o; try (split; auto; fail); auto; destruct (hits l l0); try (split; auto; fail); auto.
  - destruct o, o'; cbn in C1, C2; try tauto; rewrite ?C1, ?C2; auto.
Qed.
Lemma onward_for : forall l f f', (forall v s s', agree none_of s s' -> onward l (f v s) (f' v s')) ->
  forall vs s s', agree none_of s s' -> alike none_of (run_for l f vs s) (run_for l f' vs s').
Proof.
  intros l f f' F. induction vs as [|v vs IH]; intros s s' A; cbn [run_for]; [split; auto|].
  destruct (F v s s' A) as [B C]. destruct (f v s) as [o t], (f' v s') as [o' t']. cbn [fst snd] in *. destruct C as [<-|[C1 C2]].
  - destruct o; try (split; auto; fail); auto; destruct (hits l l0); try (split; auto; fail); auto.
  - destruct o, o'; cbn in C1, C2; try tauto; rewrite ?C1, ?C2; auto.
Qed.
Lemma onward_if : forall l w n k k' d d' s, onward l (eval w n k s) (eval w n k' s) -> (forall s, onward l (eval w n d s) (eval w n d' s)) ->
  onward l (eval w n (XIf k d) s) (eval w n (XIf k' d') s).
Proof.
  intros l w n k k' d d' s [A B] D. cbn [eval]. destruct (eval w n k s) as [o t], (eval w n k' s) as [o' t']. cbn [fst snd] in *. destruct B as [<-|[B1 B2]].
  - destruct o; try (split; auto; fail). eapply onward_trans; [apply D|]. apply onward_alike. apply eval_ext; auto.
  - destruct o, o'; cbn in B1, B2; try tauto; split; cbn; auto.
Qed.
Lemma onward_when : forall l w n k k' s, onward l (eval w n k s) (eval w n k' s) -> onward l (eval w n (XWhen k) s) (eval w n (XWhen k') s).
Proof.
  intros l w n k k' s [A B]. cbn [eval]. destruct (eval w n k s) as [o t], (eval w n k' s) as [o' t']. cbn [fst snd] in *. destruct B as [<-|[B1 B2]].
  - destruct o; split; auto.
  - destruct o, o'; cbn in B1, B2; try tauto; split; cbn; auto.
Qed.
Lemma labels_hits : forall l c, compare_labels l c = hits l c.
Proof. intros l c. destruct l, c; auto. Qed.
Lemma drop_last_ok : forall w n l e s, onward l (eval w n e s) (eval w n (drop_last l e) s).
Proof.
  intros w n l. induction e; intros s; cbn [drop_last]; try apply onward_refl.
  - cbn [eval]. auto.
  - destruct (is_unit e2) eqn:U.
    + apply is_unit_eq in U. subst e2. specialize (IHe1 s). cbn [eval]. destruct (eval w n e1 s) as [o t], (eval w n (drop_last l e1) s) as [o' t']. rewrite !next_pair. cbn [given].
      destruct IHe1 as [A B]. cbn [fst snd] in *. destruct B as [<-|[B1 B2]]; [destruct o; split; auto|].
      destruct o, o'; cbn in B1, B2; try tauto; split; cbn; auto.
    + cbn [eval]. apply onward_next. auto.
  - cbn [eval]. apply onward_leave. auto.
  - cbn [eval]. apply onward_next. intros v t. destruct (pbind p v (fst t)); [apply onward_leave; auto|apply onward_refl].
  - cbn [eval]. apply onward_next. intros v t. destruct (pbind p v (fst t)); [apply onward_leave; auto|apply onward_refl].
  - apply onward_if; auto.
  - apply onward_when; auto.
  - cbn [eval]. apply onward_next. intros v t. destruct v; try apply onward_refl. destruct b; [auto|apply onward_refl].
  - cbn [eval]. apply onward_next. intros v t. destruct (pbind p v (fst t)); [apply onward_leave; auto|apply onward_refl].
  - cbn [eval]. apply onward_next. intros v t. destruct (pbind p v (fst t)); [apply onward_leave; auto|]. destruct (pbind q v (fst t)); [apply onward_leave; auto|apply onward_refl].
  - specialize (IHe s). cbn [eval]. destruct (eval w n e s) as [o t], (eval w n (drop_last l e) s) as [o' t']. destruct IHe as [A B]. cbn [fst snd] in *. destruct B as [<-|[B1 B2]].
    + destruct o; try (split; auto; fail). destruct l1; [destruct (l0 =? n0)|]; split; auto.
    + destruct o, o'; cbn in B1, B2; try tauto; split; cbn; auto.
  - destruct (compare_labels l l0) eqn:C; [|apply onward_refl]. rewrite labels_hits in C. split; [apply agree_refl|]. cbn. auto.
Qed.
Lemma on_body_onward : forall w n l g k, (forall s, onward l (eval w n (body k) s) (eval w n (g (body k)) s)) -> forall s, onward l (eval w n k s) (eval w n (on_body g k) s).
Proof.
  intros w n l g. induction k; intros H s; cbn [on_body]; try (apply H; fail); cbn [body] in H; cbn [eval]; apply onward_next; intros v t.
  - destruct v; try apply onward_refl. destruct b; [auto|apply onward_refl].
  - destruct (pbind p v (fst t)); [apply onward_leave; auto|apply onward_refl].
Qed.
Lemma onward_ext : forall l w n e s s' r, agree none_of s s' -> onward l (eval w n e s) r -> onward l (eval w n e s') r.
Proof. intros l w n e s s' r A H. eapply onward_trans; [|exact H]. apply onward_alike. apply eval_ext. apply agree_sym. auto. Qed.
Lemma for_body_ext : forall w n p b v s s', agree none_of s s' ->
  alike none_of (match pbind p v (fst s) with Some f => leave (pvars p) s (eval w n b (f, snd s)) | None => (OStuck, s) end)
    (match pbind p v (fst s') with Some f => leave (pvars p) s' (eval w n b (f, snd s')) | None => (OStuck, s') end).
Proof.
  intros w n p b v s s' A. apply (alike_bind none_of p v s s' (eval w n b) (eval w n b) (OStuck, s) (OStuck, s')); [auto| |split; auto].
  intros t t' T. apply eval_off; [|auto]. intros x X. discriminate.
Qed.
Lemma on_loop_ok : forall g e e', on_loop g e = Some e' ->
  (forall l b b', g l b = Some b' -> e = XLoop l b \/ (exists k, e = XWhile l k /\ b = body k) \/ (exists p a, e = XFor l p a b) ->
     forall w n s, onward l (eval w n b s) (eval w n b' s)) -> same e e'.
Proof.
  intros g e e' H G w n s. destruct e; try discriminate; cbn [on_loop] in H.
  - destruct (g l e) as [b'|] eqn:E; [|discriminate]. injection H as <-. cbn [eval]. apply onward_loop; [|apply agree_refl]. intros t t' T.
    eapply onward_trans; [apply (G _ _ _ E); auto|]. apply onward_alike. apply eval_ext; auto.
  - destruct (g l (body e)) as [b'|] eqn:E; [|discriminate]. injection H as <-. cbn [eval]. apply onward_loop; [|apply agree_refl]. intros t t' T.
    eapply onward_trans; [|apply onward_alike; apply (while_ext w n _ t t' T)]. rewrite (while_body w n e t), (while_body w n (on_body (fun _ => b') e) t).
    pose proof (on_body_onward w n l (fun _ => b') e (G _ _ _ E (or_intror (or_introl (ex_intro _ e (Logic.conj eq_refl eq_refl)))) w n) t) as [A B].
    split; [exact A|]. cbn [fst]. destruct B as [->|[B1 B2]]; [auto|]. destruct (fst (eval w n e t)), (fst (eval w n (on_body (fun _ => b') e) t)); cbn in B1, B2; try tauto; right; split; cbn; auto.
  - destruct (g l e2) as [b'|] eqn:E; [|discriminate]. injection H as <-. cbn [eval]. apply alike_next; [apply alike_refl|]. intros v t t' T. destruct v; try (split; auto; fail). apply onward_for; [|auto].
    intros v u u' A. eapply onward_trans; [|apply onward_alike; apply (for_body_ext w n p b' v u u' A)].
    destruct (pbind p v (fst u)); [|apply onward_refl]. apply onward_leave. apply (G _ _ _ E). eauto.
Qed.
Lemma needless_continue_last_ok : forall e e', needless_continue_last e = Some e' -> same e e'.
Proof. intros e e' H. eapply on_loop_ok; [exact H|]. intros l b b' B _ w n s. injection B as <-. apply drop_last_ok. Qed.

Lemma body_binds : forall x k, binds x (body k) = true -> binds x k = true.
Proof. intros x. induction k; intros H; auto; cbn in *; rewrite (IHk2 H); rewrite ?orb_true_r; auto. Qed.
Lemma app_under : forall w n r k, tests k = true -> (forall x, mem x (let_vars (body k)) = true -> uses x r = false) ->
  forall s, alike none_of (next (eval w n k s) (fun _ t => eval w n r t)) (eval w n (on_body (fun b => app b r) k) s).
Proof.
  intros w n r. induction k; intros T U s; try discriminate; cbn [on_body]; try (apply app_scope; auto; fail).
  cbn [tests body] in *. cbn [eval]. rewrite next_next. apply alike_next; [apply alike_refl|]. intros v t t' A. destruct v; try (split; auto; fail). destruct b; [|split; auto].
  eapply alike_trans; [apply IHk2; auto|]. apply eval_ext; auto.
Qed.
Lemma first_cont : forall w n l b s, first_continue l b = true -> exists c, eval w n b s = (OCnt c, s) /\ hits l c = true.
Proof. intros w n l b s H. destruct b; try discriminate. destruct b1; try discriminate. cbn in H. exists l0. rewrite labels_hits in H. auto. Qed.
Lemma merge_else : forall w n l k d r s, tests k = true -> first_continue l d = true -> rust r -> (forall x, mem x (let_vars (body k)) = true -> uses x r = false) ->
  shape true k = true -> link k = true \/ rust k ->
  onward l (eval w n (XSeq (XIf k d) r) s) (eval w n (XWhen (on_body (fun b => app b r) k)) s).
Proof.
  intros w n l k d r s T F R U SK LK. rewrite eval_when. pose proof (app_under w n r k T U s) as [A1 A2].
  change (eval w n (XSeq (XIf k d) r) s) with (next (eval w n (XIf k d) s) (fun _ t => eval w n r t)).
  destruct (eval w n (on_body (fun b => app b r) k) s) as [o' t'] eqn:E'. cbn [eval]. destruct (eval w n k s) as [o t] eqn:E. cbn [fst snd] in *.
  destruct o; rewrite next_pair in *; cbn [fst snd] in *; subst; try (split; auto; fail).
  - pose proof (rust_else w n r t R) as Q. destruct (eval w n r t) as [o u]. cbn [fst snd] in *. destruct o; try tauto; split; cbn; auto.
  - destruct (first_cont w n l d t F) as [c [C1 C2]]. rewrite C1, next_pair. split; cbn; auto.
Qed.
Lemma merge_then : forall w n l k d r s, first_continue l (body k) = true -> eval w n (XSeq (XIf k d) r) s = eval w n (XSeq (XWhen k) (XSeq (XBrace d) r)) s.
Proof.
  intros w n l k d r s F. cbn [eval]. assert (V : forall v, fst (eval w n k s) <> OVal v).
  { intros v. apply body_never. intros t u. destruct (first_cont w n l (body k) t F) as [c [C _]]. rewrite C. discriminate. }
  destruct (eval w n k s) as [o t]. cbn [fst] in V. destruct o; try reflexivity. exfalso. eapply V. reflexivity.
Qed.
Lemma shape_body : forall k, shape true k = true -> shape true (body k) = true.
Proof. induction k; intros H; auto; cbn in *; apply andb_true_iff in H; destruct H as [_ H]; auto. Qed.
Lemma merge_ok : forall w n l b b', merge_continue l b = Some b' -> rust b -> tidy b -> forall s, onward l (eval w n b s) (eval w n b' s).
Proof.
  intros w n l. induction b; intros b' H R T s; try discriminate.
  - assert (D : (exists k d, b1 = XIf k d /\ tests k = true /\ (first_continue l d = true /\ b' = XWhen (on_body (fun b => app b b2) k) \/
       first_continue l (body k) = true /\ b' = XSeq (XWhen k) (XSeq (XBrace d) b2))) \/ (exists r, merge_continue l b2 = Some r /\ b' = XSeq b1 r)).
    { cbn [merge_continue] in H. destruct b1; try (right; destruct (merge_continue l b2) as [r|]; [injection H as <-; eauto|discriminate]).
      destruct (tests b1_1) eqn:K; [|right; destruct (merge_continue l b2) as [r|]; [injection H as <-; eauto|discriminate]].
      destruct (first_continue l b1_2) eqn:F1; [injection H as <-; left; exists b1_1, b1_2; auto 6|].
      destruct (first_continue l (body b1_1)) eqn:F2; [injection H as <-; left; exists b1_1, b1_2; auto 6|].
      right; destruct (merge_continue l b2) as [r|]; [injection H as <-; eauto|discriminate]. }
    clear H. unfold rust in R. cbn [shape] in R. apply andb_true_iff in R. destruct R as [R1 R2]. cbn [tidy] in T. destruct T as [T1 T2].
    destruct D as [[k [d [-> [K [[F ->]|[F ->]]]]]]|[r [M ->]]].
    + cbn [shape] in R1. apply andb_true_iff in R1. destruct R1 as [R1 R3]. apply merge_else; auto.
      * intros x X. apply T1. cbn [binds]. rewrite (body_binds x k); [auto|]. apply let_binds. auto.
      * destruct (link k) eqn:L; [auto|]. right. unfold rust. rewrite (shape_nolink k false true); auto.
    + rewrite (merge_then w n l k d b2 s F). apply onward_refl.
    + cbn [eval]. apply onward_next. intros v t. apply IHb2; auto.
  - cbn [merge_continue] in H. destruct (merge_continue l b) as [r|] eqn:M; [|discriminate]. injection H as <-. cbn [eval]. apply onward_leave. apply IHb; auto.
  - cbn [merge_continue] in H. destruct (merge_continue l b2) as [r|] eqn:M; [|discriminate]. injection H as <-. unfold rust in R. cbn [shape] in R. apply andb_true_iff in R. destruct R as [R1 R2].
    cbn [eval]. apply onward_next. intros v t. destruct (pbind p v (fst t)); [apply onward_leave; apply IHb2; auto|apply onward_refl].
  - cbn [merge_continue] in H. destruct (merge_continue l b3) as [r|] eqn:M; [|discriminate]. injection H as <-. unfold rust in R. cbn [shape] in R. apply andb_true_iff in R. destruct R as [R1 R2].
    cbn [eval]. apply onward_next. intros v t. destruct (pbind p v (fst t)); [apply onward_leave; apply IHb3; auto|apply onward_refl].
  - cbn [merge_continue] in H. destruct (tests b1) eqn:K; [|discriminate]. unfold rust in R. cbn [shape] in R. apply andb_true_iff in R. destruct R as [R1 R2].
    destruct (first_continue l b2) eqn:F1.
    + injection H as <-. rewrite eval_when. cbn [eval]. destruct (eval w n b1 s) as [o t]. destruct o; try apply onward_refl.
      * split; cbn; auto. apply agree_refl.
      * destruct (first_cont w n l b2 t F1) as [c [C1 C2]]. rewrite C1. split; cbn; auto. apply agree_refl.
    + destruct (first_continue l (body b1)) eqn:F2; [|discriminate]. injection H as <-.
      assert (V : forall v, fst (eval w n b1 s) <> OVal v).
      { intros v. apply body_never. intros t u. destruct (first_cont w n l (body b1) t F2) as [c [C _]]. rewrite C. discriminate. }
      cbn [eval]. destruct (eval w n b1 s) as [o t]. cbn [fst] in V. destruct o; try apply onward_refl. exfalso. eapply V. reflexivity.
Qed.
Lemma tidy_body : forall k, tidy k -> tidy (body k).
Proof. induction k; intros H; auto. Qed.
Lemma needless_continue_merge_ok : forall e e', needless_continue_merge e = Some e' -> rust e -> tidy e -> same e e'.
Proof.
  intros e e' H R T. eapply on_loop_ok; [exact H|]. intros l b b' B D w n s. assert (RB : rust b /\ tidy b).
  { destruct D as [->|[[k [-> ->]]|[p [a ->]]]]; unfold rust in *; cbn [shape tidy] in *.
    - auto.
    - split; [|apply tidy_body; auto]. apply shape_body in R. rewrite (shape_nolink _ false true); auto. apply body_link.
    - apply andb_true_iff in R. tauto. }
  apply (merge_ok w n l b b' B); tauto.
Qed.
