(** Proofs about counters of `for` loops: leaving out the increment. *)
From Verif Require Import BlkSpec BlkSpec2 BlkEnv BlkModel BlkProofs BlkProofs2 BlkProofs4 BlkProofs5 BlkProofs7.

Section Sim.
Variable i : nat.
Variable world : list ev -> option val.
Variable n : nat.
Notation eval := (eval world n).
Notation visit := (visit i).
Notation strip := (strip i).

(** After the increment, in the old program and in the new. *)
Definition late (z : Z) (t t' : st) : Prop := agree (only i) t t' /\ fst t i = VInt (z + 1) /\ fst t' i = VInt z.
Definition onward (o : out) : bool := match o with OVal _ | OCnt _ => true | _ => false end.
Definition sim (z : Z) (r r' : out * st) : Prop :=
  alike (only i) r r' /\ (onward (fst r) = true -> late z (snd r) (snd r')).
Lemma late_done z o t t' : late z t t' -> sim z (o, t) (o, t').
Proof. intros L. split; [split; [auto|apply L]|auto]. Qed.
Lemma during z r r' k k' : sim z r r' -> (forall v t t', late z t t' -> sim z (k v t) (k' v t')) -> sim z (next r k) (next r' k').
Proof.
  intros [[A B] C] K. destruct r as [o t], r' as [o' t']. cbn in *. subst o'. unfold next. cbn. destruct o; try (split; [split; auto|]; cbn; auto; fail).
  apply K. auto.
Qed.
Lemma none_only s s' : agree none_of s s' -> agree (only i) s s'.
Proof. intros A. eapply agree_weaken; [|exact A]. auto. Qed.
Lemma before z a s s' k k' : changes i a = false -> ncnt a = 0 -> agree none_of s s' -> fst s i = VInt z ->
  (forall v t t', agree none_of t t' -> fst t i = VInt z -> sim z (k v t) (k' v t')) -> sim z (next (eval a s) k) (next (eval a s') k').
Proof.
  intros C N A S K. destruct (eval_off world n a none_of s s' ltac:(discriminate) A) as [E F].
  pose proof (eval_calm world n a s N) as Q. pose proof (eval_keeps world n a i s C) as G.
  destruct (eval a s) as [o t], (eval a s') as [o' t']. cbn in *. subst o'. unfold next. cbn.
  destruct o; try contradiction; try (split; [split; [auto|cbn; apply none_only; auto]|cbn; discriminate]).
  apply K; auto. congruence.
Qed.
Lemma sim_of z t t' r r' : late z t t' -> alike (only i) r r' -> kept i t r -> kept i t' r' -> sim z r r'.
Proof. intros [A [B C]] L K K'. split; [auto|]. intros _. unfold kept in *. split; [apply L|]. split; congruence. Qed.
Lemma after_tail z b t t' : uses i b = false -> late z t t' -> sim z (eval b t) (eval b t').
Proof.
  intros U L. apply (sim_of z t t'); auto.
  - apply eval_off; [now apply only_uses|apply L].
  - apply eval_keeps. now apply uses_changes.
  - apply eval_keeps. now apply uses_changes.
Qed.
Lemma after z b t t' k k' : uses i b = false -> late z t t' -> (forall v t t', late z t t' -> sim z (k v t) (k' v t')) ->
  sim z (next (eval b t) k) (next (eval b t') k').
Proof. intros U L K. apply during; auto. now apply after_tail. Qed.
(** Nothing changes the counter: the visitor does not move. *)
Lemma visit_unchanged : forall e on pe s, changes i e = false -> fst s = Initial -> fst (visit on pe e s) = Initial.
Proof.
  assert (U : forall on pe y s, fst s = Initial -> fst (BlkModel.use_of i on pe y s) = Initial) by (intros on pe y [v d] E; cbn in E; subst; unfold BlkModel.use_of; destruct (_ && _); reflexivity).
  assert (V : forall on y s, (i =? y) = false -> fst s = Initial -> fst (BlkModel.spoil i on y s) = Initial).
  { intros on y [v d] E F. cbn in F. subst. unfold BlkModel.spoil, here. rewrite Nat.eqb_sym, E, andb_false_r. reflexivity. }
  induction e; intros on pe s C E; cbn [changes] in C; rewrite ?(Nat.eqb_sym i x) in *; repeat (apply orb_false_iff in C as [C ?]);
    repeat match goal with K : negb ?m && changes _ _ = false |- _ => destruct m eqn:?; cbn [negb andb] in K; [clear K|] end; 
    cbn [BlkModel.visit]; unfold deeper; cbn [fst]; rewrite ?andb_true_r.
  all: try (unfold here; rewrite C, andb_false_r).
  all: repeat match goal with K : ?m = true |- context [negb ?m] => rewrite K | K : ?m = false |- context [negb ?m] => rewrite K end; cbn [negb]; rewrite ?andb_true_r, ?andb_false_r.
  all: repeat (cbn [fst]; first [ assumption | rewrite visit_off | apply U | apply V; [rewrite ?(Nat.eqb_sym i x); assumption|] | match goal with IH : forall on pe s, changes i ?e = false -> _ |- fst (BlkModel.visit i _ _ ?e _) = Initial => apply IH; [assumption|] end ]).
Qed.
(** One part of the loop body after the other. *)
Lemma two a b pe1 pe2 on2 : fst (visit on2 pe2 b (visit true pe1 a (Initial, 0))) = IncrOnce ->
  fst (visit true pe1 a (Initial, 0)) = IncrOnce /\ still IncrOnce (visit on2 pe2 b) (visit true pe1 a (Initial, 0)) \/
  changes i a = false /\ ncnt a = 0 /\ fst (visit on2 pe2 b (Initial, 0)) = IncrOnce.
Proof.
  intros H. destruct (fst (visit true pe1 a (Initial, 0))) eqn:E.
  - right. split; [|split].
    + apply (still_changes i a pe1 (Initial, 0)). split; auto.
    + pose proof (proj2 (top_visit i b on2 pe2) _ E H) as D. rewrite visit_ncnt in D. cbn in D. lia.
    + pose proof (proj2 (top_visit i b on2 pe2) _ E H) as D. destruct (visit true pe1 a (Initial, 0)). cbn in *. subst. auto.
  - left. split; [auto|split; auto].
  - destruct (mono_visit i b on2 pe2 (visit true pe1 a (Initial, 0))) as [K _]. rewrite E, H in K. cbn in K. lia.
Qed.
Lemma moved b pe d : fst (visit true pe b (Initial, d)) = IncrOnce -> changes i b = true.
Proof. intros H. destruct (changes i b) eqn:C; [auto|]. rewrite (visit_unchanged b true pe (Initial, d) C eq_refl) in H. discriminate. Qed.
Lemma deep_not f d : top f -> fst (deeper f (Initial, d)) <> IncrOnce.
Proof. intros [M T] H. specialize (T (Initial, S d) eq_refl H). discriminate. Qed.

Lemma top_comp f g : top f -> top g -> top (fun s => g (f s)).
Proof.
  intros [F F'] [G G']. split; [now apply mono_comp|]. intros s S H. destruct (F s) as [_ Q]. destruct (fst (f s)) eqn:E.
  - specialize (G' _ E H). lia.
  - now apply F'.
  - destruct (G (f s)) as [K _]. rewrite E, H in K. cbn in K. lia.
Qed.
Lemma top_deeper f : top f -> top (deeper f).
Proof. intros [F F']. split; [now apply mono_deeper|]. intros s S H. specialize (F' (fst s, Datatypes.S (snd s)) S H). discriminate. Qed.
Definition simulated (pe : bool) (a : ex) : Prop := fst (visit true pe a (Initial, 0)) = IncrOnce ->
  forall z s s', agree none_of s s' -> fst s i = VInt z -> sim z (eval a s) (eval (strip true a) s').
Lemma pair_sim z a b pe1 pe2 k s s' : simulated pe1 a -> simulated pe2 b -> alone i pe2 b = false ->
  fst (visit true pe2 b (visit true pe1 a (Initial, 0))) = IncrOnce -> agree none_of s s' -> fst s i = VInt z ->
  (forall v w t t', late z t t' -> sim z (k v w t) (k v w t')) ->
  sim z (next (eval a s) (fun v t => next (eval b t) (k v))) (next (eval (strip true a) s') (fun v t => next (eval (strip true b) t) (k v))).
Proof.
  intros SA SB AL H S Z K. destruct (two _ _ _ _ _ H) as [[E St]|[C [N E]]].
  - apply during; [now apply SA|]. intros v t t' L. pose proof (still_uses i b pe2 _ St AL) as U. rewrite (strip_keeps i b) by now apply uses_changes.
    apply after; auto.
  - rewrite (strip_keeps i a) by auto. apply before; auto. intros v t t' A Q. apply during; auto.
Qed.
Lemma late_get z t t' x : late z t t' -> (i =? x) = false -> fst t x = fst t' x.
Proof. intros [[_ A] _] N. apply A. unfold only. now rewrite Nat.eqb_sym. Qed.
Lemma late_set z t t' x v : late z t t' -> (i =? x) = false -> late z (setv t x v) (setv t' x v).
Proof.
  intros [A [B C]] N. split; [now apply agree_setv|]. cbn. unfold upd. rewrite N. auto.
Qed.
Lemma late_given z t t' v : late z t t' -> sim z (given v t) (given v t').
Proof. intros L. destruct v; now apply late_done. Qed.
Lemma spoiled on x f : fst (spoil i on x f) = IncrOnce -> here i on x = false /\ fst f = IncrOnce.
Proof. unfold spoil. destruct (here i on x); cbn; [discriminate|auto]. Qed.
Lemma not_spoiled on x f : here i on x = false -> spoil i on x f = f.
Proof. unfold spoil. now intros ->. Qed.
Lemma used on pe x d : use_of i on pe x (Initial, d) = (Initial, d).
Proof. unfold use_of. destruct (_ && _); reflexivity. Qed.

Lemma sim_leave z xs s s' r r' : mem i xs = false -> agree (only i) s s' -> sim z r r' -> sim z (leave xs s r) (leave xs s' r').
Proof.
  intros M A [B C]. split.
  - apply alike_leave; [auto|]. eapply alike_weaken; [|exact B]. intros y Y. unfold minus, only in *. destruct (y =? i) eqn:E; [|auto].
    apply Nat.eqb_eq in E. subst y. rewrite M in Y. discriminate.
  - intros O. destruct (C O) as [E [F G]]. split; [|split].
    + apply (alike_leave (only i) xs s s' r r'); auto. eapply alike_weaken; [|exact B]. intros y Y. unfold minus, only in *. destruct (y =? i) eqn:Q; [|auto].
      apply Nat.eqb_eq in Q. subst y. rewrite M in Y. discriminate.
    + cbn. now rewrite M.
    + cbn. now rewrite M.
Qed.
Lemma sim_stop z o t t' : agree none_of t t' -> onward o = false -> sim z (o, t) (o, t').
Proof. intros A O. split; [split; [auto|now apply none_only]|]. cbn. congruence. Qed.
Lemma bind_late z p v t t' b d d' : (mem i (pvars p) = false -> uses i b = false) -> late z t t' -> sim z d d' ->
  sim z (match pbind p v (fst t) with Some f => leave (pvars p) t (eval b (f, snd t)) | None => d end)
        (match pbind p v (fst t') with Some f => leave (pvars p) t' (eval b (f, snd t')) | None => d' end).
Proof.
  intros U L D. pose proof L as [[L1 L2] [L3 L4]]. pose proof (pbind_rel p v (only i) (fst t) (fst t') L2) as R.
  destruct (pbind p v (fst t)) as [f|] eqn:E, (pbind p v (fst t')) as [f'|] eqn:E'; try tauto.
  apply (sim_of z t t'); [auto|..].
  - apply alike_leave; [now split|]. apply eval_off; [|now split]. intros x X. unfold minus, only in X. apply andb_true_iff in X as [X M].
    apply Nat.eqb_eq in X. subst x. apply U. now destruct (mem i (pvars p)).
  - apply kept_leave; [auto|]. intros M. unfold kept. rewrite eval_keeps by (apply uses_changes; auto). cbn. now rewrite (pbind_other _ _ _ _ _ E M).
  - apply kept_leave; [auto|]. intros M. unfold kept. rewrite eval_keeps by (apply uses_changes; auto). cbn. now rewrite (pbind_other _ _ _ _ _ E' M).
Qed.
Lemma bind_before z p v t t' b b' d d' : mem i (pvars p) = false -> agree none_of t t' -> fst t i = VInt z ->
  (forall u u', agree none_of u u' -> fst u i = VInt z -> sim z (eval b u) (eval b' u')) -> sim z d d' ->
  sim z (match pbind p v (fst t) with Some f => leave (pvars p) t (eval b (f, snd t)) | None => d end)
        (match pbind p v (fst t') with Some f => leave (pvars p) t' (eval b' (f, snd t')) | None => d' end).
Proof.
  intros M A Z K D. pose proof (pbind_rel p v none_of (fst t) (fst t') (proj2 A)) as R.
  destruct (pbind p v (fst t)) as [f|] eqn:E, (pbind p v (fst t')) as [f'|] eqn:E'; try tauto.
  apply sim_leave; [auto|now apply none_only|]. apply K.
  - split; [apply A|]. intros y Y. apply R. reflexivity.
  - cbn. now rewrite (pbind_other _ _ _ _ _ E M).
Qed.
Lemma two' f g : top f -> top g -> fst (g (f (Initial, 0))) = IncrOnce ->
  fst (f (Initial, 0)) = IncrOnce /\ still IncrOnce g (f (Initial, 0)) \/ f (Initial, 0) = (Initial, 0) /\ fst (g (Initial, 0)) = IncrOnce.
Proof.
  intros F G H. destruct (fst (f (Initial, 0))) eqn:E.
  - right. pose proof (proj2 G _ E H) as D. assert (Q : f (Initial, 0) = (Initial, 0)) by (destruct (f (Initial, 0)); cbn in *; subst; auto).
    split; [auto|]. now rewrite Q in H.
  - left. split; [auto|split; auto].
  - destruct (proj1 G (f (Initial, 0))) as [K _]. rewrite E, H in K. cbn in K. lia.
Qed.
Lemma masked (m : bool) b s : still IncrOnce (visit (negb m) false b) s -> negb m && alone i false b = false -> m = false -> uses i b = false.
Proof. intros S A ->. cbn in *. eapply still_uses; eauto. Qed.
Lemma mask_strip (m : bool) b : (m = false -> uses i b = false) -> strip (negb m) b = b.
Proof. intros U. destruct m; cbn; [apply strip_off|]. apply strip_keeps. apply uses_changes. auto. Qed.

Ltac ors A := repeat (apply orb_false_iff in A; let B := fresh "A" in destruct A as [A B]).
Lemma sim_ok : forall e pe, rust e -> straight i e -> alone i pe e = false -> simulated pe e.
Proof.
  unfold rust. induction e; intros pe R G A H z s s' S Z; cbn in R; repeat (apply andb_true_iff in R; let R' := fresh "R" in destruct R as [R R']); try discriminate;
    cbn [straight] in G; cbn [alone] in A; ors A; cbn [BlkModel.visit BlkModel.strip] in *; rewrite ?used in *; try (unfold deeper in H; discriminate);
    try (exfalso; revert H; apply deep_not; apply (top_visit i)).
  all: try (exfalso; match type of H with fst (spoil i ?on ?x ?f) = _ => apply spoiled in H as [_ H]; try apply spoiled in H as [_ H]; discriminate end).
  all: cbn [BlkSpec.eval].
  all: try (match type of G with _ /\ _ => destruct G as [G1 G2] end).
  all: try (apply (pair_sim z _ _ true true (fun v w t => _)); [eauto..|]; intros v w t t' L; cbn beta).
  all: try (apply during; [eapply IHe; eauto|]; intros v t t' L).
  - (* a call *) pose proof L as [[E F] [Y Y']]. rewrite E. destruct (world _).
    + apply late_given. split; [split; [auto|exact F]|auto].
    + apply late_done. split; [split; [auto|exact F]|auto].
  - now apply late_done.
  - destruct v; now apply late_done.
  - (* && *) destruct (two _ _ _ _ _ H) as [[E St]|[C [N E]]]; [|rewrite (moved _ _ _ E) in G2; discriminate].
    pose proof (still_uses i e2 true _ St A0) as U. rewrite (strip_keeps i e2) by auto.
    apply during; [eapply IHe1; eauto|]. intros v t t' L. destruct v; try now apply late_done. destruct b; [now apply after_tail|now apply late_done].
  - (* || *) destruct (two _ _ _ _ _ H) as [[E St]|[C [N E]]]; [|rewrite (moved _ _ _ E) in G2; discriminate].
    pose proof (still_uses i e2 true _ St A0) as U. rewrite (strip_keeps i e2) by auto.
    apply during; [eapply IHe1; eauto|]. intros v t t' L. destruct v; try now apply late_done. destruct b; [now apply late_done|now apply after_tail].
  - now apply late_done.
  - now apply late_done.
  - (* x[e] *) destruct (i =? x) eqn:X.
    + apply Nat.eqb_eq in X. subst x. destruct L as [La [Lb Lc]]. rewrite Lb, Lc. apply late_done. split; auto.
    + rewrite (late_get _ _ _ _ L X). destruct (fst t' x); try now apply late_done. destruct v; try now apply late_done.
      destruct (at_ l z0); [now apply late_given|now apply late_done].
  - destruct v as [| | |[|c]|[|[|c]] v| | |]; first [now apply late_done | now apply late_given].
  - now apply late_done.
  - destruct v; try now apply late_done. destruct w; now apply late_done.
  - (* x = e *) apply spoiled in H as [X H]. rewrite here_true in X. apply during; [eapply IHe; eauto|]. intros v t t' L.
    apply late_done. now apply late_set.
  - (* x o= e *) destruct (here i true x) eqn:X.
    + rewrite here_true in X. apply Nat.eqb_eq in X. subst x. cbn [fst] in H.
      destruct (fst (visit true true e (Initial, 0))) eqn:V; try discriminate. destruct o; try discriminate.
      destruct (is_one e) eqn:O; [|discriminate]. destruct e; try discriminate. destruct v; try discriminate. cbn in O. apply Z.eqb_eq in O. subst z0.
      cbn [andb]. cbn [BlkSpec.eval given]. rewrite next_pair. rewrite Z. cbn [bin given].
      apply late_done. split; [|split].
      * split; [apply S|]. intros y Y. unfold only in Y. cbn. unfold upd. rewrite Y. now apply S.
      * cbn. unfold upd. now rewrite Nat.eqb_refl.
      * rewrite <- Z. symmetry. now apply S.
    + assert (Q : forall r, sim z r (eval (XAsgOp o x (strip true e)) s') -> sim z r (eval match o with OAdd => XAsgOp OAdd x (strip true e) | _ => XAsgOp o x (strip true e) end s')) by (destruct o; auto).
      cbn [andb] in *. apply Q. cbn [BlkSpec.eval]. apply during; [eapply IHe; eauto|]. intros v t t' L. rewrite here_true in X.
      rewrite (late_get _ _ _ _ L X). destruct (bin o (fst t' x) v); try now apply late_done. apply late_done. now apply late_set.
  - (* x[e1] = e2 *) apply spoiled in H as [X H]. rewrite here_true in X.
    apply (pair_sim z _ _ true true (fun v w t => _)); [eauto..|]; intros v w t t' L; cbn beta. rewrite (late_get _ _ _ _ L X).
    destruct (fst t' x); try now apply late_done. destruct w; try now apply late_done. destruct (at_ l z0); apply late_done; auto. now apply late_set.
  - apply spoiled in H as [X H]. rewrite here_true in X.
    apply (pair_sim z _ _ true true (fun v w t => _)); [eauto..|]; intros v w t t' L; cbn beta. rewrite (late_get _ _ _ _ L X).
    destruct (fst t' x); try now apply late_done. destruct w; try now apply late_done. destruct (at_ l z0); [|apply late_done; auto].
    destruct (bin o v0 v); apply late_done; auto. now apply late_set.
  - (* x.swap(e1, e2) *) assert (X : here i true x = false).
    { destruct (here i true x) eqn:X; [|auto]. unfold spoil in H. rewrite X in H. cbn [snd] in H.
      destruct (mono_comp _ _ (mono_visit i e1 true true) (mono_visit i e2 true true) (DontWarn, 0)) as [K _]. cbn beta in K. rewrite H in K. cbn in K. lia. }
    rewrite not_spoiled in H by auto. rewrite here_true in X.
    apply (pair_sim z _ _ true true (fun v w t => _)); [eauto..|]; intros v w t t' L; cbn beta. rewrite (late_get _ _ _ _ L X).
    destruct (fst t' x); try now apply late_done. destruct v; try now apply late_done. destruct w; try now apply late_done.
    destruct (at_ l z0), (at_ l z1); apply late_done; auto. now apply late_set.
  - eapply IHe; eauto.
  - (* a; b *) destruct (two _ _ _ _ _ H) as [[E St]|[C [N E]]].
    + pose proof (still_uses i e2 false _ St A0) as U. rewrite (strip_keeps i e2) by now apply uses_changes.
      apply during; [eapply IHe1; eauto|]. intros v t t' L. now apply after_tail.
    + rewrite (strip_keeps i e1) by auto. apply before; auto. intros v t t' B Q. eapply IHe2; eauto.
  - (* let x; b *) destruct (x =? i) eqn:X; cbn [negb andb] in *; [rewrite visit_off in H; discriminate|]. rewrite Nat.eqb_sym, X in A. cbn [negb andb] in A.
    apply sim_leave; [cbn; now rewrite Nat.eqb_sym, X|now apply none_only|]. eapply IHe; eauto.
    + now apply agree_setv.
    + cbn. unfold upd. now rewrite Nat.eqb_sym, X.
  - (* let p = a; b *) cbn [andb] in *. destruct (two _ _ _ _ _ H) as [[E St]|[C [N E]]].
    + pose proof (masked _ _ _ St A0) as U. rewrite mask_strip by auto.
      apply during; [eapply IHe1; eauto|]. intros v t t' L. apply bind_late; auto. now apply late_done.
    + rewrite (strip_keeps i e1) by auto. apply before; auto. intros v t t' B Q.
      destruct (mem i (pvars p)) eqn:M; cbn [negb andb] in *; [rewrite visit_off in E; discriminate|].
      apply bind_before; auto; [|now apply sim_stop]. intros u u' B' Q'. eapply IHe2; eauto.
  - (* let p = a else { d }; b *) cbn [andb] in *. destruct G2 as [G2 G3].
    destruct (two' (fun s => deeper (visit true false e2) (visit true false e1 s)) (visit (negb (mem i (pvars p))) false e3)) as [[E St]|[E F]]; auto.
    { apply (top_comp (visit true false e1) (deeper (visit true false e2))); [apply top_visit|apply top_deeper; apply top_visit]. }
    { apply top_visit. }
    + pose proof (masked _ _ _ St A0) as U. rewrite mask_strip by auto.
      destruct (two' (visit true false e1) (deeper (visit true false e2))) as [[E' St']|[E' F']]; auto; [apply top_visit|apply top_deeper; apply top_visit| |].
      * apply still_deeper in St'. pose proof (still_uses i e2 false _ St' A1) as U2. rewrite (strip_keeps i e2) by now apply uses_changes.
        apply during; [eapply IHe1; eauto|]. intros v t t' L. apply bind_late; auto. apply after; auto. intros. now apply late_done.
      * exfalso. revert F'. apply deep_not. apply top_visit.
    + assert (Q : still Initial (fun s => deeper (visit true false e2) (visit true false e1 s)) (Initial, 0)) by (split; [reflexivity|now rewrite E]).
      destruct (still_comp Initial (visit true false e1) (deeper (visit true false e2)) (Initial, 0) (mono_visit i _ _ _) (mono_deeper _ (mono_visit i _ _ _)) Q) as [Q1 Q2].
      apply still_deeper in Q2. pose proof (still_changes i e1 _ _ Q1) as C1. pose proof (still_changes i e2 _ _ Q2) as C2.
      rewrite (strip_keeps i e1), (strip_keeps i e2) by auto.
      assert (N : snd (deeper (visit true false e2) (visit true false e1 (Initial, 0))) = 0) by now rewrite E.
      unfold deeper in N. cbn [snd] in N. rewrite visit_ncnt in N. cbn [snd] in N. rewrite visit_ncnt in N. cbn in N.
      assert (N1 : ncnt e1 = 0) by lia. assert (N2 : ncnt e2 = 0) by lia.
      destruct (mem i (pvars p)) eqn:M; cbn [negb andb] in *; [rewrite visit_off in F; discriminate|].
      apply before; auto. intros v t t' B Y. apply bind_before; auto.
      * intros u u' B' Y'. eapply IHe3; eauto.
      * apply before; auto. intros. now apply sim_stop.
  - exfalso. revert H. apply deep_not. apply (top_comp (visit true false e1) (visit true false e2)); apply top_visit.
  - exfalso. revert H. apply deep_not. 
    apply (top_comp (fun s => visit (true && negb (mem i (pvars p))) false e2 (visit true true e1 s)) (visit (true && negb (mem i (pvars q))) false e3)); [|apply top_visit].
    apply (top_comp (visit true true e1) (visit (true && negb (mem i (pvars p))) false e2)); apply top_visit.
  - exfalso. revert H. apply deep_not. apply top_deeper. apply top_visit.
  - exfalso. revert H. apply deep_not. apply (top_comp (visit true true e1) (deeper (deeper (visit (true && negb (mem i (pvars p))) false e2)))); [apply top_visit|].
    apply top_deeper. apply top_deeper. apply top_visit.
  - (* a labelled block *) pose proof (moved _ _ _ H) as M. rewrite (uses_changes _ _ G) in M. discriminate.
  - now apply late_done.
  - now apply late_done.
Qed.
(** The loop. *)
Lemma for_sim l p c : rust c -> straight i c -> alone i false c = false -> mem i (pvars p) = false -> fst (visit true false c (Initial, 0)) = IncrOnce ->
  forall vs z s s', agree (only i) s s' -> fst s i = VInt z ->
  alike (only i)
    (run_for l (fun v s => match pbind p v (fst s) with Some f => leave (pvars p) s (eval c (f, snd s)) | None => (OStuck, s) end) vs s)
    (run_for l (fun v s => match pbind (P2 2 (PVar i) p) v (fst s) with
       Some f => leave (pvars (P2 2 (PVar i) p)) s (eval (strip true c) (f, snd s)) | None => (OStuck, s) end) (number z vs) s').
Proof.
  intros R G A M V. induction vs as [|v vs IH]; intros z s s' S Z.
  - split; auto.
  - cbn [number run_for]. cbn [pbind vpair pvars]. rewrite Nat.eqb_refl.
    assert (B : agree none_of s (setv s' i (VInt z))).
    { split; [apply S|]. intros y _. cbn. unfold upd. destruct (y =? i) eqn:Y; [apply Nat.eqb_eq in Y; now subst|]. apply S. exact Y. }
    pose proof (pbind_rel p v none_of (fst s) (fst (setv s' i (VInt z))) (proj2 B)) as P. cbn [setv fst] in P.
    destruct (pbind p v (fst s)) as [f|] eqn:E, (pbind p v (upd (fst s') i (VInt z))) as [f'|] eqn:E'; try tauto.
    + assert (K : sim z (eval c (f, snd s)) (eval (strip true c) (f', snd s'))).
      { apply (sim_ok c false R G A V).
        - split; [apply S|]. intros y _. apply P. reflexivity.
        - cbn. now rewrite (pbind_other _ _ _ _ _ E M). }
      destruct K as [[K1 K2] K3]. destruct (eval c (f, snd s)) as [o t], (eval (strip true c) (f', snd s')) as [o' t']. cbn in K1, K2, K3. subst o'. cbn [leave fst snd].
      assert (Q : agree (only i) (back (pvars p) s t) (back ([i] ++ pvars p) s' t')).
      { split; [apply K2|]. intros y Y. unfold only in Y. cbn [back fst]. change (mem y ([i] ++ pvars p)) with ((y =? i) || mem y (pvars p)). rewrite Y. cbn [orb]. destruct (mem y (pvars p)); [apply (proj2 S); exact Y|apply (proj2 K2); exact Y]. }
      assert (W : onward o = true -> fst (back (pvars p) s t) i = VInt (z + 1)) by (intros O; cbn; rewrite M; apply (K3 O)).
      destruct o; try (split; auto; fail).
      * apply IH; auto.
      * destruct (hits l l0); split; auto.
      * destruct (hits l l0); [|split; auto]. apply IH; auto.
    + split; auto.
Qed.
Lemma counter_ok : forall b b' init, counter_loop i init b = Some b' -> literal init -> counter i b -> rust b ->
  forall s s' z, agree none_of s s' -> fst s i = VInt z -> init = XVal (VInt z) -> alike (only i) (eval b s) (eval b' s').
Proof.
  unfold rust. induction b; intros b' init H LI C R s s' z S Z I; try discriminate.
  - (* a; b *)
    assert (D : (exists l p a c, b1 = XFor l p a c) \/ (exists y v, b1 = XAsg y v) \/
      ((if has_loop b1 || changes i b1 then None else option_map (XSeq b1) (counter_loop i init b2)) = Some b' /\ counter i b2)).
    { destruct b1; eauto 7; right; right; split; auto. }
    cbn in R. apply andb_true_iff in R as [R1 R2].
    destruct D as [[l [p [a [c ->]]]]|[[y [v ->]]|[H' C']]].
    + cbn [counter_loop] in H. destruct (negb (mem i (pvars p)) && _ && _ && _) eqn:Q; [|discriminate]. injection H as <-.
      apply andb_true_iff in Q as [Q Q4]. apply andb_true_iff in Q as [Q Q3]. apply andb_true_iff in Q as [Q1 Q2].
      apply negb_true_iff in Q1, Q3, Q4. destruct C as [C1 C2]. cbn in R1. apply andb_true_iff in R1 as [Ra Rc].
      cbn [BlkSpec.eval]. apply alike_next.
      2:{ intros v t t' A. apply eval_off; [now apply only_uses|auto]. }
      subst init. cbn [BlkSpec.eval given]. rewrite next_pair.
      destruct (eval_off world n a none_of s s' ltac:(discriminate) S) as [E F]. pose proof (eval_keeps world n a i s Q4) as K.
      destruct (eval a s) as [o t], (eval a s') as [o' t']. cbn in E, F, K. subst o'.
      destruct o; try (unfold next; cbn; split; [auto|now apply none_only]). rewrite !next_pair.
      destruct v; try (cbn; split; [auto|now apply none_only]).
      apply for_sim; auto.
      * destruct (fst (visit true false c (Initial, 0))); auto; discriminate.
      * now apply none_only.
      * congruence.
    + cbn [counter_loop] in H. destruct (has_loop v || changes i v) eqn:Q; [discriminate|]. apply orb_false_iff in Q as [_ Q].
      destruct (counter_loop i (if y =? i then v else init) b2) as [b2'|] eqn:E; [|discriminate]. injection H as <-. destruct C as [C1 C2].
      cbn [BlkSpec.eval].
      destruct (eval_off world n v none_of s s' ltac:(discriminate) S) as [E1 F]. pose proof (eval_keeps world n v i s Q) as K.
      destruct (y =? i) eqn:Y.
      * apply Nat.eqb_eq in Y. destruct (C1 Y) as [z' ->]. subst y. cbn [BlkSpec.eval given]. rewrite !next_pair.
        apply (IHb2 b2' (XVal (VInt z')) E (ex_intro _ z' eq_refl) C2 R2 _ _ z'); auto.
        -- now apply agree_setv.
        -- cbn. unfold upd. now rewrite Nat.eqb_refl.
      * destruct (eval v s) as [o t], (eval v s') as [o' t']. cbn in E1, F, K. subst o'.
        destruct o; try (unfold next; cbn; split; [auto|now apply none_only]). rewrite !next_pair.
        apply (IHb2 b2' init E LI C2 R2 _ _ z); auto.
        -- now apply agree_setv.
        -- cbn. unfold upd. rewrite Nat.eqb_sym, Y. congruence.
    + destruct (has_loop b1 || changes i b1) eqn:Q; [discriminate|]. apply orb_false_iff in Q as [_ Q].
      destruct (counter_loop i init b2) as [b2'|] eqn:E; [|discriminate]. injection H' as <-. cbn [BlkSpec.eval].
      destruct (eval_off world n b1 none_of s s' ltac:(discriminate) S) as [E1 F]. pose proof (eval_keeps world n b1 i s Q) as K.
      destruct (eval b1 s) as [o t], (eval b1 s') as [o' t']. cbn in E1, F, K. subst o'.
      destruct o; try (unfold next; cbn; split; [auto|now apply none_only]). rewrite !next_pair.
      apply (IHb2 b2' init E LI C' R2 _ _ z); auto. congruence.
  - (* let p = a; b *)
    cbn [counter_loop] in H. destruct (has_loop b1 || changes i b1 || mem i (pvars p)) eqn:Q; [discriminate|]. apply orb_false_iff in Q as [Q M]. apply orb_false_iff in Q as [_ Q].
    destruct (counter_loop i init b2) as [b2'|] eqn:E; [|discriminate]. injection H as <-. cbn [BlkSpec.eval counter] in *.
    cbn in R. apply andb_true_iff in R as [R1 R2].
    destruct (eval_off world n b1 none_of s s' ltac:(discriminate) S) as [E1 F]. pose proof (eval_keeps world n b1 i s Q) as K.
    destruct (eval b1 s) as [o t], (eval b1 s') as [o' t']. cbn in E1, F, K. subst o'.
    destruct o; try (unfold next; cbn; split; [auto|now apply none_only]). rewrite !next_pair.
    pose proof (pbind_rel p v none_of (fst t) (fst t') (proj2 F)) as P.
    destruct (pbind p v (fst t)) as [f|] eqn:E2, (pbind p v (fst t')) as [f'|] eqn:E3; try tauto.
    + apply alike_leave; [now apply none_only|].
      eapply alike_weaken; [|apply (IHb2 b2' init E LI C R2 (f, snd t) (f', snd t') z); auto].
      * intros y Y. unfold minus, only in *. destruct (y =? i) eqn:W; [|auto]. apply Nat.eqb_eq in W. subst. rewrite M in Y. discriminate.
      * split; [apply F|]. intros y _. apply P. reflexivity.
      * cbn. rewrite (pbind_other _ _ _ _ _ E2 M). congruence.
    + split; [auto|now apply none_only].
Qed.
End Sim.
Theorem explicit_counter_loop_ok : forall i init b e', explicit_counter_loop (XLet (PVar i) init b) = Some e' -> rust b -> literal init -> counter i b ->
  same (XLet (PVar i) init b) e'.
Proof.
  intros i init b e' H R [z ->] C world n s. cbn in H. destruct (counter_loop i (XVal (VInt z)) b) as [b'|] eqn:E; [|discriminate]. injection H as <-.
  cbn [eval given]. rewrite !next_pair. cbn [pbind pvars].
  assert (K : alike (only i) (eval world n b (upd (fst s) i (VInt z), snd s)) (eval world n b' (upd (fst s) i (VInt z), snd s))).
  { apply (counter_ok i world n b b' _ E) with (z := z); auto; [now exists z|apply agree_refl|]. cbn. unfold upd. now rewrite Nat.eqb_refl. }
  destruct K as [K1 [K2 K3]]. split; [exact K1|]. split; [exact K2|]. intros y _. cbn. destruct (y =? i) eqn:Y; [reflexivity|]. apply K3. exact Y.
Qed.
