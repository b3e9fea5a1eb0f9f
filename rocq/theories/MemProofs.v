(* Lemmas for P_Mem.v. *)
From Coq Require Import List ZArith Bool Lia.
Import ListNotations.
From Verif Require Import MemSpec MemModel.
Open Scope Z_scope.

Lemma fit_some : forall z y, fit z = Some y <-> z = y /\ 0 <= z < W.
Proof.
  intros z y; unfold fit; destruct (Z.leb_spec 0 z), (Z.ltb_spec z W); cbn [andb]; split; intro Q;
    first [injection Q as <-; lia | discriminate | destruct Q as [<- ?]; reflexivity | exfalso; lia].
Qed.
Lemma W_pos : 1 < W.
Proof. reflexivity. Qed.
Lemma base_eqb_eq : forall a b, base_eqb a b = true <-> a = b.
Proof.
  destruct a as [a|a], b as [b|b]; cbn [base_eqb]; split; intro Q; try discriminate;
    try (apply PeanoNat.Nat.eqb_eq in Q; subst; reflexivity);
    injection Q as ->; apply PeanoNat.Nat.eqb_refl.
Qed.
Lemma ix_eqb_eq : forall a b, ix_eqb a b = true -> a = b.
Proof.
  induction a; intro c; destruct c; cbn [ix_eqb]; intro Q; try discriminate;
    repeat match goal with H : _ && _ = true |- _ => apply andb_prop in H; destruct H end;
    try (apply Z.eqb_eq in Q; subst; reflexivity);
    try (apply PeanoNat.Nat.eqb_eq in Q; subst; reflexivity);
    try (apply base_eqb_eq in Q; subst; reflexivity);
    f_equal; auto.
Qed.

Lemma ev_fit : forall s e z, ev s e = Some z -> 0 <= z < W.
Proof.
  intros s e z; destruct e; cbn [ev]; intro Q;
    repeat match type of Q with match ?x with _ => _ end = _ => destruct x; try discriminate Q end;
    apply fit_some in Q; destruct Q as [<- R]; exact R.
Qed.
Lemma zero_ev : forall s e z, is_zero e = true -> ev s e = Some z -> z = 0.
Proof.
  intros s e z; destruct e; cbn [is_zero]; intros Q E; try discriminate.
  apply Z.eqb_eq in Q; subst n; cbn [ev] in E; apply fit_some in E; lia.
Qed.
Lemma madd_ev : forall s a b x y, ev s a = Some x -> ev s b = Some y -> 0 <= x + y < W ->
  ev s (madd a b) = Some (x + y).
Proof.
  intros s a b x y A B R; unfold madd.
  destruct (is_zero a) eqn:Za; [rewrite (zero_ev _ _ _ Za A); exact B|].
  destruct (is_zero b) eqn:Zb; [rewrite (zero_ev _ _ _ Zb B), Z.add_0_r; exact A|].
  cbn [ev]; rewrite A, B; apply fit_some; auto.
Qed.
Lemma msub_ev : forall s a b x y, ev s a = Some x -> ev s b = Some y -> 0 <= x - y < W ->
  ev s (msub a b) = Some (x - y).
Proof.
  intros s a b x y A B R; unfold msub.
  destruct (is_zero b) eqn:Zb; [rewrite (zero_ev _ _ _ Zb B), Z.sub_0_r; exact A|].
  destruct (is_zero a) eqn:Za.
  { cbn [ev]; rewrite B; pose proof (zero_ev _ _ _ Za A); subst x; apply fit_some; split; lia. }
  destruct (ix_eqb a b) eqn:E.
  { apply ix_eqb_eq in E; subst b; rewrite A in B; injection B as <-; rewrite Z.sub_diag; reflexivity. }
  cbn [ev]; rewrite A, B; apply fit_some; auto.
Qed.

(* The value of an offset *)
Definition sgn (p : bool) (z : Z) : Z := if p then z else - z.
Lemma apply_ev : forall s e p o x y, ev s e = Some x -> ev s o = Some y -> 0 <= x + sgn p y < W ->
  ev s (apply_offset e (p, o)) = Some (x + sgn p y).
Proof.
  intros s e p o x y A B R; unfold apply_offset; cbn [fst snd]; destruct p; cbn [sgn] in *.
  - apply madd_ev; assumption.
  - change (x + - y) with (x - y) in *; apply msub_ev; assumption.
Qed.

Lemma get_start_spec : forall ss e k, get_start ss e = Some k ->
  exists x, e = IVar x /\ In (x, k) ss.
Proof.
  intros ss e k; destruct e; cbn [get_start]; intro Q; try discriminate.
  destruct (find _ ss) as [[y k']|] eqn:F; [|discriminate]; injection Q as <-; cbn [snd].
  apply find_some in F; destruct F as [F G]; cbn [fst] in G; apply PeanoNat.Nat.eqb_eq in G; subst y.
  exists x; auto.
Qed.
Lemma get_start_none : forall ss x, get_start ss (IVar x) = None -> forall k, ~ In (x, k) ss.
Proof.
  intros ss x Q k J; cbn [get_start] in Q.
  destruct (find _ ss) as [[y k']|] eqn:F; [discriminate|].
  pose proof (find_none _ _ F _ J) as G; cbn [fst] in G; rewrite PeanoNat.Nat.eqb_refl in G; discriminate.
Qed.
Definition fixed (ss : starts) (o : ix) : Prop := (exists n, o = ILit n) \/ (exists y, o = IVar y /\ forall k, ~ In (y, k) ss).
Lemma get_offset_spec : forall ss e o, get_offset ss e = Some o -> o = e /\ fixed ss o.
Proof.
  intros ss e o; destruct e; cbn [get_offset]; intro Q; try discriminate.
  - injection Q as <-; split; [reflexivity | left; eauto].
  - destruct (get_start ss (IVar x)) eqn:G; [discriminate|]; injection Q as <-; split; [reflexivity|].
    right; exists x; split; [reflexivity | apply get_start_none; exact G].
Qed.

(* What an accepted index is: a start and an offset. *)
Lemma details_spec : forall ss e k p o, details ss e = Some (k, (p, o)) ->
  exists x, In (x, k) ss /\ fixed ss o /\ In x (vars e) /\
    (forall y, In y (vars e) -> y = x \/ o = IVar y) /\
    forall s z, ev s e = Some z -> exists w, ev s o = Some w /\ z = var s x + sgn p w.
Proof.
  intros ss e k p o D; destruct e; cbn [details] in D; try discriminate.
  - (* IVar *)
    destruct (get_start ss (IVar x)) eqn:G; [|discriminate]; injection D as <- <- <-.
    apply get_start_spec in G; destruct G as [y [E J]]; injection E as <-.
    exists x; split; [exact J|]; split; [left; eauto|]; split; [left; reflexivity|]; split.
    + intros y [Y|[]]; auto.
    + intros s z E; exists 0; split; [reflexivity|]; cbn [ev] in E; apply fit_some in E; cbn [sgn]; lia.
  - (* IAdd *)
    destruct (zip (get_start ss e1) (get_offset ss e2)) as [[k' o']|] eqn:Z1.
    + injection D as <- <- <-; unfold zip in Z1.
      destruct (get_start ss e1) eqn:G; [|discriminate]; destruct (get_offset ss e2) eqn:O; [|discriminate].
      injection Z1 as -> ->; apply get_start_spec in G; destruct G as [x [-> J]].
      apply get_offset_spec in O; destruct O as [-> F].
      exists x; split; [exact J|]; split; [exact F|]; split; [cbn [vars]; left; reflexivity|]; split.
      * intros y Y; cbn [vars app] in Y; destruct Y as [Y|Y]; [auto|].
        destruct F as [[n ->]|[v [-> F]]]; [destruct Y | destruct Y as [<-|[]]; auto].
      * intros s z E; cbn [ev] in E; destruct (fit (var s x)) eqn:V; [|discriminate].
        apply fit_some in V; destruct V as [<- _].
        destruct (ev s e2) as [w|] eqn:E2; [|discriminate]; apply fit_some in E; destruct E as [<- _].
        exists w; split; [reflexivity | reflexivity].
    + destruct (zip (get_start ss e2) (get_offset ss e1)) as [[k' o']|] eqn:Z2; [|discriminate].
      injection D as <- <- <-; unfold zip in Z2.
      destruct (get_start ss e2) eqn:G; [|discriminate]; destruct (get_offset ss e1) eqn:O; [|discriminate].
      injection Z2 as -> ->; apply get_start_spec in G; destruct G as [x [-> J]].
      apply get_offset_spec in O; destruct O as [-> F].
      exists x; split; [exact J|]; split; [exact F|]; split; [cbn [vars]; apply in_or_app; right; left; reflexivity|]; split.
      * intros y Y; cbn [vars] in Y; apply in_app_or in Y; destruct Y as [Y|[Y|[]]]; [|auto].
        destruct F as [[n ->]|[v [-> F]]]; [destruct Y | destruct Y as [<-|[]]; auto].
      * intros s z E; cbn [ev] in E; destruct (ev s e1) as [w|] eqn:E2; [|discriminate].
        destruct (fit (var s x)) eqn:V; [|discriminate].
        apply fit_some in V; destruct V as [<- _].
        apply fit_some in E; destruct E as [<- _].
        exists w; split; [reflexivity | cbn [sgn]; lia].
  - (* ISub *)
    destruct (zip (get_start ss e1) (get_offset ss e2)) as [[k' o']|] eqn:Z1; [|discriminate].
    injection D as <- <- <-; unfold zip in Z1.
    destruct (get_start ss e1) eqn:G; [|discriminate]; destruct (get_offset ss e2) eqn:O; [|discriminate].
    injection Z1 as -> ->; apply get_start_spec in G; destruct G as [x [-> J]].
    apply get_offset_spec in O; destruct O as [-> F].
    exists x; split; [exact J|]; split; [exact F|]; split; [cbn [vars]; left; reflexivity|]; split.
    + intros y Y; cbn [vars app] in Y; destruct Y as [Y|Y]; [auto|].
      destruct F as [[n ->]|[v [-> F]]]; [destruct Y | destruct Y as [<-|[]]; auto].
    + intros s z E; cbn [ev] in E; destruct (fit (var s x)) eqn:V; [|discriminate].
      apply fit_some in V; destruct V as [<- _].
      destruct (ev s e2) as [w|] eqn:E2; [|discriminate]; apply fit_some in E; destruct E as [<- _].
      exists w; split; [reflexivity | cbn [sgn]; lia].
Qed.

(* Arrays partly overwritten: from A on, n elements of src, taken from B on *)
Definition filled (l0 : list Z) (A : Z) (src : list Z) (B : Z) (n : Z) (l : list Z) : Prop :=
  length l = length l0 /\
  forall p, 0 <= p -> nth (Z.to_nat p) l 0 =
    if (A <=? p) && (p <? A + n) then nth (Z.to_nat (B + (p - A))) src 0 else nth (Z.to_nat p) l0 0.
Lemma filled_eq : forall l0 A src B n l l', filled l0 A src B n l -> filled l0 A src B n l' -> l = l'.
Proof.
  intros l0 A src B n l l' [L F] [L' F']; apply (nth_ext _ _ 0 0); [congruence|].
  intros q _; specialize (F (Z.of_nat q)); specialize (F' (Z.of_nat q)); rewrite Nat2Z.id in *.
  rewrite F, F' by lia; reflexivity.
Qed.
Lemma filled_0 : forall l0 A src B, filled l0 A src B 0 l0.
Proof.
  intros; split; [reflexivity|]; intros p P.
  destruct (Z.leb_spec A p), (Z.ltb_spec p (A + 0)); cbn [andb]; try reflexivity; lia.
Qed.
Lemma upd_length : forall l n v, length (upd l n v) = length l.
Proof. induction l; intros n v; destruct n; cbn [upd length]; auto. Qed.
Lemma upd_nth : forall l n v p, (n < length l)%nat -> nth p (upd l n v) 0 = if Nat.eqb p n then v else nth p l 0.
Proof.
  induction l as [|a l IH]; intros n v p Q; [cbn [length] in Q; lia|].
  destruct n, p; cbn [upd nth Nat.eqb]; try reflexivity; apply IH; cbn [length] in Q; lia.
Qed.
Lemma filled_S : forall l0 A src B n l, filled l0 A src B n l -> 0 <= n -> 0 <= A + n < Z.of_nat (length l0) ->
  filled l0 A src B (n + 1) (upd l (Z.to_nat (A + n)) (nth (Z.to_nat (B + n)) src 0)).
Proof.
  intros l0 A src B n l [L F] N R; split; [rewrite upd_length; exact L|].
  intros p P; rewrite upd_nth by lia.
  destruct (PeanoNat.Nat.eqb_spec (Z.to_nat p) (Z.to_nat (A + n))) as [E|E].
  - assert (p = A + n) by lia; subst p.
    destruct (Z.leb_spec A (A + n)), (Z.ltb_spec (A + n) (A + (n + 1))); cbn [andb]; try lia.
    f_equal; f_equal; lia.
  - rewrite F by exact P.
    destruct (Z.leb_spec A p), (Z.ltb_spec p (A + n)), (Z.ltb_spec p (A + (n + 1))); cbn [andb]; try reflexivity; lia.
Qed.
Lemma filled_copy : forall l0 A src B n, 0 <= A -> 0 <= n -> A + n <= Z.of_nat (length l0) ->
  0 <= B -> B + n <= Z.of_nat (length src) ->
  filled l0 A src B n
    (firstn (Z.to_nat A) l0 ++ firstn (Z.to_nat n) (skipn (Z.to_nat B) src) ++ skipn (Z.to_nat (A + n)) l0).
Proof.
  intros l0 A src B n HA Hn HL HB HS.
  assert (L1 : length (firstn (Z.to_nat A) l0) = Z.to_nat A) by (rewrite firstn_length; lia).
  assert (L2 : length (firstn (Z.to_nat n) (skipn (Z.to_nat B) src)) = Z.to_nat n)
    by (rewrite firstn_length, skipn_length; lia).
  split.
  - rewrite !app_length, L1, L2, skipn_length; lia.
  - intros p P.
    destruct (Z.leb_spec A p).
    + rewrite app_nth2 by lia; rewrite L1.
      destruct (Z.ltb_spec p (A + n)); cbn [andb].
      * rewrite app_nth1 by lia.
        transitivity (nth (Z.to_nat p - Z.to_nat A) (skipn (Z.to_nat B) src) 0).
        { rewrite <- (firstn_skipn (Z.to_nat n) (skipn (Z.to_nat B) src)) at 2; rewrite app_nth1 by lia; reflexivity. }
        rewrite <- (firstn_skipn (Z.to_nat B) src) at 2.
        rewrite app_nth2; rewrite firstn_length; [|lia]; f_equal; lia.
      * rewrite app_nth2 by lia; rewrite L2.
        rewrite <- (firstn_skipn (Z.to_nat (A + n)) l0) at 2.
        rewrite app_nth2; rewrite firstn_length; [|lia]; f_equal; lia.
    + cbn [andb]; rewrite app_nth1 by lia.
      rewrite <- (firstn_skipn (Z.to_nat A) l0) at 2; rewrite app_nth1 by lia; reflexivity.
Qed.
