(* Lemmas for P_Mem.v: what the loop does. *)
From Coq Require Import List ZArith Bool Lia.
Import ListNotations.
From Verif Require Import MemSpec MemModel MemProofs.
Open Scope Z_scope.

Lemma details_ev : forall ss e k p o, details ss e = Some (k, (p, o)) ->
  exists x, In (x, k) ss /\ In x (vars e) /\
    forall s w, ev s o = Some w -> 0 <= var s x < W -> 0 <= var s x + sgn p w < W -> ev s e = Some (var s x + sgn p w).
Proof.
  intros ss e k p o D; destruct e; cbn [details] in D; try discriminate.
  - destruct (get_start ss (IVar x)) eqn:G; [|discriminate]; injection D as <- <- <-.
    apply get_start_spec in G; destruct G as [y [E J]]; injection E as <-.
    exists x; split; [exact J|]; split; [left; reflexivity|].
    intros s w E R R'; cbn [ev] in E; apply fit_some in E; destruct E as [<- _].
    cbn [ev sgn]; rewrite Z.add_0_r; apply fit_some; auto.
  - destruct (zip (get_start ss e1) (get_offset ss e2)) as [[k' o']|] eqn:Z1.
    + injection D as <- <- <-; unfold zip in Z1.
      destruct (get_start ss e1) eqn:G; [|discriminate]; destruct (get_offset ss e2) eqn:O; [|discriminate].
      injection Z1 as -> ->; apply get_start_spec in G; destruct G as [x [-> J]].
      apply get_offset_spec in O; destruct O as [-> F].
      exists x; split; [exact J|]; split; [left; reflexivity|].
      intros s w E R R'; cbn [ev]; rewrite E.
      assert (V : fit (var s x) = Some (var s x)) by (apply fit_some; auto); rewrite V.
      apply fit_some; auto.
    + destruct (zip (get_start ss e2) (get_offset ss e1)) as [[k' o']|] eqn:Z2; [|discriminate].
      injection D as <- <- <-; unfold zip in Z2.
      destruct (get_start ss e2) eqn:G; [|discriminate]; destruct (get_offset ss e1) eqn:O; [|discriminate].
      injection Z2 as -> ->; apply get_start_spec in G; destruct G as [x [-> J]].
      apply get_offset_spec in O; destruct O as [-> F].
      exists x; split; [exact J|]; split; [cbn [vars]; apply in_or_app; right; left; reflexivity|].
      intros s w E R R'; cbn [ev]; rewrite E.
      assert (V : fit (var s x) = Some (var s x)) by (apply fit_some; auto); rewrite V.
      cbn [sgn] in *; rewrite (Z.add_comm w); apply fit_some; auto.
  - destruct (zip (get_start ss e1) (get_offset ss e2)) as [[k' o']|] eqn:Z1; [|discriminate].
    injection D as <- <- <-; unfold zip in Z1.
    destruct (get_start ss e1) eqn:G; [|discriminate]; destruct (get_offset ss e2) eqn:O; [|discriminate].
    injection Z1 as -> ->; apply get_start_spec in G; destruct G as [x [-> J]].
    apply get_offset_spec in O; destruct O as [-> F].
    exists x; split; [exact J|]; split; [left; reflexivity|].
    intros s w E R R'; cbn [ev]; rewrite E.
    assert (V : fit (var s x) = Some (var s x)) by (apply fit_some; auto); rewrite V.
    apply fit_some; auto.
Qed.

Lemma fold_dont : forall x r, fold_left (incr x) r VDontWarn = VDontWarn.
Proof.
  intros x; induction r as [|c r IH]; [reflexivity|]; cbn [fold_left]; rewrite <- IH at 2; f_equal.
  destruct c; cbn [incr]; unfold looked;
    repeat match goal with |- context [if ?b then _ else _] => destruct b end; reflexivity.
Qed.
Lemma incr_once_in : forall x r m, fold_left (incr x) r m = VIncrOnce -> m = VIncrOnce \/ In (SAdd x 1) r.
Proof.
  intros x; induction r as [|c r IH]; intros m Q; [left; exact Q|]; cbn [fold_left] in Q.
  destruct (IH _ Q) as [E|E]; [|right; right; exact E].
  destruct c; cbn [incr] in E; unfold looked in E;
    try solve [left; repeat match type of E with context [if ?b then _ else _] => destruct b end; destruct m; congruence].
  destruct (PeanoNat.Nat.eqb_spec x x0) as [->|N]; [|left; exact E].
  destruct m; try discriminate E; destruct (Z.eqb_spec k 1) as [->|]; [right; left; reflexivity | discriminate E].
Qed.

Lemma all_forall : forall (A : Type) (l : list (option A)) r, all l = Some r -> l = map Some r.
Proof.
  intros A; induction l as [|[a|] l IH]; intros r Q; cbn [all] in Q; [injection Q as <-; reflexivity | | discriminate].
  destruct (all l) as [q|]; [|discriminate]; injection Q as <-; cbn [map]; f_equal; apply IH; reflexivity.
Qed.

Section Loop.
Variable s0 : st.
Variables (lo hi : ix) (closed : bool) (i : nat) (inits : list (nat * ix)) (body : list stmt).
Let cs := get_loop_counters inits body.
Let ss : starts := (i, KRange) :: cs.
Variables a b : Z.
Hypothesis Hinit : forall x c, In (x, c) inits -> x <> i /\ ev s0 c = Some (var s0 x).

Lemma cs_in : forall x k, In (x, k) cs ->
  exists c, k = KCounter c /\ In (x, c) inits /\ fold_left (incr x) body VInitial = VIncrOnce.
Proof.
  intros x k J; unfold cs, get_loop_counters in J; apply in_map_iff in J; destruct J as [[y c] [E J]].
  apply filter_In in J; destruct J as [J G]; cbn [fst snd] in *; injection E as <- <-.
  exists c; split; [reflexivity|]; split; [exact J|]; unfold incr_once in G; destruct (fold_left _ _ _); congruence.
Qed.

Definition val (e : ix) : Z := match ev s0 e with Some z => z | None => 0 end.
Definition from (k : kind) : Z := match k with KRange => a | KCounter c => val c end.
(* The first value of an index *)
Definition pos (e : ix) : Z :=
  match details ss e with Some (k, (p, o)) => from k + sgn p (val o) | None => 0 end.
Definition known (e : ix) : Prop :=
  exists k p o w, details ss e = Some (k, (p, o)) /\ ev s0 o = Some w.

Definition bump (m : vstate) : Z := match m with VIncrOnce => 1 | _ => 0 end.
(* Variables in the round t, after the statements pre *)
Definition vinv (t : Z) (pre : list stmt) (s : st) : Prop :=
  var s i = a + t /\
  (forall x k, In (x, k) cs -> var s x = var s0 x + t + bump (fold_left (incr x) pre VInitial)) /\
  (forall x, x <> i -> (forall k, ~ In (x, k) cs) -> var s x = var s0 x).

Lemma index_value : forall t pre s e z,
  (exists q, details ss e = Some q) -> vinv t pre s ->
  (forall x k, In (x, k) cs -> In x (vars e) -> fold_left (incr x) pre VInitial = VInitial) ->
  ev s e = Some z -> z = pos e + t /\ known e.
Proof.
  intros t pre s e z [[k [p o]] D] [Vi [Vc Vo]] M E.
  destruct (details_spec _ _ _ _ _ D) as [x [J [F [X [_ H]]]]].
  destruct (H _ _ E) as [w [Ew ->]].
  assert (E0 : ev s0 o = Some w).
  { destruct F as [[n ->]|[y [-> F]]]; [exact Ew|].
    cbn [ev] in Ew |- *; rewrite <- (Vo y); [exact Ew | |].
    - intros ->; apply (F KRange); left; reflexivity.
    - intros k' Q; apply (F k'); right; exact Q. }
  split; [|exists k, p, o, w; auto].
  unfold pos; rewrite D; unfold val; rewrite E0.
  destruct J as [J|J].
  - injection J as <- <-; rewrite Vi; cbn [from]; lia.
  - rewrite (Vc _ _ J), (M _ _ J X); cbn [bump].
    destruct (cs_in _ _ J) as [c [-> [Jc _]]]; cbn [from]; unfold val; rewrite (proj2 (Hinit _ _ Jc)); lia.
Qed.

(* The copies of a list of statements *)
Definition cps (r : list stmt) : list (base * Z * base * Z) :=
  flat_map (fun c => match c with SCopy d e q f => [(d, pos e, q, pos f)] | _ => [] end) r.
Definition ainv (t : Z) (pre suf : list stmt) (s : st) : Prop :=
  (forall d A q B, In (d, A, q, B) (cps pre) -> filled (arr s0 d) A (arr s0 q) B (t + 1) (arr s d)) /\
  (forall d A q B, In (d, A, q, B) (cps suf) -> filled (arr s0 d) A (arr s0 q) B t (arr s d)) /\
  (forall d, ~ In d (dests body) -> arr s d = arr s0 d).
(* What the indices were in the round t *)
Definition inside (t : Z) (r : list stmt) : Prop :=
  forall d e q f, In (SCopy d e q f) r ->
    0 <= pos e + t < size s0 d /\ 0 <= pos f + t < size s0 q /\ known e /\ known f.

Hypothesis Hplain : forall c, In c body -> plain c = true.
Hypothesis Hcopy : forall d e q f, In (SCopy d e q f) body ->
  (exists x, details ss e = Some x) /\ (exists x, details ss f = Some x).
Hypothesis Hadd : forall x k, In (SAdd x k) body -> exists c, In (x, c) cs.
Hypothesis Hnodup : NoDup (dests body).
Hypothesis Hdisj : forall d, In d (dests body) -> ~ In d (sources body).

Lemma cps_dests : forall r d A q B, In (d, A, q, B) (cps r) -> In d (dests r).
Proof.
  intros r d A q B J; unfold cps in J; apply in_flat_map in J; destruct J as [c [J K]].
  unfold dests; apply in_flat_map; exists c; split; [exact J|].
  destruct c; try destruct K; [left; congruence | contradiction].
Qed.
Lemma base_eqb_refl : forall x, base_eqb x x = true.
Proof. intro x; apply base_eqb_eq; reflexivity. Qed.
Lemma base_eqb_neq : forall x y, x <> y -> base_eqb x y = false.
Proof. intros x y N; destruct (base_eqb x y) eqn:E; [apply base_eqb_eq in E; contradiction | reflexivity]. Qed.
Lemma dests_app : forall x y, dests (x ++ y) = dests x ++ dests y.
Proof. intros; unfold dests; apply flat_map_app. Qed.
Lemma cps_app : forall x y, cps (x ++ y) = cps x ++ cps y.
Proof. intros; unfold cps; apply flat_map_app. Qed.

Lemma walk : forall t suf pre s s', 0 <= t -> body = pre ++ suf ->
  vinv t pre s -> ainv t pre suf s -> steps s suf = Some s' ->
  vinv t body s' /\ ainv t body [] s' /\ inside t suf.
Proof.
  intros t; induction suf as [|c suf IH]; intros pre s s' T Eb V A Q.
  - cbn [steps] in Q; injection Q as <-; rewrite app_nil_r in Eb; subst pre.
    split; [exact V|]; split; [exact A|]; intros d e q f [].
  - cbn [steps] in Q; destruct (step s c) as [s1|] eqn:Q1; [|discriminate].
    assert (Eb' : body = (pre ++ [c]) ++ suf) by (rewrite <- app_assoc; exact Eb).
    assert (Jc : In c body) by (rewrite Eb; apply in_or_app; right; left; reflexivity).
    assert (Mst : forall x k, In (x, k) cs -> fold_left (incr x) (pre ++ [c]) VInitial <> VDontWarn).
    { intros x k J D; destruct (cs_in _ _ J) as [? [_ [_ F]]]; rewrite Eb', fold_left_app, D, fold_dont in F; discriminate. }
    pose proof (Hplain _ Jc) as Pl; destruct c as [d e q f|x k|? ? ?|? ?|? ?]; try discriminate Pl.
    + (* a copy *)
      destruct (Hcopy _ _ _ _ Jc) as [De Df].
      assert (Init : forall x k, In (x, k) cs -> In x (vars e) \/ In x (vars f) ->
                fold_left (incr x) pre VInitial = VInitial).
      { intros x k J X; specialize (Mst _ _ J); rewrite fold_left_app in Mst; cbn [fold_left incr] in Mst.
        assert (mentions x e || mentions x f = true) as Y.
        { apply orb_true_iff; destruct X as [X|X]; [left|right]; apply existsb_exists; exists x;
            (split; [exact X | apply PeanoNat.Nat.eqb_refl]). }
        rewrite Y in Mst; unfold looked in Mst; destruct (fold_left _ pre _); congruence. }
      assert (Same : forall x k, In (x, k) cs ->
                fold_left (incr x) (pre ++ [SCopy d e q f]) VInitial = fold_left (incr x) pre VInitial).
      { intros x k J; specialize (Mst _ _ J); rewrite fold_left_app in Mst |- *; cbn [fold_left incr] in Mst |- *.
        unfold looked in *; destruct (mentions x e || mentions x f); [|reflexivity].
        destruct (fold_left _ pre _); congruence. }
      cbn [step] in Q1; destruct (ev s f) as [y|] eqn:Ef; [|discriminate].
      destruct (elem s q y) as [v|] eqn:El; [|discriminate]; destruct (ev s e) as [x|] eqn:Ee; [|discriminate].
      destruct (index_value _ _ _ _ _ De V (fun x k J X => Init x k J (or_introl X)) Ee) as [-> Ke].
      destruct (index_value _ _ _ _ _ Df V (fun x k J X => Init x k J (or_intror X)) Ef) as [-> Kf].
      assert (Jd : In d (dests body)) by (unfold dests; apply in_flat_map; exists (SCopy d e q f); split; [exact Jc | left; reflexivity]).
      assert (Jq : In q (sources body)) by (unfold sources; apply in_flat_map; exists (SCopy d e q f); split; [exact Jc | left; reflexivity]).
      destruct A as [A1 [A2 A3]].
      assert (Lq : arr s q = arr s0 q) by (apply A3; intro X; exact (Hdisj _ X Jq)).
      pose proof (A2 d (pos e) q (pos f) (or_introl eq_refl)) as Fd.
      unfold elem, size in El; rewrite Lq in El.
      destruct ((0 <=? pos f + t) && (pos f + t <? Z.of_nat (length (arr s0 q)))) eqn:Bq; [|discriminate].
      injection El as <-; apply andb_prop in Bq; destruct Bq as [Bq1 Bq2].
      apply Z.leb_le in Bq1; apply Z.ltb_lt in Bq2.
      unfold store, size in Q1; rewrite (proj1 Fd) in Q1.
      destruct ((0 <=? pos e + t) && (pos e + t <? Z.of_nat (length (arr s0 d)))) eqn:Bd; [|discriminate].
      injection Q1 as <-; apply andb_prop in Bd; destruct Bd as [Bd1 Bd2].
      apply Z.leb_le in Bd1; apply Z.ltb_lt in Bd2.
      rewrite Eb, dests_app in Hnodup; cbn [dests flat_map app] in Hnodup; fold (dests suf) in Hnodup.
      assert (Hp : ~ In d (dests pre) /\ ~ In d (dests suf)).
      { split; intro X; apply (NoDup_remove_2 _ _ _ Hnodup), in_or_app; auto. }
      assert (G : vinv t (pre ++ [SCopy d e q f]) (seta s d (upd (arr s d) (Z.to_nat (pos e + t)) (nth (Z.to_nat (pos f + t)) (arr s0 q) 0)))).
      { destruct V as [Vi [Vc Vo]]; split; [exact Vi|]; split; [|exact Vo].
        intros x k J; rewrite (Same _ _ J); apply (Vc _ _ J). }
      assert (G2 : ainv t (pre ++ [SCopy d e q f]) suf (seta s d (upd (arr s d) (Z.to_nat (pos e + t)) (nth (Z.to_nat (pos f + t)) (arr s0 q) 0)))).
      { split; [|split].
        - intros d' A q' B J; rewrite cps_app in J; apply in_app_or in J; destruct J as [J|[J|[]]].
          + cbn [seta arr]; rewrite base_eqb_neq; [apply A1; exact J|].
            intros ->; apply (proj1 Hp), (cps_dests _ _ _ _ _ J).
          + injection J as <- <- <- <-; cbn [seta arr]; rewrite base_eqb_refl.
            apply filled_S; [exact Fd | exact T | lia].
        - intros d' A q' B J; cbn [seta arr]; rewrite base_eqb_neq; [apply A2; right; exact J|].
          intros ->; apply (proj2 Hp), (cps_dests _ _ _ _ _ J).
        - intros d' J; cbn [seta arr]; rewrite base_eqb_neq; [apply A3; exact J|]; intros ->; contradiction. }
      destruct (IH _ _ _ T Eb' G G2 Q) as [R1 [R2 R3]].
      split; [exact R1|]; split; [exact R2|].
      intros d' e' q' f' [J|J]; [|exact (R3 _ _ _ _ J)].
      injection J as <- <- <- <-; unfold size; split; [lia|]; split; [lia|]; split; assumption.
    + (* an increment *)
      destruct (Hadd _ _ Jc) as [kx Jx].
      pose proof (Mst _ _ Jx) as Mx; rewrite fold_left_app in Mx; cbn [fold_left incr] in Mx; rewrite PeanoNat.Nat.eqb_refl in Mx.
      destruct (fold_left (incr x) pre VInitial) eqn:Fx; try congruence.
      destruct (Z.eqb_spec k 1) as [->|]; [|congruence].
      cbn [step] in Q1; destruct (fit (var s x + 1)) as [z|] eqn:Fz; [|discriminate]; injection Q1 as <-.
      apply fit_some in Fz; destruct Fz as [<- _].
      destruct (cs_in _ _ Jx) as [c [-> [Ji _]]]; pose proof (proj1 (Hinit _ _ Ji)) as Ni.
      assert (G : vinv t (pre ++ [SAdd x 1]) (setv s x (var s x + 1))).
      { destruct V as [Vi [Vc Vo]]; split; [|split].
        - cbn [setv var]; destruct (PeanoNat.Nat.eqb_spec i x); [congruence | exact Vi].
        - intros y k J; rewrite fold_left_app; cbn [fold_left incr setv var].
          destruct (PeanoNat.Nat.eq_dec y x) as [->|N].
          + rewrite !PeanoNat.Nat.eqb_refl, (Vc _ _ J), Fx; cbn [Z.eqb Pos.eqb bump]; lia.
          + apply PeanoNat.Nat.eqb_neq in N; rewrite !N; apply (Vc _ _ J).
        - intros y N J; cbn [setv var]; destruct (PeanoNat.Nat.eqb_spec y x) as [->|]; [|apply Vo; assumption].
          destruct (J _ Jx). }
      assert (G2 : ainv t (pre ++ [SAdd x 1]) suf (setv s x (var s x + 1))).
      { destruct A as [A1 [A2 A3]]; split; [|split; [exact A2 | exact A3]].
        intros d' A q' B J; rewrite cps_app in J; apply in_app_or in J; destruct J as [J|[]]; apply A1; exact J. }
      destruct (IH _ _ _ T Eb' G G2 Q) as [R1 [R2 R3]].
      split; [exact R1|]; split; [exact R2|].
      intros d' e' q' f' [J|J]; [discriminate | exact (R3 _ _ _ _ J)].
Qed.

(* Before the round t *)
Definition before (t : Z) (s : st) : Prop :=
  (forall x k, In (x, k) cs -> var s x = var s0 x + t) /\
  (forall x, x <> i -> (forall k, ~ In (x, k) cs) -> var s x = var s0 x) /\
  (forall d A q B, In (d, A, q, B) (cps body) -> filled (arr s0 d) A (arr s0 q) B t (arr s d)) /\
  (forall d, ~ In d (dests body) -> arr s d = arr s0 d).

Lemma rounds_ok : forall m t s s', 0 <= t -> before t s -> iter i body m (a + t) s = Some s' ->
  before (t + Z.of_nat m) s' /\ forall u, t <= u < t + Z.of_nat m -> inside u body.
Proof.
  induction m as [|m IH]; intros t s s' T Bf Q; cbn [iter] in Q.
  - injection Q as <-; rewrite Z.add_0_r; split; [exact Bf | intros; lia].
  - destruct (steps (setv s i (a + t)) body) as [s1|] eqn:Q1; [|discriminate].
    destruct Bf as [B1 [B2 [B3 B4]]].
    assert (G : vinv t [] (setv s i (a + t))).
    { split; [cbn [setv var]; rewrite PeanoNat.Nat.eqb_refl; reflexivity|]; split.
      - intros x k J; cbn [setv var fold_left bump]; rewrite Z.add_0_r.
        destruct (PeanoNat.Nat.eqb_spec x i) as [->|]; [|apply (B1 _ _ J)].
        destruct (cs_in _ _ J) as [c [_ [Ji _]]]; destruct (proj1 (Hinit _ _ Ji) eq_refl).
      - intros x N J; cbn [setv var]; destruct (PeanoNat.Nat.eqb_spec x i); [contradiction | apply B2; assumption]. }
    assert (G2 : ainv t [] body (setv s i (a + t))).
    { split; [intros d A q B []|]; split; [exact B3 | exact B4]. }
    destruct (walk t body [] _ s1 T eq_refl G G2 Q1) as [[V1 [V2 V3]] [[A1 [_ A3]] In1]].
    destruct (IH (t + 1) s1 s') as [R1 R2].
    + lia.
    + split; [|split; [exact V3 | split; [exact A1 | exact A3]]].
      intros x k J; rewrite (V2 _ _ J); destruct (cs_in _ _ J) as [c [_ [_ F]]]; rewrite F; cbn [bump]; lia.
    + rewrite Z.add_assoc; exact Q.
    + rewrite Nat2Z.inj_succ; split.
      * replace (t + Z.succ (Z.of_nat m)) with (t + 1 + Z.of_nat m) by lia; exact R1.
      * intros u U; destruct (Z.eq_dec u t) as [->|]; [exact In1 | apply R2; lia].
Qed.
End Loop.
