From Coq Require Import List Bool PeanoNat Lia.
Import ListNotations.
From Verif Require Import WliSpec WliModel WliProofs WliProofs2.

(* ---- what the visitors say ---- *)
Lemma unused_apart x q s : fst q = x -> forall env, is_res_used x s = false -> scoped env s -> In x env -> apart (Some q) s.
Proof.
  intros E. induction s; intros env U S I; cbn in U, S |- *; auto.
  - apply orb_false_iff in U. destruct U, S. split; [eapply IHs1|eapply IHs2]; eauto.
  - intros n R. apply (root_is_false _ _ U). rewrite <- (root_resolve n p), <- E. apply R.
  - apply orb_false_iff in U. destruct U, S. split; [eapply IHs1|eapply IHs2]; eauto.
  - eapply IHs; eauto.
  - destruct S as [N S]. split; [intros ->; congruence|]. apply (IHs (x0 :: env) U S). right. exact I.
  - eapply IHs; eauto.
  - apply orb_false_iff in U. destruct U as [U1 U2], S as [_ S]. split.
    + intros n R. apply (root_is_false _ _ U1). rewrite <- (root_resolve n p), <- E. apply R.
    + eapply IHs; eauto.
Qed.
Lemma uses_apart p n s : forall env, uses_iter (try_parse_iter_expr p) s = false -> scoped env s -> In (root p) env -> apart (Some (resolve n p)) s.
Proof.
  induction s; intros env U S I; cbn in U, S |- *; auto.
  - apply orb_false_iff in U. destruct U, S. split; [eapply IHs1|eapply IHs2]; eauto.
  - intros n'. apply visit_away, U.
  - apply orb_false_iff in U. destruct U, S. split; [eapply IHs1|eapply IHs2]; eauto.
  - eapply IHs; eauto.
  - destruct S as [N S]. split; [rewrite root_resolve; intros ->; contradiction|]. apply (IHs (x :: env) U S). right. exact I.
  - destruct (iter_prefix n p) as [A _]. rewrite A in U. apply (unused_apart (root p) _ s (root_resolve n p) env); auto.
  - apply orb_false_iff in U. destruct U as [U1 U2], S as [_ S]. split; [intros n'; apply visit_away, U1|]. eapply IHs; eauto.
Qed.
Lemma scoped_apart s : forall env, scoped env s -> apart None s.
Proof. induction s; intros env S; cbn in S |- *; auto; try (destruct S; split; eauto); eauto; try (destruct S; eauto). Qed.
(* What holds of the loop with this number *)
Fixpoint each (id : nat) (Q : pexpr -> stmt -> Prop) (s : stmt) : Prop :=
  match s with
  | SSeq a b | SIf _ a b => each id Q a /\ each id Q b
  | SLoop b | SOnce b | SLet _ _ b => each id Q b
  | SWhile n _ p b => (n = id -> Q p b) /\ each id Q b
  | _ => True
  end.
Lemma each_none id Q s : occurrences id s = 0 -> each id Q s.
Proof.
  induction s; cbn; auto; intros H; try (split; [apply IHs1|apply IHs2]; lia).
  destruct (Nat.eqb_spec id0 id); [discriminate|]. split; [contradiction|apply IHs, H].
Qed.
Lemma found_occurs id s r : find_loop id s = Some r -> 1 <= occurrences id s.
Proof.
  induction s; cbn; try discriminate; auto.
  - destruct (find_loop id s1) eqn:F; intros H; [specialize (IHs1 H)|specialize (IHs2 H)]; lia.
  - destruct (find_loop id s1) eqn:F; intros H; [specialize (IHs1 H)|specialize (IHs2 H)]; lia.
  - destruct (Nat.eqb_spec id0 id); [lia|]. intros H. specialize (IHs H). lia.
Qed.
Lemma each_found id (Q : pexpr -> stmt -> Prop) s p b : find_loop id s = Some (p, b) -> occurrences id s <= 1 -> Q p b -> each id Q s.
Proof.
  intros F O H. induction s; cbn in F, O |- *; try discriminate; auto.
  - destruct (find_loop id s1) as [r|] eqn:F1.
    + pose proof (found_occurs _ _ _ F1). split; [apply IHs1; [exact F|lia]|apply each_none; lia].
    + pose proof (found_occurs _ _ _ F). split; [apply each_none; lia|apply IHs2; [exact F|lia]].
  - destruct (find_loop id s1) as [r|] eqn:F1.
    + pose proof (found_occurs _ _ _ F1). split; [apply IHs1; [exact F|lia]|apply each_none; lia].
    + pose proof (found_occurs _ _ _ F). split; [apply each_none; lia|apply IHs2; [exact F|lia]].
  - destruct (Nat.eqb_spec id0 id) as [->|N].
    + inversion F; subst. split; [auto|apply each_none; lia].
    + split; [contradiction|apply IHs; [exact F|lia]].
Qed.
Lemma found_contains id s r : find_loop id s = Some r -> contains id s = true.
Proof.
  induction s; cbn; try discriminate; auto.
  - destruct (find_loop id s1) eqn:F; intros H; [rewrite (IHs1 H); reflexivity|rewrite (IHs2 H); apply orb_true_r].
  - destruct (find_loop id s1) eqn:F; intros H; [rewrite (IHs1 H); reflexivity|rewrite (IHs2 H); apply orb_true_r].
  - destruct (Nat.eqb id0 id); cbn; auto.
Qed.
Lemma contains_occurs id s : contains id s = true -> 1 <= occurrences id s.
Proof.
  induction s; cbn; try discriminate; auto.
  - intros H. apply orb_true_iff in H. destruct H as [H|H]; [specialize (IHs1 H)|specialize (IHs2 H)]; lia.
  - intros H. apply orb_true_iff in H. destruct H as [H|H]; [specialize (IHs1 H)|specialize (IHs2 H)]; lia.
  - destruct (Nat.eqb id0 id); cbn; [lia|]. intros H. specialize (IHs H). lia.
Qed.
Lemma occurs_not id s : occurrences id s = 0 -> contains id s = false.
Proof. intros H. destruct (contains id s) eqn:C; [apply contains_occurs in C; lia|reflexivity]. Qed.
Lemma replace_not id r s : contains id s = false -> replace id r s = s.
Proof.
  induction s; cbn; auto; intros H.
  - apply orb_false_iff in H. destruct H. rewrite IHs1, IHs2; auto.
  - apply orb_false_iff in H. destruct H. rewrite IHs1, IHs2; auto.
  - rewrite IHs; auto.
  - rewrite IHs; auto.
  - rewrite IHs; auto.
  - apply orb_false_iff in H. destruct H as [-> H]. rewrite IHs; auto.
Qed.
Lemma after_true it id s : after_loop it id s true = (true, uses_iter it s).
Proof. destruct s; reflexivity. Qed.
Lemma after_not it id s : contains id s = false -> after_loop it id s false = (false, false).
Proof.
  induction s; cbn; auto; intros H.
  - apply orb_false_iff in H. destruct H. rewrite IHs1; auto.
  - apply orb_false_iff in H. destruct H. rewrite IHs1; auto.
  - apply orb_false_iff in H. destruct H as [-> H]. auto.
Qed.
Lemma after_met it id s : contains id s = true -> fst (after_loop it id s false) = true.
Proof.
  induction s; cbn; try discriminate; auto; intros H.
  - destruct (contains id s1) eqn:C.
    + specialize (IHs1 eq_refl). destruct (after_loop it id s1 false) as [m [|]]; cbn in IHs1; subst; [reflexivity|]. rewrite after_true. reflexivity.
    + rewrite (after_not it id s1 C). apply IHs2, H.
  - destruct (contains id s1) eqn:C.
    + specialize (IHs1 eq_refl). destruct (after_loop it id s1 false) as [m [|]]; cbn in IHs1; subst; [reflexivity|]. rewrite after_true. reflexivity.
    + rewrite (after_not it id s1 C). apply IHs2, H.
  - destruct (Nat.eqb id0 id); [reflexivity|]. apply IHs, H.
Qed.
(* The two parts of a statement *)
Lemma after_two it id a b : snd (let (m, u) := after_loop it id a false in if u then (m, true) else after_loop it id b m) = false ->
  (contains id a = true -> snd (after_loop it id a false) = false /\ uses_iter it b = false) /\
  (contains id a = false -> snd (after_loop it id b false) = false).
Proof.
  intros H. split; intros C.
  - pose proof (after_met it id a C) as M. destruct (after_loop it id a false) as [m [|]]; cbn in M, H |- *; [discriminate|]. subst m.
    rewrite after_true in H. auto.
  - rewrite (after_not it id a C) in H. exact H.
Qed.
Lemma found_not_env x id s : forall env, scoped env s -> In x env -> snd (found_local x id s) = false.
Proof.
  induction s; intros env S I; cbn in S |- *; auto.
  - destruct S as [S1 S2]. specialize (IHs1 env S1 I). specialize (IHs2 env S2 I). destruct (found_local x id s1) as [[|] f]; cbn in *; auto.
    destruct (found_local x id s2); cbn in *. subst. reflexivity.
  - destruct S as [S1 S2]. specialize (IHs1 env S1 I). specialize (IHs2 env S2 I). destruct (found_local x id s1) as [[|] f]; cbn in *; auto.
    destruct (found_local x id s2); cbn in *. subst. reflexivity.
  - eapply IHs; eauto.
  - destruct S as [N S]. specialize (IHs (x0 :: env) S (or_intror I)). destruct (found_local x id s) as [m f']. cbn in *. subst f'.
    rewrite orb_false_r. apply Nat.eqb_neq. intros ->. contradiction.
  - eapply IHs; eauto.
  - destruct (Nat.eqb id0 id); [reflexivity|]. eapply IHs; eauto. apply S.
Qed.
Lemma enclosing_scoped id s : forall env e, enclosing_loop id s = Some e -> scoped env s -> exists env', scoped env' e /\ incl env env'.
Proof.
  induction s; intros env e H S; cbn in H, S; try discriminate.
  - destruct S. destruct (contains id s1); [eapply IHs1|eapply IHs2]; eauto.
  - destruct S. destruct (contains id s1); [eapply IHs1|eapply IHs2]; eauto.
  - destruct (contains id s); [|discriminate]. destruct (enclosing_loop id s) as [e'|] eqn:E.
    + inversion H; subst. eapply IHs; eauto.
    + inversion H; subst. exists env. split; [exact S|apply incl_refl].
  - destruct S as [_ S]. destruct (IHs _ e H S) as (env' & A & B). exists env'. split; [exact A|]. intros y I. apply B. right. exact I.
  - eapply IHs; eauto.
  - destruct S as [_ S]. destruct (Nat.eqb id0 id); [discriminate|]. destruct (contains id s); [|discriminate]. destruct (enclosing_loop id s) as [e'|] eqn:E.
    + inversion H; subst. eapply IHs; eauto.
    + inversion H; subst. exists env. split; [exact S|apply incl_refl].
Qed.

Section Run.
Variable act : nat -> list event -> (list step -> list nat) -> list step -> list nat.
Variable result : nat -> list event -> (list step -> list nat) -> nat.
Variable num : nat -> list event -> nat.
Variable bool_of : nat -> list event -> bool.
Variable fresh : nat -> list event -> list step -> list nat.
Hypothesis act_ext : forall f t a b, (forall r, a r = b r) -> forall r, act f t a r = act f t b r.
Hypothesis result_ext : forall f t a b, (forall r, a r = b r) -> result f t a = result f t b.
Notation exec := (exec act result num bool_of fresh).

Lemma rel_none fuel s env st st' : scoped env s -> rel None st st' -> orel (rel None) (exec fuel s st) (exec fuel s st').
Proof.
  intros S R. eapply orel_mono; [|apply (plain act result num bool_of fresh act_ext result_ext None s (scoped_apart s env S) fuel st st' R)].
  intros a b [A _]. exact A.
Qed.
Lemma looping_none (run run' : state -> outcome) : (forall st st', rel None st st' -> orel (rel None) (run st) (run' st')) ->
  forall fuel st st', rel None st st' -> orel (rel None) (looping run fuel st) (looping run' fuel st').
Proof.
  intros H fuel st st' R. eapply orel_mono; [|apply (looping_rel None run run')]; [intros a b [A _]; exact A| |exact R].
  intros a b Rab. eapply orel_mono; [|apply H, Rab]. intros; split; [assumption|exact Logic.I].
Qed.
Lemma asking_none (run run' : state -> outcome) y p : (forall st st', rel None st st' -> orel (rel None) (run st) (run' st')) ->
  forall fuel st st', rel None st st' -> orel (rel None) (asking run y fuel p st) (asking run' y fuel p st').
Proof.
  intros H fuel st st' R. eapply orel_mono; [|apply (asking_rel None run run' y p)]; [intros a b [A _]; exact A| |exact Logic.I|exact R].
  intros a b Rab. eapply orel_mono; [|apply H, Rab]. intros; split; [assumption|exact Logic.I].
Qed.
Lemma leave_none x o o' : orel (rel None) o o' -> orel (rel None) (leave x o) (leave x o').
Proof. intros H. destruct o, o'; cbn in *; auto; exact (proj1 (rel_renew None x _ _ _ H Logic.I)). Qed.

(* By reference *)
Lemma by_ref_rel id s : forall env, scoped env s -> steady id s -> each id (fun p b => uses_iter (try_parse_iter_expr p) b = false) s ->
  forall fuel st st', rel None st st' -> orel (rel None) (exec fuel s st) (exec fuel (replace id true s) st').
Proof.
  induction s; intros env S T Q fuel st st' R; try (apply (rel_none fuel _ env); [exact S|exact R]).
  - destruct S as [S1 S2], T as [T1 T2], Q as [Q1 Q2]. cbn. specialize (IHs1 env S1 T1 Q1 fuel st st' R).
    destruct (exec fuel s1 st), (exec fuel (replace id true s1) st'); cbn in *; try contradiction; auto. eapply IHs2; eauto.
  - destruct S as [S1 S2], T as [T1 T2], Q as [Q1 Q2]. cbn. assert (E : trace st' = trace st) by (symmetry; apply R). rewrite E.
    destruct (bool_of c (trace st)); eauto.
  - cbn. apply looping_none; [|exact R]. intros. eapply IHs; eauto.
  - destruct S as [N S]. cbn. assert (E : trace st' = trace st) by (symmetry; apply R). rewrite E. apply leave_none. eapply IHs; eauto.
    exact (proj1 (rel_renew None x _ _ _ (rel_call None f _ _ R) Logic.I)).
  - cbn. eapply IHs; eauto.
  - destruct S as [S1 S2], T as [T1 T2], Q as [Q1 Q2]. cbn [replace]. destruct (Nat.eqb_spec id0 id) as [->|N].
    + apply for_by_ref; auto. intros n. apply (uses_apart p n s env); auto.
    + cbn. apply asking_none; [|exact R]. intros. eapply IHs; eauto.
Qed.

(* By value *)
Section Move.
Variable x : name.
Notation it := (try_parse_iter_expr (PVar x)).
Definition rel0 (env : list name) (s s' : state) : Prop := rel None s s' \/ (In x env /\ rel (Some (x, [])) s s').
Lemma plain0 s env : uses_iter it s = false -> scoped env s -> forall fuel st st', rel0 env st st' -> orel (rel0 env) (exec fuel s st) (exec fuel s st').
Proof.
  intros U S fuel st st' [R|[I R]].
  - eapply orel_mono; [|apply (rel_none fuel s env st st' S R)]. intros a b A. left. exact A.
  - eapply orel_mono; [|apply (plain act result num bool_of fresh act_ext result_ext (Some (x, [])) s)]; [| |exact R].
    + intros a b [A _]. right. auto.
    + exact (uses_apart (PVar x) (fun _ => 0) s env U S I).
Qed.
Definition moves (id : nat) (s : stmt) : Prop := each id (fun p b => p = PVar x /\ uses_iter it b = false) s.
Lemma leave_moved env y o o' : (y = x \/ ~ In x env \/ In x env) -> ~ In y env -> orel (rel0 (y :: env)) o o' -> orel (rel0 env) (leave y o) (leave y o').
Proof.
  intros _ N H.
  assert (X : forall a b, rel0 (y :: env) a b -> rel0 env (renew y (fun _ => []) a) (renew y (fun _ => []) b)).
  { intros a b [R|[I R]].
    - left. exact (proj1 (rel_renew None y _ _ _ R Logic.I)).
    - destruct (Nat.eq_dec y x) as [->|Ne].
      + left. destruct R as (A & B & C & D & E). unfold rel, renew. cbn [store ints gone trace]. rewrite C, D. cbn [filter fst].
        rewrite Nat.eqb_refl. cbn. repeat (split; [auto|]). intros q. destruct (Nat.eqb_spec x (fst q)) as [Eq|Nq]; [reflexivity|]. apply E. intros Q. apply Nq. rewrite <- Q. reflexivity.
      + right. destruct I as [I|I]; [congruence|]. split; [exact I|]. exact (proj1 (rel_renew (Some (x, [])) y _ _ _ R Ne)). }
  destruct o, o'; cbn in *; auto.
Qed.
Lemma moved id s : forall env, contains id s = true -> occurrences id s <= 1 -> enclosing_loop id s = None -> scoped env s -> moves id s ->
  snd (after_loop it id s false) = false ->
  forall fuel st st', rel None st st' -> orel (rel0 env) (exec fuel s st) (exec fuel (replace id false s) st').
Proof.
  unfold moves. induction s; intros env C O E S M A fuel st st' R; cbn in C; try discriminate.
  - cbn in O, E, S, M. cbn [after_loop] in A. destruct S as [S1 S2], M as [M1 M2]. destruct (after_two _ _ _ _ A) as [A1 A2]. cbn.
    destruct (contains id s1) eqn:C1.
    + destruct (A1 eq_refl) as [A3 A4]. pose proof (contains_occurs _ _ C1). rewrite (replace_not id false s2) by (apply occurs_not; lia).
      specialize (IHs1 env eq_refl ltac:(lia) E S1 M1 A3 fuel st st' R).
      destruct (exec fuel s1 st), (exec fuel (replace id false s1) st'); cbn in IHs1; try contradiction; cbn; auto. apply plain0; auto.
    + cbn in C. rewrite (replace_not id false s1 C1). pose proof (rel_none fuel s1 env st st' S1 R) as P.
      destruct (exec fuel s1 st), (exec fuel s1 st'); cbn in P; try contradiction; cbn; auto; try (left; exact P). apply IHs2; auto. lia.
  - cbn in O, E, S, M. cbn [after_loop] in A. destruct S as [S1 S2], M as [M1 M2]. destruct (after_two _ _ _ _ A) as [A1 A2]. cbn.
    assert (T : trace st' = trace st) by (symmetry; apply R). rewrite T.
    assert (L : forall s, scoped env s -> orel (rel0 env) (exec fuel s st) (exec fuel s st')).
    { intros s Ss. eapply orel_mono; [|apply (rel_none fuel s env st st' Ss R)]. intros a b X. left. exact X. }
    destruct (contains id s1) eqn:C1.
    + destruct (A1 eq_refl) as [A3 A4]. pose proof (contains_occurs _ _ C1). rewrite (replace_not id false s2) by (apply occurs_not; lia).
      destruct (bool_of c (trace st)); [apply IHs1; auto; lia|apply L, S2].
    + cbn in C. rewrite (replace_not id false s1 C1). destruct (bool_of c (trace st)); [apply L, S1|apply IHs2; auto; lia].
  - cbn in E. rewrite C in E. destruct (enclosing_loop id s); discriminate.
  - cbn in O, E, M. destruct S as [N S]. cbn. assert (T : trace st' = trace st) by (symmetry; apply R). rewrite T.
    apply leave_moved; [destruct (in_dec Nat.eq_dec x env); auto|exact N|]. apply IHs; auto.
    exact (proj1 (rel_renew None x0 _ _ _ (rel_call None f _ _ R) Logic.I)).
  - cbn. apply IHs; auto.
  - cbn [replace]. destruct S as [I S], M as [M1 M2]. cbn in E. destruct (Nat.eqb_spec id0 id) as [->|N].
    + destruct (M1 eq_refl) as [-> U]. eapply orel_mono; [|apply for_by_move; [exact act_ext|exact result_ext| |exact R]].
      * intros a b X. right. split; [exact I|exact X].
      * exact (uses_apart (PVar x) (fun _ => 0) s env U S I).
    + cbn in C. rewrite C in E. destruct (enclosing_loop id s); discriminate.
Qed.
(* In a loop in which the variable is declared *)
Lemma moved_inside id s : forall env, contains id s = true -> occurrences id s <= 1 -> scoped env s -> moves id s -> ~ In x env ->
  (enclosing_loop id s = None -> snd (after_loop it id s false) = false) ->
  (forall e, enclosing_loop id s = Some e -> snd (after_loop it id e false) = false /\ snd (found_local x id e) = true) ->
  forall fuel st st', rel None st st' -> orel (rel None) (exec fuel s st) (exec fuel (replace id false s) st').
Proof.
  unfold moves. induction s; intros env C O S M N A1 A2 fuel st st' R; cbn in C; try discriminate.
  - cbn in O, S, M, A2. cbn [enclosing_loop after_loop] in A1. destruct S as [S1 S2], M as [M1 M2]. cbn. destruct (contains id s1) eqn:C1.
    + pose proof (contains_occurs _ _ C1). rewrite (replace_not id false s2) by (apply occurs_not; lia).
      assert (P : orel (rel None) (exec fuel s1 st) (exec fuel (replace id false s1) st')).
      { apply (IHs1 env); auto; [lia|]. intros E. apply (proj1 (after_two _ _ _ _ (A1 E)) C1). }
      destruct (exec fuel s1 st), (exec fuel (replace id false s1) st'); cbn in P; try contradiction; cbn; auto. apply (rel_none fuel s2 env); auto.
    + cbn in C. rewrite (replace_not id false s1 C1). pose proof (rel_none fuel s1 env st st' S1 R) as P.
      destruct (exec fuel s1 st), (exec fuel s1 st'); cbn in P; try contradiction; cbn; auto. apply (IHs2 env); auto; [lia|].
      intros E. apply (proj2 (after_two _ _ _ _ (A1 E)) C1).
  - cbn in O, S, M, A2. cbn [enclosing_loop after_loop] in A1. destruct S as [S1 S2], M as [M1 M2]. cbn.
    assert (T : trace st' = trace st) by (symmetry; apply R). rewrite T. destruct (contains id s1) eqn:C1.
    + pose proof (contains_occurs _ _ C1). rewrite (replace_not id false s2) by (apply occurs_not; lia).
      destruct (bool_of c (trace st)); [|apply (rel_none fuel s2 env); auto].
      apply (IHs1 env); auto; [lia|]. intros E. apply (proj1 (after_two _ _ _ _ (A1 E)) C1).
    + cbn in C. rewrite (replace_not id false s1 C1). destruct (bool_of c (trace st)); [apply (rel_none fuel s1 env); auto|].
      apply (IHs2 env); auto; [lia|]. intros E. apply (proj2 (after_two _ _ _ _ (A1 E)) C1).
  - cbn. apply looping_none; [|exact R]. intros a b Rab. cbn in A2. rewrite C in A2. apply (IHs env); auto.
    + intros E. rewrite E in A2. apply (A2 s eq_refl).
    + intros e E. rewrite E in A2. apply (A2 e eq_refl).
  - destruct S as [Nx S]. cbn. assert (T : trace st' = trace st) by (symmetry; apply R). rewrite T.
    assert (R2 : rel None (renew x0 (fresh f (trace st)) (call f st)) (renew x0 (fresh f (trace st)) (call f st')))
      by exact (proj1 (rel_renew None x0 _ _ _ (rel_call None f _ _ R) Logic.I)).
    destruct (Nat.eq_dec x0 x) as [->|Ne].
    + destruct (enclosing_loop id s) as [e|] eqn:E.
      * destruct (A2 e E) as [_ F]. destruct (enclosing_scoped id s _ e E S) as (env' & S' & I'). rewrite (found_not_env x id e env' S' (I' x (or_introl eq_refl))) in F. discriminate.
      * pose proof (moved id s (x :: env) C O E S M (A1 E) fuel _ _ R2) as P.
        apply (leave_moved env x _ _ (or_introl eq_refl) Nx) in P. eapply orel_mono; [|exact P]. intros a b [X|[X _]]; [exact X|contradiction].
    + apply leave_none. apply (IHs (x0 :: env)); auto. intros [X|X]; [congruence|contradiction].
  - cbn. apply (IHs env); auto.
  - destruct S as [I S], M as [M1 M2]. cbn [replace]. cbn in A2. destruct (Nat.eqb_spec id0 id) as [->|Ne].
    + destruct (M1 eq_refl) as [-> _]. contradiction.
    + cbn in C. rewrite C in A2. cbn. apply asking_none; [|exact R]. intros a b Rab. cbn in O. apply (IHs env); auto.
      * lia.
      * intros E. rewrite E in A2. apply (A2 s eq_refl).
      * intros e E. rewrite E in A2. apply (A2 e eq_refl).
Qed.
End Move.

Lemma can_move_fields q : forall fs m, can_move (try_parse q fs m) = true -> length fs <= length (fields (try_parse q fs m)).
Proof.
  induction q; intros fs m H; cbn in H |- *; auto.
  - specialize (IHq _ _ H). rewrite app_length in IHq. lia.
  - exfalso. assert (X : forall q fs, can_move (try_parse q fs false) = false) by (clear; induction q; intros; cbn; auto; destruct overloaded; auto). rewrite X in H. discriminate.
  - destruct overloaded; [|auto]. exfalso. assert (X : forall q fs, can_move (try_parse q fs false) = false) by (clear; induction q; intros; cbn; auto; destruct overloaded; auto). rewrite X in H. discriminate.
Qed.
Lemma moved_var p : is_mut_ref p = false -> can_move (try_parse_iter_expr p) = true -> fields (try_parse_iter_expr p) = [] -> is_deref p = false -> exists x, p = PVar x.
Proof.
  intros A B C D. destruct p; try discriminate; [eauto|exfalso|exfalso].
  - unfold try_parse_iter_expr in *. cbn in B, C. pose proof (can_move_fields p [f] true B). rewrite C in H. cbn in H. lia.
  - assert (X : forall q fs, can_move (try_parse q fs false) = false) by (clear; induction q; intros; cbn; auto; destruct overloaded; auto).
    unfold try_parse_iter_expr in B. cbn in B. rewrite X in B. discriminate.
Qed.

Lemma found_deref id s p b : find_loop id s = Some (p, b) -> not_deref id s -> is_deref p = false.
Proof.
  induction s; cbn; try discriminate; auto.
  - destruct (find_loop id s1); intros F [H1 H2]; [inversion F; subst|]; auto.
  - destruct (find_loop id s1); intros F [H1 H2]; [inversion F; subst|]; auto.
  - destruct (Nat.eqb_spec id0 id); intros F [H1 H2]; [inversion F; subst; auto|auto].
Qed.
Lemma outside_body id s : outside_closures id s -> enclosing_body id s = None.
Proof.
  induction s; cbn; auto.
  - intros [H1 H2]. destruct (contains id s1); auto.
  - intros [H1 H2]. destruct (contains id s1); auto.
  - intros H. rewrite (occurs_not id s H). reflexivity.
  - destruct (Nat.eqb id0 id); auto.
Qed.
Lemma outcome_rel (Q : state -> state -> Prop) o o' : (forall a a', Q a a' -> trace a = trace a') -> orel Q o o' -> same_outcome o o'.
Proof. intros H. destruct o, o'; cbn; auto. Qed.

Lemma while_let_by_ref : forall s id env, check s id = Some true -> scoped env s -> occurrences id s <= 1 -> steady id s ->
  forall fuel st, gone st = [] -> same_outcome (exec fuel s st) (exec fuel (replace id true s) st).
Proof.
  intros s id env Ck S O T fuel st G. unfold check in Ck. destruct (find_loop id s) as [[p b]|] eqn:F; [|discriminate].
  destruct (uses_iter (try_parse_iter_expr p) b) eqn:U; [discriminate|].
  apply (outcome_rel (rel None)); [intros a a' Ra; apply Ra|]. apply (by_ref_rel id s env S T); [|repeat split; assumption]. apply (each_found id _ s p b F O U).
Qed.
Lemma while_let_by_move : forall s id env, check s id = Some false -> scoped env s -> occurrences id s <= 1 ->
  not_deref id s -> outside_closures id s ->
  forall fuel st, gone st = [] -> same_outcome (exec fuel s st) (exec fuel (replace id false s) st).
Proof.
  intros s id env Ck S O D B fuel st G. unfold check in Ck. destruct (find_loop id s) as [[p b]|] eqn:F; [|discriminate].
  pose proof (found_deref id s p b F D) as D'. pose proof (outside_body id s B) as B'. clear D B.
  destruct (uses_iter (try_parse_iter_expr p) b) eqn:U; [discriminate|].
  assert (R : rel None st st) by (repeat split; assumption).
  injection Ck as Ck. apply orb_false_iff in Ck. destruct Ck as [Ck K4]. apply orb_false_iff in Ck. destruct Ck as [Ck K3]. apply orb_false_iff in Ck. destruct Ck as [K1 K2].
  apply negb_false_iff in K2, K3. destruct (moved_var p K1 K2) as [x ->]; [destruct (fields (try_parse_iter_expr p)); [reflexivity|discriminate]|exact D'|].
  assert (M : moves x id s) by (apply (each_found id _ s (PVar x) b F O); auto).
  unfold needs_mutable_borrow in K4. cbn [path try_parse_iter_expr try_parse] in K4. destruct (enclosing_loop id s) as [e|] eqn:E.
  - apply orb_false_iff in K4. destruct K4 as [K5 K6]. apply negb_false_iff in K6.
    apply (outcome_rel (rel None)); [intros a a' Ra; apply Ra|]. apply (moved_inside x id s env); auto.
    + apply (found_contains _ _ _ F).
    + intros I. destruct (enclosing_scoped id s env e E S) as (env' & S' & I'). rewrite (found_not_env x id e env' S' (I' x I)) in K6. discriminate.
    + intros E'. congruence.
    + intros e' E'. rewrite E in E'. inversion E'; subst e'. split; [exact K5|exact K6].
  - rewrite B' in K4. apply (outcome_rel (rel0 x env)); [intros a a' [Ra|[_ Ra]]; apply Ra|].
    apply (moved x id s env); auto. apply (found_contains _ _ _ F).
Qed.
End Run.
