(** Expressions of the same shape, and expressions with exchanged operands, do the same. *)
From Verif Require Export SameRun.
From Coq Require Import Lia.

(** Relations between statements, read backwards. *)
Section Flip.
  Variables E E' : expr -> expr -> Prop.
  Variables P P' : pat -> pat -> Prop.
  Hypothesis PP : forall p q, P p q -> P' q p.
  Definition okf (xs : list expr) : Prop := forall a b, In a xs -> E a b -> E' b a.
  Lemma opt_flip a b : opt_rel E a b -> okf (opt_list (fun e => [e]) a) -> opt_rel E' b a.
  Proof. intros [|x y H] O; constructor. apply O; [cbn; auto|exact H]. Qed.
  Lemma list_flip a b : Forall2 E a b -> okf a -> Forall2 E' b a.
  Proof. induction 1 as [|x y l r H F IH]; intros O; constructor; [apply O; cbn; auto|]. apply IH. intros u v I. apply O. cbn. auto. Qed.
  Lemma stmt_flip : forall s s', stmt_rel E P s s' -> okf (stmt_parts s) -> stmt_rel E' P' s' s.
  Proof.
    fix IH 3. intros s s' S O. destruct S as [p p' a a' ty ty' i i' Q OI|p p' a a' ty ty' i i' ss ss' b b' Q OI FS OB|e e' S|e e' S|].
    - constructor; [apply PP, Q|]. apply opt_flip; [exact OI|]. intros x y I. apply O. cbn. rewrite app_nil_r. exact I.
    - constructor; [apply PP, Q| | |].
      + apply opt_flip; [exact OI|]. intros x y I. apply O. cbn. apply in_or_app. auto.
      + assert (O' : okf (flat_map stmt_parts ss)) by (intros x y I; apply O; cbn; apply in_or_app; right; apply in_or_app; auto). clear O.
        induction FS as [|x y l r H F IF]; constructor.
        * apply IH; [exact H|]. intros u v I. apply O'. cbn. apply in_or_app. auto.
        * apply IF. intros u v I. apply O'. cbn. apply in_or_app. auto.
      + apply opt_flip; [exact OB|]. intros x y I. apply O. cbn. apply in_or_app; right; apply in_or_app; auto.
    - constructor. apply O; [cbn; auto|exact S].
    - constructor. apply O; [cbn; auto|exact S].
    - constructor.
  Qed.
  Lemma block_flip b b' : block_rel E P b b' -> okf (block_parts b) -> block_rel E' P' b' b.
  Proof.
    intros [ss ss' t t' F OT] O. unfold block_parts in O. cbn [fst snd] in O. constructor.
    - assert (O' : okf (flat_map stmt_parts ss)) by (intros x y I; apply O; apply in_or_app; auto). clear O.
      induction F as [|x y l r H F IF]; constructor.
      + apply stmt_flip; [exact H|]. intros u v I. apply O'. cbn. apply in_or_app. auto.
      + apply IF. intros u v I. apply O'. cbn. apply in_or_app. auto.
    - apply opt_flip; [exact OT|]. intros x y I. apply O. apply in_or_app. auto.
  Qed.
  Lemma arms_flip a a' : Forall2 (arm_rel E P) a a' -> okf (flat_map arm_parts a) -> Forall2 (arm_rel E' P') a' a.
  Proof.
    induction 1 as [|x y l r H F IF]; intros O; constructor.
    - destruct H as [p p' g g' b b' Q OG B]. constructor; [apply PP, Q| |].
      + apply opt_flip; [exact OG|]. intros u v I. apply O. cbn. apply in_or_app. left. unfold arm_parts. apply in_or_app. auto.
      + apply O; [|exact B]. cbn. apply in_or_app. left. unfold arm_parts. apply in_or_app. cbn. auto.
    - apply IF. intros u v I. apply O. cbn. apply in_or_app. auto.
  Qed.
End Flip.

Lemma pat_sim_flip R n : forall p p', pat_size p <= n -> pat_sim R p p' -> pat_sim (fun x y => R y x) p' p.
Proof.
  induction n as [|n IH]; intros p p' L S; [destruct p as [|? ? [|]| | | | | | |]; cbn in L; lia|].
  assert (FI : forall ps ps', Forall2 (pat_sim R) ps ps' -> list_sum (map pat_size ps) <= n -> Forall2 (pat_sim (fun x y => R y x)) ps' ps).
  { intros ps ps' F. induction F as [|p1 p2 ps ps' A F IF]; [constructor|].
    change (list_sum (map pat_size (p1 :: ps))) with (pat_size p1 + list_sum (map pat_size ps)). intros B. constructor; [apply IH; [lia|exact A]|apply IF; lia]. }
  destruct S as [|m m' x y p p' X [|a b O]|l|a b i|m m' p p' S|ps ps' d F|q ps ps' d F|q fs fs' r r' F]; cbn [pat_size] in *; constructor; auto.
  - constructor.
  - constructor. apply IH; [lia|exact O].
  - apply IH; [lia|exact S].
  - apply FI; [exact F|lia].
  - apply FI; [exact F|lia].
  - assert (list_sum (map (fun f => pat_size (snd f)) fs) <= n) as B by lia. clear L. revert B.
    induction F as [|[c p1] [c' p2] fs fs' [C A] F IF]; [constructor|]. cbn in A, C.
    change (list_sum (map (fun f => pat_size (snd f)) ((c, p1) :: fs))) with (pat_size p1 + list_sum (map (fun f : name * pat => pat_size (snd f)) fs)).
    intros B. constructor; [split; [cbn; congruence|]; apply (IH p1 p2); [lia|exact A]|apply IF; lia].
Qed.

Section RunSim.
  Variable w : world.
  Variable konst : expr -> option (nat * lit).
  Variable allow : bool.
  Hypothesis sound : konst_sound w konst.

  Lemma node_left e k es : plain e -> reduce_exprkind e = ENode k es -> forall n s t,
    eval w n e s t = More \/ exists n0, n0 < n /\ eval w n e s t = ev_list (eval w n0) es (act w k) s t.
  Proof.
    intros P R [|n] s t; [left; reflexivity|]. destruct (reduce_cases e) as [E|[(lab & u & -> & E)|(lab & u & x & _ & E)]]; rewrite E in R; try discriminate.
    - subst e. right. exists n. split; [lia|reflexivity].
    - injection R as <- <-. destruct n as [|n]; [left; reflexivity|]. right. exists n. split; [lia|reflexivity].
  Qed.
  Lemma node_right e k es : plain e -> reduce_exprkind e = ENode k es -> forall n kk s t, size e <= kk -> 0 < n ->
    exists n0, (es <> [] -> n - 1 + kk <= n0) /\ eval w (n + kk) e s t = ev_list (eval w n0) es (act w k) s t.
  Proof.
    intros P R n kk s t L N. pose proof (size_pos e). destruct (reduce_cases e) as [E|[(lab & u & -> & E)|(lab & u & x & _ & E)]]; rewrite E in R; try discriminate.
    - subst e. exists (n + kk - 1). split; [lia|]. replace (n + kk) with (S (n + kk - 1)) at 1 by lia. reflexivity.
    - injection R as <- <-. exists 0. split; [congruence|]. replace (n + kk) with (S (S (n + kk - 2))) by lia. reflexivity.
  Qed.
  Lemma never_val m x a s t : match ev_opt (eval w m) a (leave x) s t with Fine (Val _) _ _ => False | _ => True end.
  Proof.
    destruct a as [e|]; cbn; [|destruct x; exact I]. destruct (eval w m e s t) as [[| | | |] s1 t1| |]; cbn; try exact I. destruct x; exact I.
  Qed.
  Lemma exit_block m e x a lab u s t : plain e -> (e = EBlock lab u [] (Some (EExit x a)) \/ e = EBlock lab u [SExpr (EExit x a)] None \/ e = EBlock lab u [SSemi (EExit x a)] None) ->
    eval w (S (S m)) e s t = match m with 0 => eval w (S m) (EExit x a) s t | S _ => eval w (S m) (EExit x a) s t end.
  Proof.
    intros P B. assert (lab = None) as -> by (destruct B as [->|[->| ->]]; destruct lab; [destruct P|reflexivity|destruct P|reflexivity|destruct P|reflexivity]).
    transitivity (eval w (S m) (EExit x a) s t); [|destruct m; reflexivity].
    pose proof (never_val m x a s t) as V. change (ev_opt (eval w m) a (leave x) s t) with (eval w (S m) (EExit x a) s t) in V.
    destruct B as [->|[->| ->]].
    - change (match eval w (S m) (EExit x a) s t with
              | Fine (Brk (Some l) v) s t => if lab_eqb None (Some l) then Fine (Val v) s t else Fine (Brk (Some l) v) s t | r => r end = eval w (S m) (EExit x a) s t).
      destruct (eval w (S m) (EExit x a) s t) as [[|[|] ?| | |] s1 t1| |]; reflexivity.
    - change (match bind (eval w (S m) (EExit x a) s t) (fun _ => ev_tail (eval w (S m)) None) with
              | Fine (Brk (Some l) v) s t => if lab_eqb None (Some l) then Fine (Val v) s t else Fine (Brk (Some l) v) s t | r => r end = eval w (S m) (EExit x a) s t).
      destruct (eval w (S m) (EExit x a) s t) as [[|[|] ?| | |] s1 t1| |]; try reflexivity. destruct V.
    - change (match bind (eval w (S m) (EExit x a) s t) (fun _ => ev_tail (eval w (S m)) None) with
              | Fine (Brk (Some l) v) s t => if lab_eqb None (Some l) then Fine (Val v) s t else Fine (Brk (Some l) v) s t | r => r end = eval w (S m) (EExit x a) s t).
      destruct (eval w (S m) (EExit x a) s t) as [[|[|] ?| | |] s1 t1| |]; try reflexivity. destruct V.
  Qed.
  Lemma exit_left e x a : plain e -> reduce_exprkind e = EExit x a -> forall n s t,
    eval w n e s t = More \/ exists n0, n0 < n /\ eval w n e s t = ev_opt (eval w n0) a (leave x) s t.
  Proof.
    intros P R [|n] s t; [left; reflexivity|]. destruct (reduce_cases e) as [E|[(lab & u & _ & E)|(lab & u & y & B & E)]]; rewrite E in R; try discriminate.
    - subst e. right. exists n. split; [lia|reflexivity].
    - injection R as <- ->. destruct n as [|n]; [left; destruct B as [->|[->| ->]]; reflexivity|]. right. exists n. split; [lia|].
      rewrite (exit_block n e XReturn a lab u s t P B). destruct n; reflexivity.
  Qed.
  Lemma exit_right e x a : plain e -> reduce_exprkind e = EExit x a -> forall n kk s t, size e <= kk -> 0 < n ->
    exists n0, n - 1 + opt_size size a <= n0 /\ eval w (n + kk) e s t = ev_opt (eval w n0) a (leave x) s t.
  Proof.
    intros P R n kk s t L N. destruct (reduce_cases e) as [E|[(lab & u & _ & E)|(lab & u & y & B & E)]]; rewrite E in R; try discriminate.
    - subst e. cbn [size] in L. exists (n + kk - 1). split; [lia|]. replace (n + kk) with (S (n + kk - 1)) at 1 by lia. reflexivity.
    - injection R as <- ->. exists (n + kk - 2). assert (opt_size size a + 2 <= size e) as Z.
      { destruct B as [->|[->| ->]]; cbn; lia. }
      split; [lia|]. replace (n + kk) with (S (S (n + kk - 2))) at 1 by lia. rewrite (exit_block _ e XReturn a lab u s t P B). destruct (n + kk - 2); reflexivity.
  Qed.
  Lemma erase_erase t : erase (erase t) = erase t.
  Proof. induction t; cbn; congruence. Qed.
  Lemma act_norm k vs s t : act w k vs s t = act w (norm k) vs s t.
  Proof. destruct k; try reflexivity. cbn. destruct vs as [|v [|]]; try reflexivity. rewrite erase_erase. reflexivity. Qed.
  Lemma place_eval e p : place e = Some p -> forall n t, eval w n e (fun _ => None) t = More \/ eval w n e (fun _ => None) t = Wrong.
  Proof.
    intros P n. revert e p P. induction n as [|n IH]; intros e p P t; [left; reflexivity|]. destruct e; try discriminate; [right; reflexivity|].
    cbn in P. destruct k; try discriminate. destruct es as [|e [|]]; try discriminate. destruct (place e) as [q|] eqn:Q; [|discriminate].
    cbn. destruct (IH e q Q t) as [-> | ->]; auto.
  Qed.

  Section R.
  Variable lax : bool.
  Variable R : id -> id -> Prop.
  Hypothesis R_fun : forall x y y', R x y -> R x y' -> y = y'.
  Hypothesis R_inj : forall x x' y, R x y -> R x' y -> x = x'.

  Lemma le_act k vs s s' t : SR R s s' -> le lax R (act w k vs s t) (act w k vs s' t).
  Proof.
    intros H. destruct k; cbn [act]; try (apply le_fine, H).
    - destruct mutbl, vs as [|v [|]]; try exact I. apply le_fine, H.
    - destruct vs; [exact I|apply le_finish, H].
    - apply le_finish, H.
    - destruct vs as [|v [|]]; try exact I. apply le_fine, H.
    - destruct vs as [|v [|]]; try exact I. destruct (field v f); [apply le_fine, H|exact I].
    - destruct vs as [|v [|[[]| | | | | |] [|]]]; try exact I. destruct (behind v); try exact I. apply le_finish, H.
    - destruct base; [|apply le_fine, H]. destruct (last vs unit_); try exact I. apply le_fine, H.
    - destruct u, vs as [|[] [|]]; try exact I; try (apply le_fine, H); apply le_finish, H.
  Qed.
  Lemma le_operate op lp rp v u s s' t : SR R s s' -> le lax R (operate w op lp rp v u s t) (operate w op lp rp v u s' t).
  Proof.
    intros H. unfold operate. destruct (behind v) eqn:V, (behind u) eqn:U; try (apply le_finish, H);
      repeat match goal with |- context [if ?b then _ else _] => destruct b end; try exact I; apply le_finish, H.
  Qed.
  Lemma place_sim n : forall e e' x fs, size e <= n -> sim konst allow R e e' -> place e = Some (x, fs) -> exists y, place e' = Some (y, fs) /\ R x y.
  Proof.
    induction n as [|n IH]; intros e e' x fs L S P; [pose proof (size_pos e); lia|].
    destruct S as [e e' k c K K'|l|a b RR|d sg sg'|e e' k k' es es' PL PR RL RR NK SI F| | | | | | | |e e' y a a' PL PR RL RR O]; try discriminate.
    - destruct (sound e k c K) as [_ V]. destruct (place_eval e _ P (size e) []) as [Q|Q];
        destruct (V (size e) (fun _ => None) []) as [[_ Z]|Z]; try lia; rewrite Q in Z; discriminate.
    - cbn in P. injection P as <- <-. exists b. auto.
    - destruct e; try discriminate; cbn in P. destruct k0; try discriminate. destruct es0 as [|e1 [|]]; try discriminate.
      destruct (place e1) as [[z gs]|] eqn:Q; [|discriminate]. injection P as -> <-. cbn in RL. injection RL as <- <-.
      inversion F as [|? e1' ? ? S1 F1]; subst. inversion F1; subst. cbn in NK. destruct k'; cbn in NK; try discriminate. injection NK as <-.
      destruct (reduce_cases e') as [E|[(lab & u & _ & E)|(lab & u & z & _ & E)]]; rewrite E in RR; try discriminate. subst e'.
      destruct (IH e1 e1' x gs) as (y & Y & RY); [cbn in L; lia|exact S1|exact Q|]. exists y. cbn. rewrite Y. auto.
    - destruct e; try discriminate.
  Qed.
  Lemma le_write e e' v s s' t : sim konst allow R e e' -> SR R s s' -> le lax R (write e v s t) (write e' v s' t).
  Proof.
    intros S H. unfold write. destruct (place e) as [[x fs]|] eqn:P; [|exact I]. destruct (place_sim _ _ _ _ _ (Nat.le_refl _) S P) as (y & -> & RY).
    destruct fs as [|f fs]; [apply le_fine, SR_set; assumption|]. rewrite <- (H x y RY). destruct (s x) as [old|]; [|exact I].
    destruct (put (f :: fs) v old); [apply le_fine, SR_set; assumption|exact I].
  Qed.

  Lemma run_sim n : forall k e e', sim konst allow R e e' -> size e' <= k -> good lax R (eval w n) (eval w (n + k)) e e'.
  Proof.
    induction n as [n IH] using lt_wf_ind. intros k e e' S L s s' t H. destruct n as [|n]; [exact I|].
    assert (G : forall c c', sim konst allow R c c' -> size c' <= k -> good lax R (eval w n) (eval w (n + k)) c c') by (intros; apply IH; [lia|assumption|assumption]).
    assert (PS : forall c, In c (parts e') -> size c <= k) by (intros c J; apply part_size in J; lia).
    pose proof (orel_matches R) as PM.
    assert (BG : bgood lax R (sim konst allow R) (pat_sim R) (fun c => size c <= k) (block (eval w n) n) (block (eval w (n + k)) (n + k))).
    { apply (le_block lax R R_fun R_inj _ _ _ _ (fun c => size c <= k)); [exact G|exact PM|lia]. }
    destruct S as [e e' kk c K K'|l|a b RR|d sg sg'|e e' kk k' es es' PL PR RL RR NK SI F|op lp rp a b a' b' S1 S2|op a b a' b' AL S1 S2|u u' ss tl ss' tl' B
      |c a b c' a' b' S1 S2 O|p ty e p' ty' e' PP S1|e e' arms arms' S1 FA|lab src ss tl ss' tl' B|e e' x a a' PL PR RL RR O].
    - destruct (sound e kk c K) as [_ V]. destruct (sound e' kk c K') as [_ V'].
      destruct (V (S n) s t) as [[-> _]| ->]; [exact I|]. destruct (V' (S n + k) s' t) as [[_ Z]| ->]; [lia|]. apply le_fine, H.
    - apply le_fine, H.
    - cbn. rewrite <- (H a b RR). destruct (s a); [apply le_fine, H|exact I].
    - apply le_fine, H.
    - destruct (node_left e kk es PL RL (S n) s t) as [-> |(n0 & N0 & ->)]; [exact I|].
      destruct (node_right e' k' es' PR RR (S n) k s' t L ltac:(lia)) as (n1 & N1 & ->).
      apply le_list; [|intros vs s1 s1' t1 H1; rewrite (act_norm kk), (act_norm k'), NK; apply le_act, H1|exact H].
      apply (Forall2_impl_in _ _ _ _ F). intros c c' I I' S1. assert (es' <> []) as NE by (intros ->; destruct I'). specialize (N1 NE).
      replace n1 with (n0 + (n1 - n0)) by lia. apply IH; [lia|exact S1|].
      assert (reduce_exprkind e' = e') as RE.
      { destruct (reduce_cases e') as [E|[(lab & u & _ & E)|(lab & u & z & _ & E)]]; [exact E| |]; rewrite E in RR; [injection RR as <- <-; destruct I'|discriminate]. }
      rewrite RE in RR. subst e'. specialize (PS c' I'). lia.
    - change (S n + k) with (S (n + k)). cbn [eval]. unfold binary. apply le_bind; [apply G; [exact S1|apply PS; cbn; auto|exact H]|].
      intros v s1 s1' t1 H1. assert (G2 : le lax R (eval w n b s1 t1) (eval w (n + k) b' s1' t1)) by (apply G; [exact S2|apply PS; cbn; auto|exact H1]).
      assert (GB : forall v s s' t, SR R s s' -> le lax R (boolean v s t) (boolean v s' t)).
      { intros v0 s0 s0' t0 H0. unfold boolean. destruct (truth v0); [apply le_fine, H0|exact I]. }
      assert (GO : forall o, le lax R (bind (eval w n b s1 t1) (operate w o lp rp v)) (bind (eval w (n + k) b' s1' t1) (operate w o lp rp v))).
      { intros o. apply le_bind; [exact G2|]. intros. apply le_operate. assumption. }
      destruct op; try apply GO.
      + unfold short. destruct (truth v) as [[|]|]; cbn; [apply le_bind; [exact G2|exact GB]|exact (le_fine lax R _ _ _ _ H1)|exact I].
      + unfold short. destruct (truth v) as [[|]|]; cbn; [exact (le_fine lax R _ _ _ _ H1)|apply le_bind; [exact G2|exact GB]|exact I].
    - change (S n + k) with (S (n + k)). cbn [eval]. destruct op as [op|].
      + apply le_bind; [apply G; [exact S2|apply PS; cbn; auto|exact H]|]. intros v s1 s1' t1 H1.
        apply le_bind; [apply G; [exact S1|apply PS; cbn; auto|exact H1]|]. intros u s2 s2' t2 H2.
        apply le_bind; [apply le_operate, H2|]. intros. apply le_write; assumption.
      + apply le_bind; [apply G; [exact S2|apply PS; cbn; auto|exact H]|]. intros. apply le_write; assumption.
    - change (S n + k) with (S (n + k)). cbn [eval]. pose proof (BG _ _ B PS s s' t H) as LB.
      destruct (block (eval w n) n (ss, tl) s t) as [o s1 t1| |]; try exact I.
      destruct (block (eval w (n + k)) (n + k) (ss', tl') s' t) as [o' s1' t1'| |]; cbn in LB; [|apply le_wrong, LB|contradiction].
      destruct LB as (<- & <- & H1). destruct o as [|[l|]| | |]; apply le_fine, H1.
    - change (S n + k) with (S (n + k)). cbn [eval]. apply le_bind; [apply G; [exact S1|apply PS; cbn; auto|exact H]|].
      intros v s1 s1' t1 H1. destruct (truth v) as [[|]|]; [apply G; [exact S2|apply PS; cbn; auto|exact H1]| |exact I].
      destruct O as [|x y O]; [apply le_fine, H1|]. apply G; [exact O|apply PS; cbn; auto|exact H1].
    - change (S n + k) with (S (n + k)). cbn [eval]. apply le_bind; [apply G; [exact S1|apply PS; cbn; auto|exact H]|].
      intros v s1 s1' t1 H1. destruct (PM p p' v PP) as [|x y M]; apply le_fine; [exact H1|]. apply (SR_bind R R_fun R_inj); assumption.
    - change (S n + k) with (S (n + k)). cbn [eval]. apply le_bind; [apply G; [exact S1|apply PS; cbn; auto|exact H]|].
      intros v s1 s1' t1 H1. apply (le_arms lax R R_fun R_inj _ _ (sim konst allow R) (pat_sim R) (fun c => size c <= k)); auto. intros c J. apply PS. cbn. auto.
    - change (S n + k) with (S (n + k)). cbn [eval]. pose proof (BG _ _ B PS s s' t H) as LB.
      assert (S1 : sim konst allow R (ELoop lab src ss tl) (ELoop lab src ss' tl')) by (constructor; exact B).
      destruct (block (eval w n) n (ss, tl) s t) as [o s1 t1| |]; try exact I.
      destruct (block (eval w (n + k)) (n + k) (ss', tl') s' t) as [o' s1' t1'| |]; cbn in LB; [|apply le_wrong, LB|contradiction].
      destruct LB as (<- & <- & H1). destruct o as [|l ?|l| |].
      + apply G; [exact S1|exact L|exact H1].
      + destruct (for_loop lab l); apply le_fine, H1.
      + destruct (for_loop lab l); [apply G; [exact S1|exact L|exact H1]|apply le_fine, H1].
      + apply le_fine, H1.
      + apply le_fine, H1.
    - destruct (exit_left e x a PL RL (S n) s t) as [-> |(n0 & N0 & ->)]; [exact I|].
      destruct (exit_right e' x a' PR RR (S n) k s' t L ltac:(lia)) as (n1 & N1 & ->).
      apply le_opt; [|intros v s1 s1' t1 H1; destruct x; apply le_fine, H1|exact H].
      apply (opt_rel_impl _ _ _ _ O). intros y y' -> -> S1. cbn in N1. replace n1 with (n0 + (n1 - n0)) by lia. apply IH; [lia|exact S1|lia].
  Qed.
  End R.
End RunSim.
