(** Expressions equal for [eq_expr_value] have no effects. *)
From Verif Require Export SameRun.
From Coq Require Import Lia.

(** ** What a positive answer says *)
Definition yes {X} (eq : X -> X -> locals -> answer) (l r : X) : Prop := exists m, fst (eq l r m) = true.
Lemma also_true a k : fst (also a k) = true -> fst a = true /\ exists m, fst (k m) = true.
Proof. destruct a as [[|] m]; cbn; [|discriminate]. intros H. split; [reflexivity|eauto]. Qed.
Lemma otherwise_true a k : fst (otherwise a k) = true -> fst a = true \/ exists m, fst (k m) = true.
Proof. destruct a as [[|] m]; cbn; [left; reflexivity|]. intros H. right. eauto. Qed.
Lemma given_true b k m : fst (given b k m) = true -> b = true /\ fst (k m) = true.
Proof. destruct b; cbn; [auto|discriminate]. Qed.
Lemma both_true {X} (eq : X -> X -> locals -> answer) l r m : fst (both eq l r m) = true -> opt_rel (yes eq) l r.
Proof. destruct l, r; cbn; try discriminate; intros H; constructor. exists m. exact H. Qed.
Lemma over_true {X} (eq : X -> X -> locals -> answer) l r m : fst (over eq l r m) = true -> Forall2 (yes eq) l r.
Proof.
  unfold over. destruct (Nat.eqb_spec (length l) (length r)) as [L|]; [|discriminate]. revert r m L.
  induction l as [|x l IH]; intros [|y r] m L H; try discriminate L; constructor.
  - cbn in H. destruct (eq x y m) as [[|] m'] eqn:E; [|discriminate H]. exists m. rewrite E. reflexivity.
  - cbn in H. destruct (eq x y m) as [[|] m'] eqn:E; [|discriminate H]. exact (IH r m' ltac:(injection L; auto) H).
Qed.

(** ** Without calls and assignments *)
Definition head (e : expr) : bool := match e with ENode k _ => silent k | EAssign _ _ _ => false | _ => true end.
Inductive quiet (konst : expr -> option (nat * lit)) : expr -> Prop :=
| q_const e k c : konst e = Some (k, c) -> quiet konst e
| q_parts e : head e = true -> (forall p, In p (pats e) -> or_free p = true) -> (forall c, In c (parts e) -> quiet konst c) -> quiet konst e.

Lemma eq_pat_or_free n : forall l r, yes (eq_pat n) l r -> or_free l = true /\ or_free r = true.
Proof.
  induction n as [|n IH]; intros l r [m H]; [discriminate|].
  assert (L : forall ps qs, Forall2 (yes (eq_pat n)) ps qs -> forallb or_free ps = true /\ forallb or_free qs = true).
  { induction 1 as [|p q ps qs Y F [I1 I2]]; cbn; [auto|]. destruct (IH _ _ Y) as [-> ->]. rewrite I1, I2. auto. }
  destruct l, r; cbn [eq_pat] in H; try discriminate H; cbn [or_free]; auto.
  - destruct (given _ _ m) as [b m'] eqn:G. cbn in H. subst b. assert (G' : fst (given (mode =? mode0) (both (eq_pat n) sub sub0) m) = true) by (rewrite G; reflexivity).
    apply given_true in G'. destruct G' as [_ G']. apply both_true in G'. destruct G' as [|p q Y]; auto.
  - apply given_true in H. destruct H as [_ H]. apply IH. exists m. exact H.
  - apply given_true in H. destruct H as [_ H]. apply over_true in H. apply L, H.
  - apply also_true in H. destruct H as [H _]. apply given_true in H. destruct H as [_ H]. apply over_true in H. apply L, H.
  - apply given_true in H. destruct H as [_ H]. apply over_true in H. clear - H IH.
    induction H as [|[f p] [g q] ps qs [m' Y] F [I1 I2]]; cbn; [auto|]. apply given_true in Y. destruct Y as [_ Y]. destruct (IH p q) as [-> ->]; [exists m'; exact Y|].
    rewrite I1, I2. auto.
Qed.
Section Quiet.
  Variable konst : expr -> option (nat * lit).
  Definition quiet_list (es : list expr) : Prop := forall c, In c es -> quiet konst c.
  Definition quiet_pats (ps : list pat) : Prop := forall p, In p ps -> or_free p = true.
  Definition q_expr (e : expr) : Prop := quiet konst e.
  Definition q_block (b : list stmt * option expr) : Prop := quiet_list (block_parts b) /\ quiet_pats (flat_map stmt_pats (fst b)).
  Definition q_stmt (s : stmt) : Prop := quiet_list (stmt_parts s) /\ quiet_pats (stmt_pats s).
  Definition q_arm (a : pat * option expr * expr) : Prop := quiet_list (arm_parts a) /\ or_free (fst (fst a)) = true.
  Lemma opt_quiet {X} (Q : X -> Prop) (E : X -> X -> Prop) a b : (forall x y, E x y -> Q x /\ Q y) -> opt_rel E a b ->
    (forall x, a = Some x -> Q x) /\ (forall x, b = Some x -> Q x).
  Proof. intros H O. destruct O as [|x y Y]; split; intros z Z; try discriminate; injection Z as <-; apply (H _ _ Y). Qed.
  Lemma list_quiet {X} (Q : X -> Prop) (E : X -> X -> Prop) a b : (forall x y, E x y -> Q x /\ Q y) -> Forall2 E a b ->
    (forall x, In x a -> Q x) /\ (forall x, In x b -> Q x).
  Proof. intros H O. induction O as [|x y xs ys Y F [I1 I2]]; [split; intros z []|]. split; intros z [<-|Z]; auto; apply (H _ _ Y). Qed.
  Lemma quiet_return x : quiet konst (EExit XReturn x) -> konst (EExit XReturn x) = None -> quiet_list (opt_list (fun e => [e]) x).
  Proof. intros Q N c J. inversion Q; [congruence|]. auto. Qed.
  Lemma quiet_reduce e : (forall p, In p (pats (reduce_exprkind e)) -> or_free p = true) -> head (reduce_exprkind e) = true ->
    quiet_list (parts (reduce_exprkind e)) -> quiet konst e.
  Proof.
    intros P H Q. destruct (reduce_cases e) as [E|[(lab & u & B & E)|(lab & u & x & B & E)]]; rewrite E in *.
    - apply q_parts; auto.
    - rewrite B. apply q_parts; cbn; auto; intros ? [].
    - assert (QR : quiet konst (EExit XReturn x)) by (apply q_parts; auto).
      destruct B as [B|[B|B]]; rewrite B; (apply q_parts; cbn; [reflexivity|intros ? []|intros c [<-|[]]; exact QR]).
  Qed.
  Lemma eq_quiet n : (forall l r, yes (eq_expr konst false n) l r -> q_expr l /\ q_expr r) /\ (forall l r, yes (eq_block konst false n) l r -> q_block l /\ q_block r)
    /\ (forall l r, yes (eq_stmt konst false n) l r -> q_stmt l /\ q_stmt r) /\ (forall l r, yes (eq_arm konst false n) l r -> q_arm l /\ q_arm r).
  Proof.
    induction n as [|n (E & B & S & A)]; [repeat split; destruct H as [m H]; discriminate H|].
    assert (EP : forall es fs, Forall2 (yes (eq_expr konst false n)) es fs -> quiet_list es /\ quiet_list fs).
    { intros es fs F. exact (list_quiet q_expr _ _ _ E F). }
    assert (OP : forall a b, opt_rel (yes (eq_expr konst false n)) a b -> quiet_list (opt_list (fun e => [e]) a) /\ quiet_list (opt_list (fun e => [e]) b)).
    { intros a b O. destruct O as [|x y Y]; [split; intros ? []|]. split; intros ? J; destruct J as [<-|[]]; apply (E _ _ Y). }
    split; [|split; [|split]].
    - intros l r [m H]. rewrite eq_expr_S in H. unfold same_constant in H. unfold q_expr.
      destruct (match konst l with Some _ => _ | None => _ end) eqn:SC.
      { destruct (konst l) as [[k c]|] eqn:K; [|discriminate]. destruct (konst r) as [[k' c']|] eqn:K'; [|discriminate]. split; eapply q_const; eassumption. }
      clear SC.
      enough (X : ((forall p, In p (pats (reduce_exprkind l)) -> or_free p = true) /\ head (reduce_exprkind l) = true /\ quiet_list (parts (reduce_exprkind l)))
               /\ ((forall p, In p (pats (reduce_exprkind r)) -> or_free p = true) /\ head (reduce_exprkind r) = true /\ quiet_list (parts (reduce_exprkind r)))).
      { destruct X as [(X1 & X2 & X3) (Y1 & Y2 & Y3)]. split; apply quiet_reduce; auto. }
      assert (Y : forall a b m, fst (eq_expr konst false n a b m) = true -> quiet konst a /\ quiet konst b) by (intros a b m0 Y; apply E; exists m0; exact Y).
      destruct (reduce_exprkind l) eqn:L, (reduce_exprkind r) eqn:R; try discriminate H; cbn [pats head parts].
      + repeat split; intros ? [].
      + repeat split; intros ? [].
      + repeat split; intros ? [].
      + apply given_true in H. destruct H as [K H]. apply over_true in H. apply EP in H. destruct (eq_kind_norm _ _ _ K) as [NK SI].
        assert (SI0 : silent k0 = true) by (rewrite <- (SI eq_refl); destruct k, k0; cbn in NK |- *; try discriminate NK; reflexivity).
        repeat split; try solve [intros ? []]; auto; apply H.
      + assert (X : quiet konst e1 /\ quiet konst e2 /\ quiet konst e3 /\ quiet konst e4).
        { apply otherwise_true in H. destruct H as [H|[m1 H]].
          - apply given_true in H. destruct H as [_ H]. apply also_true in H. destruct H as [H1 [m2 H2]]. apply Y in H1. apply Y in H2. tauto.
          - destruct (swap_binop op lp); [|discriminate H]. apply given_true in H. destruct H as [_ H]. apply also_true in H. destruct H as [H1 [m2 H2]]. apply Y in H1. apply Y in H2. tauto. }
        destruct X as (X1 & X2 & X3 & X4). repeat split; try solve [intros ? []]; intros ? [<-|[<-|[]]]; assumption.
      + assert (X : q_block (ss, tail) /\ q_block (ss0, tail0)) by (apply B; exists m; exact H). destruct X as [[X1 X2] [X3 X4]]. repeat split; auto.
      + apply also_true in H. destruct H as [H [m2 H2]]. apply also_true in H. destruct H as [H [m1 H1]]. apply both_true in H2. apply OP in H2. apply Y in H. apply Y in H1.
        destruct H, H1, H2. repeat split; try solve [intros ? []]; intros ? [<-|[<-|J]]; auto.
      + apply also_true in H. destruct H as [H [m2 H2]]. apply also_true in H. destruct H as [H _]. apply Y in H2.
        destruct (eq_pat_or_free (pat_size p) p p0) as [P1 P2]; [exists m; exact H|]. destruct H2.
        repeat split; intros ? [<-|[]]; auto.
      + apply also_true in H. destruct H as [H [m2 H2]]. apply Y in H. apply over_true in H2. apply (list_quiet q_arm _ _ _ A) in H2. destruct H, H2 as [A1 A2].
        repeat split.
        * intros p J. apply in_map_iff in J. destruct J as (a & <- & J). apply (A1 a J).
        * intros ? [<-|J]; [assumption|]. apply in_flat_map in J. destruct J as (a & Ja & J). exact (proj1 (A1 a Ja) _ J).
        * intros p J. apply in_map_iff in J. destruct J as (a & <- & J). apply (A2 a J).
        * intros ? [<-|J]; [assumption|]. apply in_flat_map in J. destruct J as (a & Ja & J). exact (proj1 (A2 a Ja) _ J).
      + apply also_true in H. destruct H as [H _]. apply given_true in H. destruct H as [_ H].
        assert (X : q_block (ss, tail) /\ q_block (ss0, tail0)) by (apply B; exists m; exact H). destruct X as [[X1 X2] [X3 X4]]. repeat split; auto.
      + apply given_true in H. destruct H as [_ H]. apply both_true in H. apply OP in H. destruct H. repeat split; try solve [intros ? []]; auto.
    - intros [ls lt] [rs rt] [m H]. rewrite eq_block_S in H. cbn [fst snd] in H. apply also_true in H. destruct H as [H [m2 H2]].
      apply over_true in H. apply (list_quiet q_stmt _ _ _ S) in H. apply both_true in H2. apply OP in H2. destruct H as [S1 S2], H2 as [T1 T2].
      assert (X : forall ss t, (forall x, In x ss -> q_stmt x) -> quiet_list (opt_list (fun e => [e]) t) -> q_block (ss, t)).
      { intros ss t X T. split; cbn.
        - intros ? J. apply in_app_or in J. destruct J as [J|J]; [|auto]. apply in_flat_map in J. destruct J as (x & Jx & J). exact (proj1 (X x Jx) _ J).
        - intros p J. apply in_flat_map in J. destruct J as (x & Jx & J). exact (proj2 (X x Jx) p J). }
      split; apply X; assumption.
    - intros l r [m H]. rewrite eq_stmt_S in H. destruct l, r; try discriminate H.
      + apply also_true in H. destruct H as [H [m4 H4]]. apply also_true in H. destruct H as [H [m3 H3]]. apply also_true in H. destruct H as [H [m2 H2]].
        apply given_true in H. destruct H as [_ H]. apply both_true in H. apply OP in H. apply both_true in H3.
        destruct (eq_pat_or_free (pat_size p) p p0) as [P1 P2]; [exists m4; exact H4|]. destruct H as [I1 I2].
        assert (X : (forall b, els = Some b -> q_block b) /\ (forall b, els0 = Some b -> q_block b)) by exact (opt_quiet q_block _ _ _ B H3). destruct X as [X1 X2].
        assert (Z : forall p pty t init els, or_free p = true -> quiet_list (opt_list (fun e => [e]) init) -> (forall b, els = Some b -> q_block b) -> q_stmt (SLet p pty t init els)).
        { clear. intros p pty t init els P I X. split; cbn.
          - intros ? J. apply in_app_or in J. destruct J as [J|J]; [auto|]. destruct els as [[ss u]|]; [|destruct J]. exact (proj1 (X _ eq_refl) _ J).
          - intros q [<-|J]; [exact P|]. destruct els as [[ss u]|]; [|destruct J]. exact (proj2 (X _ eq_refl) q J). }
        split; apply Z; assumption.
      + assert (X : quiet konst e /\ quiet konst e0) by (apply E; exists m; exact H). destruct X. repeat split; cbn; try solve [intros ? []]; intros ? [<-|[]]; assumption.
      + assert (X : quiet konst e /\ quiet konst e0) by (apply E; exists m; exact H). destruct X. repeat split; cbn; try solve [intros ? []]; intros ? [<-|[]]; assumption.
    - intros [[lp lg] lb] [[rp rg] rb] [m H]. rewrite eq_arm_S in H. apply also_true in H. destruct H as [H [m2 H2]]. apply also_true in H. destruct H as [H [m1 H1]].
      destruct (eq_pat_or_free (pat_size lp) lp rp) as [P1 P2]; [exists m; exact H|]. apply both_true in H1. apply OP in H1. destruct H1 as [G1 G2].
      assert (X : quiet konst lb /\ quiet konst rb) by (apply E; exists m2; exact H2). destruct X as [X1 X2].
      assert (Z : forall p g b, or_free p = true -> quiet_list (opt_list (fun e => [e]) g) -> quiet konst b -> q_arm (p, g, b)).
      { clear. intros p g b P G Q. split; cbn; [|exact P]. intros ? J. apply in_app_or in J. destruct J as [J|[<-|[]]]; auto. }
      split; apply Z; assumption.
  Qed.
End Quiet.

(** ** Running them *)
Lemma harmless_bind xs a k s t : harmless xs a s t -> (forall v s', (forall x, ~ In x xs -> s' x = s x) -> harmless xs (k v s' t) s' t) -> harmless xs (bind a k) s t.
Proof.
  destruct a as [[v| | | |] s' t'| |]; cbn; auto. intros [-> A] H. specialize (H v s' A). destruct (k v s' t) as [o s2 t2| |]; cbn in *; auto.
  destruct H as [-> B]. split; [reflexivity|]. intros x N. rewrite B, A; auto.
Qed.
Lemma harmless_incl xs ys r s t : incl xs ys -> harmless xs r s t -> harmless ys r s t.
Proof. intros I. destruct r; cbn; auto. intros [A B]. split; [exact A|]. intros x N. apply B. intros J. apply N, I, J. Qed.
Lemma harmless_fine xs o s t : harmless xs (Fine o s t) s t.
Proof. cbn. auto. Qed.
Lemma harmless_from xs r s0 s t : (forall x, ~ In x xs -> s x = s0 x) -> harmless xs r s t -> harmless xs r s0 t.
Proof. intros A. destruct r; cbn; auto. intros [B C]. split; [exact B|]. intros x N. rewrite C, A; auto. Qed.
Lemma join_some a b c : join a b = Some c -> exists x y, a = Some x /\ b = Some y /\ c = x ++ y.
Proof. destruct a, b; cbn; try discriminate. intros H. injection H as <-. eauto. Qed.
Section Bound.
  Variable f : pat -> val -> option bindings.
  Definition bounded (p : pat) : Prop := forall v b, f p v = Some b -> incl (map fst b) (binds_pat p).
  Lemma bounded_all ps : Forall bounded ps -> forall vs b, match_all f ps vs = Some b -> incl (map fst b) (flat_map binds_pat ps).
  Proof.
    induction 1 as [|p ps H F IH]; intros [|v vs] b E; try discriminate E; [injection E as <-; apply incl_refl|].
    cbn in E. apply join_some in E. destruct E as (x & y & E1 & E2 & ->). rewrite map_app. cbn. apply incl_app; [apply incl_appl, (H _ _ E1)|apply incl_appr, (IH _ _ E2)].
  Qed.
  Lemma flat_firstn {A B} (g : A -> list B) k l : incl (flat_map g (firstn k l)) (flat_map g l).
  Proof. revert k. induction l as [|a l IH]; intros [|k]; cbn; try apply incl_nil_l; try apply incl_refl. apply incl_app; [apply incl_appl, incl_refl|apply incl_appr, IH]. Qed.
  Lemma flat_skipn {A B} (g : A -> list B) k l : incl (flat_map g (skipn k l)) (flat_map g l).
  Proof. revert k. induction l as [|a l IH]; intros [|k]; cbn; try apply incl_nil_l; try apply incl_refl. apply incl_appr, IH. Qed.
  Lemma Forall_firstn' {A} (P : A -> Prop) k l : Forall P l -> Forall P (firstn k l).
  Proof. intros F. revert k. induction F; intros [|k]; cbn; auto. Qed.
  Lemma Forall_skipn' {A} (P : A -> Prop) k l : Forall P l -> Forall P (skipn k l).
  Proof. intros F. revert k. induction F; intros [|k]; cbn; auto. Qed.
  Lemma bounded_dd ps d : Forall bounded ps -> forall vs b, match_dd f ps d vs = Some b -> incl (map fst b) (flat_map binds_pat ps).
  Proof.
    intros F vs b E. destruct d as [k|]; cbn in E; [|apply (bounded_all _ F _ _ E)]. destruct (_ <=? _); [|discriminate].
    apply join_some in E. destruct E as (x & y & E1 & E2 & ->). rewrite map_app. apply incl_app.
    - eapply incl_tran; [apply (bounded_all _ (Forall_firstn' _ k _ F) _ _ E1)|apply flat_firstn].
    - eapply incl_tran; [apply (bounded_all _ (Forall_skipn' _ k _ F) _ _ E2)|apply flat_skipn].
  Qed.
  Lemma bounded_fields fs : Forall (fun g => bounded (snd g)) fs -> forall vs b, match_fields f fs vs = Some b -> incl (map fst b) (flat_map (fun g => binds_pat (snd g)) fs).
  Proof.
    induction 1 as [|[g p] fs H F IH]; intros vs b E; cbn in E; [injection E as <-; apply incl_refl|]. destruct (lookup g vs); [|discriminate].
    apply join_some in E. destruct E as (x & y & E1 & E2 & ->). rewrite map_app. cbn. apply incl_app; [apply incl_appl, (H _ _ E1)|apply incl_appr, (IH _ _ E2)].
  Qed.
End Bound.
Lemma bounded_pat n : forall p, or_free p = true -> bounded (match_pat n) p.
Proof.
  induction n as [|n IH]; intros p O v b E; [discriminate|].
  assert (FA : forall ps, forallb or_free ps = true -> Forall (bounded (match_pat n)) ps).
  { intros ps H. apply Forall_forall. intros q J. apply IH. rewrite forallb_forall in H. auto. }
  destruct p; cbn [match_pat] in E; cbn [or_free] in O; cbn [binds_pat].
  - injection E as <-. apply incl_refl.
  - destruct sub as [p|]; [|injection E as <-; apply incl_refl]. apply join_some in E. destruct E as (y & z & E1 & E2 & ->). injection E2 as <-.
    rewrite map_app. apply incl_app; [apply incl_tl, (IH p O _ _ E1)|]. intros ? [<-|[]]. left. reflexivity.
  - destruct v; try discriminate. destruct (lit_eqb _ _); [|discriminate]. injection E as <-. apply incl_refl.
  - destruct v; try discriminate. destruct (_ && _); [|discriminate]. injection E as <-. apply incl_refl.
  - destruct v; try discriminate. exact (IH p O _ _ E).
  - destruct v; try discriminate. exact (bounded_dd _ ps dd (FA _ O) _ _ E).
  - destruct v; try discriminate. destruct (_ =? _); [|discriminate]. exact (bounded_dd _ ps dd (FA _ O) _ _ E).
  - destruct v; try discriminate. destruct (_ =? _); [|discriminate]. apply (bounded_fields (match_pat n) fs) in E; [exact E|].
    apply Forall_forall. intros q J. apply IH. rewrite forallb_forall in O. apply (O q J).
  - discriminate O.
Qed.
Lemma bind_all_other b : forall s x, ~ In x (map fst b) -> bind_all s b x = s x.
Proof.
  induction b as [|[y v] b IH]; intros s x N; [reflexivity|]. cbn in *. change (bind_all (set s y v) b x = s x). rewrite IH; [|tauto]. unfold set. destruct (Nat.eqb_spec y x); tauto.
Qed.
Lemma matches_other p v b s xs : or_free p = true -> matches p v = Some b -> incl (binds_pat p) xs -> forall x, ~ In x xs -> bind_all s b x = s x.
Proof. intros O M I x N. apply bind_all_other. intros J. apply N, I. exact (bounded_pat _ p O v b M x J). Qed.

Section Run.
  Variable w : world.
  Variable konst : expr -> option (nat * lit).
  Hypothesis sound : konst_sound w konst.
  Definition ok (ev : expr -> store -> trace -> result) (e : expr) : Prop := forall s t, harmless (binds e) (ev e s t) s t.
  Lemma harmless_list ev es : (forall e, In e es -> ok ev e) -> forall xs k s t, incl (flat_map binds es) xs -> (forall vs s', (forall x, ~ In x xs -> s' x = s x) -> harmless xs (k vs s' t) s' t) ->
    harmless xs (ev_list ev es k s t) s t.
  Proof.
    induction es as [|e es IH]; intros H xs k s t I K; cbn [ev_list]; [apply K; auto|]. apply harmless_bind.
    - apply (harmless_incl (binds e)); [intros x J; apply I; cbn; apply in_or_app; auto|]. apply H. left. reflexivity.
    - intros v s' A. apply IH; [intros; apply H; right; assumption|intros x J; apply I; cbn; apply in_or_app; auto|]. intros vs s2 B. apply K. intros x N. rewrite B, A; auto.
  Qed.
  Lemma harmless_act k vs xs s t : silent k = true -> harmless xs (act w k vs s t) s t.
  Proof.
    intros S. destruct k; try discriminate S; cbn [act]; repeat (first [match goal with |- context [match ?x with _ => _ end] => destruct x end | progress unfold finish]);
      try exact I; try apply harmless_fine.
  Qed.
  Lemma harmless_operate op v u xs s t : harmless xs (operate w op true true v u s t) s t.
  Proof.
    unfold operate. destruct (behind v), (behind u); cbn; try exact I. unfold finish. destruct (option_map _ _); apply harmless_fine.
  Qed.
  Lemma binds_part e : forall c, In c (parts e) -> incl (binds c) (binds e).
  Proof.
    assert (BS : forall n s, stmt_size s <= n -> forall c, In c (stmt_parts s) -> incl (binds c) (stmt_binds s)).
    { induction n as [|n IH]; intros s L c J; [destruct s; cbn in L; lia|]. destruct s as [p k t i els|e0|e0|]; cbn [stmt_parts stmt_binds] in *.
      - apply in_app_or in J. destruct J as [J|J].
        + destruct i as [i|]; [|destruct J]. destruct J as [<-|[]]. cbn. apply incl_appl, incl_refl.
        + destruct els as [[ss u]|]; [|destruct J]. apply in_app_or in J. apply incl_appr. apply incl_appl. destruct J as [J|J].
          * apply incl_appl. apply in_flat_map in J. destruct J as (x & Jx & J). intros y Jy. apply in_flat_map. exists x. split; [exact Jx|].
            refine (IH x _ c J y Jy). cbn in L. pose proof (in_sum stmt_size x ss Jx). cbn in H. lia.
          * apply incl_appr. destruct u as [u|]; [|destruct J]. destruct J as [<-|[]]. apply incl_refl.
      - destruct J as [<-|[]]. apply incl_refl.
      - destruct J as [<-|[]]. apply incl_refl.
      - destruct J. }
    assert (BB : forall ss u c, In c (block_parts (ss, u)) -> incl (binds c) (flat_map stmt_binds ss ++ opt_list binds u)).
    { intros ss u c J. unfold block_parts in J. cbn in J. apply in_app_or in J. destruct J as [J|J].
      - apply incl_appl. apply in_flat_map in J. destruct J as (x & Jx & J). intros y Jy. apply in_flat_map. exists x. split; [exact Jx|]. exact (BS _ x (Nat.le_refl _) c J y Jy).
      - apply incl_appr. destruct u as [u|]; [|destruct J]. destruct J as [<-|[]]. apply incl_refl. }
    intros c J. destruct e; cbn [parts binds] in *; try (destruct J; fail); try (apply BB, J).
    - intros y Jy. apply in_flat_map. eauto.
    - destruct J as [<-|[<-|[]]]; [apply incl_appl, incl_refl|apply incl_appr, incl_refl].
    - destruct J as [<-|[<-|[]]]; [apply incl_appl, incl_refl|apply incl_appr, incl_refl].
    - destruct J as [<-|[<-|J]]; [apply incl_appl, incl_refl|apply incl_appr, incl_appl, incl_refl|]. destruct e3; [|destruct J]. destruct J as [<-|[]]. apply incl_appr, incl_appr, incl_refl.
    - destruct J as [<-|[]]. apply incl_appr, incl_refl.
    - destruct J as [<-|J]; [apply incl_appl, incl_refl|]. apply incl_appr. apply in_flat_map in J. destruct J as ([[p g] b] & Ja & J). intros y Jy. apply in_flat_map. exists (p, g, b).
      split; [exact Ja|]. apply in_or_app. right. apply in_or_app. cbn in J. apply in_app_or in J. destruct J as [J|[<-|[]]]; [|auto]. left. destruct g; [|destruct J]. destruct J as [<-|[]]. exact Jy.
    - destruct e; [|destruct J]. destruct J as [<-|[]]. apply incl_refl.
    - destruct J as [<-|[]]. apply incl_refl.
  Qed.
  Section Step.
    Variable ev : expr -> store -> trace -> result.
    Definition okl_ (es : list expr) : Prop := forall c, In c es -> ok ev c.
    (** Blocks. *)
    Definition okb (blk : list stmt * option expr -> store -> trace -> result) : Prop :=
      forall b, okl_ (block_parts b) -> quiet_pats (flat_map stmt_pats (fst b)) -> forall s t, harmless (flat_map stmt_binds (fst b) ++ opt_list binds (snd b)) (blk b s t) s t.
    Lemma harmless_stmt blk x k xs s t : okb blk -> okl_ (stmt_parts x) -> quiet_pats (stmt_pats x) -> incl (stmt_binds x) xs ->
      (forall s', (forall x, ~ In x xs -> s' x = s x) -> harmless xs (k s' t) s' t) -> harmless xs (ev_stmt ev blk x k s t) s t.
    Proof.
      intros B O Q I K. destruct x as [p pty ty i els|e|e|]; cbn [ev_stmt stmt_parts stmt_binds stmt_pats] in *.
      - destruct i as [i|]; [|apply K; auto]. apply harmless_bind.
        + apply (harmless_incl (binds i)); [intros x J; apply I; apply in_or_app; left; exact J|]. apply O. apply in_or_app. left. left. reflexivity.
        + intros v s' A. destruct (matches p v) as [b|] eqn:M.
          * apply (harmless_from xs _ s' (bind_all s' b)); [|apply K].
            -- intros x N. apply (matches_other p v b s' xs (Q p (or_introl eq_refl)) M); [|exact N]. intros y J. apply I. apply in_or_app. right. apply in_or_app. right. exact J.
            -- intros x N. rewrite (matches_other p v b s' xs (Q p (or_introl eq_refl)) M); [auto| |exact N]. intros y J. apply I. apply in_or_app. right. apply in_or_app. right. exact J.
          * destruct els as [[ss u]|]; [|exact Logic.I]. apply harmless_bind; [|intros; exact Logic.I].
            apply (harmless_incl (flat_map stmt_binds ss ++ opt_list binds u)); [intros y J; apply I; apply in_or_app; right; apply in_or_app; left; exact J|].
            refine (B (ss, u) _ _ s' t); [intros c J; apply O; apply in_or_app; right; exact J|intros q J; apply Q; right; exact J].
      - apply harmless_bind; [|intros; apply K; assumption]. apply (harmless_incl (binds e)); [exact I|]. apply O. left. reflexivity.
      - apply harmless_bind; [|intros; apply K; assumption]. apply (harmless_incl (binds e)); [exact I|]. apply O. left. reflexivity.
      - apply K; auto.
    Qed.
    Lemma harmless_stmts blk ss k xs : okb blk -> okl_ (flat_map stmt_parts ss) -> quiet_pats (flat_map stmt_pats ss) -> incl (flat_map stmt_binds ss) xs -> forall s t,
      (forall s', (forall x, ~ In x xs -> s' x = s x) -> harmless xs (k s' t) s' t) -> harmless xs (ev_stmts ev blk ss k s t) s t.
    Proof.
      intros B. induction ss as [|x ss IH]; intros O Q I s t K; cbn [ev_stmts]; [apply K; auto|]. apply harmless_stmt; auto.
      - intros c J. apply O. cbn. apply in_or_app. auto.
      - intros c J. apply Q. cbn. apply in_or_app. auto.
      - intros c J. apply I. cbn. apply in_or_app. auto.
      - intros s' A. apply IH.
        + intros c J. apply O. cbn. apply in_or_app. auto.
        + intros c J. apply Q. cbn. apply in_or_app. auto.
        + intros c J. apply I. cbn. apply in_or_app. auto.
        + intros s2 A2. apply K. intros y N. rewrite A2, A; auto.
    Qed.
    Lemma harmless_block n : okb (block ev n).
    Proof.
      induction n as [|n IH]; intros [ss u] O Q s t; [exact Logic.I|]. cbn [block fst snd] in *. apply harmless_stmts; auto.
      - intros c J. apply O. unfold block_parts. apply in_or_app. left. exact J.
      - apply incl_appl, incl_refl.
      - intros s' _. destruct u as [u|]; cbn [ev_tail]; [|apply harmless_fine]. apply (harmless_incl (binds u)); [apply incl_appr, incl_refl|]. apply O. unfold block_parts. apply in_or_app. right. left. reflexivity.
    Qed.
    Lemma harmless_arms arms xs v : okl_ (flat_map arm_parts arms) -> (forall a, In a arms -> or_free (fst (fst a)) = true) ->
      incl (flat_map arm_binds arms) xs -> forall s t, harmless xs (ev_arms ev arms v s t) s t.
    Proof.
      induction arms as [|[[p g] b] arms IH]; intros O Q I s t; cbn [ev_arms]; [exact Logic.I|].
      assert (IH' : forall s t, harmless xs (ev_arms ev arms v s t) s t).
      { apply IH; [intros c J; apply O; cbn; apply in_or_app; auto|intros a J; apply Q; right; exact J|intros c J; apply I; cbn; apply in_or_app; auto]. }
      assert (IP : incl (binds_pat p) xs) by (intros y J; apply I; cbn; rewrite !in_app_iff; auto).
      assert (IG : incl (opt_list binds g) xs) by (intros y J; apply I; cbn; rewrite !in_app_iff; auto).
      assert (IB : incl (binds b) xs) by (intros y J; apply I; cbn; rewrite !in_app_iff; auto).
      assert (OB : ok ev b) by (apply O; cbn; apply in_or_app; left; unfold arm_parts; apply in_or_app; right; left; reflexivity).
      destruct (matches p v) as [bs|] eqn:M; [|apply IH'].
      assert (A : forall x, ~ In x xs -> bind_all s bs x = s x) by (apply (matches_other p v bs s xs (Q _ (or_introl eq_refl)) M IP)).
      destruct g as [g|].
      - apply (harmless_from _ _ s _ t A). apply harmless_bind.
        + apply (harmless_incl (binds g)); [exact IG|]. apply O. cbn. auto.
        + intros c s' _. destruct (truth c) as [[|]|]; [apply (harmless_incl _ _ _ _ _ IB), OB|apply IH'|exact Logic.I].
      - apply (harmless_from _ _ s _ t A). apply (harmless_incl _ _ _ _ _ IB), OB.
    Qed.
  End Step.
  Lemma quiet_run n : forall e, quiet konst e -> primitive_operators e -> ok (eval w n) e.
  Proof.
    induction n as [|n IH]; intros e Q PO s t; [exact Logic.I|].
    destruct Q as [e k c K|e H P C].
    { destruct (proj2 (sound e k c K) (S n) s t) as [[-> _]| ->]; [exact Logic.I|apply harmless_fine]. }
    assert (OK : forall c, In c (parts e) -> ok (eval w n) c).
    { intros c J. apply IH; [auto|]. intros op lp rp a b W. apply (PO op lp rp a b). exact (w_part _ _ _ J W). }
    assert (BP : forall c, In c (parts e) -> forall s t, harmless (binds e) (eval w n c s t) s t).
    { intros c J s0 t0. apply (harmless_incl (binds c)); [apply binds_part, J|]. apply OK, J. }
    assert (SELF : head e = true -> ok (eval w n) e) by (intros _; apply IH; [apply q_parts; assumption|exact PO]).
    destruct e; cbn [eval]; cbn [head] in H; try (apply harmless_fine).
    - destruct (s x); [apply harmless_fine|exact Logic.I].
    - apply (harmless_list (eval w n) es OK); [apply incl_refl|]. intros. apply harmless_act, H.
    - destruct (PO op lp rp e1 e2 (w_here _)) as [-> ->]. unfold binary. apply harmless_bind; [apply BP; cbn; auto|]. intros v s' _.
      assert (B2 : forall g, harmless (binds (EBinary op true true e1 e2)) (short g v (fun s t => bind (eval w n e2 s t) boolean) s' t) s' t).
      { intros g. unfold short. destruct (truth v) as [b|]; [|exact Logic.I]. destruct (Bool.eqb b g); [|apply harmless_fine]. apply harmless_bind; [apply BP; cbn; auto|].
        intros u s2 _. unfold boolean. destruct (truth u); [apply harmless_fine|exact Logic.I]. }
      assert (B3 : harmless (binds (EBinary op true true e1 e2)) (bind (eval w n e2 s' t) (operate w op true true v)) s' t).
      { apply harmless_bind; [apply BP; cbn; auto|]. intros u s2 _. apply harmless_operate. }
      destruct op; first [apply B2|apply B3].
    - discriminate H.
    - pose proof (harmless_block (eval w n) n (ss, tail) OK P s t) as HB. cbn [fst snd] in HB. change (flat_map stmt_binds ss ++ opt_list binds tail) with (binds (EBlock lab unsafe_ ss tail)) in HB.
      destruct (block (eval w n) n (ss, tail) s t) as [[v|[l|] v| | |] s' t'| |]; try exact HB. destruct (lab_eqb lab (Some l)); exact HB.
    - apply harmless_bind; [apply BP; cbn; auto|]. intros v s' _. destruct (truth v) as [[|]|]; [apply BP; cbn; auto| |exact Logic.I].
      destruct e3; [apply BP; cbn; auto|apply harmless_fine].
    - apply harmless_bind; [apply BP; cbn; auto|]. intros v s' _. destruct (matches p v) as [b|] eqn:M; [|apply harmless_fine].
      cbn. split; [reflexivity|]. apply (matches_other p v b s' _ (P p (or_introl eq_refl)) M). apply incl_appl, incl_refl.
    - apply harmless_bind; [apply BP; cbn; auto|]. intros v s' _. apply harmless_arms.
      + intros c J. apply OK. right. exact J.
      + intros a J. apply P. cbn. apply in_map_iff. eauto.
      + cbn. apply incl_appr, incl_refl.
    - pose proof (harmless_block (eval w n) n (ss, tail) OK P s t) as HB. cbn [fst snd] in HB. change (flat_map stmt_binds ss ++ opt_list binds tail) with (binds (ELoop lab src ss tail)) in HB.
      destruct (block (eval w n) n (ss, tail) s t) as [[v|l v|l| |] s' t'| |]; try exact HB.
      + destruct HB as [-> A]. apply (harmless_from _ _ s s' t A). apply (SELF eq_refl).
      + destruct (for_loop lab l); exact HB.
      + destruct (for_loop lab l); [|exact HB]. destruct HB as [-> A]. apply (harmless_from _ _ s s' t A). apply (SELF eq_refl).
    - destruct e as [e|]; cbn [ev_opt].
      + apply harmless_bind; [apply BP; cbn; auto|]. intros v s' _. destruct x; apply harmless_fine.
      + destruct x; apply harmless_fine.
    - exact Logic.I.
  Qed.
End Run.
