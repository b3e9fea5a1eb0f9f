(** Exchanging operands that only compute. *)
From Verif Require Export SameRun2.
From Coq Require Import Lia.

Section Pure.
  Variable w : world.
  Hypothesis ok : sensible w.
  (** Only a value, or (if [p]) a panic. *)
  Definition pure (p : bool) (r : result) (s : store) (t : trace) : Prop := r = Wrong \/ (exists v, r = Fine (Val v) s t) \/ (p = true /\ r = Fine Panic s t).
  Lemma pure_weaken p r s t : pure false r s t -> pure p r s t.
  Proof. intros [H|[H|[H _]]]; [left|right; left|discriminate]; assumption. Qed.
  Lemma pure_bind p r k s t : pure p r s t -> (forall v, pure p (k v s t) s t) -> pure p (bind r k) s t.
  Proof. intros [->|[(v & ->)|[-> ->]]] K; cbn; [left; reflexivity|apply K|right; right; auto]. Qed.
  Lemma pure_list p n es : (forall e, In e es -> forall s t, pure p (eval w n e s t) s t) -> forall k s t, (forall vs, pure p (k vs s t) s t) -> pure p (ev_list (eval w n) es k s t) s t.
  Proof.
    induction es as [|e es IH]; intros H k s t K; cbn; [apply K|]. apply pure_bind; [apply H; cbn; auto|]. intros v. apply IH; [|intros; apply K]. intros. apply H. cbn. auto.
  Qed.
  Lemma pure_val p v s t : pure p (Fine (Val v) s t) s t.
  Proof. right; left. eauto. Qed.
  Lemma pure_finish o s t : pure true (finish o s t) s t.
  Proof. destruct o; cbn; [apply pure_val|right; right; auto]. Qed.
  Lemma pure_boolean p v s t : pure p (boolean v s t) s t.
  Proof. unfold boolean. destruct (truth v); [apply pure_val|left; reflexivity]. Qed.
  Lemma pure_prim p op v u s t : p || negb (arithmetic op) = true -> pure p (operate w op true true v u s t) s t.
  Proof.
    intros A. unfold operate. destruct (behind v) eqn:V, (behind u) eqn:U; try (left; reflexivity).
    destruct (w_prim w op l l0) eqn:Q; cbn; [apply pure_val|]. destruct p; [right; right; auto|]. destruct (arithmetic op) eqn:B; [discriminate|].
    destruct (w_comparison w ok op l l0 B Q).
  Qed.
  Lemma computes_pure n : forall p e, computes p e = true -> size e <= n -> forall s t, pure p (eval w n e s t) s t.
  Proof.
    induction n as [|n IH]; intros p e C L s t; [pose proof (size_pos e); lia|].
    assert (PS : forall c, In c (parts e) -> size c <= n) by (intros c J; apply part_size in J; lia).
    destruct e; try discriminate; cbn [eval].
    - apply pure_val.
    - destruct (s x); [apply pure_val|left; reflexivity].
    - apply pure_val.
    - cbn [computes] in C. apply andb_prop in C. destruct C as [C1 C2]. rewrite forallb_forall in C2.
      apply pure_list; [intros c I s' t'; apply IH; [apply C2, I|apply PS, I]|]. intros vs.
      destruct k; cbn [act]; try discriminate; try apply pure_val.
      + destruct mutbl, vs as [|v [|]]; try (left; reflexivity). apply pure_val.
      + destruct vs as [|v [|]]; try (left; reflexivity). apply pure_val.
      + destruct vs as [|v [|]]; try (left; reflexivity). destruct (field v f); [apply pure_val|left; reflexivity].
      + subst p. destruct vs as [|v [|[[]| | | | | |] [|]]]; try (left; reflexivity). destruct (behind v); try (left; reflexivity). apply pure_finish.
      + destruct base; [|apply pure_val]. destruct (last vs unit_); try (left; reflexivity). apply pure_val.
      + destruct u, vs as [|[] [|]]; try (left; reflexivity); try apply pure_val.
        * destruct (w_un w Not l) eqn:Q; cbn; [apply pure_val|destruct (w_negation w ok l Q)].
        * subst p. apply pure_finish.
    - assert (P1 : forall p', computes p' e1 = true -> forall s t, pure p' (eval w n e1 s t) s t) by (intros; apply IH; [assumption|apply PS; cbn; auto]).
      assert (P2 : forall p', computes p' e2 = true -> forall s t, pure p' (eval w n e2 s t) s t) by (intros; apply IH; [assumption|apply PS; cbn; auto]).
      unfold binary. cbn [computes] in C.
      assert (ST : forall o, (p || negb (arithmetic o)) && lp && rp && computes p e1 && computes p e2 = true ->
        pure p (bind (eval w n e1 s t) (fun v s t => bind (eval w n e2 s t) (operate w o lp rp v))) s t).
      { intros o X. repeat (apply andb_prop in X; destruct X as [X ?]). destruct lp; [|discriminate]. destruct rp; [|discriminate].
        apply pure_bind; [apply P1; assumption|]. intros v. apply pure_bind; [apply P2; assumption|]. intros u. apply pure_prim. assumption. }
      destruct op; try (apply (ST _ C)); apply andb_prop in C; destruct C as [X Y]; apply pure_bind; try (apply pure_weaken, P1, X); intros v; unfold short.
      + destruct (truth v) as [[|]|]; cbn; [|apply pure_val|left; reflexivity]. apply pure_bind; [apply pure_weaken, P2, Y|intros; apply pure_boolean].
      + destruct (truth v) as [[|]|]; cbn; [apply pure_val| |left; reflexivity]. apply pure_bind; [apply pure_weaken, P2, Y|intros; apply pure_boolean].
  Qed.
  (** With little fuel, nothing else either. *)
  Lemma computes_more n p e s t : computes p e = true -> eval w n e s t = More \/ pure p (eval w n e s t) s t.
  Proof.
    revert p e s t. induction n as [|n IH]; intros p e s t C; [left; reflexivity|].
    assert (BI : forall q r k s t, (r = More \/ pure q r s t) -> (forall v, k v s t = More \/ pure q (k v s t) s t) -> bind r k = More \/ pure q (bind r k) s t).
    { intros q r k s0 t0 [->|[->|[(v & ->)|[-> ->]]]] K; cbn; [left; reflexivity|right; left; reflexivity|apply K|right; right; right; auto]. }
    destruct e; try discriminate; cbn [eval].
    - right. apply pure_val.
    - right. destruct (s x); [apply pure_val|left; reflexivity].
    - right. apply pure_val.
    - cbn [computes] in C. apply andb_prop in C. destruct C as [C1 C2]. rewrite forallb_forall in C2.
      assert (LI : forall k, (forall vs, pure p (k vs s t) s t) -> ev_list (eval w n) es k s t = More \/ pure p (ev_list (eval w n) es k s t) s t).
      { clear C1. induction es as [|e es IE]; intros k' K; cbn; [right; apply K|]. apply BI; [apply IH, C2; cbn; auto|]. intros v. apply IE; [|intros; apply K]. intros. apply C2. cbn. auto. }
      apply LI. intros vs.
      destruct k; cbn [act]; try discriminate; try apply pure_val.
      + destruct mutbl, vs as [|v [|]]; try (left; reflexivity). apply pure_val.
      + destruct vs as [|v [|]]; try (left; reflexivity). apply pure_val.
      + destruct vs as [|v [|]]; try (left; reflexivity). destruct (field v f); [apply pure_val|left; reflexivity].
      + subst p. destruct vs as [|v [|[[]| | | | | |] [|]]]; try (left; reflexivity). destruct (behind v); try (left; reflexivity). apply pure_finish.
      + destruct base; [|apply pure_val]. destruct (last vs unit_); try (left; reflexivity). apply pure_val.
      + destruct u, vs as [|[] [|]]; try (left; reflexivity); try apply pure_val.
        * destruct (w_un w Not l) eqn:Q; cbn; [apply pure_val|destruct (w_negation w ok l Q)].
        * subst p. apply pure_finish.
    - unfold binary. cbn [computes] in C.
      assert (WK : forall e0, computes false e0 = true -> forall s t, eval w n e0 s t = More \/ pure p (eval w n e0 s t) s t).
      { intros e0 X s0 t0. destruct (IH false e0 s0 t0 X); [auto|right; apply pure_weaken; assumption]. }
      assert (ST : forall o, (p || negb (arithmetic o)) && lp && rp && computes p e1 && computes p e2 = true ->
        let r := bind (eval w n e1 s t) (fun v s t => bind (eval w n e2 s t) (operate w o lp rp v)) in r = More \/ pure p r s t).
      { intros o X. repeat (apply andb_prop in X; destruct X as [X ?]). destruct lp; [|discriminate]. destruct rp; [|discriminate].
        apply BI; [apply IH; assumption|]. intros v. apply BI; [apply IH; assumption|]. intros u. right. apply pure_prim. assumption. }
      destruct op; try (apply (ST _ C)); apply andb_prop in C; destruct C as [X Y]; apply BI; try (apply WK, X); intros v; unfold short.
      + destruct (truth v) as [[|]|]; cbn; [|right; apply pure_val|right; left; reflexivity]. apply BI; [apply WK, Y|intros; right; apply pure_boolean].
      + destruct (truth v) as [[|]|]; cbn; [right; apply pure_val| |right; left; reflexivity]. apply BI; [apply WK, Y|intros; right; apply pure_boolean].
  Qed.
End Pure.

(** ** Reordering, one level at a time *)
Lemma stmt_rel_refl (E : expr -> expr -> Prop) (P : pat -> pat -> Prop) : (forall e, E e e) -> (forall p, P p p) -> forall s, stmt_rel E P s s.
Proof.
  intros RE RP. assert (RO : forall o, opt_rel E o o) by (intros [|]; constructor; apply RE).
  fix IH 1. intros [p k t i [[ss b]|]|e|e|]; constructor; auto. clear - IH. induction ss; constructor; auto.
Qed.
Lemma block_rel_refl (E : expr -> expr -> Prop) (P : pat -> pat -> Prop) : (forall e, E e e) -> (forall p, P p p) -> forall b, block_rel E P b b.
Proof.
  intros RE RP [ss t]. constructor; [|destruct t; constructor; apply RE]. apply Forall2_refl. apply stmt_rel_refl; assumption.
Qed.
Inductive level (C : expr -> Prop) : expr -> expr -> Prop :=
| lv_leaf e : parts e = [] -> match e with ELit _ | ELocal _ | EItem _ _ => True | _ => False end -> level C e e
| lv_closure e : level C (EClosure e) (EClosure e)
| lv_node k es es' : Forall2 (reordered C) es es' -> level C (ENode k es) (ENode k es')
| lv_binary op lp rp l r l' r' : reordered C l l' -> reordered C r r' -> level C (EBinary op lp rp l r) (EBinary op lp rp l' r')
| lv_exchange op op' lp lp' rp l r l' r' : exchangeable op' op lp' -> C (EBinary op lp rp l r) ->
    reordered C l l' -> reordered C r r' -> level C (EBinary op lp rp l r) (EBinary op' rp lp r' l')
| lv_assign op l r l' r' : reordered C l l' -> reordered C r r' -> level C (EAssign op l r) (EAssign op l' r')
| lv_block lab u ss t ss' t' : block_rel (reordered C) eq (ss, t) (ss', t') -> level C (EBlock lab u ss t) (EBlock lab u ss' t')
| lv_if c t e c' t' e' : reordered C c c' -> reordered C t t' -> opt_rel (reordered C) e e' -> level C (EIf c t e) (EIf c' t' e')
| lv_let p t e e' : reordered C e e' -> level C (ELet p t e) (ELet p t e')
| lv_match e e' arms arms' : reordered C e e' -> Forall2 (arm_rel (reordered C) eq) arms arms' -> level C (EMatch e arms) (EMatch e' arms')
| lv_loop lab k ss t ss' t' : block_rel (reordered C) eq (ss, t) (ss', t') -> level C (ELoop lab k ss t) (ELoop lab k ss' t')
| lv_exit x e e' : opt_rel (reordered C) e e' -> level C (EExit x e) (EExit x e').
Lemma reordered_level C e e' : reordered C e e' -> level C e e'.
Proof.
  assert (RO : forall o, opt_rel (reordered C) o o) by (intros [|]; constructor; constructor).
  assert (RB : forall b, block_rel (reordered C) eq b b) by (apply block_rel_refl; [constructor|reflexivity]).
  assert (RA : forall a, arm_rel (reordered C) eq a a) by (intros [[p g] b]; constructor; [reflexivity|apply RO|constructor]).
  intros [e0|k es es' F|op lp rp l r l' r' A B|op op' lp lp' rp l r l' r' X Y A B|op l r l' r' A B|lab u ss t ss' t' A|c t e0 c' t' e0' A B D|p t e0 e0' A|e0 e0' arms arms' A F|lab k ss t ss' t' A|x e0 e0' A];
    try (econstructor; eassumption).
  destruct e0.
  - apply lv_leaf; [reflexivity|exact I].
  - apply lv_leaf; [reflexivity|exact I].
  - apply lv_leaf; [reflexivity|exact I].
  - apply lv_node. apply Forall2_refl. constructor.
  - apply lv_binary; constructor.
  - apply lv_assign; constructor.
  - apply lv_block, RB.
  - apply lv_if; [constructor|constructor|apply RO].
  - apply lv_let. constructor.
  - apply lv_match; [constructor|]. apply Forall2_refl, RA.
  - apply lv_loop, RB.
  - apply lv_exit, RO.
  - apply lv_closure.
Qed.
Lemma reordered_place C n : forall e e' p, size e <= n -> reordered C e e' -> place e' = Some p -> place e = Some p.
Proof.
  induction n as [|n IH]; intros e e' p L S P; [pose proof (size_pos e); lia|]. apply reordered_level in S.
  destruct S as [e _ _|e|k es es' F| | | | | | | | |]; try assumption; try discriminate.
  cbn in P |- *. destruct k; try discriminate. destruct es' as [|e' [|]]; try discriminate. inversion F as [|e ? ? ? S F']; subst. inversion F'; subst.
  destruct (place e') as [q|] eqn:Q; [|discriminate]. rewrite (IH e e' q); [exact P|cbn in L; lia|exact S|exact Q].
Qed.
Lemma reordered_computes C n : forall p e e', size e <= n -> reordered C e e' -> computes p e = true -> computes p e' = true.
Proof.
  induction n as [|n IH]; intros p e e' L S P; [pose proof (size_pos e); lia|]. apply reordered_level in S.
  destruct S as [e _ _|e|k es es' F|op lp rp l r l' r' A B|op op' lp lp' rp l r l' r' X Y A B| | | | | | |]; try assumption; try discriminate.
  - cbn [computes] in P |- *. apply andb_prop in P. destruct P as [-> P]. cbn [andb]. cbn [size] in L. apply le_S_n in L. clear k.
    induction F as [|x y l r A F IF]; [reflexivity|]. change (list_sum (map size (x :: l))) with (size x + list_sum (map size l)) in L.
    cbn in P |- *. apply andb_prop in P. destruct P as [P1 P2]. rewrite (IH p x y ltac:(lia) A P1), IF; [reflexivity|lia|exact P2].
  - cbn [size] in L. assert (HA : forall q, computes q l = true -> computes q l' = true) by (intros q; apply IH; [lia|exact A]).
    assert (HB : forall q, computes q r = true -> computes q r' = true) by (intros q; apply IH; [lia|exact B]).
    cbn [computes] in P |- *. destruct op; repeat (apply andb_prop in P; destruct P as [P ?]); rewrite !Bool.andb_true_iff; repeat split; auto; destruct p; auto; discriminate.
  - cbn [size] in L. assert (HA : forall q, computes q l = true -> computes q l' = true) by (intros q; apply IH; [lia|exact A]).
    assert (HB : forall q, computes q r = true -> computes q r' = true) by (intros q; apply IH; [lia|exact B]).
    destruct X; cbn [computes] in P |- *; repeat (apply andb_prop in P; destruct P as [P ?]); rewrite !Bool.andb_true_iff; repeat split; auto; destruct p; auto; discriminate.
Qed.

Section RunReordered.
  Variable w : world.
  Hypothesis ok : sensible w.
  Let L := le true (@eq id).
  Lemma eq_fun : forall x y y' : id, x = y -> x = y' -> y = y'. Proof. congruence. Qed.
  Lemma eq_inj : forall x x' y : id, x = y -> x' = y -> x = x'. Proof. congruence. Qed.
  Lemma orel_refl b : orel eq b b.
  Proof. destruct b; constructor. apply Forall2_refl. intros [? ?]. auto. Qed.
  Lemma exchange_prim op op' p v u s s' t : exchangeable op' op p -> (op' <> And /\ op' <> Or) -> SR eq s s' ->
    L (operate w op' true true v u s t) (operate w op true true u v s' t).
  Proof.
    intros X [NA NO] H. unfold operate. destruct (behind v) eqn:V, (behind u) eqn:U; try exact I.
    rewrite (w_commutes w ok op' op l l0); [apply le_finish, H|]. destruct X; try reflexivity; congruence.
  Qed.
  Lemma run_reordered n : forall k e e', reordered calm e e' -> size e <= k -> good true eq (eval w n) (eval w (n + k)) e' e.
  Proof.
    induction n as [|n IH]; intros k e e' RO Z s s' t H; [exact I|]. apply reordered_level in RO.
    assert (G : forall c c', reordered calm c' c -> size c' <= k -> good true eq (eval w n) (eval w (n + k)) c c') by (intros; apply IH; assumption).
    assert (PS : forall c, In c (parts e) -> size c <= k) by (intros c J; apply part_size in J; lia).
    assert (PM : forall p p' v, p = p' -> orel eq (matches p v) (matches p' v)) by (intros p p' v ->; apply orel_refl).
    assert (BG : bgood true eq (fun c c' => reordered calm c' c) eq (fun c => size c <= k) (block (eval w n) n) (block (eval w (n + k)) (n + k))).
    { apply (le_block true eq eq_fun eq_inj _ _ _ _ (fun c => size c <= k)); [exact G|exact PM|lia]. }
    assert (BF : forall b b', block_rel (reordered calm) eq b b' -> block_rel (fun c c' => reordered calm c' c) eq b' b).
    { intros b b' B. apply (block_flip _ _ _ _ (fun p q E => eq_sym E) _ _ B). intros a c _ X. exact X. }
    change (S n + k) with (S (n + k)).
    destruct RO as [e LF1 LF2|e|kk es es' F|op lp rp l r l' r' A B|op op' lp lp' rp l r l' r' X Y A B|op l r l' r' A B|lab u ss tl ss' tl' A|c a e c' a' e' A B D|p ty e e' A|e e' arms arms' A F|lab src ss tl ss' tl' A|x e e' A].
    - destruct e; try destruct LF2; cbn [eval]; try (apply le_fine, H). rewrite <- (H x x eq_refl). destruct (s x); [apply le_fine, H|exact I].
    - exact I.
    - cbn [eval]. apply le_list; [|intros; apply le_act; assumption|exact H].
      assert (F' : Forall2 (fun c c' => reordered calm c' c) es' es).
      { apply (list_flip (reordered calm)); [exact F|]. intros a b _ X. exact X. }
      apply (Forall2_impl_in _ _ _ _ F'). intros x y _ J S1. apply G; [exact S1|apply PS, J].
    - cbn [eval]. unfold binary. apply le_bind; [apply G; [exact A|apply PS; cbn; auto|exact H]|].
      intros v s1 s1' t1 H1. assert (G2 : L (eval w n r' s1 t1) (eval w (n + k) r s1' t1)) by (apply G; [exact B|apply PS; cbn; auto|exact H1]).
      assert (GB : forall v s s' t, SR eq s s' -> L (boolean v s t) (boolean v s' t)).
      { intros v0 s0 s0' t0 H0. unfold boolean. destruct (truth v0); [apply le_fine, H0|exact I]. }
      assert (GO : forall o, L (bind (eval w n r' s1 t1) (operate w o lp rp v)) (bind (eval w (n + k) r s1' t1) (operate w o lp rp v))).
      { intros o. apply le_bind; [exact G2|]. intros. apply le_operate. assumption. }
      destruct op; try apply GO.
      + unfold short. destruct (truth v) as [[|]|]; cbn [Bool.eqb]; [apply le_bind; [exact G2|exact GB]|exact (le_fine true eq _ _ _ _ H1)|exact I].
      + unfold short. destruct (truth v) as [[|]|]; cbn [Bool.eqb]; [exact (le_fine true eq _ _ _ _ H1)|apply le_bind; [exact G2|exact GB]|exact I].
    - assert (SL : size l <= k) by (apply PS; cbn; auto). assert (SR_ : size r <= k) by (apply PS; cbn; auto).
      pose proof (G r' r B SR_) as GR. pose proof (G l' l A SL) as GL. cbn [eval]. unfold binary.
      (* What the two operands give. *)
      assert (PU : forall p, computes p l = true -> computes p r = true ->
        forall s s' t, SR eq s s' ->
          (eval w n r' s t = More \/ pure p (eval w n r' s t) s t) /\ (eval w n l' s t = More \/ pure p (eval w n l' s t) s t)
          /\ pure p (eval w (n + k) r s' t) s' t /\ pure p (eval w (n + k) l s' t) s' t /\ L (eval w n r' s t) (eval w (n + k) r s' t) /\ L (eval w n l' s t) (eval w (n + k) l s' t)).
      { intros p CL CR s0 s0' t0 H0. repeat split.
        - apply computes_more; [exact ok|]. apply (reordered_computes _ _ _ _ _ (Nat.le_refl _) B CR).
        - apply computes_more; [exact ok|]. apply (reordered_computes _ _ _ _ _ (Nat.le_refl _) A CL).
        - apply computes_pure; [exact ok|exact CR|lia].
        - apply computes_pure; [exact ok|exact CL|lia].
        - apply GR, H0.
        - apply GL, H0. }
      assert (ST : forall o o' p, exchangeable o' o p -> o' <> And /\ o' <> Or -> lp = true /\ rp = true /\ computes true l = true /\ computes true r = true ->
        L (bind (eval w n r' s t) (fun v s t => bind (eval w n l' s t) (operate w o' rp lp v))) (bind (eval w (n + k) l s' t) (fun v s t => bind (eval w (n + k) r s t) (operate w o lp rp v)))).
      { intros o o' p X' NE (-> & -> & CL & CR). destruct (PU true CL CR s s' t H) as (P1 & P2 & P3 & P4 & Q1 & Q2).
        destruct P1 as [E1|[E1|[(v & E1)|[_ E1]]]]; rewrite E1 in *; cbn [bind]; try exact I.
        - destruct P2 as [E2|[E2|[(u & E2)|[_ E2]]]]; rewrite E2 in *; cbn [bind]; try exact I.
          + destruct P4 as [E4|[(u' & E4)|[_ E4]]]; rewrite E4 in *; cbn [bind]; [apply le_wrong; reflexivity| |destruct Q2 as [Q2 _]; discriminate].
            destruct Q2 as [Q2 _]. injection Q2 as <-.
            destruct P3 as [E3|[(v' & E3)|[_ E3]]]; rewrite E3 in *; cbn [bind]; [apply le_wrong; reflexivity| |destruct Q1 as [Q1 _]; discriminate].
            destruct Q1 as [Q1 _]. injection Q1 as <-. apply (exchange_prim _ _ _ _ _ _ _ _ X' NE H).
          + destruct P4 as [E4|[(u' & E4)|[_ E4]]]; rewrite E4 in *; cbn [bind]; [reflexivity|destruct Q2 as [Q2 _]; discriminate|apply le_fine, H].
        - destruct P4 as [E4|[(u' & E4)|[_ E4]]]; rewrite E4 in *; cbn [bind]; [reflexivity| |apply le_fine, H].
          destruct P3 as [E3|[(v' & E3)|[_ E3]]]; rewrite E3 in *; cbn [bind]; [reflexivity|destruct Q1 as [Q1 _]; discriminate|apply le_fine, H]. }
      assert (LG : forall go, computes false l = true -> computes false r = true ->
        L (bind (eval w n r' s t) (fun v s t => short go v (fun s t => bind (eval w n l' s t) boolean) s t))
          (bind (eval w (n + k) l s' t) (fun v s t => short go v (fun s t => bind (eval w (n + k) r s t) boolean) s t))).
      { intros go CL CR. destruct (PU false CL CR s s' t H) as (P1 & P2 & P3 & P4 & Q1 & Q2).
        destruct P1 as [E1|[E1|[(v & E1)|[E1 _]]]]; try discriminate; rewrite E1 in *; cbn [bind]; try exact I.
        destruct P4 as [E4|[(u & E4)|[E4 _]]]; try discriminate; rewrite E4 in *; cbn [bind]; [apply le_wrong; reflexivity|].
        destruct P3 as [E3|[(v' & E3)|[E3 _]]]; try discriminate; rewrite E3 in *; cbn [bind].
        - unfold short at 2. destruct (truth u) as [b|] eqn:TU; [|apply le_wrong; reflexivity]. destruct (Bool.eqb b go) eqn:BG0; [cbv beta; rewrite E3; apply le_wrong; reflexivity|].
          unfold short. destruct (truth v) as [c|] eqn:TV; [|exact I]. destruct (Bool.eqb c go) eqn:CG; cbv beta.
          + destruct P2 as [E2|[E2|[(u' & E2)|[E2 _]]]]; try discriminate; rewrite E2 in *; cbn [bind]; try exact I.
            destruct Q2 as [Q2 _]. injection Q2 as <-. unfold boolean. rewrite TU. apply le_fine, H.
          + assert (v = u) as ->.
            { destruct v as [[| |]| | | | | |]; try discriminate. destruct u as [[| |]| | | | | |]; try discriminate. cbn in TU, TV. injection TU as <-. injection TV as <-. destruct b0, b1, go; try discriminate; reflexivity. }
            apply le_fine, H.
        - destruct Q1 as [Q1 _]. injection Q1 as <-. unfold short at 1. destruct (truth v) as [c|] eqn:TV; [|exact I].
          unfold short. destruct (truth u) as [b|] eqn:TU; [|apply le_wrong; reflexivity].
          destruct (Bool.eqb c go) eqn:CG; cbv beta.
          + destruct P2 as [E2|[E2|[(u' & E2)|[E2 _]]]]; try discriminate; rewrite E2 in *; cbn [bind]; try exact I.
            destruct Q2 as [Q2 _]. injection Q2 as <-. unfold boolean. rewrite TU. destruct (Bool.eqb b go) eqn:BG0; [|apply le_fine, H]. cbv beta. rewrite E3. cbn [bind]. rewrite TV.
            assert (v = u') as ->; [|apply le_fine, H].
            destruct v as [[| |]| | | | | |]; try discriminate. destruct u' as [[| |]| | | | | |]; try discriminate. cbn in TU, TV. injection TU as <-. injection TV as <-. destruct b0, b1, go; try discriminate; reflexivity.
          + unfold boolean. destruct (Bool.eqb b go) eqn:BG0; [cbv beta; rewrite E3; cbn [bind]; rewrite TV; apply le_fine, H|].
            assert (v = u) as ->; [|apply le_fine, H].
            destruct v as [[| |]| | | | | |]; try discriminate. destruct u as [[| |]| | | | | |]; try discriminate. cbn in TU, TV. injection TU as <-. injection TV as <-. destruct b0, b1, go; try discriminate; reflexivity. }
      destruct X; try (apply (ST _ _ true); [constructor|split; discriminate|exact Y]); apply LG; apply Y.
    - assert (WR : forall v s s' t, SR eq s s' -> L (write l' v s t) (write l v s' t)).
      { intros v s0 s0' t0 H0. unfold write. destruct (place l') as [[x fs]|] eqn:P; [|exact I]. rewrite (reordered_place _ _ _ _ _ (Nat.le_refl _) A P).
        destruct fs as [|f fs]; [apply le_fine, (SR_set eq eq_fun eq_inj); auto|]. rewrite <- (H0 x x eq_refl). destruct (s0 x) as [old|]; [|exact I].
        destruct (put (f :: fs) v old); [apply le_fine, (SR_set eq eq_fun eq_inj); auto|exact I]. }
      cbn [eval]. destruct op as [op|].
      + apply le_bind; [apply G; [exact B|apply PS; cbn; auto|exact H]|]. intros v s1 s1' t1 H1.
        apply le_bind; [apply G; [exact A|apply PS; cbn; auto|exact H1]|]. intros u s2 s2' t2 H2.
        apply le_bind; [apply le_operate, H2|]. intros. apply WR. assumption.
      + apply le_bind; [apply G; [exact B|apply PS; cbn; auto|exact H]|]. intros. apply WR. assumption.
    - cbn [eval]. pose proof (BG _ _ (BF _ _ A) PS s s' t H) as LB.
      destruct (block (eval w n) n (ss', tl') s t) as [o s1 t1| |]; try exact I.
      destruct (block (eval w (n + k)) (n + k) (ss, tl) s' t) as [o' s1' t1'| |]; cbn in LB; [|apply le_wrong; reflexivity|contradiction].
      destruct LB as (<- & <- & H1). destruct o as [|[z|]| | |]; try (apply le_fine, H1). destruct (lab_eqb lab (Some z)); apply le_fine, H1.
    - cbn [eval]. apply le_bind; [apply G; [exact A|apply PS; cbn; auto|exact H]|].
      intros v s1 s1' t1 H1. destruct (truth v) as [[|]|]; [apply G; [exact B|apply PS; cbn; auto|exact H1]| |exact I].
      destruct D as [|x y D]; [apply le_fine, H1|]. apply G; [exact D|apply PS; cbn; auto|exact H1].
    - cbn [eval]. apply le_bind; [apply G; [exact A|apply PS; cbn; auto|exact H]|].
      intros v s1 s1' t1 H1. destruct (matches p v) as [b|]; apply le_fine; [|exact H1]. apply (SR_bind eq eq_fun eq_inj); [exact H1|]. apply Forall2_refl. intros [? ?]. auto.
    - cbn [eval]. apply le_bind; [apply G; [exact A|apply PS; cbn; auto|exact H]|].
      intros v s1 s1' t1 H1. apply (le_arms true eq eq_fun eq_inj _ _ (fun c c' => reordered calm c' c) eq (fun c => size c <= k)); auto.
      + apply (arms_flip (reordered calm) _ eq); [intros; congruence|exact F|]. intros a b _ X. exact X.
      + intros c J. apply PS. cbn. auto.
    - cbn [eval]. pose proof (BG _ _ (BF _ _ A) PS s s' t H) as LB.
      assert (S1 : reordered calm (ELoop lab src ss tl) (ELoop lab src ss' tl')) by (constructor; exact A).
      destruct (block (eval w n) n (ss', tl') s t) as [o s1 t1| |]; try exact I.
      destruct (block (eval w (n + k)) (n + k) (ss, tl) s' t) as [o' s1' t1'| |]; cbn in LB; [|apply le_wrong; reflexivity|contradiction].
      destruct LB as (<- & <- & H1). destruct o as [|z ?|z| |].
      + apply G; [exact S1|exact Z|exact H1].
      + destruct (for_loop lab z); apply le_fine, H1.
      + destruct (for_loop lab z); [apply G; [exact S1|exact Z|exact H1]|apply le_fine, H1].
      + apply le_fine, H1.
      + apply le_fine, H1.
    - cbn [eval]. apply le_opt; [|intros v s1 s1' t1 H1; destruct x; apply le_fine, H1|exact H].
      destruct A as [|y y' A]; constructor. apply G; [exact A|apply PS; cbn; auto].
  Qed.
End RunReordered.
