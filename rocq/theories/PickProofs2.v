(** single_match and needless_match: proofs. *)
From Verif Require Export PickProofs.

(** ** Spec *)
(** `==` with the constant tells whether the pattern is for the value: PartialEq is derived. *)
Definition derived_eq (w : world) (fuel : nat) (e : expr) : Prop :=
  forall r p a q b, e = EMatch false r [(p, None, a); (q, None, b)] -> forall k, const_of p = Some k ->
  forall s u s1 v s2, eval w fuel r s = (OVal u, s1) -> eval w fuel k s1 = (OVal v, s2) ->
  value_eq w u v = match match_pat p u with Some _ => true | None => false end.
(** Patterns bind no variable twice. *)
Definition linear (e : expr) : Prop :=
  match e with
  | EIfLet p _ _ _ => once p
  | EMatch _ _ arms => Forall (fun a : arm => match a with (p, _, _) => once p end) arms
  | _ => True
  end.
(** Constructors have the number of fields they have. *)
Fixpoint sized (ar : nat -> nat) (v : val) : bool :=
  match v with
  | VData (KCtor c) vs => Nat.eqb (length vs) (ar c) && forallb (sized ar) vs
  | VData _ vs => forallb (sized ar) vs
  | _ => true
  end.
Fixpoint sized_expr (ar : nat -> nat) (e : expr) : bool :=
  match e with
  | EData (KCtor c) es => Nat.eqb (length es) (ar c) && forallb (sized_expr ar) es
  | _ => true
  end.
Definition bodies (e : expr) : list expr :=
  match e with
  | EIfLet _ _ a b => a :: match b with Some b => [b] | None => [] end
  | EMatch _ _ arms => map snd arms
  | _ => []
  end.
Definition arity_respected (w : world) (fuel : nat) (ar : nat -> nat) (e : expr) : Prop :=
  Forall (fun b => sized_expr ar (peel_stmt b) = true) (bodies e) /\
  forall r, scrutinee e = Some r -> forall s v s', eval w fuel r s = (OVal v, s') -> sized ar v = true.
(** The whole has the type of its scrutinee: it is unit only if the scrutinee is. *)
Definition same_type (w : world) (fuel : nat) (e : expr) : Prop :=
  forall r, scrutinee e = Some r -> forall s v s1 s2,
  eval w fuel r s = (OVal v, s1) -> eval w fuel e s = (OVal unit_v, s2) -> v = unit_v.

Section Pick2.
  Variable w : world.
  Variable fuel : nat.
  Notation st := (state w).
  Notation ev := (eval w fuel).
  Notation sc := (scoped w fuel).

  (** ** single_match *)
  Lemma unit_peel : forall b s, is_unit (peel_blocks b) = true -> ev b s = (OVal unit_v, s).
  Proof. intros b s H. apply peel_at; [|discriminate]. apply unit_eval; auto. Qed.
  Lemma single_else_eval : forall b els s, single_else b = Some els -> eopt w fuel (option_map in_braces els) s = ev b s.
  Proof.
    intros b els s H. unfold single_else in H. destruct (is_unit (peel_blocks b)) eqn:U.
    - inversion H; subst. rewrite (unit_peel _ _ U). reflexivity.
    - assert (E : els = Some b).
      { destruct b as [| | | | | | | | | | | | | |l [|x [|y ss]] [t|]| | | | | |]; try discriminate; inversion H; auto. }
      subst els. cbn. apply in_braces_eval.
  Qed.
  Theorem single_match_sound : forall eq e e', single_match eq e = Some e' -> handled w fuel e -> (eq = true -> derived_eq w fuel e) ->
    forall s, ev e' s = ev e s.
  Proof.
    intros eq e e' H HA D s. unfold single_match in H.
    destruct e as [| | | | | | | | | | | | |[] r [|[[p [g|]] a] [|[[q [h|]] b] [|]]]| | | | | | |]; try discriminate.
    destruct (pat_vars q) eqn:V; [|discriminate]. destruct (single_else b) as [els|] eqn:EL; [|discriminate].
    assert (HA' := HA _ _ _ eq_refl). clear HA.
    assert (M : forall v s0 s1, ev r s0 = (OVal v, s1) -> earms w fuel v [(p, None, a); (q, None, b)] s1 =
      match match_pat p v with Some bs => sc bs a s1 | None => ev b s1 end).
    { intros v s0 s1 E. rewrite earms_cons. cbn [armrun]. destruct (match_pat p v) as [bs|] eqn:MP; [reflexivity|].
      destruct (HA' _ _ _ E) as (p0 & b0 & [I|[I|[]]] & N); inversion I; subst; [congruence|].
      rewrite earms_cons. destruct (match_pat p0 v) as [bs|] eqn:MQ; [|congruence]. rewrite (no_vars _ _ _ V MQ). apply armrun_nil. }
    assert (IL : ev (EIfLet p r (in_braces a) (option_map in_braces els)) s = ev (EMatch false r [(p, None, a); (q, None, b)]) s).
    { rewrite eval_iflet, eval_match. apply andthen_ext. intros v s1 E. rewrite (M _ _ _ E).
      destruct (match_pat p v) as [bs|]; [|apply single_else_eval; auto]. unfold scoped. rewrite in_braces_eval. reflexivity. }
    destruct (const_of p) as [k|] eqn:K; [|inversion H; subst; exact IL].
    assert (KV : exists kv, (forall s, ev k s = (OVal kv, s)) /\ forall v bs, match_pat p v = Some bs -> bs = []).
    { destruct p as [| |[| |c] [|] [|]| | | | |]; try discriminate; inversion K; subst; eexists; (split; [reflexivity|]); intros v bs B;
        refine (no_vars _ _ _ _ B); reflexivity. }
    destruct KV as (kv & KV & NB).
    destruct (same_expr k r) eqn:S.
    - assert (R : ev r s = (OVal kv, s) /\ match_pat p kv = Some []).
      { destruct p as [| |[| |c] [|] [|]| | | | |]; try discriminate; inversion K; subst;
          destruct r as [| | |[] [|]| | | | | | | | | | | | | | | | |]; try discriminate; cbn in S; try (rewrite andb_false_r in S; discriminate).
        - rewrite andb_true_r in S; apply Nat.eqb_eq in S; subst. specialize (KV s). cbn in KV. inversion KV. split; auto.
          cbn. rewrite Nat.eqb_refl. reflexivity.
        - apply Z.eqb_eq in S. subst. specialize (KV s). cbn in KV. inversion KV. split; auto. cbn. rewrite Z.eqb_refl. reflexivity. }
      destruct R as [R P]. assert (E : ev (EMatch false r [(p, None, a); (q, None, b)]) s = ev a s).
      { rewrite eval_match, R. cbn [andthen]. rewrite (M _ _ _ R), P. apply scoped_nil. }
      rewrite E. apply f_equal with (f := fun o => match o with Some y => y | None => a end) in H; cbv beta iota in H. subst e'.
      destruct (is_unit a) eqn:U; [|reflexivity]. rewrite (unit_eval w fuel _ s U). apply (unit_eval w fuel (EBlock None [] None)). reflexivity.
    - destruct eq; [|inversion H; subst; exact IL]. inversion H; subst e'; clear H.
      specialize (D eq_refl _ _ _ _ _ eq_refl _ K).
      assert (EQ : forall a b s, ev (EEq false a b) s = andthen w (ev a s) (fun u s => andthen w (ev b s) (fun v s => (OVal (VBool (value_eq w u v)), s)))).
      { intros x y s0. cbn [eval]. apply andthen_ext. intros u s1 _. apply andthen_ext. intros v s2 _. destruct (value_eq w u v); reflexivity. }
      rewrite eval_if, EQ, andthen_assoc, eval_match. apply andthen_ext. intros v s1 E. rewrite (M _ _ _ E), (KV s1).
      cbn [andthen]. rewrite (D _ _ _ _ _ E (KV s1)). destruct (match_pat p v) as [bs|] eqn:MP.
      + rewrite (NB _ _ MP), in_braces_eval. symmetry. apply scoped_nil.
      + apply single_else_eval; auto.
  Qed.

  (** ** needless_match *)
  Lemma peel_stmt_val : forall b s v, ev (peel_stmt b) s = (OVal v, s) -> ev b s = (OVal v, s) \/ ev b s = (OVal unit_v, s).
  Proof.
    fix IH 1. intros b s v H.
    assert (BL : forall l a, ev a s = (OVal v, s) \/ ev a s = (OVal unit_v, s) ->
      (ev (EBlock l [] (Some a)) s = (OVal v, s) \/ ev (EBlock l [] (Some a)) s = (OVal unit_v, s)) /\
      ev (EBlock l [SExpr a] None) s = (OVal unit_v, s) /\ ev (EBlock l [SSemi a] None) s = (OVal unit_v, s)).
    { intros l a A. rewrite !eval_block. cbn [estmts eopt]. destruct A as [A|A]; rewrite A; cbn; rewrite leave_self; auto. }
    destruct b as [| | | | | | | | | | | | | |l ss t| | | | | |]; try (left; exact H).
    destruct ss as [|[p i els|a|a] [|]]; destruct t as [t|]; cbn [peel_stmt] in H; try (left; exact H).
    - apply BL. apply IH. exact H.
    - right. apply BL. apply IH. exact H.
    - right. apply BL. apply IH. exact H.
  Qed.
  Lemma scoped_stmt_val : forall bs b v s, ev (peel_stmt b) (enter bs s) = (OVal v, enter bs s) ->
    sc bs b s = (OVal v, s) \/ sc bs b s = (OVal unit_v, s).
  Proof.
    intros bs b v s H. unfold scoped. destruct (peel_stmt_val _ _ _ H) as [E|E]; rewrite E, leave_enter; auto.
  Qed.

  Hypothesis RB : reborrows w.
  Fixpoint same_exprs (xs ys : list expr) {struct xs} : bool :=
    match xs, ys with
    | [], [] => true
    | x :: xs, y :: ys => same_expr x y && same_exprs xs ys
    | _, _ => false
    end.
  Lemma same_exprs_eval : forall xs, Forall (fun a => forall b, same_expr a b = true -> forall s, ev a s = ev b s) xs ->
    forall ys, same_exprs xs ys = true -> forall s k, evals w fuel xs s k = evals w fuel ys s k.
  Proof.
    induction 1 as [|x xs X _ IH]; intros [|y ys] S s k; try discriminate; auto. cbn in S. apply andb_true_iff in S. destruct S as [S1 S2].
    cbn [evals]. rewrite (X _ S1). apply andthen_ext. intros v s1 _. apply IH; auto.
  Qed.
  Lemma same_expr_eval : forall a b, same_expr a b = true -> forall s, ev a s = ev b s.
  Proof.
    induction a using expr_ind'; intros b' S s0; try (destruct b'; discriminate).
    - destruct b' as [y adj'| | | | | | | | | | | | | | | | | | | |]; try discriminate. cbn [same_expr] in S. apply Nat.eqb_eq in S. subst.
      cbn [eval]. destruct (lookup y (fst s0)); [|reflexivity]. rewrite RB. destruct a, adj'; reflexivity.
    - destruct b'; try discriminate. cbn in S. apply Z.eqb_eq in S. subst. reflexivity.
    - destruct b'; try discriminate. cbn in S. apply Bool.eqb_prop in S. subst. reflexivity.
    - destruct b' as [| | |l ys| | | | | | | | | | | | | | | | |]; try discriminate. change (kind_eqb k l && same_exprs es ys = true) in S.
      apply andb_true_iff in S. destruct S as [S1 S2]. apply kind_eqb_spec in S1. subst. rewrite !eval_data. apply same_exprs_eval; auto.
    - destruct b' as [| | | | |g ys| | | | | | | | | | | | | | |]; try discriminate. change (Nat.eqb f g && same_exprs es ys = true) in S.
      apply andb_true_iff in S. destruct S as [S1 S2]. apply Nat.eqb_eq in S1. subst. rewrite !eval_call. apply same_exprs_eval; auto.
    - destruct b'; try discriminate. cbn [same_expr] in S. rewrite !not_eval, (IHa _ S). reflexivity.
    - destruct b' as [| | | | | | | |m y1 y2| | | | | | | | | | | |]; try discriminate. cbn [same_expr] in S.
      apply andb_true_iff in S. destruct S as [S S2]. apply andb_true_iff in S. destruct S as [S0 S1]. apply Bool.eqb_prop in S0. subst.
      cbn [eval]. rewrite (IHa1 _ S1). apply andthen_ext. intros u s1 _. rewrite (IHa2 _ S2). reflexivity.
    - destruct b' as [| | | | | | | | |y1 y2| | | | | | | | | | |]; try discriminate. cbn [same_expr] in S.
      apply andb_true_iff in S. destruct S as [S1 S2]. cbn [eval]. rewrite (IHa1 _ S1). apply andthen_ext. intros u s1 _. rewrite (IHa2 _ S2). reflexivity.
    - destruct l; [destruct b'; discriminate|]. destruct ss; [|destruct b'; discriminate]. destruct t as [t|].
      + destruct b' as [| | | | | | | | | | | | | |[] [|] [y|]| | | | | |]; try discriminate. rewrite !eval_block. cbn [estmts eopt].
        cbn in H0. cbn [same_expr] in S. rewrite (H0 _ S). reflexivity.
      + destruct b' as [| | | | | | | | | | | | | |[] [|] [y|]| | | | | |]; try discriminate. reflexivity.
  Qed.
  Lemma pure_eval : forall e, no_effects e = true -> forall s, (exists v, ev e s = (OVal v, s)) \/ ev e s = (OStuck, s).
  Proof.
    induction e using expr_ind'; intros N s; try discriminate.
    - cbn. destruct (lookup x (fst s)); eauto.
    - left. eexists. reflexivity.
    - left. eexists. reflexivity.
    - rewrite eval_data. cbn [no_effects] in N.
      assert (G : forall k0 : list val -> st -> out * st, (forall vs, (exists v, k0 vs s = (OVal v, s)) \/ k0 vs s = (OStuck, s)) ->
        (exists v, evals w fuel es s k0 = (OVal v, s)) \/ evals w fuel es s k0 = (OStuck, s)).
      { induction H as [|e es E _ IH]; intros k0 K; [apply (K [])|]. cbn in N. apply andb_true_iff in N. destruct N as [N1 N2].
        cbn [evals]. destruct (E N1 s) as [[v V]|V]; rewrite V; cbn [andthen]; [|auto]. apply IH; auto. }
      apply G. intros vs. left. eexists. reflexivity.
    - rewrite not_eval. cbn in N. destruct (IHe N s) as [[v V]|V]; rewrite V; cbn [andthen]; [|auto]. destruct v; eauto.
    - cbn in N. apply andb_true_iff in N. destruct N as [N1 N2]. cbn [eval]. destruct (IHe1 N1 s) as [[v V]|V]; rewrite V; cbn [andthen]; [|auto].
      destruct (IHe2 N2 s) as [[v2 V2]|V2]; rewrite V2; cbn [andthen]; eauto.
    - cbn in N. apply andb_true_iff in N. destruct N as [N1 N2]. cbn [eval]. destruct (IHe1 N1 s) as [[v V]|V]; rewrite V; cbn [andthen]; [|auto].
      destruct v as [|[]| | |]; eauto.
  Qed.
  Lemma same_value_eval : forall r b s v, same_value r b = true -> forall s1, ev r s = (OVal v, s1) -> s1 = s /\ ev b s = (OVal v, s).
  Proof.
    intros r b s v H s1 R. unfold same_value in H. apply andb_true_iff in H. destruct H as [S N].
    rewrite <- (same_expr_eval _ _ S s). destruct (pure_eval _ N s) as [[u U]|U]; rewrite U in R; inversion R; subst; auto.
  Qed.

  (** An expression with the form of the pattern has the value the pattern is for. *)
  Fixpoint pats_same (ps : list pat) (es : list expr) {struct ps} : bool :=
    match ps, es with
    | [], [] => true
    | p :: ps, e :: es => pat_same p e && pats_same ps es
    | _, _ => false
    end.
  Lemma match_dots : forall k ps n k' vs, match_pat (PData k ps (Some n)) (VData k' vs) =
    if kind_eqb k k' && (length ps <=? length vs) then match_all ps (firstn n vs ++ skipn (length vs - (length ps - n)) vs) else None.
  Proof. reflexivity. Qed.
  Lemma pats_len : forall ps es, pats_same ps es = true -> length ps = length es.
  Proof. induction ps; intros [|e es] H; try discriminate; auto. cbn in *. apply andb_true_iff in H. destruct H. f_equal. auto. Qed.
  Lemma match_all_len : forall ps vs bs, match_all ps vs = Some bs -> length ps = length vs.
  Proof.
    induction ps; intros [|v vs] bs H; try discriminate; auto. cbn in *. destruct (match_pat a v); [|discriminate].
    destruct (match_all ps vs) eqn:M; [|discriminate]. f_equal. eauto.
  Qed.
  Lemma pats_evals : forall ar ps, Forall (fun p => forall e v bs s, pat_same p e = true -> match_pat p v = Some bs -> sized ar v = true ->
    sized_expr ar e = true -> visible w bs s -> ev e s = (OVal v, s)) ps ->
    forall es vs bs s, pats_same ps es = true -> match_all ps vs = Some bs -> forallb (sized ar) vs = true -> forallb (sized_expr ar) es = true ->
    visible w bs s -> forall k, evals w fuel es s k = k vs s.
  Proof.
    intros ar. induction 1 as [|p ps A _ IH]; intros [|e es] [|v vs] bs s O M SV SE V k; cbn in *; try discriminate; auto.
    apply andb_true_iff in O. destruct O as [O1 O2]. apply andb_true_iff in SV. destruct SV as [SV1 SV2].
    apply andb_true_iff in SE. destruct SE as [SE1 SE2].
    destruct (match_pat p v) as [b1|] eqn:M1; [|discriminate]. destruct (match_all ps vs) as [b2|] eqn:M2; [|discriminate].
    inversion M; subst. apply visible_app in V. destruct V. rewrite (A _ _ _ _ O1 M1) by auto. cbn.
    erewrite IH by eauto. reflexivity.
  Qed.
  Lemma pat_same_eval : forall ar p e v bs s, pat_same p e = true -> match_pat p v = Some bs -> sized ar v = true ->
    sized_expr ar e = true -> visible w bs s -> ev e s = (OVal v, s).
  Proof.
    intros ar. induction p using pat_ind'; intros e v bs s I M SV SE V; try (destruct e; discriminate).
    - destruct e as [y adj| | | | | | | | | | | | | | | | | | | |]; try discriminate. cbn in I. apply andb_true_iff in I. destruct I as [R X].
      apply Nat.eqb_eq in X. subst. apply negb_true_iff in R. subst.
      cbn in M. inversion M; subst. cbn. rewrite (V y v) by (left; auto). rewrite RB. destruct adj; reflexivity.
    - destruct e as [y adj| | | | | | | | | | | | | | | | | | | |]; try discriminate. cbn in I. apply andb_true_iff in I. destruct I as [R X].
      apply Nat.eqb_eq in X. subst. apply negb_true_iff in R. subst.
      cbn in M. destruct (match_pat p v); inversion M; subst. cbn. rewrite (V y v) by (left; auto). rewrite RB. destruct adj; reflexivity.
    - destruct k as [| |c]; try (destruct e; discriminate). destruct e as [| | |[| |c'] es| | | | | | | | | | | | | | | | |]; try discriminate.
      change (Nat.eqb c c' && pats_same ps es = true) in I. apply andb_true_iff in I. destruct I as [I1 I2]. apply Nat.eqb_eq in I1. subst c'.
      destruct v as [| |k' vs| |]; try (destruct d; discriminate).
      assert (MA : k' = KCtor c /\ match_all ps vs = Some bs).
      { destruct d as [n|].
        - rewrite match_dots in M. destruct (kind_eqb (KCtor c) k') eqn:KE; [|discriminate]. apply kind_eqb_spec in KE. subst k'. split; auto.
          cbn [andb] in M. cbn in SV. apply andb_true_iff in SV. destruct SV as [SV _]. apply Nat.eqb_eq in SV.
          cbn in SE. apply andb_true_iff in SE. destruct SE as [SE _]. apply Nat.eqb_eq in SE. apply pats_len in I2.
          destruct (length ps <=? length vs); [|discriminate].
          destruct (Nat.le_gt_cases n (length ps)).
          + replace (length vs - (length ps - n)) with n in M by lia. rewrite firstn_skipn in M. exact M.
          + assert (L := match_all_len _ _ _ M). rewrite app_length, firstn_length, skipn_length in L.
            rewrite firstn_all2 in M by lia. replace (length vs - (length ps - n)) with (length vs) in M by lia. rewrite skipn_all, app_nil_r in M. exact M.
        - rewrite match_data in M. destruct (kind_eqb (KCtor c) k') eqn:KE; [|discriminate]. apply kind_eqb_spec in KE. subst k'. auto. }
      destruct MA as [-> MA]. cbn in SV. apply andb_true_iff in SV. destruct SV as [_ SV]. cbn in SE. apply andb_true_iff in SE. destruct SE as [_ SE].
      rewrite eval_data. erewrite (pats_evals ar ps); eauto.
    - destruct e; try discriminate. cbn in I. apply andb_true_iff in I. destruct I as [_ I]. apply Z.eqb_eq in I. subst.
      destruct v; try discriminate. cbn in M. destruct (Z.eqb_spec z0 z); [|discriminate]. subst. reflexivity.
    - destruct e; try discriminate. cbn in I. apply Bool.eqb_prop in I. subst.
      destruct v; try discriminate. cbn in M. destruct (Bool.eqb b0 b) eqn:E; [|discriminate]. apply Bool.eqb_prop in E. subst. reflexivity.
  Qed.
End Pick2.
Section Pick3.
  Variable w : world.
  Variable fuel : nat.
  Notation st := (state w).
  Notation ev := (eval w fuel).
  Notation sc := (scoped w fuel).
  Hypothesis RB : reborrows w.

  (** One arm yields the value of the scrutinee, or unit. *)
  Lemma same_arm_body : forall ar p b v bs s, once p -> pat_same p (peel_stmt b) = true -> match_pat p v = Some bs -> sized ar v = true ->
    sized_expr ar (peel_stmt b) = true -> sc bs b s = (OVal v, s) \/ sc bs b s = (OVal unit_v, s).
  Proof.
    intros ar p b v bs s O P M SV SE. apply scoped_stmt_val. eapply pat_same_eval; eauto. apply visible_enter. eapply O; eauto.
  Qed.
  Lemma needless_arms : forall ar r v arms, Forall (fun a : arm => match a with (p, _, _) => once p end) arms ->
    Forall (fun a : arm => sized_expr ar (peel_stmt (snd a)) = true) arms -> sized ar v = true ->
    forallb (same_arm r) arms = true -> forall s0 s, ev r s0 = (OVal v, s) -> fst (earms w fuel v arms s) <> OStuck ->
    earms w fuel v arms s = (OVal v, s) \/ earms w fuel v arms s = (OVal unit_v, s).
  Proof.
    intros ar r v arms O SE SV H s0 s R. revert SE H. induction O as [|[[p g] b] arms P O IH]; intros SE H NS.
    { destruct NS. reflexivity. }
    inversion SE as [|? ? SE1 SE2]; subst. cbn [forallb] in H. apply andb_true_iff in H. destruct H as [H1 H2].
    cbn [same_arm] in H1. apply andb_true_iff in H1. destruct H1 as [G B].
    rewrite earms_cons in *. destruct (match_pat p v) as [bs|] eqn:M; [|apply IH; auto].
    assert (BODY : sc bs b s = (OVal v, s) \/ sc bs b s = (OVal unit_v, s)).
    { destruct (is_wild p) eqn:W.
      - destruct p; try discriminate. inversion M; subst bs. rewrite scoped_nil. apply peel_stmt_val.
        destruct (same_value_eval w fuel RB _ _ _ _ B _ R) as [-> E]. exact E.
      - apply (same_arm_body ar p b v bs s P); auto. destruct p; try discriminate; exact B. }
    destruct g as [g|]; cbn [armrun] in *; [|exact BODY].
    destruct (pure_eval w fuel g G (enter bs s)) as [[u U]|U]; rewrite U in *; [|destruct NS; reflexivity].
    destruct u as [|[]| | |]; try (destruct NS; reflexivity).
    - unfold scoped in BODY. exact BODY.
    - rewrite leave_enter in *. apply IH; auto.
  Qed.
  Theorem needless_match_sound : forall e e' ar, needless_match e = Some e' -> linear e -> arity_respected w fuel ar e -> same_type w fuel e ->
    forall s, fst (ev e s) <> OStuck -> ev e' s = ev e s.
  Proof.
    intros e e' ar H L [A1 A2] T s NS. destruct e as [| | | | | | | | | | | | |[] r arms| | | | | | |]; try discriminate. cbn [needless_match] in H.
    destruct ((1 <? length arms) && forallb (same_arm r) arms) eqn:C; inversion H; subst e'; clear H. apply andb_true_iff in C. destruct C as [_ C].
    specialize (T r eq_refl s). rewrite eval_match in *. specialize (A2 r eq_refl s).
    cbn [bodies] in A1.
    destruct (ev r s) as [o s1] eqn:R. destruct o as [v| | | | |]; try reflexivity. cbn [andthen] in *.
    destruct (needless_arms ar r v arms L) with (s0 := s) (s := s1) as [E|E]; auto.
    - apply Forall_forall. intros a I. rewrite Forall_forall in A1. apply A1. apply in_map. exact I.
    - eapply A2. reflexivity.
    - rewrite E in *. rewrite (T v s1 s1); auto.
  Qed.

  (** if let *)
  Fixpoint chain (e : expr) : list pat := match e with EIfLet p _ _ (Some b) => p :: chain b | _ => [] end.
  Fixpoint chain_bodies (e : expr) : list expr := match e with EIfLet _ _ a (Some b) => a :: chain_bodies b | _ => [] end.
  Fixpoint ends (e : expr) : expr := match e with EIfLet _ _ _ (Some b) => ends b | e => e end.
  (** Where the last `else` is None, only None gets past the patterns. *)
  Definition past (e : expr) : Prop :=
    is_none_expr (peel_stmt (ends e)) = true -> forall r, scrutinee e = Some r -> forall s v s', ev r s = (OVal v, s') -> Forall (fun p => match_pat p v = None) (chain e) -> v = none_v.
  (** An `else if let` looks at the scrutinee a second time. *)
  Definition looks_once (e : expr) : Prop :=
    match e with EIfLet _ r _ (Some (EIfLet _ _ _ _)) => no_effects r = true | _ => True end.
  Lemma same_chain : forall opt ar r v, sized ar v = true -> forall e, Forall once (chain e) ->
    Forall (fun a => sized_expr ar (peel_stmt a) = true) (chain_bodies e) -> same_if_let opt r e = true ->
    (is_none_expr (peel_stmt (ends e)) = true -> Forall (fun p => match_pat p v = None) (chain e) -> v = none_v) ->
    forall s s1, ev r s = (OVal v, s1) -> match e with EIfLet _ _ _ (Some (EIfLet _ _ _ _)) => no_effects r = true | _ => True end ->
    ev e s = (OVal v, s1) \/ ev e s = (OVal unit_v, s1).
  Proof.
    intros opt ar r v SV. induction e using expr_ind'; intros O SE H' PA s s1 R LO; try discriminate.
    destruct b as [b|]; [|discriminate]. cbn in H. rename H into IH, H' into H, e1 into r', e2 into a. cbn [same_if_let] in H.
    apply andb_true_iff in H. destruct H as [H HB]. apply andb_true_iff in H. destruct H as [HR HA].
    rewrite eval_iflet. rewrite (same_expr_eval w fuel RB _ _ HR s), R. cbn [andthen eopt].
    cbn [chain] in O, PA. cbn [ends] in PA. cbn [chain_bodies] in SE. inversion O as [|? ? O1 O2]; subst. inversion SE as [|? ? SE1 SE2]; subst.
    destruct (match_pat p v) as [bs|] eqn:M.
    { pose proof (same_arm_body ar p a v bs s1 O1 HA M SV SE1) as B. exact B. }
    assert (LAST : match b with EBlock _ _ _ => match peel_stmt b with EBlock _ _ _ => false | x => opt && is_none_expr x || same_value r x end | _ => false end = true ->
      ev b s1 = (OVal v, s1) \/ ev b s1 = (OVal unit_v, s1)).
    { intros HB'. assert (X : opt && is_none_expr (peel_stmt b) || same_value r (peel_stmt b) = true).
      { destruct b; try discriminate. destruct (peel_stmt (EBlock label ss tail)); try discriminate; exact HB'. }
      assert (CH : chain b = []) by (destruct b; try discriminate; reflexivity).
      apply peel_stmt_val. apply orb_true_iff in X. destruct X as [X|X].
      - apply andb_true_iff in X. destruct X as [_ X]. assert (EN : ends b = b) by (destruct b; try discriminate; reflexivity). rewrite EN in PA. rewrite (PA X ltac:(rewrite CH; auto)). rewrite (is_none_expr_spec _ X). reflexivity.
      - destruct (same_value_eval w fuel RB _ _ _ _ X _ R) as [-> E]. exact E. }
    destruct b as [| | | | | | | | | | | |p2 r2 a2 b2| |l ss t| | | | | |]; try discriminate.
    - assert (s1 = s) as ->.
      { destruct (pure_eval w fuel r LO s) as [[u U]|U]; rewrite U in R; inversion R; subst; auto. }
      apply IH; auto. destruct b2 as [[]|]; auto.
    - apply LAST. exact HB.
  Qed.
  Theorem needless_if_let_sound : forall opt e e' ar, needless_if_let opt e = Some e' -> Forall once (chain e) ->
    Forall (fun a => sized_expr ar (peel_stmt a) = true) (chain_bodies e) ->
    (forall r, scrutinee e = Some r -> forall s v s', ev r s = (OVal v, s') -> sized ar v = true) ->
    same_type w fuel e -> past e -> looks_once e -> forall s, ev e' s = ev e s.
  Proof.
    intros opt e e' ar H O SE SV T PA LO s. destruct e as [| | | | | | | | | | | |p r a b| | | | | | | |]; try discriminate. cbn [needless_if_let] in H.
    destruct (same_if_let opt r (EIfLet p r a b)) eqn:S; inversion H; subst e'; clear H.
    specialize (T r eq_refl s). assert (PA' := fun N => PA N r eq_refl s). clear PA. specialize (SV r eq_refl s).
    destruct (ev r s) as [o s1] eqn:R. destruct o as [v| | | | |]; try (rewrite eval_iflet, R; reflexivity).
    destruct (same_chain opt ar r v (SV _ _ eq_refl) _ O SE S (fun N => PA' N _ _ eq_refl) s s1 R) as [E|E]; auto.
    rewrite E in *. rewrite (T v s1 s1); auto.
  Qed.
End Pick3.
