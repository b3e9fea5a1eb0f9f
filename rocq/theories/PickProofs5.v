(** collapsible_match: proofs. *)
From Verif Require Export PickProofs4.

(** ** Spec: a value the arm is for would next meet an arm that does what the `else` does, and whose variables that does not
    mention. *)
Definition unmentioned (p : pat) (e : expr) : Prop := forall y, In y (pat_vars p) -> local_used y e = false.
Definition next_does (els : expr) (post : list arm) (v : val) : Prop :=
  exists post1 q post2, post = post1 ++ (q, None, els) :: post2 /\ Forall (fun a : arm => match a with (p, _, _) => match_pat p v = None end) post1 /\
  match_pat q v <> None /\ unmentioned q els.
(** The `if` or `if let` is all of the arm, in braces or not. *)
Definition whole (b i : expr) : Prop := braced b i.

Section Pick6.
  Variable w : world.
  Variable fuel : nat.
  Notation st := (state w).
  Notation ev := (eval w fuel).
  Notation sc := (scoped w fuel).
  Notation run := (armrun w fuel).
  Notation armval := (armval w fuel).
  Hypothesis RB : reborrows w.

  Lemma next_eval : forall els post v, next_does els post v -> forall s, earms w fuel v post s = ev els s.
  Proof.
    intros els post v (post1 & q & post2 & -> & N & M & U) s. induction N as [|[[p g] b] post1 P _ IH]; cbn [app]; rewrite earms_cons.
    - destruct (match_pat q v) as [bs|] eqn:Q; [|congruence]. cbn [armrun]. apply (scoped_unused w fuel (oneof (pat_vars q))).
      + intros y Y. apply oneof_spec. eapply in_keys; eauto. eapply match_keys; eauto.
      + intros y Y. apply oneof_spec in Y. auto.
    - rewrite P. exact IH.
  Qed.
  Lemma same_else_eval : forall els y, same_else (Some els) y = true -> forall s, eopt w fuel y s = ev els s.
  Proof.
    intros els [y|] H s; cbn in *.
    - symmetry. apply same_expr_eval; auto.
    - rewrite (unit_eval w fuel _ s H). reflexivity.
  Qed.
  Lemma keys_split : forall (t : st) (bs r : env), map fst (fst t) = map fst (bs ++ r) -> exists bs' r' : env, fst t = bs' ++ r' /\ map fst bs' = map fst bs /\ length r' = length r.
  Proof.
    intros [te ty] bs r H. cbn [fst] in *. unfold env, binding in *. exists (firstn (length bs) te), (skipn (length bs) te). split; [symmetry; apply firstn_skipn|]. split.
    - rewrite <- firstn_map, H, map_app, firstn_app, map_length, Nat.sub_diag, firstn_O, app_nil_r. rewrite <- (map_length fst bs). apply firstn_all.
    - apply (f_equal (@length nat)) in H. rewrite !map_length, app_length in H. rewrite skipn_length. lia.
  Qed.
  Lemma else_out : forall p v bs els (s t : st), match_pat p v = Some bs -> unmentioned p els -> map fst (fst t) = map fst (fst (enter bs s)) ->
    (let '(o, u) := ev els t in (o, leave (length (fst s)) u)) = ev els (leave (length (fst s)) t).
  Proof.
    intros p v bs els s t M U K. destruct (keys_split _ _ _ K) as (bs' & r' & E & KB & L).
    rewrite <- L. apply (unused w fuel (oneof (pat_vars p)) els bs' t r' E).
    - intros y Y. apply oneof_spec. eapply in_keys; eauto. unfold binding in *. rewrite KB. eapply match_keys; eauto.
    - intros y Y. apply oneof_spec in Y. auto.
  Qed.
  Lemma collapse_arm : forall els p g b a' post, guard_arm els (p, g, b) = Some a' ->
    (forall c x y, peel_stmt b = EIf c x y -> whole b (EIf c x y)) -> unmentioned p els ->
    forall v s, (match_pat p v <> None -> next_does els post v) ->
    armval (p, g, b) v s (earms w fuel v post) = armval a' v s (earms w fuel v post).
  Proof.
    intros els p g b a' post H WH U v s NX. cbn [guard_arm] in H.
    destruct (peel_stmt b) as [| | | | | | | | | | |c x y| | | | | | | | |] eqn:P; try discriminate.
    destruct (same_else (Some els) y) eqn:SE; [|discriminate]. inversion H; subst a'; clear H. cbn [PickProofs3.armval].
    destruct (match_pat p v) as [bs|] eqn:M; [|reflexivity].
    assert (NE := next_eval els post v (NX ltac:(discriminate))). clear NX.
    assert (B : forall t, ev b t = ev (EIf c x y) t) by (intros; apply braced_eval; apply WH; auto).
    (* the `if` against the guard *)
    assert (IFG : forall t, map fst (fst t) = map fst (fst (enter bs s)) ->
      (let '(o, u) := ev b t in (o, leave (length (fst s)) u)) =
      match ev c t with
      | (OVal (VBool true), s') => let '(o, s'') := ev x s' in (o, leave (length (fst s)) s'')
      | (OVal (VBool false), s') => earms w fuel v post (leave (length (fst s)) s')
      | (OVal _, s') => (OStuck, leave (length (fst s)) s')
      | (o, s') => (o, leave (length (fst s)) s')
      end).
    { intros t K. rewrite B, eval_if. pose proof (eval_keys w fuel c t) as KC. destruct (ev c t) as [o t1]. cbn in KC. pose proof (eq_trans KC K) as KC2.
      destruct o as [u| | | | |]; try reflexivity. cbn [andthen]. destruct u as [|[]| | |]; try reflexivity.
      rewrite (same_else_eval _ _ SE), NE. eapply else_out; eauto. }
    destruct g as [g|]; cbn [armrun].
    - rewrite and_eval. pose proof (eval_keys w fuel g (enter bs s)) as KG. destruct (ev g (enter bs s)) as [o t]. cbn [snd] in KG.
      destruct o as [u| | | | |]; cbn [andthen]; try reflexivity. destruct u as [|[]| | |]; try reflexivity. apply IFG. exact KG.
    - unfold scoped. apply IFG. reflexivity.
  Qed.

  (** What is asked of a match whose arms become guards. *)
  Definition collapses (e : expr) : Prop :=
    forall r pre p g b post, e = EMatch false r (pre ++ (p, g, b) :: post) -> forall c x y, peel_stmt b = EIf c x y ->
    whole b (EIf c x y) /\ forall qe ge els, rfind wild_like (pre ++ (p, g, b) :: post) = Some (qe, ge, els) ->
      unmentioned p els /\ forall s v s', ev r s = (OVal v, s') -> match_pat p v <> None -> next_does els post v.
  Theorem collapse_guard_sound : forall e e', In e' (collapse_guard e) -> collapses e -> forall s, ev e' s = ev e s.
  Proof.
    intros e e' H C s. destruct e as [| | | | | | | | | | | | |[] r arms| | | | | | |]; try (destruct H; fail). cbn [collapse_guard] in H.
    destruct (rfind wild_like arms) as [[[qe ge] els]|] eqn:RF; [|destruct H].
    apply in_map_iff in H. destruct H as (l & <- & I). destruct (each_arm_spec _ _ _ I) as (pre & [[p g] b] & a' & post & -> & E & ->).
    destruct (forallb wild_like post) eqn:FW; [|discriminate].
    assert (CC := C r pre p g b post eq_refl). rewrite !eval_match. apply andthen_ext. intros v s1 R. symmetry. apply earms_replace. intros s2.
    destruct (peel_stmt b) as [| | | | | | | | | | |c x y| | | | | | | | |] eqn:P; try (cbn [guard_arm] in E; rewrite P in E; discriminate).
    destruct (CC _ _ _ eq_refl) as [WH N]. destruct (N _ _ _ RF) as [U NX].
    apply (collapse_arm els); auto.
    - intros c0 x0 y0 Q. congruence.
    - intros M. eapply NX; eauto.
  Qed.

  (** ** A match in a match *)
  (** What is asked of the inner expression for a value of the variable: the arm that is left takes what the pattern does not. *)
  Inductive looks_at (u : val) : expr -> nat -> pat -> expr -> option expr -> Prop :=
  | LIfLet : forall x adj q y z, looks_at u (EIfLet q (EVar x adj) y z) x q y z
  | LFirst : forall x adj q y q' z, (match_pat q u = None -> match_pat q' u <> None) -> unmentioned q' z ->
      looks_at u (EMatch false (EVar x adj) [(q, None, y); (q', None, z)]) x q y (Some z)
  | LSecond : forall x adj q y q' z, (match_pat q u = None <-> match_pat q' u <> None) -> unmentioned q' z ->
      looks_at u (EMatch false (EVar x adj) [(q', None, z); (q, None, y)]) x q y (Some z).
  (** What is asked of the arm: the inner expression is all of it, names are distinct, the variable is bound by value. *)
  Definition nested (r : expr) (p : pat) (a : expr) : Prop :=
    forall x q y z, inner_match (peel_stmt a) = Some (x, q, y, z) ->
    whole a (peel_stmt a) /\ NoDup (pat_vars q ++ pat_vars p) /\ bare x p = true /\ mode_of x p = Some false /\
    forall s v s' bs u, ev r s = (OVal v, s') -> match_pat p v = Some bs -> In (x, u) bs -> looks_at u (peel_stmt a) x q y z.
  Lemma same_else_eval2 : forall b z, same_else b z = true -> forall s, eopt w fuel z s = eopt w fuel b s.
  Proof.
    intros [els|] z H s; [apply (same_else_eval els z H)|]. destruct z as [z|]; [|reflexivity]. cbn in *. apply (unit_eval w fuel _ s H).
  Qed.
  Lemma looks_eval : forall u i x q y z (s s1 : st), looks_at u i x q y z -> (forall adj, ev (EVar x adj) s = (OVal u, s1)) ->
    ev i s = match match_pat q u with Some bs => sc bs y s1 | None => eopt w fuel z s1 end.
  Proof.
    intros u i x q y z s s1 L R.
    assert (OTHER : forall q' z, unmentioned q' z -> forall bs, match_pat q' u = Some bs -> sc bs z s1 = ev z s1).
    { intros q' z0 U bs M. apply (scoped_unused w fuel (oneof (pat_vars q'))).
      - intros n Y. apply oneof_spec. eapply in_keys; eauto. eapply match_keys; eauto.
      - intros n Y. apply oneof_spec in Y. auto. }
    inversion L as [? ? ? ? ? E|? ? ? ? q' z0 N U E|? ? ? ? q' z0 N U E]; subst; [rewrite eval_iflet, R; reflexivity| |];
      rewrite eval_match, R; cbn [andthen]; rewrite !earms_cons.
    - destruct (match_pat q u) as [bs|]; [reflexivity|]. destruct (match_pat q' u) as [bs|] eqn:M; [|destruct (N eq_refl eq_refl)].
      cbn [armrun eopt]. eapply OTHER; eauto.
    - destruct (match_pat q' u) as [bs|] eqn:M.
      + destruct (match_pat q u) as [bs'|] eqn:M2; [destruct N as [_ N]; discriminate N; discriminate|].
        cbn [armrun eopt]. eapply OTHER; eauto.
      + destruct (match_pat q u) as [bs'|] eqn:M2; [reflexivity|]. destruct N as [N _]. destruct (N eq_refl eq_refl).
  Qed.
  Lemma nested_arm : forall p a x q y z v s k, inner_match (peel_stmt a) = Some (x, q, y, z) ->
    In x (pat_vars p) -> local_used x y = false -> whole a (peel_stmt a) -> NoDup (pat_vars q ++ pat_vars p) -> bare x p = true -> mode_of x p = Some false ->
    (forall bs u, match_pat p v = Some bs -> In (x, u) bs -> looks_at u (peel_stmt a) x q y z) ->
    (forall bs, match_pat p v = Some bs -> (let '(o, t) := eopt w fuel z (enter bs s) in (o, leave (length (fst s)) t)) = k s) ->
    armval (p, None, a) v s k = armval (put x q p, None, y) v s k.
  Proof.
    intros p a x q y z v s1 k P IX UY WH ND BA MO LA KE. cbn [PickProofs3.armval].
    assert (NP : NoDup (pat_vars p)) by (eapply NoDup_app_r; eauto).
    destruct (put_match x q p NP IX BA) as (r' & M' & PM). rewrite MO in M'. inversion M'; subst r'. clear M'. specialize (PM v).
    destruct (match_pat p v) as [bs|] eqn:MP; unfold good in PM; [|rewrite PM; reflexivity].
    destruct PM as (b1 & u & b2 & EB & PM). rewrite PM. pose proof (match_keys _ _ _ MP) as KEYS.
    assert (NB : NoDup (map fst bs)) by (unfold binding in *; rewrite KEYS; auto).
    assert (IU : In (x, u) bs) by (subst bs; apply in_or_app; right; left; auto).
    specialize (LA bs u eq_refl IU). specialize (KE bs eq_refl).
    cbn [armrun]. unfold scoped. rewrite (braced_eval w fuel _ _ WH).
    rewrite (looks_eval _ _ _ _ _ _ (enter bs s1) (enter bs s1) LA) by (intros adj; apply (var_bound w fuel RB x adj bs s1 u NB IU)).
    destruct (match_pat q u) as [bs'|] eqn:MQ; [|exact KE].
    pose proof (match_keys _ _ _ MQ) as KQ. unfold scoped.
    set (m1 := SX (length bs') (length b1) :: SL :: repeat SB (length b2)).
    assert (RS1 : CloFrame.RS w (oneof [x]) (m1 ++ repeat SB (length (fst s1))) (enter bs' (enter bs s1)) (enter (b1 ++ bs' ++ b2) s1)).
    { assert (L1 : fst (enter bs' (enter bs s1)) = (bs' ++ b1) ++ (x, u) :: b2 ++ fst s1).
      { subst bs. cbn [enter fst]. rewrite <- !app_assoc. reflexivity. }
      assert (L2 : fst (@enter w (b1 ++ bs' ++ b2) s1) = (b1 ++ bs') ++ b2 ++ fst s1).
      { cbn [enter fst]. rewrite <- !app_assoc. reflexivity. }
      split; [reflexivity|]. rewrite L1, L2. unfold m1. cbn [app]. apply F_swap.
      - rewrite map_app. assert (E : map fst bs = map fst b1 ++ x :: map fst b2) by (subst bs; rewrite map_app; reflexivity).
        assert (ND' : NoDup ((map fst bs' ++ map fst b1) ++ x :: map fst b2)).
        { unfold binding in *. rewrite <- app_assoc, <- E, KEYS, KQ. exact ND. }
        eapply NoDup_app_l; eauto.
      - constructor; [apply oneof_spec; left; auto|]. apply F_app; apply F_refl. }
    assert (FY : free (oneof [x]) y) by (intros n Y; apply oneof_spec in Y; destruct Y as [<-|[]]; auto).
    pose proof (body_same w fuel _ m1 (length (fst s1)) y _ _ RS1 FY) as BS. rewrite <- BS.
    pose proof (eval_len w fuel y (enter bs' (enter bs s1))) as LEN.
    destruct (ev y (enter bs' (enter bs s1))) as [o t]. cbn [snd] in LEN. f_equal. apply leave_leave.
    + cbn [enter fst]. rewrite app_length. apply Nat.le_add_l.
    + unfold st in *. rewrite LEN. cbn [enter fst]. rewrite !app_length. apply Nat.le_add_l.
  Qed.
  Lemma pattern_arm_spec : forall els p g a p' g' a', pattern_arm els (p, g, a) = Some (p', g', a') ->
    exists x q y z, inner_match (peel_stmt a) = Some (x, q, y, z) /\ In x (pat_vars p) /\ same_else els z = true /\ local_used x y = false /\
    p' = put x q p /\ g' = g /\ a' = y.
  Proof.
    intros els p g a p' g' a' PA. cbn [pattern_arm] in PA. destruct (inner_match (peel_stmt a)) as [[[[x q] y] z]|]; [|discriminate].
    match type of PA with (if ?c then _ else _) = _ => destruct c eqn:C; [|discriminate] end. inversion PA; subst p' g' a'; clear PA.
    apply andb_true_iff in C. destruct C as [C UZ]. apply andb_true_iff in C. destruct C as [C UY]. apply andb_true_iff in C. destruct C as [C _].
    apply andb_true_iff in C. destruct C as [IX SE]. apply negb_true_iff in UY.
    exists x, q, y, z. repeat split; auto. apply oneof_spec. exact IX.
  Qed.
  Theorem collapse_if_let_sound : forall p r a b e', In e' (collapse_pattern (EIfLet p r a b)) ->
    nested r p a -> (forall c, b = Some c -> unmentioned p c) -> forall s, ev e' s = ev (EIfLet p r a b) s.
  Proof.
    intros p r a b e' H D UB s. cbn [collapse_pattern] in H.
    destruct (pattern_arm b (p, None, a)) as [[[p' g'] a']|] eqn:PA; [|destruct H]. destruct H as [<-|[]].
    destruct (pattern_arm_spec _ _ _ _ _ _ _ PA) as (x & q & y & z & P & IX & SE & UY & -> & -> & ->).
    destruct (D _ _ _ _ P) as (WH & ND & BA & MO & LA).
    rewrite !eval_iflet. apply andthen_ext. intros v s1 R. symmetry.
    apply (nested_arm p a x q y z v s1 (eopt w fuel b)); auto.
    - intros bs u M I. eapply LA; eauto.
    - intros bs MP. rewrite (same_else_eval2 _ _ SE (enter bs s1)). destruct b as [c|]; cbn [eopt].
      + rewrite (else_out p v bs c s1 (enter bs s1) MP (UB _ eq_refl) eq_refl), leave_enter. reflexivity.
      + rewrite leave_enter. reflexivity.
  Qed.
  (** What is asked of a match: no guard on an arm that looks further, and values of its pattern get to the arm of the `else`. *)
  Definition nests (e : expr) : Prop :=
    forall r pre p g a post, e = EMatch false r (pre ++ (p, g, a) :: post) -> inner_match (peel_stmt a) <> None ->
    g = None /\ nested r p a /\ forall qe ge els, rfind wild_like (pre ++ (p, g, a) :: post) = Some (qe, ge, els) ->
      unmentioned p els /\ forall s v s', ev r s = (OVal v, s') -> match_pat p v <> None -> next_does els post v.
  Theorem collapse_match_sound : forall r arms e', In e' (collapse_pattern (EMatch false r arms)) ->
    nests (EMatch false r arms) -> forall s, ev e' s = ev (EMatch false r arms) s.
  Proof.
    intros r arms e' H C s. cbn [collapse_pattern] in H.
    destruct (rfind wild_like arms) as [[[qe ge] els]|] eqn:RF; [|destruct H].
    apply in_map_iff in H. destruct H as (l & <- & I). destruct (each_arm_spec _ _ _ I) as (pre & [[p g] a] & [[p' g'] a'] & post & -> & E & ->).
    destruct (pattern_arm_spec _ _ _ _ _ _ _ E) as (x & q & y & z & P & IX & SE & UY & -> & -> & ->).
    destruct (C r pre p g a post eq_refl) as (-> & D & N); [congruence|]. destruct (N _ _ _ RF) as [U NX].
    destruct (D _ _ _ _ P) as (WH & ND & BA & MO & LA).
    rewrite !eval_match. apply andthen_ext. intros v s1 R. symmetry. apply earms_replace. intros s2.
    apply (nested_arm p a x q y z); auto.
    - intros bs u M I0. eapply LA; eauto.
    - intros bs MP. rewrite (same_else_eval2 _ _ SE (enter bs s2)). cbn [eopt].
      rewrite (else_out p v bs els s2 (enter bs s2) MP U eq_refl), leave_enter. symmetry. apply next_eval. eapply NX; eauto. congruence.
  Qed.
End Pick6.
