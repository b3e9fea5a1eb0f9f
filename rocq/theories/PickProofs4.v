(** redundant_guards and collapsible_match: proofs, continued. *)
From Verif Require Export CloVariant PickProofs3.

(** ** Spec *)
(** `==` with a constant holds of that constant and of nothing else: PartialEq is derived. *)
Definition tells_constant (w : world) (fuel : nat) (g : expr) : Prop :=
  forall a k, g = EEq false a k \/ g = EEq false k a -> forall kv, (forall s, eval w fuel k s = (OVal kv, s)) ->
  forall u, (value_eq w u kv = true <-> u = kv) /\ (value_eq w kv u = true <-> u = kv).
Definition structural_eq (w : world) (fuel : nat) (e : expr) : Prop :=
  forall r arms p g b, e = EMatch false r arms -> In (p, Some g, b) arms -> tells_constant w fuel g.
(** The guard tests a variable of the pattern, which has no subpattern of its own; the names are distinct; what is looked at
    after the test does not mention the variable, and the body has no other meaning for the names of the new pattern. *)
Definition distinct_names (e : expr) : Prop :=
  forall r arms, e = EMatch false r arms -> forall p g b, In (p, Some g, b) arms ->
  (forall x adj q ig, g = EMatch false (EVar x adj) [(q, ig, EBool true); (PWild, None, EBool false)] \/
                      g = EIfLet q (EVar x adj) (EBool true) (Some (EBool false)) /\ ig = None ->
     NoDup (pat_vars q ++ pat_vars p) /\ bare x p = true /\ (forall h, ig = Some h -> local_used x h = false) /\
     (forall y, In y (pat_vars q) -> local_used y b = false)) /\
  (forall x adj k, g = EEq false (EVar x adj) k \/ g = EEq false k (EVar x adj) -> NoDup (pat_vars p) /\ bare x p = true).

Lemma app_inj_len : forall {A} (a b c d : list A), length a = length c -> a ++ b = c ++ d -> a = c /\ b = d.
Proof. induction a; intros b [|y c] d L H; cbn in *; try discriminate; auto. inversion H; subst. destruct (IHa b c d); auto. subst; auto. Qed.

Section Pick5.
  Variable w : world.
  Variable fuel : nat.
  Notation st := (state w).
  Notation ev := (eval w fuel).
  Notation sc := (scoped w fuel).
  Notation run := (armrun w fuel).
  Notation armval := (armval w fuel).
  Hypothesis RB : reborrows w.

  Lemma var_bound : forall x adj bs s u, NoDup (map fst bs) -> In (x, u) bs -> ev (EVar x adj) (enter bs s) = (OVal u, enter bs s).
  Proof.
    intros x adj bs s u N I. cbn [eval]. rewrite (visible_enter w bs s N x u I). rewrite RB. destruct adj; reflexivity.
  Qed.
  Definition oneof (l : list nat) (x : nat) : bool := existsb (Nat.eqb x) l.
  Lemma oneof_spec : forall l x, oneof l x = true <-> In x l.
  Proof.
    intros l x. unfold oneof. rewrite existsb_exists. split.
    - intros (y & I & E). apply Nat.eqb_eq in E. subst; auto.
    - intros I. exists x. rewrite Nat.eqb_refl. auto.
  Qed.
  Lemma in_keys : forall (bs : list binding) l, map fst bs = l -> forall b, In b bs -> In (fst b) l.
  Proof. intros bs l <- b I. apply in_map. exact I. Qed.

  Lemma put_arm : forall p x q q0 adj r ig b G v s k,
    In x (pat_vars p) -> bare x p = true -> NoDup (pat_vars q ++ pat_vars p) -> mode_of x p = Some r -> through q0 r = Some q ->
    (forall h, ig = Some h -> local_used x h = false) -> (forall y, In y (pat_vars q) -> local_used y b = false) -> local_used x b = false ->
    (forall s, ev G s = ev (EMatch false (EVar x adj) [(q0, ig, EBool true); (PWild, None, EBool false)]) s) ->
    armval (p, Some G, b) v s k = armval (put x q p, ig, b) v s k.
  Proof.
    intros p x q q0 adj r ig b G v s k IX BA ND MO TH GI GB XB EG. cbn [PickProofs3.armval].
    assert (NP : NoDup (pat_vars p)) by (eapply NoDup_app_r; eauto).
    destruct (put_match x q p NP IX BA) as (r' & M' & PM). rewrite MO in M'. inversion M'; subst r'. clear M'. specialize (PM v).
    destruct (match_pat p v) as [bs|] eqn:MP; cbn [good] in PM; [|rewrite PM; reflexivity].
    unfold good in PM. destruct PM as (b1 & u & b2 & -> & PM). rewrite PM.
    pose proof (match_keys _ _ _ MP) as KEYS. set (ru := if r then VRef u else u) in *.
    assert (NB : NoDup (map fst (b1 ++ (x, ru) :: b2))) by (rewrite KEYS; auto).
    assert (Q0 : match_pat q0 ru = match_pat q u).
    { unfold through in TH. unfold ru. destruct q0, r; try discriminate; inversion TH; subst; reflexivity. }
    cbn [armrun]. rewrite EG, eval_match, (var_bound x adj _ s ru NB) by (apply in_or_app; right; left; auto). cbn [andthen].
    rewrite !earms_cons, Q0. destruct (match_pat q u) as [bs'|] eqn:MQ.
    2: { cbn [match_pat]. rewrite armrun_nil. cbn [eval]. rewrite leave_enter. reflexivity. }
    pose proof (match_keys _ _ _ MQ) as KQ. set (bs := b1 ++ (x, ru) :: b2) in *.
    (* the body *)
    set (X := oneof (x :: pat_vars q)).
    assert (XX : X x = true) by (apply oneof_spec; left; auto). assert (XQ : forall y, In y (pat_vars q) -> X y = true) by (intros; apply oneof_spec; right; auto).
    assert (FB : free X b).
    { intros y Y. apply oneof_spec in Y. destruct Y as [<-|Y]; auto. }
    destruct ig as [g|]; cbn [armrun].
    2: { unfold scoped at 1. cbn [eval]. rewrite leave_enter. change (sc bs b s = sc (b1 ++ bs' ++ b2) b s).
         apply (scoped_same w fuel X (repeat SB (length b1) ++ (SL :: repeat SR (length bs') ++ repeat SB (length b2)))); auto. unfold bs.
         apply F_app; [apply F_refl|]. constructor; auto. change b2 with ([] ++ b2) at 2. apply F_app; [|apply F_refl].
         apply F_rights. intros y Y. apply XQ. eapply in_keys; eauto. }
    (* the inner guard *)
    assert (FG : free (oneof [x]) g) by (intros y Y; apply oneof_spec in Y; destruct Y as [<-|[]]; auto).
    set (m1 := SX (length bs') (length b1) :: SL :: repeat SB (length b2)).
    assert (RS1 : CloFrame.RS w (oneof [x]) (m1 ++ repeat SB (length (fst s))) (enter bs' (enter bs s)) (enter (b1 ++ bs' ++ b2) s)).
    { assert (L1 : fst (enter bs' (enter bs s)) = (bs' ++ b1) ++ (x, ru) :: b2 ++ fst s).
      { unfold bs. cbn [enter fst]. rewrite <- !app_assoc. reflexivity. }
      assert (L2 : fst (@enter w (b1 ++ bs' ++ b2) s) = (b1 ++ bs') ++ b2 ++ fst s).
      { cbn [enter fst]. rewrite <- !app_assoc. reflexivity. }
      split; [reflexivity|]. rewrite L1, L2. unfold m1. cbn [app].
      apply F_swap.
      - rewrite map_app. assert (E : map fst bs = map fst b1 ++ x :: map fst b2) by (unfold bs; rewrite map_app; reflexivity).
        assert (ND' : NoDup ((map fst bs' ++ map fst b1) ++ x :: map fst b2)).
        { unfold binding in *. rewrite <- app_assoc, <- E, KEYS, KQ. exact ND. }
        eapply NoDup_app_l; eauto.
      - constructor; [apply oneof_spec; left; auto|]. apply F_app; apply F_refl. }
    pose proof (eval_frame w fuel _ g FG _ _ _ RS1) as [EO RS2]. pose proof (eval_keys w fuel g (enter bs' (enter bs s))) as KG.
    destruct (ev g (enter bs' (enter bs s))) as [o t] eqn:EG1, (ev g (enter (b1 ++ bs' ++ b2) s)) as [o' t'] eqn:EG2. cbn in EO, RS2, KG. subst o'.
    pose proof (leave_same w _ m1 (length (fst s)) _ _ RS2) as LS.
    assert (LL : leave (length (fst s)) (leave (length (fst (enter bs s))) t) = leave (length (fst s)) t).
    { apply leave_leave; [unfold enter; cbn; rewrite app_length; lia|].
      apply (f_equal (@length nat)) in KG. rewrite !map_length in KG. unfold env, binding in *. rewrite KG. cbn [enter fst]. rewrite !app_length. apply Nat.le_add_l. }
    destruct o as [u'| | | | |]; cbn [andthen]; try (rewrite LL, LS; reflexivity).
    destruct u' as [|[]| | |]; try (rewrite LL, LS; reflexivity).
    - (* true: the body *)
      cbn [eval]. set (t2 := leave (length (fst (enter bs s))) t).
      destruct RS2 as [SN RS2]. unfold m1 in RS2. cbn [app] in RS2. apply F_swap_inv in RS2.
      destruct RS2 as (a & c & q2 & q2' & E1 & E2 & LA & LC & RS2).
      assert (KA : map fst a = map fst bs').
      { rewrite E1 in KG. rewrite <- !app_assoc, !map_app in KG. assert (length (map fst a) = length (map fst bs')) by (rewrite !map_length; auto).
        apply app_inj_len in KG; [tauto|auto]. }
      inversion RS2 as [| |z m2 r2 r2' Zx RS3| |]; subst.
      assert (T2 : t2 = (c ++ z :: r2, snd t)).
      { unfold t2, leave. destruct t as [te ty]. cbn in E1 |- *. subst te. f_equal.
        assert (LEN : length ((a ++ c) ++ z :: r2) - length (bs ++ fst s) = length a).
        { pose proof (F_len _ _ _ _ RS3) as [L3 _]. assert (LNS : forall n, ln (repeat SB n) = n) by (induction n; cbn; auto).
          assert (LNA : forall m m', ln (m ++ m') = ln m + ln m') by (induction m as [|[]]; intros; cbn; auto; rewrite IHm; lia).
          rewrite LNA, !LNS in L3. unfold bs. unfold env, binding in *. rewrite !app_length. cbn [length]. lia. }
        unfold env, binding in *. rewrite LEN, <- app_assoc, skipn_app, skipn_all, Nat.sub_diag. reflexivity. }
      rewrite T2. destruct t' as [te' ty']. cbn in E2, SN. subst te' ty'.
      assert (B1 := body_same w fuel X (repeat SB (length c) ++ (SL :: repeat SR (length a) ++ repeat SB (length b2))) (length (fst s)) b
        (c ++ z :: r2, snd t) ((c ++ a) ++ q2', snd t)). apply B1; auto. split; [reflexivity|]. cbn [fst].
      rewrite <- !app_assoc. cbn [app]. apply F_app; [apply F_refl|]. constructor.
      { apply oneof_spec in Zx. destruct Zx as [<-|[]]; auto. }
      rewrite <- app_assoc. change r2 with ([] ++ r2). apply F_app.
      { apply F_rights. intros y Y. apply XQ. rewrite <- KQ. change (map fst bs') with (map fst bs') in KA. unfold env, binding in *. rewrite <- KA. apply in_map; auto. }
      revert RS3. rewrite <- !repeat_app. clear. revert r2 q2'. generalize (length b2 + length (fst s)). intros n. induction n; cbn; intros r2 q2' H; inversion H; subst; constructor; auto.
    - (* false *)
      rewrite earms_cons. cbn [match_pat armrun]. rewrite scoped_nil. cbn [eval]. rewrite LL, LS. reflexivity.
  Qed.

  (** ** redundant_guards *)
  (** The pattern is for one value, that of the constant. *)
  Definition for_only (q : pat) (kv : val) : Prop := forall u, match_pat q u = Some [] /\ u = kv \/ match_pat q u = None /\ u <> kv.
  Lemma as_pat_eval : forall k q, as_pat k = Some q -> pat_vars q = [] /\ (forall r, q <> PRef r) /\ exists kv, (forall s, ev k s = (OVal kv, s)) /\ for_only q kv.
  Proof.
    set (go := fix all (es : list expr) : option (list pat) :=
      match es with
      | [] => Some []
      | e :: es => match as_pat e, all es with Some p, Some ps => Some (p :: ps) | _, _ => None end
      end).
    assert (L : forall es, Forall (fun k => forall q, as_pat k = Some q -> pat_vars q = [] /\ (forall r, q <> PRef r) /\ exists kv, (forall s, ev k s = (OVal kv, s)) /\ for_only q kv) es ->
      forall ps, go es = Some ps -> flat_map pat_vars ps = [] /\ exists kvs, (forall s c, evals w fuel es s c = c kvs s) /\ length kvs = length ps /\
        forall us, match_all ps us = Some [] /\ us = kvs \/ match_all ps us = None /\ us <> kvs).
    { induction 1 as [|e es E _ IH]; intros ps H; cbn in H.
      - inversion H; subst. split; auto. exists []. split; [reflexivity|]. split; [reflexivity|]. intros [|u us]; [left; auto|right; split; [reflexivity|discriminate]].
      - destruct (as_pat e) as [p|]; [|discriminate]. destruct (go es) as [ps'|]; [|discriminate]. inversion H; subst.
        destruct (E _ eq_refl) as (A & _ & kv & K & M). destruct (IH _ eq_refl) as (B & kvs & KS' & LE & MS). split; [cbn; rewrite A, B; auto|].
        exists (kv :: kvs). split; [intros s c; cbn [evals]; rewrite K; cbn [andthen]; rewrite KS'; reflexivity|]. split; [cbn; congruence|].
        intros [|u us]; [right; split; [reflexivity|discriminate]|]. cbn [match_all].
        destruct (M u) as [[M1 ->]|[M1 N]]; rewrite M1; [|right; split; [reflexivity|congruence]].
        destruct (MS us) as [[M2 ->]|[M2 N]]; rewrite M2; [left; auto|right; split; [reflexivity|congruence]]. }
    induction k using expr_ind'; intros q Q; try discriminate.
    - inversion Q; subst. repeat split; try discriminate. exists (VInt z). split; [reflexivity|]. intros u.
      destruct u; try (right; split; [reflexivity|discriminate]). cbn. destruct (Z.eqb_spec z z0); [left; subst; auto|right; split; [reflexivity|congruence]].
    - inversion Q; subst. repeat split; try discriminate. exists (VBool b). split; [reflexivity|]. intros u.
      destruct u; try (right; split; [reflexivity|discriminate]). cbn. destruct b, b0; cbn; auto; right; split; auto; discriminate.
    - change (match k with
              | KArr => match go es with Some ps => Some (PSlice ps None []) | None => None end
              | _ => match go es with Some ps => Some (PData k ps None) | None => None end
              end = Some q) in Q.
      destruct (go es) as [ps|] eqn:G; [|destruct k; discriminate]. destruct (L es H _ G) as (A & kvs & K & LE & M).
      assert (DATA : forall k', k' <> KArr -> for_only (PData k' ps None) (VData k' kvs)).
      { intros k' N u. destruct u as [| |k2 us| |]; try (right; split; [reflexivity|discriminate]). rewrite match_data.
        destruct (kind_eqb k' k2) eqn:E.
        - apply kind_eqb_spec in E. subst k2. destruct (M us) as [[-> ->]|[-> N']]; [left; auto|right; split; [reflexivity|congruence]].
        - right. split; [reflexivity|]. intros F. inversion F; subst. destruct k'; cbn in E; try discriminate. rewrite Nat.eqb_refl in E. discriminate. }
      assert (ARR : for_only (PSlice ps None []) (VData KArr kvs)).
      { intros u. destruct u as [| |[| |c] us| |]; try (right; split; [reflexivity|discriminate]).
        change (match_pat (PSlice ps None []) (VData KArr us)) with
          (match match_all ps (firstn (length ps) us), match_all [] (skipn (length ps) us) with Some x, Some y => Some (x ++ y) | _, _ => None end).
        destruct (M (firstn (length ps) us)) as [[-> F]|[-> F]].
        - destruct (skipn (length ps) us) as [|u1 us1] eqn:SK; cbn.
          + left. split; [reflexivity|]. rewrite <- (firstn_skipn (length ps) us), SK, app_nil_r, F. reflexivity.
          + right. split; [reflexivity|]. intros F'. inversion F'; subst us. rewrite skipn_all2 in SK by lia. discriminate.
        - right. split; [reflexivity|]. intros F'. inversion F'; subst us. apply F. apply firstn_all2. lia. }
      destruct k; inversion Q; subst; (split; [cbn; rewrite ?A; cbn; rewrite ?A; auto|]); (split; [discriminate|]); eexists; (split; [intros s; rewrite eval_data, K; reflexivity|]).
      + apply DATA. discriminate.
      + exact ARR.
      + apply DATA. discriminate.
  Qed.
  Lemma pat_binding_spec : forall e p b x r, pat_binding e p b = Some (x, r) ->
    (exists adj, e = EVar x adj) /\ local_used x b = false /\ mode_of x p = Some r /\ In x (pat_vars p).
  Proof.
    intros e p b x r H. destruct e; try discriminate. cbn in H. destruct (local_used x0 b) eqn:U; [discriminate|].
    destruct (mode_of x0 p) as [r0|] eqn:M; inversion H; subst. repeat split; eauto.
    destruct (in_dec Nat.eq_dec x (pat_vars p)); auto. destruct (put_none x PWild p n); congruence.
  Qed.
  Lemma guard_arm_sound : forall p g b a', pattern_guard (p, Some g, b) = Some a' ->
    ((forall x adj q ig, g = EMatch false (EVar x adj) [(q, ig, EBool true); (PWild, None, EBool false)] \/
                      g = EIfLet q (EVar x adj) (EBool true) (Some (EBool false)) /\ ig = None ->
     NoDup (pat_vars q ++ pat_vars p) /\ bare x p = true /\ (forall h, ig = Some h -> local_used x h = false) /\
     (forall y, In y (pat_vars q) -> local_used y b = false)) /\
    (forall x adj k, g = EEq false (EVar x adj) k \/ g = EEq false k (EVar x adj) -> NoDup (pat_vars p) /\ bare x p = true)) ->
    tells_constant w fuel g -> forall v s k, armval (p, Some g, b) v s k = armval a' v s k.
  Proof.
    intros p g b a' H [D1 D2] SE v s k.
    assert (THV : forall q r q', through q r = Some q' -> pat_vars q' = pat_vars q).
    { intros q r q' T. unfold through in T. destruct q, r; inversion T; reflexivity. }
    destruct g as [| | | | | | | |neg e1 e2| | | |q e x y|[] e arms| | | | | | |]; try discriminate.
    - (* == *)
      destruct neg; [discriminate|]. cbn [pattern_guard] in H.
      assert (B : exists x r k0, (exists adj, e1 = EVar x adj /\ k0 = e2 \/ e2 = EVar x adj /\ k0 = e1) /\ local_used x b = false /\ mode_of x p = Some r /\ In x (pat_vars p) /\
        match as_pat k0 with Some q => if r then None else Some (put x q p, None, b) | None => None end = Some a').
      { destruct (pat_binding e1 p b) as [[x r]|] eqn:B1.
        - destruct (pat_binding_spec _ _ _ _ _ B1) as ((adj & ->) & U & M & I). exists x, r, e2. repeat split; auto. exists adj; auto.
        - destruct (pat_binding e2 p b) as [[x r]|] eqn:B2; [|discriminate]. destruct (pat_binding_spec _ _ _ _ _ B2) as ((adj & ->) & U & M & I).
          exists x, r, e1. repeat split; auto. exists adj; auto. }
      destruct B as (x & r & k0 & (adj & E) & U & M & I & A). destruct (as_pat k0) as [q|] eqn:Q; [|discriminate]. destruct r; [discriminate|]. inversion A; subst a'; clear A.
      destruct (as_pat_eval _ _ Q) as (QV & NR & kv & K & ON).
      assert (VE : forall c u, (c = true <-> u = kv) -> c = (match match_pat q u with Some _ => true | None => false end)).
      { intros c u C. destruct (ON u) as [[-> F]|[-> F]]; [now apply C|]. destruct c; [destruct F; now apply C|reflexivity]. }
      destruct (D2 x adj k0) as [N BA]; [destruct E as [[-> ->]|[-> ->]]; auto|].
      apply (put_arm p x q q adj false None b); auto; try discriminate.
      + rewrite QV. exact N.
      + destruct q; try reflexivity. destruct (NR _ eq_refl).
      + rewrite QV. intros y [].
      + intros s0. rewrite eval_match.
        assert (R : forall u s1, earms w fuel u [(q, None, EBool true); (PWild, None, EBool false)] s1 =
          (OVal (VBool (match match_pat q u with Some _ => true | None => false end)), s1)).
        { intros u s1. rewrite !earms_cons. cbn [match_pat]. rewrite armrun_nil. destruct (match_pat q u) as [bs|]; [|reflexivity].
          cbn [armrun]. apply scoped_val. reflexivity. }
        transitivity (andthen w (ev (EVar x adj) s0) (fun u s1 => (OVal (VBool (match match_pat q u with Some _ => true | None => false end)), s1))).
        2: { apply andthen_ext. intros u s1 _. symmetry. apply R. }
        assert (XF : forall c, xorb false c = c) by (destruct c; reflexivity).
        destruct E as [[-> ->]|[-> ->]].
        * cbn [eval]. destruct (lookup x (fst s0)) as [u|]; [|reflexivity]. cbn [andthen]. rewrite K. cbn [andthen]. rewrite XF.
          rewrite (VE _ _ (proj1 (SE (EVar x adj) e2 (or_introl eq_refl) kv K _))). reflexivity.
        * change (ev (EEq false e1 (EVar x adj)) s0) with (andthen w (ev e1 s0) (fun u s => andthen w (ev (EVar x adj) s) (fun v s => (OVal (VBool (xorb false (value_eq w u v))), s)))).
          rewrite K. cbn [andthen]. apply andthen_ext. intros u s1 _. rewrite XF, (VE _ u (proj2 (SE (EVar x adj) e1 (or_intror eq_refl) kv K u))). reflexivity.
    - (* if let *)
      destruct x as [| |[]| | | | | | | | | | | | | | | | | |]; try discriminate. destruct y as [[| |[]| | | | | | | | | | | | | | | | | |]|]; try discriminate.
      cbn [pattern_guard] in H. destruct (pat_binding e p b) as [[x r]|] eqn:B1; [|discriminate].
      destruct (pat_binding_spec _ _ _ _ _ B1) as ((adj & ->) & U & M & I).
      destruct (through q r) as [q'|] eqn:T; inversion H; subst a'; clear H.
      destruct (D1 x adj q None) as (N & BA & GI & GB); auto. pose proof (THV _ _ _ T) as V'.
      apply (put_arm p x q' q adj r None b); auto; try (rewrite V'; auto).
      intros s0. rewrite eval_iflet, eval_match. apply andthen_ext. intros u s1 _. rewrite !earms_cons. cbn [match_pat]. rewrite armrun_nil.
      destruct (match_pat q u); reflexivity.
    - (* matches! *)
      destruct arms as [|[[q ig] x] arms]; [discriminate|]. destruct x as [| |[]| | | | | | | | | | | | | | | | | |]; try discriminate.
      destruct arms as [|[[p2 h] y] arms]; [discriminate|]. destruct p2; try discriminate. destruct h; [discriminate|].
      destruct y as [| |[]| | | | | | | | | | | | | | | | | |]; try discriminate. destruct arms; [|discriminate].
      cbn [pattern_guard] in H. destruct (pat_binding e p b) as [[x r]|] eqn:B1; [|discriminate].
      destruct (pat_binding_spec _ _ _ _ _ B1) as ((adj & ->) & U & M & I).
      destruct (through q r) as [q'|] eqn:T; inversion H; subst a'; clear H.
      destruct (D1 x adj q ig) as (N & BA & GI & GB); auto. pose proof (THV _ _ _ T) as V'.
      apply (put_arm p x q' q adj r ig b); auto; rewrite V'; auto.
  Qed.
  Theorem redundant_guards_sound : forall e e', In e' (redundant_guards e) -> distinct_names e -> structural_eq w fuel e -> forall s, ev e' s = ev e s.
  Proof.
    intros e e' H D SE s. destruct e as [| | | | | | | | | | | | |[] r arms| | | | | | |]; try (destruct H; fail). cbn [redundant_guards] in H.
    apply in_map_iff in H. destruct H as (l & <- & I). destruct (each_arm_spec _ _ _ I) as (pre & [[p g] b] & a' & post & -> & E & ->).
    rewrite !eval_match. apply andthen_ext. intros v s1 _. symmetry. apply earms_replace. intros s2.
    destruct g as [g|]; [|discriminate]. apply guard_arm_sound; auto; [eapply D|eapply SE]; try reflexivity; apply in_or_app; right; left; reflexivity.
  Qed.
End Pick5.
