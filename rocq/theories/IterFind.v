(** Loops that search. *)
From Verif Require Export IterLoops.

Lemma opt_quiet : forall (f : expr -> bool) (g : expr -> bool) o, Opt (fun e => f e = false -> g e = true) o -> opt_some f o = false -> opt_all g o = true.
Proof. intros f g [e|] H; cbn in *; auto. Qed.
Lemma list_quiet : forall {A} (f g : A -> bool) l, Forall (fun a => f a = false -> g a = true) l -> existsb f l = false -> forallb g l = true.
Proof. intros A f g l H. induction H; cbn; auto. rewrite orb_false_iff. intros [E1 E2]. rewrite H, IHForall; auto. Qed.
Lemma quiet_movable : forall e, contains_jump e = false -> forall ls, movable ls e = true.
Proof.
  unfold contains_jump. set (J := fun e => match e with ERet _ | EBreak _ _ => true | _ => false end).
  induction e using expr_ind'; intros E ls; cbn in E |- *; auto; rewrite ?orb_false_iff in E; try discriminate.
  - revert E. apply list_quiet. eapply Forall_impl; [|exact H]. auto.
  - revert E. apply list_quiet. rewrite Forall_forall in *. intros [i a] I. cbn. intros Q. apply (H _ I); auto.
  - revert E. apply list_quiet. eapply Forall_impl; [|exact H]. auto.
  - revert E. apply list_quiet. eapply Forall_impl; [|exact H]. auto.
  - destruct E. rewrite IHe1, IHe2; auto.
  - destruct E. rewrite IHe1, IHe2; auto.
  - destruct E as [[E1 E2] E3]. rewrite IHe1, IHe2; auto. cbn. destruct b; cbn in *; auto.
  - destruct E as [[E1 E2] E3]. rewrite IHe1, IHe2; auto. cbn. destruct b; cbn in *; auto.
  - destruct E as [E1 E2]. rewrite IHe; auto. cbn. revert E2. apply list_quiet. rewrite Forall_forall in *. intros [[p g] b] I. specialize (H _ I). cbn in H |- *.
    destruct H as [H1 H2]. rewrite orb_false_iff. intros [Q1 Q2]. rewrite H2; auto. destruct g; cbn in *; auto. rewrite H1; auto.
  - destruct E as [E1 E2]. apply andb_true_iff. split.
    + revert E1. apply list_quiet. rewrite Forall_forall in *. intros x I. specialize (H _ I). destruct x as [p i b|a|a]; cbn in H |- *; auto.
      destruct H as [H1 H2]. rewrite orb_false_iff. intros [Q1 Q2]. destruct i, b; cbn in *; auto; rewrite ?H1, ?H2; auto.
    + destruct t; cbn in *; auto.
  - destruct E as [E1 E2]. rewrite IHe; auto. cbn. revert E2. apply list_quiet. rewrite Forall_forall in *. intros x I. specialize (H _ I). destruct x; cbn in *; auto.
  - revert E. apply list_quiet. eapply Forall_impl; [|exact H]. auto.
Qed.

Section Find.
  Variable w : world.
  Variable fuel : nat.
  Notation st := (state w).
  Notation ev := (eval w fuel).
  Notation ie := (ieval w fuel).

  (** One round of the loop and one question of `find`. *)
  Lemma find_round : forall p x u v b cond lb adj q v' s, peel_blocks_with_stmt b = EIf cond (EBlock lb [SSemi (ERet (Some (EData (KCtor c_some) [EVar x adj])))] None) None ->
    clean b -> adj = false -> contains_jump cond = false -> assigned x cond = false -> match_pat p v = Some [(x, u)] -> match_pat q (VRef v') = Some [(x, u)] ->
    match apply w fuel (AC [q] cond) [VRef v'] s with
    | (OVal (VBool true), t) => forget w (round w fuel p b v s) = (ORet (some_v u), t)
    | (OVal (VBool false), t) => forget w (round w fuel p b v s) = (OVal unit_v, t)
    | (OVal _, t) => forget w (round w fuel p b v s) = (OStuck, t)
    | (ORet _, _) | (OBrk _ _, _) => False
    | (o, t) => forget w (round w fuel p b v s) = (o, t)
    end.
  Proof.
    intros p x u v b cond lb adj q v' s B C -> J NA M M'.
    assert (B1 : bind_all [q] [VRef v'] = Some [(x, u)]) by (rewrite CloIdent.bind_one; exact M').
    rewrite (movable_apply w fuel [q] cond [VRef v'] [(x, u)] s (quiet_movable _ J []) B1).
    rewrite <- round_peel by auto. rewrite B. unfold round. rewrite M. unfold scoped. rewrite eval_if.
    pose proof (movable_calm w fuel cond [] (quiet_movable _ J []) (enter [(x, u)] s)) as CA. unfold calm in CA.
    pose proof (eval_lookup w fuel x cond (enter [(x, u)] s) NA) as LK.
    destruct (ev cond (enter [(x, u)] s)) as [o t]. cbn [fst snd] in CA, LK. destruct o as [c| |[l|] ?| | |]; cbn [andthen]; try reflexivity; try (cbn in CA; congruence); try contradiction.
    destruct c as [|[]| | |]; try reflexivity. cbn in LK. rewrite Nat.eqb_refl in LK.
    assert (R : ev (EBlock lb [SSemi (ERet (Some (EData (KCtor c_some) [EVar x false])))] None) t = (ORet (some_v u), t)).
    { rewrite eval_block. assert (E : ev (ERet (Some (EData (KCtor c_some) [EVar x false]))) t = (ORet (some_v u), t)) by (cbn; rewrite LK; reflexivity).
      cbn [estmts]. rewrite E. cbn [andthen unlabel]. rewrite leave_self. reflexivity. }
    rewrite R. reflexivity.
  Qed.
  Section Search.
    Variables (A : Type) (next next' : A -> st -> pres * A * st) (p q : pat) (x : nat) (b cond : expr) (lb : option nat) (R : val -> val -> Prop).
    Hypothesis b_is : peel_blocks_with_stmt b = EIf cond (EBlock lb [SSemi (ERet (Some (EData (KCtor c_some) [EVar x false])))] None) None.
    Hypothesis b_clean : clean b.
    Hypothesis no_jump : contains_jump cond = false.
    Hypothesis not_assigned : assigned x cond = false.
    Hypothesis R_pat : forall u v', R u v' -> match_pat q (VRef v') = Some [(x, u)].
    Hypothesis follows : forall d s,
      match next d s with
      | (PVal v, d1, s1) => match_pat p v = None \/
                            exists u v', match_pat p v = Some [(x, u)] /\ next' d s = (PVal v', d1, s1) /\ R u v'
      | (POut (OVal _), _, _) | (POut (ORet _), _, _) | (POut (OBrk _ _), _, _) => False
      | r => next' d s = r
      end.
    Lemma search_loop : forall n d s a,
      let r := loop w fuel next p b n d s in
      let r' := drive w next' (step w fuel (CFind (AC [q] cond))) (fin (CFind (AC [q] cond))) n d a s in
      fst r = OStuck \/
      (snd r' = snd r /\
       match fst r with
       | OVal _ => fst r' = OVal none_v
       | ORet v => exists u v', v = some_v u /\ fst r' = OVal (some_v v') /\ R u v'
       | OBrk _ _ => False
       | o => fst r' = o
       end).
    Proof.
      induction n; intros d s a; [right; cbn; auto|]. rewrite loop_again. cbn [drive]. specialize (follows d s).
      destruct (next d s) as [[[v| |o] d1] s1].
      - destruct follows as [E|(u & v' & M & -> & K)].
        { left. unfold round. rewrite E. reflexivity. }
        pose proof (find_round p x u v b cond lb false q v' s1 b_is b_clean eq_refl no_jump not_assigned M (R_pat _ _ K)) as FR.
        cbn [step]. unfold test, asked. destruct (apply w fuel (AC [q] cond) [VRef v'] s1) as [[c| | | | |] t]; try contradiction; unfold again.
        + destruct c as [|[]| | |]; rewrite FR; try (left; reflexivity).
          * right. cbn. split; auto. exists u, v'. auto.
          * apply IHn.
        + rewrite FR. right. cbn. auto.
        + rewrite FR. right. cbn. auto.
        + rewrite FR. left. reflexivity.
      - rewrite follows. right. cbn. auto.
      - destruct o; try contradiction; rewrite follows; cbn; auto.
    Qed.
  End Search.

  (** What an iterator gives instead of an item does not leave anything. *)
  Definition noesc (o : out) : Prop := match o with ORet _ | OBrk _ _ => False | _ => True end.
  Definition stays {A} (r : pres * A * st) : Prop := match fst (fst r) with POut o => noesc o | _ => True end.
  Lemma apply_noesc : forall f vs s, noesc (fst (apply w fuel f vs s)).
  Proof.
    intros f vs s. pose proof (calm_apply w fuel [] f vs s) as C. unfold calm in C. destruct (apply w fuel f vs s) as [[v|v|[l|] v| | |] t]; cbn in *; auto. discriminate.
  Qed.
  Lemma with_item_stays : forall {A B} (up : A -> B) r k, stays r -> (forall v d s, stays (k v d s)) -> stays (with_item w up r k).
  Proof. intros A B up [[[v| |o] d] s] k N K; cbn in *; auto. Qed.
  Lemma given_stays : forall {A} r (d : A) k, noesc (fst r) -> (forall v s, stays (k v s)) -> stays (given_val w r d k).
  Proof. intros A [[v| | | | |] s] d k N K; cbn; auto. Qed.
  Lemma until_stays : forall {A} next (k : val -> A -> st -> option (pres * A * st) * st), (forall d s, stays (next d s)) ->
    (forall v d s r s', k v d s = (Some r, s') -> stays r) -> forall n d s, stays (until w next k n d s).
  Proof.
    intros A next k N K. induction n; intros d s; cbn; auto. apply with_item_stays; auto. intros v d1 s1.
    destruct (k v d1 s1) as [[r|] s2] eqn:E; eauto.
  Qed.
  Lemma opened_stays : forall {A} (next : A -> st -> pres * A * st) open back, (forall d s, stays (next d s)) -> (forall v s, noesc (fst (open v s))) ->
    forall n x s, stays (opened w next open back n x s).
  Proof.
    intros A next open back N O. induction n; intros [[fr d] bk] s; cbn -[pop].
    - destruct (pop back (if back then bk else fr)) as [[v r]|]; cbn; auto.
    - destruct (pop back (if back then bk else fr)) as [[v r]|]; cbn -[pop]; auto. specialize (N d s).
      destruct (next d s) as [[[v| |o] d1] s1]; cbn -[pop]; auto.
      + specialize (O v s1). destruct (open v s1) as [[u| | | | |] s2]; cbn; auto. destruct (items u); cbn; auto.
      + destruct (pop back (if back then fr else bk)) as [[v r]|]; cbn; auto.
  Qed.
  Lemma advance_stays : forall {A} (next : A -> st -> pres * A * st), (forall d s, stays (next d s)) ->
    forall n d s, stays (advance w next n d s).
  Proof. intros A next N. induction n; intros d s; cbn; auto. apply with_item_stays; auto. Qed.
  Lemma pull_stays : forall c back d s, stays (pull w fuel back c d s).
  Proof.
    induction c; intros back d s; cbn -[apply].
    - destruct d as [vs|n]; cbn -[pop view_of].
      + destruct (pop back vs) as [[v r]|]; cbn; auto.
      + apply given_stays.
        * unfold calls. destruct (call w n [VBool back] (snd s)) as [[] ?]; exact I.
        * intros v s1. destruct (view_of TOption v) as [[]|]; cbn; auto.
    - apply with_item_stays; auto. intros. apply given_stays; [apply apply_noesc|]. intros. cbn. auto.
    - apply until_stays; auto. intros v d1 s1 r s2. unfold keep. pose proof (apply_noesc f [VRef v] s1) as NE. destruct (apply w fuel f [VRef v] s1) as [[u| | | | |] s3];
        try (intros E; injection E as <- _; cbn; auto; fail). destruct u as [|[]| | |]; intros E; try discriminate; injection E as <- _; cbn; auto.
    - apply until_stays; auto. intros v d1 s1 r s2. unfold keep_map. pose proof (apply_noesc f [v] s1) as NE. destruct (apply w fuel f [v] s1) as [[u| | | | |] s3];
        try (intros E; injection E as <- _; cbn; auto; fail). destruct (view_of TOption u) as [[]|]; intros E; try discriminate; injection E as <- _; cbn; auto.
    - apply with_item_stays; auto. intros. apply given_stays; [apply apply_noesc|]. intros. cbn. auto.
    - apply opened_stays; auto. intros. apply apply_noesc.
    - apply opened_stays; auto. intros. exact I.
    - apply IHc.
    - apply with_item_stays; auto. intros v d1 s1. destruct v; cbn; auto.
    - destruct back; cbn; auto. pose proof (advance_stays (pull w fuel false c) (IHc false) (fst d) (snd d) s) as N.
      destruct (advance w (pull w fuel false c) (fst d) (snd d) s) as [[p d1] s1]. exact N.
    - destruct back; cbn; auto. destruct (fst d); cbn; auto. specialize (IHc false (snd d) s).
      destruct (pull w fuel false c (snd d) s) as [[p d1] s1]. exact IHc.
    - destruct back; cbn; auto. apply with_item_stays; cbn; auto.
  Qed.

  (** The pattern binds [x] alone. *)
  Lemma one_key : forall p x v bs, pat_vars p = [x] -> match_pat p v = Some bs -> exists u, bs = [(x, u)].
  Proof.
    intros p x v bs P M. pose proof (match_keys p v bs M) as K. rewrite P in K. destruct bs as [|[y u] [|]]; try discriminate. injection K as ->. eauto.
  Qed.
  Lemma none_tail : forall tail s, is_none_expr tail = true -> ev tail s = (OVal none_v, s).
  Proof. intros tail s H. apply is_none_expr_spec in H. subst. reflexivity. Qed.

  Theorem manual_find_sound : forall l tail e', manual_find true l tail = Some e' -> clean (for_body l) ->
    (forall cond th, peel_blocks_with_stmt (for_body l) = EIf cond th None -> forall x, one_binding (for_pat l) = Some x -> assigned x cond = false) ->
    (forall cond lb r x adj, peel_blocks_with_stmt (for_body l) = EIf cond (EBlock lb [SSemi (ERet (Some r))] None) None -> as_ctor c_some r = Some (EVar x adj) -> adj = false) ->
    (forall x sub, for_pat l = PBind false x (Some sub) -> False) -> (forall x r sub, for_pat l = PRef (PBind r x (Some sub)) -> False) ->
    forall s, fst (loop_fn w fuel l tail s) <> OStuck -> caught w (ie e' s) = loop_fn w fuel l tail s.
  Proof.
    intros [p c b] tail e' H C NA AD SB1 SB2 s. cbn [for_pat for_iter for_body] in *. unfold manual_find in H. cbn [for_pat for_iter for_body] in H.
    destruct (peel_blocks_with_stmt b) as [| | | | | | | | | | |cond th el| | | | | | | | |] eqn:B; try discriminate.
    destruct th as [| | | | | | | | | | | | | |lb ss t| | | | | |]; try discriminate.
    destruct ss as [|[| |e] [|]]; try discriminate; [|destruct e; try discriminate; destruct e; discriminate]. destruct e as [| | | | | | | | | | | | | | | |[r|]| | | |]; try discriminate. destruct t; try discriminate. destruct el; try discriminate.
    destruct (one_binding p) as [x|] eqn:OB; [|discriminate]. destruct (as_ctor c_some r) as [a|] eqn:AC1; [|discriminate].
    unfold given in H. destruct (is_local x a && negb (contains_jump cond) && is_none_expr tail) eqn:Q; [|discriminate].
    rewrite !andb_true_iff, negb_true_iff in Q. destruct Q as [[LA J] NT].
    assert (A : exists adj, a = EVar x adj) by (destruct a; try discriminate; cbn in LA; apply Nat.eqb_eq in LA; subst; eauto). destruct A as [adj ->].
    assert (adj = false) as -> by (exact (AD cond lb r x adj eq_refl AC1)). clear AD LA. apply as_ctor_spec in AC1. subst r.
    specialize (NA cond _ eq_refl x eq_refl).
    assert (PV : pat_vars p = [x]). { unfold one_binding in OB. destruct (pat_vars p) as [|y [|]]; try discriminate. destruct (mode_of y p) as [[]|]; try discriminate. congruence. }
    assert (OBR : forall y, mode_of y p = Some true -> y <> x).
    { intros y MY ->. unfold one_binding in OB. rewrite PV, MY in OB. discriminate. }
    (* The common part. *)
    assert (Main : forall c' q (R : val -> val -> Prop) h (start' : (D c + out) * st) (next' : D c -> st -> pres * D c * st),
      start' = start w fuel c s ->
      (forall u v', R u v' -> match_pat q (VRef v') = Some [(x, u)]) ->
      (forall d s, match pull w fuel false c d s with
                   | (PVal v, d1, s1) => match_pat p v = None \/ exists u v', match_pat p v = Some [(x, u)] /\ next' d s = (PVal v', d1, s1) /\ R u v'
                   | (POut (OVal _), _, _) | (POut (ORet _), _, _) | (POut (OBrk _ _), _, _) => False
                   | r => next' d s = r
                   end) ->
      (forall u v', R u v' -> h (some_v v') = Some (some_v u)) -> h none_v = Some none_v ->
      c' = match start' with
           | (inl d, s1) => drive w next' (step w fuel (CFind (AC [q] cond))) (fin (CFind (AC [q] cond))) fuel d (VInt 0) s1
           | (inr o, s1) => (o, s1)
           end ->
      fst (loop_fn w fuel {| for_pat := p; for_iter := c; for_body := b |} tail s) <> OStuck ->
      caught w (andthen w c' (fun v s => match h v with Some u => (OVal u, s) | None => (OStuck, s) end)) = loop_fn w fuel {| for_pat := p; for_iter := c; for_body := b |} tail s).
    { intros c' q R h start' next' -> RP FO HS HN -> ND. unfold loop_fn, for_loop in *. cbn [for_pat for_iter for_body] in *.
      destruct (start w fuel c s) as [[d|o] s1] eqn:ST.
      2: { pose proof (start_noval _ _ _ _ _ _ ST) as V. destruct o; try reflexivity. destruct (V v eq_refl). }
      pose proof (search_loop _ (pull w fuel false c) next' p q x b cond lb R B C J NA RP FO fuel d s1 (VInt 0)) as SL.
      cbn zeta in SL. destruct (loop w fuel (pull w fuel false c) p b fuel d s1) as [o1 t1], (drive w next' (step w fuel (CFind (AC [q] cond))) (fin (CFind (AC [q] cond))) fuel d (VInt 0) s1) as [o2 t2].
      cbn [fst snd] in SL. destruct SL as [->|[-> SL]]; [cbn in ND; congruence|].
      destruct o1; try contradiction; subst; try reflexivity.
      - cbn [andthen]. rewrite HN. rewrite none_tail by auto. reflexivity.
      - destruct SL as (u & v' & -> & -> & K). cbn [andthen]. rewrite (HS _ _ K). reflexivity. }
    assert (Ho : forall d s, match pull w fuel false c d s with (POut (OVal _), _, _) | (POut (ORet _), _, _) | (POut (OBrk _ _), _, _) => False | _ => True end).
    { intros d s0. pose proof (pull_noval w fuel c false d s0) as N1. pose proof (pull_stays c false d s0) as N2. unfold noval, stays in *.
      destruct (pull w fuel false c d s0) as [[[v| |[]] d1] s1]; auto. }
    assert (Some_id : forall v : val, Some v = Some v) by auto.
    intros ND. destruct (match p with PBind _ _ _ => true | _ => false end) eqn:Pb; [|destruct (match p with PRef (PBind _ _ _) => true | _ => false end) eqn:Pr].
    - destruct p as [|br y sub| | | | | |]; try discriminate. cbn in H. injection H as <-.
      assert (sub = None) as -> by (destruct sub; auto; destruct br; [|destruct (SB1 _ _ eq_refl)]; unfold one_binding in OB; cbn in OB; destruct (pat_vars p); [|discriminate]; rewrite Nat.eqb_refl in OB; discriminate).
      cbn in PV. injection PV as ->. assert (br = false) as -> by (destruct br; auto; exfalso; apply (OBR x); auto; cbn; rewrite Nat.eqb_refl; reflexivity).
      rewrite <- (Main (ie (IRun c (CFind (AC [PRef (PBind false x None)] cond))) s) (PRef (PBind false x None)) eq (fun v => Some v) (start w fuel c s) (pull w fuel false c)); auto.
      + destruct (ie (IRun c (CFind (AC [PRef (PBind false x None)] cond))) s) as [[] ?]; reflexivity.
      + intros u v' ->. reflexivity.
      + intros d s0. specialize (Ho d s0). destruct (pull w fuel false c d s0) as [[[v| |[]] d1] s1]; auto. right. exists v, v. auto.
      + intros u v' ->. reflexivity.
    - destruct p as [| | | | | | |p]; try discriminate. destruct p as [|br y sub| | | | | |]; try discriminate. cbn in H. injection H as <-.
      assert (sub = None) as -> by (destruct sub; auto; destruct (SB2 _ _ _ eq_refl)).
      cbn in PV. injection PV as ->. assert (br = false) as -> by (destruct br; auto; exfalso; apply (OBR x); auto; cbn; rewrite Nat.eqb_refl; reflexivity).
      rewrite <- (Main (ie (IRun c (CFind (AC [PRef (PRef (PBind false x None))] cond))) s) (PRef (PRef (PBind false x None))) (fun u v' => v' = VRef u) clone_opt (start w fuel c s) (pull w fuel false c)); auto.
      + intros u v' ->. reflexivity.
      + intros d s0. specialize (Ho d s0). destruct (pull w fuel false c d s0) as [[[v| |[]] d1] s1]; auto. destruct v; cbn; auto. right. eexists _, _. eauto.
      + intros u v' ->. reflexivity.
    - assert (E : e' = IRun (IMap (AC [p] (EVar x false)) c) (CFind (AC [PRef (PBind false x None)] cond))) by (destruct p as [| | | | | | |p]; try discriminate; try destruct p; try discriminate; cbn in H; congruence).
      subst e'. rewrite <- (Main (ie (IRun (IMap (AC [p] (EVar x false)) c) (CFind (AC [PRef (PBind false x None)] cond))) s) (PRef (PBind false x None)) eq (fun v => Some v) (start w fuel c s)
        (pull w fuel false (IMap (AC [p] (EVar x false)) c))); auto.
      + destruct (ie (IRun (IMap (AC [p] (EVar x false)) c) (CFind (AC [PRef (PBind false x None)] cond))) s) as [[] ?]; reflexivity.
      + intros u v' ->. reflexivity.
      + intros d s0. specialize (Ho d s0). cbn [pull]. destruct (pull w fuel false c d s0) as [[[v| |[]] d1] s1]; auto.
        destruct (match_pat p v) as [bs|] eqn:MP; auto. right. destruct (one_key p x v bs PV MP) as [u ->]. exists u, u. split; auto. split; auto.
        cbn [with_item]. rewrite (apply_scoped w fuel _ _ _ [(x, u)]) by (rewrite CloIdent.bind_one; exact MP).
        unfold scoped. assert (V : ev (EVar x false) (enter [(x, u)] s1) = (OVal u, enter [(x, u)] s1)) by (cbn; rewrite Nat.eqb_refl; reflexivity).
        rewrite V. unfold caught. cbn [fst snd given_val]. rewrite leave_enter. reflexivity.
      + intros u v' ->. reflexivity.
  Qed.
End Find.
