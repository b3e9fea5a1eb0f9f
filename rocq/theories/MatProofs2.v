(** manual_filter, manual_unwrap_or, manual_ok_err, option_if_let_else, if_then_some_else_none: proofs. *)
From Verif Require Export MatProofs.

(** The variable that the pattern binds is not assigned by the condition. *)
Definition cond_of (e : expr) : option (nat * expr) :=
  match e with
  | EMeth _ _ _ [AC [PBind _ x _] b] | EMatch _ _ ((PData _ [PBind _ x _] _, _, b) :: _) | EIfLet (PData _ [PBind _ x _] _) _ b _ => Some (x, b)
  | EMatch _ _ [_; (PData _ [PBind _ x _] _, _, b)] => Some (x, b)
  | _ => None
  end.
Definition kept (e : expr) : Prop := forall x b, cond_of e = Some (x, b) -> assigned x b = false.
(** A call `C()` of a constructor without arguments. *)
Definition ctor_call (e : expr) : bool := match e with ECallPath (PCtor _) [] => true | _ => false end.

Section Mat2.
  Variable w : world.
  Variable fuel : nat.
  Notation st := (state w).
  Notation ev := (eval w fuel).
  Notation ap := (apply w fuel).
  Notation sc := (scoped w fuel).
  Ltac recv r s := let o := fresh "o" in let v := fresh "v" in let s1 := fresh "s1" in
    destruct (ev r s) as [o s1] eqn:?; destruct o as [v| | | | |]; try reflexivity; cbn [andthen] in *.

  (** ** manual_filter *)
  Lemma unblock_eval : forall e a, unblock e = Some a -> forall s, ev e s = ev a s.
  Proof.
    intros e a H s. destruct e as [| | | | | | | | | | | | | |[|] [|] [b|]| | | | | |]; try discriminate. inversion H; subst.
    rewrite eval_block. cbn [estmts eopt]. pose proof (leave_eval w fuel a s) as L. destruct (ev a s) as [o s']. cbn in L. rewrite L.
    destruct o as [v|v|[l|] v| | |]; reflexivity.
  Qed.
  Lemma unblock_or : forall e s, ev (match unblock e with Some a => a | None => e end) s = ev e s.
  Proof. intros e s. destruct (unblock e) eqn:P; [|reflexivity]. symmetry. apply unblock_eval. exact P. Qed.
  Lemma none_of_eval : forall e s, none_of e = true -> ev e s = (OVal none_v, s).
  Proof.
    intros e s H. unfold none_of in H. destruct (unblock e) as [a|] eqn:P; [|discriminate]. rewrite (unblock_eval _ _ P).
    destruct a as [| | |[| |c] [|]| | | | | | | | | | | | | | | | |]; try discriminate. cbn in H. apply Nat.eqb_eq in H. subst. reflexivity.
  Qed.
  Lemma some_of_eval : forall x e, some_of x e = true -> reborrows w ->
    forall v s, lookup x (fst s) = Some v -> ev e s = (OVal (some_v v), s).
  Proof.
    intros x e H RB v s L. unfold some_of in H. destruct (unblock e) as [a|] eqn:P; [|discriminate]. rewrite (unblock_eval _ _ P).
    destruct (as_ctor c_some a) as [b|] eqn:A; [|discriminate]. apply as_ctor_spec in A. subst a. rewrite eval_ctor.
    destruct b as [y adj| | | | | | | | | | | | | | | | | | | |]; try discriminate. cbn in H. apply Nat.eqb_eq in H. subst y.
    cbn [eval]. rewrite L. cbn [andthen]. destruct adj; rewrite ?RB; reflexivity.
  Qed.
  Definition neg_if (b : bool) (e : expr) : expr := if b then ENot e else e.
  Lemma assigned_peel : forall x e a, unblock e = Some a -> assigned x a = assigned x e.
  Proof.
    intros x e a H. destruct e as [| | | | | | | | | | | | | |[|] [|] [b|]| | | | | |]; try discriminate. inversion H; subst. cbn. reflexivity.
  Qed.
  (** What `if c { Some(x) } else { None }` computes. *)
  Lemma cond_eval : forall p e c ng, get_cond_expr p e = Some (c, ng) -> reborrows w ->
    exists br x sub, p = PBind br x sub /\
    (assigned x e = false -> forall v s, lookup x (fst s) = Some v -> ev e s =
      andthen w (ev (neg_if ng c) s) (fun u s => match u with VBool b => (OVal (if b then some_v v else none_v), s) | _ => (OStuck, s) end)).
  Proof.
    intros p e c ng H RB. unfold get_cond_expr in H.
    assert (PE : forall s, ev (match unblock e with Some a => a | None => e end) s = ev e s) by (intros; apply unblock_or).
    assert (PA : forall x, assigned x (match unblock e with Some a => a | None => e end) = assigned x e)
      by (intros; destruct (unblock e) eqn:Q; [apply assigned_peel; exact Q|reflexivity]).
    destruct (match unblock e with Some a => a | None => e end) as [| | | | | | | | | | |c0 a [b|]| | | | | | | | |]; try discriminate.
    destruct p as [|br x sub| | | | | |]; try discriminate.
    exists br, x, sub. split; [reflexivity|]. intros A v s L. rewrite <- PE, eval_if. rewrite <- PA in A. cbn [assigned] in A.
    apply orb_false_iff in A. destruct A as [A _]. apply orb_false_iff in A. destruct A as [A _].
    pose proof (eval_lookup w fuel x c0 s A) as EL.
    destruct (some_of x a && none_of b || none_of a && some_of x b) eqn:Z; [|discriminate]. inversion H; subst c ng. clear H.
    assert (PC : ev (match unblock c0 with Some c => c | None => c0 end) s = ev c0 s) by apply unblock_or.
    apply orb_true_iff in Z. destruct Z as [Z|Z]; apply andb_true_iff in Z; destruct Z as [Z1 Z2].
    - assert (NO : none_of a = false).
      { unfold some_of, none_of in *. destruct (unblock a) as [a'|]; [|reflexivity]. destruct (as_ctor c_some a') eqn:AC; [|discriminate].
        apply as_ctor_spec in AC. subst a'. reflexivity. }
      rewrite NO. cbn [neg_if]. rewrite PC. destruct (ev c0 s) as [o s1] eqn:EC. cbn [fst snd] in EL. destruct o as [u| | | | |]; try reflexivity. cbn [andthen].
      destruct u as [|[]| | |]; try reflexivity; [|apply (none_of_eval b); exact Z2].
      apply (some_of_eval x); auto. rewrite <- L. exact EL.
    - rewrite Z1. cbn [neg_if eval]. rewrite PC. destruct (ev c0 s) as [o s1] eqn:EC. cbn [fst snd] in EL. destruct o as [u| | | | |]; try reflexivity. cbn [andthen].
      destruct u as [|[]| | |]; try reflexivity; [apply none_of_eval; exact Z1|].
      cbn [eopt]. apply (some_of_eval x); auto. rewrite <- L. exact EL.
  Qed.

  Theorem manual_filter_sound : forall e e', manual_filter true e = Some (Expr e') -> shadowed e = false -> kept e -> reborrows w ->
    forall s, typed w fuel TOption s e -> ok w (ev e s) -> ev e' s = ev e s.
  Proof.
    intros e e' H S K RB s T N. unfold manual_filter in H.
    destruct (check_with _ e) as [[[r0 by_ref] f]|] eqn:C; [|discriminate].
    destruct f as [p0|p0 b0]; [discriminate|]. cbn [add_ampersand] in H. inversion H; subst e'; clear H. unfold check_with in C.
    destruct (two_arms e) as [[[[[r p] a] q] b]|] eqn:TA; [|discriminate].
    destruct (two_eval w fuel _ _ _ _ _ _ s TA) as (SCR & SH & EV). specialize (SH S).
    destruct (some_arm p a q b) as [[[body sp] wn]|] eqn:SA; [|discriminate].
    destruct (some_arm_eval w fuel _ _ _ _ _ _ _ SA SH) as (EN & ES).
    destruct (get_cond_expr sp body) as [[c ng]|] eqn:GC; [|discriminate].
    destruct (movable [] c) eqn:MV; [|discriminate].
    destruct (cond_eval _ _ _ _ GC RB) as (br & x & sub & -> & CE).
    assert (AX : assigned x body = false).
    { apply (K x body). unfold cond_of. unfold some_arm in SA. clear - TA SA SH.
      destruct e as [| | | | | | | | | | | |p0 c0 a0 [b0|]|[] e0 [|[[p1 [|]] a1] [|[[q0 [|]] b0] [|]]]| | | | | | |]; try discriminate;
        cbn in TA; inversion TA; subst.
      - destruct (parse_pat p) as [[| |y]|] eqn:P; try discriminate.
        + destruct (none_body b); inversion SA; subst. apply parse_some in P. destruct P as (d & ->). reflexivity.
      - destruct (parse_pat p) as [[| |y]|] eqn:P; try discriminate.
        + apply parse_wild in P. subst. destruct SH; [tauto|discriminate].
        + apply parse_none in P. subst. destruct (parse_pat q0) as [[| |z]|] eqn:Q; try discriminate.
          apply parse_some in Q. destruct Q as (d & ->). destruct (none_body a); inversion SA; subst. reflexivity.
        + apply parse_some in P. destruct P as (d & ->). destruct (parse_pat q0) as [[| |z]|] eqn:Q; try discriminate;
            destruct (none_body b); inversion SA; subst; reflexivity. }
    assert (F : r0 = r /\ b0 = neg_if ng c /\ p0 = (match sub with None => PBind false x None | _ => PBind br x sub end) /\
                by_ref = match sub with None => br | _ => false end /\ (sub <> None -> wn = false /\ br = false)).
    { destruct sub as [sub|].
      - destruct (negb wn && _) eqn:Z in C; [|discriminate]. inversion C; subst. apply andb_true_iff in Z. destruct Z as [Z1 Z2].
        cbn [has_ref] in Z2. rewrite negb_orb in Z2. apply andb_true_iff in Z2. destruct Z2 as [Z2 _]. apply negb_true_iff in Z1, Z2.
        repeat split; auto.
      - destruct (pass_as_func x c); [discriminate|]. destruct (is_local x c && br); [discriminate|]. inversion C; subst. repeat split; auto; congruence. }
    destruct F as (-> & -> & -> & -> & F). clear C.
    rewrite EV in *. clear EV. set (by_ref := match sub with None => br | _ => false end) in *.
    destruct (ev r s) as [o s1] eqn:ER.
    assert (BAD : forall g, (forall v, o <> OVal v) -> match g with AE _ => False | _ => True end -> ev (EMeth TOption MFilter (with_ref by_ref r) [g]) s = (o, s1)).
    { intros g NV G. rewrite meth_f by exact G. rewrite (with_ref_bad w fuel _ _ _ _ ER NV). destruct o; try reflexivity. exfalso; eapply NV; reflexivity. }
    destruct o as [v| | | | |]; try (apply BAD; [discriminate|exact I]). clear BAD.
    cbn [andthen] in *. specialize (T r v s1 SCR ER). destruct (view_of TOption v) as [vw|] eqn:V; [|tauto]. clear T.
    apply view_cases in V. destruct (as_ref_some w fuel _ _ _ _ ER by_ref) as (RN & RS).
    rewrite meth_f by exact I. destruct V as [(y & -> & ->)|(-> & ->)].
    - rewrite (RS y eq_refl). rewrite ES in *. cbn [andthen].
      set (y' := if by_ref then VRef y else y) in *.
      change (view_of TOption (some_v y')) with (Some (Good y')). cbv beta iota.
      unfold method. change (view_of TOption (some_v y')) with (Some (Good y')). cbv beta iota.
      assert (MP : forall bs, match_pat (PBind br x sub) y = Some bs ->
        match_pat (match sub with None => PBind false x None | _ => PBind br x sub end) y' = Some bs /\ lookup x (bs ++ fst s1) = Some y').
      { intros bs M. unfold y', by_ref. destruct sub as [sub|].
        - destruct (F ltac:(discriminate)) as [_ ->]. split; [exact M|]. cbn in M. destruct (match_pat sub y); inversion M; subst. cbn. rewrite Nat.eqb_refl. reflexivity.
        - inversion M; subst. split; [destruct br; reflexivity|]. cbn. rewrite Nat.eqb_refl. destruct br; reflexivity. }
      destruct (match_pat (PBind br x sub) y) as [bs|] eqn:M.
      + destruct (MP bs eq_refl) as (M' & LK).
        rewrite (movable_apply w fuel _ _ _ bs) by (first [destruct ng; exact MV | rewrite bind_one; cbn [match_pat]; cbn [match_pat] in M'; rewrite M'; reflexivity]).
        unfold scoped. rewrite (CE AX y' (enter bs s1) LK). destruct (ev (neg_if ng c) (enter bs s1)) as [o s2].
        destruct o as [u| | | | |]; try reflexivity. cbn [andthen]. destruct u as [|[]| | |]; reflexivity.
      + destruct wn; [|destruct (N eq_refl)]. destruct sub as [sub|]; [destruct (F ltac:(discriminate)); discriminate|discriminate].
    - rewrite RN, EN by reflexivity. reflexivity.
  Qed.

  Theorem manual_filter_and_then_sound : forall r p b e', manual_filter_and_then true (EMeth TOption MAndThen r [AC [p] b]) = Some e' ->
    kept (EMeth TOption MAndThen r [AC [p] b]) -> reborrows w -> contains_return b = false -> has_ref p = false ->
    forall s, ok w (ev (EMeth TOption MAndThen r [AC [p] b]) s) -> ok w (ev e' s) -> ev e' s = ev (EMeth TOption MAndThen r [AC [p] b]) s.
  Proof.
    intros r p b e' H K RB NR HR s N N'. cbn [manual_filter_and_then] in H.
    destruct (get_cond_expr p b) as [[c ng]|] eqn:GC; [|discriminate]. inversion H; subst e'; clear H.
    destruct (cond_eval _ _ _ _ GC RB) as (br & x & sub & -> & CE).
    assert (AX : assigned x b = false) by (apply (K x b); reflexivity). specialize (CE AX).
    pose proof (no_return_quiet w fuel b NR) as Q.
    unfold ok in *. rewrite meth_f in * by exact I. rewrite meth_f in * by exact I. recv r s.
    destruct (view_of TOption v) as [vw|] eqn:V; [|reflexivity]. apply view_cases in V.
    destruct V as [(y & -> & ->)|(-> & ->)]; [|reflexivity].
    unfold method in *. change (view_of TOption (some_v y)) with (Some (Good y)) in *. cbv beta iota in *.
    cbn [apply] in *. rewrite !CloIdent.bind_one in *. change (match_pat (PRef (PBind br x sub)) (VRef y)) with (match_pat (PBind br x sub) y) in *.
    destruct (match_pat (PBind br x sub) y) as [bs|] eqn:M; [|reflexivity].
    set (y' := if br then VRef y else y).
    assert (LK : lookup x (bs ++ fst s1) = Some y').
    { unfold y'. destruct sub as [sub|]; cbn in M.
      - destruct (match_pat sub y); inversion M; subst. cbn. rewrite Nat.eqb_refl. reflexivity.
      - inversion M; subst. cbn. rewrite Nat.eqb_refl. reflexivity. }
    specialize (Q (enter bs s1)). rewrite (CE y' (enter bs s1) LK) in *. fold (neg_if ng c) in *.
    destruct (ev (neg_if ng c) (enter bs s1)) as [o s2].
    destruct o as [u| | | | |]; try reflexivity; cbn [andthen] in *; try (exfalso; apply (Q v eq_refl)).
    cbn [has_ref] in HR. apply orb_false_iff in HR. destruct HR as [-> _].
    destruct u as [|[]| | |]; try reflexivity.
  Qed.

  (** ** manual_unwrap_or, manual_unwrap_or_default *)
  Lemma peel_val_at : forall e v s, ev (peel_blocks e) s = (OVal v, s) -> ev e s = (OVal v, s).
  Proof.
    fix IH 1. intros e v s H. destruct e as [| | | | | | | | | | | | | |l [|] [a|]| | | | | |]; try (apply H).
    apply block_val. apply IH. exact H.
  Qed.
  Lemma peel_calm_at : forall e s, calm w [] (ev (peel_blocks e) s) -> ev e s = ev (peel_blocks e) s.
  Proof.
    fix IH 1. intros e s H. destruct e as [| | | | | | | | | | | | | |l [|] [a|]| | | | | |]; try reflexivity.
    cbn [peel_blocks] in *. rewrite block_calm; [apply IH; exact H|]. rewrite (IH a s H). exact H.
  Qed.
  Lemma peel_peel : forall e, peel_blocks (peel_blocks e) = peel_blocks e.
  Proof. fix IH 1. intros e. destruct e as [| | | | | | | | | | | | | |l [|] [a|]| | | | | |]; try reflexivity. exact (IH a). Qed.
  Lemma local_eval : forall x e v s, reborrows w -> is_local x (peel_blocks e) = true -> ev e (enter [(x, v)] s) = (OVal v, enter [(x, v)] s).
  Proof.
    intros x e v s RB H. apply peel_val_at. destruct (peel_blocks e) as [y adj| | | | | | | | | | | | | | | | | | | |]; try discriminate.
    cbn in H. apply Nat.eqb_eq in H. subst y. cbn [eval enter fst app lookup]. rewrite Nat.eqb_refl. destruct adj; rewrite ?RB; reflexivity.
  Qed.
  (** A constant is the same everywhere. *)
  Lemma constant_eval : forall e, constant e = true -> exists o, (forall s, ev e s = (o, s)) /\ (o = OStuck \/ exists v, o = OVal v).
  Proof.
    induction e using expr_ind'; intros C; try discriminate.
    - exists (OVal (VInt z)). split; [reflexivity|eauto].
    - exists (OVal (VBool b)). split; [reflexivity|eauto].
    - assert (G : forallb constant es = true) by (destruct k; [exact C|exact C|discriminate]).
      assert (X : (exists vs, forall s k, evals w fuel es s k = k vs s) \/ (forall s k, evals w fuel es s k = (OStuck, s))).
      { clear C. induction H as [|a es A _ IH]; [left; exists []; reflexivity|]. cbn [forallb] in G. apply andb_true_iff in G. destruct G as [G1 G2].
        destruct (A G1) as (o & EO & [->|(v & ->)]); [right; intros; cbn [evals]; rewrite EO; reflexivity|].
        destruct (IH G2) as [(vs & Q)|Q].
        - left. exists (v :: vs). intros. cbn [evals]. rewrite EO. cbn [andthen]. rewrite Q. reflexivity.
        - right. intros. cbn [evals]. rewrite EO. cbn [andthen]. rewrite Q. reflexivity. }
      destruct X as [(vs & Q)|Q].
      + exists (OVal (VData k vs)). split; [|eauto]. intros. rewrite eval_data, Q. reflexivity.
      + exists OStuck. split; [|auto]. intros. rewrite eval_data, Q. reflexivity.
    - destruct (IHe C) as (o & EO & [->|(v & ->)]).
      + exists OStuck. split; [|auto]. intros. cbn [eval]. rewrite EO. reflexivity.
      + exists (match v with VBool b => OVal (VBool (negb b)) | _ => OStuck end).
        split; [intros; cbn [eval]; rewrite EO; cbn [andthen]; destruct v; reflexivity|]. destruct v; eauto.
    - destruct ss; [|discriminate]. destruct t as [a|]; [|discriminate]. cbn in C, H0. destruct (H0 C) as (o & EO & D).
      exists o. split; [|exact D]. intros. rewrite eval_block. cbn [estmts eopt]. rewrite EO, leave_self.
      destruct D as [->|(v & ->)]; reflexivity.
  Qed.
  Lemma get_some_spec : forall p t x, get_some p = Some (t, x) -> exists sub d, p = PData (KCtor (good_ctor t)) [PBind false x sub] d /\ t <> TBool.
  Proof.
    intros p t x H. destruct p as [| |[| |c] [|[|[] y sub| | | | | |] [|]] d| | | | |]; try discriminate. cbn in H.
    destruct (Nat.eqb_spec c c_some); [inversion H; subst; exists sub, d; split; [reflexivity|discriminate]|].
    destruct (Nat.eqb_spec c c_ok); inversion H; subst. exists sub, d. split; [reflexivity|discriminate].
  Qed.
  (** What both alternatives are. *)
  Lemma some_none_eval : forall e t r x a b, some_and_none e = Some (t, r, x, a, b) -> at_pattern e = false ->
    t <> TBool /\ scrutinee e = Some r /\ (exists b0, In b0 (bodies e) /\ peel_blocks b = b0) /\
    exists a0 b0, peel_blocks a0 = peel_blocks a /\ peel_blocks b0 = peel_blocks b /\
    forall s v s1, ev r s = (OVal v, s1) -> (ev e s = (OStuck, s1) \/
      (forall y, view_of t v = Some (Good y) -> ev e s = sc [(x, y)] a0 s1) /\
      (forall us, view_of t v = Some (Bad us) -> exists bs, ev e s = sc bs b0 s1)).
  Proof.
    intros e t r x a b H A.
    assert (GV : forall t v y, t <> TBool -> view_of t v = Some (Good y) -> v = VData (KCtor (good_ctor t)) [y]) by (intros; eapply view_good; eauto).
    assert (BV : forall t v us, t <> TBool -> view_of t v = Some (Bad us) -> exists c vs, v = VData (KCtor c) vs /\ Nat.eqb (good_ctor t) c = false).
    { clear. intros t v us T V. destruct t; [| |tauto].
      - apply view_cases in V. destruct V as [(y & -> & V)|(-> & V)]; [discriminate|]. exists c_none, []. split; reflexivity.
      - apply view_cases in V. destruct V as [(y & -> & V)|(u & -> & V)]; [discriminate|]. exists c_err, [u]. split; reflexivity. }
    destruct e as [| | | | | | | | | | | |p0 c0 a0 [b0|]|[] e0 [|[[p1 [|]] a1] [|[[q0 [|]] b0] [|]]]| | | | | | |]; try discriminate; cbn [some_and_none] in H.
    - destruct (get_some p0) as [[t0 x0]|] eqn:G; inversion H; subst. apply get_some_spec in G. destruct G as (sub & d & -> & T).
      cbn in A. destruct sub as [sub|]; [discriminate|]. split; [exact T|]. split; [reflexivity|].
      split; [exists (peel_blocks b0); split; [right; left; reflexivity|apply peel_peel]|].
      exists a0, b0. split; [symmetry; apply peel_peel|]. split; [symmetry; apply peel_peel|].
      intros s v s1 E. right. rewrite iflet2, E. cbn [andthen]. unfold arms2. split.
      + intros y V. apply GV in V; [|exact T]. subst v. rewrite match_one. reflexivity.
      + intros us V. apply BV in V; [|exact T]. destruct V as (c & vs & -> & N). rewrite match_other by exact N. eauto.
    - assert (ALT : get_some q0 = Some (t, x) -> get_none p1 false = true -> r = e0 -> a = b0 -> b = a1 -> get_none p1 false = true ->
        t <> TBool /\ scrutinee (EMatch false e0 [(p1, None, a1); (q0, None, b0)]) = Some r /\
        (exists b2, In b2 (bodies (EMatch false e0 [(p1, None, a1); (q0, None, b0)])) /\ peel_blocks b = b2) /\
        exists a2 b2, peel_blocks a2 = peel_blocks a /\ peel_blocks b2 = peel_blocks b /\
        forall s v s1, ev r s = (OVal v, s1) -> (ev (EMatch false e0 [(p1, None, a1); (q0, None, b0)]) s = (OStuck, s1) \/
          (forall y, view_of t v = Some (Good y) -> ev (EMatch false e0 [(p1, None, a1); (q0, None, b0)]) s = sc [(x, y)] a2 s1) /\
          (forall us, view_of t v = Some (Bad us) -> exists bs, ev (EMatch false e0 [(p1, None, a1); (q0, None, b0)]) s = sc bs b2 s1))).
      { intros G GN -> -> -> _. apply get_some_spec in G. destruct G as (sub & d & -> & T). split; [exact T|]. split; [reflexivity|].
        assert (sub = None). { cbn in A. destruct sub; [|reflexivity]. cbn in A. rewrite orb_true_r in A. discriminate. } subst sub.
        split; [exists (peel_blocks a1); split; [left; reflexivity|reflexivity]|].
        exists b0, a1. split; [reflexivity|]. split; [reflexivity|]. intros s v s1 E. rewrite match2, E. cbn [andthen]. unfold arms2.
        assert (PN : forall y, match_pat p1 (VData (KCtor (good_ctor t)) [y]) = None).
        { intros y. destruct p1 as [| |[| |c] ps d1| | | | |]; try discriminate. cbn [get_none] in GN. apply orb_true_iff in GN.
          apply match_other. destruct GN as [GN|GN]; [apply andb_true_iff in GN; destruct GN as [GN _]|]; apply Nat.eqb_eq in GN; subst c; destruct t; try reflexivity; destruct (T eq_refl). }
        destruct (match_pat p1 v) as [bs|] eqn:M.
        - right. split; [|eauto]. intros y V. apply GV in V; [|exact T]. subst v. rewrite PN in M. discriminate.
        - destruct (match_pat (PData (KCtor (good_ctor t)) [PBind false x None] d) v) as [bs|] eqn:M2; [|left; reflexivity]. right. split.
          + intros y V. apply GV in V; [|exact T]. subst v. rewrite match_one in M2. inversion M2; subst. reflexivity.
          + intros us V. apply BV in V; [|exact T]. destruct V as (c & vs & -> & N). rewrite match_other in M2 by exact N. discriminate. }
      destruct (get_some p1) as [[t0 x0]|] eqn:G.
      + destruct (get_none q0 true) eqn:GN.
        * inversion H; subst. apply get_some_spec in G. destruct G as (sub & d & -> & T).
          assert (sub = None). { cbn in A. destruct sub; [discriminate|reflexivity]. } subst sub. split; [exact T|]. split; [reflexivity|].
          split; [exists (peel_blocks b); split; [right; left; reflexivity|reflexivity]|].
          exists a, b. split; [reflexivity|]. split; [reflexivity|]. intros s v s1 E. rewrite match2, E. cbn [andthen]. unfold arms2.
          destruct (match_pat (PData (KCtor (good_ctor t)) [PBind false x None] d) v) as [bs|] eqn:M.
          -- right. split.
             ++ intros y V. apply GV in V; [|exact T]. subst v. rewrite match_one in M. inversion M; subst. reflexivity.
             ++ intros us V. apply BV in V; [|exact T]. destruct V as (c & vs & -> & N). rewrite match_other in M by exact N. discriminate.
          -- destruct (match_pat q0 v) as [bs|]; [|left; reflexivity]. right. split; [|eauto].
             intros y V. apply GV in V; [|exact T]. subst v. rewrite match_one in M. discriminate.
        * destruct (get_none p1 false) eqn:GN2; [|discriminate]. destruct (get_some q0) as [[t1 x1]|]; inversion H; subst. apply ALT; auto.
      + destruct (get_none p1 false) eqn:GN2; [|discriminate]. destruct (get_some q0) as [[t1 x1]|]; inversion H; subst. apply ALT; auto.
  Qed.

  Lemma default_plain : forall d, default_equivalent d = true -> default_call d = true \/ exists u, plain_default u /\ forall s, ev d s = (OVal u, s).
  Proof.
    induction d using expr_ind'; intros C; try discriminate.
    - right. apply Z.eqb_eq in C. subst. exists (VInt 0). split; [constructor|reflexivity].
    - right. destruct b; [discriminate|]. exists (VBool false). split; [constructor|reflexivity].
    - assert (G : forallb default_equivalent es = true -> existsb default_call es = true \/ exists vs, Forall plain_default vs /\ forall s k, evals w fuel es s k = k vs s).
      { clear C. induction H as [|a es A _ IH]; intros G; [right; exists []; split; [constructor|reflexivity]|]. cbn [forallb] in G. apply andb_true_iff in G. destruct G as [G1 G2].
        cbn [existsb]. destruct (A G1) as [->|(u & P & EU)]; [auto|]. destruct (IH G2) as [->|(vs & PS & Q)]; [left; apply orb_true_r|]. right. exists (u :: vs). split; [constructor; auto|].
        intros. cbn [evals]. rewrite EU. cbn [andthen]. rewrite Q. reflexivity. }
      assert (T : forall vs, k = KTup \/ k = KArr -> Forall plain_default vs -> (forall s k, evals w fuel es s k = k vs s) ->
        default_call (EData k es) = true \/ exists u, plain_default u /\ forall s, ev (EData k es) s = (OVal u, s)).
      { intros vs K P Q. right. exists (VData k vs). split; [constructor; auto|]. intros. rewrite eval_data, Q. reflexivity. }
      destruct k as [| |c].
      + destruct (G C) as [E|(vs & P & Q)]; [left; exact E|]. eapply T; eauto.
      + destruct (G C) as [E|(vs & P & Q)]; [left; exact E|]. eapply T; eauto.
      + destruct es; [|discriminate]. apply Nat.eqb_eq in C. subst c. right. exists (VData (KCtor c_none) []). split; [constructor|]. intros. rewrite eval_data. reflexivity.
    - left. destruct es; [|discriminate]. exact C.
    - destruct ss; [|discriminate]. destruct t as [a|]; [|discriminate]. cbn in C, H0. destruct (H0 C) as [E|(u & P & EU)]; [left; exact E|].
      right. exists u. split; [exact P|]. intros. rewrite eval_block. cbn [estmts eopt]. rewrite EU, leave_self. reflexivity.
  Qed.
  Theorem manual_unwrap_or_sound : forall dfl e t m r args, manual_unwrap_or dfl e = Some (EMeth t m r args) ->
    at_pattern e = false -> reborrows w ->
    has_that_default w fuel e ->
    forall s, typed w fuel t s e -> ok w (ev e s) -> ok w (ev (EMeth t m r args) s) -> ev (EMeth t m r args) s = ev e s.
  Proof.
    intros dfl e t m r args H A RB D s T N N'. unfold manual_unwrap_or in H.
    destruct (some_and_none e) as [[[[[t0 r0] x] a] b]|] eqn:SN; [|discriminate].
    destruct (some_none_eval _ _ _ _ _ _ SN A) as (TB & SCR & (d & IN & PD) & a0 & b0 & PA & PB & EV).
    destruct (is_local x (peel_blocks a)) eqn:L; [|discriminate].
    assert (LE : forall y s, sc [(x, y)] a0 s = (OVal y, s)).
    { intros y s1. apply scoped_val. apply local_eval; auto. rewrite PA. exact L. }
    assert (R : t0 = t /\ r0 = r).
    { destruct (dfl && _) in H; [inversion H; auto|]. destruct (unadjusted a && constant b); inversion H; auto. } destruct R as [-> ->].
    unfold ok in *. destruct (ev r s) as [o s1] eqn:ER.
    assert (BADE : forall g, (forall v, o <> OVal v) -> ev e s = (o, s1) -> ev (EMeth t m r g) s = (o, s1) -> ev (EMeth t m r g) s = ev e s) by (intros; congruence).
    assert (SCRE : (forall v, o <> OVal v) -> ev e s = (o, s1)).
    { intros NV. destruct e as [| | | | | | | | | | | |p0 c0 a1 b1|z e0 arms| | | | | | |]; try discriminate; inversion SCR; subst.
      - rewrite eval_iflet, ER. destruct o; try reflexivity. exfalso; eapply NV; reflexivity.
      - rewrite eval_match, ER. destruct o; try reflexivity. exfalso; eapply NV; reflexivity. }
    assert (SCRM : (forall v, o <> OVal v) -> ev (EMeth t m r args) s = (o, s1)).
    { intros NV. rewrite eval_meth, ER. destruct o; try reflexivity. exfalso; eapply NV; reflexivity. }
    destruct o as [v| | | | |]; try (rewrite SCRE, SCRM by discriminate; reflexivity). clear BADE SCRE SCRM.
    specialize (EV s v s1 ER). specialize (T r v s1 SCR ER). destruct (view_of t v) as [vw|] eqn:V; [|tauto].
    destruct EV as [EV|[EG EB]]; [rewrite EV in N; destruct (N eq_refl)|].
    destruct (dfl && default_equivalent (peel_blocks b)) eqn:DF.
    - inversion H; subst m args. rewrite meth_0, ER. cbn [andthen]. rewrite V. unfold method. rewrite V.
      destruct vw as [y|us]; [rewrite (EG y eq_refl), LE; destruct (is_bool_lit (peel_blocks b)); reflexivity|].
      destruct (EB us eq_refl) as (bs & EB'). rewrite EB'. apply andb_true_iff in DF. destruct DF as [_ DF].
      destruct (is_bool_lit (peel_blocks b)) eqn:BL.
      + symmetry. apply scoped_val. apply peel_val_at. rewrite PB.
        destruct (peel_blocks b) as [| |[|]| | | | | | | | | | | | | | | | | |]; try discriminate. reflexivity.
      + assert (CD : forall s, ev (peel_blocks b) s = calls w dflt [] s) by (intros s0; subst d; destruct (D _ IN) as [D1 D2]; destruct (default_plain _ DF) as [DC|(u & P & EU)]; [apply D2; auto|rewrite EU; symmetry; apply D1; auto]).
        unfold scoped. rewrite (peel_calm_at b0) by (rewrite PB, CD; apply calm_calls). rewrite PB, CD.
        unfold calls. cbn [enter fst snd]. destruct (call w dflt [] (snd s1)) as [c z].
        f_equal. unfold leave. cbn [fst snd]. f_equal. symmetry. exact (f_equal fst (leave_enter w bs s1)).
    - destruct (unadjusted a && constant b) eqn:C; [|discriminate]. inversion H; subst m args. apply andb_true_iff in C. destruct C as [_ C].
      destruct (constant_eval b C) as (o & CE & CO).
      assert (CP : forall s, ev (peel_blocks b) s = (o, s)).
      { intros s0. rewrite <- CE. symmetry. apply peel_calm_at. clear - C CE CO. revert o C CE CO. generalize dependent b. fix IH 1. intros b o C CE CO.
        destruct b as [| | | | | | | | | | | | | |l [|] [a1|]| | | | | |]; try (cbn [peel_blocks]; rewrite CE; destruct CO as [->|(v & ->)]; exact I).
        cbn [peel_blocks]. destruct (constant_eval a1 C) as (o1 & CE1 & CO1). apply (IH a1 o1); auto. }
      rewrite meth_e, ER in *. cbn [andthen] in *. rewrite V in *. rewrite CP in *. destruct CO as [->|(u & ->)]; [destruct (N' eq_refl)|].
      cbn [andthen] in *. unfold method in *. rewrite V in *.
      destruct vw as [y|us]; [rewrite (EG y eq_refl), LE; reflexivity|].
      destruct (EB us eq_refl) as (bs & EB'). rewrite EB'. symmetry. apply scoped_val. apply peel_val_at. rewrite PB. apply CP.
  Qed.

  (** ** manual_ok_err *)
  Lemma ok_arm_spec : forall p a k, ok_arm p a = Some k -> reborrows w -> exists x d, p = PData (KCtor (if k then c_ok else c_err)) [PBind false x None] d /\
    forall v s, sc [(x, v)] a s = (OVal (some_v v), s).
  Proof.
    intros p a k H RB. unfold ok_arm in H. destruct (ok_or_err p) as [[k0 x]|] eqn:O; [|discriminate].
    unfold given in H. destruct (some_ident x a) eqn:S; inversion H; subst k0.
    destruct p as [| |[| |c] [|[|[] y [|]| | | | | |] [|]] d| | | | |]; try discriminate. cbn in O. exists x, d. split.
    - destruct (Nat.eqb_spec c c_ok); [inversion O; subst; reflexivity|]. destruct (Nat.eqb_spec c c_err); inversion O; subst. reflexivity.
    - intros v s. apply scoped_val. unfold some_ident in S. destruct (as_ctor c_some (peel_blocks a)) as [b|] eqn:AC; [|discriminate].
      apply as_ctor_spec in AC. apply peel_val_at. rewrite AC, eval_ctor. rewrite (local_eval x b v s RB); [reflexivity|].
      destruct b; try discriminate. exact S.
  Qed.
  Lemma variant_match : forall p k v bs vw, variant_or_wildcard p false k = true -> match_pat p v = Some bs -> view_of TResult v = Some vw ->
    match vw with Good _ => k = false | Bad _ => k = true end.
  Proof.
    fix IH 1. intros p k v bs vw H M V. destruct p as [|b x [q|]|[| |c] ps d| | | | |p]; try discriminate.
    - cbn [variant_or_wildcard] in H. cbn in M. destruct (match_pat q v) eqn:Q; [|discriminate]. eapply IH; eauto.
    - apply view_cases in V. cbn [variant_or_wildcard] in H.
      assert (E : Bool.eqb (Nat.eqb c c_err) k = true) by (destruct ps as [|]; [destruct d; [exact H|discriminate]|exact H]).
      apply Bool.eqb_prop in E. destruct (Nat.eqb_spec c c_err) as [->|NE]; subst k.
      + destruct V as [(y & -> & ->)|(u & -> & ->)]; [|reflexivity]. unfold ok_v in M; rewrite match_other in M by reflexivity. discriminate.
      + destruct V as [(y & -> & ->)|(u & -> & ->)]; [reflexivity|]. unfold err_v in M; rewrite match_other in M; [discriminate|]. apply Nat.eqb_neq. exact NE.
    - apply view_cases in V. destruct V as [(y & -> & ->)|(u & -> & ->)]; discriminate.
  Qed.
  Theorem manual_ok_err_sound : forall e e', manual_ok_err e = Some e' -> reborrows w ->
    forall s, typed w fuel TResult s e -> ok w (ev e s) -> ev e' s = ev e s.
  Proof.
    intros e e' H RB s T N. unfold manual_ok_err in H.
    assert (SUGG : forall r (k : bool) v s1 vw, ev r s = (OVal v, s1) -> view_of TResult v = Some vw ->
      ev (EMeth TResult (if k then MOk else MErr) r []) s =
      (OVal (match vw with Good y => if k then some_v y else none_v | Bad us => match k, us with false, [u] => some_v u | _, _ => none_v end end), s1)).
    { intros r k v s1 vw ER V. rewrite meth_0, ER. cbn [andthen]. rewrite V. unfold method. rewrite V. apply view_cases in V.
      destruct V as [(y & -> & ->)|(u & -> & ->)]; destruct k; reflexivity. }
    assert (SUGGB : forall r (k : bool) o s1, ev r s = (o, s1) -> (forall v, o <> OVal v) -> ev (EMeth TResult (if k then MOk else MErr) r []) s = (o, s1)).
    { intros r k o s1 ER NV. rewrite meth_0, ER. destruct o; try reflexivity. exfalso; eapply NV; reflexivity. }
    assert (MP : forall (k : bool) x d v vw, view_of TResult v = Some vw -> match_pat (PData (KCtor (if k then c_ok else c_err)) [PBind false x None] d) v =
      match vw with Good y => if k then Some [(x, y)] else None | Bad us => match k, us with false, [u] => Some [(x, u)] | _, _ => None end end).
    { intros k x d v vw V. apply view_cases in V. destruct V as [(y & -> & ->)|(u & -> & ->)]; destruct k; try apply match_one; apply match_other; reflexivity. }
    assert (NB : forall bs b s, none_body b = true -> sc bs b s = (OVal none_v, s)) by (intros; apply scoped_val; apply none_eval; auto).
    destruct e as [| | | | | | | | | | | |p r a [b|]|[] r [|[[p [|]] a] [|[[q [|]] b] [|]]]| | | | | | |]; try discriminate.
    - destruct (ok_arm p a) as [k|] eqn:O; [|discriminate]. unfold given in H. destruct (none_body b) eqn:B; inversion H; subst e'.
      destruct (ok_arm_spec _ _ _ O RB) as (x & d & -> & SE). rewrite iflet2 in *.
      destruct (ev r s) as [o s1] eqn:ER. destruct o as [v| | | | |]; try (apply SUGGB; [exact ER|discriminate]). cbn [andthen] in *.
      specialize (T r v s1 eq_refl ER). destruct (view_of TResult v) as [vw|] eqn:V; [|tauto]. rewrite (SUGG r k v s1 vw ER V).
      unfold arms2. rewrite (MP k x d v vw V). apply view_cases in V. destruct V as [(y & -> & ->)|(u & -> & ->)]; destruct k; rewrite ?SE, ?NB by exact B; reflexivity.
    - destruct (ok_arm p a) as [k|] eqn:O.
      + unfold given in H. destruct (variant_or_wildcard q true k && none_body b) eqn:B; inversion H; subst e'. apply andb_true_iff in B. destruct B as [_ B].
        destruct (ok_arm_spec _ _ _ O RB) as (x & d & -> & SE). rewrite match2 in *.
        destruct (ev r s) as [o s1] eqn:ER. destruct o as [v| | | | |]; try (apply SUGGB; [exact ER|discriminate]). cbn [andthen] in *.
        specialize (T r v s1 eq_refl ER). destruct (view_of TResult v) as [vw|] eqn:V; [|tauto]. rewrite (SUGG r k v s1 vw ER V).
        unfold arms2 in *. rewrite (MP k x d v vw V) in *. destruct (match_pat q v) as [bs|].
        * apply view_cases in V. destruct V as [(y & -> & ->)|(u & -> & ->)]; destruct k; rewrite ?SE, ?NB by exact B; reflexivity.
        * apply view_cases in V. destruct V as [(y & -> & ->)|(u & -> & ->)]; destruct k; rewrite ?SE; try reflexivity; destruct (N eq_refl).
      + destruct (ok_arm q b) as [k|] eqn:O2; [|discriminate].
        unfold given in H. destruct (variant_or_wildcard p false k && none_body a) eqn:B; inversion H; subst e'. apply andb_true_iff in B. destruct B as [B0 B].
        destruct (ok_arm_spec _ _ _ O2 RB) as (x & d & -> & SE). rewrite match2 in *.
        destruct (ev r s) as [o s1] eqn:ER. destruct o as [v| | | | |]; try (apply SUGGB; [exact ER|discriminate]). cbn [andthen] in *.
        specialize (T r v s1 eq_refl ER). destruct (view_of TResult v) as [vw|] eqn:V; [|tauto]. rewrite (SUGG r k v s1 vw ER V).
        unfold arms2 in *. destruct (match_pat p v) as [bs|] eqn:M.
        * pose proof (variant_match _ _ _ _ _ B0 M V) as VM. rewrite NB by exact B. destruct vw; subst k; reflexivity.
        * rewrite (MP k x d v vw V) in *. apply view_cases in V. destruct V as [(y & -> & ->)|(u & -> & ->)]; destruct k; rewrite ?SE; try reflexivity; destruct (N eq_refl).
  Qed.
End Mat2.
