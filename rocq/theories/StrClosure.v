(** A closure that compares its character with others, and those characters as a pattern. *)
From Verif Require Export StrChars.

Section Proofs.
  Context (wd : world).
  Notation eval := (eval wd).
  Notation st := (st wd).
  Notation same := (same wd).

  Definition as_char (v : val) : out := match v with VChar _ => OVal v | _ => OStuck end.
  (** The operands of the comparisons: they do nothing but give a character. *)
  Lemma operand_shape x : char_span x = true -> exists o : env -> out, (forall s : st, eval x s = (o (fst s), s)) /\
    (forall s s' : env, (forall y, uses y x = true -> s y = s' y) -> o s = o s') /\ (forall inner s, ok_vars inner x s = true -> (forall y, uses y x = true -> inner y = false) -> exists d, o s = OVal (VChar d)).
  Proof.
    unfold char_span. intros H. apply andb_prop in H. destruct H as [T E].
    induction x as [y t|l|f t es F|o es F| | | | | | | | | | ] using ex_ind'; try discriminate E.
    - destruct t; try discriminate T. exists (fun s => typed TChar (OVal (s y))). split; [reflexivity|]. split.
      + intros s s' A. rewrite (A y); [reflexivity|]. cbn. apply Nat.eqb_refl.
      + intros inner s K A. cbn in K. rewrite (A y) in K by (cbn; apply Nat.eqb_refl). cbn in K. cbn beta. destruct (s y); try discriminate K. eexists. reflexivity.
    - destruct l; try discriminate T. exists (fun _ => OVal (VChar c)). split; [reflexivity|]. split; [reflexivity|]. eauto.
    - cbn in E. destruct o; try discriminate E; destruct es as [|a [|]]; try discriminate E; inversion F as [|? ? I _]; subst; try discriminate T.
      + assert (Ta : ty_eqb (ty_of a) TChar = true) by (cbn in T; destruct (ty_of a); try discriminate T; reflexivity). destruct (I Ta E) as (g & G1 & G2 & G3). exists (fun s => match g s with OVal v => each_code to_lower v | o => o end). split; [|split].
        * intros s. cbn [StrSpec.eval each]. rewrite G1. destruct (g (fst s)); reflexivity.
        * intros s s' A. rewrite (G2 s s'); [reflexivity|]. intros y U. apply A. cbn. rewrite U. reflexivity.
        * intros inner s K A. destruct (G3 inner s) as [d ->]; [cbn in K; rewrite andb_true_r in K; exact K| |cbn; eauto]. intros y U. apply A. cbn. rewrite U. reflexivity.
      + assert (Ta : ty_eqb (ty_of a) TChar = true) by (cbn in T; destruct (ty_of a); try discriminate T; reflexivity). destruct (I Ta E) as (g & G1 & G2 & G3). exists (fun s => match g s with OVal v => each_code to_upper v | o => o end). split; [|split].
        * intros s. cbn [StrSpec.eval each]. rewrite G1. destruct (g (fst s)); reflexivity.
        * intros s s' A. rewrite (G2 s s'); [reflexivity|]. intros y U. apply A. cbn. rewrite U. reflexivity.
        * intros inner s K A. destruct (G3 inner s) as [d ->]; [cbn in K; rewrite andb_true_r in K; exact K| |cbn; eauto]. intros y U. apply A. cbn. rewrite U. reflexivity.
  Qed.

  (** In each comparison the character is on one side only. *)
  Fixpoint one_sided (c : nat) (e : ex) : Prop :=
    match e with
    | XOp (OEq _) [a; b] => uses c a && uses c b = false
    | XOr a b => one_sided c a /\ one_sided c b
    | _ => True
    end.
  (** Operand [x] gives [d] before the call, and in the closure whatever its character is. *)
  Definition gives (c : nat) (t u : st) (x : ex) (d : chr) : Prop :=
    eval x t = (OVal (VChar d), t) /\ forall ch, eval x (upd (fst u) c (VChar ch), snd u) = (OVal (VChar d), (upd (fst u) c (VChar ch), snd u)).
  Lemma gives_lit c t u d : gives c t u (XLit (LChar d)) d. Proof. split; reflexivity. Qed.
  Lemma one_of_app a b ch : one_of (a ++ b) ch = one_of a ch || one_of b ch. Proof. apply existsb_app. Qed.
  Lemma pat_chars_sound c t u : forall p cs, pat_chars p = Some cs -> exists ds, Forall2 (gives c t u) cs ds /\ forall ch b, mmatch p (VChar ch) = Some b -> b = one_of ds ch.
  Proof.
    fix IH 1. intros p cs H. destruct p as [l|lo hi incl|ps|]; try discriminate H.
    - destruct l; injection H as <-; try (exists []; split; [constructor|]; intros ch ? M; discriminate M). exists [c0]. split; [constructor; [apply gives_lit|constructor]|]. intros ch b M. cbn in M |- *. injection M as <-. rewrite orb_false_r. apply N.eqb_sym.
    - revert cs H. induction ps as [|p ps IHp]; intros cs H; [injection H as <-; exists []; split; [constructor|]; intros ch b M; injection M as <-; reflexivity|].
      cbn in H. destruct (pat_chars p) as [a|] eqn:P; [|discriminate H]. match type of H with match ?g with _ => _ end = _ => destruct g as [b|] eqn:Q; [|discriminate H] end. injection H as <-.
      destruct (IH p a P) as (ds & F & S). destruct (IHp b Q) as (es & G & T). exists (ds ++ es). split; [apply Forall2_app; assumption|]. intros ch r M. rewrite one_of_app. cbn in M.
      destruct (mmatch p (VChar ch)) as [x|] eqn:X; [|discriminate M]. match type of M with match ?g with _ => _ end = _ => destruct g as [y|] eqn:Y; [|discriminate M] end. injection M as <-. rewrite (S ch x X), (T ch y Y). reflexivity.
  Qed.
  Section Body.
    Variables (c : nat) (t u : st) (top : ex).
    Hypothesis Keep : forall x, char_span x = true -> uses c x = false -> (forall y, uses y x = true -> uses y top = true) -> ok_vars (Nat.eqb c) x (fst t) = true -> exists d, gives c t u x d.
    Lemma compared_sound : forall e cs, compared c e = Some cs -> one_sided c e -> ok_vars (Nat.eqb c) e (fst t) = true -> (forall y, uses y e = true -> uses y top = true) ->
      exists ds, Forall2 (gives c t u) cs ds /\ forall ch, let s := (upd (fst u) c (VChar ch), snd u) in is_bool (fst (eval e s)) = true -> truth (fst (eval e s)) = one_of ds ch /\ snd (eval e s) = s.
    Proof.
      assert (EQ : forall l r, is_local c l && char_span r = true -> uses c l && uses c r = false -> ok_vars (Nat.eqb c) r (fst t) = true -> (forall y, uses y r = true -> uses y top = true) -> exists d, gives c t u r d /\ exists ty, l = XVar c ty).
      { intros l r H S K UT. apply andb_prop in H. destruct H as [L C]. destruct l as [y ty| | | | | | | | | | | | |]; try discriminate L. cbn in L. apply Nat.eqb_eq in L. subst y. cbn in S. rewrite Nat.eqb_refl in S. destruct (Keep r C S UT K) as [d G]. eauto. }
      induction e as [y ty|l|f ty es F|o es F|m pre d body post Fp Hb Fq|e He|a b Ha Hb|c' a b Hc Ha Hb|x e a b He Ha Hb|x e b He Hb|x y e b He Hb|x e He|a b Ha Hb|x] using ex_ind'; intros cs H S K UT; try discriminate H.
      - destruct o; try discriminate H.
        + destruct ne; [discriminate H|]. destruct es as [|l [|r [|]]]; try discriminate H. cbn in H. cbn [one_sided] in S. cbn in K. rewrite andb_true_r in K. apply andb_prop in K. destruct K as [Kl Kr].
          destruct (is_local c l && char_span r) eqn:E.
          * injection H as <-. destruct (EQ l r E S Kr) as (d & G & ty & ->); [intros y U; apply UT; cbn; rewrite U, ?orb_true_r; reflexivity|].  exists [d]. split; [constructor; [exact G|constructor]|]. intros ch s B. subst s. cbn [StrSpec.eval each] in *. unfold typed in *. cbn [fst] in *. rewrite upd_same in *. destruct (has_ty (VChar ch) ty); [|discriminate B]. cbn [bind] in *. rewrite (proj2 G) in *. cbn. rewrite orb_false_r. destruct (N.eqb ch d); auto.
          * destruct (is_local c r && char_span l) eqn:E2; [|discriminate H]. injection H as <-. rewrite andb_comm in S. destruct (EQ r l E2 S Kl) as (d & G & ty & ->); [intros y U; apply UT; cbn; rewrite U, ?orb_true_r; reflexivity|].  exists [d]. split; [constructor; [exact G|constructor]|]. intros ch s B. subst s. cbn [StrSpec.eval each] in *. rewrite (proj2 G) in *. cbn [bind] in *. unfold typed in *. cbn [fst] in *. rewrite upd_same in *. destruct (has_ty (VChar ch) ty); [|discriminate B]. cbn. rewrite orb_false_r, (N.eqb_sym d). destruct (N.eqb ch d); auto.
        + destruct es as [|v [|]]; try discriminate H. cbn in H. destruct (is_local c v) eqn:L; [|discriminate H]. destruct (pat_chars_sound c t u p cs H) as (ds & F' & M). exists ds. split; [exact F'|]. intros ch s B. subst s. destruct v as [y ty| | | | | | | | | | | | |]; try discriminate L. cbn in L. apply Nat.eqb_eq in L. subst y.
          cbn [StrSpec.eval each] in *. unfold typed in *. cbn [fst] in *. rewrite upd_same in *. destruct (has_ty (VChar ch) ty); [|discriminate B]. cbn [bind apply fst snd] in *. destruct (mmatch p (VChar ch)) as [b|] eqn:X; [|discriminate B]. cbn. split; [apply M, X|reflexivity].
      - cbn in H. destruct (compared c a) as [x|] eqn:A; [|discriminate H]. destruct (compared c b) as [y|] eqn:B; [|discriminate H]. injection H as <-. destruct S as [Sa Sb]. cbn in K. apply andb_prop in K. destruct K as [Ka Kb]. destruct (Ha x eq_refl Sa Ka) as (ds & F & P); [intros z U; apply UT; cbn; rewrite U; reflexivity|]. destruct (Hb y eq_refl Sb Kb) as (es & G & Q); [intros z U; apply UT; cbn; rewrite U, orb_true_r; reflexivity|].
        exists (ds ++ es). split; [apply Forall2_app; assumption|]. intros ch s T. rewrite one_of_app. specialize (P ch). specialize (Q ch). cbn zeta in P, Q. fold s in P, Q. cbn [StrSpec.eval] in *. destruct (eval a s) as [[v|v| |] s1]; try discriminate T. cbn [bind fst snd] in *. destruct v as [|[|]| | | | | | | | |]; try discriminate T.
        + destruct (P eq_refl) as [P1 P2]. cbn in P1. rewrite <- P1. auto.
        + destruct (P eq_refl) as [P1 P2]. cbn in P1. rewrite <- P1. subst s1. apply Q, T.
    Qed.
  End Body.
  Lemma chars_of_map ds : chars_of (map VChar ds) = Some ds. Proof. induction ds as [|d ds IH]; [reflexivity|]. cbn. rewrite IH. reflexivity. Qed.
  Lemma each_gives c t u cs ds : Forall2 (gives c t u) cs ds -> forall k, each wd eval cs k t = k (map VChar ds) t.
  Proof. intros F. induction F as [|x d cs ds G F IH]; intros k; [reflexivity|]. cbn [each]. rewrite (proj1 G). cbn [bind]. rewrite IH. reflexivity. Qed.
  Lemma pattern_gives c t u cs ds : Forall2 (gives c t u) cs ds -> exists v, eval (match cs with [x] => x | _ => XOp OArr cs end) t = (OVal v, t) /\ pat_of v = Some (PSet (one_of ds)).
  Proof.
    intros F. assert (A : eval (XOp OArr cs) t = (OVal (VList (map VChar ds)), t)) by (cbn [StrSpec.eval]; rewrite (each_gives c t u cs ds F); reflexivity).
    assert (B : pat_of (VList (map VChar ds)) = Some (PSet (one_of ds))) by (cbn; rewrite chars_of_map; reflexivity).
    destruct F as [|x d cs ds G F]; [eauto|]. destruct F as [|x' d' cs ds G' F]; [|eauto]. exists (VChar d). split; [apply G|reflexivity].
  Qed.
  (** The closure's variables are not written by the arguments after it, and those are in their places. *)
  Definition borrowed (e : ex) : Prop :=
    match e with XPred m pre c body post => length pre = S (pat_pos m) /\ one_sided c body /\ forall x, uses x body = true -> x <> c -> existsb (writes x) post = false | _ => True end.
  Lemma each_rel es : forall k k' (s : st), (forall vs (u : st), length vs = length es -> (forall x, existsb (writes x) es = false -> fst u x = fst s x) -> fst (k vs u) <> OStuck -> k' vs u = k vs u) ->
    fst (each wd eval es k s) <> OStuck -> each wd eval es k' s = each wd eval es k s.
  Proof.
    induction es as [|e es IH]; intros k k' s E N; cbn [each] in *; [apply E; auto|]. destruct (eval e s) as [[v|v| |] t] eqn:V; cbn [bind] in *; try reflexivity. apply IH; [|exact N]. intros vs u L U. apply E; [cbn; congruence|]. intros x W. cbn in W. apply orb_false_elim in W. destruct W as [W1 W2]. rewrite (U x W2). pose proof (eval_frame wd x e W1 s) as X. rewrite V in X. exact X.
  Qed.
  Theorem manual_pattern_char_comparison_keeps e e' : manual_pattern_char_comparison e = Some e' -> borrowed e -> keeps wd e e'.
  Proof.
    intros H B s NS. unfold manual_pattern_char_comparison in H. destruct e as [| | | |m pre c body post| | | | | | | | |]; try discriminate H. destruct pre as [|r pre]; [discriminate H|]. destruct (pattern_method m) as [pos|] eqn:M; [|discriminate H]. destruct (compared c body) as [cs|] eqn:C; [|discriminate H]. injection H as <-.
    destruct B as (LP & OS & WR). cbn in LP. injection LP as LP. apply same_eq. cbn [StrSpec.eval] in *. change (r :: pre ++ ?x :: post) with ((r :: pre) ++ x :: post). rewrite each_app.
    set (pt := match cs with [x] => x | _ => XOp OArr cs end) in *.
    assert (LR : length (r :: pre) = S (pat_pos m)) by (cbn; congruence). apply each_rel; [|exact NS]. clear NS. intros vs t LV _. destruct (ok_vars (Nat.eqb c) body (fst t)) eqn:OK; [|intros N; contradiction N; reflexivity]. intros NS.
    assert (ST : forall u : st, (forall x, existsb (writes x) post = false -> fst u x = fst t x) -> exists ds, Forall2 (gives c t u) cs ds /\ forall ch, let s := (upd (fst u) c (VChar ch), snd u) in is_bool (fst (eval body s)) = true -> truth (fst (eval body s)) = one_of ds ch).
    { intros u U. destruct (compared_sound c t u body) with (e := body) (cs := cs) as (ds & F & P); try assumption; [|auto|].
      - intros x CS UC UT OKx. destruct (operand_shape x CS) as (o & O1 & O2 & O3).
        assert (NC : forall y, uses y x = true -> y <> c) by (intros y Y ->; congruence).
        destruct (O3 (Nat.eqb c) (fst t) OKx) as [d D]. { intros y Y. apply Nat.eqb_neq. intros E. apply (NC y Y). congruence. }
        exists d. split; [rewrite O1, D; reflexivity|]. intros ch. rewrite O1. cbn [fst]. rewrite (O2 _ (fst t)), D; [reflexivity|]. intros y Y. rewrite upd_other by (apply NC, Y). apply U, WR; [apply UT, Y|apply NC, Y].
      - exists ds. split; [exact F|]. intros ch. cbn zeta. intros IB. apply (P ch IB). }
    destruct (ST t (fun _ _ => eq_refl)) as (ds & F & _). destruct (pattern_gives c t t cs ds F) as (pv & PV & PO). fold pt in PV. cbn [each]. rewrite PV. cbn [bind].
    assert (DS : forall u ds', Forall2 (gives c t u) cs ds' -> ds' = ds).
    { clear - F. intros u ds' F'. revert ds' F'. induction F as [|x d l l' G F IH]; intros ds' F'; inversion F' as [|? d' ? l2 G' F2]; subst; [reflexivity|]. f_equal; [|apply IH, F2]. pose proof (proj1 G) as X. pose proof (proj1 G') as Y. congruence. }
    apply each_rel; [|exact NS]. clear NS. intros us u _ U NS. destruct (ST u U) as (ds' & F' & P). rewrite (DS u ds' F') in P. destruct vs as [|v vs]; [discriminate LV|]. assert (LV' : length vs = pat_pos m) by (cbn in LV, LR; congruence).
    cbn [app apply]. rewrite <- LV'. rewrite skipn_app, skipn_all, Nat.sub_diag, firstn_app, firstn_all, Nat.sub_diag, firstn_O, app_nil_r. cbn [skipn app]. unfold pat_apply. rewrite PO. f_equal. destruct v as [| | | | |y| | | | |]; try reflexivity. cbn zeta in *. cbn [fst] in NS.
    destruct (forallb _ y) eqn:FB; [|contradiction NS; reflexivity]. apply pmeth_ext. intros ch J. rewrite forallb_forall in FB. symmetry. apply P, FB, J.
  Qed.
End Proofs.
