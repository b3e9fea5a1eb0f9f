(** match_bool, match_like_matches_macro, redundant_pattern_matching, single_match: proofs. *)
From Verif Require Export PickModel CloFilter MatProofs TailProofs4.

(** ** Spec: what the type checker guarantees about a match. *)
(** Whatever the value of the scrutinee, some arm without a guard is for it. *)
Definition handled (w : world) (fuel : nat) (e : expr) : Prop :=
  forall t r arms, e = EMatch t r arms -> forall s v s', eval w fuel r s = (OVal v, s') ->
  exists p b, In (p, None, b) arms /\ match_pat p v <> None.
(** The scrutinee is a bool. *)
Definition is_bool (w : world) (fuel : nat) (e : expr) : Prop :=
  forall r, scrutinee e = Some r -> forall s v s', eval w fuel r s = (OVal v, s') -> exists b, v = VBool b.
(** The scrutinee is an Option where the pattern is one, and so on. *)
Definition pat_type (p : pat) : option rty :=
  match p with
  | PData (KCtor c) _ _ =>
      if Nat.eqb c c_some || Nat.eqb c c_none then Some TOption
      else if Nat.eqb c c_ok || Nat.eqb c c_err then Some TResult else None
  | PBool _ => Some TBool
  | _ => None
  end.
Definition fits (w : world) (fuel : nat) (e : expr) : Prop :=
  forall p r t, (exists a b, e = EIfLet p r a b) \/ (exists tr arms g b, e = EMatch tr r arms /\ In (p, g, b) arms) ->
  pat_type p = Some t -> forall s v s', eval w fuel r s = (OVal v, s') -> view_of t v <> None.

(** The patterns are for all values of the type. *)
Definition exhaustive (e : expr) : Prop :=
  forall tr r arms p g b t, e = EMatch tr r arms -> In (p, g, b) arms -> pat_type p = Some t ->
  forall v, view_of t v <> None -> exists q b', In (q, None, b') arms /\ match_pat q v <> None.
(** Guards are bools. *)
Definition bool_guards (w : world) (fuel : nat) (e : expr) : Prop :=
  forall tr r arms p g b, e = EMatch tr r arms -> In (p, Some g, b) arms ->
  forall s v s', eval w fuel g s = (OVal v, s') -> exists d, v = VBool d.

Section Pick.
  Variable w : world.
  Variable fuel : nat.
  Notation st := (state w).
  Notation ev := (eval w fuel).
  Notation sc := (scoped w fuel).

  Definition armrun (g : option expr) (b : expr) (bs : list binding) (s : st) (k : st -> out * st) : out * st :=
    match g with
    | None => sc bs b s
    | Some g =>
        match ev g (enter bs s) with
        | (OVal (VBool true), s') => let '(o, s'') := ev b s' in (o, leave (length (fst s)) s'')
        | (OVal (VBool false), s') => k (leave (length (fst s)) s')
        | (OVal _, s') => (OStuck, leave (length (fst s)) s')
        | (o, s') => (o, leave (length (fst s)) s')
        end
    end.
  Lemma earms_cons : forall v p g b arms s, earms w fuel v ((p, g, b) :: arms) s =
    match match_pat p v with None => earms w fuel v arms s | Some bs => armrun g b bs s (earms w fuel v arms) end.
  Proof. reflexivity. Qed.
  Lemma armrun_nil : forall g b s k, armrun g b [] s k =
    match g with
    | None => ev b s
    | Some g => andthen w (ev g s) (fun u s' => match u with VBool true => ev b s' | VBool false => k s' | _ => (OStuck, s') end)
    end.
  Proof.
    intros [g|] b s k; cbn [armrun]; [|apply scoped_nil]. rewrite enter_nil.
    pose proof (leave_eval w fuel g s) as L. pose proof (eval_len w fuel g s) as N. destruct (ev g s) as [o s1]. cbn in L, N.
    rewrite L. destruct o as [v| | | | |]; try reflexivity. destruct v as [|[]| | |]; try reflexivity. cbn [andthen].
    pose proof (leave_eval w fuel b s1) as L1. rewrite N in L1. destruct (ev b s1) as [o s2]. cbn in L1. rewrite L1. reflexivity.
  Qed.
  Lemma no_vars : forall p v bs, pat_vars p = [] -> match_pat p v = Some bs -> bs = [].
  Proof.
    intros p v bs V M. apply match_vars in M. rewrite V in M. destruct bs as [|b bs]; auto. destruct (M (fst b)). left; auto.
  Qed.
  Lemma in_braces_eval : forall a s, ev (in_braces a) s = ev a s.
  Proof.
    assert (B : forall a s, ev (EBlock None [] (Some a)) s = ev a s).
    { intros a s. rewrite eval_block. cbn [estmts eopt]. pose proof (leave_eval w fuel a s) as L. destruct (ev a s) as [o s1].
      cbn in L. rewrite L. destruct o as [| |[|]| | |]; reflexivity. }
    intros a s. destruct a as [| | | | | | | | | | | | | |[|] ss t| | | | | |]; try apply B. reflexivity.
  Qed.
  Lemma unit_eval : forall e s, is_unit e = true -> ev e s = (OVal unit_v, s).
  Proof.
    intros e s H. destruct e as [| | |[] [|]| | | | | | | | | | |l [|] [|]| | | | | |]; try discriminate; [reflexivity|].
    rewrite eval_block. cbn. rewrite leave_self. reflexivity.
  Qed.
  Lemma lit_eval : forall e b s, bool_lit e = Some b -> ev e s = (OVal (VBool b), s).
  Proof.
    intros e b s H. destruct e as [| | | | | | | | | | | | | |l [|] [[]|]| | | | | |]; try discriminate; inversion H; subst; [reflexivity|].
    apply block_val. reflexivity.
  Qed.
  Lemma andthen_assoc : forall r f g, andthen w (andthen w r f) g = andthen w r (fun v s => andthen w (f v s) g).
  Proof. intros [o s] f g. destruct o; reflexivity. Qed.
  Lemma andthen_ext : forall r f g, (forall v s, r = (OVal v, s) -> f v s = g v s) -> andthen w r f = andthen w r g.
  Proof. intros [o s] f g H. destruct o; cbn; auto. Qed.
  Lemma not_eval : forall a s, ev (ENot a) s =
    andthen w (ev a s) (fun v s => match v with VBool b => (OVal (VBool (negb b)), s) | _ => (OStuck, s) end).
  Proof. reflexivity. Qed.
  Lemma and_eval : forall a b s, ev (and_e a b) s =
    andthen w (ev a s) (fun v s => match v with VBool true => ev b s | VBool false => (OVal (VBool false), s) | _ => (OStuck, s) end).
  Proof. reflexivity. Qed.

  (** ** match_bool *)
  Theorem match_bool_sound : forall e e', match_bool e = Some e' -> is_bool w fuel e -> handled w fuel e ->
    forall s, ev e' s = ev e s.
  Proof.
    intros e e' H B HA s. unfold match_bool in H.
    destruct e as [| | | | | | | | | | | | |[] c [|[[[| | | | | |b|] g] x] [|[[p h] y] [|]]]| | | | | | |]; try discriminate.
    destruct (pat_vars p) eqn:V; [|discriminate].
    set (test := if b then c else ENot c) in H. set (tg := match g with Some g => and_e test g | None => test end) in H.
    assert (T : forall s, ev tg s = andthen w (ev c s) (fun v s1 =>
      match v with
      | VBool d => if Bool.eqb b d then match g with Some g => ev g s1 | None => (OVal (VBool true), s1) end else (OVal (VBool false), s1)
      | _ => (OStuck, s1)
      end)).
    { intros s0. assert (T0 : ev test s0 = andthen w (ev c s0) (fun v s1 => match v with VBool d => (OVal (VBool (Bool.eqb b d)), s1) | _ => (OStuck, s1) end)).
      { unfold test. destruct b.
        - pose proof (B c eq_refl s0) as B0. destruct (ev c s0) as [o s1]. destruct o as [v| | | | |]; try reflexivity.
          destruct (B0 _ _ eq_refl) as [d ->]. destruct d; reflexivity.
        - rewrite not_eval. apply andthen_ext. intros v s1 _. destruct v; try reflexivity. }
      unfold tg. destruct g as [g|].
      - rewrite and_eval, T0, andthen_assoc. apply andthen_ext. intros v s1 _. destruct v as [|d| | |]; try reflexivity.
      - rewrite T0. apply andthen_ext. intros v s1 _. destruct v as [|[]| | |]; try reflexivity; destruct b; reflexivity. }
    (* the match *)
    assert (M : ev (EMatch false c [(PBool b, g, x); (p, h, y)]) s =
      andthen w (ev tg s) (fun v s1 => match v with VBool true => ev x s1 | VBool false => ev y s1 | _ => (OStuck, s1) end)).
    { rewrite T, eval_match, andthen_assoc. apply andthen_ext. intros v s1 E. destruct (B c eq_refl _ _ _ E) as [d ->].
      rewrite earms_cons. cbn [match_pat].
      destruct (HA _ _ _ eq_refl _ _ _ E) as (q & z & I & Q).
      assert (NX : Bool.eqb b d = false \/ (exists g1, g = Some g1) -> forall s2, earms w fuel (VBool d) [(p, h, y)] s2 = ev y s2).
      { intros O s2. assert (I' : p = q /\ h = None).
        { destruct I as [I|[I|[]]]; inversion I; subst; [|auto]. exfalso. destruct O as [O|[g1 O]]; [|congruence].
          cbn in Q. rewrite O in Q. congruence. }
        destruct I' as [-> ->]. rewrite earms_cons. destruct (match_pat q (VBool d)) as [bs|] eqn:MP; [|congruence].
        rewrite (no_vars _ _ _ V MP). apply armrun_nil. }
      destruct (Bool.eqb b d) eqn:BD.
      - rewrite armrun_nil. destruct g as [g|]; [|reflexivity]. apply andthen_ext. intros u s2 _. destruct u as [|[]| | |]; try reflexivity. cbn.
        apply NX. right; eauto.
      - cbn. apply NX. auto. }
    assert (IF : forall a z, ev (EIf tg a z) s = andthen w (ev tg s) (fun v s => match v with VBool true => ev a s | VBool false => eopt w fuel z s | _ => (OStuck, s) end))
      by reflexivity.
    destruct (is_unit x) eqn:UX, (is_unit y) eqn:UY; inversion H; subst e'; clear H; rewrite M.
    - rewrite eval_if, not_eval, andthen_assoc. apply andthen_ext. intros v s1 _. destruct v as [|[]| | |]; try reflexivity; cbn.
      + rewrite (unit_eval _ _ UX). reflexivity.
      + apply in_braces_eval.
    - rewrite IF. apply andthen_ext. intros v s1 _. destruct v as [|[]| | |]; try reflexivity; cbn [eopt].
      + apply in_braces_eval.
      + rewrite (unit_eval _ _ UY). reflexivity.
    - rewrite IF. apply andthen_ext. intros v s1 _. destruct v as [|[]| | |]; try reflexivity; cbn [eopt]; apply in_braces_eval.
  Qed.

  (** ** match_like_matches_macro *)
  Definition notb (r : out * st) : out * st :=
    andthen w r (fun v s => match v with VBool b => (OVal (VBool (negb b)), s) | _ => (OStuck, s) end).
  Lemma signed_eval : forall b a s, ev (signed b a) s = if b then ev a s else notb (ev a s).
  Proof. intros [] a s; reflexivity. Qed.
  Definition all_true (arms : list arm) : list arm := map (fun a => match a with (p, g, _) => (p, g, EBool true) end) arms.
  Lemma scoped_lit : forall bs b e s, bool_lit e = Some b -> sc bs e s = (OVal (VBool b), s).
  Proof. intros. apply scoped_val. apply lit_eval; auto. Qed.
  Lemma matches_arms : forall b0 v h x1 arms, Forall (fun a => match a with (_, _, x) => bool_lit x = Some b0 end) arms ->
    bool_lit x1 = Some (negb b0) ->
    h = None \/ (exists p b, In (p, None, b) arms /\ match_pat p v <> None) ->
    forall s, earms w fuel v (arms ++ [(PWild, h, x1)]) s =
      (if b0 then fun r => r else notb) (earms w fuel v (all_true arms ++ [(PWild, None, EBool false)]) s).
  Proof.
    intros b0 v h x1 arms F L1. induction F as [|[[p g] x] arms Hx F IH]; intros O s; cbn [app all_true map].
    - destruct O as [->|(p & b & [] & _)]. rewrite !earms_cons. cbn [match_pat]. rewrite !armrun_nil, (lit_eval _ _ _ L1).
      destruct b0; reflexivity.
    - rewrite !earms_cons. fold (all_true arms).
      assert (IH' : (exists bs, match_pat p v = Some bs /\ g = None) \/ (forall s, earms w fuel v (arms ++ [(PWild, h, x1)]) s =
        (if b0 then fun r => r else notb) (earms w fuel v (all_true arms ++ [(PWild, None, EBool false)]) s))).
      { destruct O as [->|(q & b & [I|I] & Q)]; [right; apply IH; auto| |right; apply IH; right; eauto].
        inversion I; subst. left. destruct (match_pat q v) as [bs|]; [eauto|congruence]. }
      destruct (match_pat p v) as [bs|] eqn:M.
      2: { destruct IH' as [(? & ? & _)|IH']; [congruence|apply IH']. }
      destruct g as [g|]; cbn [armrun].
      2: { rewrite (scoped_lit _ _ _ _ Hx). unfold scoped. cbn [eval]. rewrite leave_enter. destruct b0; reflexivity. }
      destruct IH' as [(? & _ & ?)|IH']; [discriminate|].
      destruct (ev g (enter bs s)) as [o s1] eqn:G. destruct o as [u| | | | |]; try (destruct b0; reflexivity).
      destruct u as [|[]| | |]; try (destruct b0; reflexivity).
      + rewrite (lit_eval _ _ _ Hx). cbn [eval]. destruct b0; reflexivity.
      + apply IH'.
  Qed.
  Theorem to_matches_sound : forall e e', to_matches e = Some e' -> handled w fuel e -> forall s, ev e' s = ev e s.
  Proof.
    intros e e' H HA s. unfold to_matches in H.
    destruct e as [| | | | | | | | | | | |p r a [b|]|[] r [|[[p0 g0] x0] rest]| | | | | | |]; try discriminate.
    - destruct (bool_lit a) as [b0|] eqn:A; [|discriminate]. destruct (bool_lit b) as [b1|] eqn:B; [|discriminate].
      destruct (negb (Bool.eqb b0 b1) && negb (some_wild p)) eqn:C; inversion H; subst e'; clear H.
      apply andb_true_iff in C. destruct C as [C _]. assert (b1 = negb b0) by (destruct b0, b1; auto; discriminate). subst b1.
      rewrite signed_eval. unfold matches_e. rewrite eval_match, iflet2.
      assert (E : forall v s1, arms2 w fuel p a None b v s1 =
        (if b0 then fun r => r else notb) (earms w fuel v ([(p, None, EBool true)] ++ [(PWild, None, EBool false)]) s1)).
      { intros v s1. rewrite <- (matches_arms b0 v None b [(p, None, a)]); auto. }
      destruct (ev r s) as [o s1]; destruct o as [v| | | | |]; try (destruct b0; reflexivity). cbn [andthen]. rewrite E. destruct b0; reflexivity.
    - destruct (rev rest) as [|[[p1 h] x1] mid] eqn:R; [discriminate|].
      destruct (bool_lit x0) as [b0|] eqn:A; [|discriminate]. destruct (bool_lit x1) as [b1|] eqn:B; [|discriminate].
      set (plain := fun a : arm => match a with (_, None, x) => match bool_lit x with Some b => Bool.eqb b b0 | None => false end | _ => false end) in H.
      match type of H with (if ?c then _ else _) = _ => destruct c eqn:C; [|discriminate] end.
      inversion H; subst e'; clear H. apply andb_true_iff in C. destruct C as [C _]. apply andb_true_iff in C. destruct C as [C W].
      apply andb_true_iff in C. destruct C as [C P]. assert (b1 = negb b0) by (destruct b0, b1; auto; discriminate). subst b1.
      assert (p1 = PWild) by (destruct p1; auto; discriminate). subst p1.
      assert (RE : rest = rev mid ++ [(PWild, h, x1)]).
      { rewrite <- (rev_involutive rest), R. reflexivity. }
      assert (F : Forall (fun a : arm => match a with (_, _, x) => bool_lit x = Some b0 end) ((p0, g0, x0) :: rev mid)).
      { constructor; auto. apply orb_true_iff in P. destruct P as [P|P].
        - destruct (rev mid); [constructor|discriminate].
        - apply Forall_forall. intros [[q g] x] I. rewrite forallb_forall in P. specialize (P _ (or_intror I)). cbn in P.
          destruct g; [discriminate|]. destruct (bool_lit x) as [b|]; [|discriminate]. destruct b, b0; auto; discriminate. }
      rewrite signed_eval. unfold matches_e. rewrite !eval_match.
      pose proof (HA _ _ _ eq_refl s) as HA'.
      destruct (ev r s) as [o s1]; destruct o as [v| | | | |]; try (destruct b0; reflexivity). cbn [andthen]. rewrite RE.
      change ((p0, g0, x0) :: rev mid ++ [(PWild, h, x1)]) with (((p0, g0, x0) :: rev mid) ++ [(PWild, h, x1)]).
      rewrite (matches_arms b0 v h x1 _ F B).
      + destruct b0; reflexivity.
      + destruct (HA' _ _ eq_refl) as (q & b & I & Q). rewrite RE in I.
        change (In (q, None, b) (((p0, g0, x0) :: rev mid) ++ [(PWild, h, x1)])) in I. apply in_app_or in I.
        destruct I as [I|[I|[]]]; [right; eauto|]. inversion I. auto.
  Qed.

  (** ** redundant_pattern_matching *)
  Lemma tells_eval : forall t good r s, ev (EMeth t (tells good) r []) s =
    andthen w (ev r s) (fun v s => match view_of t v with
                                   | Some (Good _) => (OVal (VBool good), s)
                                   | Some (Bad _) => (OVal (VBool (negb good)), s)
                                   | None => (OStuck, s)
                                   end).
  Proof.
    intros t good r s. rewrite meth_0. apply andthen_ext. intros v s1 _. unfold method. destruct (view_of t v) as [[]|]; destruct good; reflexivity.
  Qed.
  (** A pattern for a variant tells it. *)
  Definition tells_pat (p : pat) (t : rty) (good : bool) : Prop :=
    t <> TBool /\ pat_type p = Some t /\
    forall v vw, view_of t v = Some vw -> match_pat p v = if Bool.eqb good (match vw with Good _ => true | Bad _ => false end) then Some [] else None.
  Lemma match_none : forall c vs, match_pat (PData (KCtor c_none) [] None) (VData (KCtor c) vs) =
    if Nat.eqb c_none c then match vs with [] => Some [] | _ => None end else None.
  Proof. reflexivity. Qed.
  Lemma variant_tells : forall c p t good, variant c = Some (t, good) ->
    (negb (Nat.eqb c c_none) = true /\ ((exists d, p = PData (KCtor c) [PWild] d) \/ p = PData (KCtor c) [] (Some 0)) \/
     Nat.eqb c c_none = true /\ p = PData (KCtor c) [] None) -> tells_pat p t good.
  Proof.
    intros c p t good H P. unfold variant in H. unfold tells_pat.
    assert (DOTS : forall d, match_pat (PData (KCtor c) [] (Some 0)) (VData (KCtor c) [d]) = Some []).
    { intros d. cbn. rewrite Nat.eqb_refl. reflexivity. }
    assert (ODOTS : forall e vs, Nat.eqb c e = false -> match_pat (PData (KCtor c) [] (Some 0)) (VData (KCtor e) vs) = None).
    { intros e vs E. cbn. rewrite E. reflexivity. }
    destruct (Nat.eqb_spec c c_ok) as [->|N1]; [|destruct (Nat.eqb_spec c c_err) as [->|N2]; [|destruct (Nat.eqb_spec c c_some) as [->|N3];
      [|destruct (Nat.eqb_spec c c_none) as [->|N4]; [|discriminate]]]]; inversion H; subst t good; (split; [discriminate|]);
      (destruct P as [[P0 P]|[P0 P]]; [cbn in P0; try discriminate P0|cbn in P0; try discriminate P0]).
    - split; [destruct P as [[d ->]| ->]; reflexivity|]. intros v vw V. destruct (view_cases _ _ _ V) as [(x & -> & ->)|(u & -> & ->)].
      + destruct P as [[d ->]| ->]; [|apply DOTS]. unfold ok_v. rewrite match_one. reflexivity.
      + destruct P as [[d ->]| ->]; [unfold err_v; rewrite match_other by reflexivity; reflexivity|apply ODOTS; reflexivity].
    - split; [destruct P as [[d ->]| ->]; reflexivity|]. intros v vw V. destruct (view_cases _ _ _ V) as [(x & -> & ->)|(u & -> & ->)].
      + destruct P as [[d ->]| ->]; [unfold ok_v; rewrite match_other by reflexivity; reflexivity|apply ODOTS; reflexivity].
      + destruct P as [[d ->]| ->]; [|apply DOTS]. unfold err_v. rewrite match_one. reflexivity.
    - split; [destruct P as [[d ->]| ->]; reflexivity|]. intros v vw V. destruct (view_cases _ _ _ V) as [(x & -> & ->)|(-> & ->)].
      + destruct P as [[d ->]| ->]; [|apply DOTS]. unfold some_v. rewrite match_one. reflexivity.
      + destruct P as [[d ->]| ->]; [unfold none_v; rewrite match_other by reflexivity; reflexivity|apply ODOTS; reflexivity].
    - subst p. split; [reflexivity|]. intros v vw V. destruct (view_cases _ _ _ V) as [(x & -> & ->)|(-> & ->)]; reflexivity.
  Qed.
  Lemma given_some : forall {A} b (o : option A) a, given b o = Some a -> b = true /\ o = Some a.
  Proof. intros A [] o a H; [auto|discriminate]. Qed.
  Lemma variant_pat_tells : forall p t good, variant_pat p = Some (t, good) -> tells_pat p t good.
  Proof.
    intros p t good H. destruct p as [| |[| |c] ps d| | | | |]; try discriminate. cbn [variant_pat] in H.
    destruct ps as [|[| | | | | | |] [|]]; try discriminate.
    - destruct d as [[|]|]; [|discriminate|].
      + apply given_some in H. destruct H as [N V]. eapply variant_tells; eauto.
      + apply given_some in H. destruct H as [N V]. eapply variant_tells; eauto.
    - apply given_some in H. destruct H as [N V]. eapply variant_tells; eauto.
  Qed.
  Lemma arm_variant_tells : forall p t good, arm_variant p = Some (t, good) -> tells_pat p t good.
  Proof.
    intros p t good H. destruct p as [| |[| |c] ps d| | | | |]; try discriminate. cbn [arm_variant] in H.
    destruct ps as [|[| | | | | | |] [|]]; try discriminate.
    - destruct d as [|]; [discriminate|]. apply given_some in H. destruct H as [N V]. eapply variant_tells; eauto.
    - apply given_some in H. destruct H as [N V]. eapply variant_tells; eauto.
  Qed.
  Theorem if_let_variant_sound : forall e e', if_let_variant e = Some e' -> fits w fuel e -> forall s, ev e' s = ev e s.
  Proof.
    intros e e' H T s. destruct e as [| | | | | | | | | | | |p r x y| | | | | | | |]; try discriminate.
    assert (T' : forall t s v s', pat_type p = Some t -> ev r s = (OVal v, s') -> view_of t v <> None).
    { intros t s0 v s' PT E. eapply (T p r t); eauto. }
    destruct (variant_pat p) as [[t good]|] eqn:V.
    - assert (e' = EIf (EMeth t (tells good) r []) x y).
      { destruct p; cbn [if_let_variant] in H; try discriminate V; rewrite V in H; inversion H; reflexivity. }
      subst e'. destruct (variant_pat_tells _ _ _ V) as (NB & PT & M). rewrite eval_if, tells_eval, eval_iflet, andthen_assoc.
      apply andthen_ext. intros v s1 E. specialize (T' _ _ _ _ PT E). destruct (view_of t v) as [vw|] eqn:VW; [|congruence].
      rewrite (M _ _ VW). destruct vw, good; cbn [Bool.eqb negb andthen]; try reflexivity; symmetry; apply scoped_nil.
    - destruct p as [| | | | | |b|]; cbn [if_let_variant] in H; try discriminate; try (rewrite V in H; discriminate). inversion H; subst e'; clear H.
      rewrite eval_if, signed_eval, eval_iflet.
      assert (E : forall d s1, (if Bool.eqb b d then ev x s1 else eopt w fuel y s1) =
        match match_pat (PBool b) (VBool d) with
        | Some bs => let '(o, s') := ev x (enter bs s1) in (o, leave (length (fst s1)) s')
        | None => eopt w fuel y s1 end).
      { intros d s1. cbn [match_pat]. destruct (Bool.eqb b d); [|reflexivity]. symmetry. apply scoped_nil. }
      assert (B : forall v s1, ev r s = (OVal v, s1) -> exists d, v = VBool d).
      { intros v s1 R. specialize (T' _ _ _ _ eq_refl R). destruct v; try (destruct T'; reflexivity). eauto. }
      destruct b.
      + apply andthen_ext. intros v s1 R. destruct (B _ _ R) as [d ->]. rewrite <- E. destruct d; reflexivity.
      + unfold notb. rewrite andthen_assoc. apply andthen_ext. intros v s1 R. destruct (B _ _ R) as [d ->]. rewrite <- E. destruct d; reflexivity.
  Qed.
  Theorem matches_true_sound : forall e e', matches_true e = Some e' -> is_bool w fuel e -> forall s, ev e' s = ev e s.
  Proof.
    intros e e' H B s. unfold matches_true in H.
    destruct e as [| | | | | | | | | | | | |[] r [|[[p g] x] [|[[q h] y] [|]]]| | | | | | |]; try discriminate;
      try (destruct p as [| | | | | |b|]; try discriminate; destruct g; try discriminate; destruct x as [| |[]| | | | | | | | | | | | | | | | | |]; discriminate).
    2: { destruct p as [| | | | | |b|]; try discriminate; destruct g; try discriminate; destruct x as [| |[]| | | | | | | | | | | | | | | | | |]; try discriminate.
         destruct q; try discriminate; destruct h; try discriminate; destruct y as [| |[]| | | | | | | | | | | | | | | | | |]; discriminate. }
    destruct p as [| | | | | |b|]; try discriminate; destruct g; try discriminate; destruct x as [| |[]| | | | | | | | | | | | | | | | | |]; try discriminate.
    destruct q; try discriminate; destruct h; try discriminate; destruct y as [| |[]| | | | | | | | | | | | | | | | | |]; try discriminate.
    inversion H; subst e'; clear H. rewrite signed_eval, eval_match. specialize (B r eq_refl s).
    destruct (ev r s) as [o s1]; destruct o as [v| | | | |]; try (destruct b; reflexivity).
    destruct (B _ _ eq_refl) as [d ->]. cbn [andthen]. rewrite !earms_cons. cbn [match_pat]. rewrite !armrun_nil.
    destruct b, d; cbn [Bool.eqb]; rewrite ?armrun_nil; reflexivity.
  Qed.
  (** A guard in front of `false` is not looked at. *)
  Definition guard_read (e : expr) : Prop :=
    forall r p g h, e = EMatch false r [(p, g, EBool false); (PWild, h, EBool true)] -> g = None.
  Lemma a_view : forall t good, t <> TBool -> exists v vw, view_of t v = Some vw /\ (match vw with Good _ => true | Bad _ => false end) = good.
  Proof.
    intros t good T. destruct t, good; try congruence;
      [exists (some_v unit_v)|exists none_v|exists (ok_v unit_v)|exists (err_v unit_v)]; eexists; split; reflexivity.
  Qed.
  Theorem match_variant_sound : forall e e', match_variant e = Some e' -> fits w fuel e -> exhaustive e -> bool_guards w fuel e ->
    guard_read e -> forall s, ev e' s = ev e s.
  Proof.
    intros e e' H T HA BG GR s. unfold match_variant in H.
    destruct e as [| | | | | | | | | | | | |[] r arms| | | | | | |]; try discriminate.
    destruct (good_method arms) as [[[t good] g0]|] eqn:G; [|discriminate].
    set (m := EMeth t (tells good) r []) in H. apply f_equal with (f := fun o => match o with Some y => y | None => m end) in H.
    cbv beta iota in H. subst e'.
    destruct arms as [|[[p g] [| |x| | | | | | | | | | | | | | | | | |]] arms]; try discriminate.
    destruct arms as [|[[q h] [| |y| | | | | | | | | | | | | | | | | |]] arms]; try discriminate. destruct arms; [|discriminate].
    cbn [good_method] in G. destruct (arm_variant p) as [[tp gp]|] eqn:VP; [|discriminate].
    destruct (arm_variant_tells _ _ _ VP) as (NB & PT & MP).
    assert (TP : forall s v s', ev r s = (OVal v, s') -> view_of tp v <> None).
    { intros s0 v s' E. refine (T p r tp _ PT _ _ _ E). right. exists false. do 3 eexists. split; [reflexivity|left; reflexivity]. }
    assert (HA' : forall v, view_of tp v <> None -> exists q0 b', In (q0, None, b') [(p, g, EBool x); (q, h, EBool y)] /\ match_pat q0 v <> None).
    { apply (HA _ _ _ _ _ _ _ eq_refl (or_introl eq_refl) PT). }
    assert (HN : h = None).
    { destruct (a_view tp (negb gp) NB) as (v & vw & V & D). destruct (HA' v) as (q0 & b' & [I|[I|[]]] & M); try congruence.
      inversion I; subst q0 g b'. rewrite (MP _ _ V), D in M. destruct gp; destruct M; reflexivity. }
    subst h.
    assert (Q : (q = PWild /\ (x = true /\ y = false /\ t = tp /\ good = gp /\ g0 = g \/ x = false /\ y = true /\ t = tp /\ good = negb gp /\ g0 = None)) \/
                (tells_pat q tp (negb gp) /\ t = tp /\ (good = true /\ g0 = g /\ x = gp /\ y = negb gp \/ good = false /\ g0 = None /\ x = negb gp /\ y = gp))).
    { destruct (is_wild q) eqn:WQ.
      - left. destruct q; try discriminate. split; auto. destruct x, y; try discriminate; inversion G; subst; [left|right]; auto.
      - right. assert (G' : match arm_variant q with
          | Some (t', good') =>
              if same_rty tp t' && negb (Bool.eqb gp good') then
                let '(l, r) := if gp then (x, y) else (y, x) in
                match l, r with
                | true, false => Some (tp, true, g)
                | false, true => Some (tp, false, None)
                | _, _ => None
                end
              else None
          | None => None
          end = Some (t, good, g0)) by (destruct q; try discriminate WQ; exact G).
        destruct (arm_variant q) as [[tq gq]|] eqn:VQ; [|discriminate].
        destruct (same_rty tp tq && negb (Bool.eqb gp gq)) eqn:C; [|discriminate]. apply andb_true_iff in C. destruct C as [C1 C2].
        assert (tq = tp) by (destruct tp, tq; auto; discriminate). assert (gq = negb gp) by (destruct gp, gq; auto; discriminate). subst.
        split; [apply arm_variant_tells; auto|]. destruct gp, x, y; try discriminate; inversion G'; subst; auto 10. }
    assert (AND : ev match g0 with Some g => and_e m g | None => m end s = andthen w (ev m s) (fun v s => match g0 with
        | None => (OVal v, s)
        | Some g => match v with VBool true => ev g s | VBool false => (OVal (VBool false), s) | _ => (OStuck, s) end end)).
    { destruct g0; [apply and_eval|]. destruct (ev m s) as [[] ?]; reflexivity. }
    rewrite AND. subst m. rewrite tells_eval, eval_match, andthen_assoc.
    apply andthen_ext. intros v s1 E. specialize (TP _ _ _ E). clear AND.
    assert (LIT : forall b s, ev (EBool b) s = (OVal (VBool b), s)) by reflexivity.
    destruct Q as [(-> & Q)|((NBq & PTq & MQ) & -> & Q)].
    - destruct (view_of tp v) as [vw|] eqn:VW; [|congruence]. rewrite !earms_cons. cbn [match_pat]. rewrite (MP _ _ VW).
      destruct Q as [(-> & -> & -> & -> & ->)|(-> & -> & -> & -> & ->)]; rewrite VW.
      + set (k := armrun None (EBool false) [] s1 (earms w fuel v [])).
        assert (K : forall s2, armrun None (EBool false) [] s2 (earms w fuel v []) = (OVal (VBool false), s2)).
        { intros s2. rewrite armrun_nil. reflexivity. }
        assert (A : match g with
                    | None => (OVal (VBool true), s1)
                    | Some g => ev g s1
                    end = armrun g (EBool true) [] s1 (earms w fuel v [(PWild, None, EBool false)])).
        { rewrite armrun_nil. destruct g as [g|]; [|reflexivity]. assert (B1 := fun v s' => BG _ _ _ _ _ _ eq_refl (or_introl eq_refl) s1 v s').
          destruct (ev g s1) as [o s2]. destruct o as [u| | | | |]; try reflexivity.
          destruct (B1 _ _ eq_refl) as [[] ->]; [reflexivity|]. cbn [andthen]. rewrite earms_cons. cbn [match_pat]. symmetry; apply K. }
        subst k. destruct vw, gp; cbn [Bool.eqb negb andthen]; rewrite <- ?A, ?K; destruct g; reflexivity.
      + rewrite (GR _ _ _ _ eq_refl). destruct vw, gp; cbn [Bool.eqb negb andthen]; rewrite !armrun_nil, ?LIT; reflexivity.
    - assert (GN : g = None).
      { destruct (a_view tp gp NB) as (v0 & vw & V & D). destruct (HA' v0) as (q0 & b' & [I|[I|[]]] & M); try congruence.
        inversion I; subst q0 b'. rewrite (MQ _ _ V), D in M. destruct gp; destruct M; reflexivity. }
      subst g. destruct (view_of tp v) as [vw|] eqn:VW; [|congruence]. rewrite !earms_cons, (MP _ _ VW), (MQ _ _ VW).
      destruct Q as [(-> & -> & -> & ->)|(-> & -> & -> & ->)]; destruct vw, gp; cbn [Bool.eqb negb andthen]; rewrite !armrun_nil, ?LIT; reflexivity.
  Qed.
End Pick.
