(* Which calls of unwrap are reported. *)
From Coq Require Import List ZArith Bool Arith Lia.
Import ListNotations.
From Verif Require Import UnwSpec UnwModel UnwProofs UnwProofs2.

(* All parts of an expression, itself included. *)
Fixpoint parts (e : ex) : list ex :=
  e :: match e with
       | EVal _ | EVar _ | EBreak | EContinue | EPanic => []
       | EMeth0 _ _ a | EField a _ | ECall _ a | EBorrow a | ERefMut a | ENot a | EBlock a | ELoop a | EReturn a => parts a
       | EMeth1 _ _ a b | EPair a b | EBin _ a b | EIf a b | EAssign a b | ELet _ a b | ESeq a b => parts a ++ parts b
       | EIfElse a b c => parts a ++ parts b ++ parts c
       end.
(* Nothing that belongs to x is assigned to, borrowed mutably or given to a method that takes &mut self. *)
Definition leaves_alone (x : nat) (e : ex) : Prop :=
  forall a, In a (parts e) ->
  match a with
  | EBorrow r | ERefMut r | EAssign r _ => forall p, place_of r = Some p -> fst p <> x
  | EMeth0 _ m r | EMeth1 _ m r _ => by_mut m = true -> forall p, place_of r = Some p -> fst p <> x
  | _ => True
  end.
(* No condition is itself a call of a method that unwraps, and branches are blocks or further ifs. *)
Definition is_call (e : ex) : bool := match e with EMeth0 _ _ _ | EMeth1 _ _ _ _ => true | _ => false end.
Definition is_branch (e : ex) : bool := match e with EBlock _ | EIf _ _ | EIfElse _ _ _ => true | _ => false end.
Definition ordinary (e : ex) : Prop :=
  forall a, In a (parts e) ->
  match a with
  | EIf c t => is_call c = false /\ is_branch t = true
  | EIfElse c t f => is_call c = false /\ is_branch t = true /\ is_branch f = true
  | _ => True
  end.
(* e is the place p, or p.as_ref() or p.as_mut() *)
Definition stands_for (e : ex) (p : place) : Prop :=
  place_of e = Some p \/ exists i m r, e = EMeth0 i m r /\ (m = MAsRef \/ m = MAsMut) /\ place_of r = Some p.
(* e is a call of unwrap, expect or unwrap_err on the place *)
Definition unwrapped (e : ex) (p : place) (id : nat) : Prop :=
  (exists m r, e = EMeth0 id m r /\ unwraps m = true /\ stands_for r p) \/
  (exists m r a, e = EMeth1 id m r a /\ unwraps m = true /\ stands_for r p).
(* the checks that tell the variant *)
Definition tells (k : kind) (m : meth) : Prop :=
  k = KOpt /\ (m = MIsSome \/ m = MIsNone) \/ k = KRes /\ (m = MIsOk \/ m = MIsErr).

Section lint.
Variable T : place -> kind.

Lemma eqs_refl : forall a, eqs a a = true.
Proof. induction a; cbn; [reflexivity|]. rewrite Nat.eqb_refl. assumption. Qed.

Lemma place_extract : forall e p, place_of e = Some p -> extract_local e = Some (fst p, rev (snd p)).
Proof.
  intros e p H. rewrite extract_place in H. destruct (extract_local e) as [[x is]|]; [|discriminate].
  injection H as <-. cbn. rewrite rev_involutive. reflexivity.
Qed.

Lemma report_known : forall us id m r p b,
  unwraps m = true -> stands_for r p -> In ((fst p, rev (snd p)), b) us -> exists v, In (id, v) (report us id m r).
Proof.
  intros us id m r p b U S I. unfold report. rewrite U.
  assert (E : extract_local (consume_option_as_ref r) = Some (fst p, rev (snd p))).
  { destruct S as [S|[i [mm [q [-> [[-> | ->] S]]]]]].
    - apply place_extract in S. destruct r; try discriminate S; exact S.
    - apply place_extract, S.
    - apply place_extract, S. }
  rewrite E. destruct (find (fun u : local * bool => local_eq (fst u) (fst p, rev (snd p))) us) as [u|] eqn:F.
  - eexists. apply in_eq.
  - exfalso. assert (X := find_none _ _ F _ I). cbn in X. unfold local_eq in X. cbn in X.
    rewrite Nat.eqb_refl, eqs_refl in X. discriminate.
Qed.

Lemma ordinary_sub : forall e e', ordinary e -> (forall a, In a (parts e') -> In a (parts e)) -> ordinary e'.
Proof. intros e e' O H a I. apply (O a), H, I. Qed.
Lemma parts_self : forall e, In e (parts e).
Proof. destruct e; left; reflexivity. Qed.

Lemma own : forall top us p b id a e,
  In ((fst p, rev (snd p)), b) us -> a = e -> unwrapped a p id ->
  (top = true \/ is_call e = false) -> exists v, In (id, v) (visit T top us e).
Proof.
  intros top us p b id a e I <- [[m [r [-> [U S]]]]|[m [r [x [-> [U S]]]]]] [->|W]; try discriminate W;
    destruct (report_known us id m r p b U S I) as [v V]; exists v; cbn [visit]; apply in_app_iff; left; exact V.
Qed.

Ltac child O := eapply ordinary_sub; [exact O|]; intros; cbn [parts In]; rewrite ?in_app_iff; tauto.

(* Every call is visited, but the expression itself when only its children are. *)
Lemma visited : forall e top us p b id a,
  ordinary e -> In ((fst p, rev (snd p)), b) us -> In a (parts e) -> unwrapped a p id ->
  (top = true \/ is_call e = false) -> exists v, In (id, v) (visit T top us e).
Proof.
  intros e. induction e; intros top us p bb id0 a O I J U W;
    assert (Oh := O _ (parts_self _)); cbn [parts] in J; destruct J as [J|J];
    try (exfalso; subst a; destruct U as [[m0 [r0 [E _]]]|[m0 [r0 [a0 [E _]]]]]; discriminate E);
    try (apply (own top us p bb id0 a); [exact I|congruence|exact U|exact W]);
    try contradiction; cbn [visit];
    repeat match type of J with In _ (_ ++ _) => apply in_app_or in J as [J|J] end;
    match type of J with In _ (parts ?e') =>
      match goal with IH : context [ordinary e'] |- _ =>
        assert (Q : forall top us, In (fst p, rev (snd p), bb) us -> top = true \/ is_call e' = false -> exists v, In (id0, v) (visit T top us e'))
          by (intros tp us0 I0 W0; apply (IH tp us0 p bb id0 a); [child O|exact I0|exact J|exact U|exact W0])
      end
    end.
  all: try (destruct (Q true us I (or_introl eq_refl)) as [v V]; exists v; rewrite ?in_app_iff; tauto).
  all: assert (B : forall x, is_branch x = true -> is_call x = false) by (intros x; destruct x; cbn; congruence).
  all: cbn iota in Oh.
  all: destruct top; [|destruct (Q true us I (or_introl eq_refl)) as [v V]; exists v; rewrite ?in_app_iff; tauto].
  - destruct (Q false us I) as [v V]; [right; tauto|]. exists v. rewrite in_app_iff. tauto.
  - destruct (Q false (us ++ kept T e1 e2 false)) as [v V]; [apply in_app_iff; tauto|right; apply B; tauto|].
    exists v. rewrite in_app_iff. tauto.
  - destruct (Q false us I) as [v V]; [right; tauto|]. exists v. rewrite in_app_iff. tauto.
  - destruct (Q false (us ++ kept T e1 e2 false)) as [v V]; [apply in_app_iff; tauto|right; apply B; tauto|].
    exists v. rewrite !in_app_iff. tauto.
  - destruct (Q false (us ++ kept T e1 e3 true)) as [v V]; [apply in_app_iff; tauto|right; apply B; tauto|].
    exists v. rewrite !in_app_iff. tauto.
Qed.

Lemma alone_sub : forall x e e', leaves_alone x e -> (forall a, In a (parts e') -> In a (parts e)) -> leaves_alone x e'.
Proof. intros x e e' O H a I. apply (O a), H, I. Qed.
Ltac lesser L := eapply alone_sub; [exact L|]; intros; cbn [parts In]; rewrite ?in_app_iff; tauto.

Lemma alone_unmutated : forall l e, leaves_alone (fst l) e -> mutated l e = false.
Proof.
  intros l e. assert (P : forall q, fst q <> fst l -> potentially l q = false).
  { intros q H. unfold potentially, is_potentially_local_place. apply Nat.eqb_neq in H. rewrite H.
    destruct (snd l); reflexivity. }
  induction e; intros L; assert (Lh := L _ (parts_self _)); cbn [mutated]; try reflexivity;
    repeat match goal with IH : leaves_alone _ ?e' -> _ |- _ => rewrite IH by (lesser L); clear IH end;
    rewrite ?orb_false_r; try reflexivity.
  - destruct (by_mut m) eqn:Bm; [|reflexivity]. destruct (place_of e) as [q|] eqn:Pl; [|rewrite andb_false_r; reflexivity].
    rewrite P by (apply (Lh Bm q Pl)). rewrite andb_false_r. reflexivity.
  - destruct (by_mut m) eqn:Bm; [|reflexivity]. destruct (place_of e1) as [q|] eqn:Pl; [|reflexivity].
    rewrite P by (apply (Lh Bm q Pl)). reflexivity.
  - destruct (place_of e) as [q|] eqn:Pl; [|reflexivity]. apply P, (Lh q Pl).
  - destruct (place_of e) as [[x fs]|] eqn:Pl; [|reflexivity]. apply P. cbn. apply (Lh (x, fs) Pl).
  - destruct (place_of e1) as [q|] eqn:Pl; [|reflexivity]. apply P, (Lh q Pl).
Qed.

Theorem direct : forall k chk r t p,
  place_of r = Some p -> tells (T p) chk -> leaves_alone (fst p) (EBlock t) -> ordinary t ->
  forall a id, In a (parts t) -> unwrapped a p id -> exists v, In (id, v) (check_fn T (EIf (EMeth0 k chk r) (EBlock t))).
Proof.
  intros k chk r t p P C L O a id I U. unfold check_fn. cbn [visit].
  assert (E := place_extract _ _ P).
  assert (R : forall q e0, place_of e0 = Some q -> mutated (fst p, rev (snd p)) e0 = false).
  { intros q e0. revert q. induction e0; intros q H; try discriminate H; cbn [mutated]; [reflexivity|].
    cbn in H. destruct (place_of e0) as [q0|]; [|discriminate]. eapply IHe0. reflexivity. }
  assert (K : exists b, In ((fst p, rev (snd p)), b) ([] ++ kept T (EMeth0 k chk r) (EBlock t) false)).
  { cbn [app]. unfold kept. cbn [collect]. rewrite E. cbn [fst snd]. rewrite rev_involutive.
    destruct p as [x fs]. cbn [fst snd] in *.
    assert (X : exists u, option_or_result_call (T (x, fs)) chk = Some u).
    { destruct C as [[-> [-> | ->]]|[-> [-> | ->]]]; cbn; eauto. }
    destruct X as [u ->]. cbn [filter fst]. exists (negb (eqb u false)).
    assert (M1 : mutated (x, rev fs) (EMeth0 k chk r) = false).
    { cbn [mutated]. rewrite (R _ _ P). destruct C as [[_ [-> | ->]]|[_ [-> | ->]]]; reflexivity. }
    assert (M2 : mutated (x, rev fs) (EBlock t) = false) by (apply alone_unmutated; exact L).
    rewrite M1, M2. cbn. left. reflexivity. }
  destruct K as [b K].
  destruct (visited (EBlock t) false ([] ++ kept T (EMeth0 k chk r) (EBlock t) false) p b id a) as [v V]; auto.
  - intros a0 J. cbn [parts] in J. destruct J as [<-|J]; [exact Logic.I|]. apply O, J.
  - cbn [parts]. right. exact I.
  - exists v. rewrite in_app_iff. right. exact V.
Qed.
End lint.
