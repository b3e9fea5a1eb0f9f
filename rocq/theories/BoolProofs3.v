(** Proofs about booleans.rs: how the suggested text is read. *)
From Coq Require Import Lia.
From Verif Require Export BoolProofs2.

Arguments parse : simpl never.
Definition follow (lv : level) (rest : list tok) : Prop :=
  match lv, rest with
  | LAnd, TAnd :: _ | LOr, TAnd :: _ | LOr, TOr :: _ => False
  | _, _ => True
  end.
Definition Reads (lv : level) (t : list tok) (e : bx) : Prop :=
  exists f0, forall f rest, f0 <= f -> follow lv rest -> parse f lv (t ++ rest) = Some (e, rest).

Lemma parse_S f lv t : parse (S f) lv t =
      match lv with
      | LUnary =>
          match t with
          | TNot :: t => match parse f LUnary t with Some (e, t) => Some (XNot e, t) | None => None end
          | TLp :: t => match parse f LOr t with Some (e, TRp :: t) => Some (e, t) | _ => None end
          | TLit b :: t => Some (XLit b, t)
          | TAtom n :: t => Some (XAtom n, t)
          | TMeth s m r :: t => Some (XMeth s m r, t)
          | TMethF s m r :: t => match parse f LOr t with Some (e, TRp :: t) => Some (XMethF s m r e, t) | _ => None end
          | _ => None
          end
      | LCompare =>
          match t with
          | TOperand l :: TCmp o :: TOperand r :: t =>
              if ends_in_type l && cop_eqb o Lt then None else Some (XCmp false o l r, t)
          | _ => parse f LUnary t
          end
      | LAnd =>
          match parse f LCompare t with
          | Some (a, TAnd :: t) => match parse f LAnd t with Some (b, t) => Some (XAnd false a b, t) | None => None end
          | x => x
          end
      | LOr =>
          match parse f LAnd t with
          | Some (a, TOr :: t) => match parse f LOr t with Some (b, t) => Some (XOr false a b, t) | None => None end
          | x => x
          end
      end.
Proof. reflexivity. Qed.

Lemma reads_compare t e : Reads LUnary t e -> Reads LCompare t e.
Proof.
  intros (f0 & H). exists (S (S f0)). intros f rest L _. destruct f as [|[|f]]; [lia|lia|]. specialize (H (S f) rest ltac:(lia) I).
  rewrite parse_S. destruct (t ++ rest) as [|x l] eqn:E; [exact H|]. destruct x; try exact H. rewrite parse_S in H. discriminate.
Qed.
Lemma reads_and t e : Reads LCompare t e -> Reads LAnd t e.
Proof.
  intros (f0 & H). exists (S f0). intros f rest L F. destruct f as [|f]; [lia|]. rewrite parse_S, H by (try exact I; lia).
  destruct rest as [|[] rest]; try reflexivity. destruct F.
Qed.
Lemma reads_or t e : Reads LAnd t e -> Reads LOr t e.
Proof.
  intros (f0 & H). exists (S f0). intros f rest L F. destruct f as [|f]; [lia|].
  rewrite parse_S, H; [|lia|destruct rest as [|[] rest]; cbn in *; auto].
  destruct rest as [|[] rest]; try reflexivity. destruct F.
Qed.
Lemma reads_and_cons t a t' b : Reads LCompare t a -> Reads LAnd t' b -> Reads LAnd (t ++ TAnd :: t') (XAnd false a b).
Proof.
  intros (f1 & H1) (f2 & H2). exists (S (f1 + f2)). intros f rest L F. destruct f as [|f]; [lia|].
  rewrite parse_S, <- app_assoc, H1 by (try exact I; lia). cbn [app]. rewrite H2 by (auto; lia). reflexivity.
Qed.
Lemma reads_or_cons t a t' b : Reads LAnd t a -> Reads LOr t' b -> Reads LOr (t ++ TOr :: t') (XOr false a b).
Proof.
  intros (f1 & H1) (f2 & H2). exists (S (f1 + f2)). intros f rest L F. destruct f as [|f]; [lia|].
  rewrite parse_S, <- app_assoc, H1 by (try exact I; lia). cbn [app]. rewrite H2 by (auto; lia). reflexivity.
Qed.
Lemma reads_not t e : Reads LUnary t e -> Reads LUnary (TNot :: t) (XNot e).
Proof. intros (f0 & H). exists (S f0). intros f rest L _. destruct f as [|f]; [lia|]. rewrite parse_S. cbn [app]. rewrite H by (try exact I; lia). reflexivity. Qed.
Lemma reads_paren t e : Reads LOr t e -> Reads LUnary (TLp :: t ++ [TRp]) e.
Proof.
  intros (f0 & H). exists (S f0). intros f rest L _. destruct f as [|f]; [lia|]. rewrite parse_S. cbn [app]. rewrite <- app_assoc, H by (try exact I; lia). reflexivity.
Qed.
Lemma reads_methf s m r t e : Reads LOr t e -> Reads LUnary (TMethF s m r :: t ++ [TRp]) (XMethF s m r e).
Proof.
  intros (f0 & H). exists (S f0). intros f rest L _. destruct f as [|f]; [lia|]. rewrite parse_S. cbn [app]. rewrite <- app_assoc, H by (try exact I; lia). reflexivity.
Qed.
Lemma reads_cmp o l r : (o = Lt -> ends_in_type l = false) -> Reads LCompare [TOperand l; TCmp o; TOperand r] (XCmp false o l r).
Proof.
  intros H. exists 1. intros f rest L _. destruct f as [|f]; [lia|]. rewrite parse_S. cbn [app].
  destruct (ends_in_type l && cop_eqb o Lt) eqn:E; [|reflexivity]. apply andb_true_iff in E as [E1 E2]. apply cop_eqb_eq in E2. rewrite H in E1 by auto. discriminate.
Qed.
Lemma reads_lit b : Reads LUnary [TLit b] (XLit b).
Proof. exists 1. intros f rest L _. destruct f; [lia|]. reflexivity. Qed.
Lemma reads_atom n : Reads LUnary [TAtom n] (XAtom n).
Proof. exists 1. intros f rest L _. destruct f; [lia|]. reflexivity. Qed.
Lemma reads_meth s m r : Reads LUnary [TMeth s m r] (XMeth s m r).
Proof. exists 1. intros f rest L _. destruct f; [lia|]. reflexivity. Qed.

Section Text.
  Variable C : list (operand * operand).
  Definition meaning := world -> list nat -> bool.
  (** The text is read at the level and has the meaning. *)
  Definition U (lv : level) (t : list tok) (m : meaning) : Prop :=
    exists e, Reads lv t e /\ forall w s, Law C w -> eval w s e = m w s.
  Definition meq (m m' : meaning) : Prop := forall w s, Law C w -> m w s = m' w s.
  Definition mand (m m' : meaning) : meaning := fun w s => m w s && m' w s.
  Definition mor (m m' : meaning) : meaning := fun w s => m w s || m' w s.
  Definition mnot (m : meaning) : meaning := fun w s => negb (m w s).
  Lemma U_ext lv t m m' : meq m m' -> U lv t m -> U lv t m'.
  Proof. intros E (e & R & V). exists e. split; [auto|]. intros w s LW. rewrite V by auto. now apply E. Qed.
  (** Operands joined by `&&`, by `||`. *)
  Inductive A : list tok -> meaning -> Prop :=
  | A_one t m m' : U LCompare t m -> meq m m' -> A t m'
  | A_cons t m t' m' n : U LCompare t m -> A t' m' -> meq (mand m m') n -> A (t ++ TAnd :: t') n.
  Inductive O : list tok -> meaning -> Prop :=
  | O_one t m m' : A t m -> meq m m' -> O t m'
  | O_cons t m t' m' n : A t m -> O t' m' -> meq (mor m m') n -> O (t ++ TOr :: t') n.
  Lemma A_ext t m m' : meq m m' -> A t m -> A t m'.
  Proof. intros E H. destruct H as [t m1 m2 U1 E1|t m1 t' m2 n U1 A1 E1]; [eapply A_one; eauto|eapply A_cons; eauto]; intros w s LW; rewrite E1 by auto; auto. Qed.
  Lemma O_ext t m m' : meq m m' -> O t m -> O t m'.
  Proof. intros E H. destruct H as [t m1 m2 U1 E1|t m1 t' m2 n U1 A1 E1]; [eapply O_one; eauto|eapply O_cons; eauto]; intros w s LW; rewrite E1 by auto; auto. Qed.
  Lemma meq_refl m : meq m m.
  Proof. intros w s _. reflexivity. Qed.
  Lemma A_app t m : A t m -> forall t' m', A t' m' -> A (t ++ TAnd :: t') (mand m m').
  Proof.
    induction 1 as [t m1 m2 U1 E1|t m1 t2 m2 n U1 A1 IH E1]; intros t' m' A'.
    - eapply A_cons; eauto. intros w s LW. unfold mand. now rewrite E1.
    - rewrite <- app_assoc. cbn [app]. eapply A_cons; [exact U1|apply IH; exact A'|]. intros w s LW. unfold mand. rewrite <- E1 by auto. unfold mand. apply andb_assoc.
  Qed.
  Lemma O_app t m : O t m -> forall t' m', O t' m' -> O (t ++ TOr :: t') (mor m m').
  Proof.
    induction 1 as [t m1 m2 U1 E1|t m1 t2 m2 n U1 A1 IH E1]; intros t' m' A'.
    - eapply O_cons; eauto. intros w s LW. unfold mor. now rewrite E1.
    - rewrite <- app_assoc. cbn [app]. eapply O_cons; [exact U1|apply IH; exact A'|]. intros w s LW. unfold mor. rewrite <- E1 by auto. unfold mor. apply orb_assoc.
  Qed.
  Lemma A_U t m : A t m -> U LAnd t m.
  Proof.
    induction 1 as [t m1 m2 U1 E1|t m1 t2 m2 n U1 A1 IH E1].
    - destruct U1 as (e & R & V). exists e. split; [now apply reads_and|]. intros w s LW. rewrite V by auto. now apply E1.
    - destruct U1 as (e & R & V), IH as (e' & R' & V'). exists (XAnd false e e'). split; [now apply reads_and_cons|].
      intros w s LW. cbn [eval]. rewrite V, V' by auto. now apply E1.
  Qed.
  Lemma O_U t m : O t m -> U LOr t m.
  Proof.
    induction 1 as [t m1 m2 U1 E1|t m1 t2 m2 n U1 A1 IH E1].
    - apply A_U in U1. destruct U1 as (e & R & V). exists e. split; [now apply reads_or|]. intros w s LW. rewrite V by auto. now apply E1.
    - apply A_U in U1. destruct U1 as (e & R & V), IH as (e' & R' & V'). exists (XOr false e e'). split; [now apply reads_or_cons|].
      intros w s LW. cbn [eval]. rewrite V, V' by auto. now apply E1.
  Qed.
  Lemma U_compare t m : U LUnary t m -> U LCompare t m.
  Proof. intros (e & R & V). exists e. split; [now apply reads_compare|auto]. Qed.
  Lemma A_of t m : U LCompare t m -> A t m.
  Proof. intros H. eapply A_one; [eauto|apply meq_refl]. Qed.
  Lemma O_of t m : A t m -> O t m.
  Proof. intros H. eapply O_one; [eauto|apply meq_refl]. Qed.
  Lemma U_paren t m : O t m -> U LUnary (wrap true t) m.
  Proof. intros H. apply O_U in H as (e & R & V). exists e. split; [now apply reads_paren|auto]. Qed.
  Lemma U_not t m : U LUnary t m -> U LUnary (TNot :: t) (mnot m).
  Proof. intros (e & R & V). exists (XNot e). split; [now apply reads_not|]. intros w s LW. cbn. now rewrite V. Qed.

  (** *** Source text *)
  Definition ev (e : bx) : meaning := fun w s => eval w s e.
  Definition bare_junction (e : bx) : Prop := match e with XAnd par _ _ | XOr par _ _ => par = false | _ => False end.
  Lemma text_reads e : source_ok e ->
    O (text e) (ev e) /\ (not_bare_or e -> A (text e) (ev e)) /\ (~ bare_junction e -> U LCompare (text e) (ev e)) /\ (paren_or_unary e -> U LUnary (text e) (ev e)).
  Proof.
    assert (W : forall t m e, O t m -> (not_bare_or e -> A t m) -> (~ bare_junction e -> U LCompare t m) -> (paren_or_unary e -> U LUnary t m) ->
      O t m /\ (not_bare_or e -> A t m) /\ (~ bare_junction e -> U LCompare t m) /\ (paren_or_unary e -> U LUnary t m)) by auto.
    assert (UN : forall t m e, U LUnary t m -> O t m /\ (not_bare_or e -> A t m) /\ (~ bare_junction e -> U LCompare t m) /\ (paren_or_unary e -> U LUnary t m)).
    { intros t m e0 H. apply W; intros; auto using U_compare, A_of, O_of. }
    induction e as [a IH|p a IH1 b IH2|p a IH1 b IH2|v|p o l r|st m r|st m r bd IH|n]; intros OK; cbn [text].
    - destruct OK as [OK PU]. destruct (IH OK) as (_ & _ & _ & H). apply UN. exact (U_not _ _ (H PU)).
    - destruct OK as (OA & OB & NA & NB). destruct (IH1 OA) as (_ & HA & _ & _). destruct (IH2 OB) as (_ & HB & _ & _).
      assert (X : A (text a ++ TAnd :: text b) (ev (XAnd p a b))) by (apply (A_app _ (ev a)); auto).
      destruct p; [apply UN; apply U_paren; now apply O_of|]. apply W; intros; auto using O_of; cbn in *; [exfalso; auto|discriminate].
    - destruct OK as (OA & OB). destruct (IH1 OA) as (HA & _ & _ & _). destruct (IH2 OB) as (HB & _ & _ & _).
      assert (X : O (text a ++ TOr :: text b) (ev (XOr p a b))) by (apply (O_app _ (ev a)); auto).
      destruct p; [apply UN; now apply U_paren|]. apply W; intros; auto; cbn in *; [discriminate|exfalso; auto|discriminate].
    - apply UN. exists (XLit v). split; [apply reads_lit|reflexivity].
    - destruct OK as [O1 O2].
      assert (X : U LCompare [TOperand l; TCmp o; TOperand r] (ev (XCmp p o l r))) by (exists (XCmp false o l r); split; [now apply reads_cmp|reflexivity]).
      destruct p; [apply UN; apply U_paren; now apply O_of, A_of|]. apply W; intros; auto using O_of, A_of. cbn in *. discriminate.
    - apply UN. exists (XMeth st m r). split; [apply reads_meth|reflexivity].
    - destruct OK as [OK _]. destruct (IH OK) as (H & _). apply UN. apply O_U in H as (e & R & V). exists (XMethF st m r e). split; [now apply reads_methf|].
      intros w s LW. unfold ev. cbn [eval]. destruct st; [|apply other_method_f_ext; intros x; apply V; auto].
      destruct m, (option_ w r s); cbn; auto; apply V; auto.
    - apply UN. exists (XAtom n). split; [apply reads_atom|reflexivity].
  Qed.

  (** *** Negated text *)
  Hypothesis casts : forall l r, In (l, r) C -> is_cast l = false -> ends_in_type l = false.
  Lemma simplify_not_reads msrv e : forall t, source_ok e -> incl (comparisons e) C -> simplify_not msrv e = Some t ->
    U LCompare t (mnot (ev e)) /\ (match e with XCmp _ _ _ _ => True | _ => U LUnary t (mnot (ev e)) end).
  Proof.
    induction e as [a IH|p a IH1 b IH2|p a IH1 b IH2|v|p o l r|st m r|st m r bd IH|n]; intros t OK IC H; cbn [simplify_not] in H; try discriminate.
    - injection H as <-. destruct OK as [OK PU]. destruct (text_reads a OK) as (_ & _ & _ & X). specialize (X PU).
      assert (Y : U LUnary (text a) (mnot (ev (XNot a)))). { eapply U_ext; [|exact X]. intros w s LW. unfold mnot, ev. cbn. now rewrite negb_involutive. }
      split; [now apply U_compare|exact Y].
    - destruct (has_ord l) eqn:HO; [|discriminate]. injection H as <-. split; [|exact I]. destruct OK as [O1 O2].
      assert (NEG : forall w s, Law C w -> cmp_holds (negate o) (compare w (oid l) (oid r) s) = negb (cmp_holds o (compare w (oid l) (oid r) s))).
      { intros w s LW. apply negate_eval. apply LW; auto. apply IC. left. reflexivity. }
      destruct (negb (in_parens l) && is_cast l && cop_eqb o Ge) eqn:K.
      + exists (XCmp false (negate o) (operand_in_parens l) r). split; [apply reads_cmp; reflexivity|]. intros w s LW. apply NEG, LW.
      + exists (XCmp false (negate o) l r). split; [|intros w s LW; apply NEG, LW]. apply reads_cmp. intros NL.
        assert (o = Ge) by (destruct o; cbn in NL; congruence). subst o. cbn in K. rewrite andb_true_r in K.
        destruct (in_parens l) eqn:PL; [auto|]. cbn in K. apply (casts l r); auto. apply IC. left. reflexivity.
    - destruct st; [|discriminate]. destruct (negated_method msrv m) as [m'|] eqn:NM; [|discriminate]. injection H as <-. cbn in OK. specialize (OK eq_refl).
      assert (X : U LUnary [TMeth true m' r] (mnot (ev (XMeth true m r)))).
      { exists (XMeth true m' r). split; [apply reads_meth|]. intros w s LW. unfold mnot, ev. cbn [eval].
        destruct m; cbn in NM, OK; try discriminate; injection NM as <-; destruct (option_ w r s), (result_ w r s); reflexivity. }
      split; [now apply U_compare|exact X].
    - destruct st; [|discriminate]. destruct (negated_method msrv m) as [m'|] eqn:NM; [|discriminate]. destruct (simplify_not msrv bd) as [tb|] eqn:SB; [|discriminate]. injection H as <-.
      destruct OK as [OB OM]. specialize (OM eq_refl). destruct (IH tb OB IC eq_refl) as [X _]. apply A_of, O_of, O_U in X as (e & R & V).
      assert (Y : U LUnary (TMethF true m' r :: tb ++ [TRp]) (mnot (ev (XMethF true m r bd)))).
      { exists (XMethF true m' r e). split; [now apply reads_methf|]. intros w s LW. unfold mnot, ev in *. cbn [eval].
        destruct m; cbn in NM, OM; try discriminate; destruct msrv; try discriminate; injection NM as <-; destruct (option_ w r s); cbn; auto; apply V; auto. }
      split; [now apply U_compare|exact Y].
  Qed.
  Definition is_leaf (e : bx) : Prop := match e with XNot _ | XAnd _ _ _ | XOr _ _ _ => False | _ => True end.
  Lemma not_snippet_reads e : source_ok e -> is_leaf e -> U LUnary (not_snippet e) (mnot (ev e)).
  Proof.
    intros OK L. destruct (text_reads e OK) as (_ & _ & _ & X).
    destruct e as [a|p a b|p a b|v|p o l r|st m r|st m r bd|n]; cbn in L; try tauto; try (exact (U_not _ _ (X I))). clear X. unfold not_snippet.
    apply U_not. apply U_paren, O_of, A_of. exists (XCmp false o l r). split; [apply reads_cmp, OK|reflexivity].
  Qed.

  (** *** Suggestions *)
  Variable ts : list bx.
  Hypothesis ts_ok : forall n, source_ok (term_at ts n) /\ is_leaf (term_at ts n) /\ incl (comparisons (term_at ts n)) C.
  Definition qv (b : qbool) : meaning := fun w s => qeval (tval (eval w s) ts) b.
  Lemma join_and (f : qbool -> list tok) l : l <> [] -> Forall (fun q => A (f q) (qv q)) l -> A (join TAnd (map f l)) (qv (And l)).
  Proof.
    induction l as [|q l IH]; intros N F; [congruence|]. inversion F as [|? ? F1 F2]; subst. destruct l as [|q' l].
    - cbn. eapply A_ext; [|exact F1]. intros w s LW. unfold qv. cbn. now rewrite andb_true_r.
    - change (join TAnd (map f (q :: q' :: l))) with (f q ++ TAnd :: join TAnd (map f (q' :: l))).
      eapply A_ext; [|apply (A_app _ _ F1); apply IH; [discriminate|exact F2]]. intros w s LW. reflexivity.
  Qed.
  Lemma join_or (f : qbool -> list tok) l : l <> [] -> Forall (fun q => O (f q) (qv q)) l -> O (join TOr (map f l)) (qv (Or l)).
  Proof.
    induction l as [|q l IH]; intros N F; [congruence|]. inversion F as [|? ? F1 F2]; subst. destruct l as [|q' l].
    - cbn. eapply O_ext; [|exact F1]. intros w s LW. unfold qv. cbn. now rewrite orb_false_r.
    - change (join TOr (map f (q :: q' :: l))) with (f q ++ TOr :: join TOr (map f (q' :: l))).
      eapply O_ext; [|apply (O_app _ _ F1); apply IH; [discriminate|exact F2]]. intros w s LW. reflexivity.
  Qed.
  Lemma existsb_rev {X} (f : X -> bool) l : existsb f (rev l) = existsb f l.
  Proof. induction l as [|x l IH]; cbn; [reflexivity|]. rewrite existsb_app, IH. cbn. rewrite orb_false_r. apply orb_comm. Qed.

  Lemma print_reads msrv b : printable b ->
    O (print msrv ts b) (qv b) /\ (match b with Or _ => True | _ => A (print msrv ts b) (qv b) end) /\ (match b with Or _ | And _ => True | _ => U LCompare (print msrv ts b) (qv b) end).
  Proof.
    assert (UN : forall b, U LCompare (print msrv ts b) (qv b) ->
      O (print msrv ts b) (qv b) /\ (match b with Or _ => True | _ => A (print msrv ts b) (qv b) end) /\ (match b with Or _ | And _ => True | _ => U LCompare (print msrv ts b) (qv b) end)).
    { intros q H. split; [now apply O_of, A_of|]. split; destruct q; auto using A_of. }
    induction b as [| |n|q IH|l IH|l IH] using qbool_ind'; intros PR.
    - apply UN. apply U_compare. exists (XLit true). split; [apply reads_lit|reflexivity].
    - apply UN. apply U_compare. exists (XLit false). split; [apply reads_lit|reflexivity].
    - apply UN. destruct (ts_ok n) as (T1 & T2 & T3). destruct (text_reads _ T1) as (_ & _ & X & _). apply X. destruct (term_at ts n); cbn in *; tauto.
    - destruct PR as [PR NN]. specialize (IH PR). apply UN. destruct q as [| |n|q|l|l]; cbn [print]; [| | |tauto| |].
      + apply U_compare. eapply U_ext; [|apply U_not; exists (XLit true); split; [apply reads_lit|intros; reflexivity]]. intros w s LW. reflexivity.
      + apply U_compare. eapply U_ext; [|apply U_not; exists (XLit false); split; [apply reads_lit|intros; reflexivity]]. intros w s LW. reflexivity.
      + destruct (ts_ok n) as (T1 & T2 & T3). destruct (simplify_not msrv (term_at ts n)) as [t|] eqn:S.
        * destruct (simplify_not_reads msrv _ t T1 T3 S) as [X _]. exact X.
        * apply U_compare. exact (not_snippet_reads _ T1 T2).
      + apply U_compare, U_not, U_paren, IH.
      + apply U_compare, U_not, U_paren, IH.
    - apply printable_and in PR as [N F]. assert (X : A (print msrv ts (And l)) (qv (And l))).
      { apply (join_and (fun b => wrap (match b with Or _ => true | _ => false end) (print msrv ts b))); [auto|].
        clear N. induction IH as [|q l Hq Hl IHl]; [constructor|]. inversion F; subst. constructor; [|auto]. destruct (Hq H1) as (Y1 & Y2 & _).
        destruct q; try exact Y2. apply A_of, U_compare, U_paren, Y1. }
      split; [now apply O_of|auto].
    - apply printable_or in PR as [N F]. split; [|auto]. cbn [print]. rewrite <- map_rev. eapply O_ext; [|apply join_or].
      + intros w s LW. unfold qv. cbn [qeval]. apply existsb_rev.
      + intros E. apply N. rewrite <- (rev_involutive l), E. reflexivity.
      + apply Forall_rev. clear N. induction IH as [|q l Hq Hl IHl]; [constructor|]. inversion F; subst. constructor; [|auto]. now apply Hq.
  Qed.
  Lemma check_simplify_not_reads msrv e t : source_ok e -> incl (comparisons e) C -> check_simplify_not msrv e = Some t -> U LUnary t (ev e).
  Proof.
    intros OK IC H. destruct e as [e| | | | | | |]; try discriminate. cbn in H. destruct (simplify_not msrv e) as [t'|] eqn:S; [|discriminate]. injection H as <-.
    destruct OK as [OK PU]. destruct (simplify_not_reads msrv e t' OK IC S) as [X Y].
    assert (PA : U LUnary (wrap true t') (ev (XNot e))) by (apply U_paren, O_of, A_of, X).
    destruct e; auto.
  Qed.
End Text.
