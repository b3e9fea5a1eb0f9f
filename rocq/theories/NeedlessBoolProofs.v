From Coq Require Import Lia.
From Verif Require Import SuggProofs.
From Verif Require Export BoolCmpProofs.

Lemma parses_return t e : parses t e -> parses (TReturn :: t) (Return e).
Proof. intros (f & F). exists (S (S f)). cbn [parse]. cbn [then_]. now rewrite F. Qed.
(** A place asks for no more than ranges and assignments do, or its parent is one of the operators asked about. *)
Lemma parent_room k : forall p n, (match p with PTop => n = 0 | PPost _ => True | PUn _ => True | PBin (OBin _) => True | PBin _ => n <= 3 | PCast => True end) ->
  match parent_from p k with PTop => room_from n k <= 3 | PBin (OBin _) => True | PBin _ => room_from n k <= 3 | _ => True end.
Proof.
  induction k; intros p m H; cbn [parent_from room_from].
  - destruct p as [| | |[]|]; auto; lia.
  - apply IHk. exact Logic.I.
  - apply IHk. exact Logic.I.
  - apply IHk. destruct op; cbn; auto.
  - apply IHk. destruct op; cbn; auto.
  - apply IHk. exact Logic.I.
  - apply IHk. destruct p as [| | |[]|]; auto; lia.
Qed.

Section Cut.
  Context (blk callish : nat -> bool).
  Lemma cut_cons t x : cut_short blk callish (t ++ x) -> (exists n, t = [TAtom n] /\ blk n = true) \/ cut_short blk callish t \/ t = [].
  Proof.
    intros (n & tok & rest & E & Hn & Ht). destruct t as [|a [|b t]]; auto.
    - cbn in E. injection E as -> _. eauto.
    - cbn in E. injection E as -> -> <-. right. left. exists n, tok, t. auto.
  Qed.
  Lemma snippet_nonempty c : valid c -> snippet c <> [].
  Proof. intros H. eapply gram_nonempty. now apply valid_gram. Qed.
  Lemma one_atom c n : valid c -> snippet c = [TAtom n] -> c = CAtom n.
  Proof.
    intros H E. destruct c; cbn in *.
    - congruence.
    - destruct (snippet c) as [|? []] eqn:S; cbn in E; try discriminate; destruct H as [H _]; apply snippet_nonempty in H; contradiction.
    - destruct u as [| | |[|]]; discriminate.
    - destruct H as (Hl & Hr & _). apply snippet_nonempty in Hl. destruct (snippet c1) as [|? []]; cbn in E; try discriminate; contradiction.
    - destruct H as (H & _). apply snippet_nonempty in H. destruct (snippet c) as [|? []]; cbn in E; try discriminate; contradiction.
    - unfold parens in E. destruct (snippet c); discriminate.
  Qed.
  Lemma after_whole c tok rest : valid c -> match unparen c with CAtom n => blk n | _ => false end = false -> ~ cut_short blk callish (snippet c) ->
    ~ cut_short blk callish (snippet c ++ tok :: rest).
  Proof.
    intros V BL NC C. apply cut_cons in C as [(n & E & Hn)|[C|C]]; auto.
    - apply one_atom in E; auto. subst c. cbn in BL. congruence.
    - apply snippet_nonempty in V. contradiction.
  Qed.
  Lemma chain_cut c : valid c -> level c = 14 -> calls_block blk callish c = false -> ~ cut_short blk callish (snippet c).
  Proof.
    induction c; intros V L H C.
    - destruct C as (m & tok & rest & E & _). discriminate.
    - destruct V as [V L']. cbn [snippet] in C. destruct C as (m & tok & rest & E & Hm & Ht).
      assert (N := snippet_nonempty _ V). destruct (snippet c) as [|a [|b t]] eqn:S; [contradiction| |].
      + cbn in E. injection E as -> <- _. apply one_atom in S; auto. subst c. cbn in H. rewrite Hm, Ht in H. discriminate.
      + cbn in E. injection E as -> -> _. apply IHc; auto.
        * destruct c; auto.
        * exists m, tok, t. auto.
    - discriminate.
    - cbn in L. destruct op; cbn in L; try lia. pose proof (bop_prec_ge b). lia.
    - discriminate.
    - destruct C as (m & tok & rest & E & _). discriminate.
  Qed.
  Lemma not_cut c : valid c -> 3 <= level c -> condition_needs_parentheses blk callish c = false -> calls_block blk callish c = false ->
    ~ cut_short blk callish (snippet c).
  Proof.
    induction c; intros V L H CB.
    - now apply chain_cut.
    - now apply chain_cut.
    - intros (m & tok & rest & E & _). destruct u as [| | |[|]]; discriminate.
    - destruct V as (Vl & Vr & NC & V). cbn in L. destruct op; cbn in L; try lia; try contradiction.
      cbn in H. apply orb_false_iff in H as [H1 H2]. cbn [snippet]. apply after_whole; auto. apply IHc1; auto. cbn in V. lia.
    - destruct V as (V & L'). cbn in H. apply orb_false_iff in H as [H1 H2]. cbn [snippet]. apply after_whole; auto. apply IHc; auto. lia.
    - intros (m & tok & rest & E & _). discriminate.
  Qed.
  Lemma cnp_unparen c : condition_needs_parentheses blk callish (unparen c) = condition_needs_parentheses blk callish c.
  Proof. induction c; cbn; auto. Qed.
  Lemma cut_op a b l r : cut_short blk callish (l ++ TBin a :: r) -> cut_short blk callish (l ++ TBin b :: r).
  Proof.
    intros (n & tok & rest & E & Hn & Ht). destruct l as [|x [|y l]].
    - discriminate.
    - cbn in *. injection E as -> <- <-. exists n, (TBin b), r. auto.
    - cbn in *. injection E as -> -> <-. exists n, tok, (l ++ TBin b :: r). auto.
  Qed.
  Lemma parens_not_cut t : ~ cut_short blk callish (parens t).
  Proof. intros (m & tok & rest & E & _). discriminate. Qed.
  Lemma hir_not_cut st c : valid c -> 3 <= level (unparen c) -> condition_needs_parentheses blk callish c = false ->
    calls_block blk callish (unparen c) = false ->
    ~ cut_short blk callish (disp (hir_with_context st c))
    /\ ((forall i, unparen c <> CUn Not i) -> ~ cut_short blk callish (disp (not_ (hir_with_context st c)))).
  Proof.
    intros V L H CB. destruct (unparen_spec c V) as (VU & EU & D). rewrite <- cnp_unparen in H.
    assert (NU : ~ cut_short blk callish (snippet (unparen c))) by now apply not_cut.
    assert (NC : ~ cut_short blk callish (snippet c)).
    { destruct c; try exact NU. apply parens_not_cut. }
    assert (BANG : forall t, ~ cut_short blk callish (TBang :: t)) by (intros t (m & tok & rest & E & _); discriminate).
    assert (FR : ~ cut_short blk callish (disp (hir_from_snippet c)) /\ ~ cut_short blk callish (disp (not_ (hir_from_snippet c)))).
    { unfold hir_from_snippet. destruct (unparen c) as [n|c' n|u c'|op l r|c' n|c'] eqn:U; cbn [disp not_]; (split; [auto|]).
      - apply BANG.
      - apply BANG.
      - apply BANG.
      - cbn [snippet] in NU. destruct op; cbn in L; try lia; try apply BANG. destruct (flip b) as [b'|]; [|apply BANG].
        cbn [disp binop_to_string]. intros C. apply NU. eapply cut_op. exact C.
      - apply BANG.
      - apply BANG. }
    unfold hir_with_context. rewrite hir_ctx_unparen. pose proof (unparen_not_paren c) as NP.
    destruct (unparen c) as [n|c' n|u c'|op l r|c' n|c']; cbn [hir_ctx]; try tauto.
    - destruct u; try tauto; destruct (st c'); try tauto.
      + split; [rewrite disp_un; cbn [un_token]; apply BANG|]. intros N. exfalso. eapply N. reflexivity.
      + split; [rewrite disp_un; intros (m & tok & rest & E & _); discriminate|]. intros _. apply BANG.
    - exfalso. eapply NP. reflexivity.
  Qed.
  Lemma paren_not_cut s e : stands_for s e -> (exists t, s = NonParen t) \/ ~ cut_short blk callish (disp (maybe_paren s)).
  Proof.
    intros S. destruct s; cbn; eauto; right; try apply parens_not_cut.
    destruct (has_enclosing_paren t) eqn:E; [|apply parens_not_cut]. cbn. intros (m & tok & rest & -> & _). discriminate.
  Qed.
  Lemma hir_nonparen st c t : hir_with_context st c = NonParen t -> t = snippet c /\ level (unparen c) = 14.
  Proof.
    unfold hir_with_context. rewrite hir_ctx_unparen.
    assert (FR : hir_from_snippet c = NonParen t -> t = snippet c /\ level (unparen c) = 14).
    { unfold hir_from_snippet. destruct (unparen c); try discriminate; intros E; injection E as <-; auto. }
    pose proof (unparen_not_paren c) as NP. destruct (unparen c) as [n|c' n|u c'|op' l' r'|c' n|c']; cbn [hir_ctx]; auto.
    - destruct u; auto; destruct (st c'); auto; discriminate.
    - exfalso. eapply NP. reflexivity.
  Qed.
  Lemma hir_nonparen_cut st c t : valid c -> calls_block blk callish (unparen c) = false -> hir_with_context st c = NonParen t -> ~ cut_short blk callish t.
  Proof.
    intros V CB E. apply hir_nonparen in E as [-> L]. destruct (unparen_spec c V) as (VU & _ & _).
    assert (~ cut_short blk callish (snippet (unparen c))) by now apply chain_cut. destruct c; auto. apply parens_not_cut.
  Qed.
  Lemma not_nonparen st c t : not_ (hir_with_context st c) = NonParen t -> exists i, unparen c = CUn Not i.
  Proof.
    destruct (hir_with_context st c) as [| |op l r|u i] eqn:E; cbn; try discriminate.
    - destruct op; try discriminate. destruct (flip b); discriminate.
    - destruct u; try discriminate. intros _. revert E. unfold hir_with_context. rewrite hir_ctx_unparen.
      assert (FR : forall u i, hir_from_snippet c <> UnOp u i) by (intros; unfold hir_from_snippet; destruct (unparen c); discriminate).
      pose proof (unparen_not_paren c) as NP. destruct (unparen c) as [n|c' n|u' c'|op' l' r'|c' n|c']; cbn [hir_ctx]; try (intros E; exfalso; eapply FR; eassumption).
      + destruct u'; eauto; try (intros E; exfalso; eapply FR; eassumption); destruct (st c'); intros E; try (exfalso; eapply FR; eassumption); discriminate.
      + exfalso. eapply NP. reflexivity.
  Qed.
End Cut.
