From Coq Require Import Lia.
From Verif Require Import SuggProofs.
From Verif Require Export BoolCmpSpec.

Lemma fill_snippet k c : snippet (fill k c) = fill_toks k (snippet c).
Proof. induction k; cbn; congruence. Qed.
Lemma fill_erase k c : erase (fill k c) = fill_tree k (erase c).
Proof. induction k; cbn; try congruence; destruct op; congruence. Qed.
Lemma fill_value {V} (I : reading V) k e e' : value I e = value I e' -> value I (fill_tree k e) = value I (fill_tree k e').
Proof. intros H. induction k; cbn; try congruence; destruct op; cbn; congruence. Qed.

Lemma ends_app_inv a b : b <> [] -> ends_with_type (a ++ b) -> ends_with_type b.
Proof.
  intros N (t & n & E). destruct (exists_last N) as (b' & x & ->). rewrite app_assoc in E. apply app_inj_tail in E as [_ ->]. exists b', n. reflexivity.
Qed.
Lemma ends_last t x : ends_with_type (t ++ [x]) -> exists n, x = TType n.
Proof. intros (t' & n & E). apply app_inj_tail in E as [_ ->]. eauto. Qed.
Lemma ends_mid a x b : ends_with_type (a ++ x :: b) -> b <> [] -> ends_with_type b.
Proof. intros E N. apply (ends_app_inv (a ++ [x])); auto. now rewrite <- app_assoc. Qed.
Lemma ends_mid2 a x b : ends_with_type b -> ends_with_type (a ++ x :: b).
Proof. intros E. apply ends_app. now apply ends_cons. Qed.

Lemma room_from_hole k n : k <> KHole -> room_from n k = room k.
Proof. destruct k; cbn; congruence. Qed.
Definition is_hole (k : ctx) : {k = KHole} + {k <> KHole}.
Proof. destruct k; (left; reflexivity) || (right; discriminate). Defined.

(** A text that binds as tight as the place asks for, put in that place. *)
Definition fits (k : ctx) (c : cst) (q : nat) (t : toks) : Prop :=
  (k <> KHole -> q = level (fill k c)) /\ (ends_with_type t -> ends_with_type (snippet (fill k c)) \/ (k <> KHole /\ level (fill k c) <= 5) \/ k = KHole).
Lemma inner_level n k c p q t : n <= level (fill k c) -> (k = KHole -> q = p) -> room_from n k <= p -> fits k c q t -> n <= q.
Proof.
  intros L H R (F & _). destruct (is_hole k) as [E|N].
  - subst k. cbn in R. now rewrite H.
  - now rewrite F.
Qed.
Lemma place_gram k c p t e : valid (fill k c) -> gram p t e -> room k <= p ->
  (ends_with_type t -> ends_with_type (snippet c) \/ room k <= 5) ->
  exists q, gram q (fill_toks k t) (fill_tree k e) /\ fits k c q (fill_toks k t) /\ (k = KHole -> q = p).
Proof.
  assert (ST : forall (k : ctx) q (t : toks), (ends_with_type t -> ends_with_type (snippet (fill k c)) \/ level (fill k c) <= 5) -> q = level (fill k c) -> k <> KHole -> fits k c q t).
  { intros k' q t' H E N. split; auto. intros A. destruct (H A); auto. }
  intros V G R T. unfold room in *.
  assert (IND : forall n, valid (fill k c) -> n <= level (fill k c) -> room_from n k <= p -> (ends_with_type t -> ends_with_type (snippet c) \/ room_from n k <= 5) ->
     exists q, gram q (fill_toks k t) (fill_tree k e) /\ fits k c q (fill_toks k t) /\ (k = KHole -> q = p) /\ n <= q
       /\ (ends_with_type (fill_toks k t) -> ends_with_type (snippet (fill k c)) \/ n <= 5)).
  { clear R T V. induction k; intros m V M R T; cbn [fill fill_toks fill_tree valid level] in *.
    - exists p. repeat split; auto; try congruence.
    - destruct V as [V L]. destruct (IHk 14 V ltac:(lia) R T) as (q & A & B & C & D & E).
      exists 14. assert (q = 14) by (apply gram_le in A; lia). subst q. split; [now apply g_post|].
      assert (X : ends_with_type (fill_toks k t ++ [TPost n]) -> False) by (intros X; apply ends_last in X as (? & X); discriminate).
      split; [apply ST; cbn; try discriminate; auto; intros; exfalso; auto|]. split; [discriminate|]. split; auto. intros; exfalso; auto.
    - destruct V as [V L]. destruct (IHk 13 V L R T) as (q & A & B & C & D & E). exists 13.
      assert (N : fill_toks k t <> []) by (eapply gram_nonempty; eauto).
      assert (X : ends_with_type (prefix_toks u ++ fill_toks k t) -> ends_with_type (prefix_toks u ++ snippet (fill k c))).
      { intros X. apply ends_app_inv in X; auto. apply E in X as [X|X]; [now apply ends_app|lia]. }
      split; [destruct u as [| | |[|]]; cbn; econstructor; eauto|].
      split; [apply ST; cbn; try discriminate; auto|]. split; [discriminate|]. split; auto.
    - destruct V as (V & Vr & NC & H).
      assert (N : snippet r <> []) by (eapply gram_nonempty; eapply valid_gram; eauto).
      assert (X : ends_with_type (fill_toks k t ++ op_token op :: snippet r) -> ends_with_type (snippet (fill k c) ++ op_token op :: snippet r)).
      { intros X. apply ends_mid in X; auto. now apply ends_mid2. }
      assert (S : side_left op <= level (fill k c)).
      { destruct op as [b| | | |]; cbn; try contradiction; try lia. destruct H as (H1 & H2 & H3 & _). destruct (is_cmp b) eqn:CM; auto. now apply H3. }
      destruct (IHk (side_left op) V S R T) as (q & A & B & C & D & E). exists (precedence op).
      split; [|split; [apply ST; cbn; try discriminate; auto|split; [discriminate|split; auto]]].
      pose proof (valid_gram _ Vr) as Gr. destruct op as [b| |b| |lim]; try contradiction; cbn [fill_toks fill_tree op_token precedence] in *.
      + destruct H as (H1 & H2 & H3 & H4). eapply g_bin; eauto.
        * cbn in D. destruct (is_cmp b); lia.
        * intros CM. cbn in D. rewrite CM in D. lia.
        * intros LS TY. apply E in TY as [TY|TY]; [now apply (H4 LS)|]. destruct LS as [-> | ->]; cbn in TY; lia.
      + eapply g_assign; eauto. lia.
      + eapply g_assign_op; eauto. lia.
      + eapply g_range; eauto. lia.
    - destruct V as (Vl & V & NC & H).
      assert (S : side_right op <= level (fill k c)) by (destruct op; cbn; try contradiction; lia).
      destruct (IHk (side_right op) V S R T) as (q & A & B & C & D & E). exists (precedence op).
      assert (N : fill_toks k t <> []) by (eapply gram_nonempty; eauto).
      assert (X : ends_with_type (snippet l ++ op_token op :: fill_toks k t) -> ends_with_type (snippet l ++ op_token op :: snippet (fill k c)) \/ precedence op <= 5).
      { intros X. apply ends_mid in X; auto. apply E in X as [X|X]; [left; now apply ends_mid2|right]. destruct op; cbn in *; try contradiction; lia. }
      assert (Z : precedence op <= 5 -> m <= 5) by lia.
      split; [|split; [apply ST; cbn; try discriminate; auto|split; [discriminate|split; [exact M|intros Y; destruct (X Y); auto]]]].
      pose proof (valid_gram _ Vl) as Gl. destruct op as [b| |b| |lim]; try contradiction; cbn [fill_toks fill_tree op_token precedence side_right] in *.
      + destruct H as (H1 & H2 & H3 & H4). eapply g_bin; eauto.
      + eapply g_assign; eauto; lia.
      + eapply g_assign_op; eauto; lia.
      + eapply g_range; eauto; lia.
    - destruct V as [V L]. destruct (IHk 12 V L R T) as (q & A & B & C & D & E). exists 12.
      assert (X : forall t : toks, ends_with_type (t ++ [TAs; TType ty])) by (intros t'; exists (t' ++ [TAs]), ty; now rewrite <- app_assoc).
      split; [eapply g_cast; eauto|]. split; [apply ST; [intros _; left; apply X|reflexivity|discriminate]|]. split; [discriminate|]. split; [exact M|]. intros _. left. apply X.
    - destruct (IHk 0 V ltac:(lia) R T) as (q & A & B & C & D & E). exists 14. split; [eapply g_paren; eauto|].
      assert (X : ~ ends_with_type (parens (fill_toks k t))) by apply parens_not_type.
      split; [apply ST; cbn; try discriminate; auto; intros; exfalso; auto|]. split; [discriminate|]. split; auto; intros; exfalso; auto. }
  destruct (IND 0 V ltac:(lia) R T) as (q & A & B & C & _). exists q. auto.
Qed.
Lemma place_room k c : valid (fill k c) -> room k <= level c.
Proof.
  unfold room. intros V. assert (IND : forall n, n <= level (fill k c) -> room_from n k <= level c); [|apply IND; lia].
  induction k; intros m M; cbn [fill valid level room_from] in *; auto.
  - destruct V as [V L]. apply IHk; auto. lia.
  - destruct V as [V L]. apply IHk; auto.
  - destruct V as (V & Vr & NC & H). apply IHk; auto.
    destruct op as [b| | | |]; cbn; try contradiction; try lia. destruct H as (H1 & H2 & H3 & _). destruct (is_cmp b) eqn:CM; auto. now apply H3.
  - destruct V as (Vl & V & NC & H). apply IHk; auto. destruct op; cbn; try contradiction; lia.
  - destruct V as [V L]. apply IHk; auto.
  - apply IHk; auto. lia.
Qed.
Lemma place_valid k c : valid (fill k c) -> valid c.
Proof. induction k; cbn; try tauto. Qed.

(** Suggestions from operands. *)
Lemma hir_ctx_unparen st w c : hir_ctx st w c = hir_ctx st w (unparen c).
Proof. induction c; cbn; auto. Qed.
Definition lvl (s : sugg) : nat := match s with BinOp op _ _ => precedence op | _ => 13 end.
Lemma sugg_lvl s p : sugg_level s p -> lvl s <= p.
Proof. destruct s; cbn; lia. Qed.
Lemma hir_lvl st w c : unparen w = unparen c -> min 13 (level (unparen c)) <= lvl (hir_ctx st w c).
Proof.
  intros E. rewrite hir_ctx_unparen. pose proof (unparen_not_paren c) as NP. destruct (unparen c) as [n|c' n|u c'|op l r|c' n|c'] eqn:U; cbn [hir_ctx level];
  try (unfold hir_from_snippet; rewrite E; cbn [lvl precedence]; lia).
  - destruct u; try (unfold hir_from_snippet; rewrite E; cbn [lvl precedence]; lia); destruct (st c'); cbn [lvl precedence]; try lia; unfold hir_from_snippet; rewrite E; cbn [lvl precedence]; lia.
  - exfalso. eapply NP. reflexivity.
Qed.
Lemma make_unop_lvl u s : lvl (make_unop u s) = 13. Proof. reflexivity. Qed.
Lemma hir_loosest st c m : m <= 5 -> m <= loosest c -> m <= lvl (hir_with_context st c) /\ m <= lvl (not_ (hir_with_context st c)).
Proof.
  unfold loosest, hir_with_context. intros M H. rewrite (hir_ctx_unparen st c c).
  assert (FR : forall s, s = hir_from_snippet c -> m <= level (unparen c) -> m <= lvl s /\ m <= lvl (not_ s)).
  { intros s -> L. unfold hir_from_snippet. pose proof (unparen_not_paren c) as NP. destruct (unparen c) as [n|c' n|u c'|op l r|c' n|c'] eqn:U; cbn in *; try lia.
    destruct op; cbn in *; try lia. destruct b; cbn in *; lia. }
  pose proof (unparen_not_paren c) as NP. destruct (unparen c) as [n|c' n|u c'|op l r|c' n|c'] eqn:U; cbn [hir_ctx];
    try (apply FR; [reflexivity|exact H]).
  - destruct u; try (apply FR; [reflexivity|cbn; lia]); destruct (st c'); try (apply FR; [reflexivity|cbn; lia]).
    + cbn [not_ lvl]. split; [lia|]. pose proof (hir_lvl st c' c' eq_refl). lia.
    + cbn. lia.
  - exfalso. eapply NP. reflexivity.
Qed.
Lemma hir_ge st c l r : hir_with_context st c = BinOp (OBin Ge) l r -> exists a b, unparen c = CBin (OBin Ge) a b /\ l = snippet a.
Proof.
  unfold hir_with_context. rewrite (hir_ctx_unparen st c c).
  assert (FR : hir_from_snippet c = BinOp (OBin Ge) l r -> exists a b, unparen c = CBin (OBin Ge) a b /\ l = snippet a).
  { unfold hir_from_snippet. destruct (unparen c); try discriminate. intros E. injection E as -> <- _. eauto. }
  pose proof (unparen_not_paren c) as NP. destruct (unparen c) as [n|c' n|u c'|op' l' r'|c' n|c']; cbn; auto.
  - destruct u; auto; destruct (st c'); auto; discriminate.
  - exfalso. eapply NP. reflexivity.
Qed.

Section Value.
  Context {V : Type} (I : reading V) (B : bool -> V) (lit : nat -> option bool) (st : cst -> bool) (HB : booleans I B lit st).

  (** What a suggestion is worth: it stands for a tree with this value. *)
  Definition worth (s : sugg) (v : V) : Prop := exists e, stands_for s e /\ value I e = v.
  Lemma keep_worth c : valid c -> worth (hir_with_context st c) (value I (erase c)).
  Proof. intros H. exists (erase c). split; [apply hir_ctx_stands; auto|reflexivity]. Qed.
  Lemma not_worth c x : valid c -> no_type_before c -> value I (erase c) = B x -> worth (not_ (hir_with_context st c)) (B (negb x)).
  Proof.
    intros H T E. assert (S : stands_for (hir_with_context st c) (erase c)) by (apply hir_ctx_stands; auto).
    destruct (unparen_spec c H) as (VU & EU & _).
    assert (GE : forall l r, hir_with_context st c = BinOp (OBin Ge) l r -> ~ ends_with_type l).
    { intros l r Q. apply hir_ge in Q as (a & b & U & ->). eapply T. eauto. }
    destruct (hir_with_context st c) as [t|t|op l r|u i] eqn:HS.
    - exists (Un Not (erase c)). split; [now apply (make_unop_stands Not)|]. cbn. rewrite E. apply (b_not _ _ _ _ HB).
    - exists (Un Not (erase c)). split; [now apply (make_unop_stands Not)|]. cbn. rewrite E. apply (b_not _ _ _ _ HB).
    - destruct (not_stands _ _ S GE) as (e' & S' & N). exists e'. split; auto.
      destruct N as [-> | [N | (b & b' & el & er & F & N & ->)]].
      + cbn. rewrite E. apply (b_not _ _ _ _ HB).
      + exfalso. inversion S as [| |? ? ? ? SO|]; subst. destruct op; cbn in SO.
        * destruct SO as [G _]. rewrite N in G. inversion G; subst; try (match goal with H : 14 = bop_prec ?b |- _ => pose proof (bop_prec_ge b); lia | H : 13 = bop_prec ?b |- _ => pose proof (bop_prec_ge b); lia end).
        * destruct SO as [G _]. rewrite N in G. inversion G.
        * destruct SO as [G _]. rewrite N in G. inversion G.
        * destruct SO as (p & el & n & _ & _ & _ & Q). rewrite N in Q. discriminate.
        * destruct SO as [G _]. rewrite N in G. inversion G.
      + cbn. rewrite N in E. cbn in E. eapply (b_flip _ _ _ _ HB); eauto.
    - unfold hir_with_context in HS. rewrite hir_ctx_unparen in HS.
      assert (FR : forall w u i, hir_from_snippet w <> UnOp u i) by (intros w ? ?; unfold hir_from_snippet; destruct (unparen w); discriminate).
      pose proof (unparen_not_paren c) as NP. destruct (unparen c) as [n|c' n|u' c'|op' l' r'|c' n|c']; cbn in HS; try (exfalso; eapply FR; eassumption).
      + destruct u'; try (exfalso; eapply FR; eassumption); destruct (st c') eqn:SC; try (exfalso; eapply FR; eassumption); injection HS as <- <-.
        * cbn [not_]. exists (erase c'). cbn in VU. split; [apply hir_ctx_stands; tauto|]. eapply (b_not_type _ _ _ _ HB); eauto. rewrite <- E, <- EU. reflexivity.
        * exists (Un Not (erase c)). split; [now apply (make_unop_stands Not)|]. cbn. rewrite E. apply (b_not _ _ _ _ HB).
      + exfalso. eapply NP. reflexivity.
  Qed.
  Lemma and_worth s s' x y : worth s (B x) -> worth s' (B y) -> worth (make_binop BitAnd s s') (B (x && y)).
  Proof.
    intros (e & S & E) (e' & S' & E'). unfold make_binop.
    destruct (make_assoc_reassoc I (OBin BitAnd) s s' e e' (b_assoc _ _ _ _ HB) S S') as (f & f' & SF & N & EF).
    - split; [discriminate|]. split; [intros (A & _); discriminate|]. split; [intros _ _; exists BitAnd; auto|]. split; [intros [A|A]; discriminate|]. intros (A & _). discriminate.
    - exists f. split; auto. rewrite EF. cbn in N. injection N as <-. cbn. rewrite E, E'. apply (b_and _ _ _ _ HB).
  Qed.
  Lemma fetch_value c b : valid c -> fetch_bool_expr lit c = Some b -> value I (erase c) = B b.
  Proof.
    intros H F. destruct (unparen_spec c H) as (_ & E & _). rewrite <- E. unfold fetch_bool_expr in F.
    destruct (unparen c); try discriminate. cbn. now apply (b_lit _ _ _ _ HB).
  Qed.
End Value.

Lemma binop_lvl b s s' : lvl (make_binop b s s') = bop_prec b. Proof. reflexivity. Qed.

Theorem bool_comparison_worth {V} (I : reading V) B lit st op l r s x y : booleans I B lit st ->
  valid l -> valid r -> no_type_before l -> no_type_before r -> value I (erase l) = B x -> value I (erase r) = B y ->
  bool_comparison st lit op l r = Some s ->
  worth I s (value I (Bin op (erase l) (erase r)))
  /\ (forall m, m <= 5 -> m <= loosest l -> m <= loosest r -> m <= lvl s).
Proof.
  intros HB Vl Vr Tl Tr El Er H.
  assert (Kl := keep_worth I st l Vl). assert (Kr := keep_worth I st r Vr).
  assert (Nl := not_worth I B lit st HB l x Vl Tl El). assert (Nr := not_worth I B lit st HB r y Vr Tr Er). rewrite El in Kl. rewrite Er in Kr.
  assert (Ll : forall m, m <= 5 -> m <= loosest l -> m <= lvl (hir_with_context st l) /\ m <= lvl (not_ (hir_with_context st l))) by (intros; now apply hir_loosest).
  assert (Lr : forall m, m <= 5 -> m <= loosest r -> m <= lvl (hir_with_context st r) /\ m <= lvl (not_ (hir_with_context st r))) by (intros; now apply hir_loosest).
  cbn [value]. rewrite El, Er.
  assert (FL := fun b => fetch_value I B lit st HB l b Vl). assert (FR := fun b => fetch_value I B lit st HB r b Vr). rewrite El in FL. rewrite Er in FR.
  assert (BI : forall P : V -> Prop, forall u v, B u = B v -> P (B u) -> P (B v)) by (intros P u v E; now rewrite E).
  assert (VAL : forall b v, r_bin V I op (B x) (B y) = B v -> v = b -> r_bin V I op (B x) (B y) = B b) by (intros; congruence).
  destruct op; try discriminate; unfold bool_comparison, check_comparison in H;
    destruct (fetch_bool_expr lit l) as [[|]|] eqn:FA; destruct (fetch_bool_expr lit r) as [[|]|] eqn:FB; try discriminate; injection H as <-;
    repeat match goal with
    | F : forall b, Some ?b0 = Some b -> B ?v = B b |- _ => specialize (F b0 eq_refl)
    end;
    (split; [|intros; try (rewrite binop_lvl; cbn; lia); try (apply Ll; assumption); try (apply Lr; assumption)]).
  all: try rewrite FL; try rewrite FR; try rewrite (b_eq _ _ _ _ HB); try rewrite (b_ne _ _ _ _ HB); try rewrite (b_lt _ _ _ _ HB); try rewrite (b_gt _ _ _ _ HB).
  all: try (destruct x; exact Kl || exact Nl); try (destruct y; exact Kr || exact Nr).
  - pose proof (and_worth I B lit st HB _ _ _ _ Nl Kr) as W. destruct x, y; exact W.
  - pose proof (and_worth I B lit st HB _ _ _ _ Kl Nr) as W. destruct x, y; exact W.
Qed.
Lemma worth_place {V} (I : reading V) s v k c : worth I s v -> valid (fill k c) -> room k <= 5 -> room k <= lvl s ->
  value I (erase c) = v -> exists e', parses (fill_toks k (disp s)) e' /\ value I e' = value I (erase (fill k c)).
Proof.
  intros (e & S & E) VF R5 RL EC. apply stands_gram in S as (p & SL & G). apply sugg_lvl in SL.
  destruct (place_gram k c p (disp s) e VF G ltac:(lia) ltac:(auto)) as (q & A & _).
  exists (fill_tree k e). split; [eapply gram_parses; eauto|]. rewrite fill_erase. apply fill_value. congruence.
Qed.
Lemma worth_paren {V} (I : reading V) s v k c : worth I s v -> valid (fill k c) ->
  value I (erase c) = v -> exists e', parses (fill_toks k (disp (maybe_paren s))) e' /\ value I e' = value I (erase (fill k c)).
Proof.
  intros (e & S & E) VF EC. apply maybe_paren_operand in S.
  assert (R : room k <= 14) by (pose proof (place_room _ _ VF); pose proof (gram_le _ _ _ (valid_gram _ (place_valid _ _ VF))); lia).
  destruct (place_gram k c 14 _ e VF S R) as (q & A & _).
  - intros T. exfalso. eapply gram_not_type; [exact S|lia|exact T].
  - exists (fill_tree k e). split; [eapply gram_parses; eauto|]. rewrite fill_erase. apply fill_value. congruence.
Qed.
