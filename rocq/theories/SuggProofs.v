From Coq Require Import Lia.
From Verif Require Import SuggSpec.

(** ** The parser *)
Lemma parse_step f g : (forall m t, parse f m t <> OutOfFuel -> parse g m t = parse f m t) ->
  forall m t, parse (S f) m t <> OutOfFuel -> parse (S g) m t = parse (S f) m t.
Proof.
  intros IHs m t Hr.
  assert (TH : forall m t k k', then_ (parse f m t) k <> OutOfFuel -> (forall e u, k e u <> OutOfFuel -> k' e u = k e u) ->
               then_ (parse g m t) k' = then_ (parse f m t) k).
  { intros m0 t0 k k' H1 H2. destruct (parse f m0 t0) eqn:E; cbn in *; try congruence; rewrite (IHs m0 t0), E by congruence; cbn; auto. }
  destruct m as [|e|mn|mn e cmp]; cbn [parse] in *.
  - repeat match goal with
           | |- context [match ?x with _ => _ end] => is_var x; destruct x
           end; try reflexivity; try (apply IHs; assumption); try (apply TH; auto; fail).
    apply TH; auto. intros e u Hu. repeat match goal with
           | |- context [match ?x with _ => _ end] => is_var x; destruct x
           end; auto.
  - destruct t as [|[]]; auto.
  - apply TH; auto.
  - destruct t as [|[] t]; auto.
    + destruct (bop_prec b <? mn); auto. destruct (is_cmp b && cmp); auto.
    + destruct (12 <? mn); auto. destruct t as [|[] t]; auto. destruct (opens_generics t); auto.
    + destruct (1 <? mn); auto.
    + destruct (1 <? mn); auto.
    + destruct (2 <? mn); auto.
Qed.
Lemma parse_mono f m t r : parse f m t = r -> r <> OutOfFuel -> parse (S f) m t = r.
Proof.
  revert m t r. induction f as [|f IH]; intros m t r H Hr; [cbn in H; congruence|].
  subst r. apply parse_step; auto.
Qed.
Lemma parse_le f g m t r : f <= g -> parse f m t = r -> r <> OutOfFuel -> parse g m t = r.
Proof. intros L H Hr. induction L; auto. apply parse_mono; auto. Qed.

Definition runs (m : mode) (t : toks) (r : result) : Prop := exists f, parse f m t = r /\ r <> OutOfFuel.
Lemma runs_unique m t r r' : runs m t r -> runs m t r' -> r = r'.
Proof.
  intros (f & A & A') (g & B & B').
  rewrite <- (parse_le f (max f g) m t r), <- (parse_le g (max f g) m t r'); auto; lia.
Qed.
Ltac go H1 H2 f1 f2 := exists (S (max f1 f2)); cbn [parse]; rewrite (parse_le f1 (max f1 f2) _ _ _ ltac:(lia) H1 ltac:(congruence)); cbn;
   try (rewrite (parse_le f2 (max f1 f2) _ _ _ ltac:(lia) H2 ltac:(congruence))); auto.
Lemma runs_at mn t e t1 r : runs MPrefix t (Done e t1) -> runs (MLoop mn e false) t1 r -> runs (MAt mn) t r.
Proof.
  intros (f & H & _) (g & H2 & R). exists (S (max f g)). split; auto. cbn [parse].
  rewrite (parse_le f (max f g) _ _ _ (Nat.le_max_l _ _) H ltac:(congruence)). cbn.
  apply (parse_le g); auto; lia.
Qed.
Lemma runs_bin mn e cmp b t e' t1 r : mn <= bop_prec b -> is_cmp b && cmp = false ->
  runs (MAt (S (bop_prec b))) t (Done e' t1) -> runs (MLoop mn (Bin b e e') (is_cmp b)) t1 r -> runs (MLoop mn e cmp) (TBin b :: t) r.
Proof.
  intros L C (f & H & _) (g & H2 & R). exists (S (max f g)). split; auto. cbn [parse].
  replace (bop_prec b <? mn) with false by (symmetry; apply Nat.ltb_ge; lia). rewrite C.
  rewrite (parse_le f (max f g) _ _ _ (Nat.le_max_l _ _) H ltac:(congruence)). cbn.
  apply (parse_le g); auto; lia.
Qed.
Lemma runs_cast mn e cmp n t r : mn <= 12 -> opens_generics t = false -> runs (MLoop mn (Cast e n) false) t r ->
  runs (MLoop mn e cmp) (TAs :: TType n :: t) r.
Proof.
  intros L C (f & H & R). exists (S f). split; auto. cbn [parse].
  replace (12 <? mn) with false by (symmetry; apply Nat.ltb_ge; lia). rewrite C. auto.
Qed.
Lemma runs_range mn e cmp l t e' t1 : mn <= 2 -> runs (MAt 3) t (Done e' t1) -> runs (MLoop mn e cmp) (TRange l :: t) (Done (Range l e e') t1).
Proof.
  intros L (f & H & R). exists (S f). split; [|congruence]. cbn [parse].
  replace (2 <? mn) with false by (symmetry; apply Nat.ltb_ge; lia). rewrite H. auto.
Qed.
Lemma runs_assign mn e cmp t e' t1 r : mn <= 1 -> runs (MAt 1) t (Done e' t1) -> runs (MLoop mn (Assign None e e') false) t1 r ->
  runs (MLoop mn e cmp) (TAssign :: t) r.
Proof.
  intros L (f & H & _) (g & H2 & R). exists (S (max f g)). split; auto. cbn [parse].
  replace (1 <? mn) with false by (symmetry; apply Nat.ltb_ge; lia).
  rewrite (parse_le f (max f g) _ _ _ (Nat.le_max_l _ _) H ltac:(congruence)). cbn.
  apply (parse_le g); auto; lia.
Qed.
Lemma runs_assign_op mn e cmp b t e' t1 r : mn <= 1 -> runs (MAt 1) t (Done e' t1) -> runs (MLoop mn (Assign (Some b) e e') false) t1 r ->
  runs (MLoop mn e cmp) (TAssignOp b :: t) r.
Proof.
  intros L (f & H & _) (g & H2 & R). exists (S (max f g)). split; auto. cbn [parse].
  replace (1 <? mn) with false by (symmetry; apply Nat.ltb_ge; lia).
  rewrite (parse_le f (max f g) _ _ _ (Nat.le_max_l _ _) H ltac:(congruence)). cbn.
  apply (parse_le g); auto; lia.
Qed.

(** What may follow an expression of precedence [p]. *)
Definition guard (p : nat) (t : toks) : Prop :=
  match t with
  | [] | TRParen :: _ => True
  | TBin b :: _ => bop_prec b <= p
  | TAs :: _ => 12 <= p
  | TRange _ :: _ => 2 <= p
  | TAssign :: _ | TAssignOp _ :: _ => 2 <= p
  | _ => False
  end.
Lemma guard_le p q t : p <= q -> guard p t -> guard q t.
Proof. intros L. destruct t as [|[] t]; cbn; try lia; auto. Qed.
Lemma bop_prec_ge b : 3 <= bop_prec b <= 11. Proof. destruct b; cbn; lia. Qed.
Lemma runs_stop mn e cmp t p : guard p t -> p < mn -> runs (MLoop mn e cmp) t (Done e t).
Proof.
  intros G L. exists 1. split; [|congruence]. cbn [parse].
  destruct t as [|[] t]; cbn in G; auto; try contradiction.
  - replace (bop_prec b <? mn) with true by (symmetry; apply Nat.ltb_lt; lia). auto.
  - replace (12 <? mn) with true by (symmetry; apply Nat.ltb_lt; lia). auto.
  - replace (1 <? mn) with true by (symmetry; apply Nat.ltb_lt; lia). auto.
  - replace (1 <? mn) with true by (symmetry; apply Nat.ltb_lt; lia). auto.
  - replace (2 <? mn) with true by (symmetry; apply Nat.ltb_lt; lia). auto.
Qed.
Lemma runs_stop1 mn e cmp t : guard 1 t -> runs (MLoop mn e cmp) t (Done e t).
Proof.
  intros G. exists 1. split; [|congruence]. cbn [parse].
  destruct t as [|[] t]; cbn in G; auto; try contradiction; try lia. pose proof (bop_prec_ge b). lia.
Qed.

Definition loops (mn p : nat) (e : tree) (rest : toks) (r : result) : Prop :=
  if p =? 2 then r = Done e rest else runs (MLoop mn e (p =? 5)) rest r.
Definition not_post (t : toks) : Prop := match t with TPost _ :: _ => False | _ => True end.
Lemma guard_not_post p t : guard p t -> not_post t. Proof. destruct t as [|[] t]; cbn; auto. Qed.

Lemma ends_app a b : ends_with_type b -> ends_with_type (a ++ b).
Proof. intros (t & n & ->). exists (a ++ t), n. now rewrite app_assoc. Qed.
Lemma ends_cons a b : ends_with_type b -> ends_with_type (a :: b).
Proof. apply (ends_app [a]). Qed.

Definition K p t e :=
  (forall mn rest r, mn <= p -> guard p rest -> (ends_with_type t -> opens_generics rest = false) -> loops mn p e rest r ->
     r <> OutOfFuel -> runs (MAt mn) (t ++ rest) r)
  /\ (p = 14 -> forall rest r, runs (MPost e) rest r -> runs MPrefix (t ++ rest) r)
  /\ (13 <= p -> forall rest, not_post rest -> runs MPrefix (t ++ rest) (Done e rest)).

Lemma runs_post_stop e t : not_post t -> runs (MPost e) t (Done e t).
Proof. intros H. exists 1. split; [|congruence]. cbn. destruct t as [|[] t]; cbn in H; auto. contradiction. Qed.
Lemma K_prefix p t e : p = 13 -> (forall rest, not_post rest -> runs MPrefix (t ++ rest) (Done e rest)) -> K p t e.
Proof.
  intros -> H. split; [|split; [lia|auto]].
  intros mn rest r L G _ Lo R. eapply runs_at; [apply H, (guard_not_post 13), G|exact Lo].
Qed.
Lemma K_post t e : (forall rest r, runs (MPost e) rest r -> runs MPrefix (t ++ rest) r) -> K 14 t e.
Proof.
  intros H.
  assert (H3 : forall rest, not_post rest -> runs MPrefix (t ++ rest) (Done e rest)) by (intros; apply H, runs_post_stop; auto).
  split; [|split; auto].
  intros mn rest r L G _ Lo R. eapply runs_at; [apply H3, (guard_not_post 14), G|exact Lo].
Qed.
Lemma pre_step p t e tok u rest : K p t e -> 13 <= p -> not_post rest ->
  (forall f, parse f MPrefix (t ++ rest) = Done e rest -> parse (S f) MPrefix (tok ++ rest) = Done (Un u e) rest) ->
  runs MPrefix (tok ++ rest) (Done (Un u e) rest).
Proof. intros (_ & _ & IH) L N H. destruct (IH L rest N) as (f & F & _). exists (S f). split; [auto|congruence]. Qed.
Ltac pre := let rest := fresh in let H := fresh in let f := fresh in let F := fresh in
  intros rest H; eapply pre_step; eauto; intros f F; cbn [parse app]; rewrite F; reflexivity.

Lemma gram_le p t e : gram p t e -> 1 <= p <= 14.
Proof. induction 1; try lia. pose proof (bop_prec_ge b). lia. Qed.
Lemma gram_head p t e : gram p t e -> forall rest, match t ++ rest with TMut :: _ => False | [] => False | _ => True end.
Proof.
  induction 1; intros rest; try (cbn; exact I); rewrite <- app_assoc; first [apply IHgram|apply IHgram1].
Qed.
Lemma gram_not_mut p t e : gram p t e -> forall rest x, t ++ rest <> TMut :: x.
Proof. intros G rest x H. pose proof (gram_head p t e G rest). rewrite H in H0. auto. Qed.

Lemma gram_K p t e : gram p t e -> K p t e.
Proof.
  induction 1.
  - apply K_post. intros rest r (f & F & R). exists (S f). split; auto.
  - apply K_post. intros rest r (f & F & R). destruct IHgram as (_ & IH & _). rewrite <- app_assoc. apply IH; auto.
    exists (S f). split; auto.
  - apply K_post. intros rest r (f & F & R). destruct IHgram as (IH & _).
    assert (A : runs (MAt 0) (t ++ TRParen :: rest) (Done e (TRParen :: rest))).
    { apply IH; [lia|cbn; auto|auto| |congruence]. unfold loops. destruct (p =? 2); auto. apply runs_stop1. cbn. auto. }
    destruct A as (g & A & _). exists (S (max f g)). split; auto. unfold parens. cbn [parse app]. rewrite <- app_assoc. cbn [app].
    rewrite (parse_le g (max f g) _ _ _ (Nat.le_max_r _ _) A ltac:(congruence)). cbn. apply (parse_le f); auto; lia.
  - apply K_prefix; auto. pre.
  - apply K_prefix; auto. pre.
  - apply K_prefix; auto. pre.
  - apply K_prefix; auto. intros rest HP. destruct IHgram as (_ & _ & IH). destruct (IH H0 rest HP) as (f & F & _).
    exists (S f). split; [|congruence]. cbn [app parse]. pose proof (gram_not_mut _ _ _ H rest) as NM.
    destruct (t ++ rest) as [|[] t'] eqn:E; try (rewrite F; reflexivity). exfalso. eapply NM; reflexivity.
  - apply K_prefix; auto. pre.
  - (* cast *) destruct IHgram as (IH & _). split; [|split; lia]. intros mn rest r L G En Lo R. rewrite <- app_assoc. cbn [app].
    apply IH; [lia|cbn; lia|reflexivity| |assumption]. unfold loops in *.
    replace (p =? 2) with false by (symmetry; apply Nat.eqb_neq; lia). cbn in Lo.
    apply runs_cast; auto. apply En. exists (t ++ [TAs]), n. now rewrite <- app_assoc.
  - (* binary *) pose proof (bop_prec_ge b) as B. destruct IHgram1 as (IHl & _), IHgram2 as (IHr & _).
    split; [|split; lia]. intros mn rest r L G En Lo R. rewrite <- app_assoc. cbn [app].
    apply IHl; [lia|cbn; lia| | |assumption].
    + intros En'. cbn. destruct b; auto; exfalso; apply H4; auto.
    + unfold loops in *. replace (pl =? 2) with false by (symmetry; apply Nat.eqb_neq; lia).
      replace (bop_prec b =? 2) with false in Lo by (symmetry; apply Nat.eqb_neq; lia).
      apply (runs_bin _ _ _ _ _ er rest); auto.
      * destruct (is_cmp b) eqn:C; auto. cbn. apply Nat.eqb_neq. specialize (H3 eq_refl). destruct b; cbn in *; try discriminate; lia.
      * apply IHr; [lia|apply (guard_le (bop_prec b)); auto; lia|intros; apply En, ends_app, ends_cons; auto| |congruence].
        unfold loops. replace (pr =? 2) with false by (symmetry; apply Nat.eqb_neq; lia). apply (runs_stop _ _ _ _ (bop_prec b)); auto.
      * replace (is_cmp b) with (bop_prec b =? 5) by (destruct b; auto). auto.
  - (* range *) destruct IHgram1 as (IHl & _), IHgram2 as (IHr & _).
    split; [|split; lia]. intros mn rest r L G En Lo R. rewrite <- app_assoc. cbn [app].
    apply IHl; [lia|cbn; lia|reflexivity| |assumption].
    unfold loops in *. replace (pl =? 2) with false by (symmetry; apply Nat.eqb_neq; lia). cbn in Lo. subst r.
    apply runs_range; auto.
    apply IHr; [lia|apply (guard_le 2); auto; lia|intros; apply En, ends_app, ends_cons; auto| |congruence].
    unfold loops. replace (pr =? 2) with false by (symmetry; apply Nat.eqb_neq; lia). apply (runs_stop _ _ _ _ 2); auto.
  - (* assignment *) destruct IHgram1 as (IHl & _), IHgram2 as (IHr & _).
    split; [|split; lia]. intros mn rest r L G En Lo R. rewrite <- app_assoc. cbn [app].
    apply IHl; [lia|cbn; lia|reflexivity| |assumption].
    unfold loops in *. replace (pl =? 2) with false by (symmetry; apply Nat.eqb_neq; lia). cbn in Lo.
    apply (runs_assign _ _ _ _ er rest); auto.
    apply IHr; [lia|apply (guard_le 1); auto; lia|intros; apply En, ends_app, ends_cons; auto| |congruence].
    unfold loops. destruct (pr =? 2); auto. apply runs_stop1; auto.
  - destruct IHgram1 as (IHl & _), IHgram2 as (IHr & _).
    split; [|split; lia]. intros mn rest r L G En Lo R. rewrite <- app_assoc. cbn [app].
    apply IHl; [lia|cbn; lia|reflexivity| |assumption].
    unfold loops in *. replace (pl =? 2) with false by (symmetry; apply Nat.eqb_neq; lia). cbn in Lo.
    apply (runs_assign_op _ _ _ _ _ er rest); auto.
    apply IHr; [lia|apply (guard_le 1); auto; lia|intros; apply En, ends_app, ends_cons; auto| |congruence].
    unfold loops. destruct (pr =? 2); auto. apply runs_stop1; auto.
Qed.
Theorem gram_parses p t e : gram p t e -> parses t e.
Proof.
  intros G. destruct (gram_K p t e G) as (H & _).
  assert (A : runs (MAt 0) (t ++ []) (Done e [])).
  { apply H; [lia|cbn; auto|auto| |congruence]. unfold loops. destruct (p =? 2); auto. apply runs_stop1. cbn. auto. }
  rewrite app_nil_r in A. destruct A as (f & F & _). now exists f.
Qed.
Theorem parses_unique t e e' : parses t e -> parses t e' -> e = e'.
Proof.
  intros (f & F) (g & G). assert (H : Done e [] = Done e' []).
  { apply (runs_unique (MAt 0) t); [exists f|exists g]; split; auto; congruence. }
  congruence.
Qed.

(** ** Parentheses *)
Lemma closing_step d c t : (match c with TLParen => True | TRParen => 1 < d | _ => 0 < d end) ->
  closing d (c :: t) = closing (match c with TLParen => S d | TRParen => pred d | _ => d end) t.
Proof. intros H. cbn. destruct c; try (destruct d; [lia|reflexivity]); auto. destruct d as [|[|d]]; cbn; auto; lia. Qed.
Lemma gram_balanced p t e : gram p t e -> forall d rest, closing (S d) (t ++ rest) = closing (S d) rest.
Proof.
  induction 1; intros d rest; unfold parens; rewrite <- ?app_assoc; cbn [app];
    repeat first [reflexivity | rewrite closing_step by (cbn; lia); rewrite <- ?app_assoc; cbn [app pred] | rewrite IHgram | rewrite IHgram1 | rewrite IHgram2].
Qed.
Lemma gram_nonempty p t e : gram p t e -> t <> [].
Proof. intros G ->. pose proof (gram_head p [] e G []). cbn in H. auto. Qed.
Lemma gram_closing p t e : gram p t e -> forall t', t = TLParen :: t' ->
  exists mid, (forall x, closing 1 (t' ++ x) = mid ++ x) /\ (mid = [] -> exists q inner, t = parens inner /\ gram q inner e).
Proof.
  assert (C : forall p l e w t', gram p l e -> l ++ w = TLParen :: t' -> w <> [] ->
      (forall u, l = TLParen :: u -> exists mid, (forall x, closing 1 (u ++ x) = mid ++ x) /\ (mid = [] -> exists q inner, l = parens inner /\ gram q inner e)) ->
      forall (Q : Prop), exists mid, (forall x, closing 1 (t' ++ x) = mid ++ x) /\ (mid = [] -> Q)).
  { clear. intros p l e w t' G E W IH Q. destruct l as [|c l]; [exfalso; eapply gram_nonempty; eauto|]. cbn in E. injection E as -> <-.
    destruct (IH l eq_refl) as (mid & M & _). exists (mid ++ w). split.
    - intros x. rewrite <- !app_assoc. apply M.
    - intros Z. apply app_eq_nil in Z. tauto. }
  induction 1; intros t' E; try discriminate.
  - eapply C; eauto. discriminate.
  - unfold parens in E. injection E as <-. exists []. split; [|eauto].
    intros x. rewrite <- app_assoc. cbn [app]. rewrite (gram_balanced _ _ _ H). reflexivity.
  - eapply C; eauto. discriminate.
  - eapply (C pl tl el); eauto. discriminate.
  - eapply (C pl tl el); eauto. discriminate.
  - eapply (C pl tl el); eauto. discriminate.
  - eapply (C pl tl el); eauto. discriminate.
Qed.
Lemma enclosing_inner p t e : gram p t e -> has_enclosing_paren t = true -> exists q inner, t = parens inner /\ gram q inner e.
Proof.
  intros G H. unfold has_enclosing_paren in H. destruct t as [|[] t]; try discriminate.
  destruct (gram_closing _ _ _ G t eq_refl) as (mid & M & I). specialize (M []). rewrite !app_nil_r in M. rewrite M in H.
  apply I. destruct mid; [reflexivity|discriminate].
Qed.
Lemma enclosing_iff p t e : gram p t e -> (has_enclosing_paren t = true <-> exists q inner, t = parens inner /\ gram q inner e).
Proof.
  intros G. split; [eapply enclosing_inner; eauto|].
  intros (q & inner & -> & G'). unfold parens, has_enclosing_paren. rewrite (gram_balanced _ _ _ G'). reflexivity.
Qed.

(** ** Suggestions *)
Lemma disp_un u i : disp (UnOp u i) = un_token u :: disp (maybe_inner_paren i).
Proof. unfold maybe_inner_paren. destruct i as [t|t|o l r|v j]; cbn; auto; destruct t as [|[] t]; cbn; auto; try (destruct b; auto); destruct (closing 1 t); auto. Qed.
Lemma un_gram u q t e : gram q t e -> 13 <= q -> gram 13 (un_token u :: t) (Un (un_tree u) e).
Proof. intros G L. destruct u; cbn; econstructor; eauto. Qed.
Definition sugg_level (s : sugg) (p : nat) : Prop := match s with BinOp op _ _ => p = precedence op | NonParen _ => p = 14 | _ => 13 <= p end.
Lemma sides_gram op l r e : sides_ok op l r e -> gram (precedence op) (binop_to_string op l r) e.
Proof. destruct op; cbn; try (intros (H & _); exact H). intros (p & el & n & G & L & -> & ->). eapply g_cast; eauto. Qed.
Lemma stands_gram s e : stands_for s e -> exists p, sugg_level s p /\ gram p (disp s) e.
Proof.
  induction 1 as [t e G|p t e G L|op l r e H|u i e H (p & SL & G)].
  - exists 14. now split.
  - exists p. now split.
  - exists (precedence op). split; [reflexivity|]. now apply sides_gram.
  - exists 13. split; [cbn; lia|]. rewrite disp_un.
    assert (A : exists q, 13 <= q /\ gram q (disp (maybe_inner_paren i)) e).
    { unfold maybe_inner_paren. destruct (starts_with_unary_op i) eqn:S.
      - exists p. split; auto. destruct i; cbn in SL; try lia. discriminate.
      - destruct i; cbn in *; try discriminate.
        + exists p. split; [lia|auto].
        + destruct (has_enclosing_paren t); [exists p; auto|exists 14; split; [lia|eapply g_paren; eauto]].
        + exists 14. split; [lia|eapply g_paren; eauto]. }
    destruct A as (q & Q & A). eapply un_gram; eauto.
Qed.
Lemma inner_gram s e : stands_for s e -> exists q, 13 <= q /\ gram q (disp (maybe_inner_paren s)) e.
Proof.
  intros H. pose proof (s_un UNeg s e H) as U. apply stands_gram in H as (p & SL & G).
  unfold maybe_inner_paren. destruct (starts_with_unary_op s) eqn:S.
  - exists p. split; auto. destruct s; cbn in SL; try lia. discriminate.
  - destruct s; cbn in *; try discriminate.
    + exists p. split; [lia|auto].
    + destruct (has_enclosing_paren t); [exists p; auto|exists 14; split; [lia|eapply g_paren; eauto]].
    + exists 14. split; [lia|eapply g_paren; eauto].
Qed.
Theorem stands_parses s e : stands_for s e -> parses (disp s) e.
Proof. intros H. apply stands_gram in H as (p & _ & G). eapply gram_parses; eauto. Qed.
Lemma maybe_paren_stands s e : stands_for s e -> stands_for (maybe_paren s) e.
Proof.
  intros H. pose proof H as H0. apply stands_gram in H as (p & SL & G). destruct s; cbn [maybe_paren]; auto.
  - destruct (has_enclosing_paren t); auto. apply s_non. eapply g_paren; eauto.
  - apply s_non. eapply g_paren; eauto.
  - apply s_non. eapply g_paren; eauto.
Qed.
(** [maybe_paren] makes an operand to which a method call can be added. *)
Lemma maybe_paren_operand s e : stands_for s e -> gram 14 (disp (maybe_paren s)) e.
Proof.
  intros H. apply stands_gram in H as (p & SL & G). destruct s; cbn [maybe_paren].
  - cbn in SL. subst p. auto.
  - destruct (has_enclosing_paren t) eqn:E; [|eapply g_paren; eauto]. cbn in *.
    destruct (enclosing_inner _ _ _ G E) as (q & inner & -> & G'). eapply g_paren; eauto.
  - eapply g_paren; eauto.
  - eapply g_paren; eauto.
Qed.
Lemma strip_paren_gram s e : stands_for s e -> exists p, gram p (disp (strip_paren s)) e.
Proof.
  intros H. apply stands_gram in H as (p & SL & G). destruct s; cbn [strip_paren]; eauto.
  all: cbn in *; unfold strip_enclosing_paren; destruct (has_enclosing_paren t) eqn:E; eauto.
  all: destruct (enclosing_inner _ _ _ G E) as (q & inner & -> & G'); exists q; unfold parens; cbn; rewrite removelast_last; auto.
Qed.
Lemma make_unop_stands u s e : stands_for s e -> stands_for (make_unop (prefix_toks u) s) (Un u e).
Proof.
  intros H. apply inner_gram in H as (q & L & G). unfold make_unop. apply (s_maybe 13); [|lia].
  destruct u as [| | |[|]]; cbn; econstructor; eauto.
Qed.
Lemma deref_then s e u : stands_for s e -> stands_for (make_unop (prefix_toks u ++ [TBin Mul]) s) (Un u (Un Deref e)).
Proof.
  intros H. apply inner_gram in H as (q & L & G). unfold make_unop. apply (s_maybe 13); [|lia].
  assert (D : gram 13 (TBin Mul :: disp (maybe_inner_paren s)) (Un Deref e)) by (econstructor; eauto).
  rewrite <- app_assoc. cbn [app]. destruct u as [| | |[|]]; cbn; econstructor; eauto.
Qed.

Lemma op_eqb_eq a b : op_eqb a b = true <-> a = b.
Proof. unfold op_eqb. destruct (assoc_op_eq_dec a b); split; auto; discriminate. Qed.
Lemma op_eqb_neq a b : op_eqb a b = false <-> a <> b.
Proof. unfold op_eqb. destruct (assoc_op_eq_dec a b); split; auto; congruence. Qed.
Lemma no_paren_prec op o dir : needs_paren op o dir = false ->
  precedence op <= precedence o
  /\ (precedence o = precedence op -> op = o /\ associativity op = ABoth \/ op <> o /\ associativity op = dir)
  /\ (is_shift op && is_arith o = false).
Proof.
  unfold needs_paren. intros H. apply orb_false_iff in H as [H _]. apply orb_false_iff in H as [H S]. apply orb_false_iff in H as [H1 H2].
  apply Nat.ltb_ge in H1. split; auto. split; auto. intros E. rewrite E, Nat.eqb_refl in H2. cbn in H2.
  apply orb_false_iff in H2 as [A B]. destruct (op_eqb op o) eqn:Q.
  - left. split; [now apply op_eqb_eq|]. cbn in B. apply negb_false_iff in B. destruct (associativity op); try discriminate; auto.
  - right. split; [now apply op_eqb_neq|]. cbn in A. apply negb_false_iff in A. destruct (associativity op), dir; try discriminate; auto.
Qed.
Lemma parens_not_type t : ~ ends_with_type (parens t).
Proof. intros (t' & n & H). unfold parens in H. rewrite app_comm_cons in H. apply app_inj_tail in H as [_ H]. discriminate. Qed.
Lemma gram_not_type p t e : gram p t e -> 13 <= p -> ~ ends_with_type t.
Proof.
  assert (CC : forall c p t e, gram p t e -> ~ ends_with_type t -> ~ ends_with_type (c :: t)).
  { clear. intros c p t e G H (t' & n & E). apply H. destruct t' as [|x t']; cbn in E.
    - injection E as -> E. subst t. exfalso. eapply gram_nonempty; eauto.
    - injection E as -> ->. now exists t', n. }
  induction 1; intros L; auto.
  - intros (t' & m & E). destruct t' as [|x [|? ?]]; discriminate.
  - intros (t' & m & E). apply app_inj_tail in E as [_ E]. discriminate.
  - apply parens_not_type.
  - eapply CC; eauto.
  - eapply CC; eauto.
  - eapply CC; eauto.
  - eapply CC; eauto.
  - intros (t' & n & E). assert (N : ~ ends_with_type (TMut :: t)) by (eapply CC; eauto). apply N.
    destruct t' as [|x t']; cbn in E; [discriminate|]. injection E as _ E. now exists t', n.
  - lia.
  - pose proof (bop_prec_ge b). lia.
  - lia.
  - lia.
  - lia.
Qed.

Definition left_ok (op : assoc_op) (lhs : sugg) : Prop :=
  ~ (is_cmp_op op = true /\ exists o, top_op lhs = Some o /\ is_cmp_op o = true /\ o <> op)
  /\ (op = OBin Lt \/ op = OBin Shl -> ends_with_type (disp lhs) ->
      exists o, top_op lhs = Some o
                /\ (precedence o < precedence op \/ op = OBin Shl /\ 10 <= precedence o <= 11))
  /\ ~ (precedence op = 1 /\ exists l, top_op lhs = Some (ORange l)).
Definition left_text (op : assoc_op) (lhs : sugg) : toks :=
  paren_helper (match lhs with BinOp lop _ _ => needs_paren op lop ALeft | _ => false end) lhs.
Definition right_text (op : assoc_op) (rhs : sugg) : toks :=
  paren_helper (match rhs with BinOp rop _ _ => needs_paren op rop ARight | _ => false end) rhs.
Lemma make_assoc_texts op l r : make_assoc op l r = BinOp op (left_text op l) (right_text op r).
Proof. reflexivity. Qed.
Lemma prec_12 op : precedence op <= 12. Proof. destruct op; cbn; try lia. pose proof (bop_prec_ge b). lia. Qed.
Lemma cmp_prec op : is_cmp_op op = true <-> precedence op = 5.
Proof. destruct op as [b| | | |]; cbn; try (split; [discriminate|lia]). destruct b; cbn; split; auto; discriminate. Qed.
Lemma cmp_left op : is_cmp_op op = true -> associativity op = ALeft.
Proof. destruct op as [b| | | |]; cbn; try discriminate. destruct b; cbn; auto; discriminate. Qed.
Lemma arith_prec op : 10 <= precedence op <= 11 -> is_arith op = true.
Proof. destruct op as [b| | | |]; cbn; try lia. destruct b; cbn; auto; lia. Qed.
Lemma left_gram op lhs e : stands_for lhs e -> left_ok op lhs ->
  exists pl, gram pl (left_text op lhs) e /\ precedence op <= pl /\ (is_cmp_op op = true -> 5 < pl)
             /\ (op = OBin Lt \/ op = OBin Shl -> ~ ends_with_type (left_text op lhs)) /\ (precedence op <= 2 -> 3 <= pl).
Proof.
  intros H (C1 & C2 & C3). apply stands_gram in H as (p & SL & G). unfold left_text.
  pose proof (prec_12 op) as P12.
  assert (NB : top_op lhs = None -> exists pl, gram pl (disp lhs) e /\ precedence op <= pl /\ (is_cmp_op op = true -> 5 < pl)
             /\ (op = OBin Lt \/ op = OBin Shl -> ~ ends_with_type (disp lhs)) /\ (precedence op <= 2 -> 3 <= pl)).
  { intros T. exists p. assert (13 <= p) by (destruct lhs; cbn in *; try discriminate; lia).
    repeat split; auto; try lia. intros _. eapply gram_not_type; eauto. }
  destruct lhs as [t|t|lop l r|u i]; cbn [paren_helper]; auto. clear NB.
  destruct (needs_paren op lop ALeft) eqn:N; unfold paren_helper.
  { exists 14. repeat split; try lia; [eapply g_paren; eauto|intros _; apply parens_not_type]. }
  apply no_paren_prec in N as (L & Q & Sh). cbn in SL. subst p.
  exists (precedence lop). repeat split; auto.
  - intros C. pose proof (proj1 (cmp_prec op) C). destruct (Nat.eq_dec (precedence lop) 5) as [E|E]; [|lia]. exfalso.
    destruct (Q ltac:(lia)) as [[-> B]|[B _]].
    + rewrite (cmp_left lop C) in B. discriminate.
    + apply C1. split; auto. exists lop. split; [reflexivity|]. split; [now apply cmp_prec|congruence].
  - intros O E. destruct (C2 O E) as (o & To & [Lo|(-> & Ar)]); cbn in To; injection To as <-; [lia|].
    rewrite (arith_prec _ Ar) in Sh. discriminate.
  - intros P2. destruct (Nat.le_gt_cases 3 (precedence lop)) as [|Z]; auto. exfalso.
    assert (A : (precedence op = 1 \/ precedence op = 2) /\ (precedence lop = 1 \/ precedence lop = 2)).
    { pose proof (gram_le _ _ _ G). split; [|lia]. assert (0 < precedence op); [|lia].
      destruct op; cbn; try lia. pose proof (bop_prec_ge b). lia. }
    destruct A as [[A|A] [B|B]]; try lia.
    + destruct (Q ltac:(lia)) as [[-> D]|[_ D]].
      * destruct lop as [b| | | |]; cbn in *; try discriminate. pose proof (bop_prec_ge b); lia.
      * destruct op as [b| | | |]; cbn in *; try discriminate. pose proof (bop_prec_ge b); lia.
    + apply C3. split; auto. destruct lop as [b| | | |lim]; cbn in *; try lia; [pose proof (bop_prec_ge b); lia|]. now exists lim.
    + destruct (Q ltac:(lia)) as [[-> D]|[_ D]].
      * destruct lop as [b| | | |]; cbn in *; try discriminate; try lia. pose proof (bop_prec_ge b); lia.
      * destruct op as [b| | | |]; cbn in *; try discriminate; try lia. pose proof (bop_prec_ge b); lia.
Qed.
Lemma right_gram op rhs e : stands_for rhs e -> op <> OCast -> ~ (associativity op = ABoth /\ top_op rhs = Some op) ->
  exists pr, gram pr (right_text op rhs) e /\ (precedence op <> 1 -> precedence op < pr) /\ 1 <= pr.
Proof.
  intros H NC C. apply stands_gram in H as (p & SL & G). unfold right_text. pose proof (prec_12 op) as P12.
  assert (NB : top_op rhs = None -> exists pr, gram pr (disp rhs) e /\ (precedence op <> 1 -> precedence op < pr) /\ 1 <= pr).
  { intros T. exists p. assert (13 <= p) by (destruct rhs; cbn in *; try discriminate; lia). repeat split; auto; lia. }
  destruct rhs as [t|t|rop l r|u i]; cbn [paren_helper]; auto. clear NB.
  destruct (needs_paren op rop ARight) eqn:N; unfold paren_helper.
  { exists 14. repeat split; try lia. eapply g_paren; eauto. }
  apply no_paren_prec in N as (L & Q & _). cbn in SL. subst p. exists (precedence rop). pose proof (gram_le _ _ _ G).
  repeat split; auto; [|lia]. intros P1. destruct (Nat.eq_dec (precedence rop) (precedence op)) as [E|E]; [|lia]. exfalso.
  destruct (Q E) as [[-> B]|[B D]]; [apply C; auto|].
  destruct op as [b| | | |]; cbn in *; try discriminate; try lia. destruct b; discriminate.
Qed.
Lemma assoc_sides op l r pl el pr er : op <> OCast -> gram pl l el -> gram pr r er ->
  precedence op <= pl -> (is_cmp_op op = true -> 5 < pl) -> (op = OBin Lt \/ op = OBin Shl -> ~ ends_with_type l) ->
  (precedence op <= 2 -> 3 <= pl) -> (precedence op <> 1 -> precedence op < pr) -> 1 <= pr ->
  exists e, node op el er = Some e /\ sides_ok op l r e.
Proof.
  intros NC Gl Gr P C T R3 Pr P1.
  destruct op as [b| |b| |lim]; try contradiction.
  - pose proof (bop_prec_ge b). exists (Bin b el er). split; auto. cbn in *. split.
    + eapply g_bin; eauto; [apply Pr; lia|intros Z; destruct b; cbn in *; try discriminate; auto|].
      intros [-> | ->]; auto.
    + intros Z. exists pl, el, pr, er. repeat split; auto. destruct b; cbn in *; try discriminate; lia.
  - exists (Assign None el er). split; auto. cbn in *. split; [|discriminate]. eapply g_assign; try eassumption; lia.
  - exists (Assign (Some b) el er). split; auto. cbn in *. split; [|discriminate]. eapply g_assign_op; try eassumption; lia.
  - exists (Range lim el er). split; auto. cbn in *. split; [|discriminate]. eapply g_range; try eassumption; lia.
Qed.
Lemma make_assoc_stands op lhs rhs el er : stands_for lhs el -> stands_for rhs er -> sound_sides op lhs rhs ->
  exists e, node op el er = Some e /\ stands_for (make_assoc op lhs rhs) e.
Proof.
  intros Hl Hr (NC & C1 & C2 & C3 & C4).
  destruct (left_gram op lhs el Hl) as (pl & Gl & A1 & A2 & A3 & A4); [now repeat split|].
  destruct (right_gram op rhs er Hr NC C2) as (pr & Gr & B1 & B2).
  destruct (assoc_sides op _ _ pl el pr er NC Gl Gr A1 A2 A3 A4 B1 B2) as (e & N & S).
  exists e. split; auto. rewrite make_assoc_texts. now apply s_bin.
Qed.
Lemma as_ty_stands s e n : stands_for s e -> stands_for (as_ty s n) (Cast e n).
Proof.
  intros H. apply stands_gram in H as (p & SL & G). unfold as_ty. rewrite make_assoc_texts. apply s_bin. cbn [sides_ok].
  assert (A : exists q, gram q (left_text OCast s) e /\ 12 <= q).
  { unfold left_text. destruct s as [t|t|lop l r|u i]; cbn [paren_helper]; try (exists p; split; [exact G|cbn in SL; lia]).
    destruct (needs_paren OCast lop ALeft) eqn:N; unfold paren_helper; [exists 14; split; [eapply g_paren; eauto|lia]|].
    apply no_paren_prec in N as (L & _). exists p. split; auto. cbn in SL, L. lia. }
  destruct A as (q & Gq & L). exists q, e, n. repeat split; auto.
Qed.

(** Operators taken to be associative. *)
Lemma graft {V} (I : reading V) b pr tr er : alone b = true -> associative (r_bin V I b) -> gram pr tr er ->
  forall pl tl el, gram pl tl el -> bop_prec b <= pl -> bop_prec b <= pr ->
  exists e, gram (bop_prec b) (tl ++ TBin b :: tr) e /\ value I e = r_bin V I b (value I el) (value I er).
Proof.
  intros AL AS G. pose proof (bop_prec_ge b) as B3.
  assert (NC : is_cmp b = false) by (destruct b; auto; discriminate).
  assert (NL : b = Lt \/ b = Shl -> False) by (intros [-> | ->]; discriminate).
  assert (direct : forall pr tr er pl tl el, gram pr tr er -> bop_prec b < pr -> gram pl tl el -> bop_prec b <= pl ->
     exists e, gram (bop_prec b) (tl ++ TBin b :: tr) e /\ value I e = r_bin V I b (value I el) (value I er)).
  { intros pr0 tr0 er0 pl tl el G0 L0 Gl Ll. exists (Bin b el er0). split; [|reflexivity].
    eapply g_bin; try eassumption; try congruence; intros Z; destruct (NL Z). }
  induction G; intros pl' tl' el' Gl Ll Lr;
    try (eapply direct; [econstructor; eassumption|lia|eassumption|assumption]).
  - destruct (Nat.eq_dec (bop_prec b0) (bop_prec b)) as [E|E].
    + assert (b0 = b) by (destruct b, b0; cbn in *; try discriminate; auto). subst b0. clear IHG2.
      destruct (IHG1 pl' tl' el' Gl Ll ltac:(lia)) as (e & Ge & Ve).
      exists (Bin b e er). split.
      * replace (tl' ++ TBin b :: tl ++ TBin b :: tr) with ((tl' ++ TBin b :: tl) ++ TBin b :: tr) by now rewrite <- app_assoc.
        eapply g_bin; try eassumption; try lia; try congruence; intros Z; destruct (NL Z).
      * cbn. rewrite Ve. apply AS.
    + eapply direct; [eapply g_bin; eauto|lia|eassumption|assumption].
Qed.
Lemma make_assoc_reassoc {V} (I : reading V) op lhs rhs el er :
  (forall b, alone b = true -> associative (r_bin V I b)) ->
  stands_for lhs el -> stands_for rhs er -> sound_sides_assoc op lhs rhs ->
  exists e e', stands_for (make_assoc op lhs rhs) e /\ node op el er = Some e' /\ value I e = value I e'.
Proof.
  intros AS Hl Hr (NC & C1 & C2 & C3 & C4).
  destruct (left_gram op lhs el Hl) as (pl & Gl & A1 & A2 & A3 & A4); [now repeat split|].
  assert (D : (associativity op = ABoth /\ top_op rhs = Some op) \/ ~ (associativity op = ABoth /\ top_op rhs = Some op)).
  { destruct (associativity op); try (right; intros [? _]; discriminate).
    destruct (top_op rhs) as [o|]; [|right; intros [_ ?]; discriminate].
    destruct (assoc_op_eq_dec o op) as [-> |]; [left; auto|right; intros [_ ?]; congruence]. }
  destruct D as [[D1 D2]|D].
  - destruct (C2 D2 D1) as (b & -> & AL).
    assert (R : exists pr, gram pr (right_text (OBin b) rhs) er /\ bop_prec b <= pr).
    { apply stands_gram in Hr as (p & SL & G). unfold right_text.
      destruct rhs as [t|t|rop l r|u i]; try discriminate. cbn in D2. injection D2 as ->. cbn in SL. subst p.
      destruct (needs_paren _ _ _); cbn [paren_helper]; [exists 14; split; [eapply g_paren; eauto|pose proof (bop_prec_ge b); lia]|].
      exists (bop_prec b). auto. }
    destruct R as (pr & Gr & Lr).
    destruct (graft I b pr _ er AL (AS b AL) Gr pl _ el Gl A1 Lr) as (e & Ge & Ve).
    exists e, (Bin b el er). split; [|split; [reflexivity|exact Ve]]. rewrite make_assoc_texts. apply s_bin. split; [exact Ge|].
    intros C. cbn in C. destruct b; discriminate.
  - destruct (right_gram op rhs er Hr NC D) as (pr & Gr & B1 & B2).
    destruct (assoc_sides op _ _ pl el pr er NC Gl Gr A1 A2 A3 A4 B1 B2) as (e & N & S).
    exists e, e. split; [rewrite make_assoc_texts; now apply s_bin|]. split; auto.
Qed.

(** Terms. *)
Lemma term_stands t : sound_term t -> exists e, meant t = Some e /\ stands_for (build t) e.
Proof.
  induction t; cbn; intros H.
  - eauto.
  - destruct H as (A & B & C). destruct (IHt1 A) as (a & -> & Sa). destruct (IHt2 B) as (b & -> & Sb).
    eapply make_assoc_stands; eauto.
  - destruct (IHt H) as (e & -> & S). eexists. split; [reflexivity|]. now apply as_ty_stands.
  - destruct (IHt H) as (e & -> & S). eexists. split; [reflexivity|]. apply (make_unop_stands (AddrOf false)). auto.
  - destruct (IHt H) as (e & -> & S). eexists. split; [reflexivity|]. apply (make_unop_stands (AddrOf true)). auto.
  - destruct (IHt H) as (e & -> & S). eexists. split; [reflexivity|]. apply (make_unop_stands Deref). auto.
  - destruct (IHt H) as (e & -> & S). eexists. split; [reflexivity|]. apply (deref_then _ _ (AddrOf false)). auto.
  - destruct (IHt H) as (e & -> & S). eexists. split; [reflexivity|]. apply (deref_then _ _ (AddrOf true)). auto.
  - destruct (IHt H) as (e & -> & S). eexists. split; [reflexivity|]. now apply maybe_paren_stands.
Qed.
Lemma term_reassoc {V} (I : reading V) t : (forall b, alone b = true -> associative (r_bin V I b)) -> sound_term_assoc t ->
  exists e e', stands_for (build t) e /\ meant t = Some e' /\ value I e = value I e'.
Proof.
  intros AS. induction t; cbn; intros H.
  - exists e, e. auto.
  - destruct H as (A & B & C). destruct (IHt1 A) as (a & a' & Sa & -> & Va). destruct (IHt2 B) as (b & b' & Sb & -> & Vb).
    destruct (make_assoc_reassoc I op _ _ a b AS Sa Sb C) as (e & e' & S & N & E).
    destruct op; cbn in N |- *; try discriminate; injection N as <-; exists e; eexists; (split; [exact S|split; [reflexivity|]]);
      rewrite E; cbn; congruence.
  - destruct (IHt H) as (e & e' & S & -> & E). exists (Cast e n). eexists. split; [now apply as_ty_stands|]. split; [reflexivity|]. cbn. congruence.
  - destruct (IHt H) as (e & e' & S & -> & E). exists (Un (AddrOf false) e). eexists. split; [now apply (make_unop_stands (AddrOf false))|]. split; [reflexivity|]. cbn. congruence.
  - destruct (IHt H) as (e & e' & S & -> & E). exists (Un (AddrOf true) e). eexists. split; [now apply (make_unop_stands (AddrOf true))|]. split; [reflexivity|]. cbn. congruence.
  - destruct (IHt H) as (e & e' & S & -> & E). exists (Un Deref e). eexists. split; [now apply (make_unop_stands Deref)|]. split; [reflexivity|]. cbn. congruence.
  - destruct (IHt H) as (e & e' & S & -> & E). exists (Un (AddrOf false) (Un Deref e)). eexists. split; [now apply (deref_then _ _ (AddrOf false))|]. split; [reflexivity|]. cbn. congruence.
  - destruct (IHt H) as (e & e' & S & -> & E). exists (Un (AddrOf true) (Un Deref e)). eexists. split; [now apply (deref_then _ _ (AddrOf true))|]. split; [reflexivity|]. cbn. congruence.
  - destruct (IHt H) as (e & e' & S & -> & E). exists e, e'. split; [now apply maybe_paren_stands|auto].
Qed.

(** Negation. *)
Lemma neg_stands s e : stands_for s e -> exists e', stands_for (neg s) e' /\ (e' = Un Neg e \/ e = Un Neg e').
Proof.
  intros H. destruct s as [t|t|op l r|u i].
  - eexists. split; [apply (make_unop_stands Neg); eauto|auto].
  - eexists. split; [apply (make_unop_stands Neg); eauto|auto].
  - destruct op; try (eexists; split; [apply (make_unop_stands Neg); eauto|auto]).
    apply stands_gram in H as (p & _ & G). exists (Un Neg e). split; [|auto]. apply (s_maybe 13); [|lia].
    apply (g_neg 14); [eapply g_paren; eauto|lia].
  - inversion H; subst. destruct u; cbn [neg].
    + eexists. split; [apply (make_unop_stands Neg); eauto|auto].
    + eexists. split; [apply (make_unop_stands Neg); eauto|auto].
    + eexists. split; eauto.
Qed.
Lemma flip_opposite b b' : flip b = Some b' -> opposite b b'.
Proof. destruct b; cbn; intros E; try discriminate; injection E as <-; constructor. Qed.
Definition negates (e' e : tree) : Prop :=
  e' = Un Not e \/ e = Un Not e' \/ exists b b' l r, opposite b b' /\ e = Bin b l r /\ e' = Bin b' l r.
Lemma not_stands s e : stands_for s e ->
  (forall l r, s = BinOp (OBin Ge) l r -> ~ ends_with_type l) ->
  exists e', stands_for (not_ s) e' /\ negates e' e.
Proof.
  intros H T. assert (M : stands_for (make_unop [TBang] s) (Un Not e)) by (apply (make_unop_stands Not); auto).
  destruct s as [t|t|op l r|u i]; try (eexists; split; [exact M|now left]).
  - destruct op as [b| | | |]; try (eexists; split; [exact M|now left]). cbn [not_].
    destruct (flip b) as [b'|] eqn:F; [|eexists; split; [exact M|now left]].
    assert (SO : sides_ok (OBin b) l r e) by (inversion H; subst; assumption). destruct SO as (G & C).
    assert (CM : is_cmp b = true /\ is_cmp b' = true) by (destruct b; cbn in F; try discriminate; injection F as <-; auto).
    destruct CM as [CM CM']. destruct (C CM) as (pl & el & pr & er & Gl & Gr & Ll & Lr & N). cbn in N. injection N as <-.
    exists (Bin b' el er). split; [|right; right; exists b, b', el, er; auto using flip_opposite].
    assert (P5 : bop_prec b' = 5) by (destruct b'; cbn in *; try discriminate; auto).
    apply s_bin. cbn [sides_ok precedence]. split.
    + eapply g_bin; eauto; try lia. intros [-> | ->]; [|discriminate]. destruct b; try discriminate. eapply T; eauto.
    + intros _. exists pl, el, pr, er. auto.
  - inversion H; subst. destruct u; cbn [not_]; try (eexists; split; [exact M|now left]).
    eexists. split; [eassumption|right; left; reflexivity].
Qed.

(** Source expressions. *)
Lemma valid_gram c : valid c -> gram (level c) (snippet c) (erase c).
Proof.
  induction c; cbn [valid level snippet erase]; intros H.
  - constructor.
  - destruct H as [H E]. apply IHc in H. rewrite E in H. now constructor.
  - destruct H as [H E]. apply IHc in H. destruct u as [| | |[|]]; cbn; econstructor; eauto.
  - destruct H as (Hl & Hr & NC & H). apply IHc1 in Hl. apply IHc2 in Hr.
    destruct op as [b| |b| |lim]; try contradiction; cbn [precedence].
    + destruct H as (A & B & C & D). eapply g_bin; eauto.
    + destruct H. eapply g_assign; eauto.
    + destruct H. eapply g_assign_op; eauto.
    + destruct H. eapply g_range; eauto.
  - destruct H as [H E]. apply IHc in H. eapply g_cast; eauto.
  - eapply g_paren; eauto.
Qed.
Lemma unparen_spec c : valid c -> valid (unparen c) /\ erase (unparen c) = erase c /\ (c = unparen c \/ level c = 14).
Proof. induction c; cbn; intros H; auto. destruct (IHc H) as (A & B & _). auto. Qed.
Lemma unparen_not_paren c x : unparen c <> CParen x. Proof. induction c; cbn; try discriminate; auto. Qed.
Lemma hir_stands c : valid c -> stands_for (hir_from_snippet c) (erase c).
Proof.
  intros H. pose proof (valid_gram c H) as G. destruct (unparen_spec c H) as (V & E & D). unfold hir_from_snippet.
  pose proof (valid_gram _ V) as GU. rewrite E in GU.
  destruct (unparen c) as [n|c' n|u c'|op l r|c' n|c'] eqn:U; cbn in GU.
  - apply s_non. destruct D as [->|D]; [auto|now rewrite D in G].
  - apply s_non. destruct D as [->|D]; [auto|now rewrite D in G].
  - destruct D as [-> |D]; [apply (s_maybe 13); auto|apply (s_maybe 14); [now rewrite D in G|lia]].
  - apply s_bin. destruct V as (Vl & Vr & NC & V). destruct op as [b| |b| |lim]; try contradiction; cbn [sides_ok]; (split; [exact GU|]); try discriminate.
    intros C. cbn in C. destruct V as (A & B & C' & _). specialize (C' C).
    assert (bop_prec b = 5) by (destruct b; cbn in *; try discriminate; auto).
    exists (level l), (erase l), (level r), (erase r). repeat split; try (apply valid_gram; assumption); try lia.
    rewrite <- E. reflexivity.
  - apply s_bin. destruct V as (V & L). exists (level c'), (erase c'), n. split; [now apply valid_gram|]. split; [exact L|]. split; [reflexivity|]. now rewrite <- E.
  - exfalso. eapply unparen_not_paren; eauto.
Qed.
Lemma hir_ctx_stands st c : forall whole, valid c -> valid whole -> erase whole = erase c -> stands_for (hir_ctx st whole c) (erase c).
Proof.
  induction c; cbn [hir_ctx]; intros whole V VW E; try (rewrite <- E; apply hir_stands; assumption).
  - destruct V as [V L]. destruct u; try (rewrite <- E; apply hir_stands; assumption).
    + destruct (st c); [|rewrite <- E; now apply hir_stands]. apply (s_un UNot). auto.
    + destruct (st c); [|rewrite <- E; now apply hir_stands]. apply (s_un UNeg). auto.
  - cbn [erase] in *. auto.
Qed.
