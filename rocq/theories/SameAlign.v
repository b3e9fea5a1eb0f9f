(** Two expressions found equal have the same shape, up to a renaming of their bindings and the order of some operands. *)
From Verif Require Export SameProofs.
From Coq Require Import Lia Permutation.

(** ** The same shape *)
Inductive pat_sim (R : id -> id -> Prop) : pat -> pat -> Prop :=
| ps_wild : pat_sim R PWild PWild
| ps_bind m m' x y p p' : R x y -> opt_rel (pat_sim R) p p' -> pat_sim R (PBind m x p) (PBind m' y p')
| ps_lit l : pat_sim R (PLit l) (PLit l)
| ps_range a b i : pat_sim R (PRange a b i) (PRange a b i)
| ps_ref m m' p p' : pat_sim R p p' -> pat_sim R (PRef m p) (PRef m' p')
| ps_tuple ps ps' d : Forall2 (pat_sim R) ps ps' -> pat_sim R (PTuple ps d) (PTuple ps' d)
| ps_variant q ps ps' d : Forall2 (pat_sim R) ps ps' -> pat_sim R (PVariant q ps d) (PVariant q ps' d)
| ps_struct q fs fs' r r' : Forall2 (fun f f' => fst f = fst f' /\ pat_sim R (snd f) (snd f')) fs fs' -> pat_sim R (PStruct q fs r) (PStruct q fs' r').

Definition plain (e : expr) : Prop := match e with EBlock (Some _) _ _ _ => False | _ => True end.
Section Sim.
  Variable konst : expr -> option (nat * lit).
  Variable allow : bool.
  Inductive sim (R : id -> id -> Prop) : expr -> expr -> Prop :=
  | si_const e e' k c : konst e = Some (k, c) -> konst e' = Some (k, c) -> sim R e e'
  | si_lit l : sim R (ELit l) (ELit l)
  | si_local x y : R x y -> sim R (ELocal x) (ELocal y)
  | si_item d s s' : sim R (EItem d s) (EItem d s')
  | si_node e e' k k' es es' : plain e -> plain e' -> reduce_exprkind e = ENode k es -> reduce_exprkind e' = ENode k' es' ->
      norm k = norm k' -> (allow = false -> silent k = true) -> Forall2 (sim R) es es' -> sim R e e'
  | si_binary op lp rp l r l' r' : sim R l l' -> sim R r r' -> sim R (EBinary op lp rp l r) (EBinary op lp rp l' r')
  | si_assign op l r l' r' : allow = true -> sim R l l' -> sim R r r' -> sim R (EAssign op l r) (EAssign op l' r')
  | si_block u u' ss t ss' t' : block_rel (sim R) (pat_sim R) (ss, t) (ss', t') -> sim R (EBlock None u ss t) (EBlock None u' ss' t')
  | si_if c t e c' t' e' : sim R c c' -> sim R t t' -> opt_rel (sim R) e e' -> sim R (EIf c t e) (EIf c' t' e')
  | si_let p t e p' t' e' : pat_sim R p p' -> sim R e e' -> sim R (ELet p t e) (ELet p' t' e')
  | si_match e e' arms arms' : sim R e e' -> Forall2 (arm_rel (sim R) (pat_sim R)) arms arms' -> sim R (EMatch e arms) (EMatch e' arms')
  | si_loop lab k ss t ss' t' : block_rel (sim R) (pat_sim R) (ss, t) (ss', t') -> sim R (ELoop lab k ss t) (ELoop lab k ss' t')
  | si_exit e e' x a a' : plain e -> plain e' -> reduce_exprkind e = EExit x a -> reduce_exprkind e' = EExit x a' -> opt_rel (sim R) a a' -> sim R e e'.
End Sim.

Lemma reduce_free e : free (reduce_exprkind e) = free e.
Proof.
  destruct e as [| | | | | |lab u ss t| | | | | |]; try reflexivity.
  destruct ss as [|[| | |] [|]], t as [t|]; try reflexivity; cbn; try (destruct t as [| | | | | | | | | | |x e|]; try destruct x; reflexivity);
    destruct e as [| | | | | | | | | | |x e|]; try destruct x; cbn; rewrite ?app_nil_r; reflexivity.
Qed.
Lemma reduce_exports e : exports (reduce_exprkind e) = exports e.
Proof.
  destruct e as [| | | | | |lab u ss t| | | | | |]; try reflexivity.
  destruct ss as [|[| | |] [|]], t as [t|]; try reflexivity; cbn; try (destruct t as [| | | | | | | | | | |x e|]; try destruct x; reflexivity);
    destruct e as [| | | | | | | | | | |x e|]; try destruct x; reflexivity.
Qed.
(** What an expression reduces to. *)
Lemma reduce_cases e :
  reduce_exprkind e = e \/
  (exists lab u, e = EBlock lab u [] None /\ reduce_exprkind e = ENode KTup []) \/
  (exists lab u x, (e = EBlock lab u [] (Some (EExit XReturn x)) \/ e = EBlock lab u [SExpr (EExit XReturn x)] None \/ e = EBlock lab u [SSemi (EExit XReturn x)] None)
     /\ reduce_exprkind e = EExit XReturn x).
Proof.
  destruct e as [| | | | | |lab u ss t| | | | | |]; try (left; reflexivity).
  destruct ss as [|s [|]], t as [t|]; try (left; reflexivity).
  - destruct t as [| | | | | | | | | | |x e|]; try (left; reflexivity). destruct x; try (left; reflexivity).
    right; right. exists lab, u, e. auto.
  - right; left. exists lab, u. auto.
  - left. destruct s as [|e|e|]; try reflexivity; destruct e as [| | | | | | | | | | |x e|]; try reflexivity; destruct x; reflexivity.
  - destruct s as [|e|e|]; try (left; reflexivity); destruct e as [| | | | | | | | | | |x e|]; try (left; reflexivity); destruct x; try (left; reflexivity);
      right; right; exists lab, u, e; auto.
  - left. destruct s as [|e|e|]; try reflexivity; destruct e as [| | | | | | | | | | |x e|]; try reflexivity; destruct x; reflexivity.
  - left. destruct s as [|e|e|]; try reflexivity; destruct e as [| | | | | | | | | | |x e|]; try reflexivity; destruct x; reflexivity.
Qed.

(** ** Reordering an expression that reduces *)
Lemma reduce_other e x : reduce_exprkind e = x -> match x with ENode _ _ | EExit _ _ => True | _ => e = x end.
Proof.
  intros <-. destruct (reduce_cases e) as [->|[(lab & u & _ & ->)|(lab & u & x & _ & ->)]]; try exact I. destruct e; auto.
Qed.
Lemma unreduce_node C r k es es' : reduce_exprkind r = ENode k es -> plain r -> Forall2 (reordered C) es es' ->
  exists r', reordered C r r' /\ plain r' /\ reduce_exprkind r' = ENode k es'.
Proof.
  intros R P F. destruct (reduce_cases r) as [E|[(lab & u & -> & E)|(lab & u & x & _ & E)]]; rewrite E in R.
  - subst r. exists (ENode k es'). split; [constructor; exact F|]. split; [exact I|reflexivity].
  - injection R as <- <-. inversion F; subst. exists (EBlock lab u [] None). split; [constructor|]. split; [exact P|reflexivity].
  - discriminate.
Qed.
Lemma unreduce_exit C r x a a' : reduce_exprkind r = EExit x a -> plain r -> opt_rel (reordered C) a a' ->
  exists r', reordered C r r' /\ plain r' /\ reduce_exprkind r' = EExit x a'.
Proof.
  intros R P F. destruct (reduce_cases r) as [E|[(lab & u & _ & E)|(lab & u & y & B & E)]]; rewrite E in R; try discriminate.
  - subst r. exists (EExit x a'). split; [constructor; exact F|]. split; [exact I|reflexivity].
  - injection R as <- ->. destruct B as [->|[->| ->]].
    + exists (EBlock lab u [] (Some (EExit XReturn a'))). split; [|split; [exact P|reflexivity]]. constructor. constructor; constructor. constructor. exact F.
    + exists (EBlock lab u [SExpr (EExit XReturn a')] None). split; [|split; [exact P|reflexivity]]. constructor. constructor; repeat constructor. exact F.
    + exists (EBlock lab u [SSemi (EExit XReturn a')] None). split; [|split; [exact P|reflexivity]]. constructor. constructor; repeat constructor. exact F.
Qed.
Lemma unreduce_block C lab u ss t ss' t' : reduce_exprkind (EBlock lab u ss t) = EBlock lab u ss t -> block_rel (reordered C) eq (ss, t) (ss', t') ->
  reduce_exprkind (EBlock lab u ss' t') = EBlock lab u ss' t'.
Proof.
  intros R B. destruct (reduce_cases (EBlock lab u ss' t')) as [E|[(l & v & X & _)|(l & v & x & X & _)]]; [exact E| |].
  - injection X as <- <- -> ->. inversion B as [? ? ? ? B1 B2]; subst. inversion B1; subst. inversion B2; subst. discriminate.
  - inversion B as [? ? ? ? B1 B2]; subst. destruct X as [X|[X|X]]; injection X as <- <- -> ->.
    + inversion B1; subst. inversion B2 as [|? ? Y]; subst. inversion Y; subst; discriminate.
    + inversion B2; subst. inversion B1 as [|? ? ? ? S1 S2]; subst. inversion S2; subst. inversion S1 as [| |? ? Y| |]; subst. inversion Y; subst; discriminate.
    + inversion B2; subst. inversion B1 as [|? ? ? ? S1 S2]; subst. inversion S2; subst. inversion S1 as [| | |? ? Y|]; subst. inversion Y; subst; discriminate.
Qed.
Lemma within_reduce (Q : expr -> Prop) e : (forall d, within e d -> Q d) -> Q (ENode KTup []) -> forall d, within (reduce_exprkind e) d -> Q d.
Proof.
  intros H T d W. destruct (reduce_cases e) as [E|[(lab & u & B & E)|(lab & u & x & B & E)]]; rewrite E in W.
  - apply H, W.
  - inversion W as [|? c ? I]; subst; [exact T|destruct I].
  - apply H. apply w_part with (EExit XReturn x); [|exact W]. destruct B as [->|[->| ->]]; cbn; auto.
Qed.

(** ** Pairs of bindings *)
Section Align.
  Variables BL BR : list id.
  Variable O : id -> Prop.
  Hypothesis disjoint : forall x, In x BL -> ~ In x BR.
  Hypothesis outside : forall x, O x -> ~ In x BL /\ ~ In x BR.
  Definition pairs := list (id * id).
  Definition rel (P : pairs) (x y : id) : Prop := In (x, y) P \/ (x = y /\ O x).

  Record pre (G : pairs) (bl br fl fr : list id) (m : locals) : Prop := {
    p_l : NoDup bl; p_r : NoDup br; p_bl : incl bl BL; p_br : incl br BR;
    p_fl : forall x, In x fl -> In x (map fst G) \/ O x;
    p_fr : forall x, In x fr -> In x (map snd G) \/ O x;
    p_get : forall x y, In (x, y) G -> get m x = Some y;
    p_gl : forall x, In x (map fst G) -> ~ In x bl;
    p_gr : forall x, In x (map snd G) -> ~ In x br;
    p_GL : incl (map fst G) BL; p_GR : incl (map snd G) BR;
    p_keys : forall x y, get m x = Some y -> In x BL }.
  Record post (bl br el er : list id) (m : locals) (P : pairs) : Prop := {
    q_l : incl (map fst P) bl; q_r : incl (map snd P) br;
    q_nl : NoDup (map fst P); q_nr : NoDup (map snd P);
    q_el : incl el (map fst P); q_er : incl er (map snd P);
    q_get : forall x y, In (x, y) P -> get m x = Some y }.

  Lemma pre_l G b1 b2 c1 c2 fl fr f1 g1 m : pre G (b1 ++ b2) (c1 ++ c2) fl fr m -> incl f1 fl -> incl g1 fr -> pre G b1 c1 f1 g1 m.
  Proof.
    intros H A B. destruct H as [h1 h2 h3 h4 h5 h6 h7 h8 h9 h10 h11 h12]. apply NoDup_app_inv in h1, h2.
    constructor; try tauto; auto.
    - intros x I. apply h3, in_or_app. auto.
    - intros x I. apply h4, in_or_app. auto.
    - intros x I J. apply (h8 x I), in_or_app. auto.
    - intros x I J. apply (h9 x I), in_or_app. auto.
  Qed.
  Lemma pre_r G b1 b2 c1 c2 fl fr e1 d1 f2 g2 m m1 P1 :
    pre G (b1 ++ b2) (c1 ++ c2) fl fr m -> post b1 c1 e1 d1 m1 P1 -> frame b1 m m1 ->
    (forall x, In x f2 -> In x e1 \/ In x fl) -> (forall x, In x g2 -> In x d1 \/ In x fr) -> pre (G ++ P1) b2 c2 f2 g2 m1.
  Proof.
    intros H Q F A B. destruct H as [h1 h2 h3 h4 h5 h6 h7 h8 h9 h10 h11 h12], Q as [q1 q2 q3 q4 q5 q6 q7].
    pose proof (NoDup_app_inv _ _ h1) as (n1 & n2 & n3). pose proof (NoDup_app_inv _ _ h2) as (n4 & n5 & n6).
    constructor; auto; try (rewrite map_app).
    - intros x I. apply h3, in_or_app. auto.
    - intros x I. apply h4, in_or_app. auto.
    - intros x I. rewrite in_app_iff. destruct (A x I) as [I1|I1]; [apply q5 in I1; auto|]. destruct (h5 x I1); auto.
    - intros x I. rewrite in_app_iff. destruct (B x I) as [I1|I1]; [apply q6 in I1; auto|]. destruct (h6 x I1); auto.
    - intros x y I. apply in_app_or in I. destruct I as [I|I]; [|auto]. rewrite (F x); [auto|].
      intros J. apply (h8 x); [apply (in_map fst) in I; exact I|apply in_or_app; auto].
    - intros x I J. apply in_app_or in I. destruct I as [I|I]; [apply (h8 x I), in_or_app; auto|exact (n3 x (q1 x I) J)].
    - intros x I J. apply in_app_or in I. destruct I as [I|I]; [apply (h9 x I), in_or_app; auto|exact (n6 x (q2 x I) J)].
    - apply incl_app; [exact h10|]. intros x I. apply h3, in_or_app. left. apply q1, I.
    - apply incl_app; [exact h11|]. intros x I. apply h4, in_or_app. left. apply q2, I.
    - intros x y I. destruct (in_dec Nat.eq_dec x b1) as [J|J]; [apply h3, in_or_app; auto|]. rewrite (F x J) in I. exact (h12 x y I).
  Qed.
  Lemma post_seq b1 b2 c1 c2 e1 e2 d1 d2 m1 m2 P1 P2 :
    post b1 c1 e1 d1 m1 P1 -> post b2 c2 e2 d2 m2 P2 -> frame b2 m1 m2 -> NoDup (b1 ++ b2) -> NoDup (c1 ++ c2) ->
    post (b1 ++ b2) (c1 ++ c2) (e1 ++ e2) (d1 ++ d2) m2 (P1 ++ P2).
  Proof.
    intros Q1 Q2 F N M. apply NoDup_app_inv in N, M. destruct N as (_ & _ & N), M as (_ & _ & M).
    destruct Q1 as [q1 q2 q3 q4 q5 q6 q7], Q2 as [r1 r2 r3 r4 r5 r6 r7]. constructor; rewrite ?map_app.
    - apply incl_app; [apply incl_appl|apply incl_appr]; assumption.
    - apply incl_app; [apply incl_appl|apply incl_appr]; assumption.
    - apply NoDup_app_intro; auto. intros x I J. exact (N x (q1 x I) (r1 x J)).
    - apply NoDup_app_intro; auto. intros x I J. exact (M x (q2 x I) (r2 x J)).
    - apply incl_app; [apply incl_appl|apply incl_appr]; assumption.
    - apply incl_app; [apply incl_appl|apply incl_appr]; assumption.
    - intros x y I. apply in_app_or in I. destruct I as [I|I]; [|auto]. rewrite (F x); [auto|].
      apply (in_map fst) in I. apply N, q1, I.
  Qed.
  Lemma post_weaken b c e d e' d' m P : post b c e d m P -> incl e' e -> incl d' d -> post b c e' d' m P.
  Proof. intros [q1 q2 q3 q4 q5 q6 q7] A B. constructor; auto; eapply incl_tran; eauto. Qed.
  Lemma post_nil b c m : post b c [] [] m [].
  Proof. constructor; cbn; try apply incl_nil_l; try constructor; intros; contradiction. Qed.
  Lemma pre_free G bl br fl fr fl' fr' m : pre G bl br fl fr m -> incl fl' fl -> incl fr' fr -> pre G bl br fl' fr' m.
  Proof. intros [h1 h2 h3 h4 h5 h6 h7 h8 h9 h10 h11 h12] A B. constructor; auto. Qed.
  Lemma pre_perm G bl br fl fr bl' br' m : Permutation bl bl' -> Permutation br br' -> pre G bl br fl fr m -> pre G bl' br' fl fr m.
  Proof.
    intros A B [h1 h2 h3 h4 h5 h6 h7 h8 h9 h10 h11 h12]. pose proof (Permutation_sym A) as A'. pose proof (Permutation_sym B) as B'. constructor; auto.
    - exact (Permutation_NoDup A h1).
    - exact (Permutation_NoDup B h2).
    - intros x I. apply h3, (Permutation_in x A' I).
    - intros x I. apply h4, (Permutation_in x B' I).
    - intros x I J. exact (h8 x I (Permutation_in x A' J)).
    - intros x I J. exact (h9 x I (Permutation_in x B' J)).
  Qed.
  Lemma post_perm b c e d b' c' m P : Permutation b b' -> Permutation c c' -> post b c e d m P -> post b' c' e d m P.
  Proof.
    intros A B [q1 q2 q3 q4 q5 q6 q7]. constructor; auto.
    - intros x I. apply (Permutation_in x A), q1, I.
    - intros x I. apply (Permutation_in x B), q2, I.
  Qed.
  (** Failing, the comparison leaves the pairs of the context alone. *)
  Lemma pre_again G bl br fl fr m m1 : pre G bl br fl fr m -> frame bl m m1 -> pre G bl br fl fr m1.
  Proof.
    intros [h1 h2 h3 h4 h5 h6 h7 h8 h9 h10 h11 h12] F. constructor; auto.
    - intros x y I. rewrite (F x); [auto|]. apply h8. apply (in_map fst) in I. exact I.
    - intros x y I. destruct (in_dec Nat.eq_dec x bl) as [J|J]; [auto|]. rewrite (F x J) in I. exact (h12 x y I).
  Qed.

  (** ** What a comparison establishes *)
  Section Items.
    Context {X : Type}.
    Variable eqf : X -> X -> locals -> answer.
    Variables b f e : X -> list id.
    Variables okl okr : X -> Prop.
    Variable S : (id -> id -> Prop) -> X -> X -> Prop.
    Variable ro : X -> X -> Prop.
    Definition aligned (l r : X) (el er : list id) (G : pairs) (m' : locals) : Prop :=
      exists r' P, ro r r' /\ post (b l) (b r) el er m' P /\ forall P', incl (G ++ P) P' -> S (rel P') l r'.
    Definition item_ok : Prop := forall l r G m m', eqf l r m = (true, m') -> okl l -> okr r -> pre G (b l) (b r) (f l) (f r) m -> aligned l r (e l) (e r) G m'.

    Hypothesis ok : item_ok.
    Hypothesis fr : framed eqf b.
    Lemma zip_ok (fl fr_ : list X -> list id) :
      (forall x xs, incl (f x) (fl (x :: xs)) /\ forall y, In y (fl xs) -> In y (e x) \/ In y (fl (x :: xs))) ->
      (forall x xs, incl (f x) (fr_ (x :: xs)) /\ forall y, In y (fr_ xs) -> In y (e x) \/ In y (fr_ (x :: xs))) ->
      forall l r G m m', length l = length r -> zip_all eqf l r m = (true, m') -> Forall okl l -> Forall okr r ->
        pre G (flat_map b l) (flat_map b r) (fl l) (fr_ r) m ->
        exists r' P, Forall2 ro r r' /\ post (flat_map b l) (flat_map b r) (flat_map e l) (flat_map e r) m' P
          /\ forall P', incl (G ++ P) P' -> Forall2 (S (rel P')) l r'.
    Proof.
      intros FL FR. induction l as [|x l IH]; intros [|y r] G m m' L Z OL OR H; cbn in L; try discriminate.
      - cbn in Z. injection Z as <-. exists [], []. split; [constructor|]. split; [apply post_nil|]. intros. constructor.
      - cbn in Z. destruct (eqf x y m) as [[|] m1] eqn:E; cbn in Z; [|discriminate].
        inversion OL; subst. inversion OR; subst. cbn [flat_map] in H.
        pose proof (fr x y m) as F. rewrite E in F. cbn in F.
        destruct (ok x y G m m1 E ltac:(assumption) ltac:(assumption) (pre_l _ _ _ _ _ _ _ _ _ _ H (proj1 (FL x l)) (proj1 (FR y r)))) as (y' & P1 & R1 & Q1 & S1).
        pose proof (pre_r _ _ _ _ _ _ _ _ _ _ _ _ _ _ H Q1 F (proj2 (FL x l)) (proj2 (FR y r))) as HB.
        pose proof (frame_zip eqf b l r m1 fr) as F2. rewrite Z in F2. cbn in F2.
        destruct (IH r (G ++ P1) m1 m' (f_equal pred L) Z ltac:(assumption) ltac:(assumption) HB) as (r' & P2 & R2 & Q2 & S2).
        exists (y' :: r'), (P1 ++ P2). split; [constructor; assumption|]. split.
        + cbn [flat_map]. apply (post_seq _ _ _ _ _ _ _ _ m1); auto; [exact (p_l _ _ _ _ _ _ H)|exact (p_r _ _ _ _ _ _ H)].
        + intros P' I. rewrite app_assoc in I. constructor; [apply S1|apply S2, I].
          intros z J. apply I, in_or_app. auto.
    Qed.
    Lemma over_ok (fl fr_ : list X -> list id) :
      (forall x xs, incl (f x) (fl (x :: xs)) /\ forall y, In y (fl xs) -> In y (e x) \/ In y (fl (x :: xs))) ->
      (forall x xs, incl (f x) (fr_ (x :: xs)) /\ forall y, In y (fr_ xs) -> In y (e x) \/ In y (fr_ (x :: xs))) ->
      forall l r G m m', over eqf l r m = (true, m') -> Forall okl l -> Forall okr r ->
        pre G (flat_map b l) (flat_map b r) (fl l) (fr_ r) m ->
        exists r' P, Forall2 ro r r' /\ post (flat_map b l) (flat_map b r) (flat_map e l) (flat_map e r) m' P
          /\ forall P', incl (G ++ P) P' -> Forall2 (S (rel P')) l r'.
    Proof.
      intros FL FR l r G m m' E. unfold over in E. destruct (length l =? length r) eqn:L; [|discriminate]. apply Nat.eqb_eq in L.
      intros A B H. exact (zip_ok fl fr_ FL FR l r G m m' L E A B H).
    Qed.
    Lemma both_ok l r G m m' : both eqf l r m = (true, m') -> (forall x, l = Some x -> okl x) -> (forall x, r = Some x -> okr x) ->
      pre G (opt_list b l) (opt_list b r) (opt_list f l) (opt_list f r) m ->
      exists r' P, opt_rel ro r r' /\ post (opt_list b l) (opt_list b r) (opt_list e l) (opt_list e r) m' P
        /\ forall P', incl (G ++ P) P' -> opt_rel (S (rel P')) l r'.
    Proof.
      destruct l as [x|], r as [y|]; cbn; intros E A B H; try discriminate.
      - destruct (ok x y G m m' E (A x eq_refl) (B y eq_refl) H) as (y' & P & R & Q & T). exists (Some y'), P.
        split; [constructor; exact R|]. split; [exact Q|]. intros P' I. constructor. apply T, I.
      - injection E as <-. exists None, []. split; [constructor|]. split; [apply post_nil|]. intros. constructor.
    Qed.
  End Items.

  Lemma pat_ok n : item_ok (eq_pat n) binds_pat (fun _ => []) binds_pat (fun _ => True) (fun _ => True) pat_sim eq.
  Proof.
    induction n as [|n IH]; intros l r G m m' E _ _ H; [discriminate|].
    assert (FL : forall (x : pat) (xs : list pat), incl (@nil id) [] /\ forall y : id, In y [] -> In y (binds_pat x) \/ In y []) by (intros; split; [apply incl_refl|auto]).
    assert (TR : forall (A : Type) (l : list A), Forall (fun _ => True) l) by (intros A k; induction k; constructor; auto).
    destruct l, r; cbn [eq_pat] in E; try discriminate.
    - injection E as <-. exists PWild, []. split; [reflexivity|]. split; [apply post_nil|]. intros. constructor.
    - destruct (given (mode =? mode0) (both (eq_pat n) sub sub0) m) as [ok m1] eqn:Q. cbn in E. destruct ok; [|discriminate]. injection E as <-.
      destruct (mode =? mode0); cbn in Q; [|discriminate].
      cbn [binds_pat] in H.
      assert (H' : pre G ([x] ++ opt_list binds_pat sub) ([x0] ++ opt_list binds_pat sub0) [] [] m) by (destruct sub, sub0; exact H).
      assert (H1 : pre G (opt_list binds_pat sub ++ [x]) (opt_list binds_pat sub0 ++ [x0]) [] [] m).
      { revert H'. apply pre_perm; apply Permutation_app_comm. }
      pose proof (pre_l _ _ _ _ _ _ _ _ _ _ H1 (incl_refl _) (incl_refl _)) as HA.
      destruct (both_ok (eq_pat n) binds_pat (fun _ => []) binds_pat (fun _ => True) (fun _ => True) pat_sim eq IH sub sub0 G m m1 Q (fun _ _ => I) (fun _ _ => I)) as (q & P & R & QQ & T).
      { destruct sub, sub0; exact HA. }
      assert (q = sub0) as -> by (inversion R; subst; reflexivity).
      pose proof (frame_both (eq_pat n) binds_pat sub sub0 m (frame_pat n)) as F. rewrite Q in F. cbn in F.
      exists (PBind mode0 x0 sub0), (P ++ [(x, x0)]). split; [reflexivity|].
      assert (QB : post [x] [x0] [x] [x0] (insert m1 x x0) [(x, x0)]).
      { constructor; cbn; try apply incl_refl; try (constructor; [tauto|constructor]). intros a b [J|[]]. injection J as <- <-. rewrite Nat.eqb_refl. reflexivity. }
      assert (FB : frame [x] m1 (insert m1 x x0)).
      { intros a N. cbn in N |- *. destruct (Nat.eqb_spec x a); [tauto|reflexivity]. }
      pose proof (post_seq _ _ _ _ _ _ _ _ _ _ _ _ QQ QB FB (p_l _ _ _ _ _ _ H1) (p_r _ _ _ _ _ _ H1)) as QF.
      split.
      + cbn [binds_pat]. refine (post_weaken _ _ _ _ _ _ _ _ (post_perm _ _ _ _ _ _ _ _ _ _ QF) _ _).
        * destruct sub; apply Permutation_app_comm.
        * destruct sub0; apply Permutation_app_comm.
        * intros a J. apply in_or_app. destruct sub; cbn in *; intuition.
        * intros a J. apply in_or_app. destruct sub0; cbn in *; intuition.
      + intros P' J. constructor; [left; apply J, in_or_app; right; apply in_or_app; right; left; reflexivity|].
        apply T. intros z K. apply J. apply in_app_or in K. apply in_or_app. destruct K; [auto|right; apply in_or_app; auto].
    - destruct (lit_eqb l l0) eqn:Q; [injection E as <-|discriminate]. apply lit_eqb_eq in Q. subst. exists (PLit l0), [].
      split; [reflexivity|]. split; [apply post_nil|]. intros. constructor.
    - destruct (_ && _)%bool eqn:Q; [injection E as <-|discriminate].
      apply andb_prop in Q. destruct Q as [Q Q3]. apply andb_prop in Q. destruct Q as [Q1 Q2].
      apply (opt_eqb_eq _ _ _ lit_eqb_eq) in Q1, Q2. apply Bool.eqb_prop in Q3. subst. eexists _, [].
      split; [reflexivity|]. split; [apply post_nil|]. intros. constructor.
    - destruct (Bool.eqb mutbl mutbl0); cbn in E; [|discriminate].
      destruct (IH _ _ G m m' E I I H) as (q & P & <- & Q & T). exists (PRef mutbl0 r), P. split; [reflexivity|]. split; [exact Q|].
      intros P' J. constructor. apply T, J.
    - destruct (opt_eqb Nat.eqb dd dd0) eqn:D; cbn in E; [|discriminate]. apply (opt_eqb_eq _ _ _ nat_eqb_eq) in D. subst.
      destruct (over_ok (eq_pat n) binds_pat (fun _ => []) binds_pat (fun _ => True) (fun _ => True) pat_sim eq IH (frame_pat n) (fun _ => []) (fun _ => []) FL FL _ _ G m m' E (TR _ _) (TR _ _) H)
        as (q & P & R & Q & T).
      apply Forall2_eq in R. subst q. eexists _, P. split; [reflexivity|]. split; [exact Q|]. intros P' J. constructor. apply T, J.
    - destruct (Nat.eqb path path0) eqn:D; cbn in E; [|discriminate]. apply Nat.eqb_eq in D. subst.
      destruct (over (eq_pat n) ps ps0 m) as [[|] m1] eqn:OV; cbn in E; [|discriminate].
      destruct (opt_eqb Nat.eqb dd dd0) eqn:D; [injection E as <-|discriminate]. apply (opt_eqb_eq _ _ _ nat_eqb_eq) in D. subst.
      destruct (over_ok (eq_pat n) binds_pat (fun _ => []) binds_pat (fun _ => True) (fun _ => True) pat_sim eq IH (frame_pat n) (fun _ => []) (fun _ => []) FL FL _ _ G m m1 OV (TR _ _) (TR _ _) H)
        as (q & P & R & Q & T).
      apply Forall2_eq in R. subst q. eexists _, P. split; [reflexivity|]. split; [exact Q|]. intros P' J. constructor. apply T, J.
    - destruct (Nat.eqb path path0) eqn:D; cbn in E; [|discriminate]. apply Nat.eqb_eq in D. subst.
      set (feq := fun a b : name * pat => given (fst a =? fst b) (eq_pat n (snd a) (snd b))) in E.
      assert (FI : item_ok feq (fun f => binds_pat (snd f)) (fun _ => []) (fun f => binds_pat (snd f)) (fun _ => True) (fun _ => True)
        (fun R f f' => fst f = fst f' /\ pat_sim R (snd f) (snd f')) eq).
      { intros [a p] [a' p'] G0 m0 m0' E0 _ _ H0. unfold feq in E0. cbn in E0. destruct (Nat.eqb a a') eqn:D; cbn in E0; [|discriminate]. apply Nat.eqb_eq in D. subst a'.
        destruct (IH _ _ G0 m0 m0' E0 I I H0) as (q & P & <- & Q & T). exists (a, p'), P. split; [reflexivity|]. split; [exact Q|].
        intros P' J. split; [reflexivity|]. apply T, J. }
      assert (FF : framed feq (fun f => binds_pat (snd f))).
      { intros a b c. unfold feq. apply frame_given. intros. apply frame_pat. }
      assert (FL' : forall (x : name * pat) (xs : list (name * pat)), incl (@nil id) [] /\ forall y : id, In y [] -> In y (binds_pat (snd x)) \/ In y []) by (intros; split; [apply incl_refl|auto]).
      destruct (over_ok feq _ (fun _ => []) _ (fun _ => True) (fun _ => True) _ eq FI FF (fun _ => []) (fun _ => []) FL' FL' _ _ G m m' E (TR _ _) (TR _ _) H)
        as (q & P & R & Q & T).
      apply Forall2_eq in R. subst q. eexists _, P. split; [reflexivity|]. split; [exact Q|]. intros P' J. constructor. apply T, J.
  Qed.

  (** ** The comparison *)
  Variable konst : expr -> option (nat * lit).
  Variable allow : bool.
  Variable C : expr -> Prop.
  Hypothesis konst_exports : forall e k c, konst e = Some (k, c) -> exports e = [].
  (** Whether the type of an expression is primitive; operands found equal agree on that. *)
  Variable prim : expr -> bool.
  Variables A B : expr -> Prop.
  Hypothesis agree : forall n a b m m', A a -> B b -> eq_expr konst allow n a b m = (true, m') -> prim a = prim b.
  Definition onel (d : expr) : Prop := plain d /\ match d with EBinary _ lp rp a b => lp = prim a /\ rp = prim b /\ A a /\ A b | _ => True end.
  Definition oner (d : expr) : Prop := plain d /\ match d with EBinary _ lp rp a b => lp = prim a /\ rp = prim b /\ B a /\ B b /\ C d | _ => True end.
  Definition okl (e : expr) : Prop := forall d, within e d -> onel d.
  Definition okr (e : expr) : Prop := forall d, within e d -> oner d.
  Definition all_parts {X} (parts : X -> list expr) (ok : expr -> Prop) (x : X) : Prop := forall c, In c (parts x) -> ok c.
  Lemma okl_parts e : okl e -> all_parts parts okl e.
  Proof. intros H c I d W. apply H. exact (w_part _ _ _ I W). Qed.
  Lemma okr_parts e : okr e -> all_parts parts okr e.
  Proof. intros H c I d W. apply H. exact (w_part _ _ _ I W). Qed.
  Lemma okl_reduce e : okl e -> okl (reduce_exprkind e).
  Proof. intros H. exact (within_reduce onel e H (conj I I)). Qed.
  Lemma okr_reduce e : okr e -> okr (reduce_exprkind e).
  Proof. intros H. exact (within_reduce oner e H (conj I I)). Qed.

  Definition block_free (b : list stmt * option expr) : list id :=
    fold_right (fun s later => stmt_free s ++ minus (stmt_exports s) later) (opt_list free (snd b)) (fst b).
  Definition arm_free (a : pat * option expr * expr) : list id :=
    match a with (p, g, b) => minus (binds_pat p) (opt_list free g ++ minus (opt_list exports g) (free b)) end.
  Let sim' := sim konst allow.
  Definition claim (n : nat) : Prop :=
    item_ok (eq_expr konst allow n) binds free exports okl okr sim' (reordered C)
    /\ item_ok (eq_block konst allow n) block_binds block_free (fun _ => []) (all_parts block_parts okl) (all_parts block_parts okr)
         (fun R => block_rel (sim' R) (pat_sim R)) (block_rel (reordered C) eq)
    /\ item_ok (eq_stmt konst allow n) stmt_binds stmt_free stmt_exports (all_parts stmt_parts okl) (all_parts stmt_parts okr)
         (fun R => stmt_rel (sim' R) (pat_sim R)) (stmt_rel (reordered C) eq)
    /\ item_ok (eq_arm konst allow n) arm_binds arm_free (fun _ => []) (all_parts arm_parts okl) (all_parts arm_parts okr)
         (fun R => arm_rel (sim' R) (pat_sim R)) (arm_rel (reordered C) eq).

  Lemma also_true a k m' : also a k = (true, m') -> exists m1, a = (true, m1) /\ k m1 = (true, m').
  Proof. destruct a as [[|] m1]; cbn; intros H; [eauto|discriminate]. Qed.
  Lemma given_true c k m m' : given c k m = (true, m') -> c = true /\ k m = (true, m').
  Proof. destruct c; cbn; intros H; [auto|discriminate]. Qed.
  Lemma incl_P (G P1 P2 P' : pairs) : incl (G ++ P1 ++ P2) P' -> incl (G ++ P1) P' /\ incl ((G ++ P1) ++ P2) P'.
  Proof. intros H. rewrite <- app_assoc. split; [|exact H]. intros x I. apply H. rewrite app_assoc. apply in_or_app. auto. Qed.
  Lemma flat_fold {X} (f : X -> list id) (e : X -> list id) : forall x xs, incl (f x) (flat_map f (x :: xs)) /\ forall y, In y (flat_map f xs) -> In y (e x) \/ In y (flat_map f (x :: xs)).
  Proof. intros x xs. cbn. split; [apply incl_appl, incl_refl|]. intros y I. right. apply in_or_app. auto. Qed.

  (** Two comparisons after one another. *)
  Lemma two n (EX : item_ok (eq_expr konst allow n) binds free exports okl okr sim' (reordered C)) a a' b b' G fl fr m m' :
    also (eq_expr konst allow n a a' m) (eq_expr konst allow n b b') = (true, m') -> okl a -> okl b -> okr a' -> okr b' ->
    incl (free a) fl -> incl (free a') fr -> (forall x, In x (free b) -> In x (exports a) \/ In x fl) -> (forall x, In x (free b') -> In x (exports a') \/ In x fr) ->
    pre G (binds a ++ binds b) (binds a' ++ binds b') fl fr m ->
    exists a'' b'' P, reordered C a' a'' /\ reordered C b' b'' /\
      post (binds a ++ binds b) (binds a' ++ binds b') (exports a ++ exports b) (exports a' ++ exports b') m' P /\
      forall P', incl (G ++ P) P' -> sim' (rel P') a a'' /\ sim' (rel P') b b''.
  Proof.
    intros E O1 O2 O3 O4 F1 F2 F3 F4 H. apply also_true in E. destruct E as (m1 & E1 & E2).
    pose proof (proj1 (frames konst allow n) a a' m) as FA. rewrite E1 in FA. cbn in FA.
    pose proof (proj1 (frames konst allow n) b b' m1) as FB. rewrite E2 in FB. cbn in FB.
    destruct (EX a a' G m m1 E1 O1 O3 (pre_l _ _ _ _ _ _ _ _ _ _ H F1 F2)) as (a'' & P1 & R1 & Q1 & S1).
    destruct (EX b b' (G ++ P1) m1 m' E2 O2 O4 (pre_r _ _ _ _ _ _ _ _ _ _ _ _ _ _ H Q1 FA F3 F4)) as (b'' & P2 & R2 & Q2 & S2).
    exists a'', b'', (P1 ++ P2). split; [exact R1|]. split; [exact R2|]. split.
    - exact (post_seq _ _ _ _ _ _ _ _ _ _ _ _ Q1 Q2 FB (p_l _ _ _ _ _ _ H) (p_r _ _ _ _ _ _ H)).
    - intros P' I. destruct (incl_P _ _ _ _ I) as [I1 I2]. split; [apply S1, I1|apply S2, I2].
  Qed.
  Lemma exchange op op' lp : swap_binop op lp = Some op' -> exchangeable op op' lp.
  Proof. destruct op, lp; cbn; intros H; try discriminate; injection H as <-; constructor. Qed.
  Lemma stmt_binds_let p k t i els : stmt_binds (SLet p k t i els) = opt_list binds i ++ opt_list block_binds els ++ binds_pat p.
  Proof. destruct els as [[? ?]|]; reflexivity. Qed.
  Lemma stmt_free_let p k t i els : stmt_free (SLet p k t i els) = opt_list free i ++ opt_list block_free els.
  Proof. destruct els as [[? ?]|]; reflexivity. Qed.
  Lemma stmt_parts_let p k t i els : stmt_parts (SLet p k t i els) = opt_list (fun e => [e]) i ++ opt_list block_parts els.
  Proof. destruct els as [[? ?]|]; reflexivity. Qed.
  Lemma tail_free x ss t : In x t -> In x (flat_map stmt_exports ss) \/ In x (fold_right (fun s later => stmt_free s ++ minus (stmt_exports s) later) t ss).
  Proof.
    induction ss as [|s ss IH]; cbn; intros I; [auto|]. destruct (IH I) as [J|J]; [left; apply in_or_app; auto|].
    destruct (in_minus x (stmt_exports s) _ J) as [K|K]; [left|right]; apply in_or_app; auto.
  Qed.
  Lemma fold_steps t : forall s ss, incl (stmt_free s) (fold_right (fun s later => stmt_free s ++ minus (stmt_exports s) later) t (s :: ss)) /\
    forall y, In y (fold_right (fun s later => stmt_free s ++ minus (stmt_exports s) later) t ss) ->
      In y (stmt_exports s) \/ In y (fold_right (fun s later => stmt_free s ++ minus (stmt_exports s) later) t (s :: ss)).
  Proof.
    intros s ss. cbn. split; [apply incl_appl, incl_refl|]. intros y I. destruct (in_minus y (stmt_exports s) _ I); [auto|right; apply in_or_app; auto].
  Qed.
  Lemma Forall_parts {X} (parts : X -> list expr) (ok : expr -> Prop) (l : list X) : (forall c, In c (flat_map parts l) -> ok c) -> Forall (all_parts parts ok) l.
  Proof. intros H. apply Forall_forall. intros x I c J. apply H, in_flat_map. eauto. Qed.
  Ltac sub := let x := fresh in let I := fresh in intros x I; cbn in *; rewrite ?in_app_iff in *; tauto.

  Lemma claims n : claim n.
  Proof.
    induction n as [|n (EX & BX & SX & AX)]; [split; [|split; [|split]]; intros l r G m m' E; discriminate|].
    destruct (frames konst allow n) as (FE & FB & FS & FA).
    split; [|split; [|split]].
    - intros l r G m m' E OL OR H. rewrite eq_expr_S in E. destruct (same_constant konst l r) eqn:K.
      { injection E as <-. unfold same_constant in K. destruct (konst l) as [[t a]|] eqn:KL; [|discriminate]. destruct (konst r) as [[u b]|] eqn:KR; [|discriminate].
        apply andb_prop in K. destruct K as [K1 K2]. apply Nat.eqb_eq in K1. apply lit_eqb_eq in K2. subst u b.
        exists r, []. split; [constructor|]. split; [rewrite (konst_exports _ _ _ KL), (konst_exports _ _ _ KR); apply post_nil|].
        intros P' _. exact (si_const _ _ _ _ _ _ _ KL KR). }
      pose proof (OL l (w_here l)) as [PL _]. pose proof (OR r (w_here r)) as [PR _].
      pose proof (okl_reduce _ OL) as OL'. pose proof (okr_reduce _ OR) as OR'.
      pose proof (okl_parts _ OL') as KL. pose proof (okr_parts _ OR') as KR.
      unfold aligned. rewrite <- (reduce_binds l), <- (reduce_binds r), <- (reduce_free l), <- (reduce_free r) in H.
      rewrite <- (reduce_binds l), <- (reduce_binds r), <- (reduce_exports l), <- (reduce_exports r).
      pose proof (reduce_other l _ eq_refl) as XL. pose proof (reduce_other r _ eq_refl) as XR.
      destruct (reduce_exprkind l) eqn:L, (reduce_exprkind r) eqn:R; try discriminate.
      + destruct (lit_eqb l0 l1) eqn:Q; [injection E as <-|discriminate]. apply lit_eqb_eq in Q. subst. eexists _, []. split; [constructor|].
        split; [apply post_nil|]. intros. constructor.
      + destruct (_ || _)%bool eqn:Q; [injection E as <-|discriminate]. subst. exists (ELocal x0), []. split; [constructor|].
        split; [apply post_nil|]. intros P' I. rewrite app_nil_r in I. constructor.
        destruct H as [h1 h2 h3 h4 h5 h6 h7 h8 h9 h10 h11 h12]. specialize (h5 x (or_introl eq_refl)). specialize (h6 x0 (or_introl eq_refl)).
        apply Bool.orb_prop in Q. destruct Q as [Q|Q].
        * apply Nat.eqb_eq in Q. subst x0. right. split; [reflexivity|].
          destruct h5 as [h5|h5]; [|exact h5]. destruct h6 as [h6|h6]; [|exact h6]. destruct (disjoint x (h10 x h5) (h11 x h6)).
        * apply (opt_eqb_eq _ _ _ nat_eqb_eq) in Q. left. destruct h5 as [h5|h5]; [|destruct (proj1 (outside x h5) (h12 x x0 Q))].
          apply in_map_iff in h5. destruct h5 as ([a b] & HA & HB). cbn in HA. subst a. rewrite (h7 x b HB) in Q. injection Q as ->. apply I, HB.
      + destruct (_ && _)%bool eqn:Q; [injection E as <-|discriminate]. subst. apply andb_prop in Q. destruct Q as [Q _]. apply Nat.eqb_eq in Q. subst.
        eexists _, []. split; [constructor|]. split; [apply post_nil|]. intros. constructor.
      + apply given_true in E. destruct E as [Q E]. apply eq_kind_norm in Q. destruct Q as [Q1 Q2].
        destruct (over_ok _ _ _ _ _ _ _ _ EX FE (flat_map free) (flat_map free) (flat_fold free exports) (flat_fold free exports) _ _ G m m' E) as (es' & P & R1 & Q & T).
        { apply Forall_forall. exact KL. } { apply Forall_forall. exact KR. } { exact H. }
        destruct (unreduce_node C r _ _ _ R PR R1) as (r' & R2 & R3 & R4). exists r', P. split; [exact R2|]. split.
        * apply (post_weaken _ _ _ _ _ _ _ _ Q); apply incl_nil_l.
        * intros P' I. apply (si_node konst allow _ _ _ _ _ _ _ PL R3 L R4 Q1 Q2). apply T, I.
      + subst l r. destruct (OL' _ (w_here _)) as (_ & TL1 & TL2 & TL3 & TL4). destruct (OR' _ (w_here _)) as (_ & TR1 & TR2 & TR3 & TR4 & TR5).
        destruct (given (bop_eqb op op0) _ m) as [ok m1] eqn:E1.
        assert (FM : frame (binds e1 ++ binds e2) m m1).
        { replace m1 with (snd (ok, m1)) by reflexivity. rewrite <- E1. apply frame_given. intros. apply frame_also; [apply (frame_incl (binds e1)); [inl|apply FE]|].
          intros. apply (frame_incl (binds e2)); [inl|apply FE]. }
        destruct ok; cbn [otherwise] in E.
        * injection E as <-. apply given_true in E1. destruct E1 as [Q E1]. apply bop_eqb_eq in Q. subst op0.
          assert (lp = lp0 /\ rp = rp0) as [<- <-].
          { apply also_true in E1. destruct E1 as (m2 & X1 & X2). split; [rewrite TL1, TR1; exact (agree _ _ _ _ _ TL3 TR3 X1)|rewrite TL2, TR2; exact (agree _ _ _ _ _ TL4 TR4 X2)]. }
          destruct (two n EX _ _ _ _ G (free e1 ++ free e2) (free e3 ++ free e4) m m1 E1) as (a & b & P & R1 & R2 & Q & T);
            [apply KL; cbn; auto|apply KL; cbn; auto|apply KR; cbn; auto|apply KR; cbn; auto|sub|sub|sub|sub|exact H|].
          exists (EBinary op lp rp a b), P. split; [constructor; assumption|]. split.
          -- apply (post_weaken _ _ _ _ _ _ _ _ Q); destruct op; first [apply incl_nil_l|apply incl_refl].
          -- intros P' I. destruct (T P' I). constructor; assumption.
        * destruct (swap_binop op lp) as [lo|] eqn:SW; [|discriminate]. apply given_true in E. destruct E as [Q E]. apply bop_eqb_eq in Q. subst op0.
          assert (lp = rp0 /\ rp = lp0) as [<- <-].
          { apply also_true in E. destruct E as (m2 & X1 & X2). split; [rewrite TL1, TR2; exact (agree _ _ _ _ _ TL3 TR4 X2)|rewrite TL2, TR1; exact (agree _ _ _ _ _ TL4 TR3 X1)]. }
          pose proof (pre_again _ _ _ _ _ _ _ H FM) as H1.
          pose proof (pre_perm _ _ _ _ _ (binds e2 ++ binds e1) (binds e3 ++ binds e4) _ (Permutation_app_comm _ _) (Permutation_refl _) H1) as H2.
          destruct (two n EX _ _ _ _ G (free e1 ++ free e2) (free e3 ++ free e4) m1 m' E) as (a & b & P & R1 & R2 & Q & T);
            [apply KL; cbn; auto|apply KL; cbn; auto|apply KR; cbn; auto|apply KR; cbn; auto|sub|sub|sub|sub|exact H2|].
          exists (EBinary op lp rp b a), P. split.
          { apply (ro_exchange C lo op rp lp lp); [apply exchange, SW|exact TR5|exact R1|exact R2]. }
          split.
          -- apply (post_weaken _ _ (exports e2 ++ exports e1) (exports e3 ++ exports e4)).
             ++ apply (post_perm (binds e2 ++ binds e1) (binds e3 ++ binds e4)); [apply Permutation_app_comm|apply Permutation_refl|exact Q].
             ++ destruct op; first [apply incl_nil_l|sub].
             ++ destruct lo; first [apply incl_nil_l|sub].
          -- intros P' I. destruct (T P' I). constructor; assumption.
      + subst l r. apply given_true in E. destruct E as [Q E]. apply andb_prop in Q. destruct Q as [Q1 Q2]. apply (opt_eqb_eq _ _ _ bop_eqb_eq) in Q2. subst op0.
        destruct (two n EX _ _ _ _ G (free e1 ++ free e2) (free e3 ++ free e4) m m' E) as (a & b & P & R1 & R2 & Q & T);
          [apply KL; cbn; auto|apply KL; cbn; auto|apply KR; cbn; auto|apply KR; cbn; auto|sub|sub|sub|sub|exact H|].
        exists (EAssign op a b), P. split; [constructor; assumption|]. split.
        * apply (post_weaken _ _ _ _ _ _ _ _ Q); apply incl_nil_l.
        * intros P' I. destruct (T P' I). constructor; assumption.
      + destruct (BX (ss, tail) (ss0, tail0) G m m' E KL KR H) as ([ss' t'] & P & R1 & Q & T).
        subst l r. destruct lab; [destruct PL|]. destruct lab0; [destruct PR|].
        exists (EBlock None unsafe_0 ss' t'), P. split; [constructor; exact R1|]. split; [exact Q|]. intros P' I. constructor. apply T, I.
      + subst l r. apply also_true in E. destruct E as (m1 & E1 & E2). cbn [binds] in H |- *. rewrite !app_assoc in H. rewrite !app_assoc.
        set (fl := free (EIf e1 e2 e3)) in *. set (fr := free (EIf e4 e5 e6)) in *.
        pose proof (pre_l _ _ _ _ _ _ _ _ _ _ H (incl_refl fl) (incl_refl fr)) as H12.
        assert (FM : frame (binds e1 ++ binds e2) m m1).
        { replace m1 with (snd (true, m1)) by reflexivity. rewrite <- E1. apply frame_also; [apply (frame_incl (binds e1)); [inl|apply FE]|].
          intros. apply (frame_incl (binds e2)); [inl|apply FE]. }
        destruct (two n EX _ _ _ _ G fl fr m m1 E1) as (a & b & P & R1 & R2 & Q & T);
          [apply KL; cbn; auto|apply KL; cbn; auto|apply KR; cbn; auto|apply KR; cbn; auto| | | | |exact H12|].
        { subst fl. cbn. sub. } { subst fr. cbn. sub. }
        { subst fl. cbn. intros x I. destruct (in_minus x (exports e1) _ I); [auto|right]. rewrite !in_app_iff. auto. }
        { subst fr. cbn. intros x I. destruct (in_minus x (exports e4) _ I); [auto|right]. rewrite !in_app_iff. auto. }
        destruct (both_ok _ _ _ _ _ _ _ _ EX e3 e6 (G ++ P) m1 m' E2) as (c & P2 & R3 & Q2 & T2).
        { intros x ->. apply KL. cbn. auto. } { intros x ->. apply KR. cbn. auto. }
        { apply (pre_r _ _ _ _ _ _ _ _ _ _ _ _ _ _ H Q FM).
          - intros x I. right. subst fl. cbn. rewrite !in_app_iff. auto.
          - intros x I. right. subst fr. cbn. rewrite !in_app_iff. auto. }
        pose proof (frame_both _ _ e3 e6 m1 FE) as F2. rewrite E2 in F2. cbn in F2.
        exists (EIf a b c), (P ++ P2). split; [constructor; assumption|]. split.
        * apply (post_weaken _ _ _ _ _ _ _ _ (post_seq _ _ _ _ _ _ _ _ _ _ _ _ Q Q2 F2 (p_l _ _ _ _ _ _ H) (p_r _ _ _ _ _ _ H))); apply incl_nil_l.
        * intros P' I. destruct (incl_P _ _ _ _ I) as [I1 I2]. destruct (T P' I1). constructor; auto.
      + subst l r. apply also_true in E. destruct E as (m1 & E1 & E2). apply also_true in E1. destruct E1 as (m0 & E0 & E1).
        destruct (opt_eqb eq_ty t t0) in E1; [injection E1 as ->|discriminate]. cbn [binds] in H |- *.
        destruct (pat_ok (pat_size p) _ _ G m m1 E0 I I (pre_l _ _ _ _ _ _ _ _ _ _ H (incl_nil_l _) (incl_nil_l _))) as (q & P1 & <- & Q1 & T1).
        pose proof (frame_pat (pat_size p) p p0 m) as F1. rewrite E0 in F1. cbn in F1.
        pose proof (FE e e0 m1) as F2. rewrite E2 in F2. cbn in F2.
        destruct (EX e e0 (G ++ P1) m1 m' E2) as (e' & P2 & R2 & Q2 & T2).
        { apply KL. cbn. auto. } { apply KR. cbn. auto. }
        { apply (pre_r _ _ _ _ _ _ _ _ _ _ _ _ _ _ H Q1 F1); intros x J; right; exact J. }
        exists (ELet p0 t0 e'), (P1 ++ P2). split; [constructor; exact R2|]. split.
        * apply (post_weaken _ _ _ _ _ _ _ _ (post_seq _ _ _ _ _ _ _ _ _ _ _ _ Q1 Q2 F2 (p_l _ _ _ _ _ _ H) (p_r _ _ _ _ _ _ H))); apply incl_appl, incl_refl.
        * intros P' J. destruct (incl_P _ _ _ _ J) as [I1 I2]. constructor; [apply T1, I1|apply T2, I2].
      + subst l r. apply also_true in E. destruct E as (m1 & E1 & E2). cbn [binds free] in H |- *.
        pose proof (FE e e0 m) as F1. rewrite E1 in F1. cbn in F1.
        pose proof (frame_over _ _ arms arms0 m1 FA) as F2. rewrite E2 in F2. cbn in F2.
        destruct (EX e e0 G m m1 E1) as (e' & P1 & R1 & Q1 & T1).
        { apply KL. cbn. auto. } { apply KR. cbn. auto. }
        { apply (pre_l _ _ _ _ _ _ _ _ _ _ H); apply incl_appl, incl_refl. }
        destruct (over_ok _ _ _ _ _ _ _ _ AX FA (flat_map arm_free) (flat_map arm_free) (flat_fold arm_free _) (flat_fold arm_free _) _ _ (G ++ P1) m1 m' E2) as (arms' & P2 & R2 & Q2 & T2).
        { apply Forall_parts. intros c I. apply KL. cbn. auto. } { apply Forall_parts. intros c I. apply KR. cbn. auto. }
        { apply (pre_r _ _ _ _ _ _ _ _ _ _ _ _ _ _ H Q1 F1); intros x J; right; apply in_or_app; right; exact J. }
        exists (EMatch e' arms'), (P1 ++ P2). split; [constructor; assumption|]. split.
        * apply (post_weaken _ _ _ _ _ _ _ _ (post_seq _ _ _ _ _ _ _ _ _ _ _ _ Q1 Q2 F2 (p_l _ _ _ _ _ _ H) (p_r _ _ _ _ _ _ H))); apply incl_nil_l.
        * intros P' J. destruct (incl_P _ _ _ _ J) as [I1 I2]. constructor; [apply T1, I1|apply T2, I2].
      + subst l r. apply also_true in E. destruct E as (m1 & E1 & E2). apply given_true in E1. destruct E1 as [Q0 E1]. apply Nat.eqb_eq in Q0. subst src0.
        destruct (opt_eqb Nat.eqb lab lab0) eqn:Q0; [injection E2 as <-|discriminate]. apply (opt_eqb_eq _ _ _ nat_eqb_eq) in Q0. subst lab0.
        destruct (BX (ss, tail) (ss0, tail0) G m m1 E1 KL KR H) as ([ss' t'] & P & R1 & Q & T).
        exists (ELoop lab src ss' t'), P. split; [constructor; exact R1|]. split; [exact Q|]. intros P' I. constructor. apply T, I.
      + apply given_true in E. destruct E as [Q0 E]. apply eq_exit_eq in Q0. subst x0.
        destruct (both_ok _ _ _ _ _ _ _ _ EX e e0 G m m' E) as (c & P & R1 & Q & T).
        { intros y ->. apply KL. cbn. auto. } { intros y ->. apply KR. cbn. auto. } { exact H. }
        destruct (unreduce_exit C r _ _ _ R PR R1) as (r' & R2 & R3 & R4). exists r', P. split; [exact R2|]. split.
        * apply (post_weaken _ _ _ _ _ _ _ _ Q); apply incl_nil_l.
        * intros P' I. apply (si_exit konst allow _ _ _ _ _ _ PL R3 L R4). apply T, I.
    - intros [ls lt] [rs rt] G m m' E KL KR H. rewrite eq_block_S in E. cbn [fst snd] in E. apply also_true in E. destruct E as (m1 & E1 & E2).
      unfold block_binds in H |- *. cbn [fst snd] in H |- *.
      destruct (over_ok _ _ _ _ _ _ _ _ SX FS (fun ss => block_free (ss, lt)) (fun ss => block_free (ss, rt)) (fold_steps _) (fold_steps _) ls rs G m m1 E1) as (rs' & P1 & R1 & Q1 & T1).
      { apply Forall_parts. intros c I. apply KL. unfold block_parts. apply in_or_app. auto. } { apply Forall_parts. intros c I. apply KR. unfold block_parts. apply in_or_app. auto. }
      { apply (pre_l _ _ _ _ _ _ _ _ _ _ H); apply incl_refl. }
      pose proof (frame_over _ _ ls rs m FS) as F1. rewrite E1 in F1. cbn in F1.
      pose proof (frame_both _ _ lt rt m1 FE) as F2. rewrite E2 in F2. cbn in F2.
      destruct (both_ok _ _ _ _ _ _ _ _ EX lt rt (G ++ P1) m1 m' E2) as (rt' & P2 & R2 & Q2 & T2).
      { intros x ->. apply KL. unfold block_parts. cbn. apply in_or_app. cbn. auto. } { intros x ->. apply KR. unfold block_parts. cbn. apply in_or_app. cbn. auto. }
      { apply (pre_r _ _ _ _ _ _ _ _ _ _ _ _ _ _ H Q1 F1); intros x I; apply tail_free, I. }
      exists (rs', rt'), (P1 ++ P2). split; [constructor; assumption|]. split.
      + apply (post_weaken _ _ _ _ _ _ _ _ (post_seq _ _ _ _ _ _ _ _ _ _ _ _ Q1 Q2 F2 (p_l _ _ _ _ _ _ H) (p_r _ _ _ _ _ _ H))); apply incl_nil_l.
      + intros P' J. destruct (incl_P _ _ _ _ J) as [I1 I2]. constructor; [apply T1, I1|apply T2, I2].
    - intros l r G m m' E KL KR H. rewrite eq_stmt_S in E. destruct l, r; try discriminate.
      + apply also_true in E. destruct E as (m3 & E & E4). apply also_true in E. destruct E as (m2 & E & E3). apply also_true in E. destruct E as (m1 & E & E2).
        destruct (opt_eqb eq_ty t t0) in E2; [injection E2 as ->|discriminate]. apply given_true in E. destruct E as [Q0 E1].
        unfold aligned. rewrite !stmt_binds_let, !stmt_free_let in H. rewrite !stmt_binds_let. unfold all_parts in KL, KR. rewrite stmt_parts_let in KL, KR.
        destruct (both_ok _ _ _ _ _ _ _ _ EX init init0 G m m2 E1) as (i' & P1 & R1 & Q1 & T1).
        { intros x ->. apply KL. apply in_or_app. cbn. auto. } { intros x ->. apply KR. apply in_or_app. cbn. auto. }
        { apply (pre_l _ _ _ _ _ _ _ _ _ _ H); apply incl_appl, incl_refl. }
        pose proof (frame_both _ _ init init0 m FE) as F1. rewrite E1 in F1. cbn in F1.
        assert (H2 : pre (G ++ P1) (opt_list block_binds els ++ binds_pat p) (opt_list block_binds els0 ++ binds_pat p0) (opt_list block_free els) (opt_list block_free els0) m2).
        { apply (pre_r _ _ _ _ _ _ _ _ _ _ _ _ _ _ H Q1 F1); intros x I; right; apply in_or_app; auto. }
        destruct (both_ok _ _ _ _ _ _ _ _ BX els els0 (G ++ P1) m2 m3 E3) as (els' & P2 & R2 & Q2 & T2).
        { intros x -> c I. apply KL. apply in_or_app. right. exact I. } { intros x -> c I. apply KR. apply in_or_app. right. exact I. }
        { apply (pre_l _ _ _ _ _ _ _ _ _ _ H2); apply incl_refl. }
        pose proof (frame_both _ _ els els0 m2 FB) as F2. rewrite E3 in F2. cbn in F2.
        assert (H3 : pre ((G ++ P1) ++ P2) (binds_pat p) (binds_pat p0) [] [] m3).
        { apply (pre_r _ _ _ _ _ _ _ _ _ _ _ _ _ _ H2 Q2 F2); intros x []. }
        destruct (pat_ok (pat_size p) _ _ _ m3 m' E4 I I H3) as (q & P3 & <- & Q3 & T3).
        pose proof (frame_pat (pat_size p) p p0 m3) as F3. rewrite E4 in F3. cbn in F3.
        pose proof (post_seq _ _ _ _ _ _ _ _ _ _ _ _ Q2 Q3 F3 (p_l _ _ _ _ _ _ H2) (p_r _ _ _ _ _ _ H2)) as Q23.
        assert (F23 : frame (opt_list block_binds els ++ binds_pat p) m2 m').
        { apply (frame_trans _ _ m3); [apply (frame_incl (opt_list block_binds els)); [inl|exact F2]|apply (frame_incl (binds_pat p)); [inl|exact F3]]. }
        exists (SLet p0 pty0 t0 i' els'), (P1 ++ P2 ++ P3). split; [|split].
        * inversion R2 as [HA HB|[a b] [c d] RB HA HB]; subst; [constructor; auto|]. inversion RB; subst. constructor; auto.
        * apply (post_weaken _ _ _ _ _ _ _ _ (post_seq _ _ _ _ _ _ _ _ _ _ _ _ Q1 Q23 F23 (p_l _ _ _ _ _ _ H) (p_r _ _ _ _ _ _ H))); cbn; apply incl_appr, incl_appr, incl_refl.
        * intros P' J. destruct (incl_P _ _ _ _ J) as [I1 I2]. destruct (incl_P _ _ _ _ I2) as [I3 I4].
          specialize (T1 P' I1). specialize (T2 P' I3). specialize (T3 P' I4).
          inversion T2 as [HA HB|[a b] [c d] RB HA HB]; subst; [constructor; auto|]. inversion RB; subst. constructor; auto.
      + destruct (EX e e0 G m m' E) as (e' & P & R1 & Q & T); [apply KL; cbn; auto|apply KR; cbn; auto|exact H|].
        exists (SExpr e'), P. split; [constructor; exact R1|]. split; [|intros P' J; constructor; apply T, J].
        apply (post_weaken _ _ _ _ _ _ _ _ Q); apply incl_nil_l.
      + destruct (EX e e0 G m m' E) as (e' & P & R1 & Q & T); [apply KL; cbn; auto|apply KR; cbn; auto|exact H|].
        exists (SSemi e'), P. split; [constructor; exact R1|]. split; [|intros P' J; constructor; apply T, J].
        apply (post_weaken _ _ _ _ _ _ _ _ Q); apply incl_nil_l.
    - intros [[lp lg] lb] [[rp rg] rb] G m m' E KL KR H. rewrite eq_arm_S in E. apply also_true in E. destruct E as (m2 & E & E3). apply also_true in E. destruct E as (m1 & E1 & E2).
      unfold arm_binds in H |- *.
      destruct (pat_ok (pat_size lp) _ _ G m m1 E1 I I (pre_l _ _ _ _ _ _ _ _ _ _ H (incl_nil_l _) (incl_nil_l _))) as (q & P1 & <- & Q1 & T1).
      pose proof (frame_pat (pat_size lp) lp rp m) as F1. rewrite E1 in F1. cbn in F1.
      assert (H2 : pre (G ++ P1) (opt_list binds lg ++ binds lb) (opt_list binds rg ++ binds rb)
         (opt_list free lg ++ minus (opt_list exports lg) (free lb)) (opt_list free rg ++ minus (opt_list exports rg) (free rb)) m1).
      { apply (pre_r _ _ _ _ _ _ _ _ _ _ _ _ _ _ H Q1 F1); intros x J; apply in_minus, J. }
      destruct (both_ok _ _ _ _ _ _ _ _ EX lg rg (G ++ P1) m1 m2 E2) as (g' & P2 & R2 & Q2 & T2).
      { intros x ->. apply KL. cbn. auto. } { intros x ->. apply KR. cbn. auto. }
      { apply (pre_l _ _ _ _ _ _ _ _ _ _ H2); apply incl_appl, incl_refl. }
      pose proof (frame_both _ _ lg rg m1 FE) as F2. rewrite E2 in F2. cbn in F2.
      destruct (EX lb rb ((G ++ P1) ++ P2) m2 m' E3) as (b' & P3 & R3 & Q3 & T3).
      { apply KL. unfold arm_parts. apply in_or_app. cbn. auto. } { apply KR. unfold arm_parts. apply in_or_app. cbn. auto. }
      { apply (pre_r _ _ _ _ _ _ _ _ _ _ _ _ _ _ H2 Q2 F2); intros x J; (edestruct in_minus as [K|K]; [exact J|left; exact K|right; apply in_or_app; right; exact K]). }
      pose proof (FE lb rb m2) as F3. rewrite E3 in F3. cbn in F3.
      pose proof (post_seq _ _ _ _ _ _ _ _ _ _ _ _ Q2 Q3 F3 (p_l _ _ _ _ _ _ H2) (p_r _ _ _ _ _ _ H2)) as Q23.
      assert (F23 : frame (opt_list binds lg ++ binds lb) m1 m').
      { apply (frame_trans _ _ m2); [apply (frame_incl (opt_list binds lg)); [inl|exact F2]|apply (frame_incl (binds lb)); [inl|exact F3]]. }
      exists (rp, g', b'), (P1 ++ P2 ++ P3). split; [constructor; auto|]. split.
      + apply (post_weaken _ _ _ _ _ _ _ _ (post_seq _ _ _ _ _ _ _ _ _ _ _ _ Q1 Q23 F23 (p_l _ _ _ _ _ _ H) (p_r _ _ _ _ _ _ H))); apply incl_nil_l.
      + intros P' J. destruct (incl_P _ _ _ _ J) as [I1 I2]. destruct (incl_P _ _ _ _ I2) as [I3 I4]. constructor; [apply T1, I1|apply T2, I3|apply T3, I4].
  Qed.
End Align.
