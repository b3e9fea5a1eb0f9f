(** Equal expressions have equal hashes; expressions are equal to themselves. *)
From Verif Require Export SameQuiet.
From Coq Require Import Lia.

Lemma within_rigid e c : rigid e -> In c (parts e) -> rigid c.
Proof. intros R J d W. apply R. exact (w_part _ _ _ J W). Qed.
Lemma eq_ty_plain l : forall r, plain_ty l = true -> plain_ty r = true -> eq_ty l r = true -> l = r.
Proof.
  induction l; intros [] P Q E; try discriminate E; try discriminate P; cbn in *; auto.
  - f_equal. apply names_eqb_eq, E.
  - apply andb_true_iff in E. destruct E as [E1 E2]. apply Bool.eqb_prop in E1. f_equal; auto.
  - f_equal; auto.
Qed.
Lemma opt_ty_plain a b : opt_all plain_ty a = true -> opt_all plain_ty b = true -> opt_eqb eq_ty a b = true -> a = b.
Proof. destruct a, b; cbn; try discriminate; auto. intros P Q E. f_equal. apply eq_ty_plain; auto. Qed.
Lemma eq_pat_hash n : forall l r, yes (eq_pat n) l r -> plain_pat l = true -> plain_pat r = true -> hash_pat l = hash_pat r.
Proof.
  induction n as [|n IH]; intros l r [m H] P Q; [discriminate|].
  assert (L : forall ps qs, Forall2 (yes (eq_pat n)) ps qs -> forallb plain_pat ps = true -> forallb plain_pat qs = true -> flat_map hash_pat ps = flat_map hash_pat qs).
  { induction 1 as [|p q ps qs Y F I]; cbn; [auto|]. intros A B. apply andb_true_iff in A. apply andb_true_iff in B. destruct A, B. f_equal; auto. }
  destruct l, r; cbn [eq_pat] in H; try discriminate H; cbn [hash_pat]; cbn [plain_pat] in P, Q; auto.
  - destruct (given _ _ m) as [b m'] eqn:G. cbn in H. subst b. assert (G' : fst (given (mode =? mode0) (both (eq_pat n) sub sub0) m) = true) by (rewrite G; reflexivity).
    apply given_true in G'. destruct G' as [MM G']. apply nat_eqb_eq in MM. subst mode0. apply both_true in G'. destruct G' as [|p q Y]; cbn; auto. do 2 f_equal. auto.
  - cbn in H. apply lit_eqb_eq in H. subst. reflexivity.
  - cbn in H. apply andb_true_iff in H. destruct H as [H E3]. apply andb_true_iff in H. destruct H as [E1 E2]. apply Bool.eqb_prop in E3. apply opt_eqb_eq in E1; [|apply lit_eqb_eq].
    apply opt_eqb_eq in E2; [|apply lit_eqb_eq]. subst. reflexivity.
  - apply given_true in H. destruct H as [E H]. apply Bool.eqb_prop in E. subst. rewrite (IH l r); auto. exists m. exact H.
  - apply given_true in H. destruct H as [E H]. apply opt_eqb_eq in E; [|apply nat_eqb_eq]. subst. apply over_true in H. rewrite (L _ _ H); auto.
  - apply also_true in H. destruct H as [H [m2 H2]]. cbn in H2. apply opt_eqb_eq in H2; [|apply nat_eqb_eq]. apply given_true in H. destruct H as [E H]. apply nat_eqb_eq in E.
    apply over_true in H. subst. rewrite (L _ _ H); auto.
  - apply given_true in H. destruct H as [E H]. apply nat_eqb_eq in E. subst. apply over_true in H. apply andb_true_iff in P. apply andb_true_iff in Q. destruct P as [P1 P2], Q as [Q1 Q2].
    destruct rest, rest0; try discriminate. do 2 f_equal. f_equal. clear - H IH P2 Q2.
    induction H as [|[f p] [g q] ps qs [m' Y] F I]; cbn; [auto|]. apply given_true in Y. destruct Y as [E Y]. apply nat_eqb_eq in E. cbn in E. subst g.
    cbn in P2, Q2. apply andb_true_iff in P2. apply andb_true_iff in Q2. destruct P2, Q2. do 2 f_equal; [|auto]. apply IH; auto. exists m'. exact Y.
Qed.

Section Hash.
  Variable konst : expr -> option (nat * lit).
  Variable allow : bool.
  Lemma hash_expr_eq e : hash_expr konst e =
    match konst e with
    | Some (_, c) => 1%Z :: hash_lit c
    | None => 0%Z ::
        match e with
        | ELit l => 0%Z :: hash_lit l
        | ELocal _ => [1; 1]%Z
        | EItem _ s => 1%Z :: map hn s
        | ENode k es => hash_kind k ++ flat_map (hash_expr konst) es
        | EBinary o _ _ l r => 4%Z :: bop_tag o :: hash_expr konst l ++ hash_expr konst r
        | EAssign None l r => 13%Z :: hash_expr konst l ++ hash_expr konst r
        | EAssign (Some o) l r => 14%Z :: bop_tag o :: hash_expr konst l ++ hash_expr konst r
        | EBlock _ u ss t => 15%Z :: flat_map (hash_stmt konst) ss ++ hash_opt (hash_expr konst) t ++ [hb u]
        | EIf c t e => 16%Z :: hash_expr konst c ++ hash_expr konst t ++ hash_opt (hash_expr konst) e
        | ELet p t i => 17%Z :: hash_expr konst i ++ hash_opt hash_ty t ++ hash_pat p
        | EMatch e arms => 18%Z :: hash_expr konst e ++ flat_map (fun a => match a with (p, g, b) => hash_pat p ++ hash_opt (hash_expr konst) g ++ hash_expr konst b end) arms
        | ELoop l _ ss t => 19%Z :: (flat_map (hash_stmt konst) ss ++ hash_opt (hash_expr konst) t ++ [hb false]) ++ hash_label l
        | EExit (XBreak l) e => 20%Z :: hash_label l ++ hash_opt (hash_expr konst) e
        | EExit (XContinue l) _ => 21%Z :: hash_label l
        | EExit XReturn e => 22%Z :: hash_opt (hash_expr konst) e
        | EClosure b => 23%Z :: hash_expr konst b
        end
    end.
  Proof. destruct e; reflexivity. Qed.
  Lemma hash_stmt_eq s : hash_stmt konst s =
    match s with
    | SLet p _ _ i els =>
        0%Z :: hash_pat p ++ hash_opt (hash_expr konst) i
          ++ match els with Some (ss, t) => flat_map (hash_stmt konst) ss ++ hash_opt (hash_expr konst) t ++ [hb false] | None => [] end
    | SItem => [1%Z]
    | SExpr e => 2%Z :: hash_expr konst e
    | SSemi e => 3%Z :: hash_expr konst e
    end.
  Proof. destruct s; reflexivity. Qed.
  Variables l0 r0 : expr.
  Hypothesis agree : constants_agree konst allow l0 r0.
  Definition left_ (e : expr) : Prop := within l0 e /\ rigid e.
  Definition right_ (e : expr) : Prop := within r0 e /\ rigid e.
  Definition all_ (A : expr -> Prop) (es : list expr) : Prop := forall e, In e es -> A e.
  Definition plain_ (ps : list pat) : Prop := forall p, In p ps -> plain_pat p = true.
  Definition hash_arm (a : pat * option expr * expr) : list Z := match a with (p, g, b) => hash_pat p ++ hash_opt (hash_expr konst) g ++ hash_expr konst b end.
  Definition hash_block (b : list stmt * option expr) : list Z := flat_map (hash_stmt konst) (fst b) ++ hash_opt (hash_expr konst) (snd b).
  Lemma within_step e d c : within e d -> In c (parts d) -> within e c.
  Proof. induction 1 as [e|e c0 d I W IH]; intros J; [exact (w_part _ _ _ J (w_here _))|exact (w_part _ _ _ I (IH J))]. Qed.
  Lemma left_parts e : left_ e -> all_ left_ (parts e).
  Proof. intros [W R] c J. split; [exact (within_step _ _ _ W J)|exact (within_rigid _ _ R J)]. Qed.
  Lemma right_parts e : right_ e -> all_ right_ (parts e).
  Proof. intros [W R] c J. split; [exact (within_step _ _ _ W J)|exact (within_rigid _ _ R J)]. Qed.
  Lemma hash_list {X} (h : X -> list Z) (E : X -> X -> Prop) a b : Forall2 E a b -> (forall x y, In x a -> In y b -> E x y -> h x = h y) -> flat_map h a = flat_map h b.
  Proof. induction 1 as [|x y a b H F IH]; intros K; cbn; [reflexivity|]. f_equal; [apply K; cbn; auto|]. apply IH. intros. apply K; cbn; auto. Qed.
  Lemma rigid_reduce e : rigid_here e = true -> reduce_exprkind e = e.
  Proof.
    intros H. destruct (reduce_cases e) as [E|[(lab & u & -> & E)|(lab & u & x & [->|[->| ->]] & E)]]; [exact E| | | |]; cbn in H; rewrite ?andb_false_r in H; discriminate.
  Qed.
  Definition block_ok (A : expr -> Prop) (b : list stmt * option expr) : Prop := all_ A (block_parts b) /\ plain_ (flat_map stmt_pats (fst b)).
  Definition stmt_ok (A : expr -> Prop) (s : stmt) : Prop := all_ A (stmt_parts s) /\ plain_ (stmt_pats s).
  Definition arm_ok (A : expr -> Prop) (a : pat * option expr * expr) : Prop := all_ A (arm_parts a) /\ plain_pat (fst (fst a)) = true.
  Lemma rigid_pats e : rigid_here e = true -> plain_ (pats e).
  Proof. unfold rigid_here. intros H p J. apply andb_true_iff in H. destruct H as [H _]. rewrite forallb_forall in H. auto. Qed.
  Lemma eq_hash n : (forall l r, yes (eq_expr konst allow n) l r -> left_ l -> right_ r -> hash_expr konst l = hash_expr konst r)
    /\ (forall l r, yes (eq_block konst allow n) l r -> block_ok left_ l -> block_ok right_ r -> hash_block l = hash_block r)
    /\ (forall l r, yes (eq_stmt konst allow n) l r -> stmt_ok left_ l -> stmt_ok right_ r -> hash_stmt konst l = hash_stmt konst r)
    /\ (forall l r, yes (eq_arm konst allow n) l r -> arm_ok left_ l -> arm_ok right_ r -> hash_arm l = hash_arm r).
  Proof.
    induction n as [|n (E & B & S & A)]; [split; [|split; [|split]]; intros l r [m H]; discriminate H|].
    assert (OH : forall a b, opt_rel (yes (eq_expr konst allow n)) a b -> all_ left_ (opt_list (fun e => [e]) a) -> all_ right_ (opt_list (fun e => [e]) b) ->
              hash_opt (hash_expr konst) a = hash_opt (hash_expr konst) b).
    { intros a b O L R. destruct O as [|x y Y]; [reflexivity|]. cbn. apply E; [exact Y|apply L; cbn; auto|apply R; cbn; auto]. }
    split; [|split; [|split]].
    - intros l r [m H] WL WR. pose proof (agree (Datatypes.S n) l r m (proj1 WL) (proj1 WR) H) as AG. pose proof (proj2 WL _ (w_here _)) as RL. pose proof (proj2 WR _ (w_here _)) as RR.
      rewrite (hash_expr_eq l), (hash_expr_eq r).
      destruct (konst l) as [[k c]|] eqn:K, (konst r) as [[k' c']|] eqn:K'; cbn in AG; try discriminate AG; [injection AG as ->; reflexivity|]. clear AG. f_equal.
      rewrite eq_expr_S in H. unfold same_constant in H. rewrite K in H. rewrite (rigid_reduce _ RL), (rigid_reduce _ RR) in H.
      pose proof (left_parts _ WL) as PL. pose proof (right_parts _ WR) as PR. pose proof (rigid_pats _ RL) as QL. pose proof (rigid_pats _ RR) as QR.
      assert (Y : forall a b m, fst (eq_expr konst allow n a b m) = true -> left_ a -> right_ b -> hash_expr konst a = hash_expr konst b) by (intros a b m0 Y; apply E; exists m0; exact Y).
      destruct l, r; try discriminate H; cbn [parts pats] in PL, PR, QL, QR.
      + cbn in H. apply lit_eqb_eq in H. subst. reflexivity.
      + reflexivity.
      + cbn in H. apply andb_true_iff in H. destruct H as [_ H]. apply names_eqb_eq in H. subst. reflexivity.
      + apply given_true in H. destruct H as [EK H]. apply over_true in H. f_equal; [|apply (hash_list _ _ _ _ H); auto].
        unfold rigid_here in RL, RR. cbn in RL, RR.
        destruct k, k0; cbn in EK |- *; try discriminate EK; auto.
        * apply Bool.eqb_prop in EK. subst. reflexivity.
        * apply andb_true_iff in EK. destruct EK as [_ EK]. apply nat_eqb_eq in EK. subst. reflexivity.
        * rewrite (eq_ty_plain _ _ RL RR EK). reflexivity.
        * apply nat_eqb_eq in EK. subst. reflexivity.
        * apply andb_true_iff in EK. destruct EK as [EK E3]. apply andb_true_iff in EK. destruct EK as [E1 E2]. apply nat_eqb_eq in E1. apply Bool.eqb_prop in E2. apply names_eqb_eq in E3. subst. reflexivity.
        * apply uop_eqb_eq in EK. subst. reflexivity.
      + apply otherwise_true in H. destruct H as [H|[m1 H]].
        * apply given_true in H. destruct H as [EO H]. apply bop_eqb_eq in EO. subst op0. apply also_true in H. destruct H as [H1 [m2 H2]].
          rewrite (Y _ _ _ H1), (Y _ _ _ H2); auto; first [apply PL|apply PR]; cbn; auto.
        * exfalso. unfold rigid_here in RL. cbn in RL. destruct op, lp; cbn in RL, H; discriminate.
      + apply given_true in H. destruct H as [EO H]. apply andb_true_iff in EO. destruct EO as [_ EO]. apply opt_eqb_eq in EO; [|apply bop_eqb_eq]. subst op0. apply also_true in H. destruct H as [H1 [m2 H2]].
        rewrite (Y _ _ _ H1), (Y _ _ _ H2); auto; first [apply PL|apply PR]; cbn; auto.
      + assert (X : hash_block (ss, tail) = hash_block (ss0, tail0)) by (apply B; [exists m; exact H|split; assumption|split; assumption]).
        unfold hash_block in X. cbn [fst snd] in X. unfold rigid_here in RL, RR. apply andb_true_iff in RL. apply andb_true_iff in RR. destruct RL as [_ RL], RR as [_ RR].
        apply andb_true_iff in RL. apply andb_true_iff in RR. destruct RL as [RL _], RR as [RR _]. destruct unsafe_, unsafe_0; try discriminate. rewrite !app_assoc, X. reflexivity.
      + apply also_true in H. destruct H as [H [m2 H2]]. apply also_true in H. destruct H as [H [m1 H1]]. apply both_true in H2.
        rewrite (Y _ _ _ H), (Y _ _ _ H1), (OH _ _ H2); auto; try (apply PL; cbn; auto; fail); try (apply PR; cbn; auto; fail).
        * intros c J. apply PL. cbn. auto.
        * intros c J. apply PR. cbn. auto.
      + apply also_true in H. destruct H as [H [m2 H2]]. apply also_true in H. destruct H as [H [m1 H1]]. cbn in H1.
        rewrite (Y _ _ _ H2), (eq_pat_hash _ p p0 (ex_intro _ m H)); auto; try (apply PL; cbn; auto; fail); try (apply PR; cbn; auto; fail); try (apply QL; cbn; auto; fail); try (apply QR; cbn; auto; fail).
        rewrite (opt_ty_plain t t0); auto.
        * unfold rigid_here in RL. apply andb_true_iff in RL. destruct t; [apply RL|reflexivity].
        * unfold rigid_here in RR. apply andb_true_iff in RR. destruct t0; [apply RR|reflexivity].
      + apply also_true in H. destruct H as [H [m2 H2]]. apply over_true in H2. rewrite (Y _ _ _ H); [|apply PL; cbn; auto|apply PR; cbn; auto]. do 2 f_equal.
        apply (hash_list hash_arm _ _ _ H2). intros x y Jx Jy XY. apply A; [exact XY| |].
        * split; [intros c J; apply PL; right; apply in_flat_map; eauto|apply QL, in_map_iff; eauto].
        * split; [intros c J; apply PR; right; apply in_flat_map; eauto|apply QR, in_map_iff; eauto].
      + apply also_true in H. destruct H as [H [m1 H1]]. cbn in H1. apply opt_eqb_eq in H1; [|apply nat_eqb_eq]. subst. apply given_true in H. destruct H as [_ H].
        assert (X : hash_block (ss, tail) = hash_block (ss0, tail0)) by (apply B; [exists m; exact H|split; assumption|split; assumption]).
        unfold hash_block in X. cbn [fst snd] in X. rewrite !app_assoc, X. reflexivity.
      + apply given_true in H. destruct H as [EX H]. apply eq_exit_eq in EX. subst. apply both_true in H. destruct x0; rewrite ?(OH _ _ H); auto.
    - intros [ls lt] [rs rt] [m H] [L1 L2] [R1 R2]. rewrite eq_block_S in H. cbn [fst snd] in *. apply also_true in H. destruct H as [H [m2 H2]].
      apply over_true in H. apply both_true in H2. unfold hash_block. cbn [fst snd]. unfold block_parts in L1, R1. cbn [fst snd] in L1, R1. f_equal.
      + apply (hash_list _ _ _ _ H). intros x y Jx Jy XY. apply S; [exact XY| |].
        * split; [intros c J; apply L1; apply in_or_app; left; apply in_flat_map; eauto|intros p J; apply L2, in_flat_map; eauto].
        * split; [intros c J; apply R1; apply in_or_app; left; apply in_flat_map; eauto|intros p J; apply R2, in_flat_map; eauto].
      + apply (OH _ _ H2); intros c J; [apply L1|apply R1]; apply in_or_app; right; exact J.
    - intros l r [m H] [L1 L2] [R1 R2]. rewrite eq_stmt_S in H. rewrite (hash_stmt_eq l), (hash_stmt_eq r). destruct l, r; try discriminate H; cbn [stmt_parts stmt_pats] in *.
      + apply also_true in H. destruct H as [H [m4 H4]]. apply also_true in H. destruct H as [H [m3 H3]]. apply also_true in H. destruct H as [H [m2 H2]].
        apply given_true in H. destruct H as [_ H]. apply both_true in H. apply both_true in H3.
        rewrite (eq_pat_hash _ p p0 (ex_intro _ m4 H4)); [|apply L2; cbn; auto|apply R2; cbn; auto].
        rewrite (OH _ _ H); [|intros c J; apply L1, in_or_app; left; exact J|intros c J; apply R1, in_or_app; left; exact J]. do 3 f_equal.
        destruct H3 as [|[ss u] [ss' u'] Y]; [reflexivity|].
        assert (X : hash_block (ss, u) = hash_block (ss', u')).
        { apply B; [exact Y| |].
          - split; [intros c J; apply L1, in_or_app; right; exact J|intros q J; apply L2; right; exact J].
          - split; [intros c J; apply R1, in_or_app; right; exact J|intros q J; apply R2; right; exact J]. }
        unfold hash_block in X. cbn [fst snd] in X. rewrite !app_assoc, X. reflexivity.
      + f_equal. apply E; [exists m; exact H|apply L1; cbn; auto|apply R1; cbn; auto].
      + f_equal. apply E; [exists m; exact H|apply L1; cbn; auto|apply R1; cbn; auto].
    - intros [[lp lg] lb] [[rp rg] rb] [m H] [L1 L2] [R1 R2]. rewrite eq_arm_S in H. apply also_true in H. destruct H as [H [m2 H2]]. apply also_true in H. destruct H as [H [m1 H1]].
      apply both_true in H1. cbn [fst snd] in *. unfold arm_parts in L1, R1. cbn [fst snd] in L1, R1. unfold hash_arm.
      rewrite (eq_pat_hash _ lp rp (ex_intro _ m H) L2 R2), (OH _ _ H1).
      + do 2 f_equal. apply E; [exists m2; exact H2|apply L1; apply in_or_app; right; cbn; auto|apply R1; apply in_or_app; right; cbn; auto].
      + intros c J; apply L1, in_or_app; left; exact J.
      + intros c J; apply R1, in_or_app; left; exact J.
  Qed.
End Hash.
