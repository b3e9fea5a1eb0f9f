(** Comparing expressions: what the comparison establishes. *)
From Verif Require Export SameSpec.
From Coq Require Import Lia Permutation.

(** ** Lists *)
Lemma NoDup_app_inv {A} (l r : list A) : NoDup (l ++ r) -> NoDup l /\ NoDup r /\ forall x, In x l -> ~ In x r.
Proof.
  induction l as [|a l IH]; cbn; intros H; [repeat split; [constructor|exact H|tauto]|].
  inversion H as [|? ? N D]; subst. destruct (IH D) as (L & R & X). rewrite in_app_iff in N. repeat split.
  - constructor; tauto.
  - exact R.
  - intros x [->|I]; [tauto|exact (X x I)].
Qed.
Lemma NoDup_app_intro {A} (l r : list A) : NoDup l -> NoDup r -> (forall x, In x l -> ~ In x r) -> NoDup (l ++ r).
Proof.
  induction l as [|a l IH]; cbn; intros L R X; [exact R|]. inversion L; subst. constructor.
  - rewrite in_app_iff. intros [I|I]; [tauto|exact (X a (or_introl eq_refl) I)].
  - apply IH; auto.
Qed.
Lemma in_minus x xs ys : In x ys -> In x xs \/ In x (minus xs ys).
Proof.
  intros I. unfold minus. destruct (existsb (Nat.eqb x) xs) eqn:E.
  - left. apply existsb_exists in E. destruct E as (y & Y & Q). apply Nat.eqb_eq in Q. subst. exact Y.
  - right. apply filter_In. rewrite E. auto.
Qed.
Lemma Forall2_eq {A} (l r : list A) : Forall2 eq l r -> l = r.
Proof. induction 1; congruence. Qed.
Lemma Forall2_refl {A} (R : A -> A -> Prop) l : (forall x, R x x) -> Forall2 R l l.
Proof. intros H. induction l; constructor; auto. Qed.
Lemma Forall2_len {A B} (R : A -> B -> Prop) l r : Forall2 R l r -> length l = length r.
Proof. induction 1; cbn; congruence. Qed.

(** ** Equality tests *)
Lemma lit_eqb_eq a b : lit_eqb a b = true -> a = b.
Proof.
  destruct a, b; cbn; intros H; try discriminate.
  - apply Z.eqb_eq in H. congruence.
  - apply Bool.eqb_prop in H. congruence.
  - apply Nat.eqb_eq in H. congruence.
Qed.
Lemma bop_eqb_eq a b : bop_eqb a b = true -> a = b.
Proof. destruct a, b; cbn; intros H; congruence. Qed.
Lemma uop_eqb_eq a b : uop_eqb a b = true -> a = b.
Proof. destruct a, b; cbn; intros H; congruence. Qed.
Lemma opt_eqb_eq {A} (f : A -> A -> bool) a b : (forall x y, f x y = true -> x = y) -> opt_eqb f a b = true -> a = b.
Proof. intros F. destruct a, b; cbn; intros H; try discriminate; [f_equal; auto|reflexivity]. Qed.
Lemma names_eqb_eq a : forall b, names_eqb a b = true -> a = b.
Proof.
  induction a as [|x a IH]; intros [|y b]; cbn; intros H; try discriminate; [reflexivity|].
  apply andb_prop in H. destruct H as [X Y]. apply Nat.eqb_eq in X. rewrite (IH b Y). congruence.
Qed.
Lemma nat_eqb_eq x y : Nat.eqb x y = true -> x = y.
Proof. apply Nat.eqb_eq. Qed.
Lemma eq_ty_erase l : forall r, eq_ty l r = true -> erase l = erase r.
Proof.
  induction l; intros r; destruct r; cbn; intros H; try discriminate; try reflexivity.
  - apply names_eqb_eq in H. congruence.
  - apply andb_prop in H. destruct H as [X Y]. apply Bool.eqb_prop in X. rewrite (IHl _ Y). congruence.
  - apply andb_prop in H. destruct H as [X Y]. apply Bool.eqb_prop in X. rewrite (IHl _ Y). congruence.
  - rewrite (IHl _ H). reflexivity.
Qed.
Definition norm (k : kind) : kind := match k with KCast t => KCast (erase t) | k => k end.
Definition silent (k : kind) : bool := match k with KCall | KMethod _ => false | _ => true end.
Lemma eq_kind_norm allow k k' : eq_kind allow k k' = true -> norm k = norm k' /\ (allow = false -> silent k = true).
Proof.
  destruct k, k'; cbn; intros H; try discriminate; try (split; [reflexivity|intros; congruence]); try (split; [|intros; reflexivity]).
  - apply Bool.eqb_prop in H. congruence.
  - apply andb_prop in H. destruct H as [X Y]. apply Nat.eqb_eq in Y. split; congruence.
  - f_equal. apply eq_ty_erase, H.
  - apply Nat.eqb_eq in H. congruence.
  - apply andb_prop in H. destruct H as [X Y]. apply andb_prop in X. destruct X as [X Z].
    apply Nat.eqb_eq in X. apply Bool.eqb_prop in Z. apply names_eqb_eq in Y. congruence.
  - apply uop_eqb_eq in H. congruence.
Qed.
Lemma eq_exit_eq x y : eq_exit x y = true -> x = y.
Proof. destruct x, y; cbn; intros H; try discriminate; try reflexivity; f_equal; apply (opt_eqb_eq _ _ _ nat_eqb_eq H). Qed.

(** ** The table of locals only changes where the left side binds *)
Definition frame (b : list id) (m m' : locals) : Prop := forall x, ~ In x b -> get m' x = get m x.
Definition framed {X} (eq : X -> X -> locals -> answer) (b : X -> list id) : Prop := forall l r m, frame (b l) m (snd (eq l r m)).
Lemma frame_refl b m : frame b m m.
Proof. intros x _. reflexivity. Qed.
Lemma frame_trans b m m1 m2 : frame b m m1 -> frame b m1 m2 -> frame b m m2.
Proof. intros A B x N. rewrite (B x N). apply A, N. Qed.
Lemma frame_incl b c m m' : incl b c -> frame b m m' -> frame c m m'.
Proof. intros I A x N. apply A. intros J. apply N, I, J. Qed.
Lemma frame_also b a k m : frame b m (snd a) -> (forall m', frame b m' (snd (k m'))) -> frame b m (snd (also a k)).
Proof. destruct a as [[|] m']; cbn; intros A K; [exact (frame_trans _ _ _ _ A (K m'))|exact A]. Qed.
Lemma frame_otherwise b a k m : frame b m (snd a) -> (forall m', frame b m' (snd (k m'))) -> frame b m (snd (otherwise a k)).
Proof. destruct a as [[|] m']; cbn; intros A K; [exact A|exact (frame_trans _ _ _ _ A (K m'))]. Qed.
Lemma frame_given b c k m : (forall m', frame b m' (snd (k m'))) -> frame b m (snd (given c k m)).
Proof. destruct c; cbn; intros K; [apply K|apply frame_refl]. Qed.
Lemma frame_both {X} (eq : X -> X -> locals -> answer) b l r m : framed eq b -> frame (opt_list b l) m (snd (both eq l r m)).
Proof. intros F. destruct l, r; cbn; try apply frame_refl. apply F. Qed.
Lemma frame_zip {X} (eq : X -> X -> locals -> answer) b l : forall r m, framed eq b -> frame (flat_map b l) m (snd (zip_all eq l r m)).
Proof.
  induction l as [|x l IH]; intros [|y r] m F; cbn; try apply frame_refl. apply frame_also.
  - apply (frame_incl (b x)); [apply incl_appl, incl_refl|apply F].
  - intros m'. apply (frame_incl (flat_map b l)); [apply incl_appr, incl_refl|apply IH, F].
Qed.
Lemma frame_over {X} (eq : X -> X -> locals -> answer) b l r m : framed eq b -> frame (flat_map b l) m (snd (over eq l r m)).
Proof. intros F. unfold over. destruct (_ =? _); [apply frame_zip, F|apply frame_refl]. Qed.
Lemma frame_pat n : framed (eq_pat n) binds_pat.
Proof.
  induction n as [|n IH]; intros l r m; [apply frame_refl|].
  destruct l, r; cbn [eq_pat]; try apply frame_refl.
  - assert (F : frame (opt_list binds_pat sub) m (snd (given (mode =? mode0) (both (eq_pat n) sub sub0) m))).
    { apply frame_given. intros m'. apply frame_both, IH. }
    destruct (given _ _ m) as [[|] m']; cbn in *.
    + intros y N. cbn in N |- *. destruct (Nat.eqb_spec x y); [tauto|]. apply F. destruct sub; cbn in *; tauto.
    + intros y N. cbn in N |- *. apply F. destruct sub; cbn in *; tauto.
  - apply frame_given. intros m'. exact (IH l r m').
  - apply frame_given. intros. apply (frame_over _ binds_pat), IH.
  - apply frame_also; [|intros; apply frame_refl]. apply frame_given. intros. apply (frame_over _ binds_pat), IH.
  - apply frame_given. intros. apply (frame_over _ (fun f => binds_pat (snd f))). intros a b c. apply frame_given. intros. apply IH.
Qed.
Definition block_binds (b : list stmt * option expr) : list id := flat_map stmt_binds (fst b) ++ opt_list binds (snd b).
Definition arm_binds (a : pat * option expr * expr) : list id := match a with (p, g, b) => binds_pat p ++ opt_list binds g ++ binds b end.
Lemma reduce_binds e : binds (reduce_exprkind e) = binds e.
Proof.
  destruct e as [| | | | | |lab u ss t| | | | | |]; try reflexivity.
  destruct ss as [|[| | |] [|]], t as [t|]; try reflexivity; cbn; try (destruct t as [| | | | | | | | | | |x e|]; try destruct x; reflexivity);
    destruct e as [| | | | | | | | | | |x e|]; try destruct x; cbn; rewrite ?app_nil_r; reflexivity.
Qed.
Ltac inl := unfold block_binds; repeat first [apply incl_refl | apply incl_nil_l | apply incl_appl; inl; fail | apply incl_appr; inl; fail].
(** One step of the comparison. *)
Section Steps.
  Variable konst : expr -> option (nat * lit).
  Variable allow : bool.
  Lemma eq_expr_S n left right m : eq_expr konst allow (S n) left right m =
        if same_constant konst left right then (true, m) else
        match reduce_exprkind left, reduce_exprkind right with
        | ENode lk l, ENode rk r => given (eq_kind allow lk rk) (over (eq_expr konst allow n) l r) m
        | EAssign lo ll lr, EAssign ro rl rr =>
            given (allow && opt_eqb bop_eqb lo ro) (fun m => also (eq_expr konst allow n ll rl m) (eq_expr konst allow n lr rr)) m
        | EBlock _ _ ls lt, EBlock _ _ rs rt => eq_block konst allow n (ls, lt) (rs, rt) m
        | EBinary lo lp _ ll lr, EBinary ro _ _ rl rr =>
            otherwise (given (bop_eqb lo ro) (fun m => also (eq_expr konst allow n ll rl m) (eq_expr konst allow n lr rr)) m)
              (fun m => match swap_binop lo lp with
                        | Some lo => given (bop_eqb lo ro) (fun m => also (eq_expr konst allow n lr rl m) (eq_expr konst allow n ll rr)) m
                        | None => (false, m)
                        end)
        | EExit lx le, EExit rx re => given (eq_exit lx rx) (both (eq_expr konst allow n) le re) m
        | EIf lc lt le, EIf rc rt re => also (also (eq_expr konst allow n lc rc m) (eq_expr konst allow n lt rt)) (both (eq_expr konst allow n) le re)
        | ELet lp lt li, ELet rp rt ri => also (also (eq_pat (pat_size lp) lp rp m) (fun m => (opt_eqb eq_ty lt rt, m))) (eq_expr konst allow n li ri)
        | ELit l, ELit r => (lit_eqb l r, m)
        | ELoop ll lk ls lt, ELoop rl rk rs rt =>
            also (given (Nat.eqb lk rk) (eq_block konst allow n (ls, lt) (rs, rt)) m) (fun m => (opt_eqb Nat.eqb ll rl, m))
        | EMatch le la, EMatch re ra => also (eq_expr konst allow n le re m) (over (eq_arm konst allow n) la ra)
        | ELocal l, ELocal r => (Nat.eqb l r || opt_eqb Nat.eqb (get m l) (Some r), m)
        | EItem ld ls, EItem rd rs => (Nat.eqb ld rd && names_eqb ls rs, m)
        | _, _ => (false, m)
        end.
  Proof. reflexivity. Qed.
  Lemma eq_block_S n left right m : eq_block konst allow (S n) left right m = also (over (eq_stmt konst allow n) (fst left) (fst right) m) (both (eq_expr konst allow n) (snd left) (snd right)).
  Proof. reflexivity. Qed.
  Lemma eq_stmt_S n left right m : eq_stmt konst allow (S n) left right m =
        match left, right with
        | SLet lp lk lt li le, SLet rp rk rt ri re =>
            also (also (also (given (Nat.eqb lk rk) (both (eq_expr konst allow n) li ri) m) (fun m => (opt_eqb eq_ty lt rt, m)))
                    (both (eq_block konst allow n) le re)) (eq_pat (pat_size lp) lp rp)
        | SExpr l, SExpr r | SSemi l, SSemi r => eq_expr konst allow n l r m
        | _, _ => (false, m)
        end.
  Proof. reflexivity. Qed.
  Lemma eq_arm_S n left right m : eq_arm konst allow (S n) left right m =
        let '(lp, lg, lb) := left in let '(rp, rg, rb) := right in
        also (also (eq_pat (pat_size lp) lp rp m) (both (eq_expr konst allow n) lg rg)) (eq_expr konst allow n lb rb).
  Proof. reflexivity. Qed.
End Steps.
Lemma frames konst allow n : framed (eq_expr konst allow n) binds /\ framed (eq_block konst allow n) block_binds
  /\ framed (eq_stmt konst allow n) stmt_binds /\ framed (eq_arm konst allow n) arm_binds.
Proof.
  induction n as [|n (E & B & S & A)]; [repeat split; intros l r m; apply frame_refl|]. split; [|split; [|split]].
  - intros l r m. rewrite eq_expr_S. destruct (same_constant _ _ _); [apply frame_refl|]. rewrite <- (reduce_binds l).
    destruct (reduce_exprkind l) eqn:L, (reduce_exprkind r) eqn:R; try apply frame_refl; cbn [binds].
    + apply frame_given. intros. apply (frame_over _ binds), E.
    + apply frame_otherwise.
      * apply frame_given. intros. apply frame_also; [apply (frame_incl (binds e1)); [inl|apply E]|].
        intros. apply (frame_incl (binds e2)); [inl|apply E].
      * intros. destruct (swap_binop op lp); [|apply frame_refl]. apply frame_given. intros. apply frame_also; [apply (frame_incl (binds e2)); [inl|apply E]|].
        intros. apply (frame_incl (binds e1)); [inl|apply E].
    + apply frame_given. intros. apply frame_also; [apply (frame_incl (binds e1)); [inl|apply E]|].
      intros. apply (frame_incl (binds e2)); [inl|apply E].
    + exact (B (ss, tail) _ m).
    + apply frame_also; [apply frame_also|]; intros.
      * apply (frame_incl (binds e1)); [inl|apply E].
      * apply (frame_incl (binds e2)); [inl|apply E].
      * apply (frame_incl (opt_list binds e3)); [inl|]. apply frame_both, E.
    + apply frame_also; [apply frame_also|]; intros; [|apply frame_refl|].
      * apply (frame_incl (binds_pat p)); [inl|apply frame_pat].
      * apply (frame_incl (binds e)); [inl|apply E].
    + apply frame_also; intros.
      * apply (frame_incl (binds e)); [inl|apply E].
      * apply (frame_incl (flat_map arm_binds arms)); [inl|apply (frame_over _ arm_binds), A].
    + apply frame_also; [|intros; apply frame_refl]. apply frame_given. intros m'. exact (B (ss, tail) _ m').
    + apply frame_given. intros. apply frame_both, E.
  - intros [ls lt] [rs rt] m. rewrite eq_block_S; cbn [fst snd]. apply frame_also; intros.
    + apply (frame_incl (flat_map stmt_binds ls)); [inl|apply (frame_over _ stmt_binds), S].
    + apply (frame_incl (opt_list binds lt)); [inl|]. apply frame_both, E.
  - intros l r m. rewrite eq_stmt_S. destruct l, r; try apply frame_refl; try apply E.
    cbn [stmt_binds]. apply frame_also; [apply frame_also; [apply frame_also|]|]; intros; [apply frame_given; intros|apply frame_refl| |].
    + apply (frame_incl (opt_list binds init)); [inl|]. apply frame_both, E.
    + apply (frame_incl (opt_list block_binds els)); [destruct els as [[? ?]|]; cbn; inl|]. apply frame_both, B.
    + apply (frame_incl (binds_pat p)); [inl|apply frame_pat].
  - intros [[lp lg] lb] [[rp rg] rb] m. rewrite eq_arm_S; cbn [arm_binds]. apply frame_also; [apply frame_also|]; intros.
    + apply (frame_incl (binds_pat lp)); [inl|apply frame_pat].
    + apply (frame_incl (opt_list binds lg)); [inl|]. apply frame_both, E.
    + apply (frame_incl (binds lb)); [inl|apply E].
Qed.
