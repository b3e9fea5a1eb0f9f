(** Expressions are equal to themselves. *)
From Verif Require Export SameQuiet.
From Coq Require Import Lia.

Lemma lit_eqb_refl a : lit_eqb a a = true.
Proof. destruct a; cbn; [apply Z.eqb_refl|apply Bool.eqb_reflx|apply Nat.eqb_refl]. Qed.
Lemma bop_eqb_refl a : bop_eqb a a = true.
Proof. destruct a; reflexivity. Qed.
Lemma names_eqb_refl a : names_eqb a a = true.
Proof. induction a; cbn; [reflexivity|]. rewrite Nat.eqb_refl. exact IHa. Qed.
Lemma opt_eqb_refl {A} (f : A -> A -> bool) a : (forall x, f x x = true) -> opt_eqb f a a = true.
Proof. intros H. destruct a; cbn; auto. Qed.
Lemma eq_ty_refl t : complete_ty t = true -> eq_ty t t = true.
Proof. induction t; cbn; intros H; rewrite ?Bool.eqb_reflx; auto using names_eqb_refl. Qed.
Lemma eq_exit_refl x : eq_exit x x = true.
Proof. destruct x; cbn; try apply (opt_eqb_refl Nat.eqb); auto using Nat.eqb_refl. Qed.
Definition sure {X} (eq : X -> X -> locals -> answer) (x : X) : Prop := forall m, fst (eq x x m) = true.
Lemma also_sure a k : fst a = true -> (forall m, fst (k m) = true) -> fst (also a k) = true.
Proof. destruct a as [b m]. cbn. intros -> H. apply H. Qed.
Lemma given_sure b k m : b = true -> fst (k m) = true -> fst (given b k m) = true.
Proof. intros ->. auto. Qed.
Lemma both_sure {X} (eq : X -> X -> locals -> answer) o m : (forall x, o = Some x -> sure eq x) -> fst (both eq o o m) = true.
Proof. destruct o; cbn; auto. intros H. apply (H x eq_refl). Qed.
Lemma over_sure {X} (eq : X -> X -> locals -> answer) l m : (forall x, In x l -> sure eq x) -> fst (over eq l l m) = true.
Proof.
  unfold over. rewrite Nat.eqb_refl. revert m. induction l as [|x l IH]; intros m H; [reflexivity|]. cbn [zip_all]. apply also_sure; [apply H; left; reflexivity|].
  intros m'. apply IH. intros y J. apply H. right. exact J.
Qed.
Lemma pat_sure n : forall p, pat_size p <= n -> or_free p = true -> sure (eq_pat n) p.
Proof.
  induction n as [|n IH]; intros p L O m; [destruct p as [|? ? [?|]| | | | | | |]; cbn in L; lia|].
  assert (PS : forall ps, list_sum (map pat_size ps) <= n -> forallb or_free ps = true -> forall p, In p ps -> sure (eq_pat n) p).
  { intros ps Ls Os q J. rewrite forallb_forall in Os. apply IH; [|auto]. pose proof (in_sum pat_size q ps J). lia. }
  destruct p; cbn [eq_pat or_free] in *; try reflexivity.
  - assert (G : fst (given (mode =? mode) (both (eq_pat n) sub sub) m) = true).
    { apply given_sure; [apply Nat.eqb_refl|]. apply both_sure. intros p ->. cbn in L. apply IH; [lia|exact O]. }
    destruct (given _ _ m) as [b m']. cbn in G |- *. exact G.
  - apply lit_eqb_refl.
  - cbn. rewrite !(opt_eqb_refl lit_eqb) by apply lit_eqb_refl. apply Bool.eqb_reflx.
  - apply given_sure; [apply Bool.eqb_reflx|]. cbn in L. apply IH; [lia|exact O].
  - apply given_sure; [apply (opt_eqb_refl Nat.eqb), Nat.eqb_refl|]. apply over_sure. apply PS; [cbn [pat_size] in L; lia|exact O].
  - apply also_sure; [|intros; apply (opt_eqb_refl Nat.eqb), Nat.eqb_refl]. apply given_sure; [apply Nat.eqb_refl|]. apply over_sure. apply PS; [cbn [pat_size] in L; lia|exact O].
  - apply given_sure; [apply Nat.eqb_refl|]. apply over_sure. intros [f p] J m'. apply given_sure; [apply Nat.eqb_refl|]. cbn [snd]. apply IH.
    + cbn [pat_size] in L. pose proof (in_sum (fun f => pat_size (snd f)) (f, p) fs J) as H. cbn [snd] in H. exact (Nat.le_trans _ _ _ H (le_S_n _ _ L)).
    + rewrite forallb_forall in O. apply (O (f, p) J).
  - discriminate O.
Qed.

Section Refl.
  Variable konst : expr -> option (nat * lit).
  Variable allow : bool.
  Lemma regular_part e c : regular allow e -> In c (parts e) -> regular allow c.
  Proof. intros R J d W. apply R. exact (w_part _ _ _ J W). Qed.
  Definition stmt_fine (s : stmt) : Prop := (forall c, In c (stmt_parts s) -> regular allow c) /\ (forall p, In p (stmt_pats s) -> or_free p = true) /\ stmt_regular s = true.
  Definition block_fine (b : list stmt * option expr) : Prop :=
    (forall c, In c (block_parts b) -> regular allow c) /\ (forall p, In p (flat_map stmt_pats (fst b)) -> or_free p = true) /\ forallb stmt_regular (fst b) = true.
  Definition arm_fine (a : pat * option expr * expr) : Prop := (forall c, In c (arm_parts a) -> regular allow c) /\ or_free (fst (fst a)) = true.
  Definition block_size (b : list stmt * option expr) : nat := list_sum (map stmt_size (fst b)) + opt_size size (snd b).
  Definition arm_size (a : pat * option expr * expr) : nat := match a with (p, g, b) => S (pat_size p + opt_size size g + size b) end.
  Lemma refl n : (forall e, 3 * size e <= n -> regular allow e -> sure (eq_expr konst allow n) e)
    /\ (forall b, 3 * block_size b + 1 <= n -> block_fine b -> sure (eq_block konst allow n) b)
    /\ (forall s, 3 * stmt_size s <= n -> stmt_fine s -> sure (eq_stmt konst allow n) s)
    /\ (forall a, 3 * arm_size a <= n -> arm_fine a -> sure (eq_arm konst allow n) a).
  Proof.
    induction n as [|n (E & B & ST & A)].
    { split; [|split; [|split]]; intros x L; try (pose proof (size_pos x); lia); try lia. 
      - destruct x; cbn in L; lia.
      - destruct x as [[? ?] ?]; cbn in L; lia. }
    split; [|split; [|split]].
    - intros e L R m. rewrite eq_expr_S. destruct (same_constant _ _ _); [reflexivity|]. pose proof (R e (w_here _)) as H. unfold regular_here in H. apply andb_true_iff in H. destruct H as [HP H].
      assert (EP : forall c, In c (parts e) -> sure (eq_expr konst allow n) c).
      { intros c J. apply E; [|exact (regular_part _ _ R J)]. apply part_size in J. lia. }
      assert (P2 : forall p, In p (pats e) -> sure (eq_pat (pat_size p)) p).
      { intros p J. apply pat_sure; [lia|]. rewrite forallb_forall in HP. auto. }
      assert (OP : forall o m, (forall c, In c (opt_list (fun e => [e]) o) -> In c (parts e)) -> fst (both (eq_expr konst allow n) o o m) = true).
      { intros o m0 I. apply both_sure. intros x ->. apply EP, I. left. reflexivity. }
      destruct (reduce_cases e) as [->|[(lab & u & _ & ->)|(lab & u & x & F & ->)]]; [|apply given_sure; [reflexivity|apply over_sure; intros ? []]|].
      + destruct e; cbn [parts pats] in *.
        * apply lit_eqb_refl.
        * cbn. rewrite Nat.eqb_refl. reflexivity.
        * cbn. rewrite Nat.eqb_refl, names_eqb_refl. reflexivity.
        * apply given_sure; [|apply over_sure, EP]. destruct k; cbn; rewrite ?Bool.eqb_reflx, ?Nat.eqb_refl, ?names_eqb_refl, ?andb_true_r; auto; try apply eq_ty_refl, H. destruct u; reflexivity.
        * assert (G : fst (given (bop_eqb op op) (fun m => also (eq_expr konst allow n e1 e1 m) (eq_expr konst allow n e2 e2)) m) = true).
          { apply given_sure; [apply bop_eqb_refl|]. apply also_sure; [apply EP; cbn; auto|apply EP; cbn; auto]. }
          destruct (given _ _ m) as [b m']. cbn in G. subst b. reflexivity.
        * apply given_sure; [rewrite H; apply (opt_eqb_refl bop_eqb), bop_eqb_refl|]. apply also_sure; [apply EP; cbn; auto|apply EP; cbn; auto].
        * apply (B (ss, tail)); [unfold block_size; cbn [size fst snd] in *; lia|]. split; [intros c J; exact (regular_part _ _ R J)|]. rewrite forallb_forall in HP. split; auto.
        * apply also_sure; [apply also_sure; [apply EP|apply EP]; cbn; auto|]. intros. apply OP. intros c J. cbn. auto.
        * apply also_sure; [apply also_sure; [apply P2; cbn; auto|]|apply EP; cbn; auto]. intros. cbn. destruct t; [apply eq_ty_refl, H|reflexivity].
        * apply also_sure; [apply EP; cbn; auto|]. intros m'. apply over_sure. intros a J. apply A.
          -- cbn [size] in L. pose proof (in_sum arm_size a arms J) as H0. unfold arm_size in *. lia.
          -- split; [intros c Jc; apply (regular_part _ _ R); right; apply in_flat_map; eauto|]. rewrite forallb_forall in HP. apply HP, in_map_iff. eauto.
        * apply also_sure; [|intros; apply (opt_eqb_refl Nat.eqb), Nat.eqb_refl]. apply given_sure; [apply Nat.eqb_refl|].
          apply (B (ss, tail)); [unfold block_size; cbn [size fst snd] in *; lia|]. split; [intros c J; exact (regular_part _ _ R J)|]. rewrite forallb_forall in HP. split; auto.
        * apply given_sure; [apply eq_exit_refl|]. apply OP. auto.
        * discriminate H.
      + apply given_sure; [reflexivity|]. apply both_sure. intros y ->. destruct F as [->|[->| ->]]; (apply E;
          [cbn in L; lia|apply (regular_part (EExit XReturn (Some y))); [apply (regular_part _ _ R); cbn; auto|cbn; auto]]).
    - intros [ss t] L (F1 & F2 & F3) m. rewrite eq_block_S. cbn [fst snd] in *. unfold block_size in L. cbn [fst snd] in L. unfold block_parts in F1. cbn [fst snd] in F1. apply also_sure.
      + apply over_sure. intros s J. apply ST; [pose proof (in_sum stmt_size s ss J); lia|]. split; [|split].
        * intros c Jc. apply F1, in_or_app. left. apply in_flat_map. eauto.
        * intros p Jp. apply F2, in_flat_map. eauto.
        * rewrite forallb_forall in F3. auto.
      + intros m'. apply both_sure. intros x ->. apply E; [cbn [opt_size] in L; lia|]. apply F1, in_or_app. right. left. reflexivity.
    - intros s L (F1 & F2 & F3) m. rewrite eq_stmt_S. destruct s as [p k t i els|e|e|]; cbn [stmt_parts stmt_pats stmt_regular] in *.
      + apply andb_true_iff in F3. destruct F3 as [F3 F4]. cbn [stmt_size] in L. apply also_sure; [apply also_sure; [apply also_sure|]|].
        * apply given_sure; [apply Nat.eqb_refl|]. apply both_sure. intros x ->. apply E; [cbn in L; lia|]. apply F1. left. reflexivity.
        * intros. cbn. destruct t; [apply eq_ty_refl, F3|reflexivity].
        * intros m'. apply both_sure. intros [ss u] ->. apply B; [unfold block_size; cbn [fst snd]; lia|]. split; [|split]; cbn [fst snd]; auto.
          -- intros c J. apply F1, in_or_app. right. exact J.
          -- intros q J. apply F2. right. exact J.
        * intros m'. apply pat_sure; [lia|]. apply F2. left. reflexivity.
      + cbn in L. apply E; [lia|]. apply F1. left. reflexivity.
      + cbn in L. apply E; [lia|]. apply F1. left. reflexivity.
      + discriminate F3.
    - intros [[p g] b] L [F1 F2] m. rewrite eq_arm_S. cbn in L, F2. unfold arm_parts in F1. cbn [fst snd] in F1. apply also_sure; [apply also_sure|].
      + apply pat_sure; auto.
      + intros m'. apply both_sure. intros x ->. cbn in L. apply E; [lia|]. apply F1. left. reflexivity.
      + apply E; [lia|]. apply F1, in_or_app. right. left. reflexivity.
  Qed.
End Refl.
