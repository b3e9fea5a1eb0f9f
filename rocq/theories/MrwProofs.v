(* Proofs about MrwModel.v. *)
From Coq Require Import List Bool PeanoNat Lia.
Import ListNotations.
From Verif Require Import MrwSpec MrwModel.

Lemma written_writes e : written e = writes e.
Proof. induction e; cbn; congruence. Qed.
Lemma visit_reads x e : In x (all_reads e) -> visit x e = true \/ In x (ref_reads e).
Proof.
  induction e; cbn; intros H; rewrite ?in_app_iff, ?orb_true_iff in *; try tauto.
  - destruct H as [->|[]]. rewrite Nat.eqb_refl. auto.
  - destruct H as [->|H]; [rewrite Nat.eqb_refl; auto|tauto].
Qed.

Lemma ref_all x e : In x (ref_reads e) -> In x (all_reads e).
Proof. induction e; cbn; rewrite ?in_app_iff; tauto. Qed.

(* No order matters: as reported, with all reads, and both_write *)
Fixpoint fine (e : expr) : Prop :=
  match e with
  | EVar _ | ELit _ => True
  | EAssign _ e | ERef e => fine e
  | EAddAssign x e => ~ In x (writes e) /\ fine e
  | EOp _ a b => (forall x, In x (writes a) -> ~ In x (all_reads b ++ writes b)) /\ (forall x, In x (writes b) -> ~ In x (all_reads a ++ writes a)) /\ fine a /\ fine b
  | EAnd a b | ESeq a b | EWhile a b => fine a /\ fine b
  | EIf c a b => fine c /\ fine a /\ fine b
  end.
Lemma unsequenced_false a b x : unsequenced a b = false -> In x (writes a) -> visit x b = false.
Proof.
  unfold unsequenced. rewrite written_writes. intros H I. destruct (visit x b) eqn:V; [|reflexivity].
  exfalso. rewrite <- not_true_iff_false in H. apply H. apply existsb_exists. eauto.
Qed.
Lemma reports_fine W e : (forall x, In x (writes e) -> In x W) -> (forall x, In x (ref_reads e) -> ~ In x W) -> reports e = false -> ~ both_write e -> fine e.
Proof.
  induction e as [x|n|x e IH|x e IH|f a IHa b IHb|a IHa b IHb|a IHa b IHb|c IHc a IHa b IHb|c IHa b IHb|e IH]; cbn; intros HW HR RE BW; auto.
  - rewrite written_writes in RE. apply orb_false_iff in RE. destruct RE as [RE1 RE2]. split; [|auto].
    intros I. rewrite <- not_true_iff_false in RE1. apply RE1. apply existsb_exists. exists x. split; [exact I|apply Nat.eqb_refl].
  - apply orb_false_iff in RE. destruct RE as [RE R4]. apply orb_false_iff in RE. destruct RE as [RE R3]. apply orb_false_iff in RE. destruct RE as [R1 R2].
    split; [|split; [|split]].
    + intros x I J. apply in_app_iff in J. destruct J as [J|J]; [|apply BW; left; eauto].
      apply visit_reads in J. destruct J as [J|J].
      * rewrite (unsequenced_false _ _ _ R1 I) in J. discriminate.
      * apply (HR x); [apply in_app_iff; auto|apply HW; apply in_app_iff; auto].
    + intros x I J. apply in_app_iff in J. destruct J as [J|J]; [|apply BW; left; eauto].
      apply visit_reads in J. destruct J as [J|J].
      * rewrite (unsequenced_false _ _ _ R2 I) in J. discriminate.
      * apply (HR x); [apply in_app_iff; auto|apply HW; apply in_app_iff; auto].
    + apply IHa; auto; intros; [apply HW|apply HR]; apply in_app_iff; auto.
    + apply IHb; auto; intros; [apply HW|apply HR]; apply in_app_iff; auto.
  - apply orb_false_iff in RE. destruct RE. split; [apply IHa|apply IHb]; auto; intros; try apply HW; try apply HR; apply in_app_iff; auto.
  - apply orb_false_iff in RE. destruct RE. split; [apply IHa|apply IHb]; auto; intros; try apply HW; try apply HR; apply in_app_iff; auto.
  - apply orb_false_iff in RE. destruct RE as [RE ?]. apply orb_false_iff in RE. destruct RE.
    split; [apply IHc|split; [apply IHa|apply IHb]]; auto; intros; try apply HW; try apply HR; rewrite !in_app_iff; auto.
  - apply orb_false_iff in RE. destruct RE. split; [apply IHa|apply IHb]; auto; intros; try apply HW; try apply HR; apply in_app_iff; auto.
  - apply IH; auto. intros x H. apply HR, ref_all, H.
Qed.

Section Run.
Variable op : nat -> nat -> nat -> nat.
Notation eval := (eval op).
Lemma set_other x n st y : y <> x -> set x n st y = st y.
Proof. intros N. unfold set. destruct (Nat.eqb y x) eqn:E; [apply Nat.eqb_eq in E; contradiction|reflexivity]. Qed.
Lemma frame e st n st' : eval e st n st' -> forall x, ~ In x (writes e) -> st' x = st x.
Proof.
  induction 1; cbn; intros y N; rewrite ?in_app_iff in *; try reflexivity.
  - rewrite set_other by intuition. apply IHeval. intuition.
  - rewrite set_other by intuition. apply IHeval. intuition.
  - rewrite set_other by intuition. apply IHeval. intuition.
  - rewrite IHeval2, IHeval1 by tauto. reflexivity.
  - rewrite IHeval2, IHeval1 by tauto. reflexivity.
  - apply IHeval. tauto.
  - rewrite IHeval2, IHeval1 by tauto. reflexivity.
  - rewrite IHeval2, IHeval1 by tauto. reflexivity.
  - rewrite IHeval2, IHeval1 by tauto. reflexivity.
  - rewrite IHeval2, IHeval1 by tauto. reflexivity.
  - apply IHeval. tauto.
  - rewrite IHeval3, IHeval2, IHeval1; try tauto. cbn. rewrite in_app_iff. tauto.
  - auto.
Qed.

Definition but (F : nat -> Prop) (a b : store) : Prop := forall x, ~ F x -> a x = b x.
Definition clear (F : nat -> Prop) (e : expr) : Prop := forall x, F x -> ~ In x (all_reads e) /\ ~ In x (writes e).
Lemma but_set F x n a b : but F a b -> but F (set x n a) (set x n b).
Proof. intros B y N. unfold set. destruct (Nat.eqb y x); auto. Qed.
Definition settled (e : expr) : Prop := forall F, clear F e -> forall s1 s2 n1 n2 t1 t2, but F s1 s2 -> eval e s1 n1 t1 -> eval e s2 n2 t2 -> n1 = n2 /\ but F t1 t2.

Lemma swapped F a b s1 s2 n1 m1 t1 u1 n2 m2 t2 u2 :
  settled a -> settled b -> clear F a -> clear F b ->
  (forall x, In x (writes a) -> ~ In x (all_reads b ++ writes b)) -> (forall x, In x (writes b) -> ~ In x (all_reads a ++ writes a)) ->
  but F s1 s2 -> eval a s1 n1 t1 -> eval b t1 m1 u1 -> eval b s2 m2 t2 -> eval a t2 n2 u2 -> n1 = n2 /\ m1 = m2 /\ but F u1 u2.
Proof.
  intros SA SB CA CB WA WB B E1 E2 E3 E4.
  destruct (SA (fun x => F x \/ In x (writes b))) with (s1 := s1) (s2 := t2) (n1 := n1) (n2 := n2) (t1 := t1) (t2 := u2) as [N1 B1]; auto.
  { intros x [H|H]; [auto|]. specialize (WB x H). rewrite in_app_iff in WB. tauto. }
  { intros x H. rewrite (frame _ _ _ _ E3 x) by tauto. apply B. tauto. }
  destruct (SB (fun x => F x \/ In x (writes a))) with (s1 := t1) (s2 := s2) (n1 := m1) (n2 := m2) (t1 := u1) (t2 := t2) as [N2 B2]; auto.
  { intros x [H|H]; [auto|]. specialize (WA x H). rewrite in_app_iff in WA. tauto. }
  { intros x H. rewrite (frame _ _ _ _ E1 x) by tauto. apply B. tauto. }
  split; [exact N1|]. split; [exact N2|]. intros x NF. destruct (in_dec Nat.eq_dec x (writes b)) as [I|I].
  - assert (J : ~ In x (writes a)) by (specialize (WB x I); rewrite in_app_iff in WB; tauto).
    rewrite (frame _ _ _ _ E4 x J). apply B2. tauto.
  - rewrite (frame _ _ _ _ E2 x I). apply B1. tauto.
Qed.
Lemma but_sym F a b : but F a b -> but F b a.
Proof. intros B x N. symmetry. auto. Qed.

Lemma clear_app F (a b : expr) (e : expr) : all_reads e = all_reads a ++ all_reads b -> writes e = writes a ++ writes b -> clear F e -> clear F a /\ clear F b.
Proof. intros R W C. split; intros x H; specialize (C x H); rewrite R, W, !in_app_iff in C; tauto. Qed.

Lemma while_settled c b : settled c -> settled b -> settled (EWhile c b).
Proof.
  intros SC SB F CL s1 s2 n1 n2 t1 t2 B E1. revert s2 n2 t2 B. destruct (clear_app F c b (EWhile c b) eq_refl eq_refl CL) as [CC CB].
  remember (EWhile c b) as w eqn:W. induction E1; try discriminate W; injection W as -> ->; intros s2 n2 t2 B E2.
  - inversion E2; subst;
      match goal with H2 : eval c s2 _ _ |- _ => destruct (SC F CC _ _ _ _ _ _ B E1 H2) as [N B1] end; [auto|discriminate N].
  - inversion E2; subst;
      match goal with H2 : eval c s2 _ _ |- _ => destruct (SC F CC _ _ _ _ _ _ B E1_1 H2) as [N B1] end; [discriminate N|].
    match goal with H2 : eval b _ _ ?u, H3 : eval (EWhile c b) ?u _ _ |- _ => destruct (SB F CB _ _ _ _ _ _ B1 E1_2 H2) as [_ B2]; exact (IHE1_3 eq_refl CL _ _ _ B2 H3) end.
Qed.

Lemma fine_settled e : fine e -> settled e.
Proof.
  induction e as [x|n|x e IH|x e IH|f a IHa b IHb|a IHa b IHb|a IHa b IHb|c IHc a IHa b IHb|c IHa b IHb|e IH]; cbn [fine]; intros FI F CL s1 s2 n1 n2 t1 t2 B E1 E2.
  - inversion E1; inversion E2; subst. split; [|exact B]. apply B. intros H. apply (CL x) in H. cbn in H. tauto.
  - inversion E1; inversion E2; subst. auto.
  - inversion E1; inversion E2; subst.
    destruct (IH FI F) with (s1 := s1) (s2 := s2) (n1 := n) (n2 := n0) (t1 := st') (t2 := st'0) as [N B1]; auto.
    { intros y H. specialize (CL y H). cbn in CL. tauto. }
    subst. split; [reflexivity|]. apply but_set. exact B1.
  - destruct FI as [NW FI].
    assert (G : forall s n t, eval (EAddAssign x e) s n t -> exists m u, eval e s m u /\ n = 0 /\ t = set x (s x + m) u).
    { intros s n t E. inversion E; subst.
      - match goal with H3 : eval e _ _ _ |- _ => exists n0, st'; rewrite (frame _ _ _ _ H3 x NW); auto end.
      - exists n0, st'. auto. }
    destruct (G _ _ _ E1) as (m1 & u1 & X1 & -> & ->). destruct (G _ _ _ E2) as (m2 & u2 & X2 & -> & ->).
    assert (CE : clear F e) by (intros y H; specialize (CL y H); cbn in CL; tauto).
    destruct (IH FI F CE _ _ _ _ _ _ B X1 X2) as [-> B1]. split; [reflexivity|].
    assert (NX : ~ F x) by (intros H; specialize (CL x H); cbn in CL; tauto). rewrite (B x NX). apply but_set. exact B1.
  - destruct FI as (WA & WB & FA & FB). destruct (clear_app F a b (EOp f a b) eq_refl eq_refl CL) as [CA CB]. specialize (IHa FA). specialize (IHb FB).
    inversion E1; subst; inversion E2; subst.
    + match goal with H1 : eval a s1 _ ?u, H2 : eval a s2 _ ?w, H3 : eval b ?u _ t1, H4 : eval b ?w _ t2 |- _ =>
        destruct (IHa F CA _ _ _ _ _ _ B H1 H2) as [-> B1]; destruct (IHb F CB _ _ _ _ _ _ B1 H3 H4) as [-> B2]; auto end.
    + match goal with H1 : eval a s1 _ ?u, H2 : eval b s2 _ ?w, H3 : eval b ?u _ t1, H4 : eval a ?w _ t2 |- _ =>
        destruct (swapped F a b _ _ _ _ _ _ _ _ _ _ IHa IHb CA CB WA WB B H1 H3 H2 H4) as (-> & -> & B2); auto end.
    + match goal with H1 : eval b s1 _ ?u, H2 : eval a s2 _ ?w, H3 : eval a ?u _ t1, H4 : eval b ?w _ t2 |- _ =>
        destruct (swapped F a b _ _ _ _ _ _ _ _ _ _ IHa IHb CA CB WA WB (but_sym _ _ _ B) H2 H4 H1 H3) as (-> & -> & B2); split; [reflexivity|apply but_sym; exact B2] end.
    + match goal with H1 : eval b s1 _ ?u, H2 : eval b s2 _ ?w, H3 : eval a ?u _ t1, H4 : eval a ?w _ t2 |- _ =>
        destruct (IHb F CB _ _ _ _ _ _ B H1 H2) as [-> B1]; destruct (IHa F CA _ _ _ _ _ _ B1 H3 H4) as [-> B2]; auto end.
  - destruct FI as (FA & FB). destruct (clear_app F a b (EAnd a b) eq_refl eq_refl CL) as [CA CB]. specialize (IHa FA F CA). specialize (IHb FB F CB).
    inversion E1; subst; inversion E2; subst;
      match goal with H1 : eval a s1 _ _, H2 : eval a s2 _ _ |- _ => destruct (IHa _ _ _ _ _ _ B H1 H2) as [N B1]; try discriminate N end; [auto|].
    match goal with H1 : eval b _ _ t1, H2 : eval b _ _ t2 |- _ => exact (IHb _ _ _ _ _ _ B1 H1 H2) end.
  - destruct FI as (FA & FB). destruct (clear_app F a b (ESeq a b) eq_refl eq_refl CL) as [CA CB]. specialize (IHa FA F CA). specialize (IHb FB F CB).
    inversion E1; subst; inversion E2; subst;
      match goal with H1 : eval a s1 _ _, H2 : eval a s2 _ _ |- _ => destruct (IHa _ _ _ _ _ _ B H1 H2) as [N B1] end.
    match goal with H1 : eval b _ _ t1, H2 : eval b _ _ t2 |- _ => exact (IHb _ _ _ _ _ _ B1 H1 H2) end.
  - destruct FI as (FC & FA & FB).
    assert (CC : clear F c /\ clear F a /\ clear F b) by (repeat split; intros H0; specialize (CL _ H); cbn in CL; rewrite !in_app_iff in CL; tauto).
    destruct CC as (CC & CA & CB). specialize (IHc FC F CC). specialize (IHa FA F CA). specialize (IHb FB F CB).
    inversion E1; subst; inversion E2; subst;
      match goal with H1 : eval c s1 _ _, H2 : eval c s2 _ _ |- _ => destruct (IHc _ _ _ _ _ _ B H1 H2) as [N B1]; try discriminate N end.
    + match goal with H1 : eval b _ _ t1, H2 : eval b _ _ t2 |- _ => exact (IHb _ _ _ _ _ _ B1 H1 H2) end.
    + match goal with H1 : eval a _ _ t1, H2 : eval a _ _ t2 |- _ => exact (IHa _ _ _ _ _ _ B1 H1 H2) end.
  - destruct FI as (FA & FB). exact (while_settled c b (IHa FA) (IHb FB) F CL _ _ _ _ _ _ B E1 E2).
  - inversion E1; inversion E2; subst. eapply (IH FI F); eauto.
Qed.
End Run.
