(* Proofs about SciModel.v *)
From Coq Require Import List Bool PeanoNat Lia.
Import ListNotations.
From Verif Require Import SciSpec SciModel.

Lemma place_eqb_spec a b : reflect (a = b) (place_eqb a b).
Proof. unfold place_eqb. destruct (list_eq_dec Nat.eq_dec a b); constructor; assumption. Qed.
Section S.
Variable change : nat -> (nat -> bool) -> nat -> bool.
Variable r : place.
Variable k : ident.
Definition kept (s t : store) : Prop := (forall v, sets t r v = sets s r v) /\ keys t k = keys s k.
Lemma kept_trans s t u : kept s t -> kept t u -> kept s u.
Proof. intros [A B] [C D]. split; [intros v; rewrite C, A; reflexivity|congruence]. Qed.
Lemma visit_kept t s l u : run change t s l u -> no_assign k t = true -> no_owner r t = true -> visit r k t = Continue -> kept s u.
Proof.
  induction 1; cbn [no_assign no_owner visit]; intros A O V;
    repeat match goal with H : _ && _ = true |- _ => apply andb_true_iff in H; destruct H end.
  - destruct (place_eqb_spec r r0); cbn in V.
    + subst. destruct (Nat.eqb k k0); [discriminate|]. unfold is_set_mutated in V. destruct (place_eqb_spec r r); [discriminate|contradiction].
    + split; [|reflexivity]. intros v. cbn. destruct (place_eqb_spec r0 r); [congruence|reflexivity].
  - unfold is_set_mutated in V. destruct (place_eqb_spec r r0); [discriminate|].
    split; [|reflexivity]. intros v. cbn. destruct (place_eqb_spec r0 r); [congruence|reflexivity].
  - split; [|reflexivity]. intros v. cbn. apply negb_true_iff in O. rewrite O. reflexivity.
  - split; [reflexivity|]. cbn. apply negb_true_iff in A. rewrite Nat.eqb_sym, A. reflexivity.
  - split; reflexivity.
  - destruct (visit r k a) eqn:V1; [|discriminate]. cbn in V. eapply kept_trans; eauto.
  - destruct (visit r k a) eqn:V1; [|discriminate]. cbn in V. destruct (visit r k b) eqn:V2; [|discriminate]. eapply kept_trans; eauto.
  - destruct (visit r k a) eqn:V1; [|discriminate]. cbn in V. destruct (visit r k b) eqn:V2; [|discriminate]. eapply kept_trans; eauto.
  - split; reflexivity.
  - eapply kept_trans; eauto.
  - split; reflexivity.
  - eapply kept_trans; eauto.
Qed.
Lemma never_there n t s l u : run change t s l u -> times n t = 0 -> forall b, ~ In (n, b) l.
Proof.
  induction 1; cbn [times]; intros T b' I; try contradiction.
  - destruct I as [E|[]]. injection E as -> _. rewrite Nat.eqb_refl in T. discriminate.
  - apply in_app_iff in I. destruct I as [I|I]; [eapply IHrun1|eapply IHrun2]; eauto; lia.
  - apply in_app_iff in I. destruct I as [I|I]; [eapply IHrun1|eapply IHrun2]; eauto; lia.
  - apply in_app_iff in I. destruct I as [I|I]; [eapply IHrun1|eapply IHrun2]; eauto; lia.
  - apply in_app_iff in I. destruct I as [I|I]; [eapply IHrun1|eapply IHrun2]; eauto; lia.
  - apply in_app_iff in I. destruct I as [I|I]; [eapply IHrun1|eapply IHrun2]; eauto; lia.
Qed.
Lemma found_there n t : visit r k t = Break (Some n) -> times n t >= 1.
Proof.
  induction t; cbn; try discriminate.
  - destruct (place_eqb r r0 && Nat.eqb k k0); [|destruct (is_set_mutated r r0); discriminate].
    intros E. injection E as ->. rewrite Nat.eqb_refl. lia.
  - destruct (is_set_mutated r r0); discriminate.
  - destruct (visit r k t1) as [|o]; cbn; intros E; [specialize (IHt2 E); lia|injection E as ->; specialize (IHt1 eq_refl); lia].
  - destruct (visit r k t1) as [|o]; cbn; [|intros E; injection E as ->; specialize (IHt1 eq_refl); lia].
    destruct (visit r k t2) as [|o]; cbn; intros E; [specialize (IHt3 E); lia|injection E as ->; specialize (IHt2 eq_refl); lia].
  - exact IHt.
  - exact IHt.
Qed.
Lemma found_first n t s l u : run change t s l u -> no_assign k t = true -> no_owner r t = true -> once n t = true -> times n t <= 1 ->
  visit r k t = Break (Some n) -> forall b, In (n, b) l -> b = negb (sets s r (keys s k)).
Proof.
  induction 1; cbn [no_assign no_owner once times visit]; intros A O W T V b' I;
    repeat match goal with H : _ && _ = true |- _ => apply andb_true_iff in H; destruct H end; try contradiction; try discriminate.
  - destruct (place_eqb_spec r r0); cbn in V; [|destruct (is_set_mutated r r0); discriminate]. subst.
    destruct (Nat.eqb_spec k k0); [|match type of V with context [is_set_mutated ?a ?b] => destruct (is_set_mutated a b) end; discriminate]. subst.
    destruct I as [E|[]]. congruence.
  - destruct (visit r k a) as [|o] eqn:V1; cbn in V.
    + pose proof (found_there n b V). pose proof (visit_kept _ _ _ _ H ltac:(assumption) ltac:(assumption) V1) as [K1 K2].
      apply in_app_iff in I. destruct I as [I|I]; [exfalso; eapply (never_there n a); eauto; lia|].
      rewrite <- K2, <- K1. eapply IHrun2; eauto; lia.
    + injection V as ->. pose proof (found_there n a V1).
      apply in_app_iff in I. destruct I as [I|I]; [|exfalso; eapply (never_there n b); eauto; lia].
      eapply IHrun1; eauto; lia.
  - destruct (visit r k a) as [|o] eqn:V1; cbn in V.
    + pose proof (visit_kept _ _ _ _ H ltac:(assumption) ltac:(assumption) V1) as [K1 K2].
      assert (times n a = 0). { destruct (visit r k b) as [|o] eqn:V2; cbn in V; [pose proof (found_there n c V); lia|injection V as ->; pose proof (found_there n b V2); lia]. }
      apply in_app_iff in I. destruct I as [I|I]; [exfalso; eapply (never_there n a); eauto|].
      destruct (visit r k b) as [|o] eqn:V2; cbn in V.
      * pose proof (found_there n c V). exfalso. eapply (never_there n b); eauto; lia.
      * injection V as ->. rewrite <- K2, <- K1. eapply IHrun2; eauto; lia.
    + injection V as ->. pose proof (found_there n a V1).
      apply in_app_iff in I. destruct I as [I|I]; [|exfalso; eapply (never_there n b); eauto; lia].
      eapply IHrun1; eauto; lia.
  - destruct (visit r k a) as [|o] eqn:V1; cbn in V.
    + pose proof (visit_kept _ _ _ _ H ltac:(assumption) ltac:(assumption) V1) as [K1 K2].
      assert (times n a = 0). { destruct (visit r k b) as [|o] eqn:V2; cbn in V; [pose proof (found_there n c V); lia|injection V as ->; pose proof (found_there n b V2); lia]. }
      apply in_app_iff in I. destruct I as [I|I]; [exfalso; eapply (never_there n a); eauto|].
      destruct (visit r k b) as [|o] eqn:V2; cbn in V.
      * rewrite <- K2, <- K1. eapply IHrun2; eauto; lia.
      * injection V as ->. pose proof (found_there n b V2). exfalso. eapply (never_there n c); eauto; lia.
    + injection V as ->. pose proof (found_there n a V1).
      apply in_app_iff in I. destruct I as [I|I]; [|exfalso; eapply (never_there n c); eauto; lia].
      eapply IHrun1; eauto; lia.
  - apply Nat.eqb_eq in W. pose proof (found_there n a V). lia.
  - apply Nat.eqb_eq in W. pose proof (found_there n a V). lia.
Qed.
End S.
