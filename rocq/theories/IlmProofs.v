(* Proofs about IlmModel.v *)
From Coq Require Import List Bool PeanoNat Lia.
Import ListNotations.
From Verif Require Import IlmSpec IlmModel.

Lemma in_without m h t : In m h -> ~ In m t -> In m (without h t).
Proof.
  intros H T. unfold without. apply filter_In. split; [assumption|]. apply negb_true_iff. destruct (existsb (Nat.eqb m) t) eqn:E; [|reflexivity].
  apply existsb_exists in E. destruct E as (x & X & Q). apply Nat.eqb_eq in Q. subst. contradiction.
Qed.
Ltac bools := repeat match goal with H : _ && _ = true |- _ => apply andb_true_iff in H; destruct H end.
(* While m is locked, it is not locked again *)
Lemma held m e h l h' t : run e h l h' t -> In m h -> no_drop m e = true -> In m h' /\ ~ In m t /\ forall n, ~ In (n, m) l.
Proof.
  induction 1; cbn [no_drop]; intros H' D; bools.
  - auto.
  - split; [right; assumption|]. split; intros; intros [E|[]]; [congruence|injection E as _ ->; contradiction].
  - split; [|auto]. apply in_without; [assumption|]. intros [->|[]]. rewrite Nat.eqb_refl in D. discriminate.
  - destruct IHrun1 as (A1 & A2 & A3); auto. destruct IHrun2 as (B1 & B2 & B3); auto.
    split; [assumption|]. split; [|intros n]; rewrite in_app_iff; intros [I|I]; firstorder.
  - destruct IHrun1 as (A1 & A2 & A3); auto. destruct IHrun2 as (B1 & B2 & B3); auto using in_without.
    split; [assumption|]. split; [assumption|intros n]; rewrite in_app_iff; intros [I|I]; firstorder.
  - destruct IHrun1 as (A1 & A2 & A3); auto. destruct IHrun2 as (B1 & B2 & B3); auto using in_without.
    split; [assumption|]. split; [assumption|intros n]; rewrite in_app_iff; intros [I|I]; firstorder.
  - destruct IHrun1 as (A1 & A2 & A3); auto. destruct IHrun2 as (B1 & B2 & B3); auto using in_without.
    split; [assumption|]. split; [assumption|intros n]; rewrite in_app_iff; intros [I|I]; firstorder.
  - destruct IHrun1 as (A1 & A2 & A3); auto. destruct IHrun2 as (B1 & B2 & B3); auto.
    split; [assumption|]. split; [|intros n]; rewrite in_app_iff; intros [I|I]; firstorder.
  - destruct IHrun1 as (A1 & A2 & A3); auto. destruct IHrun2 as (B1 & B2 & B3); auto.
    split; [assumption|]. split; [|intros n]; rewrite in_app_iff; intros [I|I]; firstorder.
Qed.
Lemma surely_held m e h l h' t : run e h l h' t -> no_drop m e = true -> surely m e = true -> In m h'.
Proof.
  induction 1; cbn [no_drop surely]; intros D S; bools; try discriminate.
  - apply Nat.eqb_eq in S. left. auto.
  - apply orb_true_iff in S. destruct S as [S|S]; [|auto]. eapply held; eauto.
  - auto.
  - auto.
  - auto.
  - apply orb_true_iff in S. destruct S as [S|S]; [eapply held; eauto|bools; auto].
  - apply orb_true_iff in S. destruct S as [S|S]; [eapply held; eauto|bools; auto].
Qed.
Lemma run_locks e h l h' t : run e h l h' t -> incl l (locks e).
Proof.
  induction 1; cbn [locks]; intros x I; rewrite ?in_app_iff in *; try contradiction; auto; intuition.
Qed.
Lemma found_lock o e n m : for_each_expr o e = Some (n, m) -> In (n, m) (locks e) /\ match o with Some m' => m = m' | None => True end.
Proof.
  induction e; cbn; try discriminate.
  - destruct o as [m'|].
    + destruct (Nat.eqb_spec m0 m'); cbn; [|discriminate]. intros E. injection E as -> ->. auto.
    + cbn. intros E. injection E as -> ->. auto.
  - destruct (for_each_expr o e1) as [p|]; cbn; intros E; rewrite in_app_iff; [injection E as ->; destruct (IHe1 eq_refl)|destruct (IHe2 E)]; auto.
  - destruct (for_each_expr o e1) as [p|]; cbn; intros E; rewrite in_app_iff; [injection E as ->; destruct (IHe1 eq_refl)|destruct (IHe2 E)]; auto.
  - destruct (for_each_expr o e1) as [p|]; cbn; [|destruct (for_each_expr o e2) as [p|]; cbn]; intros E; rewrite !in_app_iff;
      [injection E as ->; destruct (IHe1 eq_refl)|injection E as ->; destruct (IHe2 eq_refl)|destruct (IHe3 E)]; auto.
  - destruct (for_each_expr o e1) as [p|]; cbn; [|destruct (for_each_expr o e2) as [p|]; cbn]; intros E; rewrite !in_app_iff;
      [injection E as ->; destruct (IHe1 eq_refl)|injection E as ->; destruct (IHe2 eq_refl)|destruct (IHe3 E)]; auto.
Qed.
