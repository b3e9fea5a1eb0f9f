From Coq Require Import List Bool PeanoNat Lia.
Import ListNotations.
From Verif Require Import InfSpec InfModel.

Lemma mem_in x l : existsb (Nat.eqb x) l = true -> In x l.
Proof. intros H. apply existsb_exists in H. destruct H as (y & Hy & E). apply Nat.eqb_eq in E. subst. exact Hy. Qed.

Lemma exec_quiet cond : forall fuel s t, quiet s = true -> match exec cond fuel s t with Out | Norm _ => True | _ => False end.
Proof.
  induction fuel as [|fuel IH]; intros s t H; [exact Logic.I|]. destruct s; cbn [exec quiet] in *; try discriminate; try exact Logic.I.
  - apply andb_true_iff in H. destruct H as [H1 H2]. pose proof (IH s1 t H1) as A. destruct (exec cond fuel s1 t); try contradiction; try exact Logic.I; apply IH; assumption.
  - apply andb_true_iff in H. destruct H as [H1 H2]. destruct (cond c t); apply IH; assumption.
  - pose proof (IH s t H) as A. destruct (exec cond fuel s t); try contradiction; exact Logic.I.
Qed.

Definition stays (lab : option label) (inner ls : list label) (depth : nat) (r : outcome) : Prop :=
  match r with
  | Out | Norm _ => True
  | Brk None _ => 0 < depth
  | Brk (Some x) _ => In x ls /\ lab <> Some x
  | Cont None _ => True
  | Cont (Some x) _ => In x inner
  | Gone _ => False
  end.
Definition opt_cons (l : option label) (ls : list label) : list label := match l with Some x => x :: ls | None => ls end.

Lemma exec_stays cond lab : forall fuel s inner ls depth t,
  visit lab inner depth s = false -> breaks_within ls s = true -> stays lab inner ls depth (exec cond fuel s t).
Proof.
  induction fuel as [|fuel IH]; intros s inner ls depth t V B; [exact Logic.I|].
  destruct s; cbn [exec visit breaks_within] in *; try discriminate; try exact Logic.I.
  - apply orb_false_iff in V. apply andb_true_iff in B. destruct V as [V1 V2], B as [B1 B2].
    pose proof (IH s1 inner ls depth t V1 B1) as A. destruct (exec cond fuel s1 t); auto.
  - apply orb_false_iff in V. apply andb_true_iff in B. destruct V as [V1 V2], B as [B1 B2].
    destruct (cond c t); auto.
  - pose proof (IH s _ _ _ t V B) as A.
    assert (L : forall t', stays lab inner ls depth (exec cond fuel (SLoop l s) t')) by (intros; apply IH; assumption).
    destruct (exec cond fuel s t) as [|t'|[m|] t'|[m|] t'|t']; cbn [stays] in A; auto; try exact Logic.I.
    + destruct A as [A1 A2]. destruct l as [x|]; cbn [is_label].
      * destruct (Nat.eqb_spec x m); [exact Logic.I|]. cbn. destruct A1 as [->|A1]; [contradiction|auto].
      * cbn. auto.
    + destruct l as [x|]; cbn [is_label].
      * destruct (Nat.eqb_spec x m); [apply L|]. cbn. destruct A as [->|A]; [contradiction|auto].
      * exact A.
  - pose proof (IH s _ _ _ t V B) as A.
    destruct (exec cond fuel s t) as [|t'|[m|] t'|[m|] t'|t']; cbn [stays] in A; auto.
    destruct (Nat.eqb_spec m l) as [->|N]; [exact Logic.I|]. cbn. destruct A as [[A|A] A2]; [congruence|auto].
  - apply orb_false_iff in V. destruct V as [V1 V2]. apply andb_true_iff in B. destruct B as [B1 B2].
    pose proof (exec_quiet cond fuel s t B2) as A. destruct (exec cond fuel s t); try contradiction; [exact Logic.I|].
    destruct l as [x|]; cbn.
    + split; [apply mem_in, B1|]. intros ->. rewrite Nat.eqb_refl in V2. discriminate.
    + apply Nat.eqb_neq in V1. lia.
  - destruct l as [x|]; cbn; [|exact Logic.I]. apply negb_false_iff in V. apply mem_in, V.
Qed.

Lemma loop_out cond l b : check l b = true -> breaks_within (opt_cons l []) b = true -> forall fuel t, exec cond fuel (SLoop l b) t = Out.
Proof.
  unfold check. intros C B. apply negb_true_iff in C. induction fuel as [|fuel IH]; intros t; [reflexivity|]. cbn [exec].
  pose proof (exec_stays cond l fuel b _ _ 0 t C B) as A.
  destruct (exec cond fuel b t) as [|t'|[m|] t'|[m|] t'|t']; cbn [stays] in A; auto.
  - destruct A as [A1 A2]. destruct l as [x|]; [destruct A1 as [->|[]]; contradiction|destruct A1].
  - lia.
  - destruct l as [x|]; [|destruct A]. destruct A as [->|[]]. cbn. rewrite Nat.eqb_refl. apply IH.
  - contradiction.
Qed.
