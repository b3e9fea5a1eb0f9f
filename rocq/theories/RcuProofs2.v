From Coq Require Import List ZArith Bool PeanoNat Lia.
Import ListNotations.
From Verif Require Import RcuSpec RcuModel RcuProofs.

Section Graph.
Variables (ps : list (name * bool)) (body : expr).
Notation uses := (uses ps body).
Notation get_by_fn := (get_by_fn ps body).
Notation try_disable := (try_disable ps body).
Notation N := (length ps).

Definition edge (i j : nat) : Prop := In j (uses i) /\ j <> i.
Definition bad (i : nat) : Prop := get_by_fn i = false \/ uses i = [].
Inductive Reach : nat -> Prop :=
| R0 i : bad i -> Reach i
| RS i j : edge i j -> Reach j -> Reach i.
(* a path of length k that does not meet S *)
Inductive Av (S : list nat) : nat -> nat -> Prop :=
| A0 i : ~ In i S -> bad i -> Av S i 0
| AS i j k : ~ In i S -> edge i j -> Av S j k -> Av S i (1 + k).
Lemma uses_get i : uses i <> [] -> get_by_fn i = true.
Proof.
  unfold RcuModel.uses, RcuModel.get_by_fn. destruct (nth_error ps i) as [[x [|]]|]; try congruence. destruct (removed body x); [congruence|reflexivity].
Qed.
Lemma reach_av i : Reach i -> exists k, Av [] i k.
Proof.
  induction 1 as [i B|i j E R (k & A)]; [exists 0; constructor; auto|]. exists (1 + k). econstructor; eauto.
Qed.
Lemma av_cut S i j k : Av S j k -> Av (i :: S) j k \/ exists k', k' <= k /\ Av S i k'.
Proof.
  induction 1 as [j Nj B|j l k Nj E A IH]; destruct (Nat.eq_dec i j) as [<-|D].
  - right. exists 0. split; [lia|constructor; auto].
  - left. constructor; [cbn; intuition congruence|exact B].
  - right. exists (1 + k). split; [lia|econstructor; eauto].
  - destruct IH as [IH|(k' & Le & IH)]; [left|right; exists k'; split; [lia|exact IH]].
    econstructor; [cbn; intuition congruence|exact E|exact IH].
Qed.

Definition Inv (st : list bool) : Prop := length st = N /\ forall i, nth i st false = false -> Reach i.
Lemma set_false_length i : forall st, length (set_false i st) = length st.
Proof. induction i as [|i IH]; intros [|b st]; cbn; auto. Qed.
Lemma set_false_same i : forall st, nth i (set_false i st) false = false.
Proof. induction i as [|i IH]; intros [|b st]; cbn; auto. Qed.
Lemma set_false_other i : forall st j, j <> i -> nth j (set_false i st) false = nth j st false.
Proof.
  induction i as [|i IH]; intros [|b st] [|j] D; cbn; try reflexivity; try congruence.
  apply IH. congruence.
Qed.
Lemma set_false_inv i st : Inv st -> Reach i -> Inv (set_false i st).
Proof.
  intros (Len & F) R. split; [rewrite set_false_length; exact Len|]. intros j H.
  destruct (Nat.eq_dec j i) as [->|D]; [exact R|]. apply F. rewrite set_false_other in H by exact D. exact H.
Qed.
Definition mono (st st' : list bool) : Prop := forall i, nth i st false = false -> nth i st' false = false.
Lemma mono_set i st : mono st (set_false i st).
Proof.
  intros j H. destruct (Nat.eq_dec j i) as [->|D]; [apply set_false_same|]. rewrite set_false_other by exact D. exact H.
Qed.

Lemma try_sound : forall n i stack st d st', Inv st -> try_disable n i stack st = (d, st') ->
  Inv st' /\ mono st st' /\ (d = true -> nth i st' false = false).
Proof.
  induction n as [|n IH]; intros i stack st d st' V; cbn [RcuModel.try_disable].
  - intros E; injection E as <- <-. split; [exact V|]. split; [intros j H; exact H|discriminate].
  - destruct (nth i st false) eqn:Ni; cbn [negb].
    2:{ intros E; injection E as <- <-. split; [exact V|]. split; [intros j H; exact H|auto]. }
    destruct (match uses i with [] => true | _ => false end) eqn:U0.
    { assert (U : uses i = []) by (destruct (uses i); [reflexivity|discriminate U0]). intros E; injection E as <- <-. split; [apply set_false_inv; [exact V|constructor; right; exact U]|].
      split; [apply mono_set|]. intros _. apply set_false_same. }
    destruct (existsb (Nat.eqb i) stack).
    { intros E; injection E as <- <-. split; [exact V|]. split; [intros j H; exact H|discriminate]. }
    pose proof (incl_refl (uses i)) as I. clear U0 Ni. revert st V I. generalize (uses i) at 1 3.
    induction l as [|j us IHus]; intros st V I; cbn [passed_on].
    + intros E; injection E as <- <-. split; [exact V|]. split; [intros j H; exact H|discriminate].
    + assert (I2 : incl us (uses i)) by (intros x H; apply I; right; exact H).
      destruct (Nat.eqb_spec j i) as [->|D]; [intros E; exact (IHus st V I2 E)|].
      assert (Ed : edge i j) by (split; [apply I; left; reflexivity|exact D]).
      destruct (get_by_fn j) eqn:G; cbn [negb].
      2:{ intros E; injection E as <- <-. split; [apply set_false_inv; [exact V|]|].
          - apply (RS i j Ed). constructor. left. exact G.
          - split; [apply mono_set|]. intros _. apply set_false_same. }
      destruct (try_disable n j (i :: stack) st) as [dj st1] eqn:T. destruct (IH _ _ _ _ _ V T) as (V1 & M1 & F1).
      destruct dj.
      * intros E; injection E as <- <-. split; [apply set_false_inv; [exact V1|]|].
        -- apply (RS i j Ed). apply V1. apply F1. reflexivity.
        -- split; [|intros _; apply set_false_same]. intros x H. apply mono_set, M1, H.
      * intros E. destruct (IHus st1 V1 I2 E) as (A & B & C). split; [exact A|]. split; [|exact C].
        intros x H. apply B, M1, H.
Qed.
Lemma try_complete : forall n i stack st st', N < n + length stack -> NoDup stack -> (forall x, In x stack -> x < N) ->
  Inv st -> try_disable n i stack st = (false, st') -> forall k, ~ Av stack i k.
Proof.
  induction n as [|n IH]; intros i stack st st' Fuel ND Bd V; cbn [RcuModel.try_disable].
  - exfalso. assert (length stack <= length (seq 0 N)).
    { apply NoDup_incl_length; [exact ND|]. intros x H. apply in_seq. specialize (Bd x H). lia. }
    rewrite seq_length in H. cbn in Fuel. lia.
  - destruct (nth i st false) eqn:Ni; cbn [negb]; [|discriminate].
    assert (Li : i < N).
    { destruct V as (Len & _). destruct (Nat.lt_ge_cases i N) as [H|H]; [exact H|]. rewrite nth_overflow in Ni by lia. discriminate. }
    destruct (match uses i with [] => true | _ => false end) eqn:U0; [discriminate|].
    assert (U : uses i <> []) by (destruct (uses i); [discriminate U0|discriminate]).
    destruct (existsb (Nat.eqb i) stack) eqn:Ex.
    { intros _ k A. assert (In i stack). { apply existsb_exists in Ex as (x & H & E). apply Nat.eqb_eq in E. subst. exact H. }
      destruct A; contradiction. }
    assert (Ns : ~ In i stack).
    { intros H. assert (existsb (Nat.eqb i) stack = true) by (apply existsb_exists; exists i; split; [exact H|apply Nat.eqb_refl]). congruence. }
    assert (ND' : NoDup (i :: stack)) by (constructor; assumption).
    assert (Bd' : forall x, In x (i :: stack) -> x < N) by (intros x [<-|H]; [exact Li|apply Bd, H]).
    intros E.
    assert (All : forall j, In j (uses i) -> j <> i -> forall k, ~ Av (i :: stack) j k).
    { clear U0 U Ni. revert st V E. generalize (uses i).
      induction l as [|j us IHus]; intros st V E x Hx; [destruct Hx|]; cbn [passed_on] in E; destruct Hx as [Ex1|H].
      - subst x. intros D. destruct (Nat.eqb_spec j i) as [->|_]; [congruence|].
        destruct (get_by_fn j); [|discriminate E]. cbn [negb] in E.
        destruct (try_disable n j (i :: stack) st) as [[|] st1] eqn:T; [discriminate E|].
        refine (IH j (i :: stack) st st1 _ ND' Bd' V T). cbn. lia.
      - destruct (Nat.eqb j i); [exact (IHus st V E x H)|].
        destruct (get_by_fn j); [|discriminate E]. cbn [negb] in E.
        destruct (try_disable n j (i :: stack) st) as [[|] st1] eqn:T; [discriminate E|].
        destruct (try_sound _ _ _ _ _ _ V T) as (V1 & _). exact (IHus st1 V1 E x H). }
    clear E. induction k as [k IHk] using lt_wf_ind. intros A. inversion A as [? _ B Ei Ek|? j k' _ Ed A' Ei Ek]; subst.
    + destruct B as [B|B]; [|exact (U B)]. rewrite (uses_get i U) in B. discriminate B.
    + destruct (av_cut stack i j k' A') as [C|(k2 & Le & C)].
      * destruct Ed as (Ej & D). exact (All j Ej D k' C).
      * exact (IHk k2 ltac:(lia) C).
Qed.
Lemma flag_spec : Inv (flag_for_linting ps body) /\ forall i, nth i (flag_for_linting ps body) false = true -> ~ Reach i.
Proof.
  unfold flag_for_linting.
  assert (V : Inv (map snd ps)).
  { split; [apply map_length|]. intros i H. constructor. left. unfold RcuModel.get_by_fn.
    destruct (nth_error ps i) as [[x b]|] eqn:E; [|reflexivity].
    apply (map_nth_error snd) in E. apply nth_error_nth with (d := false) in E. cbn in E. rewrite H in E. subst b. reflexivity. }
  assert (G : forall l st, Inv st -> 
    let st' := fold_left (fun st i => snd (try_disable (S N) i [] st)) l st in
    Inv st' /\ mono st st' /\ forall i, In i l -> nth i st' false = true -> ~ Reach i).
  { induction l as [|i l IH]; intros st Vs; cbn [fold_left].
    - split; [exact Vs|]. split; [intros j H; exact H|intros j []].
    - destruct (try_disable (S N) i [] st) as [d st1] eqn:T. cbn [snd].
      destruct (try_sound _ _ _ _ _ _ Vs T) as (V1 & M1 & F1).
      destruct (IH st1 V1) as (A & B & C). split; [exact A|]. split; [intros j H; apply B, M1, H|].
      intros j [<-|H] Tj; [|exact (C j H Tj)]. intros R. destruct (reach_av i R) as (k & Ak).
      destruct d.
      + rewrite (B i (F1 eq_refl)) in Tj. discriminate.
      + refine (try_complete _ _ _ _ _ _ _ _ Vs T k Ak); [cbn; lia|constructor|intros x []]. }
  destruct (G (seq 0 N) _ V) as (A & _ & C). split; [exact A|]. intros i T. apply C; [|exact T].
  apply in_seq. destruct A as (Len & _). destruct (Nat.lt_ge_cases i N) as [H|H]; [lia|]. rewrite nth_overflow in T by lia. discriminate.
Qed.

Definition names_reported : list name :=
  flat_map (fun i => match nth_error ps i with Some (x, _) => if reported ps body i then [x] else [] | None => [] end) (seq 0 N).
Lemma names_reported_in x : In x names_reported <-> exists i b, nth_error ps i = Some (x, b) /\ reported ps body i = true.
Proof.
  unfold names_reported. rewrite in_flat_map. split.
  - intros (i & _ & H). destruct (nth_error ps i) as [[y b]|] eqn:E; [|destruct H]. destruct (reported ps body i) eqn:R; [|destruct H].
    destruct H as [->|[]]. exists i, b. auto.
  - intros (i & b & E & R). exists i. rewrite E, R. split; [|left; reflexivity]. apply in_seq.
    assert (i < N) by (apply nth_error_Some; congruence). lia.
Qed.
Theorem reported_safe : safe (map fst ps) names_reported Used body.
Proof.
  destruct flag_spec as (V & F). intros x o H I. apply names_reported_in in I as (i & b & E & R).
  specialize (F i R). assert (Ub : ~ bad i) by (intros B; apply F; constructor; exact B).
  unfold bad in Ub. assert (Gi : get_by_fn i = true) by (destruct (get_by_fn i); tauto).
  unfold RcuModel.get_by_fn in Gi. rewrite E in Gi. destruct b; [|discriminate]. apply negb_true_iff in Gi.
  destruct o as [j|].
  - assert (Uj : In j (uses i)).
    { unfold RcuModel.uses. rewrite E, Gi. apply in_flat_map. exists (x, Some j). split; [exact H|]. cbn. rewrite Nat.eqb_refl. left. reflexivity. }
    assert (Rj : nth j (flag_for_linting ps body) false = true /\ get_by_fn j = true).
    { destruct (Nat.eq_dec j i) as [->|D]; [split; [exact R|unfold RcuModel.get_by_fn; rewrite E, Gi; reflexivity]|].
      assert (Nj : ~ Reach j) by (intros Q; apply F; exact (RS i j (Logic.conj Uj D) Q)).
      split.
      - destruct (nth j (flag_for_linting ps body) false) eqn:T; [reflexivity|]. destruct (Nj (proj2 V j T)).
      - destruct (get_by_fn j) eqn:T; [reflexivity|]. destruct Nj. constructor. left. exact T. }
    destruct Rj as (Rj & Gj). unfold RcuModel.get_by_fn in Gj. destruct (nth_error ps j) as [[p b]|] eqn:Ej; [|discriminate].
    exists j, p. split; [reflexivity|]. split; [exact (map_nth_error fst j ps Ej)|]. apply names_reported_in. exists j, b. auto.
  - exfalso. assert (removed body x = true); [|congruence]. unfold removed. apply existsb_exists. exists (x, None). split; [exact H|].
    cbn. rewrite Nat.eqb_refl. reflexivity.
Qed.
End Graph.
