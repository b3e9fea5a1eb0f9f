(* Proofs about MsfModel.v *)
From Coq Require Import List Bool PeanoNat Lia.
Import ListNotations.
From Verif Require Import MsfSpec MsfModel.

Lemma skipn_skipn_1 (j : nat) : forall l : list nat, skipn 1 (skipn j l) = skipn (S j) l.
Proof. induction j; intros [|x l]; try reflexivity. cbn [skipn] in *. rewrite <- IHj. reflexivity. Qed.
Section S.
Variable pair : nat -> nat -> nat.
Notation eval := (eval pair).
Definition len_same (t u : store) : Prop := forall s, length (slices t s) = length (slices u s).
Lemma eager_eval p v : switch_to_eager_eval v = true -> is_local_used v p = false -> forall t, exists n,
  eval v t = Some (n, t) /\ forall u, len_same t u -> (forall x, x <> p -> vars t x = vars u x) -> eval v u = Some (n, u).
Proof.
  induction v; cbn [switch_to_eager_eval is_local_used MsfSpec.eval]; intros E U t; try discriminate.
  - exists (vars t x). split; [reflexivity|]. intros u L V. rewrite V; [reflexivity|]. intros ->. rewrite Nat.eqb_refl in U. discriminate.
  - exists n. auto.
  - exists (length (slices t s)). split; [reflexivity|]. intros u L V. rewrite L. reflexivity.
  - apply andb_true_iff in E. apply orb_false_iff in U. destruct E as [E1 E2], U as [U1 U2].
    destruct (IHv1 E1 U1 t) as (m & A1 & A2), (IHv2 E2 U2 t) as (n & B1 & B2). exists (pair m n). rewrite A1, B1. split; [reflexivity|].
    intros u L V. rewrite (A2 u L V), (B2 u L V). reflexivity.
Qed.
Lemma seq_filled p s v n (i : nat -> store -> nat) :
  (forall k t, i k t = k) -> switch_to_eager_eval v = true -> is_local_used v p = false ->
  forall t0, eval v t0 = Some (n, t0) -> forall k j t, j + k = length (slices t0 s) ->
  len_same t0 t -> (forall x, x <> p -> vars t0 x = vars t x) -> calls t = calls t0 ->
  (forall s', s' <> s -> slices t s' = slices t0 s') -> slices t s = repeat n j ++ skipn j (slices t0 s) ->
  exists t', each (fun k t => assign pair s (i k t) v (with_var t p k)) (seq j k) t = Some t' /\
    (forall x, x <> p -> vars t' x = vars t0 x) /\ calls t' = calls t0 /\ (forall s', s' <> s -> slices t' s' = slices t0 s') /\
    slices t' s = repeat n (length (slices t0 s)).
Proof.
  intros I E U t0 V0. induction k; intros j t J L V C O F; cbn [seq each].
  - exists t. split; [reflexivity|]. split; [intros; symmetry; auto|]. split; [auto|]. split; [auto|].
    rewrite F, <- J, skipn_all2 by lia. rewrite app_nil_r, Nat.add_0_r. reflexivity.
  - rewrite I. unfold assign at 1.
    assert (Ev : eval v (with_var t p j) = Some (n, with_var t p j)).
    { destruct (eager_eval p v E U t0) as (m & A & B). rewrite V0 in A. injection A as <-. apply B; [exact L|].
      intros x N. cbn. unfold upd. destruct (Nat.eqb_spec p x); [congruence|auto]. }
    rewrite Ev. unfold set_nth. cbn [with_var slices].
    assert (Lt : length (slices t s) = length (slices t0 s)) by (symmetry; apply L).
    destruct (Nat.ltb_spec j (length (slices t s))); [|lia].
    assert (Sk : skipn j (slices t0 s) <> []). { intros Z. apply (f_equal (@length _)) in Z. rewrite skipn_length in Z. cbn in Z. lia. }
    assert (F' : firstn j (slices t s) ++ n :: skipn (S j) (slices t s) = repeat n (S j) ++ skipn (S j) (slices t0 s)).
    { rewrite F. rewrite firstn_app, repeat_length, Nat.sub_diag, firstn_O, app_nil_r.
      rewrite (firstn_all2 (repeat n j)) by (rewrite repeat_length; lia).
      rewrite skipn_app, repeat_length. rewrite (skipn_all2 (repeat n j)) by (rewrite repeat_length; lia).
      replace (S j - j) with 1 by lia. cbn [app]. rewrite skipn_skipn_1. replace (S j) with (j + 1) at 2 by lia. rewrite repeat_app. cbn [repeat]. rewrite <- app_assoc. reflexivity. }
    apply IHk.
    + lia.
    + intros s'. cbn [with_slice with_var slices vars calls]. unfold upd. destruct (Nat.eqb_spec s s'); [subst|apply L].
      rewrite F', app_length, repeat_length, skipn_length. lia.
    + intros x N. cbn [with_slice with_var slices vars calls]. unfold upd. destruct (Nat.eqb_spec p x); [congruence|auto].
    + cbn [with_slice with_var slices vars calls]. assumption.
    + intros s' N. cbn [with_slice with_var slices vars calls]. unfold upd. destruct (Nat.eqb_spec s s'); [congruence|auto].
    + cbn [with_slice with_var slices vars calls]. unfold upd. rewrite Nat.eqb_refl. exact F'.
Qed.
End S.
