From Coq Require Import List Bool PeanoNat Lia.
Import ListNotations.
From Verif Require Import AsrSpec AsrModel AsrProofs.

Lemma uppers_in v ss n : In n (uppers v ss) -> exists i, In (Index v i) ss /\ upper_index_expr i = Some n.
Proof.
  induction ss as [|s ss IH]; cbn; [contradiction|]. intros H.
  assert (K : In n (uppers v ss) -> exists i, (s = Index v i \/ In (Index v i) ss) /\ upper_index_expr i = Some n).
  { intros H'. destruct (IH H') as (i & A & B). exists i. auto. }
  destruct s; auto. destruct (Nat.eqb_spec v v0) as [->|]; auto. destruct (upper_index_expr i) as [k|] eqn:U; auto.
  destruct H as [->|H]; [|auto]. exists i. auto.
Qed.

Lemma silent v ss : straight ss -> (forall i, In (Index v i) ss -> through_zero i = false) -> report v ss = None ->
  forall len i rest, checks v ss = i :: rest -> in_bounds len i = true ->
  (forall c n m, first_about v ss = Some (Check v c n m) -> holds c len n = true) ->
  forall j, In j rest -> in_bounds len j = true.
Proof.
  intros S Z R len i rest C I A j J. rewrite in_bounds_needed in *. rewrite report_verdict in R by exact S.
  pose proof (checks_uppers v ss S Z) as U. rewrite C in U. unfold verdict in R.
  destruct (uppers v ss) as [|k ks]; [discriminate|]. cbn in U. inversion U as [[U1 U2]]; clear U.
  assert (Jk : exists n, In n ks /\ needed j = Datatypes.S n).
  { assert (In (needed j) (map Datatypes.S ks)) as H by (rewrite <- U2; apply in_map, J).
    apply in_map_iff in H. destruct H as (n & E & H). exists n. auto. }
  destruct Jk as (n & Hn & En). rewrite En. destruct (below k ks) eqn:B.
  - pose proof (top_in ks k n Hn) as H. rewrite (below_true _ _ B) in H. lia.
  - pose proof (top_in ks k n Hn) as H. destruct (leading v ss) as [[[c x] m]|] eqn:L; [|discriminate].
    apply (leading_first v ss S Z) in L. specialize (A _ _ _ L). destruct c; try discriminate; cbn in A.
    + destruct (Nat.ltb_spec x (top k ks)); [discriminate|]. apply Nat.ltb_lt in A. lia.
    + destruct (Nat.leb_spec x (top k ks)); [discriminate|]. apply Nat.leb_le in A. lia.
    + destruct (Nat.ltb_spec x (top k ks + 1)); [discriminate|]. apply Nat.eqb_eq in A. lia.
Qed.

(* What a text without branches checks *)
Definition ok (l : name -> nat) (s : stmt) : bool :=
  match s with Index v i => in_bounds (l v) i && ordered i | Check v c n _ => holds c (l v) n | _ => true end.
Lemma runs_straight cond ss l : straight ss -> runs cond ss l = if forallb (ok l) ss then Some l else None.
Proof.
  induction ss as [|s ss IH]; intros H; [reflexivity|].
  assert (H' : straight ss) by (intros x Hx; apply H; right; exact Hx).
  specialize (H s (or_introl eq_refl)). destruct s; try contradiction; cbn.
  - destruct (in_bounds (l v) i && ordered i); [apply IH, H'|reflexivity].
  - destruct (holds c (l v) n); [apply IH, H'|reflexivity].
Qed.
Lemma ok_upper l v ss n : forallb (ok l) ss = true -> In n (uppers v ss) -> n < l v.
Proof.
  intros H N. destruct (uppers_in _ _ _ N) as (i & A & B). rewrite forallb_forall in H. specialize (H _ A). cbn in H.
  apply andb_true_iff in H. destruct H as [H _]. rewrite in_bounds_needed in H. rewrite (upper_needed _ _ B) in H. lia.
Qed.
Lemma leading_split v c' n' m' ss c n m : leading v ss = Some (c, n, m) ->
  exists a b, ss = a ++ Check v c n m :: b /\ replace_first v c' n' m' ss = a ++ Check v c' n' m' :: b.
Proof.
  induction ss as [|s ss IH]; cbn; [discriminate|]. intros H.
  assert (K : leading v ss = Some (c, n, m) -> exists a b, s :: ss = a ++ Check v c n m :: b /\ s :: replace_first v c' n' m' ss = a ++ Check v c' n' m' :: b).
  { intros H'. destruct (IH H') as (a & b & E1 & E2). exists (s :: a), b. cbn. rewrite E1 at 1. rewrite E2. split; reflexivity. }
  destruct s; auto.
  - destruct (Nat.eqb v v0); auto. destruct (upper_index_expr i); [discriminate|auto].
  - destruct (Nat.eqb_spec v v0) as [->|]; [|auto]. inversion H; subst. exists [], ss. split; reflexivity.
Qed.
Lemma verdict_top v ss h : (exists k ks, uppers v ss = k :: ks /\ h = top k ks) -> In h (uppers v ss).
Proof. intros (k & ks & -> & ->). destruct (top_is ks k) as [->|H]; [left; reflexivity|right; exact H]. Qed.

Lemma added cond v ss h : straight ss -> report v ss = Some (Add h) ->
  forall l, runs cond (apply v (Add h) ss) l = runs cond ss l.
Proof.
  intros S R l. rewrite report_verdict in R by exact S.
  assert (T : In h (uppers v ss)).
  { apply verdict_top. unfold verdict in R. destruct (uppers v ss) as [|k ks]; [discriminate|].
    destruct (below k ks); [discriminate|]. destruct (leading v ss) as [[[c x] m]|].
    - destruct c; try discriminate; destruct (_ <? _) in R || destruct (_ <=? _) in R; discriminate.
    - inversion R. eauto. }
  cbn [apply runs run holds]. destruct (h <? l v) eqn:E; [reflexivity|]. rewrite runs_straight by exact S.
  destruct (forallb (ok l) ss) eqn:O; [|reflexivity]. pose proof (ok_upper l v ss h O T). apply Nat.ltb_ge in E. lia.
Qed.

Lemma replaced_cases v ss c n m : straight ss -> report v ss = Some (Replace c n m) ->
  exists h c0 n0 m0, In h (uppers v ss) /\ leading v ss = Some (c0, n0, m0) /\
    match c0 with
    | Less | LessEq => c = More /\ n = h
    | More => c = More /\ n = h /\ n0 < h
    | MoreEq => c = More /\ n = h /\ n0 <= h
    | Equal => c = Equal /\ n = h + 1 /\ n0 < h + 1
    end.
Proof.
  intros S R. rewrite report_verdict in R by exact S.
  assert (T : forall k ks, uppers v ss = k :: ks -> In (top k ks) (uppers v ss)) by (intros; apply verdict_top; eauto).
  unfold verdict in R. destruct (uppers v ss) as [|k ks]; [discriminate|].
  destruct (below k ks); [discriminate|]. destruct (leading v ss) as [[[c0 x] m0]|]; [|discriminate].
  exists (top k ks), c0, x, m0. split; [apply (T k ks); reflexivity|]. split; [reflexivity|].
  destruct c0.
  - inversion R. auto.
  - inversion R. auto.
  - destruct (Nat.ltb_spec x (top k ks)); inversion R. auto.
  - destruct (Nat.leb_spec x (top k ks)); inversion R. auto.
  - destruct (Nat.ltb_spec x (top k ks + 1)); inversion R. auto.
Qed.

Lemma straight_app a s b s' : straight (a ++ s :: b) -> match s' with Index _ _ | Check _ _ _ _ => True | _ => False end -> straight (a ++ s' :: b).
Proof.
  intros H K x Hx. apply in_app_or in Hx. destruct Hx as [Hx|[<-|Hx]].
  - apply H, in_or_app. auto.
  - exact K.
  - apply H, in_or_app. right. right. exact Hx.
Qed.
Lemma replaced cond v ss c n m c0 n0 m0 : straight ss -> (forall i, In (Index v i) ss -> through_zero i = false) ->
  report v ss = Some (Replace c n m) -> first_about v ss = Some (Check v c0 n0 m0) -> c0 = More \/ c0 = MoreEq ->
  forall l, runs cond (apply v (Replace c n m) ss) l = runs cond ss l.
Proof.
  intros S Z R F C l. destruct (replaced_cases _ _ _ _ _ S R) as (h & c1 & n1 & m1 & T & L & K).
  pose proof L as L'. apply (leading_first v ss S Z) in L'. rewrite F in L'. inversion L'; subst c1 n1 m1; clear L'.
  destruct (leading_split v c n m ss _ _ _ L) as (a & b & E1 & E2). cbn [apply]. rewrite E2.
  rewrite (runs_straight cond (a ++ _ :: b)) by (apply (straight_app a (Check v c0 n0 m0)); [rewrite <- E1; exact S|exact Logic.I]).
  rewrite (runs_straight cond ss) by exact S.
  assert (O : forallb (ok l) ss = true -> h < l v) by (intros O; apply (ok_upper l v ss h O T)).
  rewrite E1 in O |- *. rewrite forallb_app in O. rewrite (forallb_app (ok l) a (Check v c n m :: b)), (forallb_app (ok l) a (Check v c0 n0 m0 :: b)). cbn [forallb ok] in O |- *.
  destruct (forallb (ok l) a); [|reflexivity]. destruct (forallb (ok l) b); [|rewrite !andb_false_r; reflexivity].
  cbn [andb] in O |- *. rewrite !andb_true_r in O |- *.
  assert (N : c = More /\ n = h /\ n0 <= h) by (destruct C as [-> | ->]; destruct K as (K1 & K2 & K3); repeat split; auto; lia).
  destruct N as (-> & -> & N). destruct (holds c0 (l v) n0) eqn:H0.
  - specialize (O eq_refl). cbn [holds]. assert ((h <? l v) = true) as -> by (apply Nat.ltb_lt; exact O). reflexivity.
  - cbn [holds]. destruct (Nat.ltb_spec h (l v)); [|reflexivity]. exfalso. destruct C as [-> | ->]; cbn in H0.
    + apply Nat.ltb_ge in H0. destruct K as (_ & _ & K). lia.
    + apply Nat.leb_gt in H0. lia.
Qed.
Lemma replaced_equal cond v ss c n m n0 m0 : straight ss -> (forall i, In (Index v i) ss -> through_zero i = false) ->
  report v ss = Some (Replace c n m) -> first_about v ss = Some (Check v Equal n0 m0) ->
  forall l, runs cond ss l = None.
Proof.
  intros S Z R F l. destruct (replaced_cases _ _ _ _ _ S R) as (h & c1 & n1 & m1 & T & L & K).
  pose proof L as L'. apply (leading_first v ss S Z) in L'. rewrite F in L'. inversion L'; subst c1 n1 m1; clear L'.
  destruct K as (_ & _ & K). rewrite (runs_straight cond ss) by exact S.
  destruct (forallb (ok l) ss) eqn:O; [|reflexivity]. exfalso. pose proof (ok_upper l v ss h O T) as H.
  destruct (leading_split v c n m ss _ _ _ L) as (a & b & E1 & _). rewrite E1, forallb_app in O. cbn in O.
  apply andb_true_iff in O. destruct O as [_ O]. apply andb_true_iff in O. destruct O as [O _]. apply Nat.eqb_eq in O. lia.
Qed.

(* When something is reported *)
Lemma reported_add v ss : straight ss -> (forall i, In (Index v i) ss -> through_zero i = false) ->
  forall h, report v ss = Some (Add h) <->
  exists i rest, checks v ss = i :: rest /\ (forall c n m, first_about v ss <> Some (Check v c n m)) /\
    needed i < S h /\ (exists j, In j rest /\ needed j = S h) /\ (forall j, In j rest -> needed j <= S h).
Proof.
  intros St Z h. rewrite report_verdict by exact St. pose proof (checks_uppers v ss St Z) as U.
  pose proof (leading_first v ss St Z) as L. unfold verdict. split.
  - intros R. destruct (uppers v ss) as [|k ks]; [discriminate|]. destruct (below k ks) eqn:B; [discriminate|].
    destruct (leading v ss) as [[[c x] m]|] eqn:E.
    + destruct c; try discriminate; destruct (_ <? _) in R || destruct (_ <=? _) in R; discriminate.
    + inversion R; subst h; clear R. destruct (checks v ss) as [|i rest]; [discriminate|]. cbn in U. inversion U as [[U1 U2]].
      pose proof (below_false _ _ B) as T. exists i, rest. split; [reflexivity|]. split.
      { intros c n m F. apply L in F. discriminate. }
      split; [lia|]. split.
      * destruct (top_is ks k) as [T'|T']; [lia|].
        assert (In (S (top k ks)) (map needed rest)) as I' by (rewrite U2; apply in_map, T').
        apply in_map_iff in I'. destruct I' as (j & J1 & J2). eauto.
      * intros j J. assert (In (needed j) (map S ks)) as I' by (rewrite <- U2; apply in_map, J).
        apply in_map_iff in I'. destruct I' as (n & <- & N). pose proof (top_in ks k n N). lia.
  - intros (i & rest & C & F & I' & (j & J & Ej) & M). rewrite C in U. destruct (uppers v ss) as [|k ks]; [discriminate|].
    cbn in U. inversion U as [[U1 U2]].
    assert (Hh : In h ks).
    { assert (In (S h) (map S ks)) as H by (rewrite <- U2, <- Ej; apply in_map, J).
      apply in_map_iff in H. destruct H as (n & E & H). inversion E. subst. exact H. }
    assert (T : top k ks = h).
    { apply Nat.le_antisymm; [|apply top_in, Hh]. destruct (top_is ks k) as [->|T]; [lia|].
      assert (In (S (top k ks)) (map needed rest)) as H by (rewrite U2; apply in_map, T).
      apply in_map_iff in H. destruct H as (x & E & H). specialize (M _ H). lia. }
    destruct (below k ks) eqn:B; [apply below_true in B; lia|].
    destruct (leading v ss) as [[[c x] m]|] eqn:E; [|rewrite T; reflexivity].
    exfalso. apply (F c x m). apply L. reflexivity.
Qed.
