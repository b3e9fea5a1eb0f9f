(* Proofs about EntModel.v. *)
From Coq Require Import List Bool PeanoNat Lia.
Import ListNotations.
From Verif Require Import EntSpec EntModel.

Lemma visit_unfold il k s v : can_use_entry v = true -> visit il k s v =
  match s with
  | SSkip => allow (negb (in_tail_pos v)) v
  | SSeq a b => visit il k b (set_tail (in_tail_pos v) (visit il k a (set_tail false v)))
  | SInsert false k' val => visit_insert k k' val v
  | SInsert true k' val => visit_insert k k' val (other true v)
  | SUseMap _ => set_used true (other true v)
  | SUseKey x _ | SSet x _ => if names k x then set_key (other true v) else other true v
  | SCall _ => other true v
  | SBreak => other il v
  | SReturn => other false v
  | SIf _ a b =>
      set_used (is_map_used (visit il k a v) || is_map_used (visit il k b (set_used (is_map_used v) (set_tail (in_tail_pos v) (visit il k a v)))))
        (set_tail (in_tail_pos v) (visit il k b (set_used (is_map_used v) (set_tail (in_tail_pos v) (visit il k a v)))))
  | SWhen _ a => visit il k a (other true v)
  | SLoop b =>
      if Nat.eqb (edits (visit true k b (allow (negb (in_tail_pos v)) v))) (edits v) then visit true k b (allow (negb (in_tail_pos v)) v)
      else stop (visit true k b (allow (negb (in_tail_pos v)) v))
  | SMany _ b => visit false k b (other true v)
  | SEntry _ _ _ => v
  end.
Proof. intros C. destruct s; cbn [visit]; rewrite C; cbn [negb]; try destruct observed; reflexivity. Qed.
Lemma visit_stopped il k s v : can_use_entry v = false -> visit il k s v = v.
Proof. intros C. destruct s; cbn [visit]; rewrite C; reflexivity. Qed.

(* What a search that goes on tells *)
Record told (x : name) (s : stmt) (v w : searcher) : Prop := {
  t_can : can_use_entry v = true;
  t_used : is_map_used w = false -> is_map_used v = false;
  t_key : is_key_used w = false -> is_key_used v = false /\ mentions x s = false;
  t_edits : edits v <= edits w;
  t_inserts : edits w = edits v -> inserts s = false;
  t_allow : allow_insert_closure w = true -> allow_insert_closure v = true;
  t_tail : in_tail_pos v = false -> allow_insert_closure w = true -> edits w = edits v /\ in_tail_pos w = false
}.
Ltac tell := constructor; cbn; intros; repeat split; try discriminate; try (rewrite ?andb_true_iff in *; intuition congruence); try lia; auto; try congruence.
Lemma told_insert x k' val v : can_use_entry (visit_insert (KVar x) k' val v) = true ->
  told x (SInsert false k' val) v (visit_insert (KVar x) k' val v) /\ is_map_used v = false /\ k' = KVar x /\ (forall f, val <> VMap f) /\
  is_map_used (visit_insert (KVar x) k' val v) = true /\ allow_insert_closure (visit_insert (KVar x) k' val v) = allow_insert_closure v && in_tail_pos v /\
  in_tail_pos (visit_insert (KVar x) k' val v) = in_tail_pos v.
Proof.
  unfold visit_insert. intros C.
  assert (U : is_map_used (visit_value (KVar x) val v) = false) by (destruct (is_map_used (visit_value (KVar x) val v)); [discriminate C|reflexivity]).
  rewrite U in *. cbn [orb] in *.
  assert (K : key_eqb (KVar x) k' = true) by (destruct (key_eqb (KVar x) k'); [reflexivity|discriminate C]).
  rewrite K in *. cbn [negb] in *. destruct k' as [y|]; [|discriminate K]. cbn in K. apply Nat.eqb_eq in K. subst y.
  destruct val as [n|f|y|f]; cbn [visit_value] in *.
  - split; [tell|]. cbn. repeat split; auto; discriminate.
  - split; [tell|]. cbn. repeat split; auto; discriminate.
  - unfold names in *. destruct (Nat.eqb x y) eqn:E.
    + split; [tell|]. cbn in *. repeat split; auto; discriminate.
    + split; [tell|]. cbn in *. repeat split; auto; discriminate.
  - discriminate U.
Qed.
Lemma visit_told x s : forall il v, source s = true -> can_use_entry (visit il (KVar x) s v) = true -> told x s v (visit il (KVar x) s v).
Proof.
  induction s as [|a IHa b IHb|o k' val|o vac val|f|y f|y f|f|c a IHa b IHb|c a IHa|b IHb| | |f b IHb]; intros il v SO C;
    (destruct (can_use_entry v) eqn:CV; [|rewrite visit_stopped in C by exact CV; congruence]);
    rewrite (visit_unfold _ _ _ v CV) in *; cbn [source] in SO; try discriminate SO.
  - tell.
  - apply andb_true_iff in SO. destruct SO as [SA SB].
    pose proof (IHb il _ SB C) as TB. pose proof (IHa il _ SA (t_can _ _ _ _ TB)) as TA. destruct TA, TB. cbn in *.
    constructor; cbn [mentions inserts]; intros; auto.
    + destruct (t_key1 H) as [M1 M2]. destruct (t_key0 M1) as [M3 M4]. rewrite M4, M2. auto.
    + lia.
    + assert (inserts a = false) by (apply t_inserts0; lia). assert (inserts b = false) by (apply t_inserts1; lia). now rewrite H0, H1.
    + destruct (t_tail0 eq_refl (t_allow1 H0)) as [E1 E2]. destruct (t_tail1 H H0) as [E3 E4]. split; [congruence|auto].
  - destruct o.
    + destruct (told_insert _ _ _ _ C) as [[T1 T2 T3 T4 T5 T6 T7] _]. cbn in *. constructor; cbn; intros; auto.
      * apply T6 in H. rewrite andb_true_r in H. apply andb_true_iff in H. apply H.
    + exact (proj1 (told_insert _ _ _ _ C)).
  - tell.
  - unfold names in *. destruct (Nat.eqb x y) eqn:E; constructor; cbn; rewrite ?E; intros; repeat split; try discriminate; auto; try (rewrite ?andb_true_iff in *; intuition congruence).
  - unfold names in *. destruct (Nat.eqb x y) eqn:E; constructor; cbn; rewrite ?E; intros; repeat split; try discriminate; auto; try (rewrite ?andb_true_iff in *; intuition congruence).
  - tell.
  - apply andb_true_iff in SO. destruct SO as [SA SB]. cbn in C.
    pose proof (IHb il _ SB C) as TB. pose proof (IHa il v SA (t_can _ _ _ _ TB)) as TA. destruct TA, TB. cbn in *.
    constructor; cbn [mentions inserts set_used set_tail is_map_used is_key_used edits allow_insert_closure in_tail_pos can_use_entry] in *; intros; auto.
    + apply orb_false_iff in H. destruct H. auto.
    + destruct (t_key1 H) as [M1 M2]. destruct (t_key0 M1) as [M3 M4]. rewrite M4, M2. auto.
    + lia.
    + assert (inserts a = false) by (apply t_inserts0; lia). assert (inserts b = false) by (apply t_inserts1; lia). now rewrite H0, H1.
    + destruct (t_tail0 H (t_allow1 H0)) as [E1 E2]. destruct (t_tail1 H H0) as [E3 E4]. split; [congruence|auto].
  - pose proof (IHa il _ SO C) as TA. destruct TA. cbn in *. constructor; cbn [mentions inserts]; intros; auto.
    apply t_allow0 in H. rewrite andb_true_r in H. apply andb_true_iff in H. apply H.
  - destruct (Nat.eqb (edits (visit true (KVar x) b (allow (negb (in_tail_pos v)) v))) (edits v)) eqn:E; [|discriminate C].
    pose proof (IHb true _ SO C) as TB. destruct TB. cbn in *. constructor; cbn [mentions inserts]; intros; auto.
    apply t_allow0 in H. apply andb_true_iff in H. apply H.
  - tell.
  - tell.
  - pose proof (IHb false _ SO C) as TA. destruct TA. cbn in *. constructor; cbn [mentions inserts]; intros; auto.
    apply t_allow0 in H. rewrite andb_true_r in H. apply andb_true_iff in H. apply H.
Qed.
