(** Replacing a binding by a pattern; scopes that differ in bindings that are not used. *)
From Verif Require Export PickProofs2 CloFrame.

(** The binding of the variable has no subpattern. *)
Fixpoint bare (x : nat) (p : pat) : bool :=
  match p with
  | PBind _ y sub => match sub with None => true | Some q => negb (Nat.eqb x y) && bare x q end
  | PData _ ps _ => forallb (bare x) ps
  | PSlice b m a => forallb (bare x) b && match m with Some q => bare x q | None => true end && forallb (bare x) a
  | PStruct _ fs _ => forallb (fun y => match y with (_, p) => bare x p end) fs
  | PRef q => bare x q
  | _ => true
  end.

Lemma NoDup_app_l : forall {A} (a b : list A), NoDup (a ++ b) -> NoDup a.
Proof. induction a; cbn; intros b H; constructor; inversion H; subst; [intros I; apply H2, in_or_app; auto|eauto]. Qed.
Lemma NoDup_app_r : forall {A} (a b : list A), NoDup (a ++ b) -> NoDup b.
Proof. induction a; cbn; intros b H; auto. inversion H; subst; eauto. Qed.
Lemma NoDup_app_in : forall {A} (a b : list A) x, NoDup (a ++ b) -> In x a -> In x b -> False.
Proof. induction a; cbn; intros b x H I J; [tauto|]. inversion H; subst. destruct I as [->|I]; [apply H2, in_or_app; auto|eauto]. Qed.

Section Put.
  Variable x : nat.
  Variable q : pat.

  Definition plus (m n : option (list binding)) : option (list binding) :=
    match m, n with Some a, Some b => Some (a ++ b) | _, _ => None end.
  Definition good (r : bool) (m m' : option (list binding)) : Prop :=
    match m with
    | None => m' = None
    | Some bs => exists b1 u b2, bs = b1 ++ (x, if r then VRef u else u) :: b2 /\
        m' = match match_pat q u with Some bs' => Some (b1 ++ bs' ++ b2) | None => None end
    end.
  Lemma good_l : forall r m m' n, good r m m' -> good r (plus m n) (plus m' n).
  Proof.
    intros r [a|] m' n G; cbn in *; [|subst; reflexivity]. destruct G as (b1 & u & b2 & -> & ->).
    destruct n as [b|]; cbn; [|destruct (match_pat q u); reflexivity].
    exists b1, u, (b2 ++ b). split; [rewrite <- app_assoc; reflexivity|]. destruct (match_pat q u); cbn; auto. rewrite <- !app_assoc. reflexivity.
  Qed.
  Lemma good_r : forall r m n n', good r n n' -> good r (plus m n) (plus m n').
  Proof.
    intros r [a|] n n' G; cbn in *; auto. destruct n as [b|]; cbn in *; [|subst; reflexivity]. destruct G as (b1 & u & b2 & -> & ->).
    exists (a ++ b1), u, b2. split; [rewrite <- app_assoc; reflexivity|]. destruct (match_pat q u); cbn; auto. rewrite <- !app_assoc. reflexivity.
  Qed.
  Lemma match_all_cons : forall p ps v vs, match_all (p :: ps) (v :: vs) = plus (match_pat p v) (match_all ps vs).
  Proof. reflexivity. Qed.

  (** Nothing to replace. *)
  Lemma put_none : forall p, ~ In x (pat_vars p) -> put x q p = p /\ mode_of x p = None.
  Proof.
    assert (L : forall ps, Forall (fun p => ~ In x (pat_vars p) -> put x q p = p /\ mode_of x p = None) ps -> ~ In x (flat_map pat_vars ps) ->
      map (put x q) ps = ps /\ fold_right (fun p o => match mode_of x p with Some b => Some b | None => o end) None ps = None).
    { induction 1 as [|p ps P _ IH]; intros N; auto. cbn in N. destruct P as [A B]; [intros I; apply N, in_or_app; auto|].
      destruct IH as [C D]; [intros I; apply N, in_or_app; auto|]. cbn. rewrite A, B, C, D. auto. }
    induction p using pat_ind'; intros N; cbn in N; auto.
    - cbn. destruct (Nat.eqb_spec x x0); [subst; tauto|]. auto.
    - cbn. destruct (Nat.eqb_spec x x0); [subst; tauto|]. destruct IHp as [A B]; auto. cbn. rewrite A, B. auto.
    - destruct (L ps H N) as [A B]. cbn. rewrite A, B. auto.
    - destruct (L b) as [A B]; [auto|intros I; apply N, in_or_app; auto|]. destruct (L a) as [C D]; [auto|intros I; apply N; apply in_or_app; right; apply in_or_app; auto|].
      cbn. rewrite A, B, C, D. destruct m as [m|]; [|auto]. cbn. destruct H0 as [E G]; [intros I; apply N; apply in_or_app; right; apply in_or_app; auto|].
      rewrite E, G. auto.
    - assert (G : map (fun y : nat * pat => match y with (i, p) => (i, put x q p) end) fs = fs /\
        fold_right (fun (y : nat * pat) o => match y with (_, p) => match mode_of x p with Some b => Some b | None => o end end) None fs = None).
      { induction H as [|[i p] fs P _ IH]; auto. cbn in N, P. destruct P as [A B]; [intros I; apply N, in_or_app; auto|].
        destruct IH as [C D]; [intros I; apply N, in_or_app; auto|]. cbn. rewrite A, B, C, D. auto. }
      destruct G as [A B]. cbn. rewrite A, B. auto.
    - cbn. destruct IHp as [A B]; auto. rewrite A, B. auto.
  Qed.

  Definition puts (p : pat) : Prop := NoDup (pat_vars p) -> In x (pat_vars p) -> bare x p = true ->
    exists r, mode_of x p = Some r /\ forall v, good r (match_pat p v) (match_pat (put x q p) v).
  Definition first_mode (ps : list pat) : option bool :=
    fold_right (fun p o => match mode_of x p with Some b => Some b | None => o end) None ps.
  Lemma puts_list : forall ps, Forall puts ps -> NoDup (flat_map pat_vars ps) -> In x (flat_map pat_vars ps) -> forallb (bare x) ps = true ->
    exists r, first_mode ps = Some r /\ forall vs, good r (match_all ps vs) (match_all (map (put x q) ps) vs).
  Proof.
    induction 1 as [|p ps P F IH]; intros N I B; [destruct I|]. cbn [flat_map] in N, I. cbn [forallb] in B. apply andb_true_iff in B. destruct B as [B1 B2].
    assert (N1 : NoDup (pat_vars p)) by (eapply NoDup_app_l; eauto). assert (N2 : NoDup (flat_map pat_vars ps)) by (eapply NoDup_app_r; eauto).
    destruct (in_dec Nat.eq_dec x (pat_vars p)) as [J|J].
    - destruct (P N1 J B1) as (r & M & G). exists r. cbn. rewrite M. split; auto. intros [|v vs]; [reflexivity|].
      assert (E : map (put x q) ps = ps).
      { rewrite <- (map_id ps) at 2. apply map_ext_in. intros p' I'. apply put_none. intros J'.
        eapply NoDup_app_in; eauto. apply in_flat_map. eauto. }
      change (good r (plus (match_pat p v) (match_all ps vs)) (plus (match_pat (put x q p) v) (match_all (map (put x q) ps) vs))). rewrite E. apply good_l, G.
    - apply in_app_or in I. destruct I as [I|I]; [tauto|]. destruct (IH N2 I B2) as (r & M & G). exists r. destruct (put_none p J) as [E1 E2].
      cbn. fold (first_mode ps). rewrite E2. split; auto. intros [|v vs]; [reflexivity|].
      change (good r (plus (match_pat p v) (match_all ps vs)) (plus (match_pat (put x q p) v) (match_all (map (put x q) ps) vs))). rewrite E1. apply good_r, G.
  Qed.
  Lemma match_bind : forall r y sub v, match_pat (PBind r y sub) v =
    match match sub with Some p => match_pat p v | None => Some [] end with Some bs => Some ((y, if r then VRef v else v) :: bs) | None => None end.
  Proof. intros r y [p|] v; reflexivity. Qed.
  Lemma match_slice_rest : forall b m a vs, match_pat (PSlice b (Some m) a) (VData KArr vs) =
    if length b + length a <=? length vs
    then plus (match_all b (firstn (length b) vs))
           (plus (match_pat m (VData KArr (firstn (length vs - (length b + length a)) (skipn (length b) vs)))) (match_all a (skipn (length vs - length a) vs)))
    else None.
  Proof.
    intros. change (match_pat (PSlice b (Some m) a) (VData KArr vs)) with
        (if length b + length a <=? length vs
         then match match_all b (firstn (length b) vs),
                 match_pat m (VData KArr (firstn (length vs - (length b + length a)) (skipn (length b) vs))),
                 match_all a (skipn (length vs - length a) vs) with
              | Some x, Some y, Some z => Some (x ++ y ++ z)
              | _, _, _ => None
              end else None).
    destruct (length b + length a <=? length vs); auto.
    destruct (match_all b _), (match_pat m _), (match_all a _); reflexivity.
  Qed.
  Lemma put_match : forall p, puts p.
  Proof.
    induction p using pat_ind'; unfold puts; intros N I B; cbn in I; try tauto.
    - destruct I as [->|[]]. exists r. cbn. rewrite Nat.eqb_refl. split; auto. intros v. exists [], v, []. split; auto.
      destruct (match_pat q v); auto. rewrite app_nil_r. reflexivity.
    - cbn in B. apply andb_true_iff in B. destruct B as [NE B]. destruct (Nat.eqb_spec x x0); [discriminate|]. destruct I as [I|I]; [congruence|].
      cbn in N. inversion N as [|? ? N1 N2]; subst. destruct (IHp N2 I B) as (r' & M & G). exists r'. cbn.
      destruct (Nat.eqb_spec x x0); [congruence|]. split; auto. intros v. cbn. specialize (G v).
      exact (good_r r' (Some [(x0, if r then VRef v else v)]) _ _ G).
    - destruct (puts_list ps H N I B) as (r & M & G). exists r. split; [exact M|]. intros v.
      destruct v as [| |k' vs| |]; try (destruct d; reflexivity). cbn [put]. destruct d as [n|].
      + rewrite !match_dots, map_length. destruct (kind_eqb k k' && (length ps <=? length vs)); [apply G|reflexivity].
      + rewrite !match_data. destruct (kind_eqb k k'); [apply G|reflexivity].
    - cbn in N, B. apply andb_true_iff in B. destruct B as [B B3]. apply andb_true_iff in B. destruct B as [B1 B2].
      assert (N1 : NoDup (flat_map pat_vars b)) by (eapply NoDup_app_l; eauto).
      assert (N' : NoDup (match m with Some q => pat_vars q | None => [] end ++ flat_map pat_vars a)) by (eapply NoDup_app_r; eauto).
      assert (N3 : NoDup (flat_map pat_vars a)) by (eapply NoDup_app_r; eauto).
      assert (K : forall ps, ~ In x (flat_map pat_vars ps) -> map (put x q) ps = ps /\ first_mode ps = None).
      { intros ps J. destruct (put_none (PData KTup ps None) J) as [E1 E2]. cbn in E1, E2. inversion E1 as [E1']. rewrite !E1'. split; auto. }
      assert (MODE : mode_of x (PSlice b m a) = match first_mode b with Some r => Some r | None =>
        match match m with Some q => mode_of x q | None => None end with Some r => Some r | None => first_mode a end end) by reflexivity.
      destruct (in_dec Nat.eq_dec x (flat_map pat_vars b)) as [J1|J1].
      { destruct (puts_list b H N1 J1 B1) as (r & M & G). exists r. rewrite MODE, M. split; auto. intros v.
        destruct (K a) as [E1 _]; [intros J; eapply NoDup_app_in; [exact N|exact J1|apply in_or_app; auto]|].
        destruct v as [| |[] vs| |]; try (destruct m; reflexivity). cbn [put]. rewrite E1. destruct m as [m|].
        - destruct (put_none m) as [E2 _]; [intros J; eapply NoDup_app_in; [exact N|exact J1|apply in_or_app; auto]|].
          cbn [option_map]. rewrite E2, !match_slice_rest, map_length. destruct (length b + length a <=? length vs); [apply good_l, G|reflexivity].
        - cbn [option_map]. rewrite !match_slice, map_length. apply good_l, G. }
      apply in_app_or in I. destruct I as [I|I]; [tauto|]. destruct (K b J1) as [E1 E1'].
      destruct m as [m|].
      + destruct (in_dec Nat.eq_dec x (pat_vars m)) as [J2|J2].
        { destruct H0 as (r & M & G); auto; [eapply NoDup_app_l; eauto|]. exists r. rewrite MODE, E1', M. split; auto. intros v.
          destruct (K a) as [E2 _]; [intros J; eapply NoDup_app_in; [exact N'|exact J2|exact J]|].
          destruct v as [| |[] vs| |]; try reflexivity. cbn [put option_map]. rewrite E1, E2, !match_slice_rest.
          destruct (length b + length a <=? length vs); [apply good_r, good_l, G|reflexivity]. }
        apply in_app_or in I. destruct I as [I|I]; [tauto|]. destruct (puts_list a H1 N3 I B3) as (r & M & G). exists r.
        destruct (put_none m J2) as [E2 E2']. rewrite MODE, E1', E2'. split; auto. intros v. destruct v as [| |[] vs| |]; try reflexivity.
        cbn [put option_map]. rewrite E1, E2, !match_slice_rest, map_length.
        destruct (length b + length a <=? length vs); [apply good_r, good_r, G|reflexivity].
      + cbn [app] in I. destruct (puts_list a H1 N3 I B3) as (r & M & G). exists r. rewrite MODE, E1'. split; auto. intros v.
        destruct v as [| |[] vs| |]; try reflexivity. cbn [put option_map]. rewrite E1, !match_slice. apply good_r, G.
    - cbn in N, B.
      set (pf := fun y : nat * pat => match y with (i, p) => (i, put x q p) end).
      assert (G : exists r0, fold_right (fun (y : nat * pat) o => match y with (_, p) => match mode_of x p with Some b => Some b | None => o end end) None fs = Some r0 /\
        forall vs, good r0 (match_fields vs fs) (match_fields vs (map pf fs))).
      { induction H as [|[i p] fs P F IH]; [destruct I|]. cbn [flat_map] in N, I. cbn [forallb] in B. apply andb_true_iff in B. destruct B as [B1 B2].
        assert (N1 : NoDup (pat_vars p)) by (eapply NoDup_app_l; eauto).
        assert (N2 : NoDup (flat_map (fun y : nat * pat => match y with (_, q) => pat_vars q end) fs)) by (eapply NoDup_app_r; eauto).
        assert (MF : forall vs i p fs, match_fields vs ((i, p) :: fs) = match nth_error vs i with Some v => plus (match_pat p v) (match_fields vs fs) | None => None end)
          by reflexivity.
        destruct (in_dec Nat.eq_dec x (pat_vars p)) as [J|J].
        - destruct (P N1 J B1) as (r0 & M & G). cbn [snd] in M, G. exists r0. cbn [fold_right]. rewrite M. split; auto. intros vs.
          assert (E : map pf fs = fs).
          { rewrite <- (map_id fs) at 2. apply map_ext_in. intros [i' p'] I'. unfold pf. f_equal. apply put_none. intros J'.
            eapply NoDup_app_in; eauto. apply in_flat_map. exists (i', p'). auto. }
          cbn [map]. rewrite E. unfold pf at 1. rewrite !MF. destruct (nth_error vs i); [apply good_l, G|reflexivity].
        - apply in_app_or in I. destruct I as [I|I]; [tauto|]. destruct (IH N2 I B2) as (r0 & M & G). exists r0. destruct (put_none p J) as [E1 E2].
          cbn [fold_right]. rewrite E2. split; auto. intros vs. cbn [map]. unfold pf at 1. rewrite E1, !MF. destruct (nth_error vs i); [apply good_r, G|reflexivity]. }
      destruct G as (r0 & M & G). exists r0. split; [exact M|]. intros v. destruct v as [| |[| |c'] vs| |]; try reflexivity.
      cbn [put]. fold pf. rewrite !match_struct, map_length.
      assert (E : map fst (map pf fs) = map fst fs) by (rewrite map_map; apply map_ext; intros [i p]; reflexivity).
      rewrite E. destruct (Nat.eqb c c' && nodupb (map fst fs) && (r || Nat.eqb (length fs) (length vs))); [apply G|reflexivity].
    - destruct (IHp N I B) as (r & M & G). exists r. split; [exact M|]. intros v. destruct v; try reflexivity. apply G.
  Qed.
End Put.
