From Coq Require Import List Bool PeanoNat Lia.
Import ListNotations.
From Verif Require Import AsrSpec AsrModel.

Lemma in_bounds_needed len i : in_bounds len i = true <-> needed i <= len.
Proof. destruct i; unfold in_bounds, needed; rewrite ?Nat.ltb_lt, ?Nat.leb_le; lia. Qed.

Lemma find_put v w e m : find_ v (put w e m) = if Nat.eqb v w then Some e else find_ v m.
Proof.
  induction m as [|[x f] m IH]; cbn.
  - destruct (Nat.eqb v w); reflexivity.
  - destruct (Nat.eqb_spec w x) as [->|N]; cbn.
    + destruct (Nat.eqb v x); reflexivity.
    + destruct (Nat.eqb_spec v x) as [->|]; [|exact IH].
      destruct (Nat.eqb_spec x w); [congruence|reflexivity].
Qed.

(* What the map says about one slice *)
Definition step (v : name) (s : stmt) (e : option entry) : option entry :=
  match s with
  | Index w i => if Nat.eqb v w then match upper_index_expr i with Some n => Some (on_index n e) | None => e end else e
  | Check w c n k => if Nat.eqb v w then match e with Some _ => e | None => Some (StrayAssert n c k) end else e
  | _ => e
  end.
Fixpoint steps (v : name) (ss : list stmt) (e : option entry) : option entry :=
  match ss with [] => e | s :: ss => steps v ss (step v s e) end.
Lemma find_visits v ss : straight ss -> forall m, find_ v (visits ss m) = steps v ss (find_ v m).
Proof.
  induction ss as [|s ss IH]; intros H m; [reflexivity|]. cbn.
  rewrite IH by (intros x Hx; apply H; right; exact Hx). f_equal.
  specialize (H s (or_introl eq_refl)). destruct s; try contradiction; cbn.
  - unfold check_index. destruct (upper_index_expr i) as [n|].
    + rewrite find_put. destruct (Nat.eqb_spec v v0) as [->|]; reflexivity.
    + destruct (Nat.eqb v v0); reflexivity.
  - unfold check_assert. destruct (Nat.eqb_spec v v0) as [<-|N].
    + destruct (find_ v m) eqn:E; [exact E|]. rewrite find_put, Nat.eqb_refl. reflexivity.
    + destruct (find_ v0 m); [reflexivity|]. rewrite find_put. destruct (Nat.eqb_spec v v0); [congruence|reflexivity].
Qed.

(* The indices that count *)
Fixpoint uppers (v : name) (ss : list stmt) : list nat :=
  match ss with
  | [] => []
  | Index w i :: ss => if Nat.eqb v w then match upper_index_expr i with Some n => n :: uppers v ss | None => uppers v ss end else uppers v ss
  | _ :: ss => uppers v ss
  end.
Definition top (h : nat) (l : list nat) : nat := fold_left Nat.max l h.
Definition below (h : nat) (l : list nat) : bool := forallb (fun k => k <=? h) l.

Lemma top_ge l : forall h, h <= top h l.
Proof. unfold top. induction l; cbn; intros h; [lia|]. etransitivity; [|apply IHl]. lia. Qed.
Lemma top_in l : forall h k, In k l -> k <= top h l.
Proof.
  unfold top. induction l; cbn; intros h k; [contradiction|]. intros [->|H]; [|apply IHl, H].
  etransitivity; [|apply (top_ge l)]. lia.
Qed.
Lemma top_is l : forall h, top h l = h \/ In (top h l) l.
Proof.
  unfold top. induction l; cbn; intros h; [auto|]. destruct (IHl (Nat.max h a)) as [H|H]; [|auto].
  destruct (Nat.max_spec h a) as [[? E]|[? E]]; rewrite E in H |- *; auto.
Qed.
Lemma below_false h l : below h l = false -> h < top h l.
Proof.
  unfold below. intros H. assert (E : exists k, In k l /\ h < k).
  { induction l as [|a l IH]; cbn in H; [discriminate|]. destruct (a <=? h) eqn:A.
    - destruct (IH H) as (k & K1 & K2). exists k. split; [right; exact K1|exact K2].
    - exists a. apply Nat.leb_gt in A. split; [left; reflexivity|exact A]. }
  destruct E as (k & K1 & K2). pose proof (top_in l h k K1). lia.
Qed.
Lemma below_true h l : below h l = true -> top h l = h.
Proof.
  intros H. destruct (top_is l h) as [E|E]; [exact E|]. unfold below in H. rewrite forallb_forall in H.
  specialize (H _ E). apply Nat.leb_le in H. pose proof (top_ge l h). lia.
Qed.

Lemma steps_index v ss : straight ss -> forall h f n,
  steps v ss (Some (IndexWithoutAssert h f n)) = Some (IndexWithoutAssert (top h (uppers v ss)) (f && below h (uppers v ss)) (n + length (uppers v ss))).
Proof.
  induction ss as [|s ss IH]; intros H h f n; cbn.
  - rewrite andb_true_r, Nat.add_0_r. reflexivity.
  - assert (H' : straight ss) by (intros x Hx; apply H; right; exact Hx).
    specialize (H s (or_introl eq_refl)). destruct s; try contradiction; cbn.
    + destruct (Nat.eqb v v0); [|apply IH, H']. destruct (upper_index_expr i) as [k|]; [|apply IH, H'].
      cbn. rewrite IH by exact H'. f_equal. f_equal.
      * unfold below. cbn. destruct f; [|reflexivity]. cbn. destruct (k <=? h) eqn:K; [|reflexivity]. cbn.
        apply Nat.leb_le in K. rewrite Nat.max_l by exact K. reflexivity.
      * cbn. lia.
    + destruct (Nat.eqb v v0); apply IH, H'.
Qed.
Lemma steps_assert v ss len c m : straight ss -> forall h f n,
  steps v ss (Some (AssertWithIndex h f len c m n)) = Some (AssertWithIndex (top h (uppers v ss)) (f && below h (uppers v ss)) len c m (n + length (uppers v ss))).
Proof.
  induction ss as [|s ss IH]; intros H h f n; cbn.
  - rewrite andb_true_r, Nat.add_0_r. reflexivity.
  - assert (H' : straight ss) by (intros x Hx; apply H; right; exact Hx).
    specialize (H s (or_introl eq_refl)). destruct s; try contradiction; cbn.
    + destruct (Nat.eqb v v0); [|apply IH, H']. destruct (upper_index_expr i) as [k|]; [|apply IH, H'].
      cbn. rewrite IH by exact H'. f_equal. f_equal.
      * unfold below. cbn. destruct f; [|reflexivity]. cbn. destruct (k <=? h) eqn:K; [|reflexivity]. cbn.
        apply Nat.leb_le in K. rewrite Nat.max_l by exact K. reflexivity.
      * cbn. lia.
    + destruct (Nat.eqb v v0); apply IH, H'.
Qed.
Definition tops (ks : list nat) : option (nat * bool * nat) :=
  match ks with [] => None | k :: ks => Some (top k ks, below k ks, S (length ks)) end.
Lemma steps_stray v ss len c m : straight ss ->
  steps v ss (Some (StrayAssert len c m)) =
  Some (match tops (uppers v ss) with None => StrayAssert len c m | Some (h, f, n) => AssertWithIndex h f len c m n end).
Proof.
  induction ss as [|s ss IH]; intros H; cbn; [reflexivity|].
  assert (H' : straight ss) by (intros x Hx; apply H; right; exact Hx).
  specialize (H s (or_introl eq_refl)). destruct s; try contradiction; cbn.
  - destruct (Nat.eqb v v0); [|apply IH, H']. destruct (upper_index_expr i) as [k|]; [|apply IH, H'].
    cbn. rewrite steps_assert by exact H'. reflexivity.
  - destruct (Nat.eqb v v0); apply IH, H'.
Qed.
(* What counts first *)
Fixpoint leading (v : name) (ss : list stmt) : option (cmp * nat * macro) :=
  match ss with
  | [] => None
  | Index w i :: ss => if Nat.eqb v w then match upper_index_expr i with Some n => None | None => leading v ss end else leading v ss
  | Check w c n m :: ss => if Nat.eqb v w then Some (c, n, m) else leading v ss
  | _ :: ss => leading v ss
  end.
Lemma steps_none v ss : straight ss ->
  steps v ss None =
  match leading v ss, tops (uppers v ss) with
  | None, None => None
  | None, Some (h, f, n) => Some (IndexWithoutAssert h f n)
  | Some (c, len, m), None => Some (StrayAssert len c m)
  | Some (c, len, m), Some (h, f, n) => Some (AssertWithIndex h f len c m n)
  end.
Proof.
  induction ss as [|s ss IH]; intros H; cbn; [reflexivity|].
  assert (H' : straight ss) by (intros x Hx; apply H; right; exact Hx).
  specialize (H s (or_introl eq_refl)). destruct s; try contradiction; cbn.
  - destruct (Nat.eqb v v0); [|apply IH, H']. destruct (upper_index_expr i) as [k|]; [|apply IH, H'].
    cbn. rewrite steps_index by exact H'. reflexivity.
  - destruct (Nat.eqb v v0); [|apply IH, H']. rewrite steps_stray by exact H'. destruct (tops (uppers v ss)) as [[[h f] k]|]; reflexivity.
Qed.

(* The report, by what counts *)
Definition verdict (v : name) (ss : list stmt) : option sugg :=
  match uppers v ss with
  | [] => None
  | k :: ks =>
      if below k ks then None else
      let h := top k ks in
      match leading v ss with
      | None => Some (Add h)
      | Some (c, len, m) =>
          match c with
          | Less | LessEq => Some (Replace More h Assert)
          | More => if len <? h then Some (Replace More h Assert) else None
          | MoreEq => if len <=? h then Some (Replace More h Assert) else None
          | Equal => if len <? h + 1 then Some (Replace Equal (h + 1) m) else None
          end
      end
  end.
Lemma report_verdict v ss : straight ss -> report v ss = verdict v ss.
Proof.
  intros H. unfold report, verdict. rewrite find_visits by exact H. cbn [find_]. rewrite steps_none by exact H.
  destruct (uppers v ss) as [|k ks] eqn:U; cbn [tops].
  - destruct (leading v ss) as [[[c n] m]|]; reflexivity.
  - assert (N : below k ks = false -> (1 <? S (length ks)) = true).
    { destruct ks; [discriminate|]. intros _. reflexivity. }
    destruct (leading v ss) as [[[c n] m]|]; cbn [report_entry]; destruct (below k ks) eqn:B; rewrite ?andb_false_r, ?(N eq_refl); reflexivity.
Qed.

(* The indices that count are those that need a length, but for v[..=0] *)
Lemma upper_needed i n : upper_index_expr i = Some n -> needed i = S n.
Proof. destruct i as [k|a [|b]|a [|b]]; cbn; intros H; inversion H; reflexivity. Qed.
Lemma upper_none i : upper_index_expr i = None -> through_zero i = false -> needed i = 0.
Proof. destruct i as [k|a [|b]|a [|b]]; cbn; intros; congruence. Qed.
Lemma checks_uppers v ss : straight ss -> (forall i, In (Index v i) ss -> through_zero i = false) ->
  map needed (checks v ss) = map S (uppers v ss).
Proof.
  induction ss as [|s ss IH]; intros H Z; [reflexivity|].
  assert (H' : straight ss) by (intros x Hx; apply H; right; exact Hx).
  assert (IH' := IH H' (fun i Hi => Z i (or_intror Hi))).
  specialize (H s (or_introl eq_refl)). destruct s; try contradiction; cbn; [|exact IH'].
  destruct (Nat.eqb_spec v v0) as [->|]; cbn [andb]; [|exact IH'].
  destruct (upper_index_expr i) as [n|] eqn:U.
  - rewrite (upper_needed _ _ U). cbn. rewrite (upper_needed _ _ U), IH'. reflexivity.
  - rewrite (upper_none _ U (Z i (or_introl eq_refl))). cbn. exact IH'.
Qed.
Lemma leading_first v ss : straight ss -> (forall i, In (Index v i) ss -> through_zero i = false) ->
  forall c n m, leading v ss = Some (c, n, m) <-> first_about v ss = Some (Check v c n m).
Proof.
  induction ss as [|s ss IH]; intros H Z c n m; [split; discriminate|].
  assert (H' : straight ss) by (intros x Hx; apply H; right; exact Hx).
  assert (IH' := IH H' (fun i Hi => Z i (or_intror Hi)) c n m).
  specialize (H s (or_introl eq_refl)). destruct s; try contradiction; cbn.
  - destruct (Nat.eqb_spec v v0) as [->|]; cbn [andb]; [|exact IH'].
    destruct (upper_index_expr i) as [k|] eqn:U.
    + rewrite (upper_needed _ _ U). cbn. split; discriminate.
    + rewrite (upper_none _ U (Z i (or_introl eq_refl))). cbn. exact IH'.
  - destruct (Nat.eqb_spec v v0) as [->|]; [|exact IH'].
    split; intros E; inversion E; reflexivity.
Qed.
