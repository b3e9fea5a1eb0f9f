(** What the blocking indices of match_same_arms tell. *)
From Verif Require Export ArmsMerge.
From Verif Require SameSearch.
From Coq Require Import Sorted.

Definition ov := has_overlapping_values.
Lemma find_enum {X} (f : X -> bool) l : forall k,
  match find_map (fun jq => if f (snd jq) then Some (fst jq) else None) (enumerate k l) with
  | Some j => k <= j /\ (exists x, nth_error l (j - k) = Some x /\ f x = true) /\ forall i x, i < j - k -> nth_error l i = Some x -> f x = false
  | None => forall i x, nth_error l i = Some x -> f x = false
  end.
Proof.
  unfold enumerate. induction l as [|y l IH]; intros k; [intros [|i] x N; discriminate N|]. cbn [length seq combine find_map fst snd]. destruct (f y) eqn:F.
  - rewrite Nat.sub_diag. split; [auto|]. split; [exists y; auto|]. intros i x L. lia.
  - specialize (IH (S k)). destruct (find_map _ _) as [j|].
    + destruct IH as (L & (x & N & T) & H). split; [lia|]. replace (j - k) with (S (j - S k)) by lia. split; [exists x; auto|]. intros [|i] z LT N'; [injection N' as <-; exact F|]. apply (H i z); [lia|exact N'].
    + intros [|i] z N; [injection N as <-; exact F|]. exact (IH i z N).
Qed.
Lemma nth_enum {X} (f : nat * X -> nat) l : forall k i x, nth_error l i = Some x -> nth i (map f (enumerate k l)) 0 = f (k + i, x).
Proof.
  unfold enumerate. induction l as [|y l IH]; intros k [|i] x N; try discriminate N; cbn.
  - injection N as ->. rewrite Nat.add_0_r. reflexivity.
  - rewrite (IH (S k) i x N). f_equal. f_equal. lia.
Qed.
Lemma nth_skipn {X} k : forall (l : list X) i, nth_error (skipn k l) i = nth_error l (k + i).
Proof. induction k as [|k IH]; intros l i; [reflexivity|]. destruct l; cbn; [destruct i; reflexivity|]. apply IH. Qed.
Section Index.
  Variable ps : list npat.
  Notation F := (forwards_blocking_idxs ps).
  (** The first pattern after [i] that overlaps. *)
  Lemma fwd_spec i p : nth_error ps i = Some p -> let f := nth i F 0 in
    i < f <= length ps /\ (forall q, nth_error ps f = Some q -> ov p q = true) /\ forall k q, i < k < f -> nth_error ps k = Some q -> ov p q = false.
  Proof.
    intros N. cbn zeta. unfold forwards_blocking_idxs. rewrite (nth_enum _ ps 0 i p N). cbn [Nat.add fst snd]. pose proof (find_enum (ov p) (skipn (S i) ps) (S i)) as H.
    assert (LI : i < length ps) by (apply nth_error_Some; congruence). unfold ov in H. destruct (find_map _ _) as [j|].
    - destruct H as (L & (x & N' & T) & H). rewrite nth_skipn in N'. replace (S i + (j - S i)) with j in N' by lia. assert (j < length ps) by (apply nth_error_Some; congruence). split; [lia|]. split.
      + intros q Q. assert (x = q) by congruence. subst. exact T.
      + intros k q LK Q. apply (H (k - S i)); [lia|]. rewrite nth_skipn. replace (S i + (k - S i)) with k by lia. exact Q.
    - split; [lia|]. split.
      + intros q Q. rewrite (proj2 (nth_error_None ps (length ps))) in Q by lia. discriminate Q.
      + intros k q LK Q. apply (H (k - S i)). rewrite nth_skipn. replace (S i + (k - S i)) with k by lia. exact Q.
  Qed.
  Lemma fwd_length : length F = length ps.
  Proof. unfold forwards_blocking_idxs, enumerate. rewrite map_length, combine_length, seq_length. lia. Qed.
  (** The rows that are looked at, from the last to the first. *)
  Fixpoint rows (i : nat) : list (nat * npat * nat) := match i with 0 => [] | S k => (k, nth k ps NWild, nth k F 0) :: rows k end.
  Lemma firstn_snoc {X} (d : X) i : forall l, i < length l -> firstn (S i) l = firstn i l ++ [nth i l d].
  Proof. induction i as [|i IH]; intros [|x l] L; cbn in L; try lia; [reflexivity|]. change (firstn (S (S i)) (x :: l)) with (x :: firstn (S i) l). rewrite IH by lia. reflexivity. Qed.
  Lemma enum_snoc {X} (l : list X) x : forall k, enumerate k (l ++ [x]) = enumerate k l ++ [(k + length l, x)].
  Proof. unfold enumerate. induction l as [|y l IH]; intros k; cbn; [rewrite Nat.add_0_r; reflexivity|]. rewrite (IH (S k)). do 4 f_equal. lia. Qed.
  Lemma rows_spec i : i <= length ps -> combine (rev (enumerate 0 (firstn i ps))) (rev (firstn i F)) = rows i.
  Proof.
    induction i as [|i IH]; intros L; [reflexivity|]. rewrite (firstn_snoc NWild), (firstn_snoc 0) by (rewrite ?fwd_length; lia). rewrite enum_snoc, !rev_app_distr. cbn [rev app combine Nat.add rows].
    rewrite firstn_length, Nat.min_l by lia. f_equal. apply IH. lia.
  Qed.
  Section Scan.
    Variable i : nat. Variable p : npat.
    Notation test := (fun jf : nat * npat * nat => let '((j, other), forward_block) := jf in if (forward_block =? i) || ov p other then Some j else None).
    Definition clear (k : nat) : Prop := nth k F 0 <> i /\ ov p (nth k ps NWild) = false.
    Lemma find_rows n : match find_map test (rows n) with
      | Some j => j < n /\ (nth j F 0 = i \/ ov p (nth j ps NWild) = true) /\ forall k, j < k < n -> clear k
      | None => forall k, k < n -> clear k end.
    Proof.
      induction n as [|n IH]; cbn; [intros; lia|]. destruct (Nat.eqb_spec (nth n F 0) i) as [E|E]; cbn; [split; [lia|]; split; [auto|intros; lia]|].
      destruct (ov p (nth n ps NWild)) eqn:O; [split; [lia|]; split; [auto|intros; lia]|]. destruct (find_map _ (rows n)) as [j|].
      - destruct IH as (L & Q & H). split; [lia|]. split; [exact Q|]. intros k LK. destruct (Nat.eq_dec k n) as [->|]; [split; auto|]. apply H. lia.
      - intros k LK. destruct (Nat.eq_dec k n) as [->|]; [split; auto|]. apply IH. lia.
    Qed.
    Lemma scan_rows n : match find_map test (skip_while (fun jf => i <? snd jf) (rows n)) with
      | Some j => j < n /\ (nth j F 0 = i \/ ov p (nth j ps NWild) = true) /\ forall k, j < k < n -> i < nth k F 0 \/ clear k
      | None => forall k, k < n -> i < nth k F 0 \/ clear k end.
    Proof.
      induction n as [|n IH]; [cbn; intros; lia|]; cbn [rows skip_while]. cbn [snd]. destruct (Nat.ltb_spec i (nth n F 0)) as [L|L].
      - destruct (find_map _ _) as [j|].
        + destruct IH as (LJ & Q & H). split; [lia|]. split; [exact Q|]. intros k LK. destruct (Nat.eq_dec k n) as [->|]; [auto|]. apply H. lia.
        + intros k LK. destruct (Nat.eq_dec k n) as [->|]; [auto|]. apply IH. lia.
      - pose proof (find_rows (S n)) as H. cbn [rows] in H. clear IH. destruct (find_map _ _) as [j|]; [destruct H as (A & C & H); split; [exact A|]; split; [exact C|]|]; intros k LK; right; apply H; exact LK.
    Qed.
  End Scan.
  (** The last pattern before [i] that overlaps, or 0. *)
  Lemma bwd_spec i p : nth_error ps i = Some p -> let b := nth i (backwards_blocking_idxs ps) 0 in
    (b = 0 \/ exists q, b < i /\ nth_error ps b = Some q /\ (ov q p = true \/ ov p q = true)) /\
    forall k q, b < k < i -> nth_error ps k = Some q -> ov q p = false \/ ov p q = false.
  Proof.
    intros N. cbn zeta. unfold backwards_blocking_idxs. rewrite (nth_enum _ ps 0 i p N). cbn [Nat.add]. assert (LI : i < length ps) by (apply nth_error_Some; congruence).
    rewrite rows_spec by lia. pose proof (scan_rows i p i) as H. unfold ov in H.
    assert (NTH : forall k q, nth_error ps k = Some q -> nth k ps NWild = q) by (intros k q Q; apply nth_error_nth; exact Q).
    assert (CL : forall k q, k < i -> nth_error ps k = Some q -> i < nth k F 0 \/ clear i p k -> ov q p = false \/ ov p q = false).
    { intros k q LK Q [L|[_ C]]; [left|right; rewrite (NTH k q Q) in C; exact C]. destruct (fwd_spec k q Q) as (_ & _ & A). apply (A i p); [lia|exact N]. }
    destruct (find_map _ _) as [j|].
    - destruct H as (L & Q & H). split; [|intros k q LK Qk; apply (CL k q); [lia|exact Qk|]; apply H; lia]. right. destruct (nth_error ps j) as [q|] eqn:Qj; [|apply nth_error_None in Qj; lia]. exists q. split; [exact L|]. split; [reflexivity|].
      destruct Q as [Q|Q]; [left|right; rewrite (NTH j q Qj) in Q; exact Q]. destruct (fwd_spec j q Qj) as (_ & A & _). apply A. rewrite Q. exact N.
    - split; [auto|]. intros k q LK Qk. apply (CL k q); [lia|exact Qk|]. apply H. lia.
  Qed.
End Index.

Section Lint.
  Context {G B S R : Type}.
  Variable guard_ : G -> env -> S -> option (bool * S).
  Variable body_ : B -> env -> S -> R.
  Variable t : types.
  Notation arm := (arm G B). Notation run := (run guard_ body_). Notation agree := (agree guard_ body_).
  Variable same : arm -> arm -> bool.
  Variable hash : arm -> list Z.
  Variable arms : list arm.
  Hypothesis same_agree : forall a b, same a b = true -> agree a b.
  Hypothesis reg : forall a, In a arms -> regular t (a_pat a) = true.
  Lemma overlap_disjoint a b : In a arms -> In b arms -> ov (from_pat (a_pat a)) (from_pat (a_pat b)) = false -> disjoint a b.
  Proof.
    intros Ja Jb O v. destruct (ways (a_pat a) v) as [|w ws] eqn:A; [auto|]. destruct (ways (a_pat b) v) as [|u us] eqn:C; [auto|]. exfalso.
    unfold ov, has_overlapping_values in O. rewrite (overlaps_sound t _ _ _ v) in O; [discriminate O| |].
    - apply (normal t (psize (a_pat a))); [lia|apply reg, Ja|congruence].
    - apply (normal t (psize (a_pat b))); [lia|apply reg, Jb|congruence].
  Qed.
  Lemma disjoint_sym (a b : arm) : disjoint a b -> disjoint b a.
  Proof. intros H v. destruct (H v); auto. Qed.
  Lemma norm_nth i a : nth_error arms i = Some a -> nth_error (norm arms) i = Some (from_pat (a_pat a)).
  Proof. intros N. unfold norm. exact (map_nth_error (fun a => from_pat (a_pat a)) i arms N). Qed.
  (** Arms up to the forward index, and from the backward index on, do not overlap. *)
  Lemma fwd_free i a k c : nth_error arms i = Some a -> nth_error arms k = Some c -> i < k < fwd arms i -> disjoint a c.
  Proof.
    intros A C L. destruct (fwd_spec (norm arms) i _ (norm_nth i a A)) as (_ & _ & H). apply overlap_disjoint; eauto using nth_error_In. apply (H k); [exact L|apply norm_nth, C].
  Qed.
  Lemma bwd_free i a k c : nth_error arms i = Some a -> nth_error arms k = Some c -> bwd arms i < k < i -> disjoint c a.
  Proof.
    intros A C L. destruct (bwd_spec (norm arms) i _ (norm_nth i a A)) as (_ & H). destruct (H k _ L (norm_nth k c C)) as [O|O]; [|apply disjoint_sym]; apply overlap_disjoint; eauto using nth_error_In.
  Qed.
  (** ** Groups *)
  Lemma group_facts g : In g (groups same hash arms) ->
    g = filter (member g) (enumerate 0 arms) /\ exists x rest, g = x :: rest /\ forall y, In y rest -> eq_arms same arms x y = true \/ eq_arms same arms y x = true.
  Proof.
    intros J. destruct (SameSearch.groups_sound _ _ fst _ g (enum_sorted arms 0) J) as (_ & I & SS & X). split; [|exact X]. clear X J.
    assert (SE : StronglySorted (fun a b => fst a < fst b) (enumerate 0 arms)) by apply enum_sorted.
    assert (UN : forall i a b, In (i, a) (enumerate 0 arms) -> In (i, b) (enumerate 0 arms) -> a = b).
    { intros i a b A C. apply enum_in in A, C. destruct A as [_ A], C as [_ C]. congruence. }
    assert (FILTER : StronglySorted (fun a b => fst a < fst b) (filter (member g) (enumerate 0 arms))).
    { clear -SE. induction SE as [|x l SE IH F]; [constructor|]. cbn. destruct (member g x); [|exact IH]. constructor; [exact IH|]. rewrite Forall_forall in *. intros y J. apply filter_In in J. apply F, J. }
    assert (SAME : forall x, In x g <-> In x (filter (member g) (enumerate 0 arms))).
    { intros [i a]. rewrite filter_In. unfold member. rewrite is_in_spec, in_map_iff. split.
      - intros J. split; [apply I, J|]. exists (i, a). auto.
      - intros [J ([j b] & E & Jb)]. cbn in E. subst j. rewrite (UN i a b J (I _ Jb)). exact Jb. }
    revert FILTER SAME. generalize (filter (member g) (enumerate 0 arms)). clear -SS. intros l SL SAME. revert l SL SAME. induction SS as [|x g SS IH F]; intros [|y l] SL SAME.
    - reflexivity. - destruct (proj2 (SAME y) (or_introl eq_refl)). - destruct (proj1 (SAME x) (or_introl eq_refl)).
    - inversion SL as [|? ? SL' FL]; subst. rewrite Forall_forall in F, FL.
      assert (E : x = y).
      { destruct (proj1 (SAME x) (or_introl eq_refl)) as [|J]; [auto|]. destruct (proj2 (SAME y) (or_introl eq_refl)) as [|J']; [auto|]. pose proof (FL x J). pose proof (F y J') as Z. unfold SameSearch.before in Z. lia. }
      subst y. f_equal. apply (IH l SL'). intros z. split; intros J.
      + destruct (proj1 (SAME z) (or_intror J)) as [<-|]; [|assumption]. pose proof (F x J) as Z. unfold SameSearch.before in Z. lia.
      + destruct (proj2 (SAME z) (or_intror J)) as [<-|]; [|assumption]. pose proof (FL x J). lia.
  Qed.
  Lemma group_agree g : In g (groups same hash arms) -> forall i a j b, In (i, a) g -> In (j, b) g -> agree a b.
  Proof.
    intros J. destruct (group_facts g J) as (_ & [i0 a0] & rest & -> & H). assert (TO : forall i a, In (i, a) ((i0, a0) :: rest) -> agree a a0).
    { intros i a [E|K]; [injection E as <- <-; apply agree_refl|]. destruct (H _ K) as [Q|Q]; unfold eq_arms in Q; cbn [fst snd] in Q; apply andb_prop in Q; destruct Q as [_ Q]; apply same_agree in Q; [apply agree_sym|]; exact Q. }
    intros i a j b A C. destruct (TO i a A) as [G1 B1]. destruct (TO j b C) as [G2 B2]. split; [|intros; rewrite B1, B2; reflexivity].
    destruct (a_guard a), (a_guard b), (a_guard a0); try contradiction; auto. intros. rewrite G1, G2. reflexivity.
  Qed.
  (** Of two arms one can be moved. *)
  Lemma pair_moves i a j b : In [(i, a); (j, b)] (groups same hash arms) ->
    i < j /\ nth_error arms i = Some a /\ nth_error arms j = Some b /\ (bwd arms j <= i \/ j <= fwd arms i).
  Proof.
    intros J. destruct (group_facts _ J) as (E & x & rest & Q & H). injection Q as <- <-. specialize (H (j, b) (or_introl eq_refl)).
    destruct (SameSearch.groups_sound _ _ fst _ _ (enum_sorted arms 0) J) as (_ & I & SS & _). inversion SS as [|? ? _ F]; subst. inversion F as [|? ? L _]; subst. unfold SameSearch.before in L. cbn in L.
    split; [exact L|]. pose proof (I (i, a) (or_introl eq_refl)) as A. pose proof (I (j, b) (or_intror (or_introl eq_refl))) as C. apply enum_in in A, C. rewrite Nat.sub_0_r in *. split; [apply A|]. split; [apply C|].
    unfold eq_arms in H. cbn [fst snd] in H. rewrite (Nat.min_l i j), (Nat.max_r i j), (Nat.min_r j i), (Nat.max_l j i) in H by lia.
    destruct (Nat.ltb_spec i (bwd arms j)); [|auto]. destruct (Nat.ltb_spec (fwd arms i) j); [|auto]. cbn in H. destruct H; discriminate.
  Qed.
End Lint.
