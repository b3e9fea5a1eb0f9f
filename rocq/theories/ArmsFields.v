(** When struct patterns overlap: exactly when the patterns of every common field do. *)
From Coq Require Import Permutation Sorted.
From Verif Require Export ArmsNorm.

(** ** More fuel makes no difference. *)
Lemma existsb_same {A} (f g : A -> bool) l : (forall x, In x l -> f x = g x) -> existsb f l = existsb g l.
Proof. induction l as [|x l IH]; intros H; [reflexivity|]. cbn. rewrite (H x (or_introl eq_refl)), IH; auto. intros y J. apply H. right. exact J. Qed.
Lemma all2_same f g l : (forall a b, In (a, b) l -> f a b = g a b) -> all2 f l = all2 g l.
Proof.
  unfold all2. induction l as [|[a b] l IH]; intros H; [reflexivity|]. cbn. rewrite (H a b (or_introl eq_refl)), IH; auto.
  intros x y J. apply H. right. exact J.
Qed.
Lemma in_matching n : forall l r a b, In (a, b) (matching_fields n l r) -> exists x y, In (x, a) l /\ In (y, b) r.
Proof.
  induction n as [|n IH]; intros [|l ls] [|r rs] a b; cbn; try (intros []).
  destruct (Nat.compare (fst l) (fst r)); [intros [E|J]|intros J|intros J].
  - injection E as <- <-. exists (fst l), (fst r). rewrite <- !surjective_pairing. auto.
  - apply IH in J. destruct J as (x & y & A & B). exists x, y. split; right; assumption.
  - apply IH in J. destruct J as (x & y & A & B). exists x, y. split; [right; exact A|exact B].
  - apply IH in J. destruct J as (x & y & A & B). exists x, y. split; [exact A|right; exact B].
Qed.
Lemma sum_field (l : list (name * npat)) x a : In (x, a) l -> npat_size a <= list_sum (map (fun f => npat_size (snd f)) l).
Proof. intros J. exact (sum_in (fun f => npat_size (snd f)) l (x, a) J). Qed.
Lemma in_first {A} n (l : list A) x : In x (firstn n l) -> In x l.
Proof. intros J. rewrite <- (firstn_skipn n l). apply in_or_app. auto. Qed.
Lemma in_skip {A} n (l : list A) x : In x (skipn n l) -> In x l.
Proof. intros J. rewrite <- (firstn_skipn n l). apply in_or_app. auto. Qed.
Ltac sizes :=
  repeat match goal with
  | H : In (_, _) (combine _ _) |- _ => let A := fresh in let B := fresh in pose proof (in_combine_l _ _ _ _ H) as A; pose proof (in_combine_r _ _ _ _ H) as B; clear H
  | H : In (_, _) (_ ++ _) |- _ => apply in_app_or in H; destruct H as [H|H]
  | H : In _ (firstn _ _) |- _ => apply in_first in H
  | H : In _ (last_n _ _) |- _ => unfold last_n in H; apply in_skip in H
  | H : In _ (rev _) |- _ => apply in_rev in H
  end;
  repeat match goal with
  | H : In _ _ |- _ => apply (sum_in npat_size) in H
  end.
Lemma more_fuel n : forall m p q, npat_size p + npat_size q <= n -> npat_size p + npat_size q <= m -> overlaps n p q = overlaps m p q.
Proof.
  assert (POS : forall p, 1 <= npat_size p) by (intros []; cbn; lia).
  induction n as [|n IH]; intros m p q L M; [pose proof (POS p); lia|]. destruct m as [|m]; [pose proof (POS p); lia|].
  destruct p, q; cbn [overlaps]; try reflexivity; cbn [npat_size] in L, M;
    try (apply existsb_same; intros x J; apply IH; sizes; cbn [npat_size]; lia);
    try (f_equal; apply all2_same; intros a b J; apply IH; sizes; lia).
  - f_equal. apply all2_same. intros a b J. apply in_matching in J. destruct J as (x & y & A & B). apply sum_field in A, B. apply IH; lia.
  - destruct back; apply existsb_same; intros x J; apply IH; sizes; cbn [npat_size]; lia.
  - destruct back, back0; try (destruct (_ <? _); [reflexivity|]); first [apply all2_same|apply (f_equal (andb _)), all2_same]; intros a b J; apply IH; sizes; lia.
Qed.

(** ** Fields in order *)
Definition before (f g : name * npat) : Prop := fst f <= fst g.
Lemma insert_perm f fs : Permutation (insert_field f fs) (f :: fs).
Proof. induction fs as [|g fs IH]; cbn; [auto|]. destruct (fst f <=? fst g); [auto|]. rewrite IH. apply perm_swap. Qed.
Lemma sort_perm fs : Permutation (sort_fields fs) fs.
Proof. induction fs as [|f fs IH]; cbn; [constructor|]. rewrite insert_perm. constructor. exact IH. Qed.
Lemma insert_sorted f fs : StronglySorted before fs -> StronglySorted before (insert_field f fs).
Proof.
  induction 1 as [|g fs S IH F]; cbn; [repeat constructor|]. destruct (Nat.leb_spec (fst f) (fst g)).
  - constructor; [constructor; auto|]. constructor; [assumption|]. eapply Forall_impl; [|exact F]. unfold before. intros. lia.
  - constructor; [assumption|]. eapply Permutation_Forall; [apply Permutation_sym, insert_perm|]. constructor; [unfold before; lia|assumption].
Qed.
Lemma sort_sorted fs : StronglySorted before (sort_fields fs).
Proof. induction fs; cbn; [constructor|]. apply insert_sorted. assumption. Qed.
Lemma matching_all n : forall l r, length l + length r <= n -> StronglySorted before l -> StronglySorted before r -> NoDup (map fst l) -> NoDup (map fst r) ->
  forall a b, In (a, b) (matching_fields n l r) <-> exists x, In (x, a) l /\ In (x, b) r.
Proof.
  assert (LEAST : forall f fs x (a : npat), Forall (before f) fs -> In (x, a) (f :: fs) -> fst f <= x).
  { intros f fs x a F [->|J]; [cbn; lia|]. rewrite Forall_forall in F. exact (F _ J). }
  induction n as [|n IH]; intros [|l ls] [|r rs] L SL SR NL NR a b; cbn [length] in L; try lia;
    try (cbn; split; [intros []|intros (x & A & B); solve [destruct A|destruct B]]).
  cbn [matching_fields]. inversion SL as [|? ? SL' FL]; subst. inversion SR as [|? ? SR' FR]; subst. cbn in NL, NR.
  inversion NL as [|? ? HL NL']; subst. inversion NR as [|? ? HR NR']; subst. destruct (Nat.compare_spec (fst l) (fst r)) as [E|E|E].
  - split.
    + intros [P|J]; [injection P as <- <-; exists (fst l); split; left; [|rewrite E]; apply surjective_pairing|].
      apply IH in J; auto; [|lia]. destruct J as (x & A & B). exists x. split; right; assumption.
    + intros (x & A & B). destruct A as [A|A], B as [B|B].
      * left. rewrite A, B. reflexivity.
      * exfalso. apply HR. rewrite A in E. cbn in E. rewrite <- E. apply (in_map fst) in B. exact B.
      * exfalso. apply HL. rewrite B in E. cbn in E. rewrite E. apply (in_map fst) in A. exact A.
      * right. apply IH; auto; [lia|]. eauto.
  - rewrite IH; auto; [|cbn; lia]. split; intros (x & A & B); exists x; [split; [right|]; assumption|]. split; [|exact B].
    destruct A as [A|A]; [|exact A]. exfalso. apply LEAST in B; [|assumption]. rewrite A in E. cbn in E. lia.
  - rewrite IH; auto; [|cbn; lia]. split; intros (x & A & B); exists x; [split; [|right]; assumption|]. split; [exact A|].
    destruct B as [B|B]; [|exact B]. exfalso. apply LEAST in A; [|assumption]. rewrite B in E. cbn in E. lia.
Qed.
Lemma matching_sorted fs fs' : NoDup (map fst fs) -> NoDup (map fst fs') -> forall a b,
  In (a, b) (matching_fields (length (sort_fields fs) + length (sort_fields fs')) (sort_fields fs) (sort_fields fs')) <-> exists x, In (x, a) fs /\ In (x, b) fs'.
Proof.
  intros N N' a b. rewrite matching_all; auto using sort_sorted.
  - split; intros (x & A & B); exists x; split; (eapply Permutation_in; [|eassumption]); auto using sort_perm, Permutation_sym.
  - eapply Permutation_NoDup; [|exact N]. apply Permutation_map, Permutation_sym, sort_perm.
  - eapply Permutation_NoDup; [|exact N']. apply Permutation_map, Permutation_sym, sort_perm.
Qed.
Lemma res_eqb_eq a b : res_eqb a b = true <-> a = b.
Proof. destruct a, b; cbn; try (split; congruence). rewrite Nat.eqb_eq. split; congruence. Qed.

Theorem structs_overlap res k fs res' k' fs' : NoDup (map fst fs) -> NoDup (map fst fs') ->
  (has_overlapping_values (from_pat (PStruct res k fs)) (from_pat (PStruct res' k' fs')) = true <->
   res = res' /\ forall x p q, In (x, p) fs -> In (x, q) fs' -> has_overlapping_values (from_pat p) (from_pat q) = true).
Proof.
  intros N N'. cbn [from_pat]. set (l := map (fun f => (fst f, from_pat (snd f))) fs). set (r := map (fun f => (fst f, from_pat (snd f))) fs').
  assert (NL : NoDup (map fst l)) by (unfold l; rewrite map_map; exact N). assert (NR : NoDup (map fst r)) by (unfold r; rewrite map_map; exact N').
  unfold has_overlapping_values at 1. cbn [npat_size]. rewrite Nat.add_succ_l. cbn [overlaps].
  rewrite Bool.andb_true_iff, res_eqb_eq. apply and_iff_compat_l. unfold all2. rewrite forallb_forall. split.
  - intros H x p q A B. specialize (H (from_pat p, from_pat q)). cbn in H. rewrite <- H.
    + assert (SA : In (x, from_pat p) (sort_fields l)) by (eapply Permutation_in; [apply Permutation_sym, sort_perm|]; unfold l; change (x, from_pat p) with ((fun f => (fst f, from_pat (snd f))) (x, p)); apply (in_map (fun f => (fst f, from_pat (snd f)))); exact A).
      assert (SB : In (x, from_pat q) (sort_fields r)) by (eapply Permutation_in; [apply Permutation_sym, sort_perm|]; unfold r; change (x, from_pat q) with ((fun f => (fst f, from_pat (snd f))) (x, q)); apply (in_map (fun f => (fst f, from_pat (snd f)))); exact B).
      apply sum_field in SA, SB. apply more_fuel; lia.
    + apply matching_sorted; auto. exists x. split; [unfold l|unfold r]; apply in_map_iff; [exists (x, p)|exists (x, q)]; auto.
  - intros H [a b] J. cbn [fst snd]. apply (matching_sorted l r NL NR) in J as J'. destruct J' as (x & A & B). unfold l in A. unfold r in B. apply in_map_iff in A, B.
    destruct A as ((y & p) & EA & A), B as ((z & q) & EB & B). injection EA as -> <-. injection EB as -> <-. rewrite <- (H x p q A B). cbn [snd].
    assert (SA : In (x, from_pat p) (sort_fields l)) by (eapply Permutation_in; [apply Permutation_sym, sort_perm|]; unfold l; apply in_map_iff; exists (x, p); auto).
    assert (SB : In (x, from_pat q) (sort_fields r)) by (eapply Permutation_in; [apply Permutation_sym, sort_perm|]; unfold r; apply in_map_iff; exists (x, q); auto).
    apply sum_field in SA, SB. apply more_fuel; lia.
Qed.
