(* C151: conditions that ask whether arithmetic overflows *)
From Coq Require Import List Bool ZArith Lia.
Import ListNotations.
From Verif Require Import PocSpec PocModel.
Open Scope Z_scope.

Lemma eq_expr_value_spec a : forall b, eq_expr_value a b = true <-> a = b.
Proof.
  induction a; intros [] ; cbn; try (split; [discriminate|congruence]).
  - rewrite Nat.eqb_eq. split; congruence.
  - rewrite Z.eqb_eq. split; congruence.
  - rewrite andb_true_iff, IHa1, IHa2. split; [intros [-> ->]; reflexivity|intros E; injection E; auto].
  - rewrite andb_true_iff, IHa1, IHa2. split; [intros [-> ->]; reflexivity|intros E; injection E; auto].
Qed.
Lemma reported_lt_gt u lt gt :
  reported u (CLt lt gt) = true -> u = true /\
  ((exists a b, lt = EAdd a b /\ (a = gt \/ b = gt)) \/ (exists a b, gt = ESub a b /\ a = lt)).
Proof.
  unfold reported. intros R. destruct lt as [x|z|a b|a b].
  1,2,4: destruct gt as [y|w|c d|c d]; try discriminate; apply andb_true_iff in R; destruct R as [U R]; rewrite orb_false_r in R;
    apply eq_expr_value_spec in R; split; [assumption|right; eauto].
  apply andb_true_iff in R. destruct R as [U R]. split; [assumption|]. left. exists a, b. split; [reflexivity|].
  rewrite andb_true_l in R. apply orb_true_iff in R. rewrite !eq_expr_value_spec in R. assumption.
Qed.
(* What is reported asks whether something unsigned overflows *)
Theorem overflow_check_reports : forall u c, reported u c = true -> u = true /\ exists e, asks c e.
Proof.
  intros u [lt gt|gt lt|a b] R; [| |discriminate].
  - apply reported_lt_gt in R. destruct R as [U [(a & b & -> & [-> | ->])|(a & b & -> & ->)]]; (split; [assumption|]); eexists; constructor.
  - change (reported u (CLt lt gt) = true) in R. apply reported_lt_gt in R.
    destruct R as [U [(a & b & -> & [-> | ->])|(a & b & -> & ->)]]; (split; [assumption|]); eexists; constructor.
Qed.
Print Assumptions overflow_check_reports.

Section Range.
Variables (M : Z) (s : nat -> Z).
Hypothesis POS : 0 < M.
Lemma wrapping_range e : 0 <= wrapping M s e < M.
Proof. destruct e; apply Z.mod_pos_bound; assumption. Qed.
Lemma fits_some z x : fits M z = Some x -> x = z /\ 0 <= z < M.
Proof. unfold fits. destruct (Z.leb_spec 0 z), (Z.ltb_spec z M); cbn; intros E; try discriminate. injection E as <-. lia. Qed.
Lemma checked_range e x : checked M s e = Some x -> 0 <= x < M.
Proof.
  destruct e; cbn.
  - intros E. injection E as <-. apply Z.mod_pos_bound. assumption.
  - intros E. injection E as <-. apply Z.mod_pos_bound. assumption.
  - destruct (checked M s e1), (checked M s e2); try discriminate. intros E. apply fits_some in E. lia.
  - destruct (checked M s e1), (checked M s e2); try discriminate. intros E. apply fits_some in E. lia.
Qed.
Lemma checked_add a b x : checked M s (EAdd a b) = Some x -> exists y z, checked M s a = Some y /\ checked M s b = Some z /\ x = y + z /\ 0 <= y /\ 0 <= z.
Proof.
  cbn. destruct (checked M s a) as [y|] eqn:A; [|discriminate]. destruct (checked M s b) as [z|] eqn:B; [|discriminate].
  intros E. apply fits_some in E. apply checked_range in A. apply checked_range in B. exists y, z. repeat split; lia.
Qed.
Lemma checked_sub a b x : checked M s (ESub a b) = Some x -> exists y z, checked M s a = Some y /\ checked M s b = Some z /\ x = y - z /\ 0 <= y /\ 0 <= z.
Proof.
  cbn. destruct (checked M s a) as [y|] eqn:A; [|discriminate]. destruct (checked M s b) as [z|] eqn:B; [|discriminate].
  intros E. apply fits_some in E. apply checked_range in A. apply checked_range in B. exists y, z. repeat split; lia.
Qed.
Lemma asks_checked c e : asks c e -> checked_cond M s c <> Some true.
Proof.
  intros A E. destruct A; unfold checked_cond in E;
    match type of E with match ?p with _ => _ end = _ => destruct p as [x|] eqn:P; [|discriminate] end;
    match type of E with match ?p with _ => _ end = _ => destruct p as [y|] eqn:Q; [|discriminate] end;
    injection E as E; rewrite ?Z.gtb_ltb in E; apply Z.ltb_lt in E.
  - apply checked_add in P. destruct P as (v & w & A & B & ? & ? & ?). rewrite A in Q. injection Q as ?. lia.
  - apply checked_add in P. destruct P as (v & w & A & B & ? & ? & ?). rewrite B in Q. injection Q as ?. lia.
  - apply checked_add in Q. destruct Q as (v & w & A & B & ? & ? & ?). rewrite A in P. injection P as ?. lia.
  - apply checked_add in Q. destruct Q as (v & w & A & B & ? & ? & ?). rewrite B in P. injection P as ?. lia.
  - apply checked_sub in Q. destruct Q as (v & w & A & B & ? & ? & ?). rewrite A in P. injection P as ?. lia.
  - apply checked_sub in P. destruct P as (v & w & A & B & ? & ? & ?). rewrite A in Q. injection Q as ?. lia.
Qed.
Lemma wrap_add x y : 0 <= x < M -> 0 <= y < M -> (x + y) mod M = if M <=? x + y then x + y - M else x + y.
Proof.
  intros X Y. destruct (Z.leb_spec M (x + y)); [|apply Z.mod_small; lia].
  symmetry. apply (Z.mod_unique _ _ 1); lia.
Qed.
Lemma wrap_sub x y : 0 <= x < M -> 0 <= y < M -> (x - y) mod M = if x <? y then x - y + M else x - y.
Proof.
  intros X Y. destruct (Z.ltb_spec x y); [|apply Z.mod_small; lia].
  symmetry. apply (Z.mod_unique _ _ (-1)); lia.
Qed.
Lemma asks_wrapping c e : asks c e -> wrapping_cond M s c = true <-> overflows M s e.
Proof.
  intros A. destruct A; cbn [wrapping_cond overflows wrapping]; pose proof (wrapping_range a); pose proof (wrapping_range b);
    rewrite ?Z.gtb_ltb, Z.ltb_lt, ?wrap_add, ?wrap_sub by assumption;
    destruct (Z.leb_spec M (wrapping M s a + wrapping M s b)); destruct (Z.ltb_spec (wrapping M s a) (wrapping M s b)); lia.
Qed.
End Range.

(* With overflow checks, what is reported is never true: it panics, or is false *)
Theorem overflow_check_never_true :
  forall u c, reported u c = true -> forall M s, 0 < M -> checked_cond M s c = None \/ checked_cond M s c = Some false.
Proof.
  intros u c R M s P. destruct (overflow_check_reports u c R) as [_ [e A]]. pose proof (asks_checked M s P c e A).
  destruct (checked_cond M s c) as [[]|]; auto. congruence.
Qed.
Print Assumptions overflow_check_never_true.
(* Without, it is true just where what it asks about overflows *)
Theorem overflow_check_wrapping :
  forall u c, reported u c = true -> exists e, asks c e /\ forall M s, 0 < M -> (wrapping_cond M s c = true <-> overflows M s e).
Proof.
  intros u c R. destruct (overflow_check_reports u c R) as [_ [e A]]. exists e. split; [assumption|]. intros M s P. apply asks_wrapping; assumption.
Qed.
Print Assumptions overflow_check_wrapping.
(* All that ask are reported.  Missing: where a sum is asked whether something can be taken from it, see overflow_check_missed_refuted *)
Theorem overflow_check_found_partial :
  forall c e, asks c e -> (forall a b d, e <> ESub (EAdd a b) d) -> reported true c = true.
Proof.
  intros c e A N. assert (I : forall a, eq_expr_value a a = true) by (intros a; apply eq_expr_value_spec; reflexivity).
  destruct A; cbn; rewrite ?I, ?orb_true_r; try reflexivity.
  - destruct a; cbn; rewrite ?Nat.eqb_refl, ?Z.eqb_refl, ?I; try reflexivity. exfalso. eapply N. reflexivity.
  - destruct a; cbn; rewrite ?Nat.eqb_refl, ?Z.eqb_refl, ?I; try reflexivity. exfalso. eapply N. reflexivity.
Qed.
Print Assumptions overflow_check_found_partial.
(* x + y < (x + y) - z *)
Theorem overflow_check_missed_refuted :
  exists c e, asks c e /\ reported true c = false /\
  exists s, checked_cond 256 s c = None /\ wrapping_cond 256 s c = true /\ overflows 256 s e.
Proof.
  exists (CLt (EAdd (EVar 0) (EVar 1)) (ESub (EAdd (EVar 0) (EVar 1)) (EVar 2))). eexists. split; [constructor|]. split; [reflexivity|].
  exists (fun x => match x with 2%nat => 9 | _ => 1 end). repeat split; vm_compute; reflexivity.
Qed.
Print Assumptions overflow_check_missed_refuted.
(* a + b < b, for u8: with 200 and 100 a panic, or true; with 1 and 2 false *)
Example C151_nontrivial :
  let c := CLt (EAdd (EVar 0) (EVar 1)) (EVar 1) in
  let big := fun x => match x with 0%nat => 200 | _ => 100 end in let small := fun x => match x with 0%nat => 1 | _ => 2 end in
  reported true c = true /\ reported false c = false /\
  checked_cond 256 big c = None /\ wrapping_cond 256 big c = true /\ checked_cond 256 small c = Some false /\ wrapping_cond 256 small c = false.
Proof. vm_compute. repeat split. Qed.
