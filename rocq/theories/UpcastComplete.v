(** C11: every comparison whose result is the same for all values before the cast is reported. *)
From Coq Require Import Lia.
From Verif Require Import CmpProofs CmpSpec CmpModel ConstSpec RustFacts ConstMore ConstProofs.
Open Scope Z_scope.

Lemma bounds_of p a t s : ty_of a = Some (TI s) -> bits p s <> bits p t ->
  exists lb ub, precast_bounds p p (ECast a t) = Some (lb, ub) /\ fi_wf lb /\ fi_wf ub /\ fi_val lb = imin p s /\ fi_val ub = imax p s.
Proof.
  intros T N. cbn. rewrite T. replace (bits p s =? bits p t) with false by (symmetry; now apply Z.eqb_neq).
  pose proof (imin_imax p s).
  assert (Rmin : inr p s (imin p s) = true) by (apply inr_iff; lia). assert (Rmax : inr p s (imax p s) = true) by (apply inr_iff; lia).
  destruct (ity_signed s) eqn:Es; do 2 eexists; (split; [reflexivity|]); cbn [fi_wf fi_val].
  - apply inr_in_i128 in Rmin; auto. apply inr_in_i128 in Rmax; auto. unfold in_i128 in *. repeat split; lia.
  - apply inr_in_u128 in Rmin; auto. apply inr_in_u128 in Rmax; auto. unfold in_u128 in *. repeat split; lia.
Qed.
Ltac boolz := repeat match goal with
    | H : negb _ = true |- _ => apply negb_true_iff in H
    | H : negb _ = false |- _ => apply negb_false_iff in H
    | H : (_ =? _) = true |- _ => apply Z.eqb_eq in H
    | H : (_ =? _) = false |- _ => apply Z.eqb_neq in H
    | H : (_ <? _) = true |- _ => apply Z.ltb_lt in H
    | H : (_ <? _) = false |- _ => apply Z.ltb_ge in H
    | H : (_ <=? _) = true |- _ => apply Z.leb_le in H
    | H : (_ <=? _) = false |- _ => apply Z.leb_gt in H
    end.
Lemma upcast_err_complete p re a t s r v b (inv : bool) :
  ty_of a = Some (TI s) -> bits p s <> bits p t -> eval_full_int p p r = Some v -> fi_wf v ->
  (forall z, inr p s z = true -> (if inv then cmp_op (rel_cop re) (fi_val v) z else cmp_op (rel_cop re) z (fi_val v)) = b) ->
  upcast_err p p re (precast_bounds p p (ECast a t)) r inv = Some b.
Proof.
  intros T N V W H. destruct (bounds_of p a t s T N) as (lb & ub & -> & W1 & W2 & E1 & E2). unfold upcast_err. rewrite V.
  rewrite !fi_lt_val, ?fi_le_val by auto. rewrite E1, E2. set (x := fi_val v) in *.
  pose proof (imax_ge127 p s) as Mx. pose proof (imin_le0 p s) as Mn.
  assert (L := H (imin p s) ltac:(apply inr_iff; lia)). assert (U := H (imax p s) ltac:(apply inr_iff; lia)).
  assert (X : imin p s <= x <= imax p s -> (if inv then cmp_op (rel_cop re) x x else cmp_op (rel_cop re) x x) = b) by (intros R; apply H, inr_iff; lia).
  clear H. destruct re, inv; cbn [andb orb negb rel_cop cmp_op] in *; rewrite ?orb_false_r;
    rewrite ?Z.eqb_refl, ?Z.ltb_irrefl, ?Z.leb_refl in X;
    repeat match goal with
    | |- context [?a <? ?b] => destruct (Z.ltb_spec a b); cbn [orb]
    | |- context [?a <=? ?b] => destruct (Z.leb_spec a b); cbn [orb]
    end; destruct b; try reflexivity; exfalso; boolz; try lia; try (assert (imin p s <= x <= imax p s) as R by lia; specialize (X R); discriminate).
Qed.
Lemma in_report (o : option bool) b : o = Some b -> In b (match o with Some b => [b] | None => [] end).
Proof. intros ->. now left. Qed.
Lemma upcast_left p c a t s r v b : ty_of a = Some (TI s) -> bits p s <> bits p t -> eval_full_int p p r = Some v -> fi_wf v ->
  (forall z, inr p s z = true -> cmp_op c z (fi_val v) = b) -> In b (invalid_upcast p p (EBin (BC c) (ECast a t) r)).
Proof.
  intros T N V W H. cbn [invalid_upcast].
  destruct c; cbn [normalize_comparison]; apply in_or_app;
    first [left; apply in_report; eapply (upcast_err_complete p _ a t s r v b false); eauto; fail
          |right; apply in_report; eapply (upcast_err_complete p _ a t s r v b true); eauto; cbn [rel_cop cmp_op] in *; intros z R; rewrite <- (H z R); try reflexivity; rewrite Z.eqb_sym; reflexivity].
Qed.
Lemma upcast_right p c a t s r v b : ty_of a = Some (TI s) -> bits p s <> bits p t -> eval_full_int p p r = Some v -> fi_wf v ->
  (forall z, inr p s z = true -> cmp_op c (fi_val v) z = b) -> In b (invalid_upcast p p (EBin (BC c) r (ECast a t))).
Proof.
  intros T N V W H. cbn [invalid_upcast].
  destruct c; cbn [normalize_comparison]; apply in_or_app;
    first [right; apply in_report; eapply (upcast_err_complete p _ a t s r v b true); eauto; fail
          |left; apply in_report; eapply (upcast_err_complete p _ a t s r v b false); eauto; cbn [rel_cop cmp_op] in *; intros z R; rewrite <- (H z R); try reflexivity; rewrite Z.eqb_sym; reflexivity].
Qed.
