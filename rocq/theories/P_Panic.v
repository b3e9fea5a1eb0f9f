(** C70: operations arithmetic_side_effects does not report; C71: expressions evaluated eagerly instead of lazily. *)
From Verif Require Import PanicModel PanicSpec PanicProofs PanicProofs2 EagerProofs RustFacts ConstTotal.
Open Scope Z_scope.

(** *** C70 *)
(** A well-typed operation that is not reported does not panic (overflow checks on) on operands that have values.
    Missing: the blind spots, each refuted below, and signed values shifted by amounts of a wider type. *)
Theorem arithmetic_side_effects_silent_partial : forall p rho e t,
  tyck p e = Some t -> narrow_shifts p e = true -> judged e = true ->
  arithmetic_side_effects p p e = false -> ~ blind_spot p rho e -> ~ fails_here p rho e.
Proof. exact silent_no_panic. Qed.
Print Assumptions arithmetic_side_effects_silent_partial.
(** What is reported about variables and literals can panic, except the difference of the largest unsigned value and a variable.
    Missing: operands that are not variables or literals; `MAX - x` and casts from `bool` are reported in vain, see below. *)
Theorem arithmetic_side_effects_reported_partial : forall p e t,
  tyck p e = Some t -> simple_operation e -> ~ from_the_top p e ->
  arithmetic_side_effects p p e = true -> exists rho, fails_here p rho e.
Proof. exact reported_can_fail. Qed.
Print Assumptions arithmetic_side_effects_reported_partial.

Local Notation x := (EVar (TI i32) 0). Local Notation u := (EVar (TI u32) 0). Local Notation b := (EVar (TI u8) 0).
Ltac silent := unfold fails_here; split; [reflexivity|split; [vm_compute; reflexivity|split; [vm_compute; reflexivity|repeat constructor; eexists; vm_compute; reflexivity]]].
(** `1 << x`: shifts are never reported. *)
Theorem arithmetic_side_effects_shift_refuted : exists p rho e t,
  tyck p e = Some t /\ arithmetic_side_effects p p e = false /\ fails_here p rho e.
Proof. exists P64, (fun _ => VI i32 40), (EBin (BI OShl) (ELit i32 1) x), (TI i32). silent. Qed.
Print Assumptions arithmetic_side_effects_shift_refuted.
(** `0 - u`: a difference from zero is taken for a no-op. *)
Theorem arithmetic_side_effects_from_zero_refuted : exists p rho e t,
  tyck p e = Some t /\ arithmetic_side_effects p p e = false /\ fails_here p rho e.
Proof. exists P64, (fun _ => VI u32 1), (EBin (BI OSub) (ELit u32 0) u), (TI u32). silent. Qed.
Print Assumptions arithmetic_side_effects_from_zero_refuted.
(** `x / -1` and `x % -1`: the sign of the divisor is not looked at. *)
Theorem arithmetic_side_effects_division_refuted : exists p rho o t, (o = ODiv \/ o = ORem) /\
  let e := EBin (BI o) x (EUn UNeg (ELit i32 1)) in
  tyck p e = Some t /\ arithmetic_side_effects p p e = false /\ fails_here p rho e.
Proof. exists P64, (fun _ => VI i32 (-2147483648)), ORem, (TI i32). split; [auto|]. silent. Qed.
Print Assumptions arithmetic_side_effects_division_refuted.
(** `x * -1`: the sign of the factor is not looked at. *)
Theorem arithmetic_side_effects_factor_refuted : exists p rho e t,
  tyck p e = Some t /\ arithmetic_side_effects p p e = false /\ fails_here p rho e.
Proof. exists P64, (fun _ => VI i32 (-2147483648)), (EBin (BI OMul) x (EUn UNeg (ELit i32 1))), (TI i32). silent. Qed.
Print Assumptions arithmetic_side_effects_factor_refuted.
(** `u + !0`: the complement is not looked at. *)
Theorem arithmetic_side_effects_complement_refuted : exists p rho e t,
  tyck p e = Some t /\ arithmetic_side_effects p p e = false /\ fails_here p rho e.
Proof. exists P64, (fun _ => VI u32 1), (EBin (BI OAdd) u (EUn UNot (ELit u32 0))), (TI u32). silent. Qed.
Print Assumptions arithmetic_side_effects_complement_refuted.
(** `!0u32 + (b as u32)`: nor in the check of the source type. *)
Theorem arithmetic_side_effects_source_refuted : exists p rho e t,
  tyck p e = Some t /\ arithmetic_side_effects p p e = false /\ is_safe_due_to_smaller_source_type p p OAdd (EUn UNot (ELit u32 0)) (ECast b u32) = true /\ fails_here p rho e.
Proof. exists P64, (fun _ => VI u8 1), (EBin (BI OAdd) (EUn UNot (ELit u32 0)) (ECast b u32)), (TI u32).
  split; [reflexivity|split; [reflexivity|split; [reflexivity|]]]. split; [reflexivity|repeat constructor; eexists; vm_compute; reflexivity]. Qed.
Print Assumptions arithmetic_side_effects_source_refuted.
(** `7u32.wrapping_rem_euclid(u)`: a constant receiver silences the check of the divisor. *)
Theorem arithmetic_side_effects_method_refuted : exists p rho e t,
  tyck p e = Some t /\ judged e = true /\ arithmetic_side_effects p p e = false /\ fails_here p rho e.
Proof. exists P64, (fun _ => VI u32 0), (EM1 MWrapRemEuclid (ELit u32 7) u), (TI u32). split; [reflexivity|]. silent. Qed.
Print Assumptions arithmetic_side_effects_method_refuted.
(** `u32::MAX - u` is reported although it never panics; so is `1u8 + (c as u8)` for a boolean `c`. *)
Theorem arithmetic_side_effects_reported_refuted : exists p e1 e2, arithmetic_side_effects p p e1 = true /\ arithmetic_side_effects p p e2 = true /\
  e1 = EBin (BI OSub) (EAssoc u32 AMax) u /\ e2 = EBin (BI OAdd) (ELit u8 1) (ECast (EVar TB 0) u8) /\
  forall rho, ~ fails_here p rho e1 /\ ~ fails_here p rho e2.
Proof.
  exists P64, (EBin (BI OSub) (EAssoc u32 AMax) u), (EBin (BI OAdd) (ELit u8 1) (ECast (EVar TB 0) u8)). do 4 (split; [reflexivity|]).
  intros rho. split; intros (F & O).
  - inversion O as [|? ? (va & Ha) O1]; subst. inversion O1 as [|? ? (vb & Hb) _]; subst.
    destruct (eval_bi_panic _ _ _ _ _ _ _ F Ha Hb) as (t & t' & z & y & -> & -> & P & ->).
    injection Ha as <- <-. apply eval_VI_range in Hb. apply inr_iff in Hb.
    cbn [int_op] in P. apply arith_panic in P. apply inr_false in P. change (imin P64 u32) with 0 in *. change (imax P64 u32) with 4294967295 in *. lia.
  - inversion O as [|? ? (va & Ha) O1]; subst. inversion O1 as [|? ? (vb & Hb) _]; subst.
    destruct (eval_bi_panic _ _ _ _ _ _ _ F Ha Hb) as (t & t' & z & y & -> & -> & P & ->).
    injection Ha as <- <-. cbn [eval] in Hb. apply rbind_Ok in Hb as (w & Hw & Hb).
    destruct (ty_eqb (val_ty (rho 0%nat)) TB && val_wf P64 (rho 0%nat)) eqn:Q; [|discriminate]. injection Hw as <-.
    destruct (rho 0%nat) as [? ?|[|]|?|? ?]; try discriminate; injection Hb as <-; discriminate.
Qed.
Print Assumptions arithmetic_side_effects_reported_refuted.

(** Non-vacuity: a sum with a cast from a smaller type and a division by a literal are silent and outside the blind spots; two variables are reported. *)
Example C70_nontrivial : forall rho z, rho 0%nat = VI u8 z -> inr P64 u8 z = true ->
  let e1 := EBin (BI OAdd) (ELit u32 1000) (ECast b u32) in let e2 := EBin (BI ODiv) b (ELit u8 3) in
  arithmetic_side_effects P64 P64 e1 = false /\ tyck P64 e1 = Some (TI u32) /\ ~ blind_spot P64 rho e1 /\
  arithmetic_side_effects P64 P64 e2 = false /\ ~ blind_spot P64 rho e2 /\
  arithmetic_side_effects P64 P64 (EBin (BI OMul) x (EVar (TI i32) 1)) = true /\ simple_operation (EBin (BI OMul) x (EVar (TI i32) 1)).
Proof.
  intros rho z Hz Rz e1 e2. subst e1 e2. split; [reflexivity|]. split; [reflexivity|]. split.
  - cbn. intros [(_ & [C|C] & _)|[M|M]]; [apply C; reflexivity|apply C; reflexivity| |].
    + destruct M as (n & t & w & L & E & N). cbn in L, E. congruence.
    + destruct M as (n & t & w & L & _). discriminate.
  - split; [reflexivity|]. split; [|split; [reflexivity|cbn; auto]].
    cbn. intros [([C|C] & _)|[(t & C)|(_ & t & C)]]; try (apply C; reflexivity); discriminate.
Qed.

(** *** C71 *)
(** An expression that is found cheap enough to be evaluated eagerly always has a value (with overflow checks on): evaluating it
    although the closure would not have run cannot panic.  Assumed: the compiler does not already reject one of its operations on constants. *)
Theorem eager_evaluation_has_value : forall p rho e t,
  switch_to_eager_eval p p e = true -> tyck p e = Some t -> accepted p e -> gives p rho e ->
  exists v, eval Checked p rho e = Ok v /\ val_ty v = t.
Proof.
  intros p rho e t S T A G. destruct (eager_value p rho e t S T A G) as (v & Hv). exists v. split; auto. now apply (typed_val _ _ _ _ _ T Hv).
Qed.
Print Assumptions eager_evaluation_has_value.
(** `recv.unwrap_or_else(|| d)` and `recv.unwrap_or(d)` then agree, also on whether they panic. *)
Theorem unnecessary_lazy_unwrap_or : forall p rho recv d t,
  switch_to_eager_eval p p d = true -> tyck p recv = Some (TO t) -> tyck p d = Some (TI t) -> accepted p d -> gives p rho d ->
  eval Checked p rho (EM1 MUnwrapOr recv d) = unwrap_or_else Checked p rho recv d.
Proof.
  intros p rho recv d t S Tr Td A G. destruct (eager_evaluation_has_value p rho d _ S Td A G) as (v & Hv & Tv).
  destruct v as [t' z| | |]; try discriminate. injection Tv as ->.
  unfold unwrap_or_else. cbn [eval]. rewrite Hv. destruct (eval Checked p rho recv) as [w| |] eqn:E; [|reflexivity|reflexivity]. cbn [rbind].
  pose proof (typed_val _ _ _ _ _ Tr E) as (Tw & _). destruct w as [| | |tw [z'|]]; try discriminate; injection Tw as ->; now rewrite ity_eqb_refl.
Qed.
Print Assumptions unnecessary_lazy_unwrap_or.
(** The same for `c.then(|| d)` and `c.then_some(d)`. *)
Theorem unnecessary_lazy_then : forall p rho c d t,
  switch_to_eager_eval p p d = true -> tyck p c = Some TB -> tyck p d = Some t -> accepted p d -> gives p rho d ->
  then_some Checked p rho c d = then_lazily Checked p rho c d.
Proof.
  intros p rho c d t S Tc Td A G. destruct (eager_evaluation_has_value p rho d _ S Td A G) as (v & Hv & Tv).
  unfold then_some, then_lazily. rewrite Hv. destruct (eval Checked p rho c) as [w| |]; reflexivity.
Qed.
Print Assumptions unnecessary_lazy_then.
(** Without the assumption on the compiler: `x / 0`, `x << 32`, `i32::MAX + 1` and `-i32::MIN` are evaluated eagerly. *)
Theorem eager_evaluation_unchecked_refuted : exists p rho l,
  Forall (fun e => switch_to_eager_eval p p e = true /\ tyck p e = Some (TI i32) /\ gives p rho e /\ eval Checked p rho e = Panic) l /\
  l = [EBin (BI ODiv) x (ELit i32 0); EBin (BI OShl) x (ELit i32 32); EBin (BI OAdd) (EAssoc i32 AMax) (ELit i32 1); EUn UNeg (EAssoc i32 AMin)].
Proof. exists P64, (fun _ => VI i32 7). eexists. split; [|reflexivity]. repeat constructor. Qed.
Print Assumptions eager_evaluation_unchecked_refuted.

(** Non-vacuity: `if x > 3 { x / 2 } else { x << 4 }` is evaluated eagerly; `x / -1`, `x + 1`, `1 / x`, `1 << x`, `-x` are not. *)
Example C71_nontrivial : forall rho z, rho 0%nat = VI i32 z -> inr P64 i32 z = true ->
  let e := EIf (EBin (BC CGt) x (ELit i32 3)) (EBin (BI ODiv) x (ELit i32 2)) (EBin (BI OShl) x (ELit u8 4)) in
  switch_to_eager_eval P64 P64 e = true /\ tyck P64 e = Some (TI i32) /\ gives P64 rho e /\ accepted P64 e /\
  Forall (fun e => switch_to_eager_eval P64 P64 e = false)
    [EBin (BI ODiv) x (EUn UNeg (ELit i32 1)); EBin (BI OAdd) x (ELit i32 1); EBin (BI ODiv) (ELit i32 1) x; EBin (BI OShl) (ELit i32 1) x; EUn UNeg x; EM0 MAbs x].
Proof.
  intros rho z Hz Rz e. subst e. split; [reflexivity|]. split; [reflexivity|]. split; [|split].
  - cbn -[inr]. rewrite Hz. cbn -[inr]. repeat split; auto.
  - cbn -[eval bits int_op]. repeat split; auto; try tauto.
    + intros [(t & a & c & (_ & Ca) & _)|(t & t' & y & _ & ((r & Cy) & _) & ->)].
      * pose proof (Ca (fun _ => VI i32 1) (VI i32 1) eq_refl) as Q1. pose proof (Ca (fun _ => VI i32 2) (VI i32 2) eq_refl) as Q2. congruence.
      * cbn in Cy. congruence.
    + intros [(t & a & c & (_ & Ca) & _)|(t & t' & y & [= <-] & ((r & Cy) & _) & B)].
      * pose proof (Ca (fun _ => VI i32 1) (VI i32 1) eq_refl) as Q1. pose proof (Ca (fun _ => VI i32 2) (VI i32 2) eq_refl) as Q2. congruence.
      * cbn in Cy. injection Cy as <- <-. apply B. cbn. lia.
  - repeat constructor.
Qed.
