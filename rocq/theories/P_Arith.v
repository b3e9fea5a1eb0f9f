(** Properties C01-C07: suggestions that replace an arithmetic idiom by a method. *)
From Verif Require Import RotateProofs ArithProofs2.
Open Scope Z_scope.

Definition X8 := EVar (TI u8) 0.
Definition Y8 := EVar (TI u8) 1.
Definition I8 := EVar (TI i8) 0.
Definition J8 := EVar (TI i8) 1.
Definition S32 := EVar (TI u32) 1.

(** ** C01 *)
(** Unsigned operand, amounts `a`/`bits - a` or constants adding up to the width, host = target,
    suggestion well typed.  Missing from the full statement (each false, see below): signed operands,
    the exclusive-or form, `+` with overflow checks off, amounts that are not `u32`. *)
Theorem rotate_preserves_partial : forall m p rho e e' t t',
  manual_rotate p p e = Some e' -> tyck p e' = Some t' ->
  tyck p e = Some (TI t) -> ity_signed t = false -> amounts_no_xor e ->
  (m = Checked \/ is_sum e = false) -> preserves m p rho e e'.
Proof. exact manual_rotate_preserves. Qed.
Print Assumptions rotate_preserves_partial.

Theorem rotate_signed_refuted : exists e e' t rho v v',
  manual_rotate P64 P64 e = Some e' /\ tyck P64 e = Some (TI t) /\ tyck P64 e' = Some (TI t) /\
  eval Checked P64 rho e = Ok v /\ eval Checked P64 rho e' = Ok v' /\ v <> v'.
Proof.
  exists (EBin (BI OOr) (EBin (BI OShl) I8 (ELit u32 4)) (EBin (BI OShr) I8 (ELit u32 4))), (EM1 MRotr I8 (ELit u32 4)), i8,
    (all_vars i8 (-128)), (VI i8 (-8)), (VI i8 8).
  vm_compute. repeat split; congruence.
Qed.
Print Assumptions rotate_signed_refuted.

Theorem rotate_xor_refuted : exists e e' rho v v',
  manual_rotate P64 P64 e = Some e' /\ tyck P64 e = Some (TI u8) /\ tyck P64 e' = Some (TI u8) /\
  eval Checked P64 rho e = Ok v /\ eval Checked P64 rho e' = Ok v' /\ v <> v'.
Proof.
  exists (EBin (BI OOr) (EBin (BI OShl) X8 S32) (EBin (BI OShr) X8 (EBin (BI OXor) (ELit u32 7) S32))), (EM1 MRotl X8 S32),
    (two_vars u8 64 u32 1), (VI u8 129), (VI u8 128).
  vm_compute. repeat split; congruence.
Qed.
Print Assumptions rotate_xor_refuted.

Theorem rotate_sum_wrapping_refuted : exists e e' rho v v',
  manual_rotate P64 P64 e = Some e' /\ tyck P64 e = Some (TI u8) /\ tyck P64 e' = Some (TI u8) /\
  eval Wrapping P64 rho e = Ok v /\ eval Wrapping P64 rho e' = Ok v' /\ v <> v'.
Proof.
  exists (EBin (BI OAdd) (EBin (BI OShl) X8 S32) (EBin (BI OShr) X8 (EBin (BI OSub) (ELit u32 8) S32))), (EM1 MRotl X8 S32),
    (two_vars u8 3 u32 0), (VI u8 6), (VI u8 3).
  vm_compute. repeat split; congruence.
Qed.
Print Assumptions rotate_sum_wrapping_refuted.

Theorem rotate_amount_type_refuted : exists e e' t,
  manual_rotate P64 P64 e = Some e' /\ tyck P64 e = Some t /\ tyck P64 e' = None.
Proof.
  exists (EBin (BI OOr) (EBin (BI OShl) X8 Y8) (EBin (BI OShr) X8 (EBin (BI OSub) (ELit u8 8) Y8))), (EM1 MRotl X8 Y8), (TI u8).
  vm_compute. auto.
Qed.
Print Assumptions rotate_amount_type_refuted.

Example rotate_example :
  let e := EBin (BI OOr) (EBin (BI OShr) X8 (EBin (BI OSub) (ELit u32 8) S32)) (EBin (BI OShl) X8 S32) in
  manual_rotate P64 P64 e = Some (EM1 MRotl X8 S32) /\ tyck P64 (EM1 MRotl X8 S32) = Some (TI u8) /\ tyck P64 e = Some (TI u8) /\
  amounts_no_xor e /\ eval Checked P64 (two_vars u8 150 u32 3) e = Ok (VI u8 180).
Proof. vm_compute. repeat split. Qed.
Example rotate_example_const :
  let e := EBin (BI OAdd) (EBin (BI OShl) X8 (ELit i32 5)) (EBin (BI OShr) X8 (ELit i32 3)) in
  manual_rotate P64 P64 e = Some (EM1 MRotr X8 (ELit u32 3)) /\ eval Checked P64 (all_vars u8 150) e = Ok (VI u8 210).
Proof. vm_compute. auto. Qed.

(** ** C02 *)
(** Unsigned operands with overflow checks on.  Missing (each false, see below): checks off, signed
    operands under the `int_roundings` feature. *)
Theorem div_ceil_preserves_partial : forall p rho e e',
  In e' (manual_div_ceil false e) -> preserves Checked p rho e e'.
Proof. exact manual_div_ceil_sound. Qed.
Print Assumptions div_ceil_preserves_partial.

Theorem div_ceil_wrapping_refuted : exists e e' rho v v',
  In e' (manual_div_ceil false e) /\ tyck P64 e = Some (TI u8) /\
  eval Wrapping P64 rho e = Ok v /\ eval Wrapping P64 rho e' = Ok v' /\ v <> v'.
Proof.
  exists (EBin (BI ODiv) (EBin (BI OAdd) X8 (EBin (BI OSub) Y8 (ELit u8 1))) Y8), (EM1 MDivCeil X8 Y8),
    (two_vars u8 255 u8 2), (VI u8 0), (VI u8 128).
  vm_compute. repeat split; auto; congruence.
Qed.
Print Assumptions div_ceil_wrapping_refuted.

(** A negative dividend: `(x + (y - 1)) / y` at x = -7, y = 5 is 0, the ceiling is -1. *)
Theorem div_ceil_signed_refuted : exists e e' rho v v',
  In e' (manual_div_ceil true e) /\ tyck P64 e = Some (TI i8) /\
  eval Checked P64 rho e = Ok v /\ eval Checked P64 rho e' = Ok v' /\ v <> v'.
Proof.
  exists (EBin (BI ODiv) (EBin (BI OAdd) I8 (EBin (BI OSub) J8 (ELit i8 1))) J8), (EM1 MDivCeil I8 J8),
    (two_vars i8 (-7) i8 5), (VI i8 0), (VI i8 (-1)).
  vm_compute. repeat split; auto; congruence.
Qed.
Print Assumptions div_ceil_signed_refuted.

(** The literal form with a negative divisor, `(x - 8) / -7`, is wrong for positive dividends too. *)
Theorem div_ceil_negative_divisor_refuted : exists e e' rho v v',
  In e' (manual_div_ceil true e) /\ tyck P64 e = Some (TI i8) /\
  eval Checked P64 rho e = Ok v /\ eval Checked P64 rho e' = Ok v' /\ v <> v'.
Proof.
  exists (EBin (BI ODiv) (EBin (BI OSub) I8 (ELit i8 8)) (EUn UNeg (ELit i8 7))), (EM1 MDivCeil I8 (EUn UNeg (ELit i8 7))),
    (all_vars i8 1), (VI i8 1), (VI i8 0).
  vm_compute. repeat split; auto; congruence.
Qed.
Print Assumptions div_ceil_negative_divisor_refuted.

Example div_ceil_example :
  let e := EBin (BI ODiv) (EBin (BI OSub) (EBin (BI OAdd) X8 Y8) (ELit u8 1)) Y8 in
  manual_div_ceil false e = [EM1 MDivCeil X8 Y8] /\ eval Checked P64 (two_vars u8 17 u8 5) e = Ok (VI u8 4).
Proof. vm_compute. auto. Qed.
Example div_ceil_example_next_multiple :
  let e := EBin (BI ODiv) (EM1 MNextMultipleOf X8 Y8) Y8 in
  manual_div_ceil false e = [EM1 MDivCeil X8 Y8] /\ eval Checked P64 (two_vars u8 17 u8 5) e = Ok (VI u8 4).
Proof. vm_compute. auto. Qed.

(** ** C03 *)
Theorem is_power_of_two_preserves_partial : forall p rho e e',
  manual_is_power_of_two e = Some e' -> preserves Checked p rho e e'.
Proof. exact (fun p rho e e' H => is_power_of_two_sound Checked p rho e e' H (or_introl eq_refl)). Qed.
Print Assumptions is_power_of_two_preserves_partial.
(** The `count_ones() == 1` form is right whatever the overflow checks. *)
Theorem is_power_of_two_count_ones : forall m p rho l r e',
  manual_is_power_of_two (EBin (BC CEq) l r) = Some e' ->
  (count_ones_receiver l <> None \/ count_ones_receiver r <> None) ->
  preserves m p rho (EBin (BC CEq) l r) e'.
Proof.
  exact (fun m p rho l r e' H Hc => is_power_of_two_sound m p rho _ e' H (or_intror (ex_intro _ l (ex_intro _ r (conj eq_refl Hc))))).
Qed.
Print Assumptions is_power_of_two_count_ones.
(** With overflow checks off, `x & (x - 1) == 0` is true at 0. *)
Theorem is_power_of_two_wrapping_refuted : exists e e' rho,
  manual_is_power_of_two e = Some e' /\ eval Wrapping P64 rho e = Ok (VB true) /\ eval Wrapping P64 rho e' = Ok (VB false).
Proof.
  exists (EBin (BC CEq) (EBin (BI OAnd) X8 (EBin (BI OSub) X8 (ELit u8 1))) (ELit u8 0)), (EM0 MIsPow2 X8), (all_vars u8 0).
  vm_compute. auto.
Qed.
Print Assumptions is_power_of_two_wrapping_refuted.
Example is_power_of_two_example :
  manual_is_power_of_two (EBin (BC CEq) (ELit u8 0) (EBin (BI OAnd) (EBin (BI OSub) X8 (ELit u8 1)) X8)) = Some (EM0 MIsPow2 X8) /\
  manual_is_power_of_two (EBin (BC CEq) (EM0 MCountOnes X8) (ELit u32 1)) = Some (EM0 MIsPow2 X8) /\
  eval Checked P64 (all_vars u8 64) (EBin (BC CEq) (EM0 MCountOnes X8) (ELit u32 1)) = Ok (VB true) /\
  eval Checked P64 (all_vars u8 65) (EBin (BC CEq) (ELit u8 0) (EBin (BI OAnd) (EBin (BI OSub) X8 (ELit u8 1)) X8)) = Ok (VB false).
Proof. vm_compute. auto. Qed.

(** ** C04 *)
Theorem abs_diff_preserves : forall unsuffixed m p rho e e',
  manual_abs_diff unsuffixed e = Some e' -> preserves m p rho e e'.
Proof. exact manual_abs_diff_sound. Qed.
Print Assumptions abs_diff_preserves.
Example abs_diff_example :
  let e := EIf (EBin (BC CLe) I8 J8) (ECast (EBin (BI OSub) J8 I8) u8) (ECast (EBin (BI OSub) I8 J8) u8) in
  manual_abs_diff (fun _ => false) e = Some (EM1 MAbsDiff J8 I8) /\
  eval Wrapping P64 (two_vars i8 (-100) i8 100) e = Ok (VI u8 200).
Proof. vm_compute. auto. Qed.

(** ** C05 *)
(** With overflow checks on; with checks off the statement is false, see below. *)
Theorem rem_euclid_preserves_partial : forall p rho e e',
  manual_rem_euclid p p e = Some e' -> preserves Checked p rho e e'.
Proof. exact manual_rem_euclid_sound. Qed.
Print Assumptions rem_euclid_preserves_partial.
Theorem rem_euclid_wrapping_refuted : exists e e' rho v v',
  manual_rem_euclid P64 P64 e = Some e' /\ eval Wrapping P64 rho e = Ok v /\ eval Wrapping P64 rho e' = Ok v' /\ v <> v'.
Proof.
  exists (EBin (BI ORem) (EBin (BI OAdd) (EBin (BI ORem) I8 (ELit i8 127)) (ELit i8 127)) (ELit i8 127)), (EM1 MRemEuclid I8 (ELit i8 127)),
    (all_vars i8 126), (VI i8 (-3)), (VI i8 126).
  vm_compute. repeat split; congruence.
Qed.
Print Assumptions rem_euclid_wrapping_refuted.
Example rem_euclid_example :
  let e := EBin (BI ORem) (EBin (BI OAdd) (ELit i8 7) (EBin (BI ORem) I8 (ELit i8 7))) (ELit i8 7) in
  manual_rem_euclid P64 P64 e = Some (EM1 MRemEuclid I8 (ELit i8 7)) /\ eval Checked P64 (all_vars i8 (-5)) e = Ok (VI i8 2).
Proof. vm_compute. auto. Qed.

(** ** C06 *)
Theorem is_multiple_of_preserves : forall m p rho e e',
  manual_is_multiple_of p p e = Some e' -> preserves m p rho e e'.
Proof. exact manual_is_multiple_of_sound. Qed.
Print Assumptions is_multiple_of_preserves.
Example is_multiple_of_example :
  let e := EBin (BC CLt) (ELit u8 0) (EBin (BI ORem) X8 Y8) in
  manual_is_multiple_of P64 P64 e = Some (EUn UNot (EM1 MIsMultipleOf X8 Y8)) /\
  eval Checked P64 (two_vars u8 12 u8 5) e = Ok (VB true).
Proof. vm_compute. auto. Qed.

(** ** C07 *)
Theorem isolate_lowest_one_preserves : forall m p rho e e',
  manual_isolate_lowest_one e = Some e' -> preserves m p rho e e'.
Proof. exact manual_isolate_sound. Qed.
Print Assumptions isolate_lowest_one_preserves.
(** The midpoint suggestion with overflow checks on (with checks off it is meant to differ). *)
Theorem midpoint_preserves_partial : forall p rho e e',
  manual_midpoint e = Some e' -> preserves Checked p rho e e'.
Proof. exact manual_midpoint_sound. Qed.
Print Assumptions midpoint_preserves_partial.
Theorem midpoint_wrapping_refuted : exists e e' rho v v',
  manual_midpoint e = Some e' /\ eval Wrapping P64 rho e = Ok v /\ eval Wrapping P64 rho e' = Ok v' /\ v <> v'.
Proof.
  exists (EBin (BI OShr) (EBin (BI OAdd) X8 Y8) (ELit i32 1)), (EM1 MMidpoint X8 Y8), (two_vars u8 200 u8 100), (VI u8 22), (VI u8 150).
  vm_compute. repeat split; congruence.
Qed.
Print Assumptions midpoint_wrapping_refuted.
Example isolate_example :
  manual_isolate_lowest_one (EBin (BI OAnd) (EUn UNeg I8) I8) = Some (EM0 MIsolateLowestOne I8) /\
  eval Wrapping P64 (all_vars i8 (-128)) (EBin (BI OAnd) (EUn UNeg I8) I8) = Ok (VI i8 (-128)) /\
  eval Checked P64 (all_vars i8 (-20)) (EBin (BI OAnd) (EUn UNeg I8) I8) = Ok (VI i8 4).
Proof. vm_compute. auto. Qed.
Example midpoint_example :
  manual_midpoint (EBin (BI ODiv) (EBin (BI OAdd) I8 J8) (ELit i8 2)) = Some (EM1 MMidpoint I8 J8) /\
  eval Checked P64 (two_vars i8 (-4) i8 1) (EBin (BI ODiv) (EBin (BI OAdd) I8 J8) (ELit i8 2)) = Ok (VI i8 (-1)).
Proof. vm_compute. auto. Qed.
