(** Property theorems: bit masks, comparisons, identity operations (C08-C15, C31). *)
From Coq Require Import SpecFloat Lia.
From Verif Require Import UpcastComplete ConstSpec LintSpec CmpModel CmpSpec MaskProofs2 CmpProofs CmpProofs2.
Open Scope Z_scope.

Local Notation X32 := (EVar (TI u32) 0%nat).
Local Notation I8x := (EVar (TI i8) 0%nat).
Local Notation L := (ELit u32).

(** ** C08 bad_bit_mask / ineffective_bit_mask *)

(** A bad_bit_mask report is right about the comparison being constant, for all types, modes and inputs. *)
Theorem bad_bit_mask_constant : forall p e b e',
  bit_mask p e = Some (MAlways b, e') ->
  forall m rho w m' rho' w', eval m p rho e = Ok w -> eval m' p rho' e = Ok w' -> w = w'.
Proof. exact bit_mask_constant. Qed.
Print Assumptions bad_bit_mask_constant.
Example bad_bit_mask_constant_ex : bit_mask P64 (EBin (BC CEq) (EBin (BI OAnd) X32 (L 2)) (L 1)) = Some (MAlways false, EBin (BC CEq) X32 (L 1)).
Proof. vm_compute. reflexivity. Qed.

(** The reported truth value is right, except on the rows that ask whether the masked side exceeds
    the constant (see [bad_bit_mask_exceeds_refuted]) and for signed order comparisons with a
    negative constant (see [bad_bit_mask_signed_refuted]). *)
Theorem bad_bit_mask_value_partial : forall m p rho e b e' left w,
  bit_mask p e = Some (MAlways b, e') -> unmasked e e' left ->
  asks_exceeds e left = false -> is_equality e = true \/ sides_nonneg m p rho e ->
  eval m p rho e = Ok w -> w = VB b.
Proof. exact bit_mask_always. Qed.
Print Assumptions bad_bit_mask_value_partial.
Example bad_bit_mask_value_ex :
  bit_mask P64 (EBin (BC CLt) (EBin (BI OAnd) X32 (L 3)) (L 5)) = Some (MAlways true, EBin (BC CLt) X32 (L 5)) /\
  asks_exceeds (EBin (BC CLt) (EBin (BI OAnd) X32 (L 3)) (L 5)) true = false /\
  eval Checked P64 (all_vars u32 7) (EBin (BC CLt) (EBin (BI OAnd) X32 (L 3)) (L 5)) = Ok (VB true).
Proof. vm_compute. auto. Qed.

(** `x & 3 > 5` is reported to be always true; it is always false. *)
Theorem bad_bit_mask_exceeds_refuted : exists p e b e',
  bit_mask p e = Some (MAlways b, e') /\ exists rho w, eval Checked p rho e = Ok w /\ w <> VB b.
Proof.
  exists P64, (EBin (BC CGt) (EBin (BI OAnd) X32 (L 3)) (L 5)), true, (EBin (BC CGt) X32 (L 5)).
  split; [vm_compute; reflexivity|]. exists (all_vars u32 7), (VB false). split; [vm_compute; reflexivity|discriminate].
Qed.
Print Assumptions bad_bit_mask_exceeds_refuted.
(** More precisely the report is wrong on every such row, unless the mask is `& 0`. *)
Theorem bad_bit_mask_exceeds_wrong : forall m p rho e b e' left w,
  bit_mask p e = Some (MAlways b, e') -> unmasked e e' left -> asks_exceeds e left = true ->
  eval m p rho e = Ok w ->
  w = VB (negb b) \/ exists t, eval m p rho (match e with EBin _ l r => if left then l else r | _ => e end) = Ok (VI t 0).
Proof. exact bit_mask_exceeds. Qed.
Print Assumptions bad_bit_mask_exceeds_wrong.
(** `x & 0 > -1` (i8) is reported to be always false; it is always true. *)
Theorem bad_bit_mask_signed_refuted : exists p e b e',
  bit_mask p e = Some (MAlways b, e') /\ exists rho w, eval Checked p rho e = Ok w /\ w <> VB b.
Proof.
  exists P64, (EBin (BC CGt) (EBin (BI OAnd) I8x (ELit i8 0)) (EUn UNeg (ELit i8 1))), false, (EBin (BC CGt) I8x (EUn UNeg (ELit i8 1))).
  split; [vm_compute; reflexivity|]. exists (all_vars i8 7), (VB true). split; [vm_compute; reflexivity|discriminate].
Qed.
Print Assumptions bad_bit_mask_signed_refuted.

(** ineffective_bit_mask: the comparison is the same without the mask. *)
Theorem ineffective_bit_mask_preserves : forall p e e',
  bit_mask p e = Some (MIneffective, e') ->
  (exists left, unmasked e e' left) /\ forall m rho, preserves m p rho e e'.
Proof. exact bit_mask_ineffective. Qed.
Print Assumptions ineffective_bit_mask_preserves.
Example ineffective_bit_mask_ex :
  bit_mask P64 (EBin (BC CGt) (EBin (BI OOr) X32 (L 1)) (L 3)) = Some (MIneffective, EBin (BC CGt) X32 (L 3)) /\
  bit_mask P64 (EBin (BC CLe) (L 7) (EBin (BI OXor) (L 5) X32)) = None /\
  bit_mask P64 (EBin (BC CGt) (L 8) (EBin (BI OXor) (L 5) X32)) = Some (MIneffective, EBin (BC CGt) (L 8) X32).
Proof. vm_compute. auto. Qed.

(** ** C09 verbose_bit_mask *)
Theorem verbose_bit_mask_preserves : forall m p rho threshold e e',
  verbose_bit_mask threshold e = Some e' -> preserves m p rho e e'.
Proof. exact verbose_bit_mask_sound. Qed.
Print Assumptions verbose_bit_mask_preserves.
Example verbose_bit_mask_ex :
  verbose_bit_mask 1 (EBin (BC CEq) (EBin (BI OAnd) I8x (ELit i8 15)) (ELit i8 0)) = Some (EBin (BC CGe) (EM0 MTrailingZeros I8x) (L 4)) /\
  eval Checked P64 (all_vars i8 (-16)) (EBin (BC CEq) (EBin (BI OAnd) I8x (ELit i8 15)) (ELit i8 0)) = Ok (VB true).
Proof. vm_compute. auto. Qed.

(** ** C31 normalize_comparison *)
Theorem normalize_comparison_equivalent : forall m p rho c l r rel l' r' v,
  normalize_comparison c l r = (rel, l', r') ->
  (eval m p rho (EBin (BC c) l r) = Ok v <-> eval m p rho (EBin (BC (rel_cop rel)) l' r') = Ok v).
Proof. exact normalize_comparison_sound. Qed.
Print Assumptions normalize_comparison_equivalent.
Example normalize_comparison_ex : normalize_comparison CGe X32 (L 3) = (RLe, L 3, X32) /\
  eval Checked P64 (all_vars u32 3) (EBin (BC CGe) X32 (L 3)) = Ok (VB true).
Proof. vm_compute. auto. Qed.

(** ** C10 absurd_extreme_comparisons *)
Theorem absurd_comparison_correct : forall m p rho e a v,
  absurd_comparison p e = Some a -> eval m p rho e = Ok v -> absurd_claim m p rho e a v.
Proof. exact absurd_comparison_sound. Qed.
Print Assumptions absurd_comparison_correct.
Example absurd_comparison_ex :
  absurd_comparison P64 (EBin (BC CLe) X32 (L 0)) = Some InequalityImpossible /\
  absurd_comparison P64 (EBin (BC CGt) I8x (ELit i8 127)) = Some AlwaysFalse /\
  absurd_comparison P64 (EBin (BC CLe) (EUn UNeg (ELit i8 128)) I8x) = None /\
  absurd_comparison P64 (EBin (BC CLe) (EAssoc i8 AMin) I8x) = Some AlwaysTrue /\
  absurd_comparison P64 (EBin (BC CLt) (EVar TB 0%nat) (EBool false)) = Some AlwaysFalse.
Proof. vm_compute. auto. Qed.

(** ** C11 invalid_upcast_comparisons *)
Theorem invalid_upcast_correct_partial : forall m p rho e b v,
  In b (invalid_upcast p p e) -> sides_widen p e -> eval m p rho e = Ok v -> v = VB b.
Proof. exact invalid_upcast_sound. Qed.
Print Assumptions invalid_upcast_correct_partial.
(** Conversely every comparison of a cast between widths with a constant, that has one result for all values before the cast, is reported with that result. *)
Theorem invalid_upcast_complete : forall p c a t s r v b,
  ty_of a = Some (TI s) -> bits p s <> bits p t -> eval_full_int p p r = Some v -> fi_wf v ->
  ((forall z, inr p s z = true -> cmp_op c z (fi_val v) = b) -> In b (invalid_upcast p p (EBin (BC c) (ECast a t) r)))
  /\ ((forall z, inr p s z = true -> cmp_op c (fi_val v) z = b) -> In b (invalid_upcast p p (EBin (BC c) r (ECast a t)))).
Proof. intros p c a t s r v b T N V W. split; [now apply (upcast_left p c a t s r v b)|now apply (upcast_right p c a t s r v b)]. Qed.
Print Assumptions invalid_upcast_complete.
Example invalid_upcast_complete_ex : eval_full_int P64 P64 (ELit u32 255) = Some (FU 255) /\ fi_wf (FU 255) /\ bits P64 u8 <> bits P64 u32 /\
  (forall z, inr P64 u8 z = true -> cmp_op CLe z 255 = true) /\
  In true (invalid_upcast P64 P64 (EBin (BC CLe) (ECast (EVar (TI u8) 0%nat) u32) (ELit u32 255))).
Proof.
  split; [reflexivity|]. split; [cbn; lia|]. split; [discriminate|]. split; [|vm_compute; auto].
  intros z H. unfold inr in H. apply andb_true_iff in H as [_ H]. exact H.
Qed.
Example invalid_upcast_ex :
  In true (invalid_upcast P64 P64 (EBin (BC CLt) (ECast (EVar (TI u8) 0%nat) u32) (L 300))) /\
  sides_widen P64 (EBin (BC CLt) (ECast (EVar (TI u8) 0%nat) u32) (L 300)) /\
  eval Checked P64 (all_vars u8 255) (EBin (BC CLt) (ECast (EVar (TI u8) 0%nat) u32) (L 300)) = Ok (VB true).
Proof. vm_compute. repeat split; auto; discriminate. Qed.
(** A sign-changing widening cast: `(x: i8) as u32 < 200` is reported to be always true. *)
Theorem invalid_upcast_sign_refuted : exists p e b, In b (invalid_upcast p p e) /\ exists rho v, eval Checked p rho e = Ok v /\ v <> VB b.
Proof.
  exists P64, (EBin (BC CLt) (ECast I8x u32) (L 200)), true. split; [vm_compute; auto|].
  exists (all_vars i8 (-1)), (VB false). split; [vm_compute; reflexivity|discriminate].
Qed.
Print Assumptions invalid_upcast_sign_refuted.
(** A narrowing cast: `(x: u16) as i8 == -1` is reported to be always false. *)
Theorem invalid_upcast_narrow_refuted : exists p e b, In b (invalid_upcast p p e) /\ exists rho v, eval Checked p rho e = Ok v /\ v <> VB b.
Proof.
  exists P64, (EBin (BC CEq) (ECast (EVar (TI u16) 0%nat) i8) (EUn UNeg (ELit i8 1))), false. split; [vm_compute; auto|].
  exists (all_vars u16 255), (VB true). split; [vm_compute; reflexivity|discriminate].
Qed.
Print Assumptions invalid_upcast_narrow_refuted.
(** Clippy on a 64-bit host checking code for a 16-bit target: nothing is reported for
    `(x: usize) as u32 < 65536`, while a 16-bit host would report it: the answer depends on the host. *)
Theorem invalid_upcast_host_refuted : exists h h' p e, invalid_upcast h p e <> invalid_upcast h' p e.
Proof.
  exists P64, P16, P16, (EBin (BC CLt) (ECast (EVar (TI usize) 0%nat) u32) (L 65536)). vm_compute. discriminate.
Qed.
Print Assumptions invalid_upcast_host_refuted.

(** ** C12 identity_op / erasing_op *)
Theorem identity_op_preserves_partial : forall m p rho e e',
  identity_op p e = Some e' ->
  (forall l r, e = EBin (BI ORem) l r -> forall t, eval m p rho l <> Ok (VI t (- 2 ^ 127))) ->
  preserves m p rho e e'.
Proof. exact identity_op_sound. Qed.
Print Assumptions identity_op_preserves_partial.
Example identity_op_ex :
  identity_op P64 (EBin (BI OAnd) X32 (EUn UNot (L 0))) = Some X32 /\
  identity_op P64 (EBin (BI OShl) X32 (ELit u8 0)) = Some X32 /\
  identity_op P64 (EBin (BI OShl) (L 1) (L 0)) = None /\
  identity_op P64 (EBin (BI ORem) (EUn UNeg (ELit i8 3)) (ELit i8 4)) = Some (EUn UNeg (ELit i8 3)).
Proof. vm_compute. auto. Qed.
(** `i128::MIN % 3` is reported to have no effect (the magnitude of i128::MIN wraps around). *)
Theorem identity_op_rem_refuted : exists p e e', identity_op p e = Some e' /\ exists rho v, eval Checked p rho e = Ok v /\ eval Checked p rho e' <> Ok v.
Proof.
  exists P64, (EBin (BI ORem) (EAssoc i128 AMin) (ELit i128 3)), (EAssoc i128 AMin). split; [vm_compute; reflexivity|].
  exists (all_vars u32 0), (VI i128 (-2)). split; [vm_compute; reflexivity|vm_compute; discriminate].
Qed.
Print Assumptions identity_op_rem_refuted.
Theorem erasing_op_zero : forall m p rho e v, erasing_op p e = true -> eval m p rho e = Ok v -> exists t, v = VI t 0.
Proof. exact erasing_op_sound. Qed.
Print Assumptions erasing_op_zero.
Example erasing_op_ex : erasing_op P64 (EBin (BI OMul) X32 (EBin (BI OSub) (L 1) (L 1))) = true /\
  eval Checked P64 (all_vars u32 9) (EBin (BI OMul) X32 (EBin (BI OSub) (L 1) (L 1))) = Ok (VI u32 0).
Proof. vm_compute. auto. Qed.

(** ** C13 redundant_comparisons / impossible_comparisons *)
Theorem const_comparisons_correct : forall m p rho e k v,
  const_comparisons p e = Some k -> eval m p rho e = Ok v ->
  exists lc rc, e = EBin BAnd lc rc /\ const_claim m p rho lc rc k v.
Proof. exact const_comparisons_sound. Qed.
Print Assumptions const_comparisons_correct.
Example const_comparisons_ex :
  const_comparisons P64 (EBin BAnd (EBin (BC CLe) I8x (ELit i8 5)) (EBin (BC CGt) (ELit i8 5) I8x)) = Some LeftUseless /\
  const_comparisons P64 (EBin BAnd (EBin (BC CLt) I8x (EUn UNeg (ELit i8 5))) (EBin (BC CLe) I8x (ELit i8 3))) = Some RightUseless /\
  const_comparisons P64 (EBin BAnd (EBin (BC CLt) I8x (EUn UNeg (ELit i8 5))) (EBin (BC CGt) I8x (ELit i8 3))) = Some Impossible /\
  eval Checked P64 (all_vars i8 4) (EBin BAnd (EBin (BC CLe) I8x (ELit i8 5)) (EBin (BC CGt) (ELit i8 5) I8x)) = Ok (VB true).
Proof. vm_compute. auto. Qed.
(** The same with f64 operands: `x < 1.5 && x > 2.5`, and `x < 1.5 && x < 2.5` on a NaN. *)
Example const_comparisons_float_ex :
  let f15 := EFloat (S754_finite false 6755399441055744 (-52)) in let f25 := EFloat (S754_finite false 5629499534213120 (-51)) in
  let X := EVar TF 0%nat in
  const_comparisons P64 (EBin BAnd (EBin (BC CLt) X f15) (EBin (BC CGt) X f25)) = Some Impossible /\
  const_comparisons P64 (EBin BAnd (EBin (BC CLt) X f15) (EBin (BC CLt) X f25)) = Some RightUseless /\
  eval Checked P64 (fun _ => VF S754_nan) (EBin BAnd (EBin (BC CLt) X f15) (EBin (BC CLt) X f25)) = Ok (VB false).
Proof. vm_compute. auto. Qed.

(** ** C14 double_comparisons *)
Theorem double_comparison_preserves_partial : forall m p rho e e',
  double_comparison e = Some e' ->
  (match e' with EBin (BC CNe) l _ => ty_of l <> None /\ ty_of l <> Some TF | _ => True end) ->
  preserves m p rho e e'.
Proof. exact double_comparison_sound. Qed.
Print Assumptions double_comparison_preserves_partial.
Example double_comparison_ex :
  double_comparison (EBin BOr (EBin (BC CEq) (EVar TF 0%nat) (EVar TF 1%nat)) (EBin (BC CLt) (EVar TF 0%nat) (EVar TF 1%nat)))
    = Some (EBin (BC CLe) (EVar TF 0%nat) (EVar TF 1%nat)) /\
  double_comparison (EBin BOr (EBin (BC CLt) X32 (L 1)) (EBin (BC CGt) X32 (L 1))) = Some (EBin (BC CNe) X32 (L 1)).
Proof. vm_compute. auto. Qed.
(** `x < y || x > y` and `x != y` differ when an operand is NaN. *)
Theorem double_comparison_nan_refuted : exists e e', double_comparison e = Some e' /\
  exists rho v, eval Checked P64 rho e = Ok v /\ eval Checked P64 rho e' <> Ok v.
Proof.
  exists (EBin BOr (EBin (BC CLt) (EVar TF 0%nat) (EVar TF 1%nat)) (EBin (BC CGt) (EVar TF 0%nat) (EVar TF 1%nat))).
  eexists. split; [vm_compute; reflexivity|]. exists (fun _ => VF S754_nan), (VB false). split; [vm_compute; reflexivity|vm_compute; discriminate].
Qed.
Print Assumptions double_comparison_nan_refuted.

(** ** C15 int_plus_one *)
Theorem int_plus_one_preserves_partial : forall p rho e e', int_plus_one e = Some e' -> preserves Checked p rho e e'.
Proof. exact int_plus_one_sound. Qed.
Print Assumptions int_plus_one_preserves_partial.
Example int_plus_one_ex :
  int_plus_one (EBin (BC CLe) X32 (EBin (BI OSub) (EVar (TI u32) 1%nat) (L 1))) = Some (EBin (BC CLt) X32 (EVar (TI u32) 1%nat)) /\
  int_plus_one (EBin (BC CGe) (EBin (BI OAdd) (EUn UNeg (ELit i8 1)) I8x) (ELit i8 4)) = Some (EBin (BC CGt) I8x (ELit i8 4)) /\
  eval Checked P64 (two_vars u32 3 u32 9) (EBin (BC CLe) X32 (EBin (BI OSub) (EVar (TI u32) 1%nat) (L 1))) = Ok (VB true).
Proof. vm_compute. auto. Qed.
(** Without overflow checks `x >= y + 1` is true for y = u32::MAX, `x > y` is not. *)
Theorem int_plus_one_wrapping_refuted : exists e e', int_plus_one e = Some e' /\
  exists rho v, eval Wrapping P64 rho e = Ok v /\ eval Wrapping P64 rho e' <> Ok v.
Proof.
  exists (EBin (BC CGe) X32 (EBin (BI OAdd) (EVar (TI u32) 1%nat) (L 1))). eexists. split; [vm_compute; reflexivity|].
  exists (two_vars u32 3 u32 4294967295), (VB true). split; [vm_compute; reflexivity|vm_compute; discriminate].
Qed.
Print Assumptions int_plus_one_wrapping_refuted.
