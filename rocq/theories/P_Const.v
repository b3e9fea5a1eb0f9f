(** Properties C27, C28, C29: constant evaluation, ordering, sign extension. *)
From Coq Require Import SpecFloat.
From Verif Require Import ConstMore.
Open Scope Z_scope.

(** C27.  If the evaluator (run on a host whose pointer width is the target's)
    assigns a constant and the expression evaluates, the value is that constant. *)
Theorem const_eval_value : forall m p rho e c v,
  ceval p p e = Some c -> eval m p rho e = Ok v -> denotes p c v.
Proof. exact ceval_sound_denotes. Qed.
Print Assumptions const_eval_value.

(** C27.  A well-typed expression that is assigned a constant evaluates, with
    overflow checks off, to exactly that constant: it does not panic. *)
Theorem const_eval_total_wrapping : forall p rho e c t,
  tyck p e = Some t -> ceval p p e = Some c ->
  exists v, eval Wrapping p rho e = Ok v /\ denotes p c v.
Proof.
  exact (fun p rho e c t Ht Hc =>
    match ceval_total Wrapping p rho e c t (or_introl eq_refl) Ht Hc with
    | ex_intro _ v Hv => ex_intro _ v (conj Hv (ceval_sound_denotes _ _ _ _ _ _ Hc Hv)) end).
Qed.
Print Assumptions const_eval_total_wrapping.

(** C27.  The same with overflow checks on, if no signed value is shifted by an
    amount of a wider type (the full statement without that condition is false,
    see the next theorem). *)
Theorem const_eval_total_checked_partial : forall p rho e c t,
  narrow_shifts p e = true -> tyck p e = Some t -> ceval p p e = Some c ->
  exists v, eval Checked p rho e = Ok v /\ denotes p c v.
Proof.
  exact (fun p rho e c t Hn Ht Hc =>
    match ceval_total Checked p rho e c t (or_intror Hn) Ht Hc with
    | ex_intro _ v Hv => ex_intro _ v (conj Hv (ceval_sound_denotes _ _ _ _ _ _ Hc Hv)) end).
Qed.
Print Assumptions const_eval_total_checked_partial.

(** C27 finding: `1i8 << 257u32` is folded to 2 although it panics. *)
Theorem const_eval_wide_shift_refuted : exists e t c, forall rho,
  tyck P64 e = Some t /\ ceval P64 P64 e = Some c /\ eval Checked P64 rho e = Panic.
Proof. exists (EBin (BI OShl) (ELit i8 1) (ELit u32 257)), (TI i8), (CInt 2). intros rho. vm_compute. auto. Qed.
Print Assumptions const_eval_wide_shift_refuted.

(** C27 finding: on a 64-bit host, `3usize << 31` for a 32-bit target is folded to
    a number that is not even representable on the target. *)
Theorem const_eval_cross_target_refuted : exists e t c, forall rho, exists v,
  tyck P32 e = Some t /\ ceval P64 P32 e = Some c /\ eval Checked P32 rho e = Ok v /\ ~ denotes P32 c v.
Proof.
  exists (EBin (BI OShl) (ELit usize 3) (ELit u32 31)), (TI usize), (CInt (3 * 2 ^ 31)). intros rho.
  exists (VI usize (2 ^ 31)). vm_compute. repeat split; intros; discriminate.
Qed.
Print Assumptions const_eval_cross_target_refuted.

(** Non-vacuity: a nested signed computation is folded and evaluates. *)
Example const_eval_example :
  let e := EBin (BI OMul) (EUn UNeg (ELit i16 300)) (EBin (BI OSub) (ELit i16 7) (EBin (BI OShl) (ELit i16 1) (ELit u8 5))) in
  tyck P64 e = Some (TI i16) /\ ceval P64 P64 e = Some (CInt 7500) /\ narrow_shifts P64 e = true /\
  eval Checked P64 (fun _ => VB true) e = Ok (VI i16 7500).
Proof. vm_compute. auto. Qed.
Example const_eval_example_neg :
  ceval P64 P64 (EUn UNeg (ELit i8 5)) = Some (CInt 251) /\ denotes P64 (CInt 251) (VI i8 (-5)).
Proof. vm_compute. auto. Qed.

(** C28.  Comparing constants of one integer type orders the values they denote. *)
Theorem constant_cmp_int : forall p t x y l r,
  inr p t x = true -> inr p t y = true ->
  denotes p l (VI t x) -> denotes p r (VI t y) -> const_partial_cmp p (TI t) l r = Some (x ?= y).
Proof. exact const_partial_cmp_int. Qed.
Print Assumptions constant_cmp_int.
Theorem constant_cmp_bool : forall p t x y l r,
  denotes p l (VB x) -> denotes p r (VB y) -> const_partial_cmp p t l r = Some (Z.b2z x ?= Z.b2z y).
Proof. exact const_partial_cmp_bool. Qed.
Print Assumptions constant_cmp_bool.
(** C28.  For every scalar type the answer (including "unordered" for a NaN) is the one the
    comparison of the two values gives at run time. *)
Theorem constant_cmp_agrees : forall p t l r vl vr,
  val_wf p vl = true -> val_wf p vr = true -> val_ty vl = t -> val_ty vr = t ->
  denotes p l vl -> denotes p r vr -> val_cmp vl vr = Ok (const_partial_cmp p t l r).
Proof. exact const_cmp_agrees. Qed.
Print Assumptions constant_cmp_agrees.
Example constant_cmp_agrees_ex :
  val_cmp (VF S754_nan) (VF (S754_zero true)) = Ok (const_partial_cmp P64 TF (CF64 S754_nan) (CF64 (S754_zero true))) /\
  const_partial_cmp P64 TF (CF64 (S754_zero true)) (CF64 (S754_zero false)) = Some Eq /\
  const_partial_cmp P64 TF (CF64 (S754_infinity true)) (CF64 (S754_zero false)) = Some Lt.
Proof. vm_compute. auto. Qed.

(** C28.  The mixed signed/unsigned order is the order of the integers. *)
Theorem fullint_order : forall a b, fi_wf a -> fi_wf b -> fullint_cmp a b = (fi_val a ?= fi_val b).
Proof. exact fullint_cmp_val. Qed.
Print Assumptions fullint_order.

(** C28/C27.  The integer reading of an expression is its run-time value. *)
Theorem eval_int_value : forall m p rho e fi t z,
  eval_int p p e = Some fi -> eval m p rho e = Ok (VI t z) -> fi_val fi = z.
Proof. exact eval_int_sound. Qed.
Print Assumptions eval_int_value.

Example constant_cmp_example :
  denotes P32 (CInt 255) (VI i8 (-1)) /\ denotes P32 (CInt 1) (VI i8 1) /\
  const_partial_cmp P32 (TI i8) (CInt 255) (CInt 1) = Some Lt /\ fullint_cmp (FS (-1)) (FU (2 ^ 128 - 1)) = Lt /\
  eval_int P32 P32 (EUn UNeg (ELit i128 (2 ^ 127))) = Some (FS (- 2 ^ 127)).
Proof. vm_compute. auto. Qed.

(** C29.  Sign extension yields the representable value congruent to the pattern. *)
Theorem sext_is_twos_complement : forall p t u, ity_signed t = true ->
  inr p t (sext p t u) = true /\ (sext p t u) mod 2 ^ bits p t = u mod 2 ^ bits p t.
Proof. exact sext_value. Qed.
Print Assumptions sext_is_twos_complement.
Theorem unsext_of_sext : forall p t u, ity_signed t = true -> 0 <= u < 2 ^ bits p t -> unsext p t (sext p t u) = u.
Proof. exact unsext_sext. Qed.
Print Assumptions unsext_of_sext.
Theorem sext_of_unsext : forall p t z, ity_signed t = true -> inr p t z = true -> sext p t (unsext p t z) = z.
Proof. exact sext_unsext. Qed.
Print Assumptions sext_of_unsext.
Theorem clip_is_mod : forall p t u, clip p t u = u mod 2 ^ bits p t.
Proof. exact clip_mod. Qed.
Print Assumptions clip_is_mod.
Example sext_example : sext P64 i8 200 = -56 /\ unsext P64 i8 (-56) = 200 /\ clip P64 u16 65537 = 1.
Proof. vm_compute. auto. Qed.
