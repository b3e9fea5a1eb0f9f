(** C20-C22, C58-C62: the numeric cast lints. *)
From Verif Require Import RustFacts.
From Verif Require Import CastModel CastSpec CastProofs CastProofs2.
Open Scope Z_scope.

Ltac crush :=
  lazymatch goal with
  | |- cast_loses _ _ _ _ _ => eapply cast_loses_inr; [vm_compute; reflexivity|vm_compute; reflexivity]
  | |- exists _, _ => eexists; split; vm_compute; reflexivity
  | |- _ = _ => vm_compute; reflexivity
  end.

(** ** C20: what silence of the three integer cast lints means for an opaque operand *)

(** None of `cast_possible_truncation`, `cast_possible_wrap` and `cast_sign_loss` speaks up about
    `x as to`: then the cast keeps every value of [x] exactly when it does not go from a fixed-size
    type to a narrower pointer-sized one. *)
Theorem silent_cast_exact p from to x : cast_silent p (EVar (TI from) x) to = true ->
  ((forall m rho, cast_keeps m p rho (EVar (TI from) x) to) <-> ~ narrows_to_pointer p from to).
Proof.
  intros H. rewrite silent_var in H. split.
  - intros K (F & T & B).
    pose proof (table3 _ silent_narrow_table p from to) as N. cbn beta in N.
    replace (bits p to <? bits p from) with true in N by lia. cbn in N. apply orb_prop in N as [N|N]; apply negb_true_iff in N.
    + specialize (K Checked (all_vars from (imax p from)) from (imax p from) (eval_var_int _ _ _ _ _ (imax_inr _ _))).
      rewrite (eval_cast _ _ _ _ _ _ _ (eval_var_int _ _ _ _ _ (imax_inr _ _))) in K. injection K as K. rewrite <- K, wrap_range in N. discriminate.
    + specialize (K Checked (all_vars from (imin p from)) from (imin p from) (eval_var_int _ _ _ _ _ (imin_inr _ _))).
      rewrite (eval_cast _ _ _ _ _ _ _ (eval_var_int _ _ _ _ _ (imin_inr _ _))) in K. injection K as K. rewrite <- K, wrap_range in N. discriminate.
  - intros N m rho. apply cast_keeps_inr. intros t z E. apply eval_var_inv in E as [-> I].
    pose proof (table3 _ silent_table p from to) as T. cbn beta in T. rewrite H in T. cbn [negb orb] in T.
    apply orb_prop in T as [T|T].
    + exfalso. apply N. apply andb_prop in T as [T1 T3]. apply andb_prop in T1 as [T1 T2]. repeat split; [now apply negb_true_iff|auto|lia].
    + apply inr_iff in I. apply inr_iff. apply andb_prop in T. lia.
Qed.
Print Assumptions silent_cast_exact.

(** Silence guarantees the value on 32- and 64-bit targets for casts from types of at most 32 bits,
    and everywhere when the target type is not pointer-sized.  Missing: casts of wider types to
    [usize]/[isize], see the refutations. *)
Theorem silent_cast_keeps_partial p from to x m rho : cast_silent p (EVar (TI from) x) to = true ->
  pointer_sized to = false \/ pointer_sized from = true \/ bits p from <= bits p to ->
  cast_keeps m p rho (EVar (TI from) x) to.
Proof.
  intros H Q. apply (proj2 (silent_cast_exact p from to x H)). intros (F & T & B). destruct Q as [Q|[Q|Q]]; [congruence|congruence|lia].
Qed.
Print Assumptions silent_cast_keeps_partial.

(** `x as usize` from u128 on a 64-bit target, from u32 on a 16-bit one: silent and lossy. *)
Theorem silent_cast_refuted :
  (cast_silent P64 (EVar (TI u128) 0) usize = true /\ cast_loses Checked P64 (all_vars u128 (2 ^ 64)) (EVar (TI u128) 0) usize)
  /\ (cast_silent P16 (EVar (TI u32) 0) usize = true /\ cast_loses Checked P16 (all_vars u32 (2 ^ 16)) (EVar (TI u32) 0) usize)
  /\ (cast_silent P32 (EVar (TI i128) 0) isize = true /\ cast_loses Checked P32 (all_vars i128 (2 ^ 31)) (EVar (TI i128) 0) isize).
Proof.
  repeat match goal with |- _ /\ _ => split end; crush.
Qed.
Print Assumptions silent_cast_refuted.

(** Conversely a report is never idle: on some pointer width some value of the variable is changed. *)
Theorem reported_cast_can_lose p from to x : cast_silent p (EVar (TI from) x) to = false ->
  exists q rho, cast_loses Checked q rho (EVar (TI from) x) to.
Proof.
  rewrite silent_var. intros H. apply negb_false_iff in H. pose proof (table3 _ reported_table p from to) as T. cbn beta in T.
  rewrite H in T. cbn [negb orb] in T. apply existsb_exists in T as (q & _ & T). apply orb_prop in T as [T|T]; apply negb_true_iff in T.
  - exists q, (all_vars from (imax q from)). eapply cast_loses_inr; [apply eval_var_int, imax_inr|exact T].
  - exists q, (all_vars from (imin q from)). eapply cast_loses_inr; [apply eval_var_int, imin_inr|exact T].
Qed.
Print Assumptions reported_cast_can_lose.

Example C20_nontrivial :
  cast_silent P64 (EVar (TI u32) 0) i64 = true /\ cast_silent P64 (EVar (TI u32) 0) i32 = false
  /\ cast_silent P64 (EVar (TI i32) 0) u32 = false /\ cast_silent P64 (EVar (TI u64) 0) u32 = false
  /\ cast_silent P64 (EVar (TI u32) 0) usize = true /\ ~ narrows_to_pointer P64 u32 usize /\ narrows_to_pointer P16 u32 usize
  /\ eval Checked P64 (all_vars u32 (2 ^ 32 - 1)) (ECast (EVar (TI u32) 0) i64) = Ok (VI i64 (2 ^ 32 - 1)).
Proof. repeat match goal with |- _ /\ _ => split end; first [intros (_ & _ & H); vm_compute in H; discriminate | repeat split; vm_compute; reflexivity]. Qed.

(** ** C21: the bit estimate of `cast_possible_truncation` *)

(** On unsigned operands whose parts are not wider than the whole, the value has at most the
    estimated number of bits.  Missing: signed operands, casts from wider types inside the operand and
    methods that may return more than their receiver, for which it is false. *)
Theorem reductions_bound_partial p n rho e t z : 0 <= n -> unsigned_parts p n e = true -> eval Checked p rho e = Ok (VI t z) ->
  0 <= z < 2 ^ apply_reductions p n e false.
Proof. intros N U E. exact (reductions_unsigned p n rho e N U t z E). Qed.
Print Assumptions reductions_bound_partial.

(** Signed operands built with right shifts and widening casts only. *)
Theorem reductions_bound_signed_partial p n rho e t z : 0 <= n -> signed_shifts p n e = true -> eval Checked p rho e = Ok (VI t z) ->
  let k := Z.max 1 (apply_reductions p n e true) in - 2 ^ (k - 1) <= z < 2 ^ (k - 1).
Proof.
  intros N U E. pose proof (reductions_signed p n rho e N U t z E) as H. cbv zeta in *.
  replace (Z.max 1 (apply_reductions p n e true) - 1) with (Z.max 0 (apply_reductions p n e true - 1)) by lia. exact H.
Qed.
Print Assumptions reductions_bound_signed_partial.

(** So a silent unsigned cast between two fixed-size or two pointer-sized types keeps the value. *)
Theorem silent_truncation_keeps_partial p rho e from to : ty_of e = Some (TI from) -> ity_signed to = false ->
  unsigned_parts p (bits p from) e = true -> pointer_sized from = pointer_sized to ->
  cast_silent p e to = true -> cast_keeps Checked p rho e to.
Proof.
  intros T ST U PS H. unfold cast_silent in H. rewrite T in H. apply negb_true_iff in H. apply orb_false_iff in H as [H _]. apply orb_false_iff in H as [H _].
  pose proof (unsigned_parts_ty _ _ _ U) as (t' & T' & S & _). rewrite T in T'. injection T' as <-.
  unfold cast_possible_truncation, truncates, int_ty_to_nbits in H. rewrite S in H.
  assert (B : (bits p to <? apply_reductions p (bits p from) e false) = false).
  { destruct from as [sf []], to as [st []]; try discriminate PS; exact H. }
  apply cast_keeps_inr. intros t z E. pose proof (bits_pos p from).
  pose proof (reductions_unsigned p (bits p from) rho e ltac:(lia) U t z E) as [Z1 Z2].
  apply inr_iff. unfold imin, imax. rewrite ST. split; [lia|].
  assert (2 ^ apply_reductions p (bits p from) e false <= 2 ^ bits p to); [apply Z.pow_le_mono_r; lia|lia].
Qed.
Print Assumptions silent_truncation_keeps_partial.

(** Where the estimate is wrong: each cast below is silent and changes the value. *)
Definition lit (t : ity) (n : Z) := ELit t n.
Theorem reductions_bound_refuted :
  (* `((x: u64) >> 16) as u32 as u16`: bits of the shifted 64-bit value counted from the 32 of the middle type *)
  (let e := ECast (EBin (BI OShr) (EVar (TI u64) 0) (lit i32 16)) u32 in
   cast_silent P64 e u16 = true /\ cast_loses Checked P64 (all_vars u64 (2 ^ 40)) e u16)
  (* `(x & 1).saturating_add(y) as u8` *)
  /\ (let e := EM1 MSatAdd (EBin (BI OAnd) (EVar (TI u32) 0) (lit u32 1)) (EVar (TI u32) 1) in
      cast_silent P64 e u8 = true /\ cast_loses Checked P64 (two_vars u32 1 u32 300) e u8)
  (* `x % 200 as i8` on i32 *)
  /\ (let e := EBin (BI ORem) (EVar (TI i32) 0) (lit i32 200) in
      cast_silent P64 e i8 = true /\ cast_loses Checked P64 (all_vars i32 199) e i8)
  (* `((x >> 60) & y) as i8` on i64 *)
  /\ (let e := EBin (BI OAnd) (EBin (BI OShr) (EVar (TI i64) 0) (lit i32 60)) (EVar (TI i64) 1) in
      cast_silent P64 e i8 = true /\ cast_loses Checked P64 (two_vars i64 (- 1) i64 255) e i8)
  (* `(x & 0xff) as i8` on i32 *)
  /\ (let e := EBin (BI OAnd) (EVar (TI i32) 0) (lit i32 255) in
      cast_silent P64 e i8 = true /\ cast_loses Checked P64 (all_vars i32 255) e i8)
  (* `((x: u64) >> 1) as usize` on a 32-bit target *)
  /\ (let e := EBin (BI OShr) (EVar (TI u64) 0) (lit i32 1) in
      cast_silent P32 e usize = true /\ cast_loses Checked P32 (all_vars u64 (2 ^ 40)) e usize)
  (* `(x >> 64) as u8` on u64 with overflow checks off *)
  /\ (let e := EBin (BI OShr) (EVar (TI u64) 0) (lit i32 64) in
      cast_silent P64 e u8 = true /\ cast_loses Wrapping P64 (all_vars u64 256) e u8)
  (* `((x >> 56) / y) as i8` on i64 *)
  /\ (let e := EBin (BI ODiv) (EBin (BI OShr) (EVar (TI i64) 0) (lit i32 56)) (EVar (TI i64) 1) in
      cast_silent P64 e i8 = true /\ cast_loses Checked P64 (two_vars i64 (- 2 ^ 63) i64 (- 1)) e i8).
Proof.
  cbv zeta. repeat match goal with |- _ /\ _ => split end; crush.
Qed.
Print Assumptions reductions_bound_refuted.

(** `((x >> 48) % 100).min(y) as u8` is silent by virtue of the estimate and keeps the value, `x >> 40` is not. *)
Example C21_nontrivial :
  (let e := EM1 MMin (EBin (BI ORem) (EBin (BI OShr) (EVar (TI u64) 0) (lit i32 48)) (lit u64 100)) (EVar (TI u64) 1) in
   unsigned_parts P64 64 e = true /\ apply_reductions P64 64 e false = 7 /\ cast_silent P64 e u8 = true
   /\ eval Checked P64 (two_vars u64 (2 ^ 64 - 1) u64 77) (ECast e u8) = Ok (VI u8 35))
  /\ (let e := EBin (BI OShr) (EVar (TI i64) 0) (lit i32 56) in
      signed_shifts P64 64 e = true /\ apply_reductions P64 64 e true = 8 /\ cast_silent P64 e i8 = true
      /\ eval Checked P64 (all_vars i64 (- 2 ^ 63)) (ECast e i8) = Ok (VI i8 (- 128)))
  /\ cast_silent P64 (EBin (BI OShr) (EVar (TI u64) 0) (lit i32 40)) u8 = false.
Proof. cbv zeta. repeat split; vm_compute; reflexivity. Qed.

(** ** C22: the sign analysis of `cast_sign_loss` *)

(** With overflow checks on, a signed operand that is cast to an unsigned type without a report of
    `cast_sign_loss` is not negative.  Missing: overflow checks off, where it is false. *)
Theorem silent_sign_nonneg_partial p rho e from to t z : ity_signed from = true -> ity_signed to = false ->
  cast_sign_loss p e from to = false -> eval Checked p rho e = Ok (VI t z) -> 0 <= z.
Proof. exact (sign_sound p rho e from to t z). Qed.
Print Assumptions silent_sign_nonneg_partial.

(** Then a cast to the unsigned type of the same size or a wider fixed-size type keeps the value. *)
Theorem silent_sign_keeps_partial p rho e from to : ty_of e = Some (TI from) -> ity_signed from = true -> ity_signed to = false ->
  cast_sign_loss p e from to = false -> bits p from <= bits p to -> cast_keeps Checked p rho e to.
Proof.
  intros T SF ST H B. apply cast_keeps_inr. intros t z E. pose proof (sign_sound _ _ _ _ _ _ _ SF ST H E) as N.
  destruct (eval_int_ty _ _ _ _ _ _ T E) as (z' & [= -> ->] & I). apply inr_iff in I. unfold imax in I. rewrite SF in I.
  apply inr_iff. unfold imin, imax. rewrite ST. split; [exact N|]. pose proof (half_double p from). pose proof (half_pos p from).
  assert (2 ^ bits p from <= 2 ^ bits p to); [apply Z.pow_le_mono_r; pose proof (bits_pos p from); lia|lia].
Qed.
Print Assumptions silent_sign_keeps_partial.

(** Overflow checks off: `x.pow(2) as u32`, `(x.saturating_abs() * x.saturating_abs()) as u32`, and with `+`. *)
Theorem silent_sign_nonneg_refuted :
  (let e := EM1 MPow (EVar (TI i32) 0) (lit u32 2) in
   cast_sign_loss P64 e i32 u32 = false /\ exists z, eval Wrapping P64 (all_vars i32 50000) e = Ok (VI i32 z) /\ z < 0)
  /\ (let e := EBin (BI OMul) (EM0 MSatAbs (EVar (TI i32) 0)) (EM0 MSatAbs (EVar (TI i32) 0)) in
      cast_sign_loss P64 e i32 u32 = false /\ exists z, eval Wrapping P64 (all_vars i32 50000) e = Ok (VI i32 z) /\ z < 0)
  /\ (let e := EBin (BI OAdd) (EM0 MSatAbs (EVar (TI i32) 0)) (EM0 MSatAbs (EVar (TI i32) 0)) in
      cast_sign_loss P64 e i32 u32 = false /\ exists z, eval Wrapping P64 (all_vars i32 (2 ^ 30)) e = Ok (VI i32 z) /\ z < 0).
Proof.
  cbv zeta. repeat match goal with |- _ /\ _ => split end; crush.
Qed.
Print Assumptions silent_sign_nonneg_refuted.

(** `(x.rem_euclid(5) * y.pow(2)) as u32` is accepted, `(x * y) as u32` and `(x.pow(3)) as u32` are reported. *)
Example C22_nontrivial :
  (let e := EBin (BI OMul) (EM1 MRemEuclid (EVar (TI i32) 0) (lit i32 5)) (EM1 MPow (EVar (TI i32) 1) (lit u32 2)) in
   cast_sign_loss P64 e i32 u32 = false /\ eval Checked P64 (two_vars i32 (- 7) i32 (- 4)) e = Ok (VI i32 48))
  /\ cast_sign_loss P64 (EBin (BI OMul) (EVar (TI i32) 0) (EVar (TI i32) 1)) i32 u32 = true
  /\ cast_sign_loss P64 (EM1 MPow (EVar (TI i32) 0) (lit u32 3)) i32 u32 = true.
Proof. cbv zeta. repeat split; vm_compute; reflexivity. Qed.

(** ** C58: `cast_lossless` and `cast_precision_loss` *)

(** Between integer types the lint fires exactly when both are fixed-size, different, and the target
    type has every value of the source type, on whatever target. *)
Theorem cast_lossless_int p from to : cast_lossless p (NI from) (NI to) = true <->
  pointer_sized from = false /\ pointer_sized to = false /\ from <> to /\ (forall z, inr p from z = true -> inr p to z = true).
Proof.
  pose proof (table3 _ lossless_table p from to) as T. cbn beta in T. apply eqb_prop in T. rewrite T.
  rewrite !andb_true_iff, !negb_true_iff. split.
  - intros (((A & B) & C) & D & E). split; [auto|]. split; [auto|]. split; [intros ->; now rewrite ity_eqb_refl in C|].
    intros z Z. apply inr_iff in Z. apply inr_iff. lia.
  - intros (A & B & C & D). split; [split; [auto|]|].
    + destruct (ity_eqb from to) eqn:Q; [apply ity_eqb_eq in Q; contradiction|reflexivity].
    + pose proof (D _ (imin_inr p from)) as D1. pose proof (D _ (imax_inr p from)) as D2. apply inr_iff in D1. apply inr_iff in D2. lia.
Qed.
Print Assumptions cast_lossless_int.
(** From bool: exactly the casts to an integer type, all of which have 0 and 1. *)
Theorem cast_lossless_bool p to : cast_lossless p NB to = true <-> exists t, to = NI t /\ inr p t 0 = true /\ inr p t 1 = true.
Proof.
  destruct to as [t|f|]; cbn; (split; [intros H|intros (t' & H & _)]); try discriminate; [|reflexivity].
  exists t. destruct p, t as [[] []]; repeat split; reflexivity.
Qed.
Print Assumptions cast_lossless_bool.

(** Integers to floating-point types: every value is exact.  Missing: [f16], where it is false. *)
Theorem cast_lossless_float_partial p from f : cast_lossless p (NI from) (NF f) = true -> f <> F16 ->
  forall z, inr p from z = true -> exact_in (format_of f) z.
Proof. exact (lossless_float p from f). Qed.
Print Assumptions cast_lossless_float_partial.
(** The size of [f16] is taken to be 64 bits: u32::MAX is not even in its range. *)
Theorem cast_lossless_float_refuted : cast_lossless P64 (NI u32) (NF F16) = true /\ inr P64 u32 (2 ^ 32 - 1) = true /\ ~ exact_in (format_of F16) (2 ^ 32 - 1).
Proof.
  split; [reflexivity|]. split; [reflexivity|]. intros H. change (2 ^ 32 - 1) with (2 * (2 ^ 31 - 1) + 1) in H. apply exact_odd in H. vm_compute in H. discriminate.
Qed.
Print Assumptions cast_lossless_float_refuted.
(** Floating-point to floating-point: every finite value of the narrower format is one of the wider. *)
Theorem cast_lossless_widening p f g : cast_lossless p (NF f) (NF g) = true -> forall m e, finite_value (format_of f) m e -> finite_value (format_of g) m e.
Proof.
  intros H m e. destruct f, g; try discriminate H; unfold format_of, binary16, binary32, binary64, binary128, finite_value; intros [A B]; (split; [|lia]);
    eapply Z.lt_le_trans; try exact A; apply Z.pow_le_mono_r; lia.
Qed.
Print Assumptions cast_lossless_widening.

(** `cast_precision_loss` is silent about a cast to [f32] or [f64]: exact for every value, whatever the pointer width. *)
Theorem precision_silent_exact p from f : cast_precision_loss p from f = false -> f = F32 \/ f = F64 ->
  forall q z, inr q from z = true -> exact_in (format_of f) z.
Proof. exact (precision_silent p from f). Qed.
Print Assumptions precision_silent_exact.
(** A report is never idle: some value on some target is rounded. *)
Theorem precision_reported_inexact p from f : cast_precision_loss p from f = true ->
  exists q z, inr q from z = true /\ ~ exact_in (format_of f) z.
Proof. exact (precision_reported p from f). Qed.
Print Assumptions precision_reported_inexact.
(** Nothing is ever said about [f16] and [f128]. *)
Theorem precision_silent_refuted : cast_precision_loss P64 u32 F16 = false /\ ~ exact_in (format_of F16) (2 ^ 32 - 1).
Proof. split; [reflexivity|]. exact (proj2 (proj2 cast_lossless_float_refuted)). Qed.
Print Assumptions precision_silent_refuted.

Example C58_nontrivial :
  cast_lossless P64 (NI u8) (NI i16) = true /\ cast_lossless P64 (NI u8) (NI i8) = false /\ cast_lossless P64 (NI u16) (NF F32) = true
  /\ cast_lossless P64 (NI u32) (NF F32) = false /\ cast_lossless P64 (NI u32) (NF F64) = true /\ cast_lossless P64 (NF F32) (NF F64) = true
  /\ cast_precision_loss P64 i32 F32 = true /\ cast_precision_loss P64 i32 F64 = false /\ cast_precision_loss P64 usize F64 = true.
Proof. repeat split. Qed.

(** ** C59: enum casts *)

(** The number of bits computed for an enum type is the least that hold all its discriminants. *)
Theorem enum_bits_exact signed l : l <> [] -> (forall d, In d (discriminants 0 l) -> fits_repr signed d) ->
  let n := enum_ty_to_nbits (stored signed 0 l) in
  0 <= n /\ (forall d, In d (discriminants 0 l) -> enough_bits n d)
  /\ (forall n', 0 <= n' -> (forall d, In d (discriminants 0 l) -> enough_bits n' d) -> n <= n').
Proof. exact (enum_nbits signed l). Qed.
Print Assumptions enum_bits_exact.

(** The discriminant found for a variant is the one the language defines. *)
Theorem enum_discriminant_correct signed l i d : nth_error (discriminants 0 l) i = Some d ->
  exists v, get_discriminant_value (stored signed 0 l) i = Some v /\ enum_number v = d.
Proof. exact (discriminant_value signed l i d). Qed.
Print Assumptions enum_discriminant_correct.

(** The number of bits of one variant's value is the least that hold it. *)
Theorem enum_value_bits_exact signed d : fits_repr signed d ->
  let n := enum_value_nbits (ev signed d) in
  0 <= n /\ enough_bits n d /\ (forall n', 0 <= n' -> enough_bits n' d -> n <= n').
Proof. exact (enum_value_bits d signed). Qed.
Print Assumptions enum_value_bits_exact.

(** A cast of a whole enum to a fixed-size integer type is reported exactly when the two types of that
    size, signed and unsigned, cannot hold every discriminant. *)
Theorem enum_cast_reported_exact p ptr_repr signed l to : l <> [] -> (forall d, In d (discriminants 0 l) -> fits_repr signed d) ->
  pointer_sized to = false ->
  (enum_truncates p ptr_repr (enum_ty_to_nbits (stored signed 0 l)) to = false <->
   forall d, In d (discriminants 0 l) -> inr p (IT true (ity_size to)) d = true \/ inr p (IT false (ity_size to)) d = true).
Proof.
  intros L F P. destruct (enum_nbits signed l L F) as (N & A & B). assert (Q : is_isize_or_usize to = false) by (destruct to as [s []]; [reflexivity..|discriminate]).
  unfold enum_truncates, int_ty_to_nbits. rewrite Q. rewrite <- Bool.not_true_iff_false.
  replace (match ptr_repr with true | _ => bits p to <? enum_ty_to_nbits (stored signed 0 l) end) with (bits p to <? enum_ty_to_nbits (stored signed 0 l)) by (destruct ptr_repr; reflexivity).
  split.
  - intros T d D. apply enough_iff. apply enough_mono with (n := enum_ty_to_nbits (stored signed 0 l)); [|auto]. split; [exact N|]. lia.
  - intros T X. pose proof (bits_pos p to). specialize (B (bits p to) ltac:(lia) (fun d D => proj2 (enough_iff p to d) (T d D))). lia.
Qed.
Print Assumptions enum_cast_reported_exact.

(** Pointer-sized targets: an enum with a fixed-size `repr` that needs more than 16 bits is not
    reported, although [usize] may have only 16. *)
Theorem enum_cast_pointer_refuted :
  enum_truncates P16 false (enum_ty_to_nbits (stored false 0 [Some 65536])) usize = false /\ inr P16 usize 65536 = false /\ inr P16 isize 65536 = false.
Proof. repeat split; vm_compute; reflexivity. Qed.
Print Assumptions enum_cast_pointer_refuted.
(** The two types of one size are not told apart: -1 as u8 is not reported by this lint (nor by
    `cast_sign_loss`, which looks at integer types only). *)
Theorem enum_cast_sign_refuted :
  enum_truncates P64 true (enum_ty_to_nbits (stored true 0 [Some (- 1)])) u8 = false /\ inr P64 u8 (- 1) = false.
Proof. repeat split; vm_compute; reflexivity. Qed.
Print Assumptions enum_cast_sign_refuted.

Example C59_nontrivial :
  discriminants 0 [None; None; Some 100; None; Some (- 5); None] = [0; 1; 100; 101; - 5; - 4]
  /\ enum_ty_to_nbits (stored true 0 [None; None; Some 100; None; Some (- 5); None]) = 7
  /\ enum_ty_to_nbits (stored false 0 [Some 255; None]) = 9
  /\ enum_ty_to_nbits (stored false 0 [Some (2 ^ 127 - 1); None]) = 128
  /\ get_discriminant_value (stored true 0 [None; None; Some 100; None; Some (- 5); None]) 5 = Some (ESigned (- 4))
  /\ enum_truncates P64 true (enum_ty_to_nbits (stored false 0 [Some 255; None])) u8 = true.
Proof. repeat split; vm_compute; reflexivity. Qed.

(** ** C60: `cast_abs_to_unsigned` *)

(** With overflow checks on, replacing `x.abs() as T` by `x.unsigned_abs()` (with the cast, unless T is
    the unsigned type of the same size) does not change the result.  Missing: overflow checks off. *)
Theorem cast_abs_preserves_partial p rho e e' : cast_abs_to_unsigned e = Some e' -> preserves Checked p rho e e'.
Proof. exact (abs_preserves p rho e e'). Qed.
Print Assumptions cast_abs_preserves_partial.
(** Overflow checks off: `i32::MIN.abs() as u64` is 2^64 - 2^31, with the suggestion 2^31. *)
Theorem cast_abs_preserves_refuted : exists e e' rho v v', cast_abs_to_unsigned e = Some e'
  /\ eval Wrapping P64 rho e = Ok v /\ eval Wrapping P64 rho e' = Ok v' /\ v <> v'.
Proof.
  exists (ECast (EM0 MAbs (EVar (TI i32) 0)) u64). eexists. exists (all_vars i32 (- 2 ^ 31)). eexists. eexists.
  split; [vm_compute; reflexivity|]. split; [vm_compute; reflexivity|]. split; [vm_compute; reflexivity|]. discriminate.
Qed.
Print Assumptions cast_abs_preserves_refuted.
Example C60_nontrivial :
  cast_abs_to_unsigned (ECast (EM0 MAbs (EVar (TI i32) 0)) u32) = Some (EM0 MUnsignedAbs (EVar (TI i32) 0))
  /\ cast_abs_to_unsigned (ECast (EM0 MAbs (EVar (TI i32) 0)) usize) = Some (ECast (EM0 MUnsignedAbs (EVar (TI i32) 0)) usize)
  /\ eval Checked P64 (all_vars i32 (- 5)) (ECast (EM0 MAbs (EVar (TI i32) 0)) u32) = Ok (VI u32 5).
Proof. repeat split; vm_compute; reflexivity. Qed.

(** ** C61: `checked_conversions` *)

(** When the casts of the bounds keep their values, the condition is true exactly if the expression's
    value is one of the target type, that is, if `to::try_from(x).is_ok()`.  Missing: bounds changed
    by their cast. *)
Theorem checked_conversions_partial m p rho e x to b : checked_conversions e = Some (x, to) -> exact_bounds p e = true ->
  eval m p rho e = Ok (VB b) -> exists from z, eval m p rho x = Ok (VI from z) /\ b = inr p to z.
Proof. exact (checked_sound m p rho e x to b). Qed.
Print Assumptions checked_conversions_partial.
(** `x >= 0 && x <= u64::MAX as i32` is false for every x; `x <= u32::MAX as isize && x >= 0`
    on a 32-bit target; `x <= i8::MAX as u32 && x >= i8::MIN as u32`. *)
Theorem checked_conversions_refuted :
  (exists e x, checked_conversions e = Some (x, u64) /\ eval Checked P64 (all_vars i32 7) x = Ok (VI i32 7)
     /\ eval Checked P64 (all_vars i32 7) e = Ok (VB false) /\ inr P64 u64 7 = true)
  /\ (exists e x, checked_conversions e = Some (x, u32) /\ eval Checked P32 (all_vars isize 7) x = Ok (VI isize 7)
     /\ eval Checked P32 (all_vars isize 7) e = Ok (VB false) /\ inr P32 u32 7 = true)
  /\ (exists e x, checked_conversions e = Some (x, i8) /\ eval Checked P64 (all_vars u32 7) x = Ok (VI u32 7)
     /\ eval Checked P64 (all_vars u32 7) e = Ok (VB false) /\ inr P64 i8 7 = true).
Proof.
  split; [|split].
  - exists (EBin BAnd (EBin (BC CGe) (EVar (TI i32) 0) (lit i32 0)) (EBin (BC CLe) (EVar (TI i32) 0) (ECast (EAssoc u64 AMax) i32))).
    eexists. repeat split; vm_compute; reflexivity.
  - exists (EBin BAnd (EBin (BC CLe) (EVar (TI isize) 0) (ECast (EAssoc u32 AMax) isize)) (EBin (BC CGe) (EVar (TI isize) 0) (lit isize 0))).
    eexists. repeat split; vm_compute; reflexivity.
  - exists (EBin BAnd (EBin (BC CLe) (EVar (TI u32) 0) (ECast (EAssoc i8 AMax) u32)) (EBin (BC CGe) (EVar (TI u32) 0) (ECast (EAssoc i8 AMin) u32))).
    eexists. repeat split; vm_compute; reflexivity.
Qed.
Print Assumptions checked_conversions_refuted.
Example C61_nontrivial :
  (let e := EBin BAnd (EBin (BC CGe) (EVar (TI i64) 0) (lit i64 0)) (EBin (BC CLe) (EVar (TI i64) 0) (ECast (EAssoc u32 AMax) i64)) in
   checked_conversions e = Some (EVar (TI i64) 0, u32) /\ exact_bounds P64 e = true
   /\ eval Checked P64 (all_vars i64 (2 ^ 32)) e = Ok (VB false) /\ eval Checked P64 (all_vars i64 5) e = Ok (VB true))
  /\ checked_conversions (EBin (BC CLe) (EVar (TI u32) 0) (ECast (EAssoc i32 AMax) u32)) = Some (EVar (TI u32) 0, i32)
  /\ checked_conversions (EBin (BC CLe) (EVar (TI i64) 0) (ECast (EAssoc i32 AMax) i64)) = None.
Proof. cbv zeta. repeat split; vm_compute; reflexivity. Qed.
