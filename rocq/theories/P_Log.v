(** C23: `manual_ilog2`, `manual_bit_width`, `mismatched_bit_width_type`. *)
From Verif Require Import RustFacts LintSpec ConstProofs LogModel.
Open Scope Z_scope.

Lemma ilog2_loop f z : 0 < z < 2 ^ Z.of_nat f -> ilog f 2 z = Z.log2 z.
Proof.
  revert z. induction f as [|f IH]; intros z H; [cbn in H; lia|].
  change (ilog (S f) 2 z) with (if z <? 2 then 0 else 1 + ilog f 2 (z / 2)). destruct (Z.ltb_spec z 2) as [L|L]; [replace z with 1 by lia; reflexivity|].
  rewrite Nat2Z.inj_succ, Z.pow_succ_r in H by lia.
  assert (D : 2 * (z / 2) <= z < 2 * (z / 2) + 2) by (pose proof (Z.div_mod z 2); pose proof (Z.mod_pos_bound z 2); lia).
  rewrite IH by lia. destruct (Z.mod_pos_bound z 2 ltac:(lia)) as [M1 M2].
  pose proof (Z.div_mod z 2 ltac:(lia)) as E.
  assert (Z.log2 z = Z.succ (Z.log2 (z / 2))); [|lia].
  rewrite E at 1. destruct (Z.eq_dec (z mod 2) 0) as [-> | N].
  - rewrite Z.add_0_r. apply Z.log2_double. lia.
  - replace (z mod 2) with 1 by lia. apply Z.log2_succ_double. lia.
Qed.

Lemma ilog2_preserves m p rho e e' : (m = Checked \/ forall recv, e' = EM0 MIlog2 recv -> forall t, eval m p rho recv <> Ok (VI t 0)) ->
  manual_ilog2 e = Some e' -> preserves m p rho e e'.
Proof.
  intros M H v E. destruct e as [t n|b|f|t x|t a|o e|o e1 e2|e t|k e|k e a|k e a b|c a b|i lo hi x]; try discriminate.
  - destruct o as [[]| | |]; try discriminate. destruct e1 as [t0 n| | | | | | | | | | | |]; try discriminate. destruct e2 as [| | | | | | | |k recv| | | |]; try discriminate. destruct k; try discriminate.
    cbn [manual_ilog2] in H. destruct (ty_of recv) as [[t| | |]|] eqn:T; try discriminate.
    destruct (ity_signed t) eqn:S; [discriminate|]. destruct (uint_bit_width t) as [bw|] eqn:B; [|discriminate].
    destruct (Z.eqb_spec n (bw - 1)) as [->|]; [|discriminate]. injection H as <-.
    assert (W : bw = bits p t) by (destruct t as [s []]; try discriminate B; unfold uint_bit_width in B; cbn in B; injection B as <-; reflexivity).
    apply eval_bi_inv in E as [(t1 & t2 & x & y & r & E1 & E2 & -> & O & ->)|[(x & y & r & _ & _ & _ & [])|(x & y & r & _ & E2 & _)]].
    2: { cbn [eval] in E2. apply rbind_Ok in E2 as (w & E0 & E2). destruct (eval_int_ty _ _ _ _ _ _ T E0) as (z & -> & I). discriminate. }
    cbn [eval] in E2. apply rbind_Ok in E2 as (w & E0 & E2). destruct (eval_int_ty _ _ _ _ _ _ T E0) as (z & -> & I). cbn [sem0] in E2. injection E2 as <- <-.
    cbn [eval] in E1. destruct (inr p t0 (bw - 1) && (0 <=? bw - 1)) eqn:I0; [|discriminate]. injection E1 as Ht Hx. subst t0 x. cbn [eval]. rewrite E0. cbn [rbind sem0].
    assert (U : to_bits p t z = z) by now apply to_bits_unsigned. rewrite U in O.
    apply inr_iff in I. unfold imin, imax in I. rewrite S in I.
    destruct (Z.eq_dec z 0) as [->|NZ].
    + exfalso. destruct M as [->|M]; [|eapply M; eauto]. unfold clz in O. cbn in O. rewrite W in O.
      apply arith_Ok in O as [_ O]. destruct (O eq_refl) as [O1 _]. apply inr_iff in O1. unfold imin in O1. cbn in O1. lia.
    + replace (z <=? 0) with false by lia. do 2 f_equal. unfold clz in O. replace (z =? 0) with false in O by lia.
      pose proof (Z.log2_nonneg z). assert (Z.log2 z < bits p t) by (apply Z.log2_lt_pow2; lia). pose proof (bits_le128 p t).
      cbn [int_op] in O. replace (bw - 1 - (bits p t - 1 - Z.log2 z)) with (Z.log2 z) in O by lia.
      unfold arith in O. rewrite inr_u32_small in O by lia. congruence.
  - destruct k; try discriminate. destruct a as [t n| | | | | | | | | | | |]; try discriminate.
    cbn [manual_ilog2] in H. assert (n = 2) as -> by (destruct n as [|[n|[n|n|]|]|]; try discriminate; reflexivity).
    destruct (ty_of e) as [[t'| | |]|] eqn:T; try discriminate. injection H as <-.
    cbn [eval] in E. apply rbind_Ok in E as (w & E0 & E). destruct (eval_int_ty _ _ _ _ _ _ T E0) as (z & -> & I).
    apply rbind_Ok in E as (w & E1 & E). destruct (inr p t 2 && (0 <=? 2)) eqn:I2; [|discriminate]. injection E1 as <-. cbn [sem1] in E.
    destruct (ity_eqb t' t); [|discriminate]. destruct (Z.leb_spec z 0) as [L|L]; [discriminate|]. cbn [orb] in E. change (2 <? 2) with false in E. injection E as <-.
    cbn [eval]. rewrite E0. cbn [rbind sem0]. replace (z <=? 0) with false by lia. do 2 f_equal. symmetry. apply ilog2_loop.
    split; [exact L|]. apply inr_iff in I. unfold imax in I. pose proof (bits_le128 p t'). pose proof (bits_pos p t').
    assert (2 ^ bits p t' <= 2 ^ 128) by (apply Z.pow_le_mono_r; lia). pose proof (half_double p t'). change (Z.of_nat 128) with 128. destruct (ity_signed t'); lia.
Qed.

(** With overflow checks on, `31 - x.leading_zeros()` and `x.ilog(2)` may be replaced by `x.ilog2()`.
    Missing: overflow checks off. *)
Theorem manual_ilog2_preserves_partial p rho e e' : manual_ilog2 e = Some e' -> preserves Checked p rho e e'.
Proof. apply ilog2_preserves. auto. Qed.
Print Assumptions manual_ilog2_preserves_partial.
(** In every build the only value that may make a difference is zero. *)
Theorem manual_ilog2_preserves_nonzero m p rho e recv : manual_ilog2 e = Some (EM0 MIlog2 recv) ->
  (forall t, eval m p rho recv <> Ok (VI t 0)) -> preserves m p rho e (EM0 MIlog2 recv).
Proof. intros H N. apply ilog2_preserves; [|exact H]. right. intros r [= ->]. exact N. Qed.
Print Assumptions manual_ilog2_preserves_nonzero.
(** Overflow checks off: `31 - 0u32.leading_zeros()` is u32::MAX, `0u32.ilog2()` panics. *)
Theorem manual_ilog2_preserves_refuted : exists e e' rho v, manual_ilog2 e = Some e' /\ eval Wrapping P64 rho e = Ok v /\ eval Wrapping P64 rho e' = Panic.
Proof.
  exists (EBin (BI OSub) (ELit u32 31) (EM0 MLeadingZeros (EVar (TI u32) 0))). eexists. exists (all_vars u32 0). eexists.
  split; [vm_compute; reflexivity|]. split; vm_compute; reflexivity.
Qed.
Print Assumptions manual_ilog2_preserves_refuted.
(** The lint recognises the idiom on every unsigned fixed-size type. *)
Theorem manual_ilog2_complete t recv : ty_of recv = Some (TI t) -> ity_signed t = false -> ity_size t <> WSize ->
  forall p, manual_ilog2 (EBin (BI OSub) (ELit u32 (bits p t - 1)) (EM0 MLeadingZeros recv)) = Some (EM0 MIlog2 recv).
Proof. intros T S W p. cbn [manual_ilog2]. rewrite T, S. destruct t as [s []]; try contradiction; reflexivity. Qed.
Print Assumptions manual_ilog2_complete.

Lemma bit_width_value m p rho t recv z : eval m p rho recv = Ok (VI t z) ->
  eval m p rho (bit_width_suggestion t recv) = Ok (VI u32 (bits p t - clz (bits p t) (to_bits p t z))).
Proof.
  intros E. unfold bit_width_suggestion. destruct (ity_signed t) eqn:S; cbn [eval]; rewrite E; cbn [rbind sem0 unsigned_of ity_signed].
  - do 4 f_equal. unfold to_bits. rewrite bits_unsigned_of. unfold wrap. cbn [unsigned_of ity_signed]. rewrite bits_unsigned_of. apply Zmod_mod.
  - now rewrite S.
Qed.
Lemma bit_width_diff m p rho left_ty t recv v : ty_of recv = Some (TI t) -> eval m p rho (EBin (BI OSub) (EAssoc left_ty ABits) (EM0 MLeadingZeros recv)) = Ok v ->
  exists z r, eval m p rho recv = Ok (VI t z) /\ inr p t z = true /\ v = VI u32 r /\ arith m p u32 (bits p left_ty - clz (bits p t) (to_bits p t z)) = Ok r.
Proof.
  intros T E. apply eval_bi_inv in E as [(t1 & t2 & x & y & r & E1 & E2 & -> & O & ->)|[(x & y & r & _ & _ & _ & [])|(x & y & r & E1 & _)]]; [|discriminate].
  cbn [eval] in E2. apply rbind_Ok in E2 as (w & E0 & E2). destruct (eval_int_ty _ _ _ _ _ _ T E0) as (z & -> & I). cbn [sem0] in E2. injection E2 as <- <-.
  cbn in E1. injection E1 as <-. exists z, r. auto.
Qed.
Lemma clz_small p t z : arith Checked p u32 (bits p t - clz (bits p t) (to_bits p t z)) = Ok (bits p t - clz (bits p t) (to_bits p t z))
  /\ 0 <= bits p t - clz (bits p t) (to_bits p t z) <= 128.
Proof.
  pose proof (bits_le128 p t). pose proof (bits_pos p t). pose proof (clz_bound (bits p t) (to_bits p t z) (to_bits_range p t z) ltac:(lia)).
  unfold arith. rewrite inr_u32_small by lia. split; [reflexivity|lia].
Qed.

(** `T::BITS - x.leading_zeros()` with x of type T: `x.bit_width()` (of the value as unsigned) is the same,
    in every build and for every value. *)
Theorem manual_bit_width_preserves m p rho e e' : bit_width_check e = Some (ManualBitWidth e') -> preserves m p rho e e'.
Proof.
  intros H v E. destruct e as [| | | | | |o e1 e2| | | | | |]; try discriminate. destruct o as [[]| | |]; try discriminate. destruct e1 as [| | | |lt a| | | | | | | |]; try discriminate.
  destruct a; try discriminate. destruct e2 as [| | | | | | | |k recv| | | |]; try discriminate. destruct k; try discriminate.
  cbn [bit_width_check] in H. destruct (ty_of recv) as [[t| | |]|] eqn:T; try discriminate.
  destruct (ity_eqb lt t) eqn:Q; [|discriminate]. apply ity_eqb_eq in Q. subst lt. injection H as <-.
  destruct (bit_width_diff _ _ _ _ _ _ _ T E) as (z & r & E0 & I & -> & A). rewrite (bit_width_value _ _ _ _ _ _ E0). do 2 f_equal.
  destruct (clz_small p t z) as [_ B]. unfold arith in A. rewrite inr_u32_small in A by lia. congruence.
Qed.
Print Assumptions manual_bit_width_preserves.

(** The expression reported as a mismatch has the value of the suggestion exactly when the two types
    have the same size: it is a bug otherwise, for every value. *)
Theorem mismatched_bit_width_exact m p rho left_ty recv e' v t : bit_width_check (EBin (BI OSub) (EAssoc left_ty ABits) (EM0 MLeadingZeros recv)) = Some (MismatchedType e') ->
  eval m p rho (EBin (BI OSub) (EAssoc left_ty ABits) (EM0 MLeadingZeros recv)) = Ok v -> ty_of recv = Some (TI t) ->
  left_ty <> t /\ (eval m p rho e' = Ok v <-> bits p left_ty = bits p t).
Proof.
  intros H E T. cbn [bit_width_check] in H. rewrite T in H. destruct (ity_eqb left_ty t) eqn:Q; [discriminate|]. injection H as <-.
  split; [intros ->; now rewrite ity_eqb_refl in Q|].
  destruct (bit_width_diff _ _ _ _ _ _ _ T E) as (z & r & E0 & I & -> & A). rewrite (bit_width_value _ _ _ _ _ _ E0).
  destruct (clz_small p t z) as [_ B]. pose proof (bits_le128 p left_ty). pose proof (bits_pos p left_ty). pose proof (bits_le128 p t). pose proof (bits_pos p t).
  assert (R : r = bits p left_ty - clz (bits p t) (to_bits p t z) \/ r = bits p left_ty - clz (bits p t) (to_bits p t z) + 2 ^ 32).
  { apply arith_Ok in A as [A1 _]. unfold arith in *. destruct (Z.le_gt_cases 0 (bits p left_ty - clz (bits p t) (to_bits p t z))) as [L|L].
    - left. rewrite A1. apply wrap_id. apply inr_u32_small. pose proof (clz_bound (bits p t) (to_bits p t z) (to_bits_range p t z)). lia.
    - right. rewrite A1. unfold wrap. cbn [ity_signed u32]. change (bits p u32) with 32. rewrite <- (Z_mod_plus_full _ 1). rewrite Z.mul_1_l. apply Z.mod_small. lia. }
  split.
  - intros [= K]. change (2 ^ 32) with 4294967296 in R. lia.
  - intros K. rewrite K in R. do 2 f_equal. destruct R as [-> | ->]; [reflexivity|]. exfalso.
    rewrite K in A. apply arith_Ok in A as [A1 _]. rewrite wrap_id in A1 by (apply inr_u32_small; lia). lia.
Qed.
Print Assumptions mismatched_bit_width_exact.

Example C23_nontrivial :
  manual_ilog2 (EBin (BI OSub) (ELit u32 31) (EM0 MLeadingZeros (EVar (TI u32) 0))) = Some (EM0 MIlog2 (EVar (TI u32) 0))
  /\ manual_ilog2 (EBin (BI OSub) (ELit u32 31) (EM0 MLeadingZeros (EVar (TI u64) 0))) = None
  /\ manual_ilog2 (EM1 MIlog (EVar (TI i32) 0) (ELit i32 2)) = Some (EM0 MIlog2 (EVar (TI i32) 0))
  /\ eval Checked P64 (all_vars i32 1000) (EM1 MIlog (EVar (TI i32) 0) (ELit i32 2)) = Ok (VI u32 9)
  /\ eval Checked P64 (all_vars i32 1000) (EM1 MIlog (EVar (TI i32) 0) (ELit i32 10)) = Ok (VI u32 3)
  /\ bit_width_check (EBin (BI OSub) (EAssoc i32 ABits) (EM0 MLeadingZeros (EVar (TI i32) 0))) = Some (ManualBitWidth (EM0 MBitWidth (ECast (EVar (TI i32) 0) u32)))
  /\ eval Checked P64 (all_vars i32 (- 1)) (EM0 MBitWidth (ECast (EVar (TI i32) 0) u32)) = Ok (VI u32 32)
  /\ bit_width_check (EBin (BI OSub) (EAssoc u32 ABits) (EM0 MLeadingZeros (EVar (TI u64) 0))) = Some (MismatchedType (EM0 MBitWidth (EVar (TI u64) 0))).
Proof. repeat split; vm_compute; reflexivity. Qed.
