(** Theorems about the lints on ranges, bounds and saturation. *)
From Coq Require Import SpecFloat.
From Verif Require Import RustFacts LintSpec RustStmt ClampModel ClampProofs FloatFacts SatModel SatProofs RangeModel RangeProofs.
Open Scope Z_scope.

(** ** C16: manual_clamp *)

(** Expression forms (`if`-chains, `min`/`max` calls in either syntax and any nesting order):
    for every integer type the suggested `clamp` call has the value of the original.
    The side condition on shifts only concerns the bounds and only builds with overflow checks. *)
Theorem clamp_expr_preserves : forall m p ce rho e e' t,
  clamp_expr p ce e = Some e' -> tyck p e = Some (TI t) -> m = Wrapping \/ narrow_shifts p e = true ->
  preserves m p rho e e'.
Proof.
  intros m p ce rho e e' t H Te N. apply (preserves_num_int _ _ _ _ _ _ Te). unfold clamp_expr in H.
  assert (NT : numeric (TI t)) by (right; eauto).
  assert (NN : forall (r : imm) T, tyck p (i_input r) = Some T -> T = TI t -> forall v, eval m p rho (i_input r) = Ok v -> vnan v = false).
  { intros r T Ti -> v Hv. apply (tyck_val _ _ _ _ _ _ Ti) in Hv. destruct v; try discriminate; reflexivity. }
  destruct (clamp_if_else e) as [r|] eqn:E.
  - destruct (min_less_than_max p r) eqn:M; [|discriminate]. injection H as <-. eapply clamp_if_else_num; eauto.
  - assert (exists r, mm_shape e r /\ min_less_than_max p r = true /\ e' = clamp_sugg r) as (r & Sh & M & ->).
    { destruct ce as [ce|].
      - destruct (clamp_calls ce e) as [r|] eqn:C; [|discriminate]. destruct (min_less_than_max p r) eqn:M; [|discriminate].
        exists r. split; [eapply clamp_calls_shape; eauto|]. split; [auto|congruence].
      - destruct (clamp_methods e) as [r|] eqn:C; [|discriminate]. destruct (min_less_than_max p r) eqn:M; [|discriminate].
        exists r. split; [eapply clamp_methods_shape; eauto|]. split; [auto|congruence]. }
    eapply clamp_mm_num; eauto. intros v Hv. apply (NN r (TI t)); auto.
    destruct Sh as (inner & [[I O]|[I O]]); destruct O as [->| ->]; apply tyck_mm in Te as [Ta Tb]; auto; destruct I as [->| ->];
      (apply tyck_mm in Ta as [? ?]; auto) || (apply tyck_mm in Tb as [? ?]; auto).
Qed.
Print Assumptions clamp_expr_preserves.

Example clamp_if_ex : forall rho,
  clamp_expr P64 None (EIf (EBin (BC CGt) (EVar (TI i32) 0) (ELit i32 7)) (ELit i32 7)
                        (EIf (EBin (BC CGe) (EUn UNeg (ELit i32 3)) (EVar (TI i32) 0)) (EUn UNeg (ELit i32 3)) (EVar (TI i32) 0)))
  = Some (EM2 MClamp (EVar (TI i32) 0) (EUn UNeg (ELit i32 3)) (ELit i32 7)) /\
  (rho 0%nat = VI i32 12 -> eval Checked P64 rho (EM2 MClamp (EVar (TI i32) 0) (EUn UNeg (ELit i32 3)) (ELit i32 7)) = Ok (VI i32 7)).
Proof. intros rho. split; [vm_compute; reflexivity|]. intros H. cbn. rewrite H. reflexivity. Qed.
Example clamp_calls_ex :
  clamp_expr P64 (Some (fun e => match e with ELit _ _ => true | _ => false end))
    (EM1 MMax (ELit u8 2) (EM1 MMin (ELit u8 9) (EVar (TI u8) 0))) = Some (EM2 MClamp (EVar (TI u8) 0) (ELit u8 2) (ELit u8 9)).
Proof. reflexivity. Qed.

(** Floats: the same up to the sign of a zero, for `if`-chains always, for `min`/`max` calls
    unless the input is NaN.  Missing for the full claim: the NaN input and the zero signs,
    see the refutations below. *)
Theorem clamp_expr_float_partial : forall m p ce rho e i n x,
  clamp_expr p ce e = Some (EM2 MClamp i n x) -> tyck p e = Some TF -> m = Wrapping \/ narrow_shifts p e = true ->
  (exists c a b, e = EIf c a b) \/ eval m p rho i <> Ok (VF S754_nan) ->
  preserves_num m p rho e (EM2 MClamp i n x).
Proof.
  intros m p ce rho e i n x H Te N Hi. unfold clamp_expr in H.
  assert (NT : numeric TF) by (left; auto).
  destruct (clamp_if_else e) as [r|] eqn:E.
  - destruct (min_less_than_max p r) eqn:M; [|discriminate]. injection H as <- <- <-. eapply clamp_if_else_num; eauto.
  - assert (exists r, mm_shape e r /\ min_less_than_max p r = true /\ EM2 MClamp i n x = clamp_sugg r) as (r & Sh & M & Er).
    { destruct ce as [ce|].
      - destruct (clamp_calls ce e) as [r|] eqn:C; [|discriminate]. destruct (min_less_than_max p r) eqn:M; [|discriminate].
        exists r. split; [eapply clamp_calls_shape; eauto|]. split; [auto|congruence].
      - destruct (clamp_methods e) as [r|] eqn:C; [|discriminate]. destruct (min_less_than_max p r) eqn:M; [|discriminate].
        exists r. split; [eapply clamp_methods_shape; eauto|]. split; [auto|congruence]. }
    rewrite Er. eapply clamp_mm_num; eauto. intros v Hv. destruct Hi as [(c & a & b & ->)|Hi].
    { destruct Sh as (inner & [[I O]|[I O]]); destruct O; discriminate. }
    destruct v as [| |f|]; auto. cbn. destruct f; auto. exfalso. apply Hi. unfold clamp_sugg in Er. injection Er as -> _ _. auto.
Qed.
Print Assumptions clamp_expr_float_partial.

Definition f1 : spec_float := S754_finite false 4503599627370496 (-52).
Definition fm1 : spec_float := S754_finite true 4503599627370496 (-52).
Example clamp_float_ex :
  clamp_expr P64 None (EM1 MMin (EM1 MMax (EVar TF 0) (EFloat fm1)) (EFloat f1)) = Some (EM2 MClamp (EVar TF 0) (EFloat fm1) (EFloat f1)).
Proof. reflexivity. Qed.

(** C16 finding: `x.max(-1.0).min(1.0)` is -1.0 for NaN, the suggested clamp is NaN. *)
Theorem clamp_float_nan_refuted : exists e e' rho v, clamp_expr P64 None e = Some e' /\ tyck P64 e = Some TF /\
  eval Checked P64 rho e = Ok v /\ eval Checked P64 rho e' = Ok (VF S754_nan) /\ v <> VF S754_nan.
Proof.
  exists (EM1 MMin (EM1 MMax (EVar TF 0) (EFloat fm1)) (EFloat f1)), (EM2 MClamp (EVar TF 0) (EFloat fm1) (EFloat f1)), (fun _ => VF S754_nan), (VF fm1).
  vm_compute. repeat split; auto. discriminate.
Qed.
Print Assumptions clamp_float_nan_refuted.
(** C16 finding: `if x <= 0.0 { 0.0 } else if x >= 1.0 { 1.0 } else { x }` turns -0.0 into 0.0, clamp keeps it. *)
Theorem clamp_float_zero_refuted : exists e e' rho, clamp_expr P64 None e = Some e' /\ tyck P64 e = Some TF /\
  eval Checked P64 rho e = Ok (VF (S754_zero false)) /\ eval Checked P64 rho e' = Ok (VF (S754_zero true)).
Proof.
  exists (EIf (EBin (BC CLe) (EVar TF 0) (EFloat (S754_zero false))) (EFloat (S754_zero false))
           (EIf (EBin (BC CGe) (EVar TF 0) (EFloat f1)) (EFloat f1) (EVar TF 0))),
    (EM2 MClamp (EVar TF 0) (EFloat (S754_zero false)) (EFloat f1)), (fun _ => VF (S754_zero true)).
  vm_compute. auto.
Qed.
Print Assumptions clamp_float_zero_refuted.
(** C16 finding: a bound that is never reached but panics is evaluated by the suggestion. *)
Theorem clamp_wide_shift_refuted : exists e e' rho v, clamp_expr P64 None e = Some e' /\ tyck P64 e = Some (TI i8) /\
  eval Checked P64 rho e = Ok v /\ eval Checked P64 rho e' = Panic.
Proof.
  exists (EIf (EBin (BC CLt) (EVar (TI i8) 0) (ELit i8 1)) (ELit i8 1)
           (EIf (EBin (BC CGt) (EVar (TI i8) 0) (EBin (BI OShl) (ELit i8 1) (ELit u32 257))) (EBin (BI OShl) (ELit i8 1) (ELit u32 257)) (EVar (TI i8) 0))),
    (EM2 MClamp (EVar (TI i8) 0) (ELit i8 1) (EBin (BI OShl) (ELit i8 1) (ELit u32 257))), (all_vars i8 0), (VI i8 1).
  vm_compute. auto.
Qed.
Print Assumptions clamp_wide_shift_refuted.

(** `match v { a if .. => lo, b if .. => hi, c => c }`: same value for integers, same up to the
    sign of zero for floats. *)
Theorem clamp_match_preserves : forall m p rho q e' t v,
  clamp_match_sugg p q = Some e' -> m_ty q = TI t -> tyck p (m_value q) = Some (TI t) ->
  tyck p (m_e1 q) = Some (TI t) -> tyck p (m_e2 q) = Some (TI t) ->
  m = Wrapping \/ narrow_shifts p (m_e1 q) = true /\ narrow_shifts p (m_e2 q) = true ->
  eval_match m p rho q = Ok v -> eval m p rho e' = Ok v.
Proof.
  intros m p rho q e' t v H Ty Tv T1 T2 N Hv.
  destruct (clamp_match_num m p rho q e' (TI t) H Ty ltac:(right; eauto) Tv T1 T2 N v Hv) as (v' & E & [->|Q]); auto.
  assert (val_ty v = TI t); [|destruct v; try contradiction; discriminate].
  unfold eval_match in Hv. apply rbind_Ok in Hv as (vi & Hi & Hv). destruct (ty_eqb _ _) eqn:Yi; [|discriminate]. apply ty_eqb_eq in Yi. rewrite Ty in Yi.
  apply rbind_Ok in Hv as (g1 & _ & Hv). destruct g1 as [|[]| |]; try discriminate; [exact (tyck_val _ _ _ _ _ _ T1 Hv)|].
  apply rbind_Ok in Hv as (g2 & _ & Hv). destruct g2 as [|[]| |]; try discriminate; [exact (tyck_val _ _ _ _ _ _ T2 Hv)|]. apply eval_upd_var in Hv. congruence.
Qed.
Print Assumptions clamp_match_preserves.
Theorem clamp_match_float : forall m p rho q e' v,
  clamp_match_sugg p q = Some e' -> m_ty q = TF -> tyck p (m_value q) = Some TF ->
  tyck p (m_e1 q) = Some TF -> tyck p (m_e2 q) = Some TF ->
  m = Wrapping \/ narrow_shifts p (m_e1 q) = true /\ narrow_shifts p (m_e2 q) = true ->
  eval_match m p rho q = Ok v -> exists v', eval m p rho e' = Ok v' /\ num_eq v v'.
Proof. intros. eapply clamp_match_num; eauto. left; auto. Qed.
Print Assumptions clamp_match_float.
Example clamp_match_ex :
  clamp_match_sugg P64 {| m_value := EVar (TI u8) 0; m_ty := TI u8;
    m_b1 := 1; m_g1 := EBin (BC CEq) (EVar (TI u8) 1) (ELit u8 0); m_e1 := ELit u8 1;
    m_b2 := 2; m_g2 := EBin (BC CLt) (ELit u8 9) (EVar (TI u8) 2); m_e2 := ELit u8 9; m_b3 := 3 |}
  = Some (EM2 MClamp (EVar (TI u8) 0) (ELit u8 1) (ELit u8 9)).
Proof. reflexivity. Qed.

(** Two consecutive `if`s that assign to a variable: the suggested assignment leaves every
    variable with the same value, provided the tested variable is the assigned one (the code does
    not check that, see the refutation). *)
Theorem clamp_two_if_partial : forall m p rho c1 c2 t x e1 e2 t2 x2 s',
  clamp_two_if p (SSeq (SIf c1 (SAssign (TI t) x e1) SSkip) (SIf c2 (SAssign t2 x2 e2) SSkip)) = Some s' ->
  compares_var c1 (EVar (TI t) x) -> tyck p e1 = Some (TI t) -> tyck p e2 = Some (TI t) ->
  m = Wrapping \/ narrow_shifts p e1 = true /\ narrow_shifts p e2 = true ->
  spreserves m p rho (SSeq (SIf c1 (SAssign (TI t) x e1) SSkip) (SIf c2 (SAssign t2 x2 e2) SSkip)) s'.
Proof.
  intros m p rho c1 c2 t x e1 e2 t2 x2 s' H Cv T1 T2 N. unfold clamp_two_if in H.
  destruct (new_bin c1) as [b1|] eqn:B1; [|discriminate]. destruct (new_bin c2) as [b2|] eqn:B2; [|discriminate].
  destruct (expr_eqb _ _) eqn:E; [|discriminate]. apply expr_eqb_eq in E. injection E as <- <-.
  destruct (clamp_meta None b1 b2 e1 e2) as [r|] eqn:HM; [|discriminate].
  destruct (min_less_than_max p _) eqn:M; [|discriminate]. injection H as <-.
  assert (HI : i_input r = EVar (TI t) x).
  { apply (meta_input_var p b1 b2 e1 e2 r _ _ c1 HM (new_bin_inv _ _ B1) Cv). destruct (min_less_inv _ _ M) as (T' & cn & cx & _ & _ & Cx & Cn & _). cbn in Cx, Cn.
    pose proof (clamp_meta_inv _ _ _ _ _ _ HM) as (k1 & k2 & i1 & i2 & _ & _ & _ & _ & _ & [(_ & _ & E1 & E2)|(_ & _ & E1 & E2)]); rewrite E1 in Cx; rewrite E2 in Cn; eauto. }
  assert (Er : {| i_input := EVar (TI t) x; i_min := i_min r; i_max := i_max r |} = r) by (rewrite <- HI; now destruct r). rewrite Er in *.
  intros rf Hr. pose proof (two_if_num m p rho (TI t) x c1 c2 e1 e2 b1 b2 r ltac:(right; eauto) B1 B2 HM HI M T1 T2 ltac:(tauto) ltac:(tauto)) as G.
  destruct (G _ Hr) as (r' & E' & Q). exists r'. split; [auto|]. intros y. destruct (Nat.eq_dec y x) as [->|Ny].
  - destruct (Q x) as [->|Qx]; auto. exfalso. cbn [exec] in E'. inv_bind E'. destruct (ty_eqb (val_ty v) (TI t)) eqn:Yv; [|discriminate].
    injection E' as <-. rewrite upd_same in Qx. destruct v; try discriminate. destruct (rf x); contradiction.
  - (* other variables are not touched *)
    cbn [exec] in Hr, E'. inv_bind E'. destruct (ty_eqb (val_ty v) (TI t)); [|discriminate]. injection E' as <-. rewrite upd_other by auto.
    apply rbind_Ok in Hr as (s1 & E1 & Hr). apply rbind_Ok in E1 as (w1 & _ & E1). apply rbind_Ok in Hr as (w2 & _ & Hr).
    assert (s1 y = rho y).
    { destruct w1 as [|[]| |]; try discriminate; [|congruence]. inv_bind E1. destruct (ty_eqb _ _); [|discriminate]. injection E1 as <-. now apply upd_other. }
    destruct w2 as [|[]| |]; try discriminate; [|congruence]. inv_bind Hr. destruct (ty_eqb _ _); [|discriminate]. injection Hr as <-. now rewrite upd_other.
Qed.
Print Assumptions clamp_two_if_partial.
Example clamp_two_if_ex :
  clamp_two_if P64 (SSeq (SIf (EBin (BC CLt) (EVar (TI i32) 0) (ELit i32 1)) (SAssign (TI i32) 0 (ELit i32 1)) SSkip)
                         (SIf (EBin (BC CGt) (EVar (TI i32) 0) (ELit i32 5)) (SAssign (TI i32) 0 (ELit i32 5)) SSkip))
  = Some (SAssign (TI i32) 0 (EM2 MClamp (EVar (TI i32) 0) (ELit i32 1) (ELit i32 5))).
Proof. reflexivity. Qed.
(** C16 finding: `if x < 1 { y = 1 } if x > 5 { y = 5 }` is replaced by `y = y.clamp(1, 5)`. *)
Theorem clamp_two_if_refuted : exists s s' rho r r', clamp_two_if P64 s = Some s' /\ styck (tyck P64) s = true /\
  exec Checked P64 rho s = Ok r /\ exec Checked P64 rho s' = Ok r' /\ r 1%nat = VI i32 1 /\ r' 1%nat = VI i32 3.
Proof.
  exists (SSeq (SIf (EBin (BC CLt) (EVar (TI i32) 0) (ELit i32 1)) (SAssign (TI i32) 1 (ELit i32 1)) SSkip)
               (SIf (EBin (BC CGt) (EVar (TI i32) 0) (ELit i32 5)) (SAssign (TI i32) 1 (ELit i32 5)) SSkip)),
    (SAssign (TI i32) 1 (EM2 MClamp (EVar (TI i32) 1) (ELit i32 1) (ELit i32 5))), (two_vars i32 0 i32 3).
  do 2 eexists. vm_compute. repeat split; reflexivity.
Qed.
Print Assumptions clamp_two_if_refuted.

Theorem clamp_else_if_partial : forall m p rho c1 c2 t x e1 e2 t2 x2 s',
  clamp_else_if p (SIf c1 (SAssign (TI t) x e1) (SIf c2 (SAssign t2 x2 e2) SSkip)) = Some s' ->
  compares_var c1 (EVar (TI t) x) -> tyck p e1 = Some (TI t) -> tyck p e2 = Some (TI t) ->
  m = Wrapping \/ narrow_shifts p e1 = true /\ narrow_shifts p e2 = true ->
  spreserves m p rho (SIf c1 (SAssign (TI t) x e1) (SIf c2 (SAssign t2 x2 e2) SSkip)) s'.
Proof.
  intros m p rho c1 c2 t x e1 e2 t2 x2 s' H Cv T1 T2 N. unfold clamp_else_if in H.
  destruct (new_bin c1) as [b1|] eqn:B1; [|discriminate]. destruct (new_bin c2) as [b2|] eqn:B2; [|discriminate].
  destruct (clamp_meta None b1 b2 e1 e2) as [r|] eqn:HM; [|discriminate].
  destruct (expr_eqb _ _) eqn:E; [|discriminate]. apply expr_eqb_eq in E. injection E as <- <-.
  destruct (min_less_than_max p _) eqn:M; [|discriminate]. injection H as <-.
  assert (HI : i_input r = EVar (TI t) x).
  { apply (meta_input_var p b1 b2 e1 e2 r _ _ c1 HM (new_bin_inv _ _ B1) Cv). destruct (min_less_inv _ _ M) as (T' & cn & cx & _ & _ & Cx & Cn & _). cbn in Cx, Cn.
    pose proof (clamp_meta_inv _ _ _ _ _ _ HM) as (k1 & k2 & i1 & i2 & _ & _ & _ & _ & _ & [(_ & _ & E1 & E2)|(_ & _ & E1 & E2)]); rewrite E1 in Cx; rewrite E2 in Cn; eauto. }
  intros rf Hr. pose proof (else_if_num m p rho (TI t) x c1 c2 e1 e2 b1 b2 r ltac:(right; eauto) B1 B2 HM HI M T1 T2 ltac:(tauto) ltac:(tauto)) as G.
  destruct (G _ Hr) as (r' & E' & Q). exists r'. split; [auto|]. intros y. destruct (Nat.eq_dec y x) as [->|Ny].
  - destruct (Q x) as [->|Qx]; auto. exfalso. cbn [exec] in E'. inv_bind E'. destruct (ty_eqb (val_ty v) (TI t)) eqn:Yv; [|discriminate].
    injection E' as <-. rewrite upd_same in Qx. destruct v; try discriminate. destruct (rf x); contradiction.
  - cbn [exec] in Hr, E'. inv_bind E'. destruct (ty_eqb (val_ty v) (TI t)); [|discriminate]. injection E' as <-. rewrite upd_other by auto.
    apply rbind_Ok in Hr as (w1 & _ & Hr). destruct w1 as [|[]| |]; try discriminate.
    + inv_bind Hr. destruct (ty_eqb _ _); [|discriminate]. injection Hr as <-. now rewrite upd_other.
    + apply rbind_Ok in Hr as (w2 & _ & Hr). destruct w2 as [|[]| |]; try discriminate; [|congruence].
      inv_bind Hr. destruct (ty_eqb _ _); [|discriminate]. injection Hr as <-. now rewrite upd_other.
Qed.
Print Assumptions clamp_else_if_partial.
Example clamp_else_if_ex :
  clamp_else_if P64 (SIf (EBin (BC CLt) (EVar (TI i32) 0) (ELit i32 1)) (SAssign (TI i32) 0 (ELit i32 1))
                         (SIf (EBin (BC CGt) (EVar (TI i32) 0) (ELit i32 5)) (SAssign (TI i32) 0 (ELit i32 5)) SSkip))
  = Some (SAssign (TI i32) 0 (EM2 MClamp (EVar (TI i32) 0) (ELit i32 1) (ELit i32 5))).
Proof. reflexivity. Qed.
(** C16 finding: `if x < 1 { y = 1 } else if x > 5 { y = 5 }` is replaced by `y = x.clamp(1, 5)`,
    which also assigns when neither branch ran. *)
Theorem clamp_else_if_refuted : exists s s' rho r r', clamp_else_if P64 s = Some s' /\ styck (tyck P64) s = true /\
  exec Checked P64 rho s = Ok r /\ exec Checked P64 rho s' = Ok r' /\ r 1%nat = VI i32 100 /\ r' 1%nat = VI i32 2.
Proof.
  exists (SIf (EBin (BC CLt) (EVar (TI i32) 0) (ELit i32 1)) (SAssign (TI i32) 1 (ELit i32 1))
              (SIf (EBin (BC CGt) (EVar (TI i32) 0) (ELit i32 5)) (SAssign (TI i32) 1 (ELit i32 5)) SSkip)),
    (SAssign (TI i32) 1 (EM2 MClamp (EVar (TI i32) 0) (ELit i32 1) (ELit i32 5))), (two_vars i32 2 i32 100).
  do 2 eexists. vm_compute. repeat split; reflexivity.
Qed.
Print Assumptions clamp_else_if_refuted.
(** Two `if`s and `else if` on floats: every variable ends up with the same value, or one that
    compares equal to it; NaN inputs included. *)
Theorem clamp_stmt_float_partial : forall m p rho c1 c2 x e1 e2 t2 x2 s',
  compares_var c1 (EVar TF x) -> tyck p e1 = Some TF -> tyck p e2 = Some TF ->
  m = Wrapping \/ narrow_shifts p e1 = true /\ narrow_shifts p e2 = true ->
  (clamp_two_if p (SSeq (SIf c1 (SAssign TF x e1) SSkip) (SIf c2 (SAssign t2 x2 e2) SSkip)) = Some s' ->
   spreserves_num m p rho (SSeq (SIf c1 (SAssign TF x e1) SSkip) (SIf c2 (SAssign t2 x2 e2) SSkip)) s') /\
  (clamp_else_if p (SIf c1 (SAssign TF x e1) (SIf c2 (SAssign t2 x2 e2) SSkip)) = Some s' ->
   spreserves_num m p rho (SIf c1 (SAssign TF x e1) (SIf c2 (SAssign t2 x2 e2) SSkip)) s').
Proof.
  intros m p rho c1 c2 x e1 e2 t2 x2 s' Cv T1 T2 N.
  assert (GI : forall b1 b2 r, new_bin c1 = Some b1 -> clamp_meta None b1 b2 e1 e2 = Some r ->
    (exists cn, ceval p p (i_min r) = Some cn) -> (exists cx, ceval p p (i_max r) = Some cx) -> i_input r = EVar TF x).
  { intros b1 b2 r B1 HM Cn Cx. apply (meta_input_var p b1 b2 e1 e2 r _ _ c1 HM (new_bin_inv _ _ B1) Cv).
    pose proof (clamp_meta_inv _ _ _ _ _ _ HM) as (k1 & k2 & i1 & i2 & _ & _ & _ & _ & _ & [(_ & _ & E1 & E2)|(_ & _ & E1 & E2)]); rewrite E1 in Cx; rewrite E2 in Cn; auto. }
  split; intros H.
  - unfold clamp_two_if in H. destruct (new_bin c1) as [b1|] eqn:B1; [|discriminate]. destruct (new_bin c2) as [b2|] eqn:B2; [|discriminate].
    destruct (expr_eqb _ _) eqn:E; [|discriminate]. apply expr_eqb_eq in E. injection E as <- <-.
    destruct (clamp_meta None b1 b2 e1 e2) as [r|] eqn:HM; [|discriminate].
    destruct (min_less_than_max p _) eqn:M; [|discriminate]. injection H as <-.
    destruct (min_less_inv _ _ M) as (T' & cn & cx & _ & _ & Cx & Cn & _). cbn in Cx, Cn.
    assert (HI := GI b1 b2 r eq_refl HM (ex_intro _ _ Cn) (ex_intro _ _ Cx)).
    assert (Er : {| i_input := EVar TF x; i_min := i_min r; i_max := i_max r |} = r) by (rewrite <- HI; now destruct r). rewrite Er in *.
    apply (two_if_num m p rho TF x c1 c2 e1 e2 b1 b2 r); auto; try tauto. now left.
  - unfold clamp_else_if in H. destruct (new_bin c1) as [b1|] eqn:B1; [|discriminate]. destruct (new_bin c2) as [b2|] eqn:B2; [|discriminate].
    destruct (clamp_meta None b1 b2 e1 e2) as [r|] eqn:HM; [|discriminate].
    destruct (expr_eqb _ _) eqn:E; [|discriminate]. apply expr_eqb_eq in E. injection E as <- <-.
    destruct (min_less_than_max p _) eqn:M; [|discriminate]. injection H as <-.
    destruct (min_less_inv _ _ M) as (T' & cn & cx & _ & _ & Cx & Cn & _).
    assert (HI := GI b1 b2 r eq_refl HM (ex_intro _ _ Cn) (ex_intro _ _ Cx)).
    apply (else_if_num m p rho TF x c1 c2 e1 e2 b1 b2 r); auto; try tauto. now left.
Qed.
Print Assumptions clamp_stmt_float_partial.

(** ** C17: saturating arithmetic *)

(** `if x > 0 { x -= 1; }` and its variants: every accepted form, every integer type, both
    overflow modes; the suggested assignment leaves every variable with the same value. *)
Theorem implicit_saturating_sub_preserves : forall m p rho s s',
  implicit_sub_stmt s = Some s' -> spreserves m p rho s s'.
Proof. exact implicit_sub_correct. Qed.
Print Assumptions implicit_saturating_sub_preserves.
Example implicit_sub_ex :
  implicit_sub_stmt (SIf (EBin (BC CLt) (EAssoc i16 AMin) (EVar (TI i16) 0)) (SAssignOp OSub (TI i16) 0 (ELit i16 1)) SSkip)
  = Some (SAssign (TI i16) 0 (EM1 MSatSub (EVar (TI i16) 0) (ELit i16 1))) /\
  implicit_sub_stmt (SIf (EBin (BC CNe) (EVar (TI u8) 3) (ELit u8 0)) (SAssign (TI u8) 3 (EBin (BI OSub) (EVar (TI u8) 3) (ELit u8 1))) SSkip)
  = Some (SAssign (TI u8) 3 (EM1 MSatSub (EVar (TI u8) 3) (ELit u8 1))) /\
  implicit_sub_stmt (SIf (EBin (BC CGt) (EVar (TI i8) 3) (ELit i8 0)) (SAssignOp OSub (TI i8) 3 (ELit i8 1)) SSkip) = None.
Proof. vm_compute. auto. Qed.

(** `if a > b { a - b } else { 0 }` and its variants. *)
Theorem manual_saturating_sub_preserves : forall m p rho e e' t,
  manual_sub_check e = Some (Whole e') -> tyck p e = Some (TI t) -> preserves m p rho e e'.
Proof. exact manual_sub_whole. Qed.
Print Assumptions manual_saturating_sub_preserves.
Example manual_sub_ex :
  manual_sub_check (EIf (EBin (BC CLe) (EVar (TI u8) 0) (EVar (TI u8) 1)) (ELit u8 0) (EBin (BI OSub) (EVar (TI u8) 0) (EVar (TI u8) 1)))
  = Some (Whole (EM1 MSatSub (EVar (TI u8) 0) (EVar (TI u8) 1))).
Proof. reflexivity. Qed.

(** inverted_saturating_sub: with overflow checks on the corrected code has the value of the
    original whenever that has one; and the corrected code never underflows, in either mode, but
    yields the distance of the operands or zero. *)
Theorem inverted_saturating_sub_corrects : forall p rho e e' t,
  manual_sub_check e = Some (Inverted e') -> tyck p e = Some (TI t) ->
  preserves Checked p rho e e' /\
  (forall m c l r a b x y, e = EIf (EBin (BC c) l r) a b -> eval m p rho l = Ok (VI t x) -> eval m p rho r = Ok (VI t y) ->
     exists z, eval m p rho e' = Ok (VI t z) /\ (z = 0 \/ z = Z.abs (x - y))).
Proof.
  intros p rho e e' t H Te. destruct (manual_sub_inverted p rho e e' t H Te) as [A B]. split; [exact A|].
  intros m c l r a b x y E Hx Hy. rewrite (B m c l r a b x y E Hx Hy). eexists. split; [reflexivity|].
  destruct (cmp_op c x y), (is_int_lit a 0); auto.
Qed.
Print Assumptions inverted_saturating_sub_corrects.
(** With overflow checks off the original wraps around; the suggestion (marked as possibly
    incorrect by the lint) does not. *)
Theorem inverted_saturating_sub_wrapping_refuted : exists e e' rho v v', manual_sub_check e = Some (Inverted e') /\
  tyck P64 e = Some (TI u8) /\ eval Wrapping P64 rho e = Ok v /\ eval Wrapping P64 rho e' = Ok v' /\ v <> v'.
Proof.
  exists (EIf (EBin (BC CGt) (EVar (TI u8) 0) (EVar (TI u8) 1)) (EBin (BI OSub) (EVar (TI u8) 1) (EVar (TI u8) 0)) (ELit u8 0)),
    (EIf (EBin (BC CGt) (EVar (TI u8) 0) (EVar (TI u8) 1)) (EBin (BI OSub) (EVar (TI u8) 0) (EVar (TI u8) 1)) (ELit u8 0)),
    (two_vars u8 5 u8 3), (VI u8 254), (VI u8 2).
  vm_compute. repeat split; auto. discriminate.
Qed.
Print Assumptions inverted_saturating_sub_wrapping_refuted.

(** `if x != T::MAX { x += 1; }`, clippy running on a machine of the target's pointer width. *)
Theorem implicit_saturating_add_partial : forall m p rho s s',
  implicit_add_stmt p p s = Some s' -> spreserves m p rho s s'.
Proof. exact implicit_add_correct. Qed.
Print Assumptions implicit_saturating_add_partial.
Example implicit_add_ex :
  implicit_add_stmt P64 P64 (SIf (EBin (BC CGt) (ELit i8 127) (EVar (TI i8) 0)) (SAssignOp OAdd (TI i8) 0 (ELit i8 1)) SSkip)
  = Some (SAssign (TI i8) 0 (EM1 MSatAdd (EVar (TI i8) 0) (ELit i8 1))).
Proof. reflexivity. Qed.
(** C17 finding: the maximum of usize is taken from the machine clippy runs on; on a 32-bit host
    `if x != 0xffff_ffff { x += 1; }` is flagged in code for a 64-bit target. *)
Theorem implicit_saturating_add_host_refuted : exists s s' rho r r', implicit_add_stmt P32 P64 s = Some s' /\
  styck (tyck P64) s = true /\ exec Checked P64 rho s = Ok r /\ exec Checked P64 rho s' = Ok r' /\ r 0%nat <> r' 0%nat.
Proof.
  exists (SIf (EBin (BC CNe) (EVar (TI usize) 0) (ELit usize 4294967295)) (SAssignOp OAdd (TI usize) 0 (ELit usize 1)) SSkip),
    (SAssign (TI usize) 0 (EM1 MSatAdd (EVar (TI usize) 0) (ELit usize 1))), (all_vars usize 4294967295).
  do 2 eexists. vm_compute. repeat split; try reflexivity. discriminate.
Qed.
Print Assumptions implicit_saturating_add_host_refuted.

(** `x.checked_add(y).unwrap_or(T::MAX)` and its variants, unless the default is written `-N` with
    N the maximum of the type (see the refutation). *)
Theorem manual_saturating_arithmetic_partial : forall m p rho e e',
  sat_unwrap_or p e = Some e' ->
  (match e with EM1 _ _ (EUn UNeg (ELit t n)) => n <> imax p t | _ => True end) -> preserves m p rho e e'.
Proof. exact sat_unwrap_or_correct. Qed.
Print Assumptions manual_saturating_arithmetic_partial.
Example manual_saturating_ex :
  sat_unwrap_or P64 (EM1 MUnwrapOr (EM1 MChkAdd (EVar (TI i8) 0) (EUn UNeg (ELit i8 3))) (EUn UNeg (ELit i8 128)))
  = Some (EM1 MSatAdd (EVar (TI i8) 0) (EUn UNeg (ELit i8 3))) /\
  sat_unwrap_or P64 (EM1 MUnwrapOr (EM1 MChkMul (EVar (TI u16) 0) (EVar (TI u16) 1)) (ELit u16 65535))
  = Some (EM1 MSatMul (EVar (TI u16) 0) (EVar (TI u16) 1)).
Proof. vm_compute. auto. Qed.
(** C17 finding: `x.checked_add(1).unwrap_or(-127)` on i8 is taken for a saturating addition. *)
Theorem manual_saturating_arithmetic_refuted : exists e e' rho, sat_unwrap_or P64 e = Some e' /\ tyck P64 e = Some (TI i8) /\
  eval Checked P64 rho e = Ok (VI i8 (-127)) /\ eval Checked P64 rho e' = Ok (VI i8 127).
Proof.
  exists (EM1 MUnwrapOr (EM1 MChkAdd (EVar (TI i8) 0) (ELit i8 1)) (EUn UNeg (ELit i8 127))), (EM1 MSatAdd (EVar (TI i8) 0) (ELit i8 1)), (all_vars i8 127).
  vm_compute. auto.
Qed.
Print Assumptions manual_saturating_arithmetic_refuted.
(** `x.checked_sub(y).unwrap_or_default()`; the default of every integer type is 0. *)
Theorem saturating_sub_default_preserves : forall m p rho l r e' t,
  sat_sub_unwrap_or_default l r = Some e' -> ty_of l = Some (TI t) ->
  preserves m p rho (EM1 MUnwrapOr (EM1 MChkSub l r) (ELit t 0)) e'.
Proof. intros. eapply sat_sub_default_correct; eauto. Qed.
Print Assumptions saturating_sub_default_preserves.
Example sub_default_ex : sat_sub_unwrap_or_default (EVar (TI u32) 0) (ELit u32 7) = Some (EM1 MSatSub (EVar (TI u32) 0) (ELit u32 7)).
Proof. reflexivity. Qed.

(** ** C18: manual_range_contains *)

(** Every suggestion, for integer, boolean and float operands, `&&`, `&`, `||` and `|`, whichever side
    the variable is on, also inside a longer chain.  The side condition on shifts only concerns the
    bounds and only builds with overflow checks. *)
Theorem range_contains_preserves : forall m p rho e e',
  In e' (range_contains p e) -> tyck p e = Some TB -> m = Wrapping \/ narrow_shifts p e = true -> preserves m p rho e e'.
Proof. intros. eapply range_contains_correct; eauto. Qed.
Print Assumptions range_contains_preserves.
Example range_contains_ex :
  let x := EVar (TI u8) 0 in
  range_contains P64 (EBin BAnd (EBin (BC CGe) x (ELit u8 8)) (EBin (BC CGt) (ELit u8 12) x)) = [EContains false (ELit u8 8) (ELit u8 12) x] /\
  range_contains P64 (EBin BOr (EBin (BC CGt) x (ELit u8 12)) (EBin (BC CLt) x (ELit u8 8))) = [EUn UNot (EContains true (ELit u8 8) (ELit u8 12) x)] /\
  range_contains P64 (EBin BAnd (EBin BAnd (EVar TB 1) (EBin (BC CLe) (EFloat fm1) (EVar TF 2))) (EBin (BC CLe) (EVar TF 2) (EFloat f1)))
    = [EBin BAnd (EVar TB 1) (EContains true (EFloat fm1) (EFloat f1) (EVar TF 2))].
Proof. vm_compute. auto. Qed.
(** The guard against floats in `x < lo || x > hi` is needed: for NaN the negated range test differs. *)
Theorem range_contains_float_or_guard : exists rho, let x := EVar TF 0 in
  range_contains P64 (EBin BOr (EBin (BC CLt) x (EFloat fm1)) (EBin (BC CGt) x (EFloat f1))) = [] /\
  eval Checked P64 rho (EBin BOr (EBin (BC CLt) x (EFloat fm1)) (EBin (BC CGt) x (EFloat f1))) = Ok (VB false) /\
  eval Checked P64 rho (EUn UNot (EContains true (EFloat fm1) (EFloat f1) x)) = Ok (VB true).
Proof. exists (fun _ => VF S754_nan). vm_compute. auto. Qed.
Print Assumptions range_contains_float_or_guard.
(** C18 finding: the side condition is needed.  A bound that is not reached but panics is evaluated
    by the suggestion. *)
Theorem range_contains_wide_shift_refuted : exists e e' rho, In e' (range_contains P64 e) /\ tyck P64 e = Some TB /\
  eval Checked P64 rho e = Ok (VB false) /\ eval Checked P64 rho e' = Panic.
Proof.
  exists (EBin BAnd (EBin (BC CGe) (EVar (TI i8) 0) (ELit i8 1)) (EBin (BC CLt) (EVar (TI i8) 0) (EBin (BI OShl) (ELit i8 1) (ELit u32 257)))),
    (EContains false (ELit i8 1) (EBin (BI OShl) (ELit i8 1) (ELit u32 257)) (EVar (TI i8) 0)), (all_vars i8 0).
  vm_compute. auto.
Qed.
Print Assumptions range_contains_wide_shift_refuted.

(** ** C19: min_max and unnecessary_min_or_max *)

(** A flagged nested min/max has the same value in every environment and build: integers are equal,
    floats are equal up to the sign of zero. *)
Theorem min_max_constant : forall m m' p rho rho' e T v v',
  min_max_lint p e = true -> tyck p e = Some T -> eval m p rho e = Ok v -> eval m' p rho' e = Ok v' -> num_eq v v'.
Proof.
  intros m m' p rho rho' e T v v' H Te Hv Hv'.
  assert (NT : numeric T).
  { rewrite <- (tyck_val _ _ _ _ _ _ Te Hv). unfold min_max_lint in H. destruct (fetch_min_max p e) as [[[om oc] oe]|] eqn:F; [|discriminate].
    apply fetch_inv in F as (k & ce & K & _ & Sh). apply mm_kind_inv in K.
    assert (Kc : k = MMin \/ k = MMax) by (subst k; destruct om; auto).
    assert (exists va vb, (match k with MMin => vmin | _ => vmax end) va vb = Ok v) as (va & vb & R).
    { destruct Sh as [->| ->]; apply eval_mm in Hv as (va & vb & _ & _ & R); eauto. }
    destruct Kc as [->| ->]; destruct va as [ta x|x|x|], vb as [tb y|y|y|]; cbn in R; try discriminate;
      try (injection R as <-; left; reflexivity); destruct (ity_eqb ta tb); [|discriminate|  |discriminate]; injection R as <-; right; eexists; reflexivity. }
  destruct (min_max_value _ _ _ _ _ _ H Te NT Hv) as (mx & c & x & vc & F & D & W & Y & N).
  destruct (min_max_value _ _ _ _ _ _ H Te NT Hv') as (mx' & c' & x' & vc' & F' & D' & W' & Y' & N').
  rewrite F in F'. injection F' as <- <- <-. assert (vc = vc') as <- by (apply (denotes_inj p c); auto; congruence).
  eapply num_eq_trans; [exact N|]. now apply num_eq_sym.
Qed.
Print Assumptions min_max_constant.
Example min_max_ex :
  min_max_lint P64 (EM1 MMin (ELit i32 1) (EM1 MMax (ELit i32 3) (EVar (TI i32) 0))) = true /\
  min_max_lint P64 (EM1 MMax (EM1 MMin (EVar TF 0) (EFloat fm1)) (EFloat f1)) = true /\
  min_max_lint P64 (EM1 MMin (ELit i32 3) (EM1 MMax (ELit i32 1) (EVar (TI i32) 0))) = false.
Proof. vm_compute. auto. Qed.

(** The operand offered for a min/max call on integers is the value of the call. *)
Theorem unnecessary_min_or_max_preserves : forall m p rho e e' t,
  unnecessary_min_max p e = Some e' -> tyck p e = Some (TI t) -> preserves m p rho e e'.
Proof. intros. eapply unnecessary_mm_correct; eauto. Qed.
Print Assumptions unnecessary_min_or_max_preserves.
Example unnecessary_min_max_ex :
  unnecessary_min_max P64 (EM1 MMax (EVar (TI u32) 0) (ELit u32 0)) = Some (EVar (TI u32) 0) /\
  unnecessary_min_max P64 (EM1 MMin (EAssoc i8 AMin) (EVar (TI i8) 0)) = Some (EAssoc i8 AMin) /\
  unnecessary_min_max P64 (EM1 MMin (ELit u8 6) (ELit u8 5)) = Some (ELit u8 5) /\
  unnecessary_min_max P32 (EM1 MMax (EVar (TI usize) 0) (ELit usize 4294967295)) = Some (ELit usize 4294967295).
Proof. vm_compute. auto. Qed.
