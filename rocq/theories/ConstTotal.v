(** A constant is only assigned to expressions that do not panic. *)
From Coq Require Import ZifyBool.
From Verif Require Export ConstProofs RustTyping.
Open Scope Z_scope.

Lemma tyck_ty_of p e : forall t, tyck p e = Some t -> ty_of e = Some t.
Proof.
  induction e as [t n|b|f|t x|t a|o e IH|o e1 IH1 e2 IH2|e IH t|k e IH|k e IH a IHa|k e IH a IHa b IHb|c IHc a IHa b IHb|i lo IHl hi IHh x IHx];
    intros ty H.
  - cbn in *. destruct (_ && _); congruence.
  - cbn in *; congruence.
  - cbn in *; congruence.
  - cbn in *; congruence.
  - exact H.
  - assert (D : (exists t n, o = UNeg /\ e = ELit t n) \/ tyck p (EUn o e) = match o, tyck p e with
      | UNeg, Some (TI t) => if ity_signed t then Some (TI t) else None
      | UNeg, Some TF => Some TF
      | UNot, Some (TI t) => Some (TI t)
      | UNot, Some TB => Some TB
      | _, _ => None
      end).
    { destruct o; [destruct e; eauto|]; auto. }
    destruct D as [(t & n & -> & ->)|D].
    + cbn in *. destruct (_ && _ && _); congruence.
    + rewrite D in H. cbn [ty_of]. destruct (tyck p e) as [[]|]; destruct o; try discriminate; try (destruct (ity_signed t); [|discriminate]); injection H as <-; now apply IH.
  - cbn [tyck] in H. cbn [ty_of]. destruct o as [o|c| |]; destruct (tyck p e1) as [[]|]; destruct (tyck p e2) as [[]|]; try discriminate;
      try (destruct (ity_eqb _ _); try discriminate);
      try (destruct o; try discriminate); try (injection H as <-; try (now apply IH1); reflexivity).
  - cbn in *. destruct (tyck p e) as [[]|]; congruence.
  - cbn [tyck] in H. destruct (tyck p e) as [[t| | |t]|]; try discriminate; destruct k; try discriminate; try exact H;
      try (destruct (ity_signed t); congruence). cbn [ty_of]. rewrite (IH _ eq_refl). exact H.
  - cbn [tyck] in H. destruct (tyck p e) as [[t| | |t]|] eqn:E1; try (destruct k; discriminate);
      destruct (tyck p a) as [[t'| | |]|]; try (destruct k; discriminate);
      destruct k; try discriminate; try (cbn [ty_of]; rewrite (IH _ eq_refl); exact H); destruct (ity_eqb _ _); try discriminate; cbn [andb] in H;
      try destruct (negb _); try discriminate; try exact H; cbn [ty_of]; rewrite (IH _ eq_refl); exact H.
  - cbn [tyck] in H. destruct (tyck p e) as [[t| | |]|]; try discriminate; destruct (tyck p a) as [[]|]; try discriminate;
      destruct (tyck p b) as [[]|]; try discriminate; [destruct (_ && _); [|discriminate]|]; cbn [ty_of]; rewrite (IH _ eq_refl); exact H.
  - cbn [tyck] in H. destruct (tyck p c) as [[]|]; try discriminate. destruct (tyck p a) as [x|]; try discriminate.
    destruct (tyck p b) as [y|]; try discriminate. cbn [ty_of]. rewrite (IHa _ eq_refl), (IHb _ eq_refl). exact H.
  - cbn in *. destruct (tyck p lo); [|discriminate]. destruct (tyck p hi); [|discriminate]. destruct (tyck p x); [|discriminate].
    destruct (_ && _); congruence.
Qed.

Lemma to_bits_small_inv p t y u : inr p t y = true -> to_bits p t y = u -> u < 128 -> y = u /\ 0 <= u.
Proof.
  intros Hy Hu Hlt. pose proof (to_bits_range p t y). rewrite Hu in H. split; [|lia].
  pose proof (of_to_bits p t y Hy). rewrite Hu in H0. unfold of_bits in H0. rewrite wrap_id in H0; [auto|].
  apply inr_small. lia.
Qed.

Lemma shift_amount p t t' y r : inr p t' y = true -> bits p t' <= bits p t ->
  wrap p t (to_bits p t' y) = r -> 0 <= r < bits p t -> ity_signed t = true -> y = r.
Proof.
  intros Hy Hb Hr Hr0 Hs. pose proof (to_bits_range p t' y) as Hu.
  assert (to_bits p t' y = r) as E.
  { destruct (wrap_cong p t (to_bits p t' y)) as [k Hk]. rewrite Hr in Hk.
    assert (2 ^ bits p t' <= 2 ^ bits p t) by (apply Z.pow_le_mono_r; lia).
    pose proof (bits_le128 p t). assert (128 <= 2 ^ bits p t).
    { pose proof (half_ge p t). pose proof (half_double p t). lia. }
    assert (k = 0) by nia. lia. }
  pose proof (bits_le128 p t). destruct (to_bits_small_inv p t' y r Hy E); lia.
Qed.

Lemma quot_range p t x y : inr p t x = true -> inr p t y = true -> y <> 0 -> ~ (x = imin p t /\ y = -1) -> inr p t (Z.quot x y) = true.
Proof.
  rewrite !inr_iff. intros Hx Hyr Hy Hn. pose proof (imin_le0 p t). pose proof (imax_ge127 p t).
  destruct (Z.eq_dec y (-1)) as [->|].
  - replace (x ÷ -1) with (- x) by (change (-1) with (Z.opp 1); rewrite Z.quot_opp_r by lia; now rewrite Z.quot_1_r).
    unfold imin, imax in *. destruct (ity_signed t); lia.
  - pose proof (Z.quot_rem' x y). pose proof (Z.rem_bound_abs x y Hy).
    assert (Z.abs (Z.quot x y) <= Z.abs x) as Ha.
    { rewrite <- Z.quot_abs by lia. rewrite Z.quot_div_nonneg by lia. apply Z.div_le_upper_bound; nia. }
    unfold imin, imax in *. destruct (ity_signed t) eqn:Hs; [|assert (0 <= Z.quot x y) by (apply Z.quot_pos; lia); lia].
    destruct (Z.eq_dec (Z.abs (Z.quot x y)) (2 ^ (bits p t - 1))) as [E|]; [|lia].
    assert (Z.abs x = 2 ^ (bits p t - 1)) by lia.
    assert (Z.abs y = 1).
    { rewrite <- Z.quot_abs in E by lia. rewrite Z.quot_div_nonneg in E by lia.
      assert (Z.abs y < 2); [|lia]. destruct (Z.lt_ge_cases (Z.abs y) 2); [auto|].
      assert (Z.abs x / Z.abs y <= Z.abs x / 2) by (apply Z.div_le_compat_l; lia).
      assert (Z.abs x / 2 < Z.abs x) by (apply Z.div_lt; lia). lia. }
    assert (y = 1) by lia. subst y. rewrite Z.quot_1_r. lia.
Qed.

Lemma ceval_total m p rho e : forall c t,
  (m = Wrapping \/ narrow_shifts p e = true) -> tyck p e = Some t -> ceval p p e = Some c -> exists v, eval m p rho e = Ok v.
Proof.
  induction e as [t n|b|f|t x|t a|o e IH|o e1 IH1 e2 IH2|e IH t|k e IH|k e IH a IHa|k e IH a IHa b IHb|ec IHc a IHa b IHb|i lo IHl hi IHh x IHx];
    intros c ty Hm Ht Hc; try discriminate.
  - cbn in *. destruct (_ && _); [eauto|discriminate].
  - cbn. eauto.
  - cbn. eauto.
  - destruct a; cbn; eauto.
  - rewrite eval_un. cbn [ceval] in Hc. destruct (ceval p p e) as [c0|] eqn:Ec; [|discriminate]. cbn [obind] in Hc.
    assert (D : (exists t n, o = UNeg /\ e = ELit t n) \/
      (tyck p (EUn o e) = match o, tyck p e with
      | UNeg, Some (TI t) => if ity_signed t then Some (TI t) else None
      | UNeg, Some TF => Some TF
      | UNot, Some (TI t) => Some (TI t)
      | UNot, Some TB => Some TB
      | _, _ => None
      end /\ match o, e with
        | UNeg, ELit t n => if ity_signed t && inr p t (- n) && (0 <=? n) then Ok (VI t (- n)) else Stuck
        | _, _ => do v <- eval m p rho e; un_sem m p o v
        end = (do v <- eval m p rho e; un_sem m p o v))).
    { destruct o; [destruct e; eauto|]; auto. }
    destruct D as [(t & n & -> & ->)|[D1 D2]].
    + cbn in Ht. destruct (_ && _ && _); [eauto|discriminate].
    + rewrite D2. rewrite D1 in Ht. clear D1 D2. destruct (tyck p e) as [ty0|] eqn:Et; [|destruct o; discriminate].
      assert (Hm' : m = Wrapping \/ narrow_shifts p e = true) by exact Hm.
      destruct (IH _ _ Hm' eq_refl eq_refl) as [v Hv]. rewrite Hv. cbn [rbind].
      pose proof (ceval_sound_denotes _ _ _ _ _ _ Ec Hv) as Hd.
      pose proof (tyck_ty_of _ _ _ Et) as Hty. pose proof (eval_wf _ _ _ _ _ Hv) as [Hw Hvt]. specialize (Hvt _ Hty). subst ty0.
      destruct v as [tv z|b|f|tv ov]; cbn [val_ty] in *; destruct o; try discriminate; cbn [un_sem]; eauto.
      * destruct (ity_signed tv) eqn:Hs; [|discriminate]. cbn [ty_of] in Hc. rewrite Hty in Hc.
        destruct c0 as [u| |]; [|contradiction|contradiction]. cbn in Hd. subst u. cbn in Hc. rewrite Hs in Hc.
        rewrite sext_to_bits in Hc by auto. destruct (Z.eqb_spec z (imin p tv)); [discriminate|].
        unfold int_neg. rewrite Hs. rewrite arith_in; cbn; eauto.
        cbn in Hw. apply inr_iff in Hw. apply inr_iff. unfold imin, imax in *. rewrite Hs in *. lia.
  - cbn [ceval] in Hc. destruct (ceval p p e1) as [c1|] eqn:Ec1; [|discriminate]. cbn [obind] in Hc.
    assert (Hm1 : m = Wrapping \/ narrow_shifts p e1 = true) by (destruct Hm; [auto|cbn in *; lia]).
    assert (Hm2 : m = Wrapping \/ narrow_shifts p e2 = true) by (destruct Hm; [auto|cbn in *; lia]).
    assert (Ht12 : exists t1 t2, tyck p e1 = Some t1 /\ tyck p e2 = Some t2).
    { cbn [tyck] in Ht. destruct (tyck p e1) as [t1|]; [|destruct o; discriminate]. destruct (tyck p e2) as [t2|]; [eauto|destruct o, t1; discriminate]. }
    destruct Ht12 as (t1 & t2 & Ht1 & Ht2).
    destruct (IH1 _ _ Hm1 Ht1 eq_refl) as [v1 Hv1].
    assert (Hd1 := ceval_sound_denotes _ _ _ _ _ _ Ec1 Hv1).
    assert (H2 : forall c2, ceval p p e2 = Some c2 -> exists v2, eval m p rho e2 = Ok v2 /\ denotes p c2 v2 /\ val_wf p v2 = true /\ val_ty v2 = t2).
    { intros c2 E2. destruct (IH2 _ _ Hm2 Ht2 E2) as [v2 Hv2]. exists v2.
      pose proof (eval_wf _ _ _ _ _ Hv2) as [Hw Hvt]. pose proof (tyck_ty_of _ _ _ Ht2) as Hty. split; [auto|]. split; [eapply ceval_sound_denotes; eauto|]. split; [auto|]. now apply Hvt. }
    pose proof (eval_wf _ _ _ _ _ Hv1) as [Hw1 Hvt1]. pose proof (tyck_ty_of _ _ _ Ht1) as Hty1. specialize (Hvt1 _ Hty1).
    cbn [tyck] in Ht. rewrite Ht1, Ht2 in Ht. rewrite Hty1 in Hc.
    destruct o as [o|co| |]; cbn [eval]; rewrite Hv1; cbn [rbind].
    + destruct (ceval p p e2) as [c2|] eqn:Ec2; [|destruct c1, o; discriminate].
      destruct (H2 _ eq_refl) as (v2 & Hv2 & Hd2 & Hw2 & Hvt2). rewrite Hv2. cbn [rbind]. subst t1 t2.
      destruct v1 as [tx x|x|f|tx ox], v2 as [tv y|y|f'|tv oy]; cbn [val_ty] in *; try discriminate.
      * destruct c1 as [u1| |]; [|contradiction|contradiction]. destruct c2 as [u2| |]; [|contradiction|contradiction]. cbn in Hd1, Hd2. subst u1 u2.
        cbn in Hw1, Hw2.
        assert (Hsame : match o with OShl | OShr => True | _ => tv = tx end).
        { destruct (ity_eqb tx tv) eqn:E; [apply ity_eqb_eq in E; subst; now destruct o|destruct o; try discriminate; exact I]. }
        assert (exists r, int_op m p tx o x y = Ok r) as [r Hr].
        { cbn [const_binop] in Hc. destruct (ity_signed tx) eqn:Hs.
          - unfold binop_signed in Hc. rewrite sext_to_bits in Hc by auto.
            destruct o; cbn [int_op]; try subst tv; try rewrite (sext_to_bits p tx y) in Hc by auto.
            + apply guarded_signed in Hc as [Hi _]. rewrite arith_in; eauto.
            + apply guarded_signed in Hc as [Hi _]. rewrite arith_in; eauto.
            + apply guarded_signed in Hc as [Hi _]. rewrite arith_in; eauto.
            + destruct ((x =? imin p tx) && (y =? -1)) eqn:E1; [discriminate|]. destruct (Z.eqb_spec y 0); [discriminate|].
              rewrite quot_range; [eauto|auto|auto|auto|lia].
            + destruct ((x =? imin p tx) && (y =? -1)) eqn:E1; [discriminate|]. destruct (Z.eqb_spec y 0); [discriminate|].
              rewrite quot_range; [eauto|auto|auto|auto|lia].
            + eauto. + eauto. + eauto.
            + destruct ((0 <=? y) && (y <? bits p tx)) eqn:Ey; [eauto|]. destruct m; [|eauto]. exfalso.
              destruct Hm as [|Hm]; [discriminate|]. rewrite sext_wrap in Hc by auto.
              destruct ((wrap p tx (to_bits p tv y) <? bits p tx) && (0 <=? wrap p tx (to_bits p tv y))) eqn:E; [|discriminate].
              cbn in Hm. rewrite Hty1, (tyck_ty_of _ _ _ Ht2), Hs in Hm.
              pose proof (shift_amount p tx tv y _ Hw2 ltac:(lia) eq_refl ltac:(lia) Hs). lia.
            + destruct ((0 <=? y) && (y <? bits p tx)) eqn:Ey; [eauto|]. destruct m; [|eauto]. exfalso.
              destruct Hm as [|Hm]; [discriminate|]. rewrite sext_wrap in Hc by auto.
              destruct ((wrap p tx (to_bits p tv y) <? bits p tx) && (0 <=? wrap p tx (to_bits p tv y))) eqn:E; [|discriminate].
              cbn in Hm. rewrite Hty1, (tyck_ty_of _ _ _ Ht2), Hs in Hm.
              pose proof (shift_amount p tx tv y _ Hw2 ltac:(lia) eq_refl ltac:(lia) Hs). lia.
          - unfold binop_unsigned in Hc. rewrite (to_bits_unsigned p tx x) in Hc by auto. pose proof (bits_le128 p tx).
            assert (0 <= x). { apply inr_iff in Hw1. unfold imin in Hw1. rewrite Hs in Hw1. lia. }
            destruct o; cbn [int_op]; try subst tv; try rewrite (to_bits_unsigned p tx y) in Hc by auto.
            + apply guarded_unsigned in Hc as [Hi _]. rewrite arith_in; eauto.
            + apply guarded_unsigned in Hc as [Hi _]. rewrite arith_in; eauto.
            + apply guarded_unsigned in Hc as [Hi _]. rewrite arith_in; eauto.
            + destruct (Z.eqb_spec y 0); [discriminate|]. rewrite quot_range; [eauto|auto|auto|auto|].
              apply inr_iff in Hw2. unfold imin in Hw2. rewrite Hs in Hw2. lia.
            + destruct (Z.eqb_spec y 0); [discriminate|]. rewrite quot_range; [eauto|auto|auto|auto|].
              apply inr_iff in Hw2. unfold imin in Hw2. rewrite Hs in Hw2. lia.
            + eauto. + eauto. + eauto.
            + destruct (Z.ltb_spec (to_bits p tv y) (bits p tx)); [|discriminate].
              destruct (to_bits_small_inv p tv y _ Hw2 eq_refl); [lia|].
              replace ((0 <=? y) && (y <? bits p tx)) with true by lia. eauto.
            + destruct (Z.ltb_spec (to_bits p tv y) (bits p tx)); [|discriminate].
              destruct (to_bits_small_inv p tv y _ Hw2 eq_refl); [lia|].
              replace ((0 <=? y) && (y <? bits p tx)) with true by lia. eauto. }
        destruct o; try (subst tv; rewrite ity_eqb_refl); rewrite Hr; cbn; eauto.
      * destruct o; try discriminate; eauto.
      * destruct o; try discriminate; cbn [float_op]; eauto.
    + destruct (ceval p p e2) as [c2|] eqn:Ec2; [|destruct c1; discriminate].
      destruct (H2 _ eq_refl) as (v2 & Hv2 & Hd2 & Hw2 & Hvt2). rewrite Hv2. cbn [rbind]. subst t1 t2.
      destruct v1 as [tx x|x|f|tx ox], v2 as [tv y|y|f'|tv oy]; cbn [val_ty] in *; try discriminate; cbn; eauto.
      destruct (ity_eqb tx tv); [cbn; eauto|discriminate].
    + destruct t1; try discriminate. destruct t2; try discriminate.
      destruct v1 as [tx x|x|f|tx ox]; cbn in Hvt1; try discriminate. destruct x; [|eauto].
      destruct c1 as [|b1|]; [contradiction| |contradiction]. cbn in Hd1. subst b1. 
      destruct (ceval p p e2) as [c2|] eqn:Ec2; [|discriminate].
      destruct (H2 _ eq_refl) as (v2 & Hv2 & Hd2 & Hw2 & Hvt2). rewrite Hv2. cbn [rbind]. destruct v2; try discriminate. eauto.
    + destruct t1; try discriminate. destruct t2; try discriminate.
      destruct v1 as [tx x|x|f|tx ox]; cbn in Hvt1; try discriminate. destruct x; [eauto|].
      destruct c1 as [|b1|]; [contradiction| |contradiction]. cbn in Hd1. subst b1. 
      destruct (ceval p p e2) as [c2|] eqn:Ec2; [|discriminate].
      destruct (H2 _ eq_refl) as (v2 & Hv2 & Hd2 & Hw2 & Hvt2). rewrite Hv2. cbn [rbind]. destruct v2; try discriminate. eauto.
  - cbn [ceval eval tyck] in *. destruct (ceval p p ec) as [[|bc|]|] eqn:Ec; try discriminate.
    destruct (tyck p ec) as [[]|] eqn:Tc; try discriminate. destruct (tyck p a) as [ta|] eqn:Ta; try discriminate. destruct (tyck p b) as [tb|] eqn:Tb; try discriminate.
    assert (Hmc : m = Wrapping \/ narrow_shifts p ec = true) by (destruct Hm; [auto|cbn in *; lia]).
    assert (Hma : m = Wrapping \/ narrow_shifts p a = true) by (destruct Hm; [auto|cbn in *; lia]).
    assert (Hmb : m = Wrapping \/ narrow_shifts p b = true) by (destruct Hm; [auto|cbn in *; lia]).
    destruct (IHc _ _ Hmc eq_refl eq_refl) as [vc Hvc]. rewrite Hvc. cbn [rbind].
    pose proof (ceval_sound_denotes _ _ _ _ _ _ Ec Hvc) as Hd. destruct vc; try contradiction. cbn in Hd. subst bc.
    destruct b0; eauto.
Qed.
