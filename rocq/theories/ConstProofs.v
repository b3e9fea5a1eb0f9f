(** Soundness of the constant evaluator. *)
From Coq Require Import ZifyBool.
From Verif Require Export RustFacts ConstModel ConstSpec.
Open Scope Z_scope.

Lemma Some_inj {A} (a b : A) : Some a = Some b -> a = b.
Proof. congruence. Qed.
Lemma pow_split p t : 2 ^ 128 = 2 ^ bits p t * 2 ^ (128 - bits p t).
Proof. rewrite <- Z.pow_add_r by (pose proof (bits_le128 p t); pose proof (bits_pos p t); lia). f_equal; lia. Qed.
Lemma pow_split' p t : 2 ^ 127 = 2 ^ (bits p t - 1) * 2 ^ (128 - bits p t).
Proof. rewrite <- Z.pow_add_r by (pose proof (bits_le128 p t); pose proof (bits_pos p t); lia). f_equal; lia. Qed.
Lemma pow_bits_pos p t : 0 < 2 ^ bits p t.
Proof. apply p2_pos. pose proof (bits_pos p t); lia. Qed.

Lemma unsext_mod p t s : unsext p t s = s mod 2 ^ bits p t.
Proof.
  unfold unsext, u128w. pose proof (bits_le128 p t). pose proof (p2_pos (128 - bits p t)). pose proof (pow_bits_pos p t).
  rewrite Z.mul_mod_idemp_l by lia. rewrite (pow_split p t), Z.mul_mod_distr_r by lia. apply Z.div_mul. lia.
Qed.
Lemma clip_mod p t u : clip p t u = u mod 2 ^ bits p t.
Proof.
  unfold clip, u128w. pose proof (bits_le128 p t). pose proof (p2_pos (128 - bits p t)). pose proof (pow_bits_pos p t).
  rewrite (pow_split p t), Z.mul_mod_distr_r by lia. apply Z.div_mul. lia.
Qed.
Lemma i128w_cong z : exists k, i128w z = z + k * 2 ^ 128.
Proof. unfold i128w. exists (- ((z + 2 ^ 127) / 2 ^ 128)). pose proof (Z.div_mod (z + 2 ^ 127) (2 ^ 128)). lia. Qed.
Lemma i128w_id z : in_i128 z = true -> i128w z = z.
Proof. unfold in_i128, i128w. intros. rewrite Z.mod_small; lia. Qed.
Lemma sext_wrap p t u : ity_signed t = true -> sext p t u = wrap p t u.
Proof.
  intros Hs. unfold sext, wrap. rewrite Hs. pose proof (bits_le128 p t). pose proof (p2_pos (128 - bits p t)). pose proof (pow_bits_pos p t).
  destruct (i128w_cong u) as [k ->]. unfold i128w.
  replace ((u + k * 2 ^ 128) * 2 ^ (128 - bits p t) + 2 ^ 127)
    with ((u + 2 ^ (bits p t - 1)) * 2 ^ (128 - bits p t) + (k * 2 ^ (128 - bits p t)) * 2 ^ 128) by (rewrite (pow_split' p t); ring).
  rewrite Z.mod_add by lia. rewrite (pow_split p t), Z.mul_mod_distr_r by lia. rewrite (pow_split' p t).
  rewrite <- Z.mul_sub_distr_r. apply Z.div_mul. lia.
Qed.

Lemma sext_to_bits p t z : ity_signed t = true -> inr p t z = true -> sext p t (to_bits p t z) = z.
Proof. intros Hs Hz. rewrite sext_wrap by auto. apply (of_to_bits p t z Hz). Qed.
Lemma unsext_to_bits p t z : unsext p t z = to_bits p t z.
Proof. apply unsext_mod. Qed.
Lemma to_bits_nonneg_small p t z : 0 <= z -> inr p t z = true -> to_bits p t z = z.
Proof.
  intros H0 Hz. apply inr_iff in Hz. unfold to_bits. apply Z.mod_small. unfold imax in Hz.
  pose proof (half_double p t). pose proof (half_pos p t). destruct (ity_signed t); lia.
Qed.
Lemma to_bits_unsigned p t z : ity_signed t = false -> inr p t z = true -> to_bits p t z = z.
Proof. intros Hs Hz. apply to_bits_nonneg_small; auto. apply inr_iff in Hz. unfold imin in Hz. rewrite Hs in Hz. lia. Qed.

Lemma to_bits_eqmod p t a b k : a = b + k * 2 ^ bits p t -> to_bits p t a = to_bits p t b.
Proof. intros ->. unfold to_bits. apply Z.mod_add. pose proof (pow_bits_pos p t). lia. Qed.
Lemma to_bits_wrap p t z : to_bits p t (wrap p t z) = to_bits p t z.
Proof. apply wrap_mod. Qed.

(** The width divides 2^v for every type width v. *)
Lemma width_divides p t t' : exists q, 2 ^ bits p t' = q * bits p t.
Proof.
  assert (D : forall j, 8 <= j -> exists q, 2 ^ j = q * 128).
  { intros j Hj. exists (2 ^ (j - 7)). change 128 with (2 ^ 7). rewrite <- Z.pow_add_r by lia. f_equal. lia. }
  destruct (D (bits p t') (bits_ge8 p t')) as [q ->].
  destruct (bits_cases p t) as [E|[E|[E|[E|E]]]]; rewrite E.
  - exists (q * 16). lia. - exists (q * 8). lia. - exists (q * 4). lia. - exists (q * 2). lia. - exists q. lia.
Qed.
Lemma mod_width_cong p t t' a k : (a + k * 2 ^ bits p t') mod bits p t = a mod bits p t.
Proof.
  destruct (width_divides p t t') as [q ->]. rewrite Z.mul_assoc. apply Z.mod_add. pose proof (bits_pos p t). lia.
Qed.

Lemma inr_in_i128 p t z : ity_signed t = true -> inr p t z = true -> in_i128 z = true.
Proof.
  rewrite inr_iff. unfold imin, imax, in_i128. intros ->. pose proof (bits_le128 p t). pose proof (bits_pos p t).
  assert (2 ^ (bits p t - 1) <= 2 ^ 127) by (apply Z.pow_le_mono_r; lia). lia.
Qed.
Lemma inr_in_u128 p t z : ity_signed t = false -> inr p t z = true -> in_u128 z = true.
Proof.
  rewrite inr_iff. unfold imin, imax, in_u128. intros ->. pose proof (bits_le128 p t). pose proof (bits_pos p t).
  assert (2 ^ (bits p t) <= 2 ^ 128) by (apply Z.pow_le_mono_r; lia). lia.
Qed.

(** Overflow-guarded operations: host and target agree, so a constant means no overflow. *)
Lemma guarded_signed p t z c : option_map (fun n => CInt (unsext p t n)) (obind (fits128 true z) (ensure_fits p t)) = Some c ->
  inr p t z = true /\ c = CInt (to_bits p t z).
Proof.
  unfold fits128, ensure_fits. destruct (in_i128 z); cbn; [|discriminate]. destruct (inr p t z); cbn; [|discriminate].
  intros [= <-]. now rewrite unsext_to_bits.
Qed.
Lemma guarded_unsigned p t z c : option_map CInt (obind (fits128 false z) (ensure_fits p t)) = Some c ->
  inr p t z = true /\ c = CInt z.
Proof.
  unfold fits128, ensure_fits. destruct (in_u128 z); cbn; [|discriminate]. destruct (inr p t z); cbn; [|discriminate].
  now intros [= <-].
Qed.

Lemma binop_signed_sound m p t t' o x y c r :
  ity_signed t = true -> inr p t x = true -> inr p t' y = true ->
  (match o with OShl | OShr => True | _ => t' = t end) ->
  binop_signed p p t (BI o) (to_bits p t x) (to_bits p t' y) = Some c ->
  int_op m p t o x y = Ok r -> c = CInt (to_bits p t r).
Proof.
  intros Hs Hx Hy Ho Hc Hr. unfold binop_signed in Hc.
  rewrite sext_to_bits in Hc by auto.
  destruct o; cbn [int_op] in *.
  1-8: subst t'; rewrite sext_to_bits in Hc by auto.
  - apply guarded_signed in Hc as [Hi ->]. apply arith_Ok in Hr as [-> _]. now rewrite to_bits_wrap.
  - apply guarded_signed in Hc as [Hi ->]. apply arith_Ok in Hr as [-> _]. now rewrite to_bits_wrap.
  - apply guarded_signed in Hc as [Hi ->]. apply arith_Ok in Hr as [-> _]. now rewrite to_bits_wrap.
  - destruct ((x =? imin p t) && (y =? -1)); [discriminate|]. destruct (y =? 0); [discriminate|].
    destruct (inr p t (x ÷ y)); [|discriminate]. injection Hr as <-. unfold fits128 in Hc.
    destruct (in_i128 (x ÷ y)); [|discriminate]. injection Hc as <-. now rewrite unsext_to_bits.
  - destruct ((x =? imin p t) && (y =? -1)); [discriminate|]. destruct (y =? 0); [discriminate|].
    destruct (inr p t (x ÷ y)); [|discriminate]. injection Hr as <-.
    destruct (in_i128 (x ÷ y)); [|discriminate]. injection Hc as <-. now rewrite unsext_to_bits.
  - injection Hc as <-. injection Hr as <-. now rewrite unsext_to_bits.
  - injection Hc as <-. injection Hr as <-. now rewrite unsext_to_bits.
  - injection Hc as <-. injection Hr as <-. now rewrite unsext_to_bits.
  - (* Shl *)
    rewrite sext_wrap in Hc by auto.
    set (s := wrap p t (to_bits p t' y)) in *.
    destruct ((s <? bits p t) && (0 <=? s)) eqn:E; [|discriminate]. injection Hc as <-.
    assert (Hmod : y mod bits p t = s).
    { destruct (wrap_cong p t (to_bits p t' y)) as [k Hk]. fold s in Hk.
      assert (exists k', to_bits p t' y = y + k' * 2 ^ bits p t') as [k' Hk'].
      { exists (- (y / 2 ^ bits p t')). unfold to_bits. pose proof (Z.div_mod y (2 ^ bits p t')). pose proof (pow_bits_pos p t'). lia. }
      rewrite <- (Z.mod_small s (bits p t)) by lia. rewrite Hk, mod_width_cong, Hk', mod_width_cong. reflexivity. }
    assert (Hr' : r = wrap p t (x * 2 ^ s)).
    { destruct ((0 <=? y) && (y <? bits p t)) eqn:Ey.
      - rewrite Z.mod_small in Hmod by lia. rewrite <- Hmod. congruence.
      - destruct m; [discriminate|]. rewrite Hmod in Hr. congruence. }
    rewrite Hr', to_bits_wrap, unsext_to_bits. f_equal.
    destruct (i128w_cong (x * 2 ^ s)) as [k Hk]. rewrite Hk. apply (to_bits_eqmod p t _ _ (k * 2 ^ (128 - bits p t))).
    rewrite (pow_split p t). ring.
  - rewrite sext_wrap in Hc by auto.
    set (s := wrap p t (to_bits p t' y)) in *.
    destruct ((s <? bits p t) && (0 <=? s)) eqn:E; [|discriminate]. injection Hc as <-.
    assert (Hmod : y mod bits p t = s).
    { destruct (wrap_cong p t (to_bits p t' y)) as [k Hk]. fold s in Hk.
      assert (exists k', to_bits p t' y = y + k' * 2 ^ bits p t') as [k' Hk'].
      { exists (- (y / 2 ^ bits p t')). unfold to_bits. pose proof (Z.div_mod y (2 ^ bits p t')). pose proof (pow_bits_pos p t'). lia. }
      rewrite <- (Z.mod_small s (bits p t)) by lia. rewrite Hk, mod_width_cong, Hk', mod_width_cong. reflexivity. }
    assert (Hr' : r = x / 2 ^ s).
    { destruct ((0 <=? y) && (y <? bits p t)) eqn:Ey.
      - rewrite Z.mod_small in Hmod by lia. rewrite <- Hmod. congruence.
      - destruct m; [discriminate|]. rewrite Hmod in Hr. congruence. }
    now rewrite Hr', unsext_to_bits.
Qed.

Lemma land_mask z w : 0 <= w -> Z.land z (2 ^ w - 1) = z mod 2 ^ w.
Proof. intros. rewrite <- Z.land_ones by auto. now rewrite Z.ones_equiv. Qed.

Lemma binop_unsigned_sound m p t t' o x y c r :
  ity_signed t = false -> inr p t x = true -> inr p t' y = true ->
  (match o with OShl | OShr => True | _ => t' = t end) ->
  binop_unsigned p t (BI o) (to_bits p t x) (to_bits p t' y) = Some c ->
  int_op m p t o x y = Ok r -> c = CInt (to_bits p t r).
Proof.
  intros Hs Hx Hy Ho Hc Hr. unfold binop_unsigned in Hc.
  assert (Hx0 : 0 <= x). { apply inr_iff in Hx. unfold imin in Hx. rewrite Hs in Hx. lia. }
  rewrite (to_bits_unsigned p t x) in Hc by auto.
  pose proof (bits_le128 p t) as Hb. pose proof (bits_pos p t) as Hb0. pose proof (pow_bits_pos p t).
  destruct o; cbn [int_op] in *.
  1-8: subst t'; rewrite (to_bits_unsigned p t y) in Hc by auto.
  - apply guarded_unsigned in Hc as [Hi ->]. apply arith_Ok in Hr as [-> _]. now rewrite to_bits_wrap, to_bits_unsigned.
  - apply guarded_unsigned in Hc as [Hi ->]. apply arith_Ok in Hr as [-> _]. now rewrite to_bits_wrap, to_bits_unsigned.
  - apply guarded_unsigned in Hc as [Hi ->]. apply arith_Ok in Hr as [-> _]. now rewrite to_bits_wrap, to_bits_unsigned.
  - destruct (Z.eqb_spec y 0); [discriminate|]. destruct (inr p t (x ÷ y)) eqn:Ei; [|discriminate]. injection Hr as <-. injection Hc as <-.
    rewrite to_bits_unsigned by auto. f_equal. symmetry. apply Z.quot_div_nonneg; [auto|].
    apply inr_iff in Hy. unfold imin in Hy. rewrite Hs in Hy. lia.
  - destruct (Z.eqb_spec y 0); [discriminate|]. destruct (inr p t (x ÷ y)) eqn:Ei; [|discriminate]. injection Hr as <-. injection Hc as <-.
    rewrite to_bits_unsigned by (auto; now apply rem_range). f_equal. symmetry. apply Z.rem_mod_nonneg; [auto|].
    apply inr_iff in Hy. unfold imin in Hy. rewrite Hs in Hy. lia.
  - injection Hc as <-. injection Hr as <-. rewrite to_bits_unsigned; auto. now apply land_range.
  - injection Hc as <-. injection Hr as <-. rewrite to_bits_unsigned; auto. now apply lor_range.
  - injection Hc as <-. injection Hr as <-. rewrite to_bits_unsigned; auto. now apply lxor_range.
  - destruct (Z.ltb_spec (to_bits p t' y) (bits p t)); [|discriminate]. injection Hc as <-.
    assert (exists k', to_bits p t' y = y + k' * 2 ^ bits p t') as [k' Hk'].
    { exists (- (y / 2 ^ bits p t')). unfold to_bits. pose proof (Z.div_mod y (2 ^ bits p t')). pose proof (pow_bits_pos p t'). lia. }
    pose proof (to_bits_range p t' y).
    assert (Hmod : y mod bits p t = to_bits p t' y).
    { rewrite <- (Z.mod_small (to_bits p t' y) (bits p t)) by lia. rewrite Hk'. now rewrite mod_width_cong. }
    assert (Hr' : r = wrap p t (x * 2 ^ to_bits p t' y)).
    { destruct ((0 <=? y) && (y <? bits p t)) eqn:Ey.
      - rewrite Z.mod_small in Hmod by lia. rewrite <- Hmod. congruence.
      - destruct m; [discriminate|]. rewrite Hmod in Hr. congruence. }
    rewrite Hr', to_bits_wrap. rewrite land_mask by lia. f_equal. unfold to_bits at 2, u128w.
    rewrite (pow_split p t). rewrite Z.rem_mul_r by (try lia; pose proof (p2_pos (128 - bits p t)); lia).
    rewrite (Z.mul_comm (2 ^ bits p t)). rewrite Z.mod_add by lia. apply Z.mod_mod. lia.
  - destruct (Z.ltb_spec (to_bits p t' y) (bits p t)); [|discriminate]. injection Hc as <-.
    assert (exists k', to_bits p t' y = y + k' * 2 ^ bits p t') as [k' Hk'].
    { exists (- (y / 2 ^ bits p t')). unfold to_bits. pose proof (Z.div_mod y (2 ^ bits p t')). pose proof (pow_bits_pos p t'). lia. }
    pose proof (to_bits_range p t' y).
    assert (Hmod : y mod bits p t = to_bits p t' y).
    { rewrite <- (Z.mod_small (to_bits p t' y) (bits p t)) by lia. rewrite Hk'. now rewrite mod_width_cong. }
    assert (Hr' : r = x / 2 ^ to_bits p t' y).
    { destruct ((0 <=? y) && (y <? bits p t)) eqn:Ey.
      - rewrite Z.mod_small in Hmod by lia. rewrite <- Hmod. congruence.
      - destruct m; [discriminate|]. rewrite Hmod in Hr. congruence. }
    rewrite Hr'. rewrite land_mask by lia. reflexivity.
Qed.

Lemma const_binop_cmp p t c x y v : inr p t x = true -> inr p t y = true ->
  (if ity_signed t then binop_signed p p t (BC c) (to_bits p t x) (to_bits p t y)
   else binop_unsigned p t (BC c) (to_bits p t x) (to_bits p t y)) = Some v -> v = CBool (cmp_op c x y).
Proof.
  intros Hx Hy. destruct (ity_signed t) eqn:Hs; cbn [binop_signed binop_unsigned]; intros [= <-].
  - now rewrite !sext_to_bits by auto.
  - now rewrite !to_bits_unsigned by auto.
Qed.

Lemma constant_not_sound p t z c : inr p t z = true -> constant_not p (CInt (to_bits p t z)) (Some (TI t)) = Some c ->
  c = CInt (to_bits p t (int_not p t z)).
Proof.
  intros Hz Hc. apply Some_inj in Hc. subst c. f_equal.
  assert (exists k', to_bits p t z = z + k' * 2 ^ bits p t) as [k' Hk'].
  { exists (- (z / 2 ^ bits p t)). unfold to_bits. pose proof (Z.div_mod z (2 ^ bits p t)). pose proof (pow_bits_pos p t). lia. }
  unfold int_not. destruct (ity_signed t) eqn:Hs.
  - rewrite unsext_to_bits. destruct (i128w_cong (2 ^ 128 - 1 - to_bits p t z)) as [k ->].
    apply (to_bits_eqmod p t _ _ ((1 + k) * 2 ^ (128 - bits p t) - k')). rewrite Hk', (pow_split p t). ring.
  - rewrite clip_mod. change ((2 ^ 128 - 1 - to_bits p t z) mod 2 ^ bits p t) with (to_bits p t (2 ^ 128 - 1 - to_bits p t z)).
    apply (to_bits_eqmod p t _ _ (2 ^ (128 - bits p t) - 1 - k')). rewrite Hk', (pow_split p t). ring.
Qed.

Lemma constant_negate_sound m p t z c r : inr p t z = true ->
  constant_negate p p (CInt (to_bits p t z)) (Some (TI t)) = Some c -> int_neg m p t z = Ok r -> c = CInt (to_bits p t r).
Proof.
  intros Hz Hc Hr. unfold constant_negate, int_neg in *. destruct (ity_signed t) eqn:Hs; [|discriminate].
  rewrite sext_to_bits in Hc by auto. destruct (z =? imin p t); [discriminate|]. unfold fits128 in Hc.
  destruct (in_i128 (- z)); [|discriminate]. injection Hc as <-. apply arith_Ok in Hr as [-> _].
  now rewrite unsext_to_bits, to_bits_wrap.
Qed.

Lemma ceval_sound_denotes m p rho e : forall c v,
  ceval p p e = Some c -> eval m p rho e = Ok v -> denotes p c v.
Proof.
  induction e as [t n|b|f|t x|t a|o e IH|o e1 IH1 e2 IH2|e IH t|k e IH|k e IH a IHa|k e IH a IHa b IHb|ec IHc a IHa b IHb|i lo IHl hi IHh x IHx];
    intros c v Hc Hv; try discriminate.
  - cbn in Hc, Hv. injection Hc as <-. destruct (inr p t n && (0 <=? n)) eqn:E; [|discriminate]. injection Hv as <-.
    cbn. symmetry. apply to_bits_nonneg_small; lia.
  - cbn in Hc, Hv. injection Hc as <-. injection Hv as <-. reflexivity.
  - cbn in Hc, Hv. injection Hc as <-. injection Hv as <-. reflexivity.
  - destruct a; cbn in Hc, Hv; injection Hc as <-; injection Hv as <-; cbn; try reflexivity.
    symmetry. pose proof (bits_pos p t). pose proof (bits_le128 p t).
    apply to_bits_nonneg_small; [lia|]. apply inr_u32_small. lia.
  - rewrite eval_un in Hv.
    assert (D : (exists t n, o = UNeg /\ e = ELit t n) \/ (do v <- eval m p rho e; un_sem m p o v) = Ok v).
    { destruct o; [destruct e; eauto|]; auto. }
    cbn [ceval] in Hc. destruct (ceval p p e) as [c0|] eqn:Ec; [|discriminate]. cbn [obind] in Hc.
    destruct D as [(t & n & -> & ->)|D].
    + cbn [ceval] in Ec. injection Ec as <-.
      destruct (ity_signed t && inr p t (- n) && (0 <=? n)) eqn:E; [|discriminate]. injection Hv as <-. cbn [ty_of] in Hc.
      unfold constant_negate in Hc. replace (ity_signed t) with true in Hc by (destruct (ity_signed t); [reflexivity|discriminate]).
      rewrite sext_wrap in Hc by lia.
      destruct (wrap p t n =? imin p t); [discriminate|]. unfold fits128 in Hc.
      destruct (in_i128 (- wrap p t n)); [|discriminate]. injection Hc as <-. cbn [denotes]. rewrite unsext_to_bits.
      destruct (wrap_cong p t n) as [k ->]. apply (to_bits_eqmod p t _ _ (- k)). ring.
    + inv_bind D. specialize (IH _ _ eq_refl E). pose proof (eval_wf _ _ _ _ _ E) as [Hw Ht]. cbn [ty_of] in Hc.
      destruct o, c0 as [u|b|cf], v0 as [t z|b'|f|t o']; cbn [un_sem denotes] in *; try discriminate; try contradiction; subst.
      * inv_bind D. injection D as <-. destruct (ty_of e) as [ty0|] eqn:Ety; [|discriminate]. specialize (Ht _ eq_refl). cbn in Ht. subst ty0.
        eapply constant_negate_sound in Hc; [|exact Hw|exact E0]. subst c. reflexivity.
      * cbn in Hc, D. injection D as <-. destruct (ty_of e); injection Hc as <-; reflexivity.
      * injection D as <-. destruct (ty_of e) as [ty0|] eqn:Ety; [|discriminate]. specialize (Ht _ eq_refl). cbn in Ht. subst ty0.
        eapply constant_not_sound in Hc; [|exact Hw]. subst c. reflexivity.
      * injection D as <-. injection Hc as <-. reflexivity.
  - cbn [ceval] in Hc. destruct (ceval p p e1) as [c1|] eqn:Ec1; [|discriminate]. cbn [obind] in Hc.
    assert (Hd1 : forall v1, eval m p rho e1 = Ok v1 -> denotes p c1 v1) by (intros; now apply IH1).
    assert (Hd2 : forall c2 v2, ceval p p e2 = Some c2 -> eval m p rho e2 = Ok v2 -> denotes p c2 v2) by auto.
    clear IH1 IH2.
    destruct o as [o|co| |].
    + apply eval_bi_inv in Hv as [(t & t' & x & y & r & Ha & Hb & -> & Hr & Hs)|[(x & y & r & Ha & Hb & -> & Hs)|(x & y & r & Ha & Hb & -> & Hs)]].
      * pose proof (eval_wf _ _ _ _ _ Ha) as [Hxw Ht]. pose proof (eval_VI_range _ _ _ _ _ _ Hb) as Hyw. cbn in Hxw.
        apply Hd1 in Ha. destruct c1 as [u| |]; [|contradiction|contradiction]. cbn in Ha. subst u.
        destruct (ceval p p e2) as [[u2|b2|f2]|] eqn:Ec2; try (now destruct o; discriminate).
        specialize (Hd2 _ _ eq_refl Hb). cbn in Hd2. subst u2. cbn [const_binop] in Hc.
        destruct (ty_of e1) as [[t0| | |]|] eqn:Ety; try discriminate. specialize (Ht _ eq_refl). injection Ht as <-.
        destruct (ity_signed t) eqn:Hsg.
        -- cbn [denotes]. eapply binop_signed_sound in Hc; eauto. now subst c.
        -- cbn [denotes]. eapply binop_unsigned_sound in Hc; eauto. now subst c.
      * apply Hd1 in Ha. destruct c1 as [u|b1|]; [contradiction| |contradiction]. cbn in Ha. subst b1.
        destruct (ceval p p e2) as [[u2|b2|f2]|] eqn:Ec2; try (now destruct o; discriminate).
        specialize (Hd2 _ _ eq_refl Hb). cbn in Hd2. subst b2. destruct o; try contradiction; subst r; cbn in Hc; injection Hc as <-; reflexivity.
      * apply Hd1 in Ha. destruct c1 as [u|b1|f1]; [contradiction|contradiction|]. cbn in Ha. subst f1.
        destruct (ceval p p e2) as [[u2|b2|f2]|] eqn:Ec2; try (now destruct o; discriminate).
        specialize (Hd2 _ _ eq_refl Hb). cbn in Hd2. subst f2. cbn [const_binop binop_f64] in Hc. rewrite Hs in Hc. injection Hc as <-. reflexivity.
    + apply eval_cmp_inv in Hv as (va & vb & ord & Ha & Hb & Ho & ->).
      pose proof (eval_wf _ _ _ _ _ Ha) as [Hxw Ht]. pose proof (eval_wf _ _ _ _ _ Hb) as [Hyw _].
      apply Hd1 in Ha. destruct c1 as [u|b1|f1].
      * destruct va as [t x| | |]; try contradiction. cbn in Ha. subst u.
        destruct (ceval p p e2) as [[u2|b2|f2]|] eqn:Ec2; try discriminate. specialize (Hd2 _ _ eq_refl Hb).
        destruct vb as [t' y| | |]; try contradiction. cbn in Hd2. subst u2. cbn in Ho, Hxw, Hyw.
        destruct (ity_eqb t t') eqn:Et; [|discriminate]. apply ity_eqb_eq in Et. subst t'. injection Ho as <-.
        cbn [const_binop] in Hc. destruct (ty_of e1) as [[t0| | |]|] eqn:Ety; try discriminate. specialize (Ht _ eq_refl). injection Ht as <-.
        apply const_binop_cmp in Hc; auto. subst c. cbn. now rewrite cmp_of_Z.
      * destruct (ceval p p e2) as [[u2|b2|f2]|]; discriminate.
      * destruct va as [|  |x|]; try contradiction. cbn in Ha. subst f1.
        destruct (ceval p p e2) as [[u2|b2|f2]|] eqn:Ec2; try discriminate. specialize (Hd2 _ _ eq_refl Hb).
        destruct vb as [| |y|]; try contradiction. cbn in Hd2. subst f2. cbn in Ho. injection Ho as <-.
        cbn in Hc. injection Hc as <-. reflexivity.
    + cbn [eval] in Hv. inv_bind Hv. apply Hd1 in E as Hd. destruct c1 as [u|b1|f1]; [destruct v0; try contradiction; discriminate| |destruct v0; try contradiction; discriminate].
      dval v0. cbn in Hd. subst b1. destruct b.
      * inv_bind Hv. dval v0. injection Hv as <-. destruct (ceval p p e2) as [c2|] eqn:Ec2; [|discriminate].
        specialize (Hd2 _ _ eq_refl E0). cbn [const_binop] in Hc. assert (c2 = c) by (destruct c2; congruence). now subst.
      * injection Hv as <-. cbn [const_binop] in Hc. assert (c = CBool false) by (destruct (ceval p p e2) as [[]|]; congruence). now subst.
    + cbn [eval] in Hv. inv_bind Hv. apply Hd1 in E as Hd. destruct c1 as [u|b1|f1]; [destruct v0; try contradiction; discriminate| |destruct v0; try contradiction; discriminate].
      dval v0. cbn in Hd. subst b1. destruct b.
      * injection Hv as <-. cbn [const_binop] in Hc. assert (c = CBool true) by (destruct (ceval p p e2) as [[]|]; congruence). now subst.
      * inv_bind Hv. dval v0. injection Hv as <-. destruct (ceval p p e2) as [c2|] eqn:Ec2; [|discriminate].
        specialize (Hd2 _ _ eq_refl E0). cbn [const_binop] in Hc. assert (c2 = c) by (destruct c2; congruence). now subst.
  - cbn [ceval eval] in *. inv_bind Hv. destruct (ceval p p ec) as [[|bc|]|] eqn:Ec; try discriminate.
    specialize (IHc _ _ eq_refl E). dval v0. cbn in IHc. subst bc. destruct b0; eauto.
Qed.
