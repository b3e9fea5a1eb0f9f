From Coq Require Import ZifyBool.
From Verif Require Export ArithProofs.
Open Scope Z_scope.

(** ** abs_diff *)
Lemma abs_diff_eval m p rho a b t x y : eval m p rho a = Ok (VI t x) -> eval m p rho b = Ok (VI t y) ->
  eval m p rho (EM1 MAbsDiff a b) = Ok (VI (unsigned_of t) (Z.abs (x - y))).
Proof. intros Ha Hb. cbn [eval]. rewrite Ha, Hb. cbn [rbind sem1]. now rewrite ity_eqb_refl. Qed.

Lemma unsigned_of_id t : ity_signed t = false -> unsigned_of t = t.
Proof. destruct t as [[] s]; [discriminate|reflexivity]. Qed.

Lemma is_sub_expr_eval m p rho e a b t x y v : is_sub_expr e a b t = true ->
  eval m p rho a = Ok (VI t x) -> eval m p rho b = Ok (VI t y) -> y <= x ->
  eval m p rho e = Ok v -> v = VI (unsigned_of t) (x - y).
Proof.
  intros H Ha Hb Hle Hv.
  assert (Plain : forall e0 v0, is_plain_sub e0 a b = true -> eval m p rho e0 = Ok v0 -> exists r, v0 = VI t r /\ arith m p t (x - y) = Ok r).
  { intros e0 v0 H0 Hv0. destruct e0 as [| | | | | |o l r| | | | | |]; try discriminate. destruct o as [[]| | |]; try discriminate.
    cbn in H0. apply andb_prop in H0 as [E1 E2]. apply expr_eqb_eq in E1, E2. subst l r.
    apply eval_bi_inv in Hv0 as [(t1 & t' & x0 & y0 & r & H1 & H2 & -> & Hop & _)|[(x0 & y0 & r & H1 & _)|(x0 & y0 & r & H1 & _)]].
    - rewrite Ha in H1. rewrite Hb in H2. injection H1 as <- <-. injection H2 as <- <-. eauto.
    - rewrite Ha in H1. discriminate.
    - rewrite Ha in H1. discriminate. }
  pose proof (eval_VI_range _ _ _ _ _ _ Ha) as Ra. pose proof (eval_VI_range _ _ _ _ _ _ Hb) as Rb.
  pose proof Ra as Ra'. pose proof Rb as Rb'. apply inr_iff in Ra', Rb'. pose proof (imax_imin p t).
  unfold is_sub_expr in H. destruct (ity_signed t) eqn:Hs.
  - destruct e as [| | | | | | |e0 ct| | | | |]; try discriminate. apply andb_prop in H as [E H]. apply ity_eqb_eq in E. subst ct.
    cbn [eval] in Hv. inv_bind Hv. destruct (Plain _ _ H E) as (r & -> & Hr). injection Hv as <-. f_equal.
    apply arith_Ok in Hr as [-> _].
    assert (Hr2 : inr p (unsigned_of t) (x - y) = true).
    { apply inr_iff. unfold imin, imax. rewrite bits_unsigned_of. destruct t; cbn. lia. }
    transitivity (wrap p (unsigned_of t) (x - y)); [|now apply wrap_id]. apply wrap_eqmod. rewrite bits_unsigned_of. apply wrap_mod.
  - destruct (Plain _ _ H Hv) as (r & -> & Hr). rewrite unsigned_of_id by auto.
    rewrite arith_in in Hr. { now injection Hr as <-. }
    apply inr_iff. unfold imin, imax in *. rewrite Hs in *. lia.
Qed.

Lemma manual_abs_diff_sound unsuf m p rho e e' : manual_abs_diff unsuf e = Some e' -> preserves m p rho e e'.
Proof.
  intros H v Hv. destruct e as [| | | | | | | | | | |cnd th el|]; try discriminate. destruct cnd as [| | | | | |o r l| | | | | |]; try discriminate.
  destruct o as [|c| |]; try discriminate. cbn [manual_abs_diff] in H.
  set (ab := match c with CGt | CGe => Some (r, l) | CLt | CLe => Some (l, r) | _ => None end) in H.
  assert (Hab : exists a b, ab = Some (a, b) /\ ((c = CGt \/ c = CGe) /\ a = r /\ b = l \/ (c = CLt \/ c = CLe) /\ a = l /\ b = r)).
  { subst ab. destruct c; try discriminate; [exists l, r|exists l, r|exists r, l|exists r, l]; (split; [reflexivity|tauto]). }
  destruct Hab as (a & b & -> & Hab).
  destruct (ty_of a) as [[ta| | |]|] eqn:Ta; try discriminate. destruct (ty_of b) as [[tb| | |]|] eqn:Tb; try discriminate.
  destruct (ity_eqb ta tb) eqn:Et; [|discriminate]. apply ity_eqb_eq in Et. subst tb.
  destruct (is_sub_expr th a b ta) eqn:S1; [|discriminate]. destruct (is_sub_expr el b a ta) eqn:S2; [|discriminate]. cbn [andb] in H.
  cbn [eval] in Hv. inv_bind Hv. change (eval m p rho (EBin (BC c) r l) = Ok v0) in E.
  assert (Htr : ty_of r = Some (TI ta)) by (destruct Hab as [(_ & -> & ->)|(_ & -> & ->)]; auto).
  destruct (eval_cmp_int_inv _ _ _ _ _ _ _ _ Htr E) as (xr & xl & Hr & Hl & ->).
  assert (Hev : exists x y, eval m p rho a = Ok (VI ta x) /\ eval m p rho b = Ok (VI ta y) /\
     (cmp_op c xr xl = true -> y <= x) /\ (cmp_op c xr xl = false -> x <= y)).
  { destruct Hab as [(Hc & -> & ->)|(Hc & -> & ->)]; [exists xr, xl|exists xl, xr]; (split; [auto|split; [auto|]]);
      destruct Hc as [-> | ->]; cbn; lia. }
  destruct Hev as (x & y & Ha & Hb & L1 & L2).
  assert (Hres : v = VI (unsigned_of ta) (Z.abs (x - y))).
  { destruct (cmp_op c xr xl).
    - rewrite (is_sub_expr_eval _ _ _ _ _ _ _ _ _ _ S1 Ha Hb (L1 eq_refl) Hv). f_equal. specialize (L1 eq_refl). lia.
    - rewrite (is_sub_expr_eval _ _ _ _ _ _ _ _ _ _ S2 Hb Ha (L2 eq_refl) Hv). f_equal. specialize (L2 eq_refl). lia. }
  subst v. destruct (unsuf a && negb (unsuf b)); injection H as <-.
  - rewrite (abs_diff_eval _ _ _ _ _ _ _ _ Hb Ha). do 2 f_equal. lia.
  - apply (abs_diff_eval _ _ _ _ _ _ _ _ Ha Hb).
Qed.

(** ** rem_euclid *)
Lemma eval_full_int_sound m p rho e fi t z : eval_full_int p p e = Some fi -> eval m p rho e = Ok (VI t z) -> fi_val fi = z.
Proof.
  intros H Hv. unfold eval_full_int, eval_local in H. destruct (all_local e); [|discriminate].
  destruct (ceval p p e) as [c|] eqn:Ec; [|discriminate]. cbn in H.
  pose proof (ceval_sound_denotes _ _ _ _ _ _ Ec Hv) as Hd. pose proof (eval_wf _ _ _ _ _ Hv) as [Hw Ht].
  destruct (ty_of e) as [ty0|] eqn:Ety; [|destruct c; discriminate]. specialize (Ht _ eq_refl). cbn in Ht. subst ty0.
  eapply int_value_sound; eauto.
Qed.
Lemma unsigned_const_sound m p rho e c t z : unsigned_int_constant p p e = Some c -> eval m p rho e = Ok (VI t z) -> z = c /\ (ity_signed t = true \/ ity_signed t = false -> 0 <= c).
Proof.
  unfold unsigned_int_constant. intros H Hv. destruct (eval_full_int p p e) as [fi|] eqn:E; [|discriminate].
  pose proof (eval_full_int_sound _ _ _ _ _ _ _ E Hv) as Hf. destruct fi as [s|u]; cbn in Hf; subst.
  - destruct (Z.leb_spec 0 z); [|discriminate]. injection H as <-. auto.
  - injection H as <-. split; [auto|]. intros _. unfold eval_full_int, eval_local in E. destruct (all_local e); [|discriminate].
    destruct (ceval p p e) as [cst|] eqn:Ec; [|discriminate]. cbn in E. destruct cst; [|discriminate|discriminate]. cbn in E.
    destruct (ty_of e) as [[t0| | |]|] eqn:Ety; try discriminate. pose proof (eval_wf _ _ _ _ _ Hv) as [Hw Ht]. specialize (Ht _ Ety). injection Ht as <-.
    destruct (ity_signed t) eqn:Hs; [discriminate|]. pose proof (unsigned_range _ _ _ Hs Hw). lia.
Qed.

Lemma rem_euclid_core x c : 0 < c -> Z.rem (Z.rem x c + c) c = x mod c.
Proof.
  intros Hc. pose proof (Z.rem_bound_abs x c ltac:(lia)). rewrite Z.rem_mod_nonneg by lia.
  replace (Z.rem x c + c) with (Z.rem x c + 1 * c) by lia. rewrite Z.mod_add by lia.
  rewrite (Z.rem_eq x c) by lia. replace (x - c * (x ÷ c)) with (x + (- (x ÷ c)) * c) by lia. apply Z.mod_add. lia.
Qed.

Lemma manual_rem_euclid_sound p rho e e' : manual_rem_euclid p p e = Some e' -> preserves Checked p rho e e'.
Proof.
  intros H v Hv. destruct e as [| | | | | |o add rr| | | | | |]; try discriminate. destruct o as [[]| | |]; try discriminate.
  destruct add as [| | | | | |o al ar| | | | | |]; try discriminate. destruct o as [[]| | |]; try discriminate. cbn [manual_rem_euclid] in H.
  destruct (unsigned_int_constant p p rr) as [c1|] eqn:C1; [|discriminate].
  destruct (either_unsigned_int_constant p p al ar) as [[c2 oth]|] eqn:C2; [|discriminate].
  destruct oth as [| | | | | |o x r2| | | | | |]; try discriminate. destruct o as [[]| | |]; try discriminate.
  destruct x as [| | |[t| | |] xv| | | | | | | | |]; try discriminate.
  destruct (unsigned_int_constant p p r2) as [c3|] eqn:C3; [|discriminate].
  destruct (Z.eqb_spec c1 c2) as [<-|]; [|discriminate]. destruct (Z.eqb_spec c1 c3) as [<-|]; [|discriminate]. cbn [andb] in H. injection H as <-.
  set (X := EVar (TI t) xv) in *.
  apply eval_bi_inv in Hv as [(t1 & t' & s & c & r & Hs & Hc & -> & Hop & Et)|[(? & ? & ? & Hs & _)|(? & ? & ? & Hs & _ & _ & Hf)]].
  2:{ exfalso. apply eval_bi_inv in Hs as [(? & ? & ? & ? & ? & _ & _ & E & _)|[(? & ? & ? & _ & _ & _ & E)|(? & ? & ? & _ & _ & E & _)]]; [discriminate|intuition discriminate|discriminate]. }
  2:{ exfalso. discriminate Hf. }
  cbn in Et. subst t'. pose proof (unsigned_const_sound _ _ _ _ _ _ _ C1 Hc) as [-> Hc0].
  assert (H0c : 0 <= c1) by (apply Hc0; destruct (ity_signed t1); auto).
  apply bin_inv_v in Hs as (u & w & Hu & Hw & Ru & Rw & Hadd); [|split; discriminate].
  assert (HX : exists q, eval Checked p rho (EBin (BI ORem) X r2) = Ok (VI t1 q) /\ arith Checked p t1 (q + c1) = Ok s).
  { unfold either_unsigned_int_constant in C2. destruct (unsigned_int_constant p p al) as [ca|] eqn:Ca.
    - injection C2 as -> <-. pose proof (unsigned_const_sound _ _ _ _ _ _ _ Ca Hu) as [-> _]. exists w. split; [exact Hw|]. rewrite Z.add_comm. exact Hadd.
    - destruct (unsigned_int_constant p p ar) as [ca|] eqn:Cb; [|discriminate]. injection C2 as -> <-.
      pose proof (unsigned_const_sound _ _ _ _ _ _ _ Cb Hw) as [-> _]. exists u. split; [exact Hu|]. exact Hadd. }
  destruct HX as (q & HX & Harith). apply bin_inv_v in HX as (z & d & Hz & Hd & Rz & Rd & Hrem); [|split; discriminate].
  pose proof (unsigned_const_sound _ _ _ _ _ _ _ C3 Hd) as [-> _].
  assert (t1 = t). { pose proof (eval_wf _ _ _ _ _ Hz) as [_ Hty]. specialize (Hty _ eq_refl). now injection Hty. } subst t1.
  unfold int_op in Hrem, Hop. destruct (Z.eqb_spec c1 0); [discriminate|].
  destruct (inr p t (z ÷ c1)) eqn:Rq; [|discriminate]. injection Hrem as <-. destruct (inr p t (s ÷ c1)) eqn:Rq'; [|discriminate]. injection Hop as <-.
  apply checked_arith in Harith. subst s.
  cbn [eval]. fold (eval Checked p rho X). change (if ty_eqb (val_ty (rho xv)) (TI t) && val_wf p (rho xv) then Ok (rho xv) else Stuck) with (eval Checked p rho X).
  rewrite Hz, Rd. cbn [andb]. destruct (Z.leb_spec 0 c1); [|lia]. cbn [rbind sem1]. rewrite ity_eqb_refl. destruct (Z.eqb_spec c1 0); [lia|].
  rewrite Rq. do 2 f_equal. unfold zrem_euclid. rewrite Z.abs_eq by lia. symmetry. apply rem_euclid_core. lia.
Qed.

(** ** is_multiple_of *)
Lemma zero_const_sound m p rho e t z : is_zero_const p p e = true -> eval m p rho e = Ok (VI t z) -> z = 0.
Proof.
  unfold is_zero_const, integer_const, eval_local. destruct (all_local e); [|discriminate]. destruct (ceval p p e) as [[u| |]|] eqn:E; try discriminate.
  destruct u; try discriminate. intros _ Hv. pose proof (ceval_sound_denotes _ _ _ _ _ _ E Hv) as Hd. cbn in Hd.
  rewrite <- (of_to_bits p t z) by (eapply eval_VI_range; eauto). rewrite <- Hd. unfold of_bits. apply wrap_id. apply inr_small. lia.
Qed.

Lemma manual_is_multiple_of_sound m p rho e e' : manual_is_multiple_of p p e = Some e' -> preserves m p rho e e'.
Proof.
  intros H v Hv. destruct e as [| | | | | |o l r| | | | | |]; try discriminate. destruct o as [|c| |]; try discriminate. cbn [manual_is_multiple_of] in H.
  destruct (uint_compare_to_zero p p c l r) as [q|] eqn:Eq; [|discriminate].
  destruct q as [| | | | | |o x y| | | | | |]; try discriminate. destruct o as [[]| | |]; try discriminate.
  destruct (is_uint (ty_of x)) eqn:Ux; [|discriminate]. destruct (is_uint (ty_of y)) eqn:Uy; [|discriminate]. cbn [andb] in H.
  apply is_uint_inv in Ux as (t & Tx & Hs). clear Uy.
  set (Q := EBin (BI ORem) x y) in *. assert (TQ : ty_of Q = Some (TI t)) by exact Tx.
  assert (Hside : exists q, eval m p rho Q = Ok (VI t q) /\ v = VB (match c with CEq => q =? 0 | _ => negb (q =? 0) end)).
  { unfold uint_compare_to_zero in Eq.
    destruct (is_binary l && match c with CEq | CNe | CGt => true | _ => false end && is_zero_const p p r) eqn:B1.
    - destruct (is_uint (ty_of l)); [|discriminate]. injection Eq as ->.
      destruct (eval_cmp_int_inv _ _ _ _ _ _ _ _ TQ Hv) as (q & z & Hq & Hz & ->).
      assert (Z0 : is_zero_const p p r = true) by (now destruct (is_zero_const p p r); [|rewrite andb_false_r in B1]).
      rewrite (zero_const_sound _ _ _ _ _ _ Z0 Hz). exists q. split; [auto|].
      pose proof (unsigned_range _ _ _ Hs (eval_VI_range _ _ _ _ _ _ Hq)). destruct c; try (rewrite andb_false_r in B1; discriminate); cbn; f_equal; lia.
    - destruct (is_binary r && match c with CEq | CNe | CLt => true | _ => false end && is_zero_const p p l) eqn:B2; [|discriminate].
      destruct (is_uint (ty_of r)); [|discriminate]. injection Eq as ->.
      apply eval_cmp_inv in Hv as (va & vb & oc & Ha & Hb & Hoc & ->). destruct (eval_int_ty _ _ _ _ _ _ TQ Hb) as (q & -> & Rq).
      assert (Z0 : is_zero_const p p l = true) by (now destruct (is_zero_const p p l); [|rewrite andb_false_r in B2]).
      destruct va as [t2 z| | |]; try discriminate. cbn in Hoc. destruct (ity_eqb t2 t); [|discriminate]. injection Hoc as <-. rewrite cmp_of_Z.
      rewrite (zero_const_sound _ _ _ _ _ _ Z0 Ha). exists q. split; [auto|].
      pose proof (unsigned_range _ _ _ Hs Rq). destruct c; try (rewrite andb_false_r in B2; discriminate); cbn; f_equal; lia. }
  destruct Hside as (q & Hq & ->).
  apply bin_inv_v in Hq as (a & b & Ha & Hb & Ra & Rb & Hop); [|split; discriminate].
  pose proof (unsigned_range _ _ _ Hs Ra). pose proof (unsigned_range _ _ _ Hs Rb).
  unfold int_op in Hop. destruct (Z.eqb_spec b 0); [discriminate|]. destruct (inr p t (a ÷ b)); [|discriminate]. injection Hop as <-.
  rewrite Z.rem_mod_nonneg by lia.
  assert (HM : eval m p rho (EM1 MIsMultipleOf x y) = Ok (VB (a mod b =? 0))).
  { cbn [eval]. rewrite Ha, Hb. cbn [rbind sem1]. rewrite ity_eqb_refl, Hs. destruct (Z.eqb_spec b 0); [lia|]. reflexivity. }
  destruct c; injection H as <-; try exact HM; rewrite eval_un, HM; reflexivity.
Qed.

(** ** isolate_lowest_one *)
Lemma land_opp_odd k o : 0 <= k -> Z.land (2 ^ k * (2 * o + 1)) (- (2 ^ k * (2 * o + 1))) = 2 ^ k.
Proof.
  intros Hk. pose proof (p2_pos k Hk).
  replace (- (2 ^ k * (2 * o + 1))) with ((2 * (- o - 1) + 1) * 2 ^ k) by ring.
  rewrite (Z.mul_comm (2 ^ k)), <- !Z.shiftl_mul_pow2, <- Z.shiftl_land by lia.
  replace (Z.land (2 * o + 1) (2 * (- o - 1) + 1)) with 1; [rewrite Z.shiftl_mul_pow2 by lia; lia|].
  symmetry. apply Z.bits_inj'. intros i Hi. rewrite Z.land_spec. destruct (Z.eq_dec i 0) as [->|].
  - rewrite !Z.testbit_odd_0. reflexivity.
  - assert (B1 : Z.testbit 1 i = false) by (replace i with (Z.succ (i - 1)) by lia; change 1 with (2 * 0 + 1) at 1; rewrite Z.testbit_odd_succ by lia; apply Z.bits_0).
    rewrite B1. replace i with (Z.succ (i - 1)) by lia. rewrite !Z.testbit_odd_succ by lia.
    replace (- o - 1) with (Z.lnot o) by (unfold Z.lnot; lia). rewrite Z.lnot_spec by lia. apply andb_negb_r.
Qed.

Lemma z_decomp z : z <> 0 -> exists k o, 0 <= k /\ z = 2 ^ k * (2 * o + 1).
Proof.
  intros Hz. destruct z as [|q|q]; [congruence| |].
  - destruct (pos_ctz_spec q) as (o & E & H & _). eauto.
  - destruct (pos_ctz_spec q) as (o & E & H & _). exists (pos_ctz q), (- o - 1). split; [auto|]. change (Z.neg q) with (- Zpos q). rewrite E. ring.
Qed.
Lemma decomp_unique k o k' o' : 0 <= k -> 0 <= k' -> 2 ^ k * (2 * o + 1) = 2 ^ k' * (2 * o' + 1) -> k = k'.
Proof.
  intros H1 H2 E.
  assert (W : forall a b x y, 0 <= a -> a < b -> 2 ^ a * (2 * x + 1) = 2 ^ b * (2 * y + 1) -> False).
  { intros a b x y Ha Hab Eq. replace b with (a + (1 + (b - a - 1))) in Eq by lia. rewrite !Z.pow_add_r in Eq by lia. pose proof (p2_pos a Ha).
    assert (2 * x + 1 = 2 ^ 1 * 2 ^ (b - a - 1) * (2 * y + 1)) by nia. rewrite Z.pow_1_r in *. lia. }
  destruct (Z.lt_trichotomy k k') as [L|[L|L]]; [exfalso; eauto|auto|exfalso; eapply W; [| |symmetry; exact E]; eauto].
Qed.
Lemma lowest_one_spec k o : 0 <= k -> 0 <= o -> lowest_one (2 ^ k * (2 * o + 1)) = 2 ^ k.
Proof.
  intros Hk Ho. pose proof (p2_pos k Hk). assert (0 < 2 ^ k * (2 * o + 1)) by nia.
  destruct (2 ^ k * (2 * o + 1)) as [|q|q] eqn:E; try lia. cbn. destruct (pos_ctz_spec q) as (o' & E' & H' & _). f_equal.
  symmetry. apply (decomp_unique k o (pos_ctz q) o'); lia.
Qed.

Lemma isolate_core p t z : inr p t z = true ->
  Z.land z (wrap p t (- z)) = of_bits p t (lowest_one (to_bits p t z)).
Proof.
  intros Hz. destruct (Z.eq_dec z 0) as [->|Hz0].
  { cbn [Z.opp]. rewrite Z.land_0_l. unfold to_bits. rewrite Zmod_0_l. cbn. unfold of_bits. symmetry. apply wrap_id. apply inr_small. lia. }
  destruct (z_decomp z Hz0) as (k & o & Hk & E). set (w := bits p t) in *. pose proof (bits_pos p t) as Hw. fold w in Hw.
  pose proof (p2_pos k Hk) as P.
  assert (Hkw : k < w).
  { apply inr_iff in Hz. unfold imin, imax in Hz. fold w in Hz. pose proof (half_double p t) as HD. fold w in HD. pose proof (half_pos p t) as HP. fold w in HP.
    apply (Z.pow_lt_mono_r_iff 2); [lia|lia|]. assert (2 ^ k <= Z.abs z) by (rewrite E, Z.abs_mul, Z.abs_eq by lia; nia). destruct (ity_signed t); lia. }
  assert (L : lowest_one (to_bits p t z) = 2 ^ k).
  { unfold to_bits. fold w. rewrite E. replace (2 ^ w) with (2 ^ k * 2 ^ (w - k)) by (rewrite <- Z.pow_add_r by lia; f_equal; lia).
    pose proof (p2_pos (w - k) ltac:(lia)). rewrite Z.mul_mod_distr_l by lia.
    replace (2 ^ (w - k)) with (2 * 2 ^ (w - k - 1)) by (rewrite <- Z.pow_succ_r by lia; f_equal; lia).
    pose proof (p2_pos (w - k - 1) ltac:(lia)).
    replace ((2 * o + 1) mod (2 * 2 ^ (w - k - 1))) with (2 * (o mod 2 ^ (w - k - 1)) + 1).
    { apply lowest_one_spec; [lia|]. apply Z.mod_pos_bound. lia. }
    symmetry. symmetry. apply (Z.mod_unique_pos _ _ (o / 2 ^ (w - k - 1))).
    - pose proof (Z.mod_pos_bound o (2 ^ (w - k - 1))). lia.
    - pose proof (Z.div_mod o (2 ^ (w - k - 1)) ltac:(lia)). lia. }
  rewrite L. unfold of_bits. symmetry. 
  destruct (wrap_cong p t (- z)) as [c Hc]. fold w in Hc.
  rewrite <- (wrap_id p t (Z.land z (wrap p t (- z)))) by (apply land_range; [auto|apply wrap_range]).
  apply wrap_eqmod. fold w. rewrite <- !Z.land_ones by lia. rewrite <- Z.land_assoc. rewrite (Z.land_ones (wrap p t (- z))) by lia.
  unfold w. rewrite wrap_mod. fold w. rewrite <- Z.land_ones by lia. rewrite Z.land_assoc. rewrite E at 1 2. now rewrite land_opp_odd.
Qed.

Lemma isolate_eval m p rho b t z : eval m p rho b = Ok (VI t z) ->
  eval m p rho (EM0 MIsolateLowestOne b) = Ok (VI t (Z.land z (wrap p t (- z)))).
Proof. intros H. cbn [eval]. rewrite H. cbn [rbind sem0]. rewrite isolate_core; [reflexivity|]. eapply eval_VI_range; eauto. Qed.

Lemma manual_isolate_sound m p rho e e' : manual_isolate_lowest_one e = Some e' -> preserves m p rho e e'.
Proof.
  intros H v Hv. destruct e as [| | | | | |o l r| | | | | |]; try discriminate. destruct o as [[]| | |]; try discriminate. cbn [manual_isolate_lowest_one] in H.
  assert (G : forall b ng, (l = b /\ r = ng \/ l = ng /\ r = b) -> (exists t, ty_of b = Some (TI t)) ->
     (forall t z w, eval m p rho b = Ok (VI t z) -> eval m p rho ng = Ok w -> w = VI t (wrap p t (- z))) ->
     eval m p rho (EM0 MIsolateLowestOne b) = Ok v).
  { intros b ng Hlr [t Tb] Hng.
    apply eval_bi_inv in Hv as [(t1 & t' & x & y & q & Hl & Hr & -> & Hop & Et)|[(x & y & q & Hl & Hr & _)|(x & y & q & Hl & Hr & _ & Hf)]].
    - cbn in Et. subst t'. cbn in Hop. injection Hop as <-. destruct Hlr as [[-> ->]|[-> ->]].
      + rewrite (isolate_eval _ _ _ _ _ _ Hl). specialize (Hng _ _ _ Hl Hr). injection Hng as ->. reflexivity.
      + rewrite (isolate_eval _ _ _ _ _ _ Hr). specialize (Hng _ _ _ Hr Hl). injection Hng as ->. now rewrite Z.land_comm.
    - exfalso. destruct Hlr as [[-> ->]|[-> ->]]; [destruct (eval_int_ty _ _ _ _ _ _ Tb Hl) as (z & E & _)|destruct (eval_int_ty _ _ _ _ _ _ Tb Hr) as (z & E & _)]; discriminate.
    - discriminate Hf. }
  assert (GW : forall b ng b', matching_wrapping_neg b ng = Some b' -> b' = b /\ forall t z w, eval m p rho b = Ok (VI t z) -> eval m p rho ng = Ok w -> w = VI t (wrap p t (- z))).
  { intros b ng b' Hm. destruct ng; try discriminate. destruct m0; try discriminate. cbn in Hm. unfold same_local in Hm.
    destruct (is_local b); [|discriminate]. destruct (expr_eqb b ng) eqn:E; [|discriminate]. apply expr_eqb_eq in E. subst ng. injection Hm as <-. split; [auto|].
    intros t z w Hb Hw. cbn [eval] in Hw. rewrite Hb in Hw. cbn in Hw. now injection Hw as <-. }
  assert (GN : forall b ng b', matching_neg b ng = Some b' -> b' = b /\ forall t z w, eval m p rho b = Ok (VI t z) -> eval m p rho ng = Ok w -> w = VI t (wrap p t (- z))).
  { intros b ng b' Hm. destruct ng as [| | | | |u ng| | | | | | |]; try discriminate. destruct u; try discriminate. cbn in Hm. unfold same_local in Hm.
    destruct (is_local b) eqn:Lb; [|discriminate]. destruct (expr_eqb b ng) eqn:E; [|discriminate]. apply expr_eqb_eq in E. subst ng. injection Hm as <-. split; [auto|].
    intros t z w Hb Hw. rewrite eval_un in Hw. destruct b; try discriminate. rewrite Hb in Hw. cbn in Hw. unfold int_neg in Hw.
    destruct (ity_signed t); [|discriminate]. inv_bind Hw. injection Hw as <-. match goal with A : arith _ _ _ _ = Ok _ |- _ => apply arith_Ok in A as [-> _] end. reflexivity. }
  destruct (matching_wrapping_neg l r) as [b|] eqn:W1.
  { cbn in H. destruct (GW _ _ _ W1) as [-> Hn]. destruct (is_int (ty_of l)) eqn:I; [|discriminate]. injection H as <-. apply (G l r); auto. now apply is_int_inv. }
  destruct (matching_wrapping_neg r l) as [b|] eqn:W2.
  { cbn in H. destruct (GW _ _ _ W2) as [-> Hn]. destruct (is_int (ty_of r)) eqn:I; [|discriminate]. injection H as <-. apply (G r l); auto. now apply is_int_inv. }
  cbn [orelse] in H. destruct (matching_neg l r) as [b|] eqn:N1.
  { cbn in H. destruct (GN _ _ _ N1) as [-> Hn]. destruct (is_sint (ty_of l)) eqn:I; [|discriminate]. injection H as <-. apply is_sint_inv in I as (t & I & _). apply (G l r); eauto. }
  cbn [orelse] in H. destruct (matching_neg r l) as [b|] eqn:N2; [|discriminate].
  destruct (GN _ _ _ N2) as [-> Hn]. destruct (is_sint (ty_of r)) eqn:I; [|discriminate]. injection H as <-. apply is_sint_inv in I as (t & I & _). apply (G r l); eauto.
Qed.

(** ** midpoint *)
Lemma manual_midpoint_sound p rho e e' : manual_midpoint e = Some e' -> preserves Checked p rho e e'.
Proof.
  intros H v Hv. unfold manual_midpoint in H.
  destruct e as [| | | | | |o l r| | | | | |]; try discriminate.
  assert (Hsel : exists req, (o = BI ODiv /\ is_int_lit r 2 = true /\ req = false \/ o = BI OShr /\ is_int_lit r 1 = true /\ req = true) /\
    match add_operands l with
      | Some (a, b) =>
          match add_operands a, add_operands b, ty_of a, ty_of b with
          | None, None, Some (TI ta), Some (TI tb) =>
              if ity_eqb ta tb && (negb req || negb (ity_signed ta)) && negb (is_int_lit a 1) && negb (is_int_lit b 1)
              then Some (EM1 MMidpoint a b) else None
          | _, _, _, _ => None
          end
      | None => None
      end = Some e').
  { destruct o as [[]| | |]; try discriminate.
    - destruct (is_int_lit r 2) eqn:E; [|discriminate]. exists false. auto.
    - destruct (is_int_lit r 1) eqn:E; [|discriminate]. exists true. auto. }
  clear H. destruct Hsel as (req & Ho & H).
  destruct (add_operands l) as [[a b]|] eqn:Al; [|discriminate]. destruct (add_operands a); [discriminate|]. destruct (add_operands b); [discriminate|].
  destruct (ty_of a) as [[ta| | |]|] eqn:Ta; try discriminate. destruct (ty_of b) as [[tb| | |]|] eqn:Tb; try discriminate.
  destruct (ity_eqb ta tb) eqn:Et; [|discriminate]. apply ity_eqb_eq in Et. subst tb.
  destruct (negb req || negb (ity_signed ta)) eqn:Er; [|discriminate]. destruct (negb (is_int_lit a 1)); [|discriminate]. destruct (negb (is_int_lit b 1)); [|discriminate].
  cbn [andb] in H. injection H as <-. destruct l as [| | | | | |lo la lb| | | | | |]; try discriminate. destruct lo as [[]| | |]; try discriminate. injection Al as -> ->.
  assert (Tl : ty_of (EBin (BI OAdd) a b) = Some (TI ta)) by exact Ta.
  destruct Ho as [(-> & El & ->)|(-> & El & ->)]; apply is_int_lit_inv in El as [tl ->].
  - apply (bin_inv _ _ _ _ _ _ ta) in Hv; [|exact Tl|split; discriminate]. destruct Hv as (s & two & q & Hs & H2 & _ & _ & -> & Hop).
    apply eval_lit_inv in H2 as [E _]. injection E as _ ->. apply bin_inv_v in Hs as (x & y & Hx & Hy & _ & _ & Hadd); [|split; discriminate].
    apply checked_arith in Hadd. subst s. cbn [eval]. rewrite Hx, Hy. cbn [rbind sem1]. rewrite ity_eqb_refl. unfold int_op in Hop.
    change (2 =? 0) with false in Hop. cbn iota in Hop. destruct (inr p ta ((x + y) ÷ 2)); [|discriminate]. now injection Hop as <-.
  - apply (eval_bi_int_inv _ _ _ _ _ _ ta) in Hv; [|exact Tl]. destruct Hv as (t' & s & one & q & Hs & H1 & Rs & _ & -> & Hop & _).
    apply eval_lit_inv in H1 as [E _]. injection E as _ ->. apply bin_inv_v in Hs as (x & y & Hx & Hy & _ & _ & Hadd); [|split; discriminate].
    apply checked_arith in Hadd. subst s. cbn [eval]. rewrite Hx, Hy. cbn [rbind sem1]. rewrite ity_eqb_refl.
    cbn in Er. apply negb_true_iff in Er. pose proof (unsigned_range _ _ _ Er Rs). pose proof (bits_ge8 p ta). unfold int_op in Hop.
    destruct ((0 <=? 1) && (1 <? bits p ta)) eqn:B; [|lia]. injection Hop as <-. change (2 ^ 1) with 2. now rewrite Z.quot_div_nonneg by lia.
Qed.
