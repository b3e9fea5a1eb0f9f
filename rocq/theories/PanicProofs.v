(** Proofs about operations that panic. *)
From Verif Require Export PanicModel PanicSpec.
From Verif Require Import RustFacts ConstSpec ConstProofs ConstTotal MaskProofs.
Open Scope Z_scope.

Lemma literal_behind_peel e : literal_behind e = match peel_unary e with ELit _ n => Some n | _ => None end.
Proof. induction e; cbn; auto. Qed.

Lemma behind_nonneg m p rho e : forall n v, literal_behind e = Some n -> eval m p rho e = Ok v -> 0 <= n.
Proof.
  induction e; intros k v L H; try discriminate.
  - cbn in *. injection L as ->. destruct (inr p t k && (0 <=? k)) eqn:E; [lia|discriminate].
  - rewrite eval_un in H. cbn [literal_behind] in L.
    assert (D : (exists t n, o = UNeg /\ e = ELit t n) \/ (do v <- eval m p rho e; un_sem m p o v) = Ok v).
    { destruct o; [destruct e; eauto|]; auto. }
    destruct D as [(t & n & -> & ->)|D].
    + cbn in L. injection L as ->. destruct (ity_signed t && inr p t (- k) && (0 <=? k)) eqn:E; [lia|discriminate].
    + inv_bind D. eauto.
Qed.

(** The number read off an operand is its bit pattern, unless operators in front of a literal were skipped. *)
Lemma literal_integer_bits p rho e n t z : literal_integer p p e = Some n -> eval Checked p rho e = Ok (VI t z) ->
  ~ misread p rho e -> n = to_bits p t z.
Proof.
  intros L H M. unfold literal_integer in L. pose proof (literal_behind_peel e) as B. pose proof (eval_VI_range _ _ _ _ _ _ H) as R.
  assert (D : literal_behind e = Some n \/ ceval p p e = Some (CInt n)).
  { rewrite B. destruct (peel_unary e); try (left; exact L); destruct (ceval p p e) as [[u| |]|]; try discriminate; right; congruence. }
  destruct D as [D|D].
  - destruct (Z.eq_dec z n) as [->|N]; [|exfalso; apply M; exists n, t, z; auto].
    symmetry. apply to_bits_nonneg_small; auto. eapply behind_nonneg; eauto.
  - now apply (ceval_sound_denotes _ _ _ _ _ _ D H).
Qed.
Lemma literal_integer_small p rho e n t z : literal_integer p p e = Some n -> eval Checked p rho e = Ok (VI t z) ->
  ~ misread p rho e -> n < 128 -> z = n.
Proof.
  intros L H M S. pose proof (literal_integer_bits _ _ _ _ _ _ L H M) as ->.
  now apply (to_bits_small_inv p t z _ (eval_VI_range _ _ _ _ _ _ H) eq_refl S).
Qed.
Lemma literal_integer_fixed p e : fixed p e \/ literal_integer p p e = None.
Proof.
  unfold fixed, literal_integer. rewrite literal_behind_peel. destruct (ceval p p e).
  - left. right. discriminate.
  - destruct (peel_unary e); auto. left. left. discriminate.
Qed.
Lemma literal_integer_is_fixed p e n : literal_integer p p e = Some n -> fixed p e.
Proof. intros H. destruct (literal_integer_fixed p e); [auto|congruence]. Qed.

(** A failing binary operation on values. *)
Lemma eval_bi_panic p rho o a b va vb : eval Checked p rho (EBin (BI o) a b) = Panic ->
  eval Checked p rho a = Ok va -> eval Checked p rho b = Ok vb ->
  exists t t' x y, va = VI t x /\ vb = VI t' y /\ int_op Checked p t o x y = Panic /\
    match o with OShl | OShr => True | _ => t' = t end.
Proof.
  intros H Ha Hb. cbn [eval] in H. rewrite Ha, Hb in H. cbn [rbind] in H.
  destruct va as [t x|x|x|t x], vb as [t' y|y|y|t' y]; try discriminate.
  - exists t, t', x, y. destruct o; try (destruct (int_op Checked p t _ x y) eqn:E; cbn in H; try discriminate; auto; fail);
    (destruct (ity_eqb t t') eqn:Et; [|discriminate]; apply ity_eqb_eq in Et; subst t');
    destruct (int_op Checked p t _ x y) eqn:E; cbn in H; try discriminate; auto.
  - destruct o; discriminate.
  - destruct (float_op o x y); discriminate.
Qed.
Lemma arith_panic p t z : arith Checked p t z = Panic -> inr p t z = false.
Proof. unfold arith. destruct (inr p t z); auto; discriminate. Qed.

Lemma max_int_num_inv p t n : max_int_num p t = Some n -> exists s, t = TI (IT false s) /\ n = imax p (IT false s).
Proof. destruct t as [[[|] s]| | |]; try discriminate. intros [= <-]. eauto. Qed.
Lemma fits_inv z r : fits128 false z = Some r -> r = z.
Proof. unfold fits128. destruct (in_u128 z); congruence. Qed.

(** The side condition on the type of the source keeps sums and products in range. *)
Lemma safe_in_range p rho o l r t x y : is_safe_due_to_smaller_source_type p p o l r = true ->
  eval Checked p rho l = Ok (VI t x) -> eval Checked p rho r = Ok (VI t y) -> ty_of l = Some (TI t) -> ~ misread p rho l ->
  (o = OAdd /\ inr p t (x + y) = true) \/ (o = OMul /\ inr p t (x * y) = true).
Proof.
  unfold is_safe_due_to_smaller_source_type. intros H Hl Hr Tl M.
  destruct (literal_integer p p l) as [num0|] eqn:L; [|discriminate].
  destruct (find_original r) as [orig|] eqn:F; [|discriminate]. cbn [obind] in H.
  destruct (max_int_num p orig) as [num1|] eqn:X; [|discriminate].
  apply max_int_num_inv in X as (s & -> & ->). destruct r; try discriminate. cbn [find_original] in F.
  pose proof (literal_integer_bits _ _ _ _ _ _ L Hl M) as ->.
  pose proof (eval_VI_range _ _ _ _ _ _ Hl) as Rx.
  cbn [eval] in Hr. apply rbind_Ok in Hr as (va & Ha & Hr).
  destruct (eval_int_ty _ _ _ _ _ _ F Ha) as (z & -> & Rz). injection Hr as <- <-.
  rewrite Tl in H.
  assert (U : ity_signed t0 = false). { destruct t0 as [[|] w]; [|reflexivity]. destruct (match o with OAdd => _ | OMul => _ | _ => None end); discriminate. }
  rewrite (to_bits_unsigned p t0 x U Rx) in H.
  assert (Bz : 0 <= z <= imax p (IT false s)) by (apply inr_iff in Rz; cbn in Rz; exact Rz).
  assert (W : 0 <= wrap p t0 z <= z).
  { unfold wrap. rewrite U. pose proof (Z.mod_pos_bound z (2 ^ bits p t0)). pose proof (pow_bits_pos p t0).
    pose proof (Z.mod_le z (2 ^ bits p t0)). lia. }
  assert (X : 0 <= x) by (apply inr_iff in Rx; unfold imin in Rx; rewrite U in Rx; lia).
  assert (C : forall q, fits128 false q = Some q -> match t0 with IT _ W8 => False | IT _ W16 => inr p u16 q = true | IT _ W32 => inr p u32 q = true
              | IT _ W64 => inr p u64 q = true | IT _ W128 => True | IT _ WSize => inr p usize q = true end -> q <= imax p t0).
  { intros q Q. destruct t0 as [[|] [ | | | | |]]; try discriminate; try tauto; try (intros I; apply inr_iff in I; exact (proj2 I)).
    unfold fits128, in_u128 in Q. destruct ((0 <=? q) && (q <? 2 ^ 128)) eqn:E; [|discriminate]. intros _. cbn -[Z.pow]. lia. }
  assert (I0 : imin p t0 = 0) by (unfold imin; now rewrite U).
  destruct o; try discriminate.
  - left. split; auto. destruct (fits128 false (x + imax p (IT false s))) as [q|] eqn:Q; [|discriminate].
    pose proof (fits_inv _ _ Q) as ->. apply inr_iff. rewrite I0. specialize (C _ Q).
    assert (x + imax p (IT false s) <= imax p t0); [|lia]. apply C. destruct t0 as [[|] [ | | | | |]]; try discriminate; auto.
  - right. split; auto. destruct (fits128 false (x * imax p (IT false s))) as [q|] eqn:Q; [|discriminate].
    pose proof (fits_inv _ _ Q) as ->. apply inr_iff. rewrite I0. specialize (C _ Q).
    assert (x * imax p (IT false s) <= imax p t0); [|nia]. apply C. destruct t0 as [[|] [ | | | | |]]; try discriminate; auto.
Qed.

Lemma known_false {A} (o : option A) : known o = false -> o = None.
Proof. destruct o; [discriminate|auto]. Qed.

Lemma ceval_no_panic p rho e t : narrow_shifts p e = true -> tyck p e = Some t -> ceval p p e <> None -> eval Checked p rho e <> Panic.
Proof.
  intros N T C. destruct (ceval p p e) as [c|] eqn:E; [|congruence].
  destruct (ceval_total Checked p rho e c t (or_intror N) T E) as (v & ->). discriminate.
Qed.
Lemma eval_local_known h p e : known (eval_local h p e) = true -> ceval h p e <> None.
Proof. unfold eval_local. destruct (all_local e); [|discriminate]. destruct (ceval h p e); [discriminate|discriminate]. Qed.

Lemma silent_no_panic p rho e t : tyck p e = Some t -> narrow_shifts p e = true -> judged e = true ->
  arithmetic_side_effects p p e = false -> ~ blind_spot p rho e -> ~ fails_here p rho e.
Proof.
  intros T N J S B (F & O). destruct e as [ | | | | |u a|[o| | |] l r| | |k l r| | | ]; try discriminate.
  - (* unary *)
    inversion O as [|? ? (v & Hv) _ ]; subst. cbn [arithmetic_side_effects manage_unary_ops] in S.
    rewrite eval_un in F.
    assert (D : (do v <- eval Checked p rho a; un_sem Checked p u v) = Panic).
    { destruct u; auto. destruct a; auto. destruct (_ && _); discriminate. }
    rewrite Hv in D. cbn [rbind] in D. destruct u; [|destruct v; discriminate].
    destruct v as [t0 z|z|z|t0 z]; try discriminate. cbn in D. destruct (int_neg Checked p t0 z) as [q| |] eqn:Q; try discriminate.
    unfold int_neg in Q. destruct (ity_signed t0) eqn:Sg; [|discriminate]. apply arith_panic in Q.
    pose proof (eval_VI_range _ _ _ _ _ _ Hv) as R. apply inr_iff in R. apply inr_false in Q.
    assert (z = imin p t0) as -> by (unfold imin, imax in *; rewrite Sg in *; lia).
    cbn [blind_spot] in B. unfold manage_unary_ops in S. destruct (known (ceval p p a)) eqn:C.
    { apply B. split; [right; intros E; rewrite E in C; discriminate|eauto]. }
    destruct (is_float_ty (ty_of a)) eqn:TF.
    { destruct (ty_of a) as [[| | |]|] eqn:Ta; try discriminate. pose proof (proj2 (eval_wf _ _ _ _ _ Hv) _ Ta). discriminate. }
    destruct (literal_integer p p a) eqn:L; [|discriminate S]. apply B. split; [eapply literal_integer_is_fixed; eauto|eauto].
  - (* binary *)
    inversion O as [|? ? (va & Ha) O1]; subst. inversion O1 as [|? ? (vb & Hb) _]; subst. clear O O1.
    destruct (eval_bi_panic _ _ _ _ _ _ _ F Ha Hb) as (ta & tb & x & y & -> & -> & P & Et).
    cbn [arithmetic_side_effects] in S. unfold manage_bin_ops in S.
    destruct (known (eval_local p p (EBin (BI o) l r))) eqn:KL.
    { apply eval_local_known in KL. eapply ceval_no_panic; eauto. }
    assert (NC : ceval p p (EBin (BI o) l r) = None).
    { destruct (ceval p p (EBin (BI o) l r)) eqn:E; auto. exfalso. refine (ceval_no_panic p rho _ _ N T _ F). congruence. }
    assert (TT : ty_of l = Some (TI ta) /\ ty_of r = Some (TI tb)).
    { cbn [tyck] in T. destruct (tyck p l) as [tl|] eqn:Tl; [|discriminate]. destruct (tyck p r) as [tr|] eqn:Tr; [|destruct tl; discriminate].
      pose proof (tyck_ty_of _ _ _ Tl) as Al. pose proof (tyck_ty_of _ _ _ Tr) as Ar.
      pose proof (proj2 (eval_wf _ _ _ _ _ Ha) _ Al) as <-. pose proof (proj2 (eval_wf _ _ _ _ _ Hb) _ Ar) as <-. auto. }
    destruct TT as (Tl & Tr). rewrite Tl, Tr in S. cbn [is_float_ty is_int_ty andb] in S.
    pose proof (eval_VI_range _ _ _ _ _ _ Ha) as Rx. pose proof (eval_VI_range _ _ _ _ _ _ Hb) as Ry.
    assert (SH : match o with OShl | OShr | OAnd | OOr | OXor => False | _ => True end).
    { destruct o; try exact I; try discriminate; try (apply B; exact I). }
    assert (B1 : ~ (fixed p l /\ fixed p r)) by (intros (? & ?); apply B; destruct o; try contradiction; cbn; left; auto).
    assert (tb = ta) as -> by (destruct o; try contradiction; auto).
    assert (ML : match o with OAdd | OSub | OMul => ~ misread p rho l /\ ~ misread p rho r | _ => True end).
    { destruct o; try exact I; (split; intros M; apply B; cbn; right; auto). }
    destruct (is_safe_due_to_smaller_source_type p p o l r) eqn:S1.
    { assert (o = OAdd \/ o = OMul) as OO by (unfold is_safe_due_to_smaller_source_type in S1; destruct (literal_integer p p l); [|discriminate]; destruct (obind _ _); [|discriminate]; destruct o; auto; discriminate).
      assert (M : ~ misread p rho l) by (destruct OO as [-> | ->]; apply ML).
      destruct (safe_in_range _ _ _ _ _ _ _ _ S1 Ha Hb Tl M) as [(-> & Q)|(-> & Q)]; cbn [int_op] in P; apply arith_panic in P; congruence. }
    destruct (is_safe_due_to_smaller_source_type p p o r l) eqn:S2.
    { assert (o = OAdd \/ o = OMul) as OO by (unfold is_safe_due_to_smaller_source_type in S2; destruct (literal_integer p p r); [|discriminate]; destruct (obind _ _); [|discriminate]; destruct o; auto; discriminate).
      assert (M : ~ misread p rho r) by (destruct OO as [-> | ->]; apply ML).
      destruct (safe_in_range _ _ _ _ _ _ _ _ S2 Hb Ha Tr M) as [(-> & Q)|(-> & Q)]; cbn [int_op] in P; apply arith_panic in P; [rewrite Z.add_comm in P|rewrite Z.mul_comm in P]; congruence. }
    cbn [orb] in S.
    destruct (literal_integer p p l) as [n|] eqn:Ll; destruct (literal_integer p p r) as [n'|] eqn:Lr.
    + apply B1. split; eapply literal_integer_is_fixed; eauto.
    + destruct o; try contradiction; try discriminate; cbn [int_op] in P; apply arith_panic in P; destruct ML as (M1 & M2).
      * assert (n = 0) by lia. subst n. assert (x = 0) as -> by (eapply literal_integer_small; eauto; lia). cbn in P. congruence.
      * assert (n = 0) by lia. subst n. assert (x = 0) as -> by (eapply literal_integer_small; eauto; lia). apply B. cbn. right. left. eauto.
      * assert (n = 0 \/ n = 1) as Q by lia. assert (x = n) as -> by (eapply literal_integer_small; eauto; lia).
        destruct Q as [-> | ->]; [rewrite Z.mul_0_l in P|rewrite Z.mul_1_l in P]; [rewrite inr_small in P by lia; discriminate|congruence].
    + destruct o; try contradiction; try discriminate; cbn [int_op] in P.
      * apply arith_panic in P; destruct ML as (M1 & M2).
        assert (n' = 0) by lia. subst n'. assert (y = 0) as -> by (eapply literal_integer_small; eauto; lia). rewrite Z.add_0_r in P. congruence.
      * apply arith_panic in P; destruct ML as (M1 & M2).
        assert (n' = 0) by lia. subst n'. assert (y = 0) as -> by (eapply literal_integer_small; eauto; lia). rewrite Z.sub_0_r in P. congruence.
      * apply arith_panic in P; destruct ML as (M1 & M2).
        assert (n' = 0 \/ n' = 1) as Q by lia. assert (y = n') as -> by (eapply literal_integer_small; eauto; lia).
        destruct Q as [-> | ->]; [rewrite Z.mul_0_r in P|rewrite Z.mul_1_r in P]; [rewrite inr_small in P by lia; discriminate|congruence].
      * assert (Y : y <> -1) by (intros ->; apply B; cbn; right; left; eauto).
        destruct (Z.eqb_spec y 0) as [->|Y0].
        -- assert (M : ~ misread p rho r) by (intros M; apply B; cbn; right; right; eauto).
           pose proof (literal_integer_bits _ _ _ _ _ _ Lr Hb M) as Q. rewrite to_bits_0 in Q. lia.
        -- rewrite quot_range in P; auto; [discriminate|lia].
      * assert (Y : y <> -1) by (intros ->; apply B; cbn; right; left; eauto).
        destruct (Z.eqb_spec y 0) as [->|Y0].
        -- assert (M : ~ misread p rho r) by (intros M; apply B; cbn; right; right; eauto).
           pose proof (literal_integer_bits _ _ _ _ _ _ Lr Hb M) as Q. rewrite to_bits_0 in Q. lia.
        -- rewrite quot_range in P; auto; [discriminate|lia].
    + destruct o; try contradiction; discriminate.
  - (* method *)
    inversion O as [|? ? (va & Ha) O1]; subst. inversion O1 as [|? ? (vb & Hb) _]; subst. clear O O1.
    destruct k; try discriminate. cbn [eval] in F. rewrite Ha, Hb in F. cbn [rbind] in F.
    destruct va as [t0 x|x|x|t0 x]; try discriminate; destruct vb as [t1 y|y|y|t1 y]; try discriminate.
    cbn [sem1] in F. destruct (ity_eqb t0 t1); [|discriminate F]. destruct (y =? 0) eqn:Y; [|discriminate F]. apply Z.eqb_eq in Y. subst y.
    cbn [arithmetic_side_effects] in S. unfold manage_method_call in S. cbn [blind_spot] in B.
    destruct (known (eval_local p p l)) eqn:K. { apply B. left. right. now apply eval_local_known. }
    assert (Tl : ty_of l = Some (TI t0)).
    { cbn [tyck] in T. destruct (tyck p l) as [tl|] eqn:Tl; [|discriminate].
      pose proof (tyck_ty_of _ _ _ Tl) as Al. now pose proof (proj2 (eval_wf _ _ _ _ _ Ha) _ Al) as <-. }
    rewrite Tl in S. cbn in S. destruct (literal_integer p p r) as [n|] eqn:L; [|discriminate].
    assert (M : ~ misread p rho r) by tauto. pose proof (literal_integer_bits _ _ _ _ _ _ L Hb M) as Q. rewrite to_bits_0 in Q. lia.
Qed.
