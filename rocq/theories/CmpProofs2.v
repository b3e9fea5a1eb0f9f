(** Proofs about identity_op, erasing_op, const_comparisons, double_comparisons, int_plus_one. *)
From Coq Require Import SpecFloat.
From Verif Require Import RustFacts ConstProofs ConstMore LintSpec CmpModel RotateProofs ArithProofs ArithProofs2 ConstSpec MaskProofs MaskProofs2 CmpSpec CmpProofs FloatFacts.
Open Scope Z_scope.

Lemma redundant_0 m p rho e t z : is_redundant_op p e 0 = true -> eval m p rho e = Ok (VI t z) -> z = 0.
Proof.
  unfold is_redundant_op. intros H Hv. destruct (eval_local p p e) as [[u| |]|] eqn:E; try discriminate.
  destruct (ty_of e) as [[]|]; try discriminate. cbn in H. apply Z.eqb_eq in H. subst u.
  pose proof (local_const_denotes _ _ _ _ _ _ _ E Hv) as D. apply (to_bits_0_inv p t); auto. now apply eval_VI_range in Hv.
Qed.
Lemma redundant_1 m p rho e t z : is_redundant_op p e 1 = true -> eval m p rho e = Ok (VI t z) -> z = 1.
Proof.
  unfold is_redundant_op. intros H Hv. destruct (eval_local p p e) as [[u| |]|] eqn:E; try discriminate.
  destruct (ty_of e) as [[]|]; try discriminate. cbn in H. apply Z.eqb_eq in H. subst u.
  pose proof (local_const_denotes _ _ _ _ _ _ _ E Hv) as D. apply (to_bits_inj p t).
  - now apply eval_VI_range in Hv.
  - apply inr_small; lia.
  - rewrite <- D. symmetry. apply to_bits_nonneg_small; [lia|apply inr_small; lia].
Qed.
Lemma all_ones p t z x : inr p t z = true -> inr p t x = true -> to_bits p t z = to_bits p t (-1) -> Z.land z x = x.
Proof.
  intros Rz Rx H. destruct (ity_signed t) eqn:Es.
  - assert (z = -1) as ->; [|apply Z.land_m1_l]. apply (to_bits_inj p t); auto.
    apply inr_iff. unfold imin, imax. rewrite Es. pose proof (half_pos p t). lia.
  - rewrite to_bits_unsigned in H by auto. subst z. unfold to_bits.
    pose proof (pow_bits_pos p t). pose proof (bits_pos p t).
    replace ((-1) mod 2 ^ bits p t) with (2 ^ bits p t - 1).
    + rewrite Z.land_comm, land_mask by lia. apply Z.mod_small. now apply unsigned_range.
    + apply (Z.mod_unique_pos _ _ (-1)); lia.
Qed.
Lemma redundant_m1 m p rho e t z x : is_redundant_op p e (-1) = true -> eval m p rho e = Ok (VI t z) -> inr p t x = true -> Z.land z x = x.
Proof.
  unfold is_redundant_op. intros H Hv Rx. destruct (eval_local p p e) as [[u| |]|] eqn:E; try discriminate.
  destruct (eval_wf _ _ _ _ _ Hv) as [Rz Ht]. cbn in Rz.
  destruct (ty_of e) as [[t'| | |]|]; try discriminate. specialize (Ht _ eq_refl). cbn in Ht. injection Ht as <-. cbn [Z.eqb Pos.eqb] in H.
  pose proof (local_const_denotes _ _ _ _ _ _ _ E Hv) as D. apply (all_ones p t); auto. rewrite <- D.
  apply Z.eqb_eq in H. rewrite H. destruct (ity_signed t).
  - apply unsext_to_bits.
  - rewrite clip_mod. unfold to_bits. rewrite (pow_split p t).
    replace (2 ^ bits p t * 2 ^ (128 - bits p t) - 1) with (-1 + 2 ^ (128 - bits p t) * 2 ^ bits p t) by lia.
    apply Z.mod_add. pose proof (pow_bits_pos p t). lia.
Qed.

Lemma redundant_rem_sound m p rho l r t x y : redundant_rem p l r = true ->
  eval m p rho l = Ok (VI t x) -> eval m p rho r = Ok (VI t y) -> x <> - 2 ^ 127 -> Z.abs x < Z.abs y.
Proof.
  unfold redundant_rem. intros H Hl Hr N. destruct (eval_full_int p p l) as [fl|] eqn:El; [|discriminate].
  destruct (eval_full_int p p r) as [fr|] eqn:Er; [|destruct fl; discriminate].
  pose proof (eval_full_int_sound _ _ _ _ _ _ _ El Hl) as S1. pose proof (eval_full_int_sound _ _ _ _ _ _ _ Er Hr) as S2.
  pose proof (eval_full_int_wf _ _ _ _ _ _ _ El Hl) as W1. pose proof (eval_full_int_wf _ _ _ _ _ _ _ Er Hr) as W2.
  destruct fl, fr; try discriminate; cbn in S1, S2, W1, W2; subst.
  - unfold abs128 in H. rewrite (i128w_id (Z.abs x)) in H by (unfold in_i128; lia).
    destruct (Z.eq_dec y (- 2 ^ 127)) as [->|]; [exfalso; vm_compute (i128w _) in H; lia|].
    rewrite i128w_id in H by (unfold in_i128; lia). lia.
  - lia.
Qed.

Lemma identity_op_sound m p rho e e' : identity_op p e = Some e' ->
  (forall l r, e = EBin (BI ORem) l r -> forall t, eval m p rho l <> Ok (VI t (- 2 ^ 127))) -> preserves m p rho e e'.
Proof.
  destruct e as [| | | | | |[o| | |] l r| | | | | |]; cbn [identity_op]; try discriminate. intros H HR v Hv.
  destruct (identity_allowed p o l r) eqn:A; [|discriminate]. cbn [negb] in H.
  unfold identity_allowed in A. apply andb_prop in A as [A _]. apply andb_prop in A as [Al Ar].
  apply is_int_inv in Al as [t Tl].
  destruct (eval_bi_int_inv _ _ _ _ _ _ _ _ Tl Hv) as (t' & x & y & z & El & Er & Rx & Ry & -> & Hop & E).
  assert (S0 : forall a b, is_redundant_op p a b = true -> True) by auto. clear S0.
  destruct o; cbn [int_op] in Hop; subst;
  repeat match goal with
  | H : (if is_redundant_op ?p ?e ?k then _ else _) = Some _ |- _ => let Q := fresh "Q" in destruct (is_redundant_op p e k) eqn:Q
  | H : (if redundant_rem ?p ?l ?r then _ else _) = Some _ |- _ => let Q := fresh "Q" in destruct (redundant_rem p l r) eqn:Q
  end; try discriminate; apply Some_inj in H; subst e';
  repeat match goal with
  | Q : is_redundant_op _ ?e 0 = true, E : eval _ _ _ ?e = Ok (VI _ ?z) |- _ => apply (redundant_0 _ _ _ _ _ _ Q) in E as W; clear Q; subst
  | Q : is_redundant_op _ ?e 1 = true, E : eval _ _ _ ?e = Ok (VI _ ?z) |- _ => apply (redundant_1 _ _ _ _ _ _ Q) in E as W; clear Q; subst
  end; try (rewrite ?Z.add_0_l, ?Z.add_0_r, ?Z.sub_0_r, ?Z.mul_1_l, ?Z.mul_1_r, arith_in in Hop by auto; injection Hop as <-; assumption).
  - (* div *) cbn [Z.eqb] in Hop. rewrite Z.quot_1_r, Rx in Hop. injection Hop as <-. assumption.
  - (* rem *)
    destruct (Z.eqb_spec y 0); [discriminate|]. destruct (inr p t (x ÷ y)); [|discriminate]. injection Hop as <-.
    rewrite (proj2 (Z.rem_small_iff x y n)); [assumption|].
    apply (redundant_rem_sound _ _ _ _ _ _ _ _ Q El Er). intros ->. exact (HR _ _ eq_refl t El).
  - injection Hop as <-. rewrite (redundant_m1 _ _ _ _ _ _ _ Q El Ry). assumption.
  - injection Hop as <-. rewrite Z.land_comm, (redundant_m1 _ _ _ _ _ _ _ Q0 Er Rx). assumption.
  - injection Hop as <-. rewrite ?Z.lor_0_l. assumption.
  - injection Hop as <-. rewrite Z.lor_0_r. assumption.
  - injection Hop as <-. rewrite ?Z.lxor_0_l. assumption.
  - injection Hop as <-. rewrite Z.lxor_0_r. assumption.
  - destruct (Z.ltb_spec 0 (bits p t)); [|pose proof (bits_pos p t); lia]. cbn in Hop. rewrite Z.mul_1_r, wrap_id in Hop by auto. injection Hop as <-. assumption.
  - destruct (Z.ltb_spec 0 (bits p t)); [|pose proof (bits_pos p t); lia]. cbn in Hop. rewrite Z.div_1_r in Hop. injection Hop as <-. assumption.
Qed.

(** ** erasing_op *)
Lemma erasing_side_0 m p rho a b c v : erasing_side p a b c = true -> eval m p rho a = Ok v -> exists t, v = VI t 0.
Proof.
  unfold erasing_side. intros H Hv. destruct (eval_local p p a) as [[u| |]|] eqn:E; try discriminate.
  apply andb_prop in H as [H _]. apply Z.eqb_eq in H. subst u.
  unfold eval_local in E. destruct (all_local a); [|discriminate].
  pose proof (ceval_sound_denotes _ _ _ _ _ _ E Hv) as D. destruct v as [t z| | |]; cbn in D; try contradiction.
  exists t. f_equal. apply (to_bits_0_inv p t); auto. now apply eval_VI_range in Hv.
Qed.
Lemma erasing_op_sound m p rho e v : erasing_op p e = true -> eval m p rho e = Ok v -> exists t, v = VI t 0.
Proof.
  destruct e as [| | | | | |[o| | |] l r| | | | | |]; cbn [erasing_op]; try discriminate. intros H Hv.
  apply eval_bi_inv in Hv as [(t & t' & x & y & z & El & Er & -> & Hop & E)|[(x & y & z & El & Er & -> & E)|(x & y & z & El & Er & -> & E)]].
  - assert (Z0 : forall a b c t z, erasing_side p a b c = true -> eval m p rho a = Ok (VI t z) -> z = 0).
    { intros a b c ta za Ha Hz. destruct (erasing_side_0 _ _ _ _ _ _ _ Ha Hz) as [? Q]. congruence. }
    exists t. f_equal. destruct o; try discriminate; cbn [int_op] in Hop.
    + assert (x * y = 0) as M by (apply orb_prop in H as [H|H]; [rewrite (Z0 _ _ _ _ _ H El)|rewrite (Z0 _ _ _ _ _ H Er)]; lia).
      rewrite M in Hop. rewrite arith_in in Hop by (apply inr_small; lia). now injection Hop.
    + rewrite (Z0 _ _ _ _ _ H El) in Hop. destruct (Z.eqb_spec y 0); [discriminate|].
      rewrite Z.quot_0_l in Hop by auto. destruct (inr p t 0); [|discriminate]. now injection Hop.
    + apply orb_prop in H as [H|H]; [rewrite (Z0 _ _ _ _ _ H El), Z.land_0_l in Hop|rewrite (Z0 _ _ _ _ _ H Er), Z.land_0_r in Hop]; now injection Hop.
  - exfalso. destruct o; try discriminate; try contradiction.
    apply orb_prop in H as [H|H]; [destruct (erasing_side_0 _ _ _ _ _ _ _ H El)|destruct (erasing_side_0 _ _ _ _ _ _ _ H Er)]; discriminate.
  - exfalso. destruct o; try discriminate.
    + apply orb_prop in H as [H|H]; [destruct (erasing_side_0 _ _ _ _ _ _ _ H El)|destruct (erasing_side_0 _ _ _ _ _ _ _ H Er)]; discriminate.
    + destruct (erasing_side_0 _ _ _ _ _ _ _ H El); discriminate.
Qed.

(** ** const_comparisons *)
Definition vcmp (a b : val) : option comparison := if vnan a || vnan b then None else Some (lex3 (rank3 a) (rank3 b)).
Lemma to_const_sound m p rho e c x k t w : comparison_to_const p e = Some (c, x, k, t) -> eval m p rho e = Ok w ->
  exists vx vk, eval m p rho x = Ok vx /\ denotes p k vk /\ val_wf p vk = true /\ is_ord c = true /\ val_ty vx = val_ty vk /\
    (forall ty, t = Some ty -> val_ty vk = ty) /\ w = VB (cmp_of c (vcmp vx vk)).
Proof.
  destruct e as [| | | | | |[|c0| |] l r| | | | | |]; cbn [comparison_to_const]; try discriminate. intros H Hw.
  destruct (is_ord c0) eqn:O; [|discriminate]. apply eval_cmp_inv in Hw as (vl & vr & o & El & Er & Ho & ->).
  destruct (eval_wf _ _ _ _ _ El) as [Wl Tl]. destruct (eval_wf _ _ _ _ _ Er) as [Wr Tr].
  destruct (ceval p p l) as [kl|] eqn:Cl, (ceval p p r) as [kr|] eqn:Cr; try discriminate.
  - apply Some_inj in H. injection H as <- <- <- <-. pose proof (ceval_sound_denotes _ _ _ _ _ _ Cl El) as D.
    apply val_cmp_rank3 in Ho as [-> Ty]; auto. exists vr, vl. repeat split; auto.
    + destruct c0; auto.
    + f_equal. unfold vcmp. rewrite (orb_comm (vnan vr)). destruct (vnan vl || vnan vr); [destruct c0; try discriminate; reflexivity|].
      rewrite (lex3_antisym (rank3 vl)). destruct c0; try discriminate; destruct (lex3 _ _); reflexivity.
  - apply Some_inj in H. injection H as <- <- <- <-. pose proof (ceval_sound_denotes _ _ _ _ _ _ Cr Er) as D.
    apply val_cmp_rank3 in Ho as [-> Ty]; auto. exists vl, vr. repeat split; auto.
Qed.

Lemma const_partial_cmp_rank p t lk rk vl vr o : denotes p lk vl -> denotes p rk vr -> val_wf p vl = true -> val_wf p vr = true ->
  val_ty vl = t -> val_ty vr = t -> const_partial_cmp p t lk rk = Some o -> vcmp vl vr = Some o.
Proof.
  intros Dl Dr Wl Wr Tl Tr H. destruct vl as [tl x|x|x|], vr as [tr y|y|y|]; try (subst; discriminate);
    try (destruct lk; contradiction); try (destruct rk; contradiction).
  - cbn in Tl, Tr. assert (tr = tl) by congruence. subst. rewrite (const_partial_cmp_int p tl x y) in H; auto. rewrite <- H.
    cbn. destruct (x ?= y); reflexivity.
  - rewrite (const_partial_cmp_bool p t x y) in H; auto. rewrite <- H. destruct x, y; reflexivity.
  - destruct lk; try contradiction. destruct rk; try contradiction. cbn in Dl, Dr. subst. cbn [const_partial_cmp] in H.
    unfold vcmp. cbn [vnan rank3]. rewrite <- H. symmetry. apply SFcompare_key.
Qed.

Lemma and_inv m p rho a b v : eval m p rho (EBin BAnd a b) = Ok v ->
  (eval m p rho a = Ok (VB false) /\ v = VB false) \/ (eval m p rho a = Ok (VB true) /\ exists x, eval m p rho b = Ok (VB x) /\ v = VB x).
Proof.
  cbn [eval]. intros H. apply rbind_Ok in H as (va & Ea & H). destruct va as [|[]| |]; try discriminate.
  - right. split; auto. apply rbind_Ok in H as (vb & Eb & H). destruct vb; try discriminate. injection H as <-. eauto.
  - left. injection H as <-. auto.
Qed.
Lemma or_inv m p rho a b v : eval m p rho (EBin BOr a b) = Ok v ->
  (eval m p rho a = Ok (VB true) /\ v = VB true) \/ (eval m p rho a = Ok (VB false) /\ exists x, eval m p rho b = Ok (VB x) /\ v = VB x).
Proof.
  cbn [eval]. intros H. apply rbind_Ok in H as (va & Ea & H). destruct va as [|[]| |]; try discriminate.
  - left. injection H as <-. auto.
  - right. split; auto. apply rbind_Ok in H as (vb & Eb & H). destruct vb; try discriminate. injection H as <-. eauto.
Qed.

Lemma const_comparisons_sound m p rho e k v : const_comparisons p e = Some k -> eval m p rho e = Ok v ->
  exists lc rc, e = EBin BAnd lc rc /\ const_claim m p rho lc rc k v.
Proof.
  destruct e as [| | | | | |[| | |] lc rc| | | | | |]; cbn [const_comparisons]; try discriminate. intros H Hv.
  exists lc, rc. split; [reflexivity|].
  destruct (comparison_to_const p lc) as [[[[lop le] lk] lt]|] eqn:El; [|discriminate].
  destruct (comparison_to_const p rc) as [[[[rop re] rk] rt]|] eqn:Er; [|discriminate].
  destruct lt as [t|]; [|discriminate]. destruct (oty_eqb (Some t) rt && expr_eqb le re) eqn:Q; [|discriminate].
  apply andb_prop in Q as [Qt Qe]. apply expr_eqb_eq in Qe. subst re.
  destruct rt as [t'|]; [|discriminate]. cbn in Qt. apply ty_eqb_eq in Qt. subst t'.
  destruct (const_partial_cmp p t lk rk) as [ord|] eqn:Ep; [|discriminate].
  assert (K : forall bl br, eval m p rho lc = Ok (VB bl) -> eval m p rho rc = Ok (VB br) ->
     match k with LeftUseless => br = true -> bl = true | RightUseless => bl = true -> br = true | Impossible => bl = true -> br = true -> False end).
  { intros bl br Hl Hr.
    destruct (to_const_sound _ _ _ _ _ _ _ _ _ El Hl) as (vx & k1 & Ex & D1 & W1 & O1 & T1 & Y1 & E1).
    destruct (to_const_sound _ _ _ _ _ _ _ _ _ Er Hr) as (vx' & k2 & Ex' & D2 & W2 & O2 & T2 & Y2 & E2).
    rewrite Ex in Ex'. injection Ex' as <-. injection E1 as ->. injection E2 as ->.
    pose proof (const_partial_cmp_rank p t lk rk k1 k2 ord D1 D2 W1 W2 (Y1 _ eq_refl) (Y2 _ eq_refl) Ep) as Eo.
    unfold vcmp in *. destruct (vnan k1) eqn:N1; [discriminate|]. destruct (vnan k2) eqn:N2; [discriminate|]. cbn in Eo. apply Some_inj in Eo.
    rewrite !orb_false_r. destruct (vnan vx).
    { destruct lop; try discriminate O1; destruct rop; try discriminate O2; cbn; destruct k; intros; discriminate. }
    destruct (rank3 vx) as [[x1 x2] x3], (rank3 k1) as [[a1 a2] a3], (rank3 k2) as [[b1 b2] b3]. clear - H O1 O2 Eo.
    assert (Gx : forall c a b, cmp_of c (Some (lex3 a b)) = true <-> match c with
      CLt => lex_lt a b | CGt => lex_lt b a | CLe => ~ lex_lt b a | CGe => ~ lex_lt a b | CEq => a = b | CNe => a <> b end).
    { intros c a b. pose proof (lex3_Lt a b). pose proof (lex3_Gt a b). pose proof (lex3_Eq a b). destruct c, (lex3 a b); cbn; intuition discriminate. }
    assert (Gk : forall P Q : bool, (k = LeftUseless -> Q = true -> P = true) -> (k = RightUseless -> P = true -> Q = true) ->
      (k = Impossible -> P = true -> Q = true -> False) ->
      match k with LeftUseless => Q = true -> P = true | RightUseless => P = true -> Q = true | Impossible => P = true -> Q = true -> False end).
    { intros P Q. destruct k; auto. }
    apply Gk; rewrite !Gx; intros ->; revert H; destruct ord; [apply lex3_Eq in Eo; injection Eo as <- <- <-|apply lex3_Lt in Eo|apply lex3_Gt in Eo|
       apply lex3_Eq in Eo; injection Eo as <- <- <-|apply lex3_Lt in Eo|apply lex3_Gt in Eo|apply lex3_Eq in Eo; injection Eo as <- <- <-|apply lex3_Lt in Eo|apply lex3_Gt in Eo];
     destruct lop; try discriminate O1; destruct rop; try discriminate O2; cbn in *; intros H; try discriminate H; lia. }
  apply and_inv in Hv as [(Hl & ->)|(Hl & x & Hr & ->)]; destruct k; cbn [const_claim]; auto.
  - intros w Hw. assert (exists b, w = VB b) as [b ->].
    { destruct (to_const_sound _ _ _ _ _ _ _ _ _ Er Hw) as (? & ? & ? & ? & ? & ? & ? & ? & ->). eauto. }
    f_equal. specialize (K _ _ Hl Hw). destruct b; auto. discriminate (K eq_refl).
  - intros w Hw. congruence.
  - specialize (K _ _ Hl Hr eq_refl). now subst.
  - specialize (K _ _ Hl Hr). cbn in K. destruct x; auto. exfalso. auto.
Qed.

(** ** double_comparisons *)
Lemma double_comparison_sound m p rho e e' : double_comparison e = Some e' ->
  (match e' with EBin (BC CNe) l _ => ty_of l <> None /\ ty_of l <> Some TF | _ => True end) -> preserves m p rho e e'.
Proof.
  destruct e as [| | | | | |o lc rc| | | | | |]; try discriminate.
  destruct lc as [| | | | | |[|a| |] l1 r1| | | | | |]; try discriminate. destruct rc as [| | | | | |[|b| |] l2 r2| | | | | |]; try discriminate.
  cbn [double_comparison]. destruct (expr_eqb l1 l2 && expr_eqb r1 r2) eqn:Q; [|discriminate].
  apply andb_prop in Q as [Q1 Q2]. apply expr_eqb_eq in Q1, Q2. subst l2 r2.
  destruct (double_table o a b) as [c|] eqn:Et; [|discriminate]. cbn [option_map]. intros H Hn v Hv. apply Some_inj in H. subst e'.
  assert (exists vl vr oc, eval m p rho l1 = Ok vl /\ eval m p rho r1 = Ok vr /\ val_cmp vl vr = Ok oc /\
     ((o = BAnd /\ v = VB (cmp_of a oc && cmp_of b oc)) \/ (o = BOr /\ v = VB (cmp_of a oc || cmp_of b oc)))) as (vl & vr & oc & El & Er & Ho & Hc).
  { destruct o; try (destruct a, b; discriminate).
    - apply and_inv in Hv as [(Hl & ->)|(Hl & x & Hr & ->)].
      + apply eval_cmp_inv in Hl as (vl & vr & oc & El & Er & Ho & E). injection E as E. exists vl, vr, oc. rewrite <- E. auto 6.
      + apply eval_cmp_inv in Hl as (vl & vr & oc & El & Er & Ho & E). injection E as E.
        apply eval_cmp_inv in Hr as (vl' & vr' & oc' & El' & Er' & Ho' & E'). injection E' as ->.
        rewrite El in El'. injection El' as <-. rewrite Er in Er'. injection Er' as <-. rewrite Ho in Ho'. injection Ho' as <-.
        exists vl, vr, oc. rewrite <- E. auto 6.
    - apply or_inv in Hv as [(Hl & ->)|(Hl & x & Hr & ->)].
      + apply eval_cmp_inv in Hl as (vl & vr & oc & El & Er & Ho & E). injection E as E. exists vl, vr, oc. rewrite <- E. auto 6.
      + apply eval_cmp_inv in Hl as (vl & vr & oc & El & Er & Ho & E). injection E as E.
        apply eval_cmp_inv in Hr as (vl' & vr' & oc' & El' & Er' & Ho' & E'). injection E' as ->.
        rewrite El in El'. injection El' as <-. rewrite Er in Er'. injection Er' as <-. rewrite Ho in Ho'. injection Ho' as <-.
        exists vl, vr, oc. rewrite <- E. auto 6. }
  cbn [eval]. rewrite El, Er. cbn [rbind]. rewrite Ho. cbn [rbind]. 
  assert (N : c = CNe -> oc <> None).
  { intros ->. destruct Hn as [Hn1 Hn2]. destruct (eval_wf _ _ _ _ _ El) as [_ Ty]. destruct (ty_of l1) as [tl|]; [|tauto].
    specialize (Ty _ eq_refl). apply val_cmp_rank in Ho as [-> _]; [discriminate|]. intros f ->. cbn in Ty. congruence. }
  destruct Hc as [(-> & ->)|(-> & ->)]; destruct a, b; try discriminate Et; apply Some_inj in Et; subst c; destruct oc as [[]|]; try reflexivity; now destruct N.
Qed.

(** ** int_plus_one *)
Lemma lit_one_val m p rho e t z : lit_one e = true -> eval m p rho e = Ok (VI t z) -> z = 1.
Proof. destruct e; try discriminate. cbn [lit_one]. intros H Hv. apply Z.eqb_eq in H. subst. apply eval_lit_inv in Hv as [E _]. congruence. Qed.
Lemma lit_neg_one_val m p rho e t z : lit_neg_one e = true -> eval m p rho e = Ok (VI t z) -> z = -1.
Proof.
  destruct e as [| | | | |[] e| | | | | | |]; try discriminate. destruct e; try discriminate. cbn [lit_neg_one lit_one]. intros H Hv. apply Z.eqb_eq in H. subst.
  cbn in Hv. destruct (_ && _); [|discriminate]. congruence.
Qed.
Lemma lit_one_int m p rho e v : lit_one e = true -> eval m p rho e = Ok v -> exists t, v = VI t 1.
Proof. destruct e; try discriminate. cbn [lit_one]. intros H Hv. apply Z.eqb_eq in H. subst. apply eval_lit_inv in Hv as [-> _]. eauto. Qed.
Lemma lit_neg_one_int m p rho e v : lit_neg_one e = true -> eval m p rho e = Ok v -> exists t, v = VI t (-1).
Proof.
  destruct e as [| | | | |[] e| | | | | | |]; try discriminate. destruct e; try discriminate. cbn [lit_neg_one lit_one]. intros H Hv. apply Z.eqb_eq in H. subst.
  cbn in Hv. destruct (_ && _); [|discriminate]. injection Hv as <-. eauto.
Qed.
Lemma plus_one_val p rho e x v : as_x_plus_one e = Some x -> eval Checked p rho e = Ok v ->
  exists t z, eval Checked p rho x = Ok (VI t z) /\ v = VI t (z + 1).
Proof.
  destruct e as [| | | | | |[[]| | |] l r| | | | | |]; try discriminate. cbn [as_x_plus_one]. intros H Hv.
  apply eval_bi_inv in Hv as [(t & t' & a & b & z & El & Er & -> & Hop & ->)|[(? & ? & ? & _ & _ & _ & [])|(? & ? & ? & El & Er & _ & _)]].
  2:{ exfalso. destruct (lit_one r) eqn:Lr; [destruct (lit_one_int _ _ _ _ _ Lr Er); discriminate|]. destruct (lit_one l) eqn:Ll; [destruct (lit_one_int _ _ _ _ _ Ll El); discriminate|discriminate]. }
  cbn in Hop. apply checked_arith in Hop. subst z.
  destruct (lit_one r) eqn:Lr.
  - apply Some_inj in H. subst. apply (lit_one_val _ _ _ _ _ _ Lr) in Er as W. subst. eauto.
  - destruct (lit_one l) eqn:Ll; [|discriminate]. apply Some_inj in H. subst. apply (lit_one_val _ _ _ _ _ _ Ll) in El as W. subst.
    exists t, b. split; auto. f_equal. lia.
Qed.
Lemma minus_one_val p rho e x v : as_x_minus_one e = Some x -> eval Checked p rho e = Ok v ->
  exists t z, eval Checked p rho x = Ok (VI t z) /\ v = VI t (z - 1).
Proof.
  destruct e as [| | | | | |[[]| | |] l r| | | | | |]; try discriminate; cbn [as_x_minus_one]; intros H Hv;
  apply eval_bi_inv in Hv as [(t & t' & a & b & z & El & Er & -> & Hop & ->)|[(? & ? & ? & _ & _ & _ & [])|(? & ? & ? & El & Er & _ & _)]];
  try (cbn in Hop; apply checked_arith in Hop; subst z).
  - destruct (lit_neg_one l) eqn:Ll; [|discriminate]. apply Some_inj in H. subst. apply (lit_neg_one_val _ _ _ _ _ _ Ll) in El as W. subst.
    exists t, b. split; auto. f_equal. lia.
  - exfalso. destruct (lit_neg_one l) eqn:Ll; [|discriminate]. destruct (lit_neg_one_int _ _ _ _ _ Ll El); discriminate.
  - destruct (lit_one r) eqn:Lr; [|discriminate]. apply Some_inj in H. subst. apply (lit_one_val _ _ _ _ _ _ Lr) in Er as W. subst. eauto.
  - exfalso. destruct (lit_one r) eqn:Lr; [|discriminate]. destruct (lit_one_int _ _ _ _ _ Lr Er); discriminate.
Qed.

Lemma int_plus_one_sound p rho e e' : int_plus_one e = Some e' -> preserves Checked p rho e e'.
Proof.
  destruct e as [| | | | | |[|[]| |] l r| | | | | |]; try discriminate; cbn [int_plus_one]; intros H v Hv;
  apply eval_cmp_inv in Hv as (vl & vr & o & El & Er & Ho & ->).
  - destruct (as_x_plus_one l) as [l'|] eqn:A.
    + apply Some_inj in H. subst e'. destruct (plus_one_val _ _ _ _ _ A El) as (t & z & Ez & ->).
      destruct vr as [t' y| | |]; try discriminate. cbn in Ho. destruct (ity_eqb t t') eqn:Q; [|discriminate]. apply ity_eqb_eq in Q. subst t'. injection Ho as <-.
      rewrite cmp_of_Z, (eval_cmp_int _ _ _ _ _ _ _ _ _ Ez Er). cbn. do 2 f_equal. destruct (Z.ltb_spec z y), (Z.leb_spec (z + 1) y); auto; lia.
    + destruct (as_x_minus_one r) as [r'|] eqn:B; [|discriminate]. apply Some_inj in H. subst e'. destruct (minus_one_val _ _ _ _ _ B Er) as (t & z & Ez & ->).
      destruct vl as [t' y| | |]; try discriminate. cbn in Ho. destruct (ity_eqb t' t) eqn:Q; [|discriminate]. apply ity_eqb_eq in Q. subst t'. injection Ho as <-.
      rewrite cmp_of_Z, (eval_cmp_int _ _ _ _ _ _ _ _ _ El Ez). cbn. do 2 f_equal. destruct (Z.ltb_spec y z), (Z.leb_spec y (z - 1)); auto; lia.
  - destruct (as_x_minus_one l) as [l'|] eqn:A.
    + apply Some_inj in H. subst e'. destruct (minus_one_val _ _ _ _ _ A El) as (t & z & Ez & ->).
      destruct vr as [t' y| | |]; try discriminate. cbn in Ho. destruct (ity_eqb t t') eqn:Q; [|discriminate]. apply ity_eqb_eq in Q. subst t'. injection Ho as <-.
      rewrite cmp_of_Z, (eval_cmp_int _ _ _ _ _ _ _ _ _ Ez Er). cbn. do 2 f_equal. destruct (Z.ltb_spec y z), (Z.leb_spec y (z - 1)); auto; lia.
    + destruct (as_x_plus_one r) as [r'|] eqn:B; [|discriminate]. apply Some_inj in H. subst e'. destruct (plus_one_val _ _ _ _ _ B Er) as (t & z & Ez & ->).
      destruct vl as [t' y| | |]; try discriminate. cbn in Ho. destruct (ity_eqb t' t) eqn:Q; [|discriminate]. apply ity_eqb_eq in Q. subst t'. injection Ho as <-.
      rewrite cmp_of_Z, (eval_cmp_int _ _ _ _ _ _ _ _ _ El Ez). cbn. do 2 f_equal. destruct (Z.ltb_spec z y), (Z.leb_spec (z + 1) y); auto; lia.
Qed.
