From Coq Require Import ZifyBool.
From Verif Require Export ArithModel ConstMore LintSpec.
Open Scope Z_scope.

Lemma is_int_lit_inv e n : is_int_lit e n = true -> exists t, e = ELit t n.
Proof. destruct e; try discriminate. cbn. intros H. apply Z.eqb_eq in H. subst. eauto. Qed.
Lemma eval_lit_inv m p rho t n v : eval m p rho (ELit t n) = Ok v -> v = VI t n /\ 0 <= n /\ inr p t n = true.
Proof. cbn. destruct (inr p t n && (0 <=? n)) eqn:E; [|discriminate]. intros [= <-]. split; [reflexivity|]. apply andb_prop in E as [E1 E2]. split; [lia|auto]. Qed.
Lemma is_uint_inv o : is_uint o = true -> exists t, o = Some (TI t) /\ ity_signed t = false.
Proof. destruct o as [[]|]; try discriminate. cbn. intros. exists t. split; [auto|]. now destruct (ity_signed t). Qed.
Lemma is_sint_inv o : is_sint o = true -> exists t, o = Some (TI t) /\ ity_signed t = true.
Proof. destruct o as [[]|]; try discriminate. cbn. eauto. Qed.
Lemma is_int_inv o : is_int o = true -> exists t, o = Some (TI t).
Proof. destruct o as [[]|]; try discriminate. eauto. Qed.
Lemma unsigned_range p t z : ity_signed t = false -> inr p t z = true -> 0 <= z < 2 ^ bits p t.
Proof. intros Hs H. apply inr_iff in H. unfold imin, imax in H. rewrite Hs in H. lia. Qed.
Lemma eval_neg_unsigned m p rho e t v : ty_of e = Some (TI t) -> ity_signed t = false -> eval m p rho (EUn UNeg e) = Ok v -> False.
Proof.
  intros Ht Hs H. rewrite eval_un in H.
  assert (forall r, rbind (eval m p rho e) (un_sem m p UNeg) = Ok r -> False).
  { intros r Hr. destruct (eval m p rho e) as [w| |] eqn:E; try discriminate. cbn [rbind] in Hr.
    destruct (eval_int_ty _ _ _ _ _ _ Ht E) as (z & -> & _). cbn in Hr. unfold int_neg in Hr. rewrite Hs in Hr. discriminate. }
  destruct e; try (now apply (H0 _ H)). cbn in Ht. injection Ht as ->. rewrite Hs in H. discriminate.
Qed.

(** Inversion of an arithmetic operation (not a shift) with a known result type. *)
Lemma bin_inv m p rho o a b t v : ty_of a = Some (TI t) -> (o <> OShl /\ o <> OShr) ->
  eval m p rho (EBin (BI o) a b) = Ok v ->
  exists x y r, eval m p rho a = Ok (VI t x) /\ eval m p rho b = Ok (VI t y) /\ inr p t x = true /\ inr p t y = true /\
    v = VI t r /\ int_op m p t o x y = Ok r.
Proof.
  intros Ht [N1 N2] H. destruct (eval_bi_int_inv _ _ _ _ _ _ _ _ Ht H) as (t' & x & y & r & Ha & Hb & Rx & Ry & -> & Hop & E).
  assert (t' = t) by (destruct o; auto; congruence). subst t'. eauto 10.
Qed.
(** The same knowing only that the result is a [t] integer. *)
Lemma bin_inv_v m p rho o a b t r : (o <> OShl /\ o <> OShr) ->
  eval m p rho (EBin (BI o) a b) = Ok (VI t r) ->
  exists x y, eval m p rho a = Ok (VI t x) /\ eval m p rho b = Ok (VI t y) /\ inr p t x = true /\ inr p t y = true /\
    int_op m p t o x y = Ok r.
Proof.
  intros [N1 N2] H. apply eval_bi_inv in H as [(t1 & t' & x & y & r' & Ha & Hb & E & Hop & E')|[(x & y & r' & _ & _ & E & _)|(x & y & r' & _ & _ & E & _)]]; [|discriminate|discriminate].
  injection E as <- <-. assert (t' = t) by (destruct o; auto; congruence). subst t'.
  exists x, y. eauto 10 using eval_VI_range.
Qed.

(** ** div_ceil *)
Lemma div_ceil_core p rho l rhs t x y r : ity_signed t = false ->
  eval Checked p rho l = Ok (VI t x) -> eval Checked p rho rhs = Ok (VI t y) -> 0 < y -> 
  int_op Checked p t ODiv (x + (y - 1)) y = Ok r -> eval Checked p rho (EM1 MDivCeil l rhs) = Ok (VI t r).
Proof.
  intros Hs Hl Hr Hy Hop. pose proof (unsigned_range _ _ _ Hs (eval_VI_range _ _ _ _ _ _ Hl)).
  cbn [eval]. rewrite Hl, Hr. cbn [rbind sem1]. rewrite ity_eqb_refl.
  unfold int_op in Hop. destruct (Z.eqb_spec y 0); [lia|]. rewrite zceil_eq by lia.
  replace (x + y - 1) with (x + (y - 1)) by lia. rewrite Z.quot_div_nonneg in Hop by lia.
  destruct (inr p t ((x + (y - 1)) / y)); [|discriminate]. now injection Hop as <-.
Qed.

Lemma checked_arith p t z r : arith Checked p t z = Ok r -> r = z.
Proof. intros H. apply arith_Ok in H as [_ H]. now destruct (H eq_refl). Qed.

Lemma differ_by_one_inv a b : differ_by_one a b = true ->
  (exists t t' s, a = ELit t s /\ b = ELit t' (s + 1)) \/ (exists a' b', a = EUn UNeg a' /\ b = EUn UNeg b').
Proof.
  destruct a; try discriminate.
  - destruct b; try discriminate. cbn. intros H. left. exists t, t0, n. split; [auto|]. f_equal. lia.
  - destruct o; [|discriminate]. destruct b; try (cbn; discriminate). destruct o; [|discriminate]. eauto.
Qed.

Lemma manual_div_ceil_sound p rho e e' : In e' (manual_div_ceil false e) -> preserves Checked p rho e e'.
Proof.
  intros H v Hv. destruct e as [| | | | | |bo lhs rhs| | | | | |]; try contradiction. destruct bo as [[]| | |]; try contradiction.
  cbn [manual_div_ceil] in H.
  destruct (check_int_ty_and_feature false (ty_of lhs)) eqn:C1; [|contradiction].
  destruct (check_int_ty_and_feature false (ty_of rhs)) eqn:C2; [|contradiction]. cbn [andb] in H.
  unfold check_int_ty_and_feature in C1, C2. rewrite andb_false_r, orb_false_r in C1, C2.
  destruct (is_uint_inv _ C1) as (t & Ht & Hs). clear C1.
  apply (bin_inv _ _ _ _ _ _ t) in Hv; [|auto|split; discriminate].
  destruct Hv as (n & y & r & Hn & Hy & Rn & Ry & -> & Hop).
  pose proof (unsigned_range _ _ _ Hs Ry) as By. assert (Hy0 : 0 < y). { unfold int_op in Hop. destruct (Z.eqb_spec y 0); [discriminate|lia]. }
  assert (Hneg : forall a, rhs = EUn UNeg a -> False).
  { intros a ->. destruct (is_uint_inv _ C2) as (t2 & E & E2). cbn [ty_of] in E. eapply eval_neg_unsigned; [exact E|exact E2|exact Hy]. }
  destruct lhs as [| | | | | |o l r0| | |k x a| | |]; try contradiction.
  - assert (S1 : forall s, div_ceil_shape1 o l r0 rhs = Some s -> eval Checked p rho s = Ok (VI t r)).
    { intros s Hsug. unfold div_ceil_shape1 in Hsug. destruct o as [[]| | |]; try discriminate.
      destruct r0 as [| | | | | |o2 sl sr| | | | | |]; try discriminate. destruct o2 as [[]| | |]; try discriminate.
      destruct (is_int_lit sr 1) eqn:E1; [|discriminate]. destruct (expr_eqb sl rhs) eqn:E2; [|discriminate]. injection Hsug as <-.
      apply is_int_lit_inv in E1 as [tl ->]. apply expr_eqb_eq in E2. subst sl.
      apply bin_inv_v in Hn as (x & b & Hx & Hb & Rx & Rb & Hadd); [|split; discriminate].
      apply bin_inv_v in Hb as (y' & one & Hy' & H1 & _ & _ & Hsub); [|split; discriminate].
      rewrite Hy in Hy'. injection Hy' as <-. apply eval_lit_inv in H1 as [E _]. injection E as _ ->.
      apply checked_arith in Hsub, Hadd. subst b n. now apply (div_ceil_core _ _ _ _ _ x y). }
    assert (S2 : forall s, div_ceil_shape2 o l r0 rhs = Some s -> eval Checked p rho s = Ok (VI t r)).
    { intros s Hsug. unfold div_ceil_shape2 in Hsug. destruct o as [[]| | |]; try discriminate.
      destruct l as [| | | | | |o2 sl sr| | | | | |]; try discriminate. destruct o2 as [[]| | |]; try discriminate.
      destruct (is_int_lit sr 1) eqn:E1; [|discriminate]. destruct (expr_eqb sl rhs) eqn:E2; [|discriminate]. injection Hsug as <-.
      apply is_int_lit_inv in E1 as [tl ->]. apply expr_eqb_eq in E2. subst sl.
      apply bin_inv_v in Hn as (b & x & Hb & Hx & Rb & Rx & Hadd); [|split; discriminate].
      apply bin_inv_v in Hb as (y' & one & Hy' & H1 & _ & _ & Hsub); [|split; discriminate].
      rewrite Hy in Hy'. injection Hy' as <-. apply eval_lit_inv in H1 as [E _]. injection E as _ ->.
      apply checked_arith in Hsub, Hadd. subst b n. apply (div_ceil_core _ _ _ _ _ x y); auto. now rewrite Z.add_comm. }
    destruct (div_ceil_shape1 o l r0 rhs) as [s|]. { destruct H as [<-|[]]. now apply S1. }
    destruct (div_ceil_shape2 o l r0 rhs) as [s|]. { destruct H as [<-|[]]. now apply S2. }
    rewrite !in_app_iff in H. destruct H as [H|[H|H]].
    + unfold div_ceil_shape3 in H. destruct o as [[]| | |]; try contradiction. destruct l as [| | | | | |o2 al ar| | | | | |]; try contradiction.
      destruct o2 as [[]| | |]; try contradiction. destruct (is_int_lit r0 1) eqn:E1; [|contradiction]. destruct (expr_eqb ar rhs) eqn:E2; [|contradiction].
      destruct H as [<-|[]]. apply is_int_lit_inv in E1 as [tl ->]. apply expr_eqb_eq in E2. subst ar.
      apply bin_inv_v in Hn as (b & one & Hb & H1 & Rb & _ & Hsub); [|split; discriminate].
      apply bin_inv_v in Hb as (x & y' & Hx & Hy' & _ & _ & Hadd); [|split; discriminate].
      rewrite Hy in Hy'. injection Hy' as <-. apply eval_lit_inv in H1 as [E _]. injection E as _ ->.
      apply checked_arith in Hsub, Hadd. subst b n. apply (div_ceil_core _ _ _ _ _ x y); auto.
      now replace (x + (y - 1)) with (x + y - 1) by lia.
    + unfold div_ceil_shape4 in H. destruct o as [[]| | |]; try contradiction.
      apply bin_inv_v in Hn as (x1 & x2 & H1 & H2 & _ & _ & Hadd); [|split; discriminate]. apply checked_arith in Hadd. subst n.
      rewrite in_app_iff in H. destruct H as [H|H].
      * destruct (differ_by_one r0 rhs) eqn:D; [|contradiction]. destruct H as [<-|[]].
        destruct (differ_by_one_inv _ _ D) as [(ta & tb & s & -> & ->)|(a' & b' & -> & ->)]; [|exfalso; eauto].
        apply eval_lit_inv in H2 as [E _]. injection E as _ <-. destruct (eval_lit_inv _ _ _ _ _ _ Hy) as [E _]. injection E as -> ->.
        apply (div_ceil_core _ _ _ _ _ x1 (x2 + 1)); auto. now replace (x2 + 1 - 1) with x2 by lia.
      * destruct (differ_by_one l rhs) eqn:D; [|contradiction]. destruct H as [<-|[]].
        destruct (differ_by_one_inv _ _ D) as [(ta & tb & s & -> & ->)|(a' & b' & -> & ->)]; [|exfalso; eauto].
        apply eval_lit_inv in H1 as [E _]. injection E as _ <-. destruct (eval_lit_inv _ _ _ _ _ _ Hy) as [E _]. injection E as -> ->.
        apply (div_ceil_core _ _ _ _ _ x2 (x1 + 1)); auto. replace (x1 + 1 - 1) with x1 by lia. now rewrite Z.add_comm.
    + unfold div_ceil_shape5 in H. destruct o as [[]| | |]; try contradiction. destruct rhs; try contradiction. destruct o; [|contradiction].
      exfalso. eauto.
  - destruct k; try contradiction. destruct (is_int (ty_of x)); [|contradiction]. destruct (expr_eqb a rhs) eqn:E; [|contradiction].
    destruct H as [<-|[]]. apply expr_eqb_eq in E. subst a.
    cbn [ty_of] in Ht. cbn [eval] in Hn. inv_bind Hn. rewrite Hy in E0. injection E0 as <-.
    destruct (eval_int_ty _ _ _ _ _ _ Ht E) as (z & -> & Rz). cbn [sem1] in Hn. rewrite ity_eqb_refl, Hs in Hn.
    destruct (Z.eqb_spec y 0); [lia|]. inv_bind Hn. match goal with A : arith _ _ _ _ = Ok _ |- _ => apply checked_arith in A end. injection Hn as <-. subst.
    unfold div_ceil_sugg. cbn [eval]. rewrite E, Hy. cbn [rbind sem1]. rewrite ity_eqb_refl. destruct (Z.eqb_spec y 0); [lia|].
    unfold int_op in Hop. destruct (Z.eqb_spec y 0); [lia|]. rewrite Z.quot_mul in Hop by lia. destruct (inr p t (zceil_div z y)); congruence.
Qed.

(** ** is_power_of_two *)
Lemma pos_ones_1 q : pos_ones q = 1 <-> exists k, 0 <= k /\ Zpos q = 2 ^ k.
Proof.
  induction q as [q IH|q IH|]; cbn [pos_ones].
  - pose proof (pos_ones_bound q). split; [lia|]. intros (k & Hk & E). exfalso.
    destruct (Z.eq_dec k 0) as [->|]; [discriminate|].
    replace k with (1 + (k - 1)) in E by lia. rewrite Z.pow_add_r, Z.pow_1_r in E by lia. lia.
  - rewrite IH. split.
    + intros (k & Hk & E). exists (1 + k). split; [lia|]. rewrite Z.pow_add_r, Z.pow_1_r by lia. lia.
    + intros (k & Hk & E). destruct (Z.eq_dec k 0) as [->|]; [discriminate|]. exists (k - 1). split; [lia|].
      replace k with (1 + (k - 1)) in E by lia. rewrite Z.pow_add_r, Z.pow_1_r in E by lia. lia.
  - split; [|reflexivity]. intros _. exists 0. split; [lia|reflexivity].
Qed.
Lemma is_pow2_iff u : is_pow2 u = true <-> exists k, 0 <= k /\ u = 2 ^ k.
Proof.
  unfold is_pow2. split.
  - intros H. exists (Z.log2 u). split; [apply Z.log2_nonneg|lia].
  - intros (k & Hk & ->). rewrite Z.log2_pow2 by lia. pose proof (p2_pos k Hk). lia.
Qed.
Lemma ones_1 u : 0 <= u -> (ones u =? 1) = is_pow2 u.
Proof.
  intros Hu. apply eq_true_iff_eq. rewrite Z.eqb_eq, is_pow2_iff. destruct u as [|q|q]; [|apply pos_ones_1|lia].
  cbn. split; [discriminate|]. intros (k & Hk & E). pose proof (p2_pos k Hk). lia.
Qed.
Lemma land_pred x : 0 < x -> (Z.land x (x - 1) =? 0) = is_pow2 x.
Proof.
  intros Hx. apply eq_true_iff_eq. rewrite Z.eqb_eq, is_pow2_iff. split.
  - intros H. exists (Z.log2 x). split; [apply Z.log2_nonneg|]. destruct (Z.log2_spec x Hx) as [L1 L2].
    destruct (Z.eq_dec x (2 ^ Z.log2 x)) as [|N]; [auto|exfalso].
    assert (Hb : Z.testbit (Z.land x (x - 1)) (Z.log2 x) = true).
    { rewrite Z.land_spec. rewrite Z.bit_log2 by auto. cbn [andb].
      replace (Z.log2 x) with (Z.log2 (x - 1)). { apply Z.bit_log2. pose proof (p2_pos (Z.log2 x) (Z.log2_nonneg x)). lia. }
      apply Z.log2_unique; [apply Z.log2_nonneg|lia]. }
    rewrite H, Z.bits_0 in Hb. discriminate.
  - intros (k & Hk & ->). apply Z.bits_inj'. intros i Hi. rewrite Z.land_spec, Z.bits_0, Z.pow2_bits_eqb by lia.
    destruct (Z.eqb_spec k i); [|reflexivity]. subst i. cbn [andb].
    replace (2 ^ k - 1) with (Z.ones k) by (rewrite Z.ones_equiv; lia). now apply Z.ones_spec_high.
Qed.

Lemma eval_eq_inv m p rho a b v : eval m p rho (EBin (BC CEq) a b) = Ok v ->
  exists va vb o, eval m p rho a = Ok va /\ eval m p rho b = Ok vb /\ val_cmp va vb = Ok o /\ v = VB (cmp_of CEq o).
Proof. apply eval_cmp_inv. Qed.

Lemma eval_ispow2 m p rho r t u : ity_signed t = false -> eval m p rho r = Ok (VI t u) ->
  eval m p rho (EM0 MIsPow2 r) = Ok (VB (is_pow2 u)).
Proof.
  intros Hs H. pose proof (unsigned_range _ _ _ Hs (eval_VI_range _ _ _ _ _ _ H)). cbn [eval]. rewrite H. cbn [rbind sem0]. rewrite Hs.
  unfold to_bits. now rewrite Z.mod_small.
Qed.

Lemma cmp_eq_sym m p rho a b v : eval m p rho (EBin (BC CEq) a b) = Ok v ->
  (forall t, ty_of a = Some t -> match t with TI _ => True | _ => False end) -> eval m p rho (EBin (BC CEq) b a) = Ok v \/ ty_of a = None.
Proof.
  intros H Ht. destruct (ty_of a) as [t|] eqn:E; [|auto]. specialize (Ht _ eq_refl). destruct t; try contradiction. left.
  destruct (eval_cmp_int_inv _ _ _ _ _ _ _ _ E H) as (x & y & Ha & Hb & ->).
  rewrite (eval_cmp_int _ _ _ _ _ _ _ _ _ Hb Ha). cbn. now rewrite Z.eqb_sym.
Qed.

Lemma is_one_less_inv g s a : is_one_less g s = Some a -> exists t tl, a = g /\ s = EBin (BI OSub) g (ELit tl 1) /\ ty_of g = Some (TI t) /\ ity_signed t = false.
Proof.
  unfold is_one_less. destruct s as [| | | | | |o l r| | | | | |]; try discriminate. destruct o as [[]| | |]; try discriminate.
  destruct (expr_eqb g l) eqn:E1; [|discriminate]. destruct (is_int_lit r 1) eqn:E2; [|discriminate]. destruct (is_uint (ty_of g)) eqn:E3; [|discriminate].
  intros [= <-]. apply expr_eqb_eq in E1. subst l. apply is_int_lit_inv in E2 as [tl ->]. apply is_uint_inv in E3 as (t & H1 & H2). eauto 10.
Qed.

Lemma and_minus_one_sound p rho e a v : is_and_minus_one e = Some a -> eval Checked p rho e = Ok v ->
  exists t x, eval Checked p rho a = Ok (VI t x) /\ ity_signed t = false /\ 0 < x /\ v = VI t (Z.land x (x - 1)).
Proof.
  intros H Hv. unfold is_and_minus_one in H. destruct e as [| | | | | |o l r| | | | | |]; try discriminate. destruct o as [[]| | |]; try discriminate.
  assert (G : forall g s, is_one_less g s = Some a -> (l = g /\ r = s \/ l = s /\ r = g) ->
     exists t x, eval Checked p rho a = Ok (VI t x) /\ ity_signed t = false /\ 0 < x /\ v = VI t (Z.land x (x - 1))).
  { intros g s Hg Hlr. apply is_one_less_inv in Hg as (t & tl & -> & -> & Ht & Hs).
    assert (HH : exists x y, eval Checked p rho g = Ok (VI t x) /\ eval Checked p rho (EBin (BI OSub) g (ELit tl 1)) = Ok (VI t y) /\ v = VI t (Z.land x y)).
    { destruct Hlr as [[-> ->]|[-> ->]].
      - apply (bin_inv _ _ _ _ _ _ t) in Hv; [|auto|split; discriminate]. destruct Hv as (x & y & q & Hx & Hy & _ & _ & -> & Hop).
        cbn in Hop. injection Hop as <-. eauto 10.
      - apply (bin_inv _ _ _ _ _ _ t) in Hv; [|cbn [ty_of]; auto|split; discriminate]. destruct Hv as (x & y & q & Hx & Hy & _ & _ & -> & Hop).
        cbn in Hop. injection Hop as <-. exists y, x. rewrite Z.land_comm. auto. }
    destruct HH as (x & y & Hx & Hy & ->).
    apply bin_inv_v in Hy as (x' & one & Hx' & H1 & R1 & _ & Hsub); [|split; discriminate]. rewrite Hx in Hx'. injection Hx' as <-.
    apply eval_lit_inv in H1 as [E _]. injection E as _ ->. pose proof (arith_range _ _ _ _ _ Hsub) as Ry. apply checked_arith in Hsub. subst y.
    pose proof (unsigned_range _ _ _ Hs Ry). exists t, x. repeat split; auto. lia. }
  destruct (is_one_less l r) as [a'|] eqn:E1.
  - cbn in H. injection H as <-. apply (G l r); auto.
  - cbn in H. apply (G r l); auto.
Qed.

Lemma count_ones_sound m p rho e a v : count_ones_receiver e = Some a -> eval m p rho e = Ok v ->
  exists t x, eval m p rho a = Ok (VI t x) /\ ity_signed t = false /\ 0 <= x /\ v = VI u32 (ones x).
Proof.
  unfold count_ones_receiver. destruct e; try discriminate. destruct m0; try discriminate. destruct (is_uint (ty_of e)) eqn:E; [|discriminate].
  intros [= <-] Hv. apply is_uint_inv in E as (t & Ht & Hs). cbn [eval] in Hv. inv_bind Hv.
  destruct (eval_int_ty _ _ _ _ _ _ Ht E) as (z & -> & R). cbn [sem0] in Hv. injection Hv as <-.
  pose proof (unsigned_range _ _ _ Hs R). exists t, z. repeat split; auto; [lia|]. unfold to_bits. now rewrite Z.mod_small.
Qed.

Lemma eq_lit_inv m p rho a tl n v t z : eval m p rho (EBin (BC CEq) a (ELit tl n)) = Ok v -> eval m p rho a = Ok (VI t z) -> v = VB (z =? n).
Proof.
  intros H Ha. apply eval_cmp_inv in H as (va & vb & o & H1 & H2 & H3 & ->). rewrite Ha in H1. injection H1 as <-.
  apply eval_lit_inv in H2 as [-> _]. cbn in H3. destruct (ity_eqb t tl); [|discriminate]. injection H3 as <-. now rewrite cmp_of_Z.
Qed.
Lemma eq_lit_inv' m p rho a tl n v t z : eval m p rho (EBin (BC CEq) (ELit tl n) a) = Ok v -> eval m p rho a = Ok (VI t z) -> v = VB (z =? n).
Proof.
  intros H Ha. apply eval_cmp_inv in H as (va & vb & o & H1 & H2 & H3 & ->). rewrite Ha in H2. injection H2 as <-.
  apply eval_lit_inv in H1 as [-> _]. cbn in H3. destruct (ity_eqb tl t); [|discriminate]. injection H3 as <-. rewrite cmp_of_Z. cbn. now rewrite Z.eqb_sym.
Qed.

Lemma cmp_parts m p rho c a b v : eval m p rho (EBin (BC c) a b) = Ok v -> (exists va, eval m p rho a = Ok va) /\ (exists vb, eval m p rho b = Ok vb).
Proof. intros H. apply eval_cmp_inv in H as (va & vb & o & H1 & H2 & _). eauto. Qed.

(** The count_ones form is right in both modes, the other with overflow checks. *)
Lemma is_power_of_two_sound m p rho e e' : manual_is_power_of_two e = Some e' ->
  (m = Checked \/ exists l r, e = EBin (BC CEq) l r /\ (count_ones_receiver l <> None \/ count_ones_receiver r <> None)) ->
  preserves m p rho e e'.
Proof.
  intros H Hm v Hv. unfold manual_is_power_of_two in H. destruct e as [| | | | | |o l r| | | | | |]; try discriminate. destruct o as [|[]| |]; try discriminate.
  destruct (cmp_parts _ _ _ _ _ _ _ Hv) as [[va Ha] [vb Hb]].
  assert (O : forall x a, count_ones_receiver x = Some a -> (l = x /\ is_int_lit r 1 = true \/ r = x /\ is_int_lit l 1 = true) -> eval m p rho (EM0 MIsPow2 a) = Ok v).
  { intros x a Hx Hc. assert (Hex : exists w, eval m p rho x = Ok w) by (destruct Hc as [[-> _]|[-> _]]; eauto). destruct Hex as [w Hw].
    destruct (count_ones_sound _ _ _ _ _ _ Hx Hw) as (t & z & Hz & Hs & Z0 & ->). rewrite (eval_ispow2 _ _ _ _ _ _ Hs Hz). do 2 f_equal.
    rewrite <- ones_1 by lia. destruct Hc as [[<- E]|[<- E]]; apply is_int_lit_inv in E as [tl ->].
    - now rewrite (eq_lit_inv _ _ _ _ _ _ _ _ _ Hv Hw).
    - now rewrite (eq_lit_inv' _ _ _ _ _ _ _ _ _ Hv Hw). }
  assert (A : m = Checked -> forall x a, is_and_minus_one x = Some a -> (l = x /\ is_int_lit r 0 = true \/ r = x /\ is_int_lit l 0 = true) -> eval m p rho (EM0 MIsPow2 a) = Ok v).
  { intros -> x a Hx Hc. assert (Hex : exists w, eval Checked p rho x = Ok w) by (destruct Hc as [[-> _]|[-> _]]; eauto). destruct Hex as [w Hw].
    destruct (and_minus_one_sound _ _ _ _ _ Hx Hw) as (t & z & Hz & Hs & Z0 & ->). rewrite (eval_ispow2 _ _ _ _ _ _ Hs Hz). do 2 f_equal.
    rewrite <- land_pred by lia. destruct Hc as [[<- E]|[<- E]]; apply is_int_lit_inv in E as [tl ->].
    - now rewrite (eq_lit_inv _ _ _ _ _ _ _ _ _ Hv Hw).
    - now rewrite (eq_lit_inv' _ _ _ _ _ _ _ _ _ Hv Hw). }
  assert (M : forall x a, is_and_minus_one x = Some a -> (l = x /\ is_int_lit r 0 = true \/ r = x /\ is_int_lit l 0 = true) -> m = Checked).
  { intros x a Hx Hc. destruct Hm as [|(l' & r' & E & Hco)]; [auto|exfalso]. injection E as <- <-.
    destruct Hc as [[<- E]|[<- E]]; apply is_int_lit_inv in E as [tl ->];
      (destruct Hco as [Hco|Hco]; [|]); try (now apply Hco);
      (match goal with H : is_and_minus_one ?q = _ |- _ => destruct q; try discriminate; cbn in Hco; now apply Hco end). }
  destruct (is_int_lit r 1) eqn:R1; [destruct (count_ones_receiver l) as [a|] eqn:C; [cbn in H; injection H as <-; eapply O; eauto|]|];
  (destruct (is_int_lit l 1) eqn:L1; [destruct (count_ones_receiver r) as [a|] eqn:C'; [cbn in H; injection H as <-; eapply O; eauto|]|]);
  (destruct (is_int_lit r 0) eqn:R0; [destruct (is_and_minus_one l) as [a|] eqn:D; [cbn in H; injection H as <-; eapply A; eauto|]|]);
  (destruct (is_int_lit l 0) eqn:L0; [destruct (is_and_minus_one r) as [a|] eqn:D'; [cbn in H; injection H as <-; eapply A; eauto|]|]);
  discriminate.
Qed.
