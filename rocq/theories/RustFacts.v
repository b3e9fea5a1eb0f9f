(** Lemmas about the integer semantics. *)
From Coq Require Import ZifyBool.
From Verif Require Export RustExpr.
Open Scope Z_scope.

Lemma bits_cases p t : bits p t = 8 \/ bits p t = 16 \/ bits p t = 32 \/ bits p t = 64 \/ bits p t = 128.
Proof. destruct t as [s []], p; cbv; auto 10. Qed.
Lemma bits_pos p t : 0 < bits p t.
Proof. destruct (bits_cases p t) as [H|[H|[H|[H|H]]]]; rewrite H; lia. Qed.
Lemma bits_ge8 p t : 8 <= bits p t.
Proof. destruct (bits_cases p t) as [H|[H|[H|[H|H]]]]; rewrite H; lia. Qed.
Lemma bits_le128 p t : bits p t <= 128.
Proof. destruct (bits_cases p t) as [H|[H|[H|[H|H]]]]; rewrite H; lia. Qed.
Lemma p2_pos w : 0 <= w -> 0 < 2 ^ w.
Proof. intros; apply Z.pow_pos_nonneg; lia. Qed.
Lemma half_double p t : 2 ^ bits p t = 2 * 2 ^ (bits p t - 1).
Proof. rewrite <- Z.pow_succ_r by (pose proof (bits_pos p t); lia). f_equal; lia. Qed.
Lemma half_pos p t : 0 < 2 ^ (bits p t - 1).
Proof. apply p2_pos. pose proof (bits_pos p t); lia. Qed.
Lemma half_ge p t : 128 <= 2 ^ (bits p t - 1).
Proof. change 128 with (2 ^ 7). apply Z.pow_le_mono_r; pose proof (bits_ge8 p t); lia. Qed.

Lemma ity_eqb_eq a b : ity_eqb a b = true <-> a = b.
Proof. destruct a as [[] []], b as [[] []]; cbn; split; congruence || discriminate. Qed.
Lemma ity_eqb_refl a : ity_eqb a a = true.
Proof. now apply ity_eqb_eq. Qed.
Lemma ity_eqb_neq a b : ity_eqb a b = false <-> a <> b.
Proof. destruct (ity_eqb a b) eqn:E; [apply ity_eqb_eq in E|]; split; intros; try congruence.
  intros ->. now rewrite ity_eqb_refl in E. Qed.
Lemma ty_eqb_eq a b : ty_eqb a b = true <-> a = b.
Proof. destruct a, b; cbn; try (split; congruence); rewrite ity_eqb_eq; split; congruence. Qed.
Lemma ty_eqb_refl a : ty_eqb a a = true.
Proof. now apply ty_eqb_eq. Qed.
Lemma expr_eqb_eq a b : expr_eqb a b = true <-> a = b.
Proof. unfold expr_eqb. destruct (expr_eq_dec a b); split; congruence. Qed.

Lemma inr_iff p t z : inr p t z = true <-> imin p t <= z <= imax p t.
Proof. unfold inr. lia. Qed.
Lemma inr_false p t z : inr p t z = false <-> ~ (imin p t <= z <= imax p t).
Proof. unfold inr. lia. Qed.

Lemma inr_u p sz z : inr p (IT false sz) z = true <-> 0 <= z < 2 ^ sbits p sz.
Proof. rewrite inr_iff. unfold imin, imax, bits. cbn. lia. Qed.
Lemma inr_s p sz z : inr p (IT true sz) z = true <-> - 2 ^ (sbits p sz - 1) <= z < 2 ^ (sbits p sz - 1).
Proof. rewrite inr_iff. unfold imin, imax, bits. cbn. lia. Qed.

Lemma imin_le0 p t : imin p t <= 0.
Proof. unfold imin. pose proof (half_pos p t). destruct (ity_signed t); lia. Qed.
Lemma imax_ge127 p t : 127 <= imax p t.
Proof. unfold imax. pose proof (half_ge p t). pose proof (half_double p t). destruct (ity_signed t); lia. Qed.
Lemma imax_imin p t : imax p t - imin p t = 2 ^ bits p t - 1.
Proof. unfold imax, imin. pose proof (half_double p t). destruct (ity_signed t); lia. Qed.
Lemma inr_small p t z : 0 <= z <= 127 -> inr p t z = true.
Proof. intros. apply inr_iff. pose proof (imin_le0 p t). pose proof (imax_ge127 p t). lia. Qed.

Lemma wrap_range p t z : inr p t (wrap p t z) = true.
Proof.
  apply inr_iff. unfold wrap, imin, imax. pose proof (half_double p t). pose proof (half_pos p t).
  destruct (ity_signed t).
  - pose proof (Z.mod_pos_bound (z + 2 ^ (bits p t - 1)) (2 ^ bits p t)). lia.
  - pose proof (Z.mod_pos_bound z (2 ^ bits p t)). lia.
Qed.
Lemma wrap_id p t z : inr p t z = true -> wrap p t z = z.
Proof.
  rewrite inr_iff. unfold wrap, imin, imax. pose proof (half_double p t). pose proof (half_pos p t).
  destruct (ity_signed t); intros.
  - rewrite Z.mod_small; lia.
  - rewrite Z.mod_small; lia.
Qed.
(** [wrap] is congruent modulo 2^w. *)
Lemma wrap_cong p t z : exists k, wrap p t z = z + k * 2 ^ bits p t.
Proof.
  unfold wrap. pose proof (half_double p t). pose proof (half_pos p t). destruct (ity_signed t).
  - exists (- ((z + 2 ^ (bits p t - 1)) / 2 ^ bits p t)).
    pose proof (Z.div_mod (z + 2 ^ (bits p t - 1)) (2 ^ bits p t)). lia.
  - exists (- (z / 2 ^ bits p t)). pose proof (Z.div_mod z (2 ^ bits p t)). lia.
Qed.
Lemma wrap_unique p t z r k : inr p t r = true -> r = z + k * 2 ^ bits p t -> wrap p t z = r.
Proof.
  intros Hr E. rewrite <- (wrap_id p t r Hr). subst r. unfold wrap.
  pose proof (half_double p t). pose proof (half_pos p t).
  destruct (ity_signed t).
  - replace (z + k * 2 ^ bits p t + 2 ^ (bits p t - 1)) with (z + 2 ^ (bits p t - 1) + k * 2 ^ bits p t) by lia.
    now rewrite Z.mod_add by lia.
  - now rewrite Z.mod_add by lia.
Qed.
Lemma wrap_mod p t z : (wrap p t z) mod 2 ^ bits p t = z mod 2 ^ bits p t.
Proof. destruct (wrap_cong p t z) as [k ->]. apply Z.mod_add. pose proof (half_double p t). pose proof (half_pos p t). lia. Qed.
Lemma wrap_eqmod p t a b : a mod 2 ^ bits p t = b mod 2 ^ bits p t -> wrap p t a = wrap p t b.
Proof.
  intros H. pose proof (half_double p t). pose proof (half_pos p t).
  apply (wrap_unique p t a (wrap p t b) (wrap p t b / 2 ^ bits p t - a / 2 ^ bits p t)).
  - apply wrap_range.
  - pose proof (wrap_mod p t b) as Hb. rewrite <- H in Hb.
    pose proof (Z.div_mod a (2 ^ bits p t)). pose proof (Z.div_mod (wrap p t b) (2 ^ bits p t)). nia.
Qed.
Lemma to_bits_range p t z : 0 <= to_bits p t z < 2 ^ bits p t.
Proof. apply Z.mod_pos_bound. pose proof (half_double p t). pose proof (half_pos p t). lia. Qed.
Lemma of_to_bits p t z : inr p t z = true -> of_bits p t (to_bits p t z) = z.
Proof.
  intros H. unfold of_bits, to_bits. rewrite <- (wrap_id p t z H) at 2. apply wrap_eqmod.
  rewrite Z.mod_mod; [reflexivity|]. pose proof (half_double p t). pose proof (half_pos p t). lia.
Qed.
Lemma to_bits_u p sz z : inr p (IT false sz) z = true -> to_bits p (IT false sz) z = z.
Proof. rewrite inr_u. intros. unfold to_bits, bits. cbn. now rewrite Z.mod_small. Qed.
Lemma of_bits_u p sz z : 0 <= z < 2 ^ sbits p sz -> of_bits p (IT false sz) z = z.
Proof. intros. unfold of_bits. apply wrap_id. now apply inr_u. Qed.

Lemma arith_Ok m p t z r : arith m p t z = Ok r -> r = wrap p t z /\ (m = Checked -> inr p t z = true /\ r = z).
Proof.
  unfold arith. destruct (inr p t z) eqn:E.
  - intros [= <-]. split; [now rewrite wrap_id|auto].
  - destruct m; [discriminate|]. intros [= <-]. split; [reflexivity|discriminate].
Qed.
Lemma arith_in m p t z : inr p t z = true -> arith m p t z = Ok z.
Proof. unfold arith. now intros ->. Qed.
Lemma arith_range m p t z r : arith m p t z = Ok r -> inr p t r = true.
Proof. intros H. apply arith_Ok in H as [-> _]. apply wrap_range. Qed.

(** ** Bitwise operations stay in range *)
Lemma mod_pow2_land z w : 0 <= w -> z mod 2 ^ w = Z.land z (Z.ones w).
Proof. intros. now rewrite Z.land_ones. Qed.

Lemma inr_bits_u p sz z : inr p (IT false sz) z = true <-> (forall i, sbits p sz <= i -> Z.testbit z i = false) /\ 0 <= z.
Proof.
  rewrite inr_u. assert (Hw : 0 <= sbits p sz) by (pose proof (bits_pos p (IT false sz)); unfold bits in *; cbn in *; lia).
  split.
  - intros [H0 H1]. split; [|lia]. intros i Hi.
    destruct (Z.eq_dec z 0) as [->|]; [apply Z.bits_0|].
    apply Z.bits_above_log2; [lia|]. apply Z.log2_lt_pow2 in H1; lia.
  - intros [Hb H0]. split; [lia|].
    assert (E : z = z mod 2 ^ sbits p sz).
    { apply Z.bits_inj'. intros i Hi. destruct (Z.lt_ge_cases i (sbits p sz)).
      - rewrite Z.mod_pow2_bits_low; auto.
      - rewrite Z.mod_pow2_bits_high by lia. auto. }
    rewrite E. apply Z.mod_pos_bound. now apply p2_pos.
Qed.

(** A signed value in range: all bits from the sign bit on are equal. *)
Lemma inr_bits_s p sz z : inr p (IT true sz) z = true <->
  (forall i, sbits p sz - 1 <= i -> Z.testbit z i = Z.testbit z (sbits p sz - 1)).
Proof.
  rewrite inr_s. assert (Hw : 0 <= sbits p sz - 1) by (pose proof (bits_pos p (IT true sz)); unfold bits in *; cbn in *; lia).
  set (w := sbits p sz - 1) in *. pose proof (p2_pos w Hw).
  split.
  - intros [H0 H1] i Hi. destruct (Z.lt_ge_cases z 0).
    + assert (Z.log2 (- z - 1) < w \/ - z - 1 = 0) as H3.
      { destruct (Z.eq_dec (- z - 1) 0); [auto|left]. apply Z.log2_lt_pow2; lia. }
      assert (forall j, w <= j -> Z.testbit z j = true) as A.
      { intros j Hj. rewrite <- (Z.lnot_involutive z). rewrite Z.lnot_spec by lia.
        replace (Z.lnot z) with (- z - 1) by (unfold Z.lnot; lia).
        destruct H3 as [H3| ->]; [|now rewrite Z.bits_0].
        rewrite Z.bits_above_log2; lia. }
      now rewrite !A by lia.
    + assert (forall j, w <= j -> Z.testbit z j = false) as A.
      { intros j Hj. destruct (Z.eq_dec z 0) as [->|]; [apply Z.bits_0|]. apply Z.bits_above_log2; [lia|].
        apply Z.log2_lt_pow2 in H1; lia. }
      now rewrite !A by lia.
  - intros Hb. destruct (Z.testbit z w) eqn:Es.
    + assert (E : Z.lnot z = (Z.lnot z) mod 2 ^ w).
      { apply Z.bits_inj'. intros i Hi. destruct (Z.lt_ge_cases i w).
        - rewrite Z.mod_pow2_bits_low; auto.
        - rewrite Z.mod_pow2_bits_high by lia. rewrite Z.lnot_spec by lia. rewrite Hb by lia. reflexivity. }
      pose proof (Z.mod_pos_bound (Z.lnot z) (2 ^ w)). rewrite <- E in H0. unfold Z.lnot in H0. lia.
    + assert (E : z = z mod 2 ^ w).
      { apply Z.bits_inj'. intros i Hi. destruct (Z.lt_ge_cases i w).
        - rewrite Z.mod_pow2_bits_low; auto.
        - rewrite Z.mod_pow2_bits_high by lia. rewrite Hb by lia. reflexivity. }
      pose proof (Z.mod_pos_bound z (2 ^ w)). rewrite <- E in H0. lia.
Qed.

Lemma sbits_pos p sz : 0 < sbits p sz.
Proof. exact (bits_pos p (IT true sz)). Qed.

Lemma land_range p t a b : inr p t a = true -> inr p t b = true -> inr p t (Z.land a b) = true.
Proof.
  destruct t as [[] sz]; rewrite ?inr_bits_u, ?inr_bits_s.
  - intros Ha Hb i Hi. rewrite !Z.land_spec. now rewrite Ha, Hb.
  - intros [Ha Ha0] [Hb Hb0]. split.
    + intros i Hi. rewrite Z.land_spec. now rewrite Ha.
    + apply Z.land_nonneg. auto.
Qed.
Lemma lor_range p t a b : inr p t a = true -> inr p t b = true -> inr p t (Z.lor a b) = true.
Proof.
  destruct t as [[] sz]; rewrite ?inr_bits_u, ?inr_bits_s.
  - intros Ha Hb i Hi. rewrite !Z.lor_spec. now rewrite Ha, Hb.
  - intros [Ha Ha0] [Hb Hb0]. split.
    + intros i Hi. rewrite Z.lor_spec. now rewrite Ha, Hb.
    + apply Z.lor_nonneg. auto.
Qed.
Lemma lxor_range p t a b : inr p t a = true -> inr p t b = true -> inr p t (Z.lxor a b) = true.
Proof.
  destruct t as [[] sz]; rewrite ?inr_bits_u, ?inr_bits_s.
  - intros Ha Hb i Hi. rewrite !Z.lxor_spec. now rewrite Ha, Hb.
  - intros [Ha Ha0] [Hb Hb0]. split.
    + intros i Hi. rewrite Z.lxor_spec. now rewrite Ha, Hb.
    + apply Z.lxor_nonneg. lia.
Qed.
Lemma shr_range p t a k : inr p t a = true -> 0 <= k -> inr p t (a / 2 ^ k) = true.
Proof.
  intros Ha Hk. apply inr_iff in Ha. apply inr_iff. pose proof (imin_le0 p t). pose proof (imax_ge127 p t).
  pose proof (p2_pos k Hk). 
  assert (a / 2 ^ k <= Z.max a 0 /\ Z.min a 0 <= a / 2 ^ k).
  { split.
    - apply Z.div_le_upper_bound; [lia|]. nia.
    - apply Z.div_le_lower_bound; [lia|]. nia. }
  lia.
Qed.
Lemma not_range p t a : inr p t a = true -> inr p t (int_not p t a) = true.
Proof.
  rewrite !inr_iff. unfold int_not, imin, imax. destruct (ity_signed t); lia.
Qed.
Lemma rem_range p t a b : inr p t a = true -> b <> 0 -> inr p t (Z.rem a b) = true.
Proof.
  rewrite !inr_iff. intros Ha Hb. pose proof (imin_le0 p t). pose proof (imax_ge127 p t).
  assert (Z.min a 0 <= Z.rem a b <= Z.max a 0).
  { destruct (Z.le_ge_cases 0 a).
    - pose proof (Z.rem_nonneg a b Hb H1). assert (Z.rem a b <= a) by (rewrite <- Z.rem_abs_r by lia; apply Z.rem_le; lia). lia.
    - pose proof (Z.rem_nonpos a b Hb H1). pose proof (Z.rem_opp_l a b Hb).
      assert (Z.rem (- a) b <= - a) by (rewrite <- Z.rem_abs_r by lia; apply Z.rem_le; lia). lia. }
  lia.
Qed.

Lemma int_op_range m p t o a b r :
  inr p t a = true -> (match o with OShl | OShr => True | _ => inr p t b = true end) ->
  int_op m p t o a b = Ok r -> inr p t r = true.
Proof.
  intros Ha Hb H. destruct o; cbn [int_op] in H; try (now apply arith_range in H).
  - destruct (b =? 0); [discriminate|]. destruct (inr p t (a ÷ b)) eqn:E; congruence.
  - destruct (Z.eqb_spec b 0); [discriminate|]. destruct (inr p t (a ÷ b)) eqn:E; [|discriminate].
    injection H as <-. now apply rem_range.
  - injection H as <-. now apply land_range.
  - injection H as <-. now apply lor_range.
  - injection H as <-. now apply lxor_range.
  - destruct ((0 <=? b) && (b <? bits p t)); [|destruct m]; try discriminate; injection H as <-; apply wrap_range.
  - destruct ((0 <=? b) && (b <? bits p t)) eqn:E; [|destruct m]; try discriminate; injection H as <-.
    + apply shr_range; lia.
    + apply shr_range; [auto|]. apply Z.mod_pos_bound, bits_pos.
Qed.

(** ** Counting bits *)
Lemma pos_ones_bound q : 1 <= pos_ones q <= Z.log2 (Zpos q) + 1.
Proof.
  induction q as [q IH|q IH|]; cbn [pos_ones]; try (cbn; lia).
  - change (Z.pos q~1) with (2 * Z.pos q + 1). rewrite Z.log2_succ_double by lia. lia.
  - change (Z.pos q~0) with (2 * Z.pos q). rewrite Z.log2_double by lia. lia.
Qed.
Lemma ones_bound w u : 0 <= u < 2 ^ w -> 0 <= w -> 0 <= ones u <= w.
Proof.
  intros Hu Hw. destruct u as [|q|q]; cbn; try lia. pose proof (pos_ones_bound q).
  assert (Z.log2 (Zpos q) < w) by (apply Z.log2_lt_pow2; lia). lia.
Qed.
Lemma pos_ctz_spec q : exists o, Zpos q = 2 ^ pos_ctz q * (2 * o + 1) /\ 0 <= pos_ctz q /\ 0 <= o.
Proof.
  induction q as [q IH|q IH|]; cbn [pos_ctz].
  - exists (Zpos q). cbn. lia.
  - destruct IH as (o & E & H & Ho). exists o. rewrite Z.pow_add_r by lia. change (Z.pos q~0) with (2 * Z.pos q). lia.
  - exists 0. cbn. lia.
Qed.
Lemma ctz_bound w u : 0 <= u < 2 ^ w -> 0 <= w -> 0 <= ctz w u <= w.
Proof.
  intros Hu Hw. destruct u as [|q|q]; cbn; try lia. destruct (pos_ctz_spec q) as (o & E & H & Ho).
  split; [lia|]. apply (Z.pow_le_mono_r_iff 2); [lia|lia|]. 
  assert (2 ^ pos_ctz q > 0) by (pose proof (p2_pos (pos_ctz q)); lia). nia.
Qed.
Lemma clz_bound w u : 0 <= u < 2 ^ w -> 0 <= w -> 0 <= clz w u <= w.
Proof.
  intros Hu Hw. unfold clz. destruct (Z.eqb_spec u 0); [lia|]. pose proof (Z.log2_nonneg u).
  assert (Z.log2 u < w) by (apply Z.log2_lt_pow2; lia). lia.
Qed.

Lemma sat_range lo hi z : lo <= hi -> lo <= sat lo hi z <= hi.
Proof. unfold sat. destruct (Z.ltb_spec z lo); [lia|]. destruct (Z.ltb_spec hi z); lia. Qed.

Lemma inr_u32_small p z : 0 <= z <= 128 -> inr p u32 z = true.
Proof. intros. apply inr_u. cbn. lia. Qed.
Lemma imin_imax p t : imin p t <= imax p t.
Proof. pose proof (imin_le0 p t). pose proof (imax_ge127 p t). lia. Qed.
Lemma bits_unsigned_of p t : bits p (unsigned_of t) = bits p t.
Proof. now destruct t. Qed.
Lemma zceil_eq a b : 0 < b -> zceil_div a b = (a + b - 1) / b.
Proof.
  intros. unfold zceil_div. apply (Z.div_unique_pos _ _ _ (b - 1 - (- a) mod b)).
  - pose proof (Z.mod_pos_bound (- a) b). lia.
  - pose proof (Z.div_mod (- a) b). lia.
Qed.

Lemma sem0_wf m p k t z v : inr p t z = true -> sem0 m p k t z = Ok v -> val_wf p v = true.
Proof.
  intros Hz H. pose proof (to_bits_range p t z) as Hu. pose proof (bits_le128 p t). pose proof (bits_pos p t).
  destruct k; cbn [sem0] in H.
  - injection H as <-. apply wrap_range.
  - destruct (ity_signed t); inversion H; reflexivity.
  - injection H as <-. apply inr_u32_small. pose proof (ones_bound _ _ Hu). lia.
  - injection H as <-. apply inr_u32_small. pose proof (ctz_bound _ _ Hu). lia.
  - injection H as <-. apply inr_u32_small. pose proof (clz_bound _ _ Hu). lia.
  - destruct (Z.leb_spec z 0); [discriminate|]. injection H as <-. apply inr_u32_small.
    apply inr_iff in Hz. pose proof (Z.log2_nonneg z). split; [lia|].
    assert (Z.log2 z < bits p t); [|lia]. apply Z.log2_lt_pow2; [lia|].
    unfold imax in Hz. pose proof (half_double p t). pose proof (half_pos p t). destruct (ity_signed t); lia.
  - destruct (ity_signed t); [discriminate|]. injection H as <-. apply inr_u32_small. pose proof (clz_bound _ _ Hu). lia.
  - injection H as <-. apply wrap_range.
  - destruct (ity_signed t); [|discriminate]. destruct (arith m p t (Z.abs z)) eqn:E; cbn in H; try discriminate.
    injection H as <-. now apply arith_range in E.
  - destruct (ity_signed t) eqn:Es; [|discriminate]. injection H as <-. cbn [val_wf]. apply inr_iff in Hz. apply inr_iff.
    unfold imin, imax in *. rewrite bits_unsigned_of. rewrite Es in Hz. cbn. pose proof (half_double p t). lia.
  - injection H as <-. apply inr_u32_small. pose proof (ones_bound _ _ Hu). lia.
  - destruct (ity_signed t) eqn:Es; [|discriminate]. injection H as <-. cbn [val_wf]. apply inr_iff in Hz. apply inr_iff.
    pose proof (imin_le0 p t). pose proof (imax_ge127 p t). pose proof (half_pos p t). unfold imin in *. rewrite Es in *. lia.
  - destruct (Z.ltb_spec z 0); [discriminate|]. injection H as <-. cbn [val_wf]. apply inr_iff in Hz. apply inr_iff.
    pose proof (imin_le0 p t). pose proof (Z.sqrt_nonneg z). pose proof (Z.sqrt_le_lin z). lia.
  - destruct (ity_signed t) eqn:Es; [|discriminate]. injection H as <-. cbn [val_wf]. apply inr_iff. apply sat_range. apply imin_imax.
  - destruct (ity_signed t) eqn:Es; [|discriminate]. injection H as <-. destruct (inr p t (Z.abs z)) eqn:E; cbn; auto.
  - discriminate.
Qed.

Lemma ilog_bound f b z : 0 <= ilog f b z <= Z.of_nat f.
Proof. revert z. induction f as [|f IH]; intros z; [change (0 <= 0 <= 0); lia|]. change (ilog (S f) b z) with (if z <? b then 0 else 1 + ilog f b (z / b)). destruct (z <? b); [lia|]. specialize (IH (z / b)). lia. Qed.
Lemma sem1_wf m p k t z t' y v : inr p t z = true -> inr p t' y = true -> sem1 m p k t z t' y = Ok v -> val_wf p v = true.
Proof.
  intros Hz Hy H. pose proof (imin_imax p t) as Hmm.
  assert (Ht : forall r, (if ity_eqb t t' then r else Stuck) = Ok v -> t' = t /\ r = Ok v).
  { intros r Hr. destruct (ity_eqb t t') eqn:E; [|discriminate]. apply ity_eqb_eq in E. auto. }
  destruct k; cbn [sem1] in H.
  1,2: destruct (ity_eqb t' u32); [|discriminate]; injection H as <-; apply wrap_range.
  15: discriminate.
  15: { destruct (ity_eqb t' u32); [|discriminate]. destruct (arith m p t (z ^ y)) eqn:E; cbn in H; try discriminate.
        injection H as <-. now apply arith_range in E. }
  17: { destruct (ity_eqb t' u32); [|discriminate]. injection H as <-. cbn [val_wf]. apply inr_iff. now apply sat_range. }
  17: { destruct (ity_eqb t' u32); [|discriminate]. injection H as <-. destruct (inr p t (z ^ y)) eqn:E; cbn; auto. }
  17: { destruct (ity_eqb t' u32); [|discriminate]. injection H as <-. apply wrap_range. }
  all: apply Ht in H as [-> H].
  - destruct (y =? 0); [discriminate|]. destruct (inr p t (zceil_div z y)) eqn:E; [|discriminate]. injection H as <-. exact E.
  - destruct (ity_signed t); [discriminate|]. destruct (y =? 0); [discriminate|].
    destruct (arith m p t (zceil_div z y * y)) eqn:E; cbn in H; try discriminate.
    injection H as <-. now apply arith_range in E.
  - injection H as <-. cbn [val_wf]. apply inr_iff in Hz. apply inr_iff in Hy. apply inr_iff.
    pose proof (imax_imin p t). unfold imin, imax at 1. rewrite bits_unsigned_of. cbn. lia.
  - destruct (Z.eqb_spec y 0); [discriminate|]. destruct (inr p t (z ÷ y)) eqn:E; [|discriminate]. injection H as <-.
    cbn [val_wf]. apply inr_iff in Hy. apply inr_iff. unfold zrem_euclid.
    pose proof (Z.mod_pos_bound z (Z.abs y)). unfold imin, imax in *. pose proof (half_pos p t). destruct (ity_signed t); lia.
  - destruct (ity_signed t); [discriminate|]. inversion H; reflexivity.
  - injection H as <-. cbn [val_wf]. apply inr_iff in Hz. apply inr_iff in Hy. apply inr_iff.
    pose proof (imin_le0 p t). pose proof (imax_ge127 p t).
    pose proof (Z.quot_rem' (z + y) 2). pose proof (Z.rem_bound_abs (z + y) 2). pose proof (Z.rem_sign_mul (z + y) 2). lia.
  - injection H as <-. cbn [val_wf]. apply inr_iff in Hz. apply inr_iff in Hy. apply inr_iff. lia.
  - injection H as <-. cbn [val_wf]. apply inr_iff in Hz. apply inr_iff in Hy. apply inr_iff. lia.
  - injection H as <-. cbn [val_wf]. apply inr_iff. now apply sat_range.
  - injection H as <-. cbn [val_wf]. apply inr_iff. now apply sat_range.
  - injection H as <-. cbn [val_wf]. apply inr_iff. now apply sat_range.
  - injection H as <-. destruct (inr p t (z + y)) eqn:E; cbn; auto.
  - injection H as <-. destruct (inr p t (z - y)) eqn:E; cbn; auto.
  - injection H as <-. destruct (inr p t (z * y)) eqn:E; cbn; auto.
  - injection H as <-. apply wrap_range.
  - injection H as <-. apply wrap_range.
  - destruct (Z.eqb_spec y 0); [discriminate|]. injection H as <-.
    cbn [val_wf]. apply inr_iff in Hy. apply inr_iff. unfold zrem_euclid.
    pose proof (Z.mod_pos_bound z (Z.abs y)). unfold imin, imax in *. pose proof (half_pos p t). destruct (ity_signed t); lia.
  - destruct ((z <=? 0) || (y <? 2)); [discriminate|]. injection H as <-. apply inr_u32_small. pose proof (ilog_bound 128 y z) as L. change (Z.of_nat 128) with 128 in L. exact L.
Qed.

(** ** Evaluation yields well-formed values of the static type *)
Lemma rbind_Ok {A B} (r : res A) (f : A -> res B) b : rbind r f = Ok b -> exists a, r = Ok a /\ f a = Ok b.
Proof. destruct r; cbn; try discriminate. eauto. Qed.

Ltac inv_bind H :=
  repeat match type of H with
  | rbind ?r _ = Ok _ =>
      let v := fresh "v" in let E := fresh "E" in
      apply rbind_Ok in H as (v & E & H)
  end.
(** Destruct one value. *)
Ltac dval v :=
  let t := fresh "t" in let z := fresh "z" in let b := fresh "b" in
  destruct v as [t z|b| |]; try discriminate.

Definition un_sem (m : mode) (p : ptrw) (o : unop) (v : val) : res val :=
  match o, v with
  | UNeg, VI t z => do r <- int_neg m p t z; Ok (VI t r)
  | UNeg, VF f => Ok (VF (SpecFloat.SFopp f))
  | UNot, VI t z => Ok (VI t (int_not p t z))
  | UNot, VB b => Ok (VB (negb b))
  | _, _ => Stuck
  end.
Lemma eval_un m p rho o e :
  eval m p rho (EUn o e) =
  match o, e with
  | UNeg, ELit t n => if ity_signed t && inr p t (- n) && (0 <=? n) then Ok (VI t (- n)) else Stuck
  | _, _ => do v <- eval m p rho e; un_sem m p o v
  end.
Proof. destruct o; [destruct e|]; reflexivity. Qed.

Lemma un_sem_wf m p o v v' : val_wf p v = true -> un_sem m p o v = Ok v' -> val_wf p v' = true /\ val_ty v' = val_ty v.
Proof.
  intros Hv H. destruct o, v as [t z|b|f|t o]; cbn in H; try discriminate.
  - unfold int_neg in H. destruct (ity_signed t); [|discriminate]. cbn in H. inv_bind H. injection H as <-.
    split; [|reflexivity]. now apply arith_range in E.
  - now injection H as <-.
  - injection H as <-. split; [|reflexivity]. now apply not_range.
  - now injection H as <-.
Qed.

Lemma eval_wf m p rho e : forall v, eval m p rho e = Ok v ->
  val_wf p v = true /\ (forall t, ty_of e = Some t -> val_ty v = t).
Proof.
  induction e as [t n|b|f|t x|t a|o e IH|o e1 IH1 e2 IH2|e IH t|k e IH|k e IH a IHa|k e IH a IHa b IHb|c IHc a IHa b IHb|i lo IHl hi IHh x IHx];
    intros v H.
  - cbn in H. destruct (inr p t n && (0 <=? n)) eqn:E; [|discriminate]. injection H as <-.
    apply andb_prop in E. cbn. split; [tauto|congruence].
  - cbn in H. injection H as <-. cbn. split; [reflexivity|congruence].
  - cbn in H. injection H as <-. cbn. split; [reflexivity|congruence].
  - cbn in H. destruct (ty_eqb _ _ && _) eqn:E; [|discriminate]. injection H as <-.
    apply andb_prop in E as [E1 E2]. apply ty_eqb_eq in E1. cbn. subst. split; [auto|congruence].
  - pose proof (imin_imax p t). destruct a; cbn in H; injection H as <-; (split; [|cbn; congruence]); cbn [val_wf].
    + apply inr_iff. lia.
    + apply inr_iff. lia.
    + apply inr_u32_small. pose proof (bits_le128 p t). pose proof (bits_pos p t). lia.
  - rewrite eval_un in H.
    assert (D : (exists t n, o = UNeg /\ e = ELit t n) \/ (do v <- eval m p rho e; un_sem m p o v) = Ok v).
    { destruct o; [destruct e; eauto|]; auto. }
    destruct D as [(t & n & -> & ->)|D].
    + destruct (ity_signed t && inr p t (- n) && (0 <=? n)) eqn:E; [|discriminate]. injection H as <-. cbn.
      split; [lia|congruence].
    + inv_bind D. apply IH in E as [Hv Ht]. apply un_sem_wf in D as [Hw Hy]; [|auto]. cbn [ty_of]. rewrite Hy. auto.
  - destruct o as [o|c| |]; cbn [eval] in H; inv_bind H.
    + apply IH1 in E as [Ha Hta]. apply IH2 in E0 as [Hb Htb]. cbn [ty_of].
      destruct v0 as [t z|b|f|t o0], v1 as [t' z'|b'|f'|t' o']; try discriminate.
      * cbn in Ha, Hb.
        assert (exists r, int_op m p t o z z' = Ok r /\ v = VI t r /\ (match o with OShl | OShr => True | _ => inr p t z' = true end)) as (r & Hr & -> & Hsh).
        { destruct (ity_eqb t t') eqn:Et; [apply ity_eqb_eq in Et; subst t'|];
            destruct o; try discriminate; apply rbind_Ok in H as (r & Hr & H); injection H as <-; eauto. }
        split; [|exact Hta]. cbn [val_wf]. eapply int_op_range; eauto.
      * destruct o; try discriminate; injection H as <-; auto.
      * destruct (float_op o f f'); [|discriminate]. injection H as <-. auto.
    + injection H as <-. split; cbn; congruence.
    + dval v0. destruct b; [|injection H as <-; split; cbn; congruence]. inv_bind H. dval v0. injection H as <-. split; cbn; congruence.
    + dval v0. destruct b; [injection H as <-; split; cbn; congruence|]. inv_bind H. dval v0. injection H as <-. split; cbn; congruence.
  - cbn [eval] in H. inv_bind H. cbn [ty_of]. dval v0.
    + injection H as <-. split; [apply wrap_range|cbn; congruence].
    + injection H as <-. split; [|cbn; congruence]. cbn [val_wf]. apply inr_small. destruct b; cbn; lia.
  - cbn [eval] in H. inv_bind H. apply IH in E as [Hv Ht]. cbn [ty_of]. destruct v0 as [t z|b|f|t o].
    + pose proof (sem0_wf _ _ _ _ _ _ Hv H) as Hw. split; [exact Hw|].
      cbn in Ht. intros ty Hty.
      destruct k; cbn [sem0] in H;
        repeat match type of H with context [if ?c then _ else _] => destruct c end; try discriminate;
        inv_bind H; injection H as <-; try (apply Ht in Hty; cbn; exact Hty); cbn; try congruence;
      destruct (ty_of e) as [ty'|]; try discriminate; specialize (Ht _ eq_refl); subst ty'; congruence.
    + destruct k; discriminate.
    + destruct k; discriminate.
    + destruct k; try discriminate. destruct o as [z|]; [|discriminate]. injection H as <-. cbn in Hv. split; [exact Hv|].
      intros ty Hty. destruct (ty_of e) as [ty'|]; [|discriminate]. specialize (Ht _ eq_refl). subst ty'. cbn in *. congruence.
  - cbn [eval] in H. inv_bind H. apply IH in E as [Hv Ht]. apply IHa in E0 as [Hva Hta]. cbn [ty_of].
    destruct v0 as [t z|b|f|t o]; [| | |].
    + destruct v1 as [t' z'|b'|f'|t' o']; try (destruct k; discriminate).
      assert (H' : sem1 m p k t z t' z' = Ok v) by (destruct k; try discriminate; exact H).
      pose proof (sem1_wf _ _ _ _ _ _ _ _ Hv Hva H') as Hw. split; [exact Hw|]. clear H.
      cbn in Ht. intros ty Hty.
      destruct k; cbn [sem1] in H';
        repeat match type of H' with context [if ?c then _ else _] => destruct c end; try discriminate;
        inv_bind H'; injection H' as <-; try (apply Ht in Hty; cbn; exact Hty); cbn; try congruence;
        (destruct (ty_of e) as [ty'|]; [|discriminate]; specialize (Ht _ eq_refl); subst ty'; congruence).
    + destruct k, v1; discriminate.
    + destruct k, v1; try discriminate; injection H as <-; auto.
    + destruct k, v1 as [t' z'|b'|f'|t' o']; try discriminate. destruct (ity_eqb t t') eqn:Et; [|discriminate].
      apply ity_eqb_eq in Et. subst t'. injection H as <-. cbn in Ht. split.
      * destruct o; cbn in *; auto.
      * intros ty Hty. destruct (ty_of e) as [ty'|]; [|discriminate]. specialize (Ht _ eq_refl). subst ty'. cbn. congruence.
  - destruct k. cbn [eval] in H. inv_bind H. dval v0.
    2: { dval v1. dval v2. apply IH in E as [Hv Ht]. cbn [ty_of]. destruct (SpecFloat.SFleb _ _); [|discriminate]. injection H as <-. auto. }
    dval v1. dval v2. apply IH in E as [Hv Ht].
    apply IHa in E0 as [Hva Hta]. apply IHb in E1 as [Hvb Htb].
    destruct (ity_eqb t t0 && ity_eqb t t1) eqn:Et; [|discriminate]. apply andb_prop in Et as [E1 E2].
    apply ity_eqb_eq in E1. apply ity_eqb_eq in E2. subst t0 t1.
    destruct (Z.ltb_spec z1 z0); [discriminate|]. injection H as <-. cbn [ty_of]. split; [|exact Ht].
    cbn in *. apply inr_iff in Hva, Hvb. apply inr_iff. pose proof (sat_range z0 z1 z). lia.
  - cbn [eval] in H. inv_bind H. dval v0. cbn [ty_of].
    assert (forall ty, match ty_of a with
       | Some x => match ty_of b with Some y => if ty_eqb x y then Some x else None | None => None end
       | None => None end = Some ty -> ty_of a = Some ty /\ ty_of b = Some ty) as A.
    { intros ty. destruct (ty_of a), (ty_of b); try discriminate. destruct (ty_eqb t t0) eqn:Et; [|discriminate].
      apply ty_eqb_eq in Et. intros [= <-]. subst. auto. }
    destruct b0.
    + apply IHa in H as [Hw Ht]. split; [exact Hw|]. intros ty Hty. apply A in Hty. apply Ht. tauto.
    + apply IHb in H as [Hw Ht]. split; [exact Hw|]. intros ty Hty. apply A in Hty. apply Ht. tauto.
  - cbn [eval] in H. inv_bind H. injection H as <-. split; cbn; congruence.
Qed.

(** The usual consequence: an expression of integer type evaluates to a
    representable integer of that type. *)
Lemma eval_int_ty m p rho e t v : ty_of e = Some (TI t) -> eval m p rho e = Ok v -> exists z, v = VI t z /\ inr p t z = true.
Proof.
  intros Ht H. apply eval_wf in H as [Hw Hv]. specialize (Hv _ Ht). destruct v; try discriminate.
  cbn in Hv. injection Hv as ->. eauto.
Qed.
Lemma eval_VI_range m p rho e t z : eval m p rho e = Ok (VI t z) -> inr p t z = true.
Proof. intros H. now apply eval_wf in H as [Hw _]. Qed.

(** Inversion of a binary integer operation whose left operand has an integer type. *)
Lemma eval_bi_inv m p rho o a b v : eval m p rho (EBin (BI o) a b) = Ok v ->
  (exists t t' x y r, eval m p rho a = Ok (VI t x) /\ eval m p rho b = Ok (VI t' y) /\
     v = VI t r /\ int_op m p t o x y = Ok r /\ (match o with OShl | OShr => True | _ => t' = t end))
  \/ (exists x y r, eval m p rho a = Ok (VB x) /\ eval m p rho b = Ok (VB y) /\ v = VB r /\
       match o with OAnd => r = x && y | OOr => r = x || y | OXor => r = xorb x y | _ => False end)
  \/ (exists x y r, eval m p rho a = Ok (VF x) /\ eval m p rho b = Ok (VF y) /\ v = VF r /\ float_op o x y = Some r).
Proof.
  intros H. cbn [eval] in H. inv_bind H.
  destruct v0 as [t z|x|f|t o0], v1 as [t' z'|y|f'|t' o']; try discriminate.
  - left.
    destruct (ity_eqb t t') eqn:Et; [apply ity_eqb_eq in Et; subst t'|];
      destruct o; try discriminate; apply rbind_Ok in H as (r & Hr & H); injection H as <-;
      do 5 eexists; eauto 10.
  - right; left. destruct o; try discriminate; injection H as <-; do 3 eexists; eauto.
  - right; right. destruct (float_op o f f') eqn:F; [|discriminate]. injection H as <-. do 3 eexists; eauto.
Qed.
Lemma eval_bi m p rho o a b t x y r :
  eval m p rho a = Ok (VI t x) -> eval m p rho b = Ok (VI t y) -> int_op m p t o x y = Ok r ->
  eval m p rho (EBin (BI o) a b) = Ok (VI t r).
Proof. intros Ha Hb Hr. cbn [eval]. rewrite Ha, Hb. cbn [rbind]. rewrite ity_eqb_refl. destruct o; rewrite Hr; reflexivity. Qed.

(** Inversion of a comparison. *)
Lemma eval_cmp_inv m p rho c a b v : eval m p rho (EBin (BC c) a b) = Ok v ->
  exists va vb o, eval m p rho a = Ok va /\ eval m p rho b = Ok vb /\ val_cmp va vb = Ok o /\ v = VB (cmp_of c o).
Proof. intros H. cbn [eval] in H. inv_bind H. injection H as <-. eauto 10. Qed.

Lemma cmp_of_Z c x y : cmp_of c (Some (x ?= y)) = cmp_op c x y.
Proof. destruct c; cbn; unfold Z.ltb, Z.leb; rewrite ?(Z.compare_antisym x y), ?Z.eqb_compare; destruct (x ?= y); reflexivity. Qed.

Lemma eval_cmp_int_inv m p rho c a b t v : ty_of a = Some (TI t) -> eval m p rho (EBin (BC c) a b) = Ok v ->
  exists x y, eval m p rho a = Ok (VI t x) /\ eval m p rho b = Ok (VI t y) /\ v = VB (cmp_op c x y).
Proof.
  intros Ht H. apply eval_cmp_inv in H as (va & vb & o & Ha & Hb & Ho & ->).
  destruct (eval_int_ty _ _ _ _ _ _ Ht Ha) as (x & -> & Hx). destruct vb as [t' y| | |]; try discriminate.
  cbn in Ho. destruct (ity_eqb t t') eqn:E; [|discriminate]. apply ity_eqb_eq in E. subst t'. injection Ho as <-.
  exists x, y. now rewrite cmp_of_Z.
Qed.
Lemma eval_cmp_int m p rho c a b t x y : eval m p rho a = Ok (VI t x) -> eval m p rho b = Ok (VI t y) ->
  eval m p rho (EBin (BC c) a b) = Ok (VB (cmp_op c x y)).
Proof. intros Ha Hb. cbn [eval]. rewrite Ha, Hb. cbn [rbind val_cmp]. rewrite ity_eqb_refl. cbn [rbind]. now rewrite cmp_of_Z. Qed.

(** Typed version of [eval_bi_inv] for an integer-typed left operand. *)
Lemma eval_bi_int_inv m p rho o a b t v : ty_of a = Some (TI t) -> eval m p rho (EBin (BI o) a b) = Ok v ->
  exists t' x y r, eval m p rho a = Ok (VI t x) /\ eval m p rho b = Ok (VI t' y) /\ inr p t x = true /\ inr p t' y = true /\
     v = VI t r /\ int_op m p t o x y = Ok r /\ (match o with OShl | OShr => True | _ => t' = t end).
Proof.
  intros Ht H. apply eval_bi_inv in H as [(t0 & t' & x & y & r & Ha & Hb & -> & Hr & Hs)|[(x & y & r & Ha & _)|(x & y & r & Ha & _)]].
  - pose proof (eval_int_ty _ _ _ _ _ _ Ht Ha) as (z & [= -> ->] & Hx). exists t', z, y, r.
    apply eval_VI_range in Hb as Hy. auto 10.
  - pose proof (eval_int_ty _ _ _ _ _ _ Ht Ha) as (z & [=] & _).
  - pose proof (eval_int_ty _ _ _ _ _ _ Ht Ha) as (z & [=] & _).
Qed.
