(** Proofs about the bit-mask lints. *)
From Verif Require Import RustFacts ConstProofs ConstMore LintSpec CmpModel ArithProofs ConstSpec.
Open Scope Z_scope.

Definition bz (b : bitop) (x k : Z) : Z :=
  match b with BtXor => Z.lxor x k | BtAnd => Z.land x k | BtOr => Z.lor x k end.

Lemma cmpop_from_ok c y K : cmp_op c y K = matches_ordering (cmpop_from c) (y ?= K).
Proof. destruct c; unfold matches_ordering; cbn; unfold Z.ltb, Z.leb; rewrite ?Z.eqb_compare, ?(Z.compare_antisym y K);
  destruct (y ?= K) eqn:E; reflexivity. Qed.
Lemma cmpop_swap_ok c y K : cmp_op c K y = matches_ordering (cmpop_swap (cmpop_from c)) (y ?= K).
Proof. destruct c; unfold matches_ordering; cbn; unfold Z.ltb, Z.leb; rewrite ?Z.eqb_compare, ?(Z.compare_antisym y K);
  destruct (y ?= K) eqn:E; reflexivity. Qed.

Lemma to_bits_inj p t a b : inr p t a = true -> inr p t b = true -> to_bits p t a = to_bits p t b -> a = b.
Proof. intros Ha Hb E. rewrite <- (of_to_bits p t a Ha), <- (of_to_bits p t b Hb). now rewrite E. Qed.
Lemma to_bits_0 p t : to_bits p t 0 = 0.
Proof. unfold to_bits. apply Z.mod_0_l. pose proof (pow_bits_pos p t). lia. Qed.
Lemma to_bits_0_inv p t z : inr p t z = true -> to_bits p t z = 0 -> z = 0.
Proof. intros H E. apply (to_bits_inj p t); [auto|apply inr_small; lia|now rewrite to_bits_0]. Qed.
Lemma to_bits_land p t a b : to_bits p t (Z.land a b) = Z.land (to_bits p t a) (to_bits p t b).
Proof.
  unfold to_bits. pose proof (bits_pos p t). apply Z.bits_inj'. intros i Hi.
  rewrite Z.land_spec. destruct (Z.lt_ge_cases i (bits p t)).
  - rewrite !Z.mod_pow2_bits_low by lia. apply Z.land_spec.
  - rewrite !Z.mod_pow2_bits_high by lia. reflexivity.
Qed.
Lemma to_bits_lor p t a b : to_bits p t (Z.lor a b) = Z.lor (to_bits p t a) (to_bits p t b).
Proof.
  unfold to_bits. pose proof (bits_pos p t). apply Z.bits_inj'. intros i Hi.
  rewrite Z.lor_spec. destruct (Z.lt_ge_cases i (bits p t)).
  - rewrite !Z.mod_pow2_bits_low by lia. apply Z.lor_spec.
  - rewrite !Z.mod_pow2_bits_high by lia. reflexivity.
Qed.

Lemma land_le_r x k : 0 <= k -> Z.land x k <= k.
Proof.
  intros Hk. assert (k = Z.land x k + Z.ldiff k x) as E.
  { rewrite Z.add_nocarry_lxor; apply Z.bits_inj'; intros i _; rewrite ?Z.lxor_spec, ?Z.lor_spec, ?Z.land_spec, ?Z.ldiff_spec, ?Z.bits_0, ?Z.land_spec, ?Z.ldiff_spec; destruct (Z.testbit k i), (Z.testbit x i); reflexivity. }
  assert (0 <= Z.ldiff k x) by (apply Z.ldiff_nonneg; auto). lia.
Qed.
Lemma lor_ge_r x k : 0 <= x -> 0 <= k -> k <= Z.lor x k.
Proof.
  intros Hx Hk. assert (Z.lor x k = k + Z.ldiff x k) as E.
  { rewrite Z.add_nocarry_lxor; apply Z.bits_inj'; intros i _; rewrite ?Z.lxor_spec, ?Z.lor_spec, ?Z.land_spec, ?Z.ldiff_spec, ?Z.bits_0, ?Z.land_spec, ?Z.ldiff_spec; destruct (Z.testbit k i), (Z.testbit x i); reflexivity. }
  assert (0 <= Z.ldiff x k) by (apply Z.ldiff_nonneg; auto). lia.
Qed.

Lemma no_high_bits j k : 0 <= j < 128 -> 0 <= k < 2 ^ 128 ->
  Z.land (u128w ((2 ^ 128 - 1) * 2 ^ j)) k = 0 -> k < 2 ^ j.
Proof.
  intros Hj Hk E.
  assert (Z.shiftr k j = 0) as S.
  { apply Z.bits_inj'. intros i Hi. rewrite Z.bits_0, Z.shiftr_spec by lia.
    destruct (Z.lt_ge_cases (i + j) 128) as [L|G].
    - apply (f_equal (fun z => Z.testbit z (i + j))) in E. rewrite Z.land_spec, Z.bits_0 in E.
      unfold u128w in E. rewrite Z.mod_pow2_bits_low in E by lia.
      rewrite <- Z.shiftl_mul_pow2, Z.shiftl_spec in E by lia.
      replace (i + j - j) with i in E by lia.
      change (2 ^ 128 - 1) with (Z.ones 128) in E. rewrite Z.ones_spec_low in E by lia. exact E.
    - destruct (Z.eq_dec k 0) as [->|]; [apply Z.bits_0|].
      apply Z.bits_above_log2; [lia|]. assert (Z.log2 k < 128) by (apply Z.log2_lt_pow2; lia). lia. }
  rewrite Z.shiftr_div_pow2 in S by lia. pose proof (p2_pos j). 
  apply Z.div_small_iff in S; lia.
Qed.

Lemma low_or_xor b x k j : (b = BtOr \/ b = BtXor) -> 0 <= j -> 0 <= x -> 0 <= k < 2 ^ j -> bz b x k / 2 ^ j = x / 2 ^ j.
Proof.
  intros Hb Hj Hx Hk. rewrite <- !Z.shiftr_div_pow2 by lia.
  assert (Z.shiftr k j = 0) as E by (rewrite Z.shiftr_div_pow2 by lia; apply Z.div_small; lia).
  destruct Hb as [->| ->]; cbn [bz]; rewrite ?Z.shiftr_lor, ?Z.shiftr_lxor, E, ?Z.lor_0_r, ?Z.lxor_0_r; reflexivity.
Qed.
Lemma bz_nonneg b x k : 0 <= x -> 0 <= k -> 0 <= bz b x k.
Proof. intros. destruct b; cbn; [apply Z.lxor_nonneg|apply Z.land_nonneg|apply Z.lor_nonneg]; tauto. Qed.
Lemma bz_range p t b x k : inr p t x = true -> inr p t k = true -> inr p t (bz b x k) = true.
Proof. destruct b; [apply lxor_range|apply land_range|apply lor_range]. Qed.
Lemma bz_comm b x k : bz b x k = bz b k x.
Proof. destruct b; [apply Z.lxor_comm|apply Z.land_comm|apply Z.lor_comm]. Qed.

(** Comparing with a multiple of [2^j] only looks at the high bits. *)
Lemma lt_mult x y K q j : 0 <= j -> K = q * 2 ^ j -> x / 2 ^ j = y / 2 ^ j -> (x < K <-> y < K).
Proof.
  intros Hj -> E. pose proof (p2_pos j Hj).
  assert (G : forall z, z < q * 2 ^ j <-> z / 2 ^ j < q).
  { intros z. split; intros L.
    - apply Z.div_lt_upper_bound; lia.
    - apply Z.nle_gt. intros N. pose proof (Z.div_le_lower_bound z (2 ^ j) q). lia. }
  rewrite !G, E. reflexivity.
Qed.

Lemma matches_lt o y K z : ck_kind o = KLt -> (y < K <-> z < K) -> matches_ordering o (y ?= K) = matches_ordering o (z ?= K).
Proof.
  intros E H. unfold matches_ordering. rewrite E.
  destruct (Z.compare_spec y K), (Z.compare_spec z K); try reflexivity; exfalso; lia.
Qed.
Lemma matches_gt o y K z : ck_kind o = KGt -> (y < K + 1 <-> z < K + 1) -> matches_ordering o (y ?= K) = matches_ordering o (z ?= K).
Proof.
  intros E H. unfold matches_ordering. rewrite E.
  destruct (Z.compare_spec y K), (Z.compare_spec z K); try reflexivity; exfalso; lia.
Qed.

(** What the verdict [v] says about the value of `(x b k) o K`. *)
Definition mask_claim (p : ptrw) (t : ity) (o : cmpop) (b : bitop) (x k K : Z) (v : mask_verdict) : Prop :=
  match v with
  | MAlways r =>
      (b = BtAnd /\ k = 0 /\ r = matches_ordering o (0 ?= to_bits p t K)) \/
      (~ (b = BtAnd /\ k = 0) /\ ck_kind o = KGt /\ ity_signed t = false /\ matches_ordering o (bz b x k ?= K) = negb r) \/
      (ck_kind o <> KGt /\ matches_ordering o (bz b x k ?= K) = r)
  | MIneffective => matches_ordering o (bz b x k ?= K) = matches_ordering o (x ?= K)
  end.

Lemma mask_core p t o b x k K v :
  inr p t x = true -> inr p t k = true -> inr p t K = true ->
  mask_table o b (ity_signed t) (to_bits p t k) (to_bits p t K) = Some v ->
  mask_claim p t o b x k K v.
Proof.
  intros Hx Hk HK H.
  pose proof (to_bits_range p t k) as Rk. pose proof (to_bits_range p t K) as RK.
  unfold mask_table in H.
  assert (HA : b = BtAnd -> to_bits p t k = 0 -> Some (MAlways (matches_ordering o (0 ?= to_bits p t K))) = Some v -> mask_claim p t o b x k K v).
  { intros -> E0 E. apply Some_inj in E. subst v. apply to_bits_0_inv in E0; auto. subst k. left. auto. }
  assert (HB : ~ (b = BtAnd /\ k = 0) -> (match ck_kind o with
      | KEq =>
          match b with
          | BtAnd => if negb (Z.land (to_bits p t k) (to_bits p t K) =? (to_bits p t K)) then Some (MAlways (ck_negate o)) else None
          | BtOr => if negb (Z.lor (to_bits p t k) (to_bits p t K) =? (to_bits p t K)) then Some (MAlways (ck_negate o)) else None
          | BtXor => None
          end
      | KLt =>
          if ity_signed t then None else
          let ineffective := Z.land (max_wrapping_shl (ctz 128 (to_bits p t K))) (to_bits p t k) =? 0 in
          match b with
          | BtAnd => if (to_bits p t k) <? (to_bits p t K) then Some (MAlways (negb (ck_negate o))) else None
          | BtOr => if (to_bits p t K) <=? (to_bits p t k) then Some (MAlways (ck_negate o))
                    else if ineffective then Some MIneffective else None
          | BtXor => if ((to_bits p t k) =? 0) && ((to_bits p t K) =? 0) then Some (MAlways (ck_negate o))
                     else if ineffective then Some MIneffective else None
          end
      | KGt =>
          if ity_signed t then None else
          let ineffective := Z.land (max_unbounded_shl (trailing_ones128 (to_bits p t K))) (to_bits p t k) =? 0 in
          match b with
          | BtAnd => if (to_bits p t k) <=? (to_bits p t K) then Some (MAlways (negb (ck_negate o))) else None
          | BtOr => if (to_bits p t K) <? (to_bits p t k) then Some (MAlways (ck_negate o))
                    else if ineffective then Some MIneffective else None
          | BtXor => if ineffective then Some MIneffective else None
          end
      end) = Some v -> mask_claim p t o b x k K v).
  { clear HA H. intros NZ H.
    destruct (ck_kind o) eqn:Ek.
    - (* == *)
      assert (G : forall f, bz b x k = K -> f = K -> True) by auto. clear G.
      assert (NE : bz b x k <> K -> matches_ordering o (bz b x k ?= K) = ck_negate o).
      { intros N. unfold matches_ordering. rewrite Ek. destruct (Z.compare_spec (bz b x k) K); try lia; destruct (ck_negate o); reflexivity. }
      destruct b; [discriminate| |].
      + destruct (Z.eqb_spec (Z.land (to_bits p t k) (to_bits p t K)) (to_bits p t K)) as [|N]; [discriminate|].
        apply Some_inj in H. subst v. right; right; split; [congruence|]. apply NE. cbn [bz] in *. intros E. apply N.
        rewrite <- E, to_bits_land. apply Z.bits_inj'; intros i _; rewrite !Z.land_spec.
        destruct (Z.testbit (to_bits p t x) i), (Z.testbit (to_bits p t k) i); reflexivity.
      + destruct (Z.eqb_spec (Z.lor (to_bits p t k) (to_bits p t K)) (to_bits p t K)) as [|N]; [discriminate|].
        apply Some_inj in H. subst v. right; right; split; [congruence|]. apply NE. cbn [bz] in *. intros E. apply N.
        rewrite <- E, to_bits_lor. apply Z.bits_inj'; intros i _; rewrite !Z.lor_spec.
        destruct (Z.testbit (to_bits p t x) i), (Z.testbit (to_bits p t k) i); reflexivity.
    - (* < *)
      destruct (ity_signed t) eqn:Es; [discriminate|].
      rewrite (to_bits_unsigned p t k Es Hk), (to_bits_unsigned p t K Es HK) in *.
      pose proof (to_bits_range p t x) as Rx. rewrite (to_bits_unsigned p t x Es Hx) in Rx.
      assert (2 ^ bits p t <= 2 ^ 128) by (apply Z.pow_le_mono_r; [lia|apply bits_le128]).
      assert (LT : bz b x k < K -> matches_ordering o (bz b x k ?= K) = negb (ck_negate o)).
      { intros N. unfold matches_ordering. rewrite Ek. destruct (Z.compare_spec (bz b x k) K); try lia; destruct (ck_negate o); reflexivity. }
      assert (GE : K <= bz b x k -> matches_ordering o (bz b x k ?= K) = ck_negate o).
      { intros N. unfold matches_ordering. rewrite Ek. destruct (Z.compare_spec (bz b x k) K); try lia; destruct (ck_negate o); reflexivity. }
      assert (IN : (b = BtOr \/ b = BtXor) -> Z.land (max_wrapping_shl (ctz 128 K)) k = 0 ->
        matches_ordering o (bz b x k ?= K) = matches_ordering o (x ?= K)).
      { intros Hb E. unfold max_wrapping_shl in E.
        destruct K as [|q|q]; cbn [ctz] in E; [| |lia].
        - change (128 mod 128) with 0 in E. apply no_high_bits in E; [|lia|lia].
          assert (k = 0) by (change (2 ^ 0) with 1 in E; lia). subst k.
          destruct Hb as [->| ->]; cbn [bz]; rewrite ?Z.lor_0_r, ?Z.lxor_0_r; reflexivity.
        - destruct (pos_ctz_spec q) as (o' & Eq & Hc & Ho).
          assert (pos_ctz q < 128).
          { apply (Z.pow_lt_mono_r_iff 2); [lia|lia|]. pose proof (p2_pos (pos_ctz q) Hc). nia. }
          rewrite Z.mod_small in E by lia. apply no_high_bits in E; [|lia|lia].
          apply matches_lt; auto. apply (lt_mult _ _ _ (2 * o' + 1) (pos_ctz q)); auto; [lia|].
          apply low_or_xor; auto; lia. }
      cbv zeta in H. destruct b.
      + destruct ((k =? 0) && (K =? 0)) eqn:E0.
        * apply andb_prop in E0 as [E1 E2]. apply Some_inj in H. subst v. right; right; split; [congruence|]. apply GE.
          pose proof (bz_nonneg BtXor x k). lia.
        * destruct (Z.eqb_spec (Z.land (max_wrapping_shl (ctz 128 K)) k) 0); [|discriminate].
          apply Some_inj in H. subst v. apply IN; auto.
      + destruct (Z.ltb_spec k K); [|discriminate]. apply Some_inj in H. subst v. right; right; split; [congruence|]. apply LT.
        cbn [bz]. pose proof (land_le_r x k). lia.
      + destruct (Z.leb_spec K k).
        * apply Some_inj in H. subst v. right; right; split; [congruence|]. apply GE. cbn [bz]. pose proof (lor_ge_r x k). lia.
        * destruct (Z.eqb_spec (Z.land (max_wrapping_shl (ctz 128 K)) k) 0); [|discriminate].
          apply Some_inj in H. subst v. apply IN; auto.
    - (* > *)
      destruct (ity_signed t) eqn:Es; [discriminate|].
      rewrite (to_bits_unsigned p t k Es Hk), (to_bits_unsigned p t K Es HK) in *.
      pose proof (to_bits_range p t x) as Rx. rewrite (to_bits_unsigned p t x Es Hx) in Rx.
      assert (2 ^ bits p t <= 2 ^ 128) by (apply Z.pow_le_mono_r; [lia|apply bits_le128]).
      assert (GT : K < bz b x k -> matches_ordering o (bz b x k ?= K) = negb (ck_negate o)).
      { intros N. unfold matches_ordering. rewrite Ek. destruct (Z.compare_spec (bz b x k) K); try lia; destruct (ck_negate o); reflexivity. }
      assert (LE : bz b x k <= K -> matches_ordering o (bz b x k ?= K) = ck_negate o).
      { intros N. unfold matches_ordering. rewrite Ek. destruct (Z.compare_spec (bz b x k) K); try lia; destruct (ck_negate o); reflexivity. }
      assert (IN : (b = BtOr \/ b = BtXor) -> Z.land (max_unbounded_shl (trailing_ones128 K)) k = 0 ->
        matches_ordering o (bz b x k ?= K) = matches_ordering o (x ?= K)).
      { intros Hb E. unfold max_unbounded_shl, trailing_ones128 in E.
        destruct (2 ^ 128 - 1 - K) as [|q|q] eqn:EK; cbn [ctz] in E; [| |lia].
        - pose proof (bz_range p t b x k Hx Hk) as Ry.
          assert (bz b x k < 2 ^ 128).
          { rewrite <- (to_bits_unsigned p t _ Es Ry). pose proof (to_bits_range p t (bz b x k)). lia. }
          apply matches_gt; auto. lia.
        - destruct (pos_ctz_spec q) as (o' & Eq & Hc & Ho).
          assert (pos_ctz q < 128).
          { apply (Z.pow_lt_mono_r_iff 2); [lia|lia|]. pose proof (p2_pos (pos_ctz q) Hc). nia. }
          destruct (Z.ltb_spec (pos_ctz q) 128); [|lia]. apply no_high_bits in E; [|lia|lia].
          apply matches_gt; auto.
          apply (lt_mult _ _ _ (2 ^ (128 - pos_ctz q) - (2 * o' + 1)) (pos_ctz q)); auto.
          + rewrite Z.mul_sub_distr_r, <- Z.pow_add_r by lia. replace (128 - pos_ctz q + pos_ctz q) with 128 by lia. lia.
          + apply low_or_xor; auto; lia. }
      cbv zeta in H. destruct b.
      + destruct (Z.eqb_spec (Z.land (max_unbounded_shl (trailing_ones128 K)) k) 0); [|discriminate].
        apply Some_inj in H. subst v. apply IN; auto.
      + destruct (Z.leb_spec k K); [|discriminate]. apply Some_inj in H. subst v.
        right; left. split; [auto|split; [auto|split; [auto|]]]. rewrite Bool.negb_involutive. apply LE.
        cbn [bz]. pose proof (land_le_r x k). lia.
      + destruct (Z.ltb_spec K k).
        * apply Some_inj in H. subst v. right; left. split; [auto|split; [auto|split; [auto|]]]. apply GT.
          cbn [bz]. pose proof (lor_ge_r x k). lia.
        * destruct (Z.eqb_spec (Z.land (max_unbounded_shl (trailing_ones128 K)) k) 0); [|discriminate].
          apply Some_inj in H. subst v. apply IN; auto. }
  destruct b; [apply HB, H; intros [? ?]; discriminate| |apply HB, H; intros [? ?]; discriminate].
  destruct (Z.eqb_spec (to_bits p t k) 0); [apply HA; auto|apply HB, H].
  intros [_ ->]. now rewrite to_bits_0 in n.
Qed.
