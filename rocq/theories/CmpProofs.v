(** Proofs about the comparison lints. *)
From Coq Require Import SpecFloat.
From Verif Require Import RustFacts ConstProofs ConstMore LintSpec CmpModel RotateProofs ArithProofs ArithProofs2 ConstSpec MaskProofs MaskProofs2 CmpSpec.
Open Scope Z_scope.

(** ** verbose_bit_mask *)
Lemma full_ones q : pos_ones q = Z.log2 (Zpos q) + 1 -> Zpos q = 2 ^ pos_ones q - 1.
Proof.
  induction q as [q IH|q IH|]; cbn [pos_ones]; intros H.
  - change (Z.pos q~1) with (2 * Z.pos q + 1) in *. rewrite Z.log2_succ_double in H by lia.
    rewrite Z.pow_add_r by (pose proof (pos_ones_bound q); lia). specialize (IH ltac:(lia)). lia.
  - change (Z.pos q~0) with (2 * Z.pos q) in *. rewrite Z.log2_double in H by lia. pose proof (pos_ones_bound q). lia.
  - reflexivity.
Qed.
Lemma low_mask n : 0 <= n -> clz 128 n = 128 - ones n -> n = 2 ^ ones n - 1.
Proof.
  intros Hn H. unfold clz in H. destruct n as [|q|q]; [reflexivity| |lia]. cbn [ones] in *.
  destruct (Z.eqb_spec (Z.pos q) 0); [lia|]. apply full_ones. lia.
Qed.
Lemma ctz_dvd w u k : 0 <= u < 2 ^ w -> 0 <= k <= w -> (k <=? ctz w u) = (u mod 2 ^ k =? 0).
Proof.
  intros Hu Hk. destruct u as [|q|q]; [| |lia].
  - cbn [ctz]. rewrite Zmod_0_l. destruct (Z.leb_spec k w); [reflexivity|lia].
  - cbn [ctz]. destruct (pos_ctz_spec q) as (o & E & Hc & Ho). rewrite E.
    destruct (Z.leb_spec k (pos_ctz q)) as [L|G].
    + symmetry. apply Z.eqb_eq. replace (pos_ctz q) with ((pos_ctz q - k) + k) by lia.
      rewrite Z.pow_add_r by lia. rewrite <- Z.mul_assoc, (Z.mul_comm (2 ^ k)), Z.mul_assoc. apply Z.mod_mul. pose proof (p2_pos k). lia.
    + symmetry. apply Z.eqb_neq. intros M. apply Z.mod_divide in M; [|pose proof (p2_pos k); lia].
      destruct M as [d M]. replace k with ((k - pos_ctz q - 1) + 1 + pos_ctz q) in M by lia.
      rewrite !Z.pow_add_r in M by lia. change (2 ^ 1) with 2 in M. pose proof (p2_pos (pos_ctz q) Hc).
      assert (2 * o + 1 = 2 * (d * 2 ^ (k - pos_ctz q - 1))) by (apply (Z.mul_reg_l _ _ (2 ^ pos_ctz q)); lia). lia.
Qed.

Lemma verbose_bit_mask_sound m p rho th e e' : verbose_bit_mask th e = Some e' -> preserves m p rho e e'.
Proof.
  destruct e as [| | | | | |[|[]| |] l r| | | | | |]; try discriminate.
  destruct l as [| | | | | |[[]| | |] x n'| | | | | |]; try discriminate.
  destruct n' as [tn n| | | | | | | | | | | |]; try discriminate. destruct r as [tz z| | | | | | | | | | | |]; try discriminate.
  cbn [verbose_bit_mask]. destruct ((z =? 0) && (clz 128 n =? 128 - ones n) && (th <? n)) eqn:G; [|discriminate].
  apply andb_prop in G as [G _]. apply andb_prop in G as [Gz Gn]. apply Z.eqb_eq in Gz, Gn. subst z.
  intros H w Hw. apply Some_inj in H. subst e'.
  apply eval_cmp_inv in Hw as (va & vb & o & Ha & Hb & Hc & ->).
  apply eval_bi_inv in Ha as [(t & t' & xz & y & r & Ex & En & -> & Hop & ->)|[(xb & yb & rb & _ & En & _)|(xb & yb & rb & _ & En & _)]];
    [|apply eval_lit_inv in En as [? _]; discriminate|apply eval_lit_inv in En as [? _]; discriminate].
  pose proof (eval_VI_range _ _ _ _ _ _ Ex) as Rx.
  apply eval_lit_inv in En as (En & Hn & Rn). injection En as -> ->. apply eval_lit_inv in Hb as (-> & _ & _).
  cbn in Hop. injection Hop as <-. cbn in Hc. destruct (ity_eqb tn tz); [|discriminate]. injection Hc as <-.
  pose proof (low_mask n Hn Gn) as Em. set (k := ones n) in *.
  assert (0 <= k) by (unfold k; destruct n as [|q|q]; cbn; try lia; pose proof (pos_ones_bound q); lia).
  assert (Hk : k <= bits p tn).
  { apply inr_iff in Rn. apply (Z.pow_le_mono_r_iff 2); [lia|pose proof (bits_pos p tn); lia|].
    unfold imax in Rn. pose proof (half_double p tn). pose proof (half_pos p tn). destruct (ity_signed tn); lia. }
  assert (E2 : eval m p rho (EM0 MTrailingZeros x) = Ok (VI u32 (ctz (bits p tn) (to_bits p tn xz)))) by (cbn [eval]; rewrite Ex; reflexivity).
  assert (E3 : eval m p rho (ELit u32 k) = Ok (VI u32 k)).
  { cbn [eval]. rewrite inr_u32_small by (pose proof (bits_le128 p tn); lia). destruct (Z.leb_spec 0 k); [reflexivity|lia]. }
  rewrite (eval_cmp_int _ _ _ CGe _ _ _ _ _ E2 E3). rewrite cmp_of_Z. cbn [cmp_op].
  rewrite ctz_dvd by (try apply to_bits_range; lia). do 2 f_equal. f_equal.
  rewrite Em, land_mask by lia. unfold to_bits.
  apply mod_dvd; [apply p2_pos; lia|]. exists (2 ^ (bits p tn - k)). rewrite <- Z.pow_add_r by lia. f_equal. lia.
Qed.

(** ** normalize_comparison *)
Lemma SFcompare_sym a b : SFcompare b a = option_map CompOpp (SFcompare a b).
Proof.
  destruct a as [[]|[]| |[] ma ea], b as [[]|[]| |[] mb eb]; try reflexivity; unfold SFcompare;
    rewrite (Z.compare_antisym ea eb); destruct (ea ?= eb)%Z; cbn [CompOpp option_map]; try reflexivity.
  - f_equal. change (Pos.compare_cont Eq mb ma) with (mb ?= ma)%positive. change (Pos.compare_cont Eq ma mb) with (ma ?= mb)%positive.
    now rewrite (Pos.compare_antisym ma mb).
  - f_equal. change (Pos.compare_cont Eq mb ma) with (mb ?= ma)%positive. change (Pos.compare_cont Eq ma mb) with (ma ?= mb)%positive.
    now rewrite (Pos.compare_antisym ma mb).
Qed.
Lemma val_cmp_sym a b o : val_cmp a b = Ok o -> val_cmp b a = Ok (option_map CompOpp o).
Proof.
  destruct a as [t x|x|x|], b as [t' y|y|y|]; cbn; intros H; try discriminate.
  - destruct (ity_eqb t t') eqn:E; [|discriminate]. apply ity_eqb_eq in E. subst. rewrite ity_eqb_refl. injection H as <-. cbn. now rewrite Z.compare_antisym.
  - injection H as <-. cbn. now rewrite (Z.compare_antisym (Z.b2z x)).
  - injection H as <-. now rewrite SFcompare_sym.
Qed.
Lemma cmp_flip m p rho c c' l r v :
  (forall o, cmp_of c' (option_map CompOpp o) = cmp_of c o) ->
  eval m p rho (EBin (BC c) l r) = Ok v -> eval m p rho (EBin (BC c') r l) = Ok v.
Proof.
  intros Hc H. apply eval_cmp_inv in H as (va & vb & o & Ha & Hb & Ho & ->). apply val_cmp_sym in Ho.
  cbn [eval]. rewrite Ha, Hb. cbn [rbind]. rewrite Ho. cbn [rbind]. now rewrite Hc.
Qed.
Lemma normalize_comparison_sound m p rho c l r re l' r' v : normalize_comparison c l r = (re, l', r') ->
  (eval m p rho (EBin (BC c) l r) = Ok v <-> eval m p rho (EBin (BC (rel_cop re)) l' r') = Ok v).
Proof.
  destruct c; cbn [normalize_comparison]; intros H; injection H as <- <- <-; cbn [rel_cop]; try reflexivity;
    split; apply cmp_flip; intros [[]|]; reflexivity.
Qed.

(** ** absurd_extreme_comparisons *)
Lemma div_pow_exact a b c : 0 < b -> a = c * b -> a / b = c.
Proof. intros H ->. apply Z.div_mul. lia. Qed.
Lemma signed_min_const p t : - 2 ^ 127 / 2 ^ (128 - bits p t) = - 2 ^ (bits p t - 1).
Proof.
  apply div_pow_exact; [apply p2_pos; pose proof (bits_le128 p t); lia|]. rewrite (pow_split' p t). lia.
Qed.
Lemma signed_max_const p t : (2 ^ 127 - 1) / 2 ^ (128 - bits p t) = 2 ^ (bits p t - 1) - 1.
Proof.
  rewrite (pow_split' p t). pose proof (p2_pos (128 - bits p t) ltac:(pose proof (bits_le128 p t); lia)).
  symmetry. apply (Z.div_unique _ _ _ (2 ^ (128 - bits p t) - 1)); lia.
Qed.

Definition rank (v : val) : Z := match v with VI _ z => z | VB b => Z.b2z b | _ => 0 end.
Lemma val_cmp_rank a b o : val_cmp a b = Ok o -> (forall f, a <> VF f) -> o = Some (rank a ?= rank b) /\ val_ty a = val_ty b.
Proof.
  destruct a as [t x|x|x|], b as [t' y|y|y|]; cbn; intros H N; try discriminate.
  - destruct (ity_eqb t t') eqn:E; [|discriminate]. apply ity_eqb_eq in E. subst. injection H as <-. auto.
  - injection H as <-. auto.
  - now destruct (N x).
Qed.

Lemma detect_extreme_sound m p rho e x v : detect_extreme p e = Some x -> eval m p rho e = Ok v ->
  (forall f, v <> VF f) /\
  forall w, val_wf p w = true -> val_ty w = val_ty v ->
    match x with XMin => rank v <= rank w | XMax => rank w <= rank v end.
Proof.
  unfold detect_extreme. intros H Hv. destruct (eval_wf _ _ _ _ _ Hv) as [Hw Ht].
  destruct (ty_of e) as [[t| | |]|] eqn:E; try discriminate.
  - specialize (Ht _ eq_refl). destruct v as [t' z| | |]; cbn in Ht; try discriminate. injection Ht as ->. cbn in Hw.
    destruct (ceval p p e) as [[u| |]|] eqn:Ec; try discriminate.
    pose proof (ceval_sound_denotes _ _ _ _ _ _ Ec Hv) as D. cbn in D. subst u.
    split; [congruence|]. intros w Ww Wt. destruct w as [tw y| | |]; cbn in Wt; try discriminate. injection Wt as ->. cbn in Ww |- *.
    apply inr_iff in Ww. 
    assert (M1 : to_bits p t z = to_bits p t (imin p t) -> z = imin p t).
    { apply to_bits_inj; auto. apply inr_iff. pose proof (imin_imax p t). lia. }
    assert (M2 : to_bits p t z = to_bits p t (imax p t) -> z = imax p t).
    { apply to_bits_inj; auto. apply inr_iff. pose proof (imin_imax p t). lia. }
    assert (S : ity_signed t = true -> imin p t = - 2 ^ (bits p t - 1) /\ imax p t = 2 ^ (bits p t - 1) - 1) by (unfold imin, imax; intros ->; auto).
    assert (U : ity_signed t = false -> imin p t = 0 /\ imax p t = 2 ^ bits p t - 1) by (unfold imin, imax; intros ->; auto).
    destruct (ity_signed t) eqn:Es.
    + destruct (S eq_refl) as [S1 S2]. rewrite signed_min_const, signed_max_const, !unsext_to_bits, <- S1, <- S2 in H.
      destruct (Z.eqb_spec (to_bits p t z) (to_bits p t (imin p t))) as [e0|_].
      * apply Some_inj in H. subst x. rewrite (M1 e0). lia.
      * destruct (Z.eqb_spec (to_bits p t z) (to_bits p t (imax p t))) as [e0|_]; [|discriminate].
        apply Some_inj in H. subst x. rewrite (M2 e0). lia.
    + destruct (U eq_refl) as [U1 U2]. rewrite clip_mod in H.
      destruct (Z.eqb_spec (to_bits p t z) 0) as [e0|_].
      * apply Some_inj in H. subst x. rewrite M1, U1; [lia|]. rewrite U1, to_bits_0. auto.
      * destruct (Z.eqb_spec (to_bits p t z) ((2 ^ 128 - 1) mod 2 ^ bits p t)) as [e0|_]; [|discriminate].
        apply Some_inj in H. subst x. rewrite M2; [lia|]. rewrite U2, e0. unfold to_bits.
        replace (2 ^ 128 - 1) with (2 ^ bits p t - 1 + (2 ^ (128 - bits p t) - 1) * 2 ^ bits p t) by (rewrite (pow_split p t); lia).
        apply Z.mod_add. pose proof (pow_bits_pos p t). lia.
  - specialize (Ht _ eq_refl). destruct v as [|b| |]; cbn in Ht; try discriminate.
    destruct (ceval p p e) as [[|c|]|] eqn:Ec; try discriminate.
    pose proof (ceval_sound_denotes _ _ _ _ _ _ Ec Hv) as D. cbn in D. subst c.
    split; [congruence|]. intros w Ww Wt. destruct w as [|y| |]; cbn in Wt; try discriminate. cbn.
    destruct b; apply Some_inj in H; subst x; destruct y; cbn; lia.
Qed.

Lemma absurd_norm m p rho re l r v a : eval m p rho (EBin (BC (rel_cop re)) l r) = Ok v ->
  (match re with
        | RLt =>
            match detect_extreme p l, detect_extreme p r with
            | Some XMax, _ => Some AlwaysFalse
            | _, Some XMin => Some AlwaysFalse
            | _, _ => None
            end
        | RLe =>
            match detect_extreme p l, detect_extreme p r with
            | Some XMin, _ => Some AlwaysTrue
            | Some XMax, _ => Some InequalityImpossible
            | _, Some XMin => Some InequalityImpossible
            | _, Some XMax => Some AlwaysTrue
            | _, _ => None
            end
        | _ => None
        end) = Some a -> absurd_claim m p rho (EBin (BC (rel_cop re)) l r) a v.
Proof.
  intros Hv H. apply eval_cmp_inv in Hv as (vl & vr & o & El & Er & Ho & ->).
  assert (Rl : forall x, detect_extreme p l = Some x -> o = Some (rank vl ?= rank vr) /\ match x with XMin => rank vl <= rank vr | XMax => rank vr <= rank vl end).
  { intros x Hx. destruct (detect_extreme_sound _ _ _ _ _ _ Hx El) as [N B]. apply val_cmp_rank in Ho as [-> T]; auto.
    split; auto. apply B; auto. now apply eval_wf in Er. }
  assert (Rr : forall x, detect_extreme p r = Some x -> o = Some (rank vl ?= rank vr) /\ match x with XMin => rank vr <= rank vl | XMax => rank vl <= rank vr end).
  { intros x Hx. destruct (detect_extreme_sound _ _ _ _ _ _ Hx Er) as [N B]. apply val_cmp_rank in Ho as [-> T].
    - split; auto. apply B; auto. now apply eval_wf in El.
    - intros f ->. destruct vr; cbn in Ho; try discriminate. now apply (N f0). }
  assert (Q : forall b, o = Some (rank vl ?= rank vr) -> b = (rank vl =? rank vr) -> eval m p rho (EBin (BC CEq) l r) = Ok (VB b)).
  { intros b -> ->. cbn [eval]. rewrite El, Er. cbn [rbind]. rewrite Ho. cbn [rbind]. now rewrite cmp_of_Z. }
  destruct re; try discriminate; cbn [rel_cop absurd_claim] in *.
  - destruct (detect_extreme p l) as [[]|] eqn:D1; [destruct (detect_extreme p r) as [[]|] eqn:D2| |destruct (detect_extreme p r) as [[]|] eqn:D2]; try discriminate;
      apply Some_inj in H; subst a; cbn [absurd_claim]; try (destruct (Rl _ eq_refl) as [Eo B]); try (destruct (Rr _ eq_refl) as [Eo' B']);
      subst o; rewrite cmp_of_Z; cbn [cmp_op]; f_equal; apply Z.ltb_ge; assumption.
  - destruct (detect_extreme p l) as [[]|] eqn:D1; [| |destruct (detect_extreme p r) as [[]|] eqn:D2]; try discriminate;
      apply Some_inj in H; subst a; cbn [absurd_claim]; try (destruct (Rl _ eq_refl) as [Eo B]); try (destruct (Rr _ eq_refl) as [Eo B]).
    + rewrite Eo, cmp_of_Z. cbn [cmp_op]. f_equal. apply Z.leb_le. assumption.
    + apply Q; auto. rewrite Eo, cmp_of_Z. cbn [cmp_op]. destruct (Z.leb_spec (rank vl) (rank vr)), (Z.eqb_spec (rank vl) (rank vr)); auto; lia.
    + apply Q; auto. rewrite Eo, cmp_of_Z. cbn [cmp_op]. destruct (Z.leb_spec (rank vl) (rank vr)), (Z.eqb_spec (rank vl) (rank vr)); auto; lia.
    + rewrite Eo, cmp_of_Z. cbn [cmp_op]. f_equal. apply Z.leb_le. assumption.
Qed.

Lemma absurd_comparison_sound m p rho e a v : absurd_comparison p e = Some a -> eval m p rho e = Ok v -> absurd_claim m p rho e a v.
Proof.
  destruct e as [| | | | | |[|c| |] l r| | | | | |]; cbn [absurd_comparison]; try discriminate. intros H Hv.
  destruct (negb _); [discriminate|]. destruct (_ || _); [discriminate|].
  destruct (normalize_comparison c l r) as [[re l'] r'] eqn:En.
  apply (normalize_comparison_sound m p rho c l r re l' r' v En) in Hv.
  pose proof (absurd_norm _ _ _ _ _ _ _ _ Hv H) as C. destruct a; auto.
  cbn [absurd_claim] in *. destruct c; cbn in En; injection En as <- <- <-; auto; revert C; apply cmp_flip; intros [[]|]; reflexivity.
Qed.

(** ** invalid_upcast_comparisons *)
Lemma eval_full_int_wf m p rho e fi t z : eval_full_int p p e = Some fi -> eval m p rho e = Ok (VI t z) -> fi_wf fi.
Proof.
  intros H Hv. pose proof (eval_full_int_sound _ _ _ _ _ _ _ H Hv) as S.
  unfold eval_full_int in H. destruct (eval_local p p e) as [c|]; [|discriminate]. cbn [obind] in H.
  destruct (eval_wf _ _ _ _ _ Hv) as [Hw Ht]. destruct c as [u| |]; cbn [int_value] in H; [|discriminate|discriminate].
  destruct (ty_of e) as [[t'| | |]|] eqn:E; try discriminate. specialize (Ht _ eq_refl). cbn in Ht. injection Ht as <-. cbn in Hw.
  destruct (ity_signed t) eqn:Es; apply Some_inj in H; subst fi; cbn [fi_val fi_wf] in *; rewrite S.
  - apply inr_in_i128 in Hw; auto. unfold in_i128 in Hw. lia.
  - apply inr_in_u128 in Hw; auto. unfold in_u128 in Hw. lia.
Qed.
Lemma fi_lt_val a b : fi_wf a -> fi_wf b -> fi_lt a b = (fi_val a <? fi_val b).
Proof. intros. unfold fi_lt. rewrite fullint_cmp_val by auto. reflexivity. Qed.
Lemma fi_le_val a b : fi_wf a -> fi_wf b -> fi_le a b = (fi_val a <=? fi_val b).
Proof. intros. unfold fi_le. rewrite fullint_cmp_val by auto. unfold Z.leb. now destruct (fi_val a ?= fi_val b). Qed.

Lemma precast_bounds_sound m p rho e lb ub v : precast_bounds p p e = Some (lb, ub) -> cast_widens p e -> eval m p rho e = Ok v ->
  fi_wf lb /\ fi_wf ub /\ exists t z, v = VI t z /\ ty_of e = Some (TI t) /\ fi_val lb <= z <= fi_val ub.
Proof.
  destruct e as [| | | | | | |a t| | | | |]; cbn [precast_bounds cast_widens]; try discriminate. intros H Hc Hv.
  destruct (ty_of a) as [[s| | |]|] eqn:Ta; try discriminate. destruct (bits p s =? bits p t); [discriminate|].
  cbn [eval] in Hv. apply rbind_Ok in Hv as (va & Ea & Hv). destruct (eval_int_ty _ _ _ _ _ _ Ta Ea) as (z & -> & Rz).
  injection Hv as <-. pose proof Rz as Rz'. apply inr_iff in Rz.
  assert (wrap p t z = z) as W by (apply wrap_id, inr_iff; lia).
  pose proof (imin_imax p s).
  assert (Rmin : inr p s (imin p s) = true) by (apply inr_iff; lia). assert (Rmax : inr p s (imax p s) = true) by (apply inr_iff; lia).
  destruct (ity_signed s) eqn:Es; apply Some_inj in H; injection H as <- <-; cbn [fi_wf fi_val].
  - apply inr_in_i128 in Rmin; auto. apply inr_in_i128 in Rmax; auto. unfold in_i128 in *. split; [lia|split; [lia|]].
    exists t, (wrap p t z). rewrite W. auto.
  - apply inr_in_u128 in Rmin; auto. apply inr_in_u128 in Rmax; auto. unfold in_u128 in *. split; [lia|split; [lia|]].
    exists t, (wrap p t z). rewrite W. auto.
Qed.

Lemma upcast_err_sound m p rho re l r b v (inv : bool) :
  upcast_err p p re (precast_bounds p p l) r inv = Some b -> cast_widens p l ->
  eval m p rho (if inv then EBin (BC (rel_cop re)) r l else EBin (BC (rel_cop re)) l r) = Ok v -> v = VB b.
Proof.
  intros H Hc Hv. unfold upcast_err in H. destruct (precast_bounds p p l) as [[lb ub]|] eqn:Eb; [|discriminate].
  destruct (eval_full_int p p r) as [k|] eqn:Ek; [|discriminate].
  assert (exists t z y, eval m p rho r = Ok (VI t y) /\ fi_wf lb /\ fi_wf ub /\ fi_val lb <= z <= fi_val ub /\
     v = VB (if inv then cmp_op (rel_cop re) y z else cmp_op (rel_cop re) z y)) as (t & z & y & Er & W1 & W2 & B & ->).
  { destruct inv; apply eval_cmp_inv in Hv as (va & vb & o & Ha & Hb & Ho & ->).
    - destruct (precast_bounds_sound _ _ _ _ _ _ _ Eb Hc Hb) as (W1 & W2 & t & z & -> & _ & B).
      destruct va as [t' y| | |]; try discriminate. cbn in Ho. destruct (ity_eqb t' t) eqn:E; [|discriminate]. apply ity_eqb_eq in E. subst t'.
      injection Ho as <-. rewrite cmp_of_Z. exists t, z, y. auto.
    - destruct (precast_bounds_sound _ _ _ _ _ _ _ Eb Hc Ha) as (W1 & W2 & t & z & -> & _ & B).
      destruct vb as [t' y| | |]; try discriminate. cbn in Ho. destruct (ity_eqb t t') eqn:E; [|discriminate]. apply ity_eqb_eq in E. subst t'.
      injection Ho as <-. rewrite cmp_of_Z. exists t, z, y. auto. }
  pose proof (eval_full_int_sound _ _ _ _ _ _ _ Ek Er) as S. pose proof (eval_full_int_wf _ _ _ _ _ _ _ Ek Er) as W.
  rewrite !fi_lt_val, ?fi_le_val, S in H by auto. f_equal. clear Hv Er Ek Eb S.
  destruct re, inv; cbn [andb orb negb rel_cop cmp_op] in *;
    repeat match goal with
    | H : (if (?a <? ?b) || (?c <? ?d) then _ else _) = _ |- _ => destruct (Z.ltb_spec a b), (Z.ltb_spec c d); cbn [orb] in H
    | H : (if ?x || false then _ else _) = _ |- _ => rewrite orb_false_r in H
    | H : (if ?a <? ?b then _ else _) = _ |- _ => destruct (Z.ltb_spec a b)
    | H : (if ?a <=? ?b then _ else _) = _ |- _ => destruct (Z.leb_spec a b)
    end; try discriminate; apply Some_inj in H; subst b;
    repeat match goal with
    | |- negb _ = true => apply negb_true_iff
    | |- (_ =? _) = false => apply Z.eqb_neq
    | |- (_ <? _) = true => apply Z.ltb_lt
    | |- (_ <? _) = false => apply Z.ltb_ge
    | |- (_ <=? _) = true => apply Z.leb_le
    | |- (_ <=? _) = false => apply Z.leb_gt
    end; lia.
Qed.

Lemma invalid_upcast_sound m p rho e b v : In b (invalid_upcast p p e) -> sides_widen p e -> eval m p rho e = Ok v -> v = VB b.
Proof.
  destruct e as [| | | | | |[|c| |] l r| | | | | |]; cbn [invalid_upcast sides_widen]; try contradiction. intros H [W1 W2] Hv.
  destruct (normalize_comparison c l r) as [[re l'] r'] eqn:En.
  apply (normalize_comparison_sound m p rho c l r re l' r' v En) in Hv.
  assert (cast_widens p l' /\ cast_widens p r') as [W1' W2'] by (destruct c; cbn in En; injection En as <- <- <-; auto).
  apply in_app_or in H as [H|H].
  - destruct (upcast_err _ _ _ _ r' false) as [b'|] eqn:E; [|contradiction]. destruct H as [->|[]].
    now apply (upcast_err_sound m p rho _ _ _ _ v false E).
  - destruct (upcast_err _ _ _ _ l' true) as [b'|] eqn:E; [|contradiction]. destruct H as [->|[]].
    now apply (upcast_err_sound m p rho _ _ _ _ v true E).
Qed.
