(** Ordering of constants and sign-extension helpers. *)
From Coq Require Import ZifyBool.
From Verif Require Export ConstTotal.
Open Scope Z_scope.

Lemma fullint_cmp_val a b : fi_wf a -> fi_wf b -> fullint_cmp a b = (fi_val a ?= fi_val b).
Proof.
  unfold fi_wf, fullint_cmp, fi_val, cmp_s_u. destruct a as [x|x], b as [y|y]; intros Ha Hb; try reflexivity.
  - destruct (Z.ltb_spec x 0); [|reflexivity]. symmetry. apply Z.compare_lt_iff. lia.
  - destruct (Z.ltb_spec y 0).
    + symmetry. apply Z.compare_gt_iff. lia.
    + symmetry. apply Z.compare_antisym.
Qed.

Lemma sext_value p t u : ity_signed t = true ->
  inr p t (sext p t u) = true /\ (sext p t u) mod 2 ^ bits p t = u mod 2 ^ bits p t.
Proof. intros Hs. rewrite sext_wrap by auto. split; [apply wrap_range|apply wrap_mod]. Qed.
Lemma unsext_sext p t u : ity_signed t = true -> 0 <= u < 2 ^ bits p t -> unsext p t (sext p t u) = u.
Proof. intros Hs Hu. rewrite unsext_mod, sext_wrap, wrap_mod by auto. now apply Z.mod_small. Qed.
Lemma sext_unsext p t z : ity_signed t = true -> inr p t z = true -> sext p t (unsext p t z) = z.
Proof. intros Hs Hz. rewrite unsext_to_bits. now apply sext_to_bits. Qed.
Lemma unsext_range p t z : 0 <= unsext p t z < 2 ^ bits p t.
Proof. rewrite unsext_to_bits. apply to_bits_range. Qed.

Lemma const_partial_cmp_int p t x y l r : inr p t x = true -> inr p t y = true ->
  denotes p l (VI t x) -> denotes p r (VI t y) -> const_partial_cmp p (TI t) l r = Some (x ?= y).
Proof.
  intros Hx Hy Hl Hr. destruct l as [u| |]; [|contradiction|contradiction]. destruct r as [u'| |]; [|contradiction|contradiction]. cbn in Hl, Hr. subst u u'.
  cbn [const_partial_cmp]. destruct (ity_signed t) eqn:Hs.
  - now rewrite !sext_to_bits by auto.
  - now rewrite !to_bits_unsigned by auto.
Qed.
Lemma const_partial_cmp_bool p t x y l r : denotes p l (VB x) -> denotes p r (VB y) ->
  const_partial_cmp p t l r = Some (Z.b2z x ?= Z.b2z y).
Proof.
  intros Hl Hr. destruct l as [u| |]; [contradiction| |contradiction]. destruct r as [u'| |]; [contradiction| |contradiction]. cbn in Hl, Hr. now subst.
Qed.

Lemma const_cmp_agrees : forall p t l r vl vr,
  val_wf p vl = true -> val_wf p vr = true -> val_ty vl = t -> val_ty vr = t ->
  denotes p l vl -> denotes p r vr -> val_cmp vl vr = Ok (const_partial_cmp p t l r).
Proof.
  intros p t l r vl vr Wl Wr Tl Tr Dl Dr.
  destruct vl as [tl x|x|x|], vr as [tr y|y|y|]; try (subst; discriminate); try (destruct l; contradiction); try (destruct r; contradiction).
  - cbn in Tl, Tr. assert (tr = tl) by congruence. subst. rewrite (const_partial_cmp_int p tl x y); auto. cbn. now rewrite ity_eqb_refl.
  - rewrite (const_partial_cmp_bool p t x y); auto.
  - destruct l; try contradiction. destruct r; try contradiction. cbn in *. now subst.
Qed.

Lemma int_value_sound p c t z fi : inr p t z = true -> denotes p c (VI t z) -> int_value p c (Some (TI t)) = Some fi -> fi_val fi = z.
Proof.
  intros Hz Hd. destruct c as [u| |]; [|contradiction|contradiction]. cbn in Hd. subst u. cbn [int_value]. intros H. apply Some_inj in H. subst fi.
  destruct (ity_signed t) eqn:Hs; cbn [fi_val]; [now apply sext_to_bits|now apply to_bits_unsigned].
Qed.

Lemma eval_int_sound m p rho e fi t z : eval_int p p e = Some fi -> eval m p rho e = Ok (VI t z) -> fi_val fi = z.
Proof.
  intros H Hv.
  assert (G : obind (ceval p p e) (fun c => int_value p c (ty_of e)) = Some fi -> fi_val fi = z).
  { intros G. destruct (ceval p p e) as [c|] eqn:Ec; [|discriminate]. cbn in G.
    pose proof (ceval_sound_denotes _ _ _ _ _ _ Ec Hv) as Hd. pose proof (eval_wf _ _ _ _ _ Hv) as [Hw Ht].
    destruct (ty_of e) as [ty0|] eqn:Ety; [|destruct c; discriminate]. specialize (Ht _ eq_refl). cbn in Ht. subst ty0.
    eapply int_value_sound; eauto. }
  unfold eval_int in H. destruct e as [t0 n| | | | |o e| | | | | | |]; try (now apply G).
  - apply Some_inj in H. subst fi. cbn in Hv. destruct (_ && _); [|discriminate]. cbn. congruence.
  - destruct o; [|now apply G]. destruct e as [t0 n| | | | | | | | | | | |]; try (now apply G).
    apply Some_inj in H. subst fi. rewrite eval_un in Hv. destruct (ity_signed t0 && inr p t0 (- n) && (0 <=? n)) eqn:E; [|discriminate].
    assert (z = - n) as -> by congruence. cbn [fi_val]. assert (- 2 ^ 127 <= - n <= 0).
    { assert (inr p t0 (-n) = true) as A by lia. apply inr_iff in A. unfold imin in A. pose proof (bits_le128 p t0). pose proof (bits_pos p t0).
      assert (2 ^ (bits p t0 - 1) <= 2 ^ 127) by (apply Z.pow_le_mono_r; lia). destruct (ity_signed t0); lia. }
    destruct (Z.eq_dec n (2 ^ 127)) as [->|]; [reflexivity|].
    rewrite (i128w_id n) by (unfold in_i128; lia). apply i128w_id. unfold in_i128. lia.
Qed.
