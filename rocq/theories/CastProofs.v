(** Proofs about the integer cast lints. *)
From Verif Require Import RustFacts ConstSpec ConstProofs MaskProofs.
From Verif Require Export CastModel CastSpec.
Open Scope Z_scope.

Lemma eval_cast m p rho e to t z : eval m p rho e = Ok (VI t z) -> eval m p rho (ECast e to) = Ok (VI to (wrap p to z)).
Proof. intros H. cbn [eval]. rewrite H. reflexivity. Qed.
Lemma cast_keeps_inr m p rho e to : (forall t z, eval m p rho e = Ok (VI t z) -> inr p to z = true) -> cast_keeps m p rho e to.
Proof. intros H t z E. erewrite eval_cast by exact E. now rewrite wrap_id by eauto. Qed.
Lemma cast_loses_inr m p rho e to t z : eval m p rho e = Ok (VI t z) -> inr p to z = false -> cast_loses m p rho e to.
Proof.
  intros E H. exists t, z, (wrap p to z). split; [exact E|]. split; [now apply eval_cast with (t := t)|].
  intros Q. rewrite <- Q in H. now rewrite wrap_range in H.
Qed.

Lemma eval_var_int m p x t z : inr p t z = true -> eval m p (all_vars t z) (EVar (TI t) x) = Ok (VI t z).
Proof. intros H. cbn. now rewrite ity_eqb_refl, H. Qed.
Lemma eval_var_inv m p rho x t t' z : eval m p rho (EVar (TI t) x) = Ok (VI t' z) -> t' = t /\ inr p t z = true.
Proof.
  cbn. destruct (ty_eqb (val_ty (rho x)) (TI t)) eqn:E; [|discriminate]. cbn. destruct (val_wf p (rho x)) eqn:W; [|discriminate].
  intros [= Q]. rewrite Q in *. cbn in *. apply ity_eqb_eq in E. now subst.
Qed.

(** ** Opaque operands *)
Lemma silent_var p from to x : cast_silent p (EVar (TI from) x) to =
  negb (truncates p from to (bits p from) || cast_possible_wrap p from to || (ity_signed from && negb (ity_signed to))).
Proof.
  unfold cast_silent, cast_possible_truncation, cast_sign_loss. cbn [ty_of apply_reductions]. f_equal. f_equal.
  destruct (ity_signed from), (ity_signed to); reflexivity.
Qed.

Definition all_p := [P16; P32; P64].
Definition all_sz := [W8; W16; W32; W64; W128; WSize].
Definition all_t := map (IT true) all_sz ++ map (IT false) all_sz.
Lemma in_all_p p : In p all_p.
Proof. destruct p; cbn; tauto. Qed.
Lemma in_all_t t : In t all_t.
Proof. destruct t as [[] []]; cbn; tauto. Qed.

Lemma silent_table :
  forallb (fun p => forallb (fun from => forallb (fun to =>
    negb (negb (truncates p from to (bits p from) || cast_possible_wrap p from to || (ity_signed from && negb (ity_signed to))))
    || (negb (pointer_sized from) && pointer_sized to && (bits p to <? bits p from))
    || ((imin p to <=? imin p from) && (imax p from <=? imax p to))) all_t) all_t) all_p = true.
Proof. vm_compute. reflexivity. Qed.
Lemma silent_narrow_table :
  forallb (fun p => forallb (fun from => forallb (fun to =>
    negb (bits p to <? bits p from) || negb (inr p to (imax p from)) || negb (inr p to (imin p from))) all_t) all_t) all_p = true.
Proof. vm_compute. reflexivity. Qed.
Lemma reported_table :
  forallb (fun p => forallb (fun from => forallb (fun to =>
    negb (truncates p from to (bits p from) || cast_possible_wrap p from to || (ity_signed from && negb (ity_signed to)))
    || existsb (fun q => negb (inr q to (imax q from)) || negb (inr q to (imin q from))) all_p) all_t) all_t) all_p = true.
Proof. vm_compute. reflexivity. Qed.

Lemma table3 (f : ptrw -> ity -> ity -> bool) :
  forallb (fun p => forallb (fun from => forallb (fun to => f p from to) all_t) all_t) all_p = true -> forall p from to, f p from to = true.
Proof.
  intros H p from to. rewrite forallb_forall in H. specialize (H p (in_all_p p)). rewrite forallb_forall in H.
  specialize (H from (in_all_t from)). rewrite forallb_forall in H. exact (H to (in_all_t to)).
Qed.

Lemma imin_inr p t : inr p t (imin p t) = true.
Proof. apply inr_iff. pose proof (imin_imax p t). lia. Qed.
Lemma imax_inr p t : inr p t (imax p t) = true.
Proof. apply inr_iff. pose proof (imin_imax p t). lia. Qed.

(** ** Reductions *)
Lemma nbits_spec c : 0 <= c -> 0 <= nbits_u128 c /\ c < 2 ^ nbits_u128 c /\ (0 < nbits_u128 c -> 2 ^ (nbits_u128 c - 1) <= c).
Proof.
  intros H. unfold nbits_u128. destruct (Z.eqb_spec c 0) as [->|N]; [cbn; lia|].
  pose proof (Z.log2_spec c ltac:(lia)) as [A B]. pose proof (Z.log2_nonneg c).
  replace (Z.log2 c + 1) with (Z.succ (Z.log2 c)) by lia. split; [lia|]. split; [exact B|]. intros _.
  now replace (Z.succ (Z.log2 c) - 1) with (Z.log2 c) by lia.
Qed.
Lemma const_int_val m p rho e c t z : constant_int p e = Some c -> eval m p rho e = Ok (VI t z) -> c = to_bits p t z.
Proof.
  unfold constant_int. destruct (ceval p p e) as [[u|b|f]|] eqn:E; try discriminate. intros [= ->] H.
  exact (ceval_sound_denotes _ _ _ _ _ _ E H).
Qed.
Lemma const_bits_val m p rho e b t z : get_constant_bits p e = Some b -> eval m p rho e = Ok (VI t z) -> ity_signed t = false -> inr p t z = true ->
  b = nbits_u128 z.
Proof.
  unfold get_constant_bits. destruct (constant_int p e) as [c|] eqn:E; [|discriminate]. intros [= <-] H S I.
  rewrite (const_int_val _ _ _ _ _ _ _ E H). now rewrite to_bits_unsigned.
Qed.
Lemma min_lt z o n : (forall b, o = Some b -> z < 2 ^ b) -> z < 2 ^ n -> z < 2 ^ (min_bits o n).
Proof. intros H1 H2. destruct o as [b|]; cbn; [|auto]. destruct (Z.min_spec b n) as [[_ ->]|[_ ->]]; auto. Qed.
Lemma pow_div_lt x k s : 0 <= x < 2 ^ k -> 0 <= k -> 0 <= s -> x / 2 ^ s < 2 ^ (sat_sub k s).
Proof.
  intros H K S. unfold sat_sub. apply Z.div_lt_upper_bound; [apply p2_pos; lia|]. rewrite <- Z.pow_add_r by lia.
  eapply Z.lt_le_trans; [apply H|]. apply Z.pow_le_mono_r; lia.
Qed.
Lemma unsigned_parts_ty p n e : unsigned_parts p n e = true ->
  exists t, ty_of e = Some (TI t) /\ ity_signed t = false /\ bits p t <= n.
Proof.
  intros H. assert (A : match ty_of e with Some (TI t) => negb (ity_signed t) && (bits p t <=? n) | _ => false end = true).
  { destruct e; cbn [unsigned_parts] in H; apply andb_prop in H; tauto. }
  destruct (ty_of e) as [[t| | |]|]; try discriminate. exists t. apply andb_prop in A as [A B]. apply negb_true_iff in A. split; [auto|]. split; [auto|lia].
Qed.
Lemma unsigned_default m p rho n e t z : unsigned_parts p n e = true -> eval m p rho e = Ok (VI t z) ->
  0 <= z < 2 ^ n /\ ity_signed t = false /\ bits p t <= n.
Proof.
  intros U E. apply unsigned_parts_ty in U as (t' & T & S & B). destruct (eval_int_ty _ _ _ _ _ _ T E) as (z' & [= -> ->] & I).
  apply inr_iff in I. unfold imin, imax in I. rewrite S in I. split; [|auto].
  pose proof (Z.pow_le_mono_r 2 (bits p t') n). lia.
Qed.
Lemma apply_nonneg p n s e : 0 <= n -> 0 <= apply_reductions p n e s.
Proof.
  intros N.
  assert (C : forall e b, get_constant_bits p e = Some b -> (forall u, constant_int p e = Some u -> 0 <= u) -> 0 <= b).
  { intros a b H U. unfold get_constant_bits in H. destruct (constant_int p a) as [u|]; [|discriminate]. injection H as <-.
    apply nbits_spec. now apply U. }
  assert (NB : forall u, 0 <= nbits_u128 u).
  { intros u. unfold nbits_u128. destruct (u =? 0); [lia|]. pose proof (Z.log2_nonneg u). lia. }
  assert (C' : forall e b, get_constant_bits p e = Some b -> 0 <= b).
  { intros a b H. unfold get_constant_bits in H. destruct (constant_int p a) as [u|]; [|discriminate]. injection H as <-. apply NB. }
  assert (M : forall a k, 0 <= k -> 0 <= min_bits (get_constant_bits p a) k).
  { intros a k K. destruct (get_constant_bits p a) as [b|] eqn:E; cbn; [|auto]. apply C' in E. lia. }
  induction e as [t k|b|f|t x|t a|o e IH|o e1 IH1 e2 IH2|e IH t|k e IH|k e IH a IHa|k e IH a IHa b IHb|c IHc a IHa b IHb|i lo IHl hi IHh x IHx];
    cbn [apply_reductions]; auto.
  - destruct o as [o|c| |]; auto. destruct o; auto.
    + unfold sat_sub. lia.
    + apply M. apply M. lia.
    + unfold sat_sub. lia.
  - destruct k; auto; lia.
  - destruct s; auto. destruct k; cbn [min_bits]; auto.
  - destruct k. destruct (get_constant_bits p a) as [x|] eqn:X; auto. destruct (get_constant_bits p b) as [y|] eqn:Y; auto.
    apply C' in X, Y. lia.
Qed.

Lemma method_le m p k t x t' y v : never_exceeds k = true -> ity_signed t = false -> inr p t x = true -> inr p t' y = true ->
  sem1 m p k t x t' y = Ok v -> exists z, v = VI t z /\ 0 <= z <= x.
Proof.
  intros K S I J H. apply inr_iff in I. pose proof (imin_le0 p t). unfold imin in I. rewrite S in I.
  assert (t' = t).
  { destruct (ity_eqb t t') eqn:E; [apply ity_eqb_eq in E; auto|]. destruct k; try discriminate K; cbn [sem1] in H; rewrite E in H; discriminate. }
  subst t'. assert (Jy : 0 <= y). { apply inr_iff in J. unfold imin in J. rewrite S in J. lia. }
  destruct k; try discriminate K; cbn [sem1] in H; rewrite ity_eqb_refl in H.
  - destruct (Z.eqb_spec y 0); [discriminate|]. destruct (inr p t (zceil_div x y)); [|discriminate]. injection H as <-.
    eexists; split; [reflexivity|]. rewrite zceil_eq by lia. split; [apply Z.div_pos; lia|].
    destruct (Z.eq_dec x 0) as [->|NX]. { rewrite Z.div_small; lia. }
    apply Z.lt_succ_r. apply Z.div_lt_upper_bound; nia.
  - destruct (Z.eqb_spec y 0); [discriminate|]. destruct (inr p t (x ÷ y)); [|discriminate]. injection H as <-.
    eexists; split; [reflexivity|]. unfold zrem_euclid. rewrite Z.abs_eq by lia. pose proof (Z.mod_pos_bound x y). pose proof (Z.mod_le x y). lia.
  - injection H as <-. eexists; split; [reflexivity|]. lia.
  - injection H as <-. eexists; split; [reflexivity|]. unfold sat, imin. rewrite S. pose proof (imax_ge127 p t).
    destruct (Z.ltb_spec (x - y) 0); [lia|]. destruct (Z.ltb_spec (imax p t) (x - y)); lia.
  - destruct (Z.eqb_spec y 0); [discriminate|]. injection H as <-.
    eexists; split; [reflexivity|]. unfold zrem_euclid. rewrite Z.abs_eq by lia. pose proof (Z.mod_pos_bound x y). pose proof (Z.mod_le x y). lia.
Qed.

Lemma reductions_unsigned p n rho e : 0 <= n -> unsigned_parts p n e = true -> forall t z, eval Checked p rho e = Ok (VI t z) ->
  0 <= z < 2 ^ apply_reductions p n e false.
Proof.
  intros N.
  induction e as [t k|b|f|t x|t a|o e IH|o e1 IH1 e2 IH2|e IH t|k e IH|k e IH a IHa|k e IH a IHa b IHb|c IHc a IHa b IHb|i lo IHl hi IHh x IHx];
    intros U t' z E; pose proof (unsigned_default _ _ _ _ _ _ _ U E) as (D & S & B); cbn [apply_reductions]; auto.
  - destruct o as [o|c| |]; auto.
    assert (G : forall left, match o with ODiv | ORem | OShr | OAnd => true | _ => false end = true -> left = e1 -> unsigned_parts p n left = true).
    { intros l Ho ->. cbn [unsigned_parts] in U. apply andb_prop in U as [_ U]. destruct o; try discriminate; auto. now apply andb_prop in U as [U _]. }
    destruct o; auto; specialize (G e1 eq_refl eq_refl); specialize (IH1 G);
      pose proof (unsigned_parts_ty _ _ _ G) as (T & TT & ST & BT);
      destruct (eval_bi_int_inv _ _ _ _ _ _ _ _ TT E) as (t2 & x & y & r & E1 & E2 & I1 & I2 & [= -> ->] & Hr & Q);
      specialize (IH1 _ _ E1); pose proof (apply_nonneg p n false e1 N) as A1; cbn [int_op] in Hr.
    + subst t2. destruct (Z.eqb_spec y 0); [discriminate|]. destruct (inr p T (x ÷ y)); [|discriminate]. injection Hr as <-.
      assert (0 < y). { apply inr_iff in I2. unfold imin in I2. rewrite ST in I2. lia. }
      rewrite Z.quot_div_nonneg by lia. split; [apply Z.div_pos; lia|].
      destruct (get_constant_bits p e2) as [b|] eqn:CB.
      * rewrite (const_bits_val _ _ _ _ _ _ _ CB E2 ST I2). destruct (nbits_spec y ltac:(lia)) as (N1 & N2 & N3).
        assert (0 < nbits_u128 y). { destruct (Z.eq_dec (nbits_u128 y) 0) as [Q|]; [|lia]. rewrite Q in N2. cbn in N2. lia. }
        specialize (N3 H0). eapply Z.le_lt_trans; [|apply pow_div_lt; [exact IH1|lia|]]; [|unfold sat_sub; lia].
        unfold sat_sub at 1. rewrite Z.max_r by lia. apply Z.div_le_compat_l; [lia|]. split; [apply p2_pos; lia|]. lia.
      * unfold sat_sub. rewrite Z.sub_0_r, Z.max_r by lia. eapply Z.le_lt_trans; [|apply IH1]. apply Z.div_le_upper_bound; nia.
    + subst t2. destruct (Z.eqb_spec y 0); [discriminate|]. destruct (inr p T (x ÷ y)); [|discriminate]. injection Hr as <-.
      assert (0 < y). { apply inr_iff in I2. unfold imin in I2. rewrite ST in I2. lia. }
      rewrite Z.rem_mod_nonneg by lia. pose proof (Z.mod_pos_bound x y). pose proof (Z.mod_le x y). split; [lia|].
      apply min_lt; [|lia]. intros b CB. rewrite (const_bits_val _ _ _ _ _ _ _ CB E2 ST I2). pose proof (nbits_spec y). lia.
    + subst t2. injection Hr as <-. cbn [unsigned_parts] in U. apply andb_prop in U as [_ U]. apply andb_prop in U as [_ U2].
      specialize (IH2 U2 _ _ E2). assert (X : Z.land x y <= x) by (rewrite Z.land_comm; apply land_le_r; lia).
      assert (Y : Z.land x y <= y) by (apply land_le_r; lia).
      split; [apply Z.land_nonneg; lia|].
      apply min_lt. { intros b CB. rewrite (const_bits_val _ _ _ _ _ _ _ CB E2 ST I2). pose proof (nbits_spec y). lia. }
      apply min_lt. { intros b CB. rewrite (const_bits_val _ _ _ _ _ _ _ CB E1 ST I1). pose proof (nbits_spec x). lia. }
      destruct (Z.min_spec (apply_reductions p n e2 false) (apply_reductions p n e1 false)) as [[_ ->]|[_ ->]]; lia.
    + destruct (Z.leb_spec 0 y); [|discriminate]. destruct (Z.ltb_spec y (bits p T)); [|discriminate]. cbn in Hr. injection Hr as <-.
      split; [apply Z.div_pos; [lia|apply p2_pos; lia]|].
      destruct (constant_int p e2) as [c|] eqn:CC.
      * rewrite (const_int_val _ _ _ _ _ _ _ CC E2), to_bits_nonneg_small by auto. pose proof (bits_le128 p T).
        unfold as_u64_or_0. destruct (Z.ltb_spec y (2 ^ 64)); [|lia]. apply pow_div_lt; lia.
      * unfold sat_sub. rewrite Z.sub_0_r, Z.max_r by lia. eapply Z.le_lt_trans; [|apply IH1]. pose proof (p2_pos y). apply Z.div_le_upper_bound; nia.
  - cbn [unsigned_parts] in U. apply andb_prop in U as [_ U]. pose proof (unsigned_parts_ty _ _ _ U) as (T & TT & ST & BT).
    cbn [eval] in E. apply rbind_Ok in E as (v & E & F). destruct (eval_int_ty _ _ _ _ _ _ TT E) as (y & -> & I). injection F as <- <-.
    specialize (IH U _ _ E). unfold wrap. rewrite S. pose proof (Z.mod_le y (2 ^ bits p t)). pose proof (pow_bits_pos p t).
    pose proof (Z.mod_pos_bound y (2 ^ bits p t)). lia.
  - destruct k; auto. apply unsigned_parts_ty in U as (T & TT & ST & _). cbn [eval] in E. apply rbind_Ok in E as (v & E & F).
    destruct v as [t0 y| | |]; try discriminate. cbn [sem0] in F. destruct (ity_signed t0) eqn:Q; [|discriminate]. injection F as -> <-. congruence.
  - cbn [unsigned_parts] in U. apply andb_prop in U as [U0 U]. cbn [eval] in E. apply rbind_Ok in E as (v & E & F). apply rbind_Ok in F as (va & Ea & F).
    assert (L : is_leaf e = true -> z < 2 ^ apply_reductions p n e false).
    { destruct e; try discriminate; intros _; cbn; lia. }
    assert (NE : never_exceeds k = true -> unsigned_parts p n e = true -> z < 2 ^ apply_reductions p n e false /\
                 (k = MMin -> forall b, get_constant_bits p a = Some b -> z < 2 ^ b)).
    { intros K V. pose proof (unsigned_parts_ty _ _ _ V) as (T & TT & ST & BT). destruct (eval_int_ty _ _ _ _ _ _ TT E) as (x & -> & I).
      specialize (IH V _ _ E). destruct va as [ta y| | |]; try (destruct k; discriminate).
      assert (F' : sem1 Checked p k T x ta y = Ok (VI t' z)) by (destruct k; try discriminate K; exact F).
      pose proof (eval_VI_range _ _ _ _ _ _ Ea) as Ia.
      destruct (method_le _ _ _ _ _ _ _ _ K ST I Ia F') as (z' & [= -> ->] & Hz). split; [lia|].
      intros -> b CB. cbn [sem1] in F'. destruct (ity_eqb T ta) eqn:Q; [|discriminate]. apply ity_eqb_eq in Q. subst ta. injection F' as <-.
      rewrite (const_bits_val _ _ _ _ _ _ _ CB Ea ST Ia). assert (0 <= y). { apply inr_iff in Ia. unfold imin in Ia. rewrite ST in Ia. lia. }
      pose proof (nbits_spec y). lia. }
    assert (LM : k = MMin -> is_leaf e = true -> forall b, get_constant_bits p a = Some b -> z < 2 ^ b).
    { intros -> _ b CB. destruct v as [t0 x|x|x|t0 x], va as [ta y|y|y|ta y]; try discriminate F. cbn [sem1] in F.
      destruct (ity_eqb t0 ta) eqn:Q; [|discriminate]. apply ity_eqb_eq in Q. subst ta. injection F as -> <-.
      pose proof (eval_VI_range _ _ _ _ _ _ Ea) as Ia.
      rewrite (const_bits_val _ _ _ _ _ _ _ CB Ea S Ia). assert (0 <= y). { apply inr_iff in Ia. unfold imin in Ia. rewrite S in Ia. lia. }
      pose proof (nbits_spec y). lia. }
    split; [lia|]. apply orb_prop in U as [U|U].
    + apply min_lt; [|auto]. intros b Hb. destruct k; try discriminate. eauto.
    + apply andb_prop in U as [K V]. destruct (NE K V) as [A A']. apply min_lt; [|auto]. intros b Hb. destruct k; try discriminate. eauto.
  - destruct k. destruct (get_constant_bits p a) as [x|] eqn:X; auto. destruct (get_constant_bits p b) as [y|] eqn:Y; auto.
    cbn [eval] in E. apply rbind_Ok in E as (v & E & F). apply rbind_Ok in F as (va & Ea & F). apply rbind_Ok in F as (vb & Eb & F).
    destruct v as [t0 z0| | |], va as [ta lo| | |], vb as [tb hi| | |]; try discriminate.
    2: { destruct (SpecFloat.SFleb _ _); discriminate. }
    destruct (ity_eqb t0 ta) eqn:Q1; [|discriminate]. destruct (ity_eqb t0 tb) eqn:Q2; [|discriminate]. apply ity_eqb_eq in Q1, Q2. subst ta tb.
    cbn [andb] in F. destruct (Z.ltb_spec hi lo); [discriminate|]. injection F as -> <-. split; [lia|].
    pose proof (eval_VI_range _ _ _ _ _ _ Eb) as Ib. rewrite (const_bits_val _ _ _ _ _ _ _ Y Eb S Ib).
    assert (0 <= hi). { apply inr_iff in Ib. unfold imin in Ib. rewrite S in Ib. lia. }
    pose proof (sat_range lo hi z0). pose proof (nbits_spec hi). pose proof (Z.pow_le_mono_r 2 (nbits_u128 hi) (Z.max x (nbits_u128 hi))). lia.
Qed.

(** ** Signed operands that are only shifted right *)
Lemma signed_shifts_ty p n e : signed_shifts p n e = true -> exists t, ty_of e = Some (TI t) /\ ity_signed t = true /\ bits p t <= n.
Proof.
  intros H. assert (A : match ty_of e with Some (TI t) => ity_signed t && (bits p t <=? n) | _ => false end = true).
  { destruct e; cbn [signed_shifts] in H; apply andb_prop in H; tauto. }
  destruct (ty_of e) as [[t| | |]|]; try discriminate. exists t. apply andb_prop in A as [A B]. split; [auto|]. split; [auto|lia].
Qed.
Lemma shr_signed x j s : 0 <= j -> 0 <= s -> - 2 ^ j <= x < 2 ^ j ->
  - 2 ^ (Z.max 0 (j - s)) <= x / 2 ^ s < 2 ^ (Z.max 0 (j - s)).
Proof.
  intros J S H. pose proof (p2_pos s S). set (k := Z.max 0 (j - s)). assert (0 <= k) by lia. pose proof (p2_pos k ltac:(lia)).
  assert (2 ^ j <= 2 ^ k * 2 ^ s) by (rewrite <- Z.pow_add_r by lia; apply Z.pow_le_mono_r; lia).
  split; [apply Z.div_le_lower_bound; lia|apply Z.div_lt_upper_bound; lia].
Qed.
Lemma reductions_signed p n rho e : 0 <= n -> signed_shifts p n e = true -> forall t z, eval Checked p rho e = Ok (VI t z) ->
  let j := Z.max 0 (apply_reductions p n e true - 1) in - 2 ^ j <= z < 2 ^ j.
Proof.
  intros N.
  induction e as [t k|b|f|t x|t a|o e IH|o e1 IH1 e2 IH2|e IH t|k e IH|k e IH a IHa|k e IH a IHa b IHb|c IHc a IHa b IHb|i lo IHl hi IHh x IHx];
    intros U t' z E; pose proof (signed_shifts_ty _ _ _ U) as (T & TT & ST & BT);
    destruct (eval_int_ty _ _ _ _ _ _ TT E) as (z' & [= -> ->] & I);
    (assert (D : let j := Z.max 0 (n - 1) in - 2 ^ j <= z' < 2 ^ j);
     [pose proof (bits_ge8 p T); cbn zeta; rewrite Z.max_r by lia; apply inr_iff in I; unfold imin, imax in I; rewrite ST in I;
      pose proof (Z.pow_le_mono_r 2 (bits p T - 1) (n - 1)); lia|]);
    cbn [apply_reductions]; auto;
    cbn [signed_shifts] in U; apply andb_prop in U as [_ U]; try discriminate U.
  - destruct o as [o|c| |]; try discriminate U. destruct o; try discriminate U. cbn [ty_of] in TT. specialize (IH1 U).
    destruct (eval_bi_int_inv _ _ _ _ _ _ _ _ TT E) as (t2 & x & y & r & E1 & E2 & I1 & I2 & [= <-] & Hr & Q).
    specialize (IH1 _ _ E1). pose proof (apply_nonneg p n true e1 N) as A1. cbn [int_op] in Hr.
    destruct (Z.leb_spec 0 y); [|discriminate]. destruct (Z.ltb_spec y (bits p T)); [|discriminate]. cbn in Hr. injection Hr as <-.
    cbn zeta in *.
    destruct (constant_int p e2) as [c|] eqn:CC.
    + rewrite (const_int_val _ _ _ _ _ _ _ CC E2), to_bits_nonneg_small by auto. pose proof (bits_le128 p T).
      unfold as_u64_or_0. destruct (Z.ltb_spec y (2 ^ 64)); [|lia]. unfold sat_sub.
      pose proof (shr_signed x _ y (Z.le_max_l 0 (apply_reductions p n e1 true - 1)) ltac:(lia) IH1) as R.
      replace (Z.max 0 (Z.max 0 (apply_reductions p n e1 true - y) - 1)) with (Z.max 0 (Z.max 0 (apply_reductions p n e1 true - 1) - y)) by lia.
      exact R.
    + unfold sat_sub. rewrite Z.sub_0_r, (Z.max_r 0 (apply_reductions p n e1 true)) by lia.
      pose proof (shr_signed x _ y (Z.le_max_l 0 (apply_reductions p n e1 true - 1)) ltac:(lia) IH1) as R.
      set (j := Z.max 0 (apply_reductions p n e1 true - 1)) in *.
      pose proof (Z.pow_le_mono_r 2 (Z.max 0 (j - y)) j). lia.
  - apply andb_prop in U as [W U]. pose proof (signed_shifts_ty _ _ _ U) as (T2 & TT2 & ST2 & BT2). rewrite TT2 in W.
    cbn [eval] in E. apply rbind_Ok in E as (v & E & F). destruct (eval_int_ty _ _ _ _ _ _ TT2 E) as (y & -> & I').
    cbn [ty_of] in TT. injection TT as ->. injection F as <-. specialize (IH U _ _ E).
    rewrite wrap_id; [exact IH|]. apply inr_iff. apply inr_iff in I'. unfold imin, imax in *. rewrite ST, ST2 in *.
    pose proof (bits_ge8 p T2). pose proof (Z.pow_le_mono_r 2 (bits p T2 - 1) (bits p T - 1)). lia.
Qed.

(** ** Sign analysis *)
Lemma const_signed_val m p rho e v t z : get_const_signed_int_eval p e = Some v -> eval m p rho e = Ok (VI t z) -> v = z.
Proof.
  unfold get_const_signed_int_eval. destruct (ceval p p e) as [[u|b|f]|] eqn:C; try discriminate. destruct (ty_of e) as [[t'| | |]|] eqn:T; try discriminate.
  destruct (ity_signed t') eqn:S; [|discriminate]. intros [= <-] E. destruct (eval_int_ty _ _ _ _ _ _ T E) as (z' & [= -> ->] & I).
  pose proof (ceval_sound_denotes _ _ _ _ _ _ C E) as D. cbn in D. subst u. now apply sext_to_bits.
Qed.
Lemma const_unsigned_val m p rho e v w : get_const_unsigned_int_eval p e = Some v -> eval m p rho e = Ok w ->
  exists t, w = VI t v /\ 0 <= v.
Proof.
  unfold get_const_unsigned_int_eval. destruct (ceval p p e) as [[u|b|f]|] eqn:C; try discriminate. destruct (ty_of e) as [[t'| | |]|] eqn:T; try discriminate.
  destruct (ity_signed t') eqn:S; [discriminate|]. intros [= <-] E. destruct (eval_int_ty _ _ _ _ _ _ T E) as (z' & -> & I).
  pose proof (ceval_sound_denotes _ _ _ _ _ _ C E) as D. cbn in D. subst u. rewrite to_bits_unsigned by auto. exists t'. split; [auto|].
  apply inr_iff in I. unfold imin in I. rewrite S in I. lia.
Qed.
Lemma const_signed_ty p e v : get_const_signed_int_eval p e = Some v -> exists t, ty_of e = Some (TI t).
Proof.
  unfold get_const_signed_int_eval. destruct (ceval p p e) as [[u|b|f]|]; try discriminate. destruct (ty_of e) as [[t'| | |]|]; try discriminate. eauto.
Qed.

(** The number in an integer value or a present optional one. *)
Definition num_of (v : val) : option Z := match v with VI _ z => Some z | VO _ o => o | _ => None end.
Definition agrees (s : sign) (z : Z) : Prop := match s with ZeroOrPositive => 0 <= z | Negative => z < 0 | Uncertain => True end.

Lemma pow_sign_agrees b o n y : agrees b y -> 0 <= n -> (forall k, o = Some k -> k = n) -> agrees (pow_sign b o) (y ^ n).
Proof.
  intros A N O. unfold pow_sign.
  assert (P : b = ZeroOrPositive -> 0 <= y ^ n) by (intros ->; apply Z.pow_nonneg; exact A).
  destruct o as [k|]; cbn [option_map]; [|destruct b; cbn; auto].
  rewrite (O k eq_refl). destruct (Z.eqb_spec (n mod 2) 0) as [E|E].
  - assert (0 <= y ^ n). { apply Z.pow_even_nonneg. exists (n / 2). pose proof (Z.div_mod n 2). lia. }
    destruct b; exact H.
  - destruct b; cbn in *; auto. assert (OD : Z.Odd n). { exists (n / 2). pose proof (Z.div_mod n 2). pose proof (Z.mod_pos_bound n 2). lia. }
    rewrite <- (Z.opp_involutive y). rewrite Z.pow_opp_odd by exact OD. pose proof (Z.pow_pos_nonneg (- y) n). lia.
Qed.
Lemma sat_sign p t z : (0 <= z -> 0 <= sat (imin p t) (imax p t) z) /\ (z < 0 -> ity_signed t = true -> sat (imin p t) (imax p t) z < 0).
Proof.
  pose proof (imin_le0 p t). pose proof (imax_ge127 p t). unfold sat. split.
  - intros Z. destruct (Z.ltb_spec z (imin p t)); [lia|]. destruct (Z.ltb_spec (imax p t) z); lia.
  - intros Z S. assert (imin p t < 0). { unfold imin. rewrite S. pose proof (half_pos p t). lia. }
    destruct (Z.ltb_spec z (imin p t)); [lia|]. destruct (Z.ltb_spec (imax p t) z); lia.
Qed.
Lemma neg_ty_signed p t z : inr p t z = true -> z < 0 -> ity_signed t = true.
Proof. intros I Z. apply inr_iff in I. unfold imin in I. destruct (ity_signed t); [reflexivity|lia]. Qed.

Lemma expr_sign_sound p rho e : forall v z, eval Checked p rho e = Ok v -> num_of v = Some z -> agrees (expr_sign p e) z.
Proof.
  assert (C : forall e s, (forall v z, eval Checked p rho e = Ok v -> num_of v = Some z -> agrees s z) ->
    forall v z, eval Checked p rho e = Ok v -> num_of v = Some z ->
    agrees (match get_const_signed_int_eval p e with
            | Some v => if 0 <=? v then ZeroOrPositive else Negative
            | None => match get_const_unsigned_int_eval p e with Some _ => ZeroOrPositive | None => s end end) z).
  { intros a s H v z E Q. destruct (get_const_signed_int_eval p a) as [c|] eqn:CS.
    - destruct (const_signed_ty _ _ _ CS) as (t & T). destruct (eval_int_ty _ _ _ _ _ _ T E) as (y & -> & I).
      pose proof (const_signed_val _ _ _ _ _ _ _ CS E). subst y. injection Q as <-. destruct (Z.leb_spec 0 c); cbn; lia.
    - destruct (get_const_unsigned_int_eval p a) as [c|] eqn:CU.
      + destruct (const_unsigned_val _ _ _ _ _ _ CU E) as (t & -> & P). injection Q as <-. exact P.
      + eauto. }
  assert (P0 : forall k a, ret_positive0 k = true -> forall v z, eval Checked p rho (EM0 k a) = Ok v -> num_of v = Some z -> 0 <= z).
  { intros k a K v z E Q. cbn [eval] in E. apply rbind_Ok in E as (w & E & F).
    destruct w as [t y|b|f|t o]; try (destruct k; discriminate).
    destruct k; try discriminate K; cbn [sem0] in F.
    - destruct (Z.ltb_spec y 0); [discriminate|]. injection F as <-. injection Q as <-. apply Z.sqrt_nonneg.
    - destruct (ity_signed t); [|discriminate]. injection F as <-. injection Q as <-. apply sat_sign. lia.
    - destruct (ity_signed t); [|discriminate]. injection F as <-. cbn in Q. destruct (inr p t (Z.abs y)); [|discriminate]. injection Q as <-. lia. }
  assert (P1 : forall k a b, ret_positive1 k = true -> forall v z, eval Checked p rho (EM1 k a b) = Ok v -> num_of v = Some z -> 0 <= z).
  { intros k a b K v z E Q. cbn [eval] in E. apply rbind_Ok in E as (w & E & F). apply rbind_Ok in F as (w' & E' & F).
    destruct w as [t y|y|y|t y], w' as [t' y'|y'|y'|t' y']; try (destruct k; discriminate).
    destruct k; try discriminate K; cbn [sem1] in F; destruct (ity_eqb t t'); try discriminate; destruct (Z.eqb_spec y' 0); try discriminate.
    - destruct (inr p t (y ÷ y')); [|discriminate]. injection F as <-. injection Q as <-. unfold zrem_euclid. apply Z.mod_pos_bound. lia.
    - injection F as <-. injection Q as <-. unfold zrem_euclid. apply Z.mod_pos_bound. lia. }
  induction e as [t k|b|f|t x|t a|o e IH|o e1 IH1 e2 IH2|e IH t|k e IH|k e IH a IHa|k e IH a IHa b IHb|c IHc a IHa b IHb|i lo IHl hi IHh x IHx];
    cbn [expr_sign]; apply C; try (intros; exact I).
  - intros v z E Q. destruct (ret_positive0 k) eqn:K.
    + pose proof (P0 _ _ K _ _ E Q). destruct k; try discriminate K; exact H.
    + destruct k; try exact I. cbn [eval] in E. apply rbind_Ok in E as (w & E & F). destruct w as [t y|y|y|t [y|]]; try discriminate.
      injection F as <-. injection Q as ->.
      destruct e as [t' n|b|f|t' x|t' a|o e|o e1 e2|e t'|k e|k e a|k e a b|c a b|i lo hi x]; try exact I.
      * destruct (ret_positive0 k) eqn:K'; [|exact I]. exact (P0 _ _ K' _ _ E eq_refl).
      * destruct (ret_positive1 k) eqn:K'; [|exact I]. exact (P1 _ _ _ K' _ _ E eq_refl).
  - intros v z E Q. destruct (is_pow k) eqn:K.
    + cbn [eval] in E. apply rbind_Ok in E as (w & E & F). apply rbind_Ok in F as (w' & E' & F).
      destruct w as [t y|y|y|t y], w' as [t' n|n|n|t' n]; try (destruct k; discriminate).
      assert (F' : sem1 Checked p k t y t' n = Ok v) by (destruct k; try discriminate K; exact F).
      assert (t' = u32). { destruct (ity_eqb t' u32) eqn:U; [now apply ity_eqb_eq|]. destruct k; try discriminate K; cbn [sem1] in F'; rewrite U in F'; discriminate. }
      subst t'. pose proof (eval_VI_range _ _ _ _ _ _ E') as IN. apply inr_u in IN.
      pose proof (eval_VI_range _ _ _ _ _ _ E) as IY.
      assert (A : agrees (pow_sign (expr_sign p e) (get_const_unsigned_int_eval p a)) (y ^ n)).
      { apply pow_sign_agrees; [exact (IH _ _ E eq_refl)|lia|]. intros c CU. destruct (const_unsigned_val _ _ _ _ _ _ CU E') as (t0 & [= _ ->] & _). reflexivity. }
      assert (SG : y ^ n < 0 -> ity_signed t = true).
      { intros H. apply (neg_ty_signed p t y IY). destruct (Z_lt_le_dec y 0); [auto|]. pose proof (Z.pow_nonneg y n). lia. }
      destruct k; try discriminate K; cbn [sem1] in F'; rewrite ity_eqb_refl in F'.
      * apply rbind_Ok in F' as (r & R & F'). injection F' as <-. injection Q as <-. apply arith_Ok in R as [_ R]. destruct (R eq_refl) as [_ ->]. exact A.
      * injection F' as <-. injection Q as <-. destruct (sat_sign p t (y ^ n)) as [S1 S2].
        destruct (pow_sign _ _); cbn in *; auto.
      * injection F' as <-. cbn in Q. destruct (inr p t (y ^ n)); [|discriminate]. injection Q as <-. exact A.
    + destruct (ret_positive1 k) eqn:K'; [|exact I]. exact (P1 _ _ _ K' _ _ E Q).
Qed.

Lemma count_app p l1 l2 : count_signs p (l1 ++ l2) =
  match count_signs p l1, count_signs p l2 with
  | Some (n, q), Some (n', q') => Some (n + n', q + q')%nat
  | _, _ => None
  end.
Proof.
  induction l1 as [|e l1 IH]; cbn.
  - destruct (count_signs p l2) as [[]|]; reflexivity.
  - destruct (expr_sign p e); rewrite ?IH; destruct (count_signs p l1) as [[]|], (count_signs p l2) as [[]|]; reflexivity.
Qed.
Lemma count_one p e n q : count_signs p [e] = Some (n, q) -> (n = 0%nat /\ q = 1%nat /\ expr_sign p e = ZeroOrPositive) \/ (n = 1%nat /\ q = 0%nat /\ expr_sign p e = Negative).
Proof. cbn. destruct (expr_sign p e); intros [= <- <-]; auto. Qed.

Definition parity_ok (n : nat) (z : Z) : Prop := if Nat.odd n then z <= 0 else 0 <= z.
Lemma parity_mul n n' x y : parity_ok n x -> parity_ok n' y -> parity_ok (n + n') (x * y) /\ parity_ok (n + n') (Z.quot x y).
Proof.
  unfold parity_ok. rewrite Nat.odd_add. intros A B.
  destruct (Z.eq_dec y 0) as [->|Y].
  { rewrite Z.mul_0_r, Z.quot_0_r_ext by reflexivity. destruct (xorb _ _); lia. }
  destruct (Nat.odd n), (Nat.odd n'); cbn; (split; [nia|]).
  - rewrite <- Z.quot_opp_opp by auto. apply Z.quot_pos; lia.
  - pose proof (Z.quot_opp_l x y Y). pose proof (Z.quot_pos (- x) y). lia.
  - pose proof (Z.quot_opp_r x y Y). pose proof (Z.quot_pos x (- y)). lia.
  - apply Z.quot_pos; lia.
Qed.
Lemma muldiv_sound p rho e : forall t z n q, eval Checked p rho e = Ok (VI t z) -> count_signs p (muldiv_peeled e) = Some (n, q) -> parity_ok n z.
Proof.
  assert (B : forall e t z n q, eval Checked p rho e = Ok (VI t z) -> count_signs p [e] = Some (n, q) -> parity_ok n z).
  { intros e' t z n q E H. apply count_one in H as [(-> & _ & H)|(-> & _ & H)];
      pose proof (expr_sign_sound p rho e' _ _ E eq_refl) as A; rewrite H in A; cbn in *; lia. }
  induction e as [t k|b|f|t x|t a|o e IH|o e1 IH1 e2 IH2|e IH t|k e IH|k e IH a IHa|k e IH a IHa b IHb|c IHc a IHa b IHb|i lo IHl hi IHh x IHx];
    cbn [muldiv_peeled]; try (intros; eapply B; eauto; fail).
  destruct o as [o|c| |]; try (intros; eapply B; eauto; fail).
  destruct o; try (intros; eapply B; eauto; fail); intros t z n q E H;
    (apply eval_bi_inv in E as [(t0 & t' & x & y & r & E1 & E2 & [= <- <-] & R & Q)|[(x & y & r & _ & _ & D & _)|(x & y & r & _ & _ & D & _)]]; [|discriminate D|discriminate D]);
    cbn [int_op] in R.
  - rewrite count_app in H. destruct (count_signs p (muldiv_peeled e1)) as [[n1 q1]|] eqn:C1; [|discriminate].
    destruct (count_signs p (muldiv_peeled e2)) as [[n2 q2]|] eqn:C2; [|discriminate]. injection H as <- <-.
    apply arith_Ok in R as [_ R]. destruct (R eq_refl) as [_ ->]. apply parity_mul; eauto.
  - rewrite count_app in H. destruct (count_signs p (muldiv_peeled e1)) as [[n1 q1]|] eqn:C1; [|discriminate].
    destruct (count_signs p (muldiv_peeled e2)) as [[n2 q2]|] eqn:C2; [|discriminate]. injection H as <- <-.
    destruct (y =? 0); [discriminate|]. destruct (inr p t (x ÷ y)); [|discriminate]. injection R as <-. apply parity_mul; eauto.
  - destruct (Z.eqb_spec y 0); [discriminate|]. destruct (inr p t (x ÷ y)); [|discriminate]. injection R as <-.
    pose proof (B _ _ _ _ _ E1 H) as A. unfold parity_ok in *. pose proof (Z.rem_sign_mul x y n0).
    destruct (Z.eq_dec x 0) as [->|]; [rewrite Z.rem_0_l by auto; destruct (Nat.odd n); lia|]. destruct (Nat.odd n); nia.
  - assert (S : 0 <= y < bits p t). { destruct (Z.leb_spec 0 y); [|discriminate]. destruct (Z.ltb_spec y (bits p t)); [lia|discriminate]. }
    replace ((0 <=? y) && (y <? bits p t)) with true in R by lia. injection R as <-.
    pose proof (B _ _ _ _ _ E1 H) as A. pose proof (p2_pos y ltac:(lia)). unfold parity_ok in *. destruct (Nat.odd n).
    + apply Z.div_le_upper_bound; lia.
    + apply Z.div_pos; lia.
Qed.
Lemma add_sound p rho e : forall t z q, eval Checked p rho e = Ok (VI t z) -> count_signs p (add_peeled e) = Some (0%nat, q) -> 0 <= z.
Proof.
  assert (B : forall e t z q, eval Checked p rho e = Ok (VI t z) -> count_signs p [e] = Some (0%nat, q) -> 0 <= z).
  { intros e' t z q E H. apply count_one in H as [(_ & _ & H)|(D & _ & H)]; [|discriminate D].
    pose proof (expr_sign_sound p rho e' _ _ E eq_refl) as A; rewrite H in A; cbn in *; lia. }
  induction e as [t k|b|f|t x|t a|o e IH|o e1 IH1 e2 IH2|e IH t|k e IH|k e IH a IHa|k e IH a IHa b IHb|c IHc a IHa b IHb|i lo IHl hi IHh x IHx];
    cbn [add_peeled]; try (intros; eapply B; eauto; fail).
  destruct o as [o|c| |]; try (intros; eapply B; eauto; fail).
  destruct o; try (intros; eapply B; eauto; fail); intros t z q E H.
  apply eval_bi_inv in E as [(t0 & t' & x & y & r & E1 & E2 & [= <- <-] & R & Q)|[(x & y & r & _ & _ & D & _)|(x & y & r & _ & _ & D & _)]]; [|discriminate D|discriminate D].
  cbn [int_op] in R. rewrite count_app in H. destruct (count_signs p (add_peeled e1)) as [[n1 q1]|] eqn:C1; [|discriminate].
  destruct (count_signs p (add_peeled e2)) as [[n2 q2]|] eqn:C2; [|discriminate]. injection H as Hn <-.
  assert (n1 = 0%nat) by lia. assert (n2 = 0%nat) by lia. subst n1 n2.
  apply arith_Ok in R as [_ R]. destruct (R eq_refl) as [_ ->]. specialize (IH1 _ _ _ E1 eq_refl). specialize (IH2 _ _ _ E2 eq_refl). lia.
Qed.
Lemma sign_sound p rho e from to t z : ity_signed from = true -> ity_signed to = false -> cast_sign_loss p e from to = false ->
  eval Checked p rho e = Ok (VI t z) -> 0 <= z.
Proof.
  intros SF ST H E. unfold cast_sign_loss in H. rewrite SF, ST in H. cbn in H. apply negb_false_iff in H. apply orb_prop in H as [H|H]; [apply orb_prop in H as [H|H]|].
  - pose proof (expr_sign_sound p rho e _ _ E eq_refl) as A. destruct (expr_sign p e); try discriminate. exact A.
  - unfold expr_muldiv_sign in H. destruct (count_signs p (muldiv_peeled e)) as [[n q]|] eqn:C; [|discriminate].
    pose proof (muldiv_sound p rho e _ _ _ _ E C) as A. unfold parity_ok in A. destruct (Nat.odd n); [discriminate|exact A].
  - unfold expr_add_sign in H. destruct (count_signs p (add_peeled e)) as [[n q]|] eqn:C; [|discriminate].
    destruct n as [|n]; [|destruct (Nat.eqb q 0); discriminate]. exact (add_sound p rho e _ _ _ E C).
Qed.
