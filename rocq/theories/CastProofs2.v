(** Proofs about the remaining cast lints. *)
From Verif Require Import RustFacts ConstSpec ConstProofs CmpProofs.
From Verif Require Export CastProofs.
Open Scope Z_scope.

(** ** `abs` *)
Lemma abs_preserves p rho e e' : cast_abs_to_unsigned e = Some e' -> preserves Checked p rho e e'.
Proof.
  intros H v E. destruct e as [t n|b|f|t x|t a|o e|o e1 e2|e t|k e|k e a|k e a b|c a b|i lo hi x]; try discriminate.
  destruct e as [t' n|b|f|t' x|t' a|o e|o e1 e2|e t'|k e|k e a|k e a b|c a b|i lo hi x]; try discriminate. destruct k; try discriminate.
  cbn [cast_abs_to_unsigned] in H. destruct (ty_of e) as [[from| | |]|] eqn:T; try discriminate.
  destruct (ity_signed from) eqn:SF; [|discriminate]. destruct (ity_signed t) eqn:ST; [discriminate|]. cbn in H.
  cbn [eval] in E. apply rbind_Ok in E as (w & E & F). apply rbind_Ok in E as (w0 & E0 & E).
  destruct (eval_int_ty _ _ _ _ _ _ T E0) as (z & -> & I). cbn [sem0] in E. rewrite SF in E. apply rbind_Ok in E as (r & R & E).
  injection E as <-. apply arith_Ok in R as [_ R]. destruct (R eq_refl) as [IA ->]. injection F as <-.
  destruct (oz_eqb (bit_width from) (bit_width t)) eqn:W; injection H as <-; cbn [eval]; rewrite E0; cbn [rbind sem0]; rewrite SF; cbn [rbind].
  - assert (t = unsigned_of from) as ->. { destruct from as [[] sf], t as [[] st]; try discriminate; destruct sf, st; try discriminate W; reflexivity. }
    do 2 f_equal. symmetry. apply wrap_id. apply inr_iff. apply inr_iff in IA. unfold imin, imax in *. rewrite bits_unsigned_of. cbn [unsigned_of ity_signed].
    rewrite SF in IA. pose proof (half_double p from). lia.
  - reflexivity.
Qed.

(** ** Lossless and precision *)
Lemma lossless_table :
  forallb (fun p => forallb (fun from => forallb (fun to =>
    Bool.eqb (cast_lossless p (NI from) (NI to))
      (negb (pointer_sized from) && negb (pointer_sized to) && negb (ity_eqb from to)
       && ((imin p to <=? imin p from) && (imax p from <=? imax p to)))) all_t) all_t) all_p = true.
Proof. vm_compute. reflexivity. Qed.

Lemma exact_small prec emax z : 0 <= prec <= emax -> Z.abs z < 2 ^ prec -> exact_in (IEEE prec emax) z.
Proof.
  intros P H. exists z, 0. split; [lia|]. split; [auto|]. split; [rewrite Z.pow_0_r; lia|].
  eapply Z.lt_le_trans; [exact H|]. apply Z.pow_le_mono_r; lia.
Qed.
Lemma exact_odd prec emax z : exact_in (IEEE prec emax) (2 * z + 1) -> Z.abs (2 * z + 1) < 2 ^ prec.
Proof.
  intros (m & e & E & M & Q & _). destruct (Z.eq_dec e 0) as [->|N]; [rewrite Z.pow_0_r, Z.mul_1_r in Q; now rewrite Q|].
  exfalso. replace e with (Z.succ (e - 1)) in Q by lia. rewrite Z.pow_succ_r in Q by lia. nia.
Qed.
Definition format_of (f : fty) : ieee := match f with F16 => binary16 | F32 => binary32 | F64 => binary64 | F128 => binary128 end.
Lemma inr_abs p t z : inr p t z = true -> Z.abs z <= 2 ^ bits p t.
Proof. intros I. apply inr_iff in I. unfold imin, imax in I. pose proof (half_double p t). pose proof (half_pos p t). destruct (ity_signed t); lia. Qed.
Lemma exact_bits p t z n prec emax : bits p t < n -> n <= prec -> prec <= emax -> inr p t z = true -> exact_in (IEEE prec emax) z.
Proof.
  intros B N E I. pose proof (bits_pos p t). apply exact_small; [lia|]. apply inr_abs in I. eapply Z.le_lt_trans; [exact I|]. apply Z.pow_lt_mono_r; lia.
Qed.
Lemma bits_small p t n : bits p t < n -> (n = 32 -> bits p t <= 16) /\ (n = 64 -> bits p t <= 32).
Proof. pose proof (bits_cases p t). lia. Qed.

Lemma lossless_float p from f : cast_lossless p (NI from) (NF f) = true -> f <> F16 -> forall z, inr p from z = true -> exact_in (format_of f) z.
Proof.
  intros H N z I. cbn [cast_lossless] in H. apply andb_prop in H as [_ H]. unfold int_ty_to_nbits in H. pose proof (bits_cases p from).
  destruct f; try contradiction; unfold format_of, binary32, binary64, binary128; eapply (exact_bits p from z (bits p from + 1)); auto; lia.
Qed.
Lemma precision_silent p from f : cast_precision_loss p from f = false -> f = F32 \/ f = F64 -> forall q z, inr q from z = true -> exact_in (format_of f) z.
Proof.
  intros H F q z I. assert (NP : is_isize_or_usize from = false) by (destruct F; subst f; cbn [cast_precision_loss] in H; destruct (is_isize_or_usize from); auto).
  assert (B : bits q from = bits p from) by (destruct from as [s []]; try discriminate; reflexivity).
  destruct F; subst f; cbn [cast_precision_loss] in H; rewrite NP in H; cbn [orb] in H; unfold int_ty_to_nbits in H; pose proof (bits_cases p from);
    unfold format_of, binary32, binary64; eapply (exact_bits q from z (bits p from + 1)); auto; lia.
Qed.
Lemma precision_reported p from f : cast_precision_loss p from f = true -> exists q z, inr q from z = true /\ ~ exact_in (format_of f) z.
Proof.
  intros H. destruct f; try discriminate.
  - exists P64, (2 * 2 ^ 24 + 1). split; [|intros X; apply exact_odd in X; vm_compute in X; discriminate].
    destruct p, from as [[] []]; try discriminate H; vm_compute; reflexivity.
  - exists P64, (2 * 2 ^ 53 + 1). split; [|intros X; apply exact_odd in X; vm_compute in X; discriminate].
    destruct p, from as [[] []]; try discriminate H; vm_compute; reflexivity.
Qed.

(** ** Enums *)
Lemma nbits_mono a b : 0 <= a <= b -> nbits_u128 a <= nbits_u128 b.
Proof.
  intros H. unfold nbits_u128. destruct (Z.eqb_spec a 0) as [->|], (Z.eqb_spec b 0) as [->|]; try lia.
  - pose proof (Z.log2_nonneg b). lia.
  - pose proof (Z.log2_le_mono a b). lia.
Qed.
Lemma nbits_le a n : 0 <= n -> 0 <= a < 2 ^ n -> nbits_u128 a <= n.
Proof.
  intros N H. unfold nbits_u128. destruct (Z.eqb_spec a 0); [lia|]. assert (Z.log2 a < n); [|lia]. apply Z.log2_lt_pow2; lia.
Qed.
Lemma nbits_nonneg c : 0 <= nbits_u128 c.
Proof. unfold nbits_u128. destruct (c =? 0); [lia|]. pose proof (Z.log2_nonneg c). lia. Qed.
Lemma neg_bits_spec s : s < 0 -> - 2 ^ (nbits_u128 (- (s + 1)) + 1) <= 2 * s.
Proof.
  intros S. assert (C : 0 <= - (s + 1)) by lia. destruct (nbits_spec _ C) as (A & B & _).
  rewrite Z.pow_add_r by lia. change (2 ^ 1) with 2. lia.
Qed.
Lemma neg_bits_least s n : s < 0 -> 0 <= n -> - 2 ^ n <= 2 * s -> nbits_u128 (- (s + 1)) + 1 <= n.
Proof.
  intros S N H. assert (0 < n). { destruct (Z.eq_dec n 0) as [->|]; [change (2 ^ 0) with 1 in H; lia|lia]. }
  assert (nbits_u128 (- (s + 1)) <= n - 1); [|lia]. apply nbits_le; [lia|].
  replace n with (Z.succ (n - 1)) in H by lia. rewrite Z.pow_succ_r in H by lia. lia.
Qed.
Lemma enough_mono n n' d : 0 <= n <= n' -> enough_bits n d -> enough_bits n' d.
Proof. intros N [A B]. pose proof (Z.pow_le_mono_r 2 n n'). split; lia. Qed.

Definition fold_inv (sg : bool) (ds : list Z) (st : Z * Z * Z) (k next : Z) : Prop :=
  let '(explicit, start, fin) := st in
  (forall d, In d ds -> fits_repr sg d) /\
  ((sg = false /\ start = - 2 ^ 127 /\ (exists d, In d ds /\ 2 ^ 127 <= d) /\ - 2 ^ 127 <= fin < 2 ^ 127)
   \/ ((next = explicit + k /\ 0 <= k /\ start <= explicit) /\ (forall d, In d ds -> start <= d <= fin) /\ start <= 0 /\ (start = 0 \/ In start ds)
       /\ (fin = - 2 ^ 127 /\ ds = [] \/ In fin ds) /\ - 2 ^ 127 <= fin < 2 ^ 127)).

Lemma enum_fold sg l : forall ds st k next, fold_inv sg ds st k next ->
  (forall d, In d (discriminants next l) -> fits_repr sg d) ->
  exists k' next', fold_inv sg (ds ++ discriminants next l) (fold_left enum_step (stored sg k l) st) k' next'.
Proof.
  induction l as [|v l IH]; intros ds [[explicit start] fin] k next H F; [cbn; rewrite app_nil_r; eauto|].
  cbn [discriminants] in *. set (d := match v with Some d => d | None => next end) in *.
  assert (Fd : fits_repr sg d) by (apply F; left; reflexivity).
  assert (step : fold_inv sg (ds ++ [d])
      (enum_step (explicit, start, fin) (match v with Some d => Explicit (Some (ev sg d)) | None => Relative k end))
      (match v with Some _ => 1 | None => k + 1 end) (d + 1)).
  { destruct H as [H0 H]. 
    assert (H1 : forall x, In x (ds ++ [d]) -> fits_repr sg x).
    { intros x X. apply in_app_iff in X as [X|[<-|[]]]; auto. }
    assert (I128 : forall y, in_i128 y = true <-> - 2 ^ 127 <= y < 2 ^ 127) by (intros y; unfold in_i128; lia).
    assert (L : forall X : Z * Z * Z, (sg = false /\ start = - 2 ^ 127 /\ (exists d, In d ds /\ 2 ^ 127 <= d) /\ - 2 ^ 127 <= fin < 2 ^ 127) ->
       (exists e' f', X = (e', - 2 ^ 127, f') /\ - 2 ^ 127 <= f' < 2 ^ 127) -> forall k' n', fold_inv sg (ds ++ [d]) X k' n').
    { intros X (S1 & S2 & (w & W & W') & S4) (e' & f' & -> & B) k' n'. split; [exact H1|]. left. repeat split; try tauto; try lia.
      exists w. split; [apply in_app_iff; auto|auto]. }
    assert (NEW : sg = false -> in_i128 d = false -> forall e' k' n', - 2 ^ 127 <= fin < 2 ^ 127 -> fold_inv sg (ds ++ [d]) (e', - 2 ^ 127, fin) k' n').
    { intros S Q e' k' n' B. split; [exact H1|]. left. repeat split; auto; try lia. exists d. split; [apply in_app_iff; right; left; auto|].
      unfold fits_repr in Fd. rewrite S in Fd. unfold in_i128 in Q. lia. }
    assert (EX : forall e' k', - 2 ^ 127 <= d < 2 ^ 127 -> d + 1 = e' + k' ->
       ((forall x, In x ds -> start <= x <= fin) /\ start <= 0 /\ (start = 0 \/ In start ds) /\ (fin = - 2 ^ 127 /\ ds = [] \/ In fin ds) /\ - 2 ^ 127 <= fin < 2 ^ 127) ->
       forall s', s' = Z.min start d \/ (s' = start /\ start <= d) -> 0 <= k' -> s' <= e' ->
       fold_inv sg (ds ++ [d]) (e', s', Z.max fin d) k' (d + 1)).
    { intros e' k' B Q (A1 & A2 & A3 & A4 & A5) s' S' K' E'. split; [exact H1|]. right.
      assert (SD : s' = start \/ s' = d) by lia. assert (SL : s' <= start /\ s' <= d) by lia. clear S'.
      split; [lia|]. split; [|split; [lia|split; [|split; [|lia]]]].
      - intros x X. apply in_app_iff in X as [X|[<-|[]]]; [specialize (A1 x X); lia|lia].
      - destruct SD as [-> | ->]; [destruct A3; [auto|right; apply in_app_iff; auto]|right; apply in_app_iff; right; left; auto].
      - right. destruct (Z.max_spec fin d) as [[M ->]|[M ->]]; [apply in_app_iff; right; left; auto|].
        destruct A4 as [[A4 ->]|A4]; [|apply in_app_iff; auto]. assert (fin = d) by lia. subst fin. left; auto. }
    destruct v as [x|]; subst d; cbn [enum_step].
    - destruct sg; cbn [ev].
      + destruct H as [(X & _)|H]; [discriminate|]. apply EX; [exact Fd|lia|tauto|left; reflexivity|lia|lia].
      + destruct (in_i128 x) eqn:Q.
        * destruct H as [H|H].
          -- apply L; [exact H|]. destruct H as (_ & -> & _ & B). exists x, (Z.max fin x). split; [reflexivity|]. apply I128 in Q. lia.
          -- assert (start <= x) by (unfold fits_repr in Fd; destruct H as (_ & _ & H & _); lia). apply EX; [apply I128; auto|lia|tauto|right; auto|lia|auto].
        * apply NEW; auto. destruct H as [H|H]; [destruct H as (_ & _ & _ & H); exact H|destruct H as (_ & _ & _ & _ & _ & H); exact H].
    - destruct H as [H|((Hn & K0 & SE) & H)].
      + assert (SG : sg = false) by tauto. destruct (in_i128 (explicit + k)) eqn:Q.
        * apply L; [exact H|]. destruct H as (_ & -> & _ & B). do 2 eexists. split; [reflexivity|]. unfold in_i128 in Q. lia.
        * apply L; [exact H|]. destruct H as (_ & -> & _ & B). do 2 eexists. split; [reflexivity|]. lia.
      + rewrite <- Hn. destruct (in_i128 next) eqn:Q.
        * assert (B : - 2 ^ 127 <= next < 2 ^ 127) by (apply I128; auto). apply EX; [exact B|lia|exact H|right; split; [reflexivity|lia]|lia|exact SE].
        * destruct sg; [|apply NEW; auto; tauto]. exfalso. unfold fits_repr in Fd. unfold in_i128 in Q. lia. }
  destruct (IH _ _ _ _ step) as (k' & n' & R).
  { intros x X. apply F. right. exact X. }
  exists k', n'. rewrite <- app_assoc in R. cbn [app] in R. destruct v; exact R.
Qed.

Lemma enum_nbits sg l : l <> [] -> (forall d, In d (discriminants 0 l) -> fits_repr sg d) ->
  let n := enum_ty_to_nbits (stored sg 0 l) in
  0 <= n /\ (forall d, In d (discriminants 0 l) -> enough_bits n d)
  /\ (forall n', 0 <= n' -> (forall d, In d (discriminants 0 l) -> enough_bits n' d) -> n <= n').
Proof.
  intros L F. destruct (enum_fold sg l [] (0, 0, - 2 ^ 127) 0 0) as (k & next & H); auto.
  { split; [intros d []|]. right. split; [lia|]. split; [intros d []|]. split; [lia|]. split; [auto|]. split; [auto|]. lia. }
  cbn [app] in H. unfold enum_ty_to_nbits. destruct (fold_left enum_step (stored sg 0 l) (0, 0, - 2 ^ 127)) as [[explicit start] fin].
  destruct H as [H0 [(SG & -> & (w & W & WL) & B)|(_ & B & S0 & SI & FI & FB)]].
  - destruct (Z.ltb_spec fin (- 2 ^ 127)); [lia|].
    assert (N : nbits_u128 (- (- 2 ^ 127 + 1)) + 1 = 128) by (vm_compute; reflexivity).
    assert (P : (if 0 <? fin then nbits_u128 fin else 0) <= 128).
    { destruct (Z.ltb_spec 0 fin); [|lia]. apply nbits_le; [lia|]. change (2 ^ 128) with (2 * 2 ^ 127). lia. }
    assert (M : (if - 2 ^ 127 <? 0 then nbits_u128 (- (- 2 ^ 127 + 1)) + 1 else 0) = 128) by exact N.
    rewrite M. rewrite Z.max_l by exact P. split; [lia|]. split.
    + intros d D. specialize (H0 d D). subst sg. unfold fits_repr in H0. unfold enough_bits. lia.
    + intros n' N' E. destruct (E w W) as [_ E2]. destruct (Z.le_gt_cases 128 n'); [auto|exfalso].
      assert (2 ^ n' <= 2 ^ 127) by (apply Z.pow_le_mono_r; lia). lia.
  - assert (D0 : exists d, In d (discriminants 0 l)) by (destruct l; [contradiction|cbn; eauto]). destruct D0 as (d0 & D0).
    destruct (Z.ltb_spec fin start) as [X|X]; [exfalso; specialize (B d0 D0); lia|].
    assert (FI' : In fin (discriminants 0 l)) by (destruct FI as [[_ FI]|FI]; [rewrite FI in D0; destruct D0|auto]).
    set (nb := if start <? 0 then _ else 0). set (pb := if 0 <? fin then _ else 0).
    assert (NB : 0 <= nb /\ - 2 ^ nb <= 2 * start).
    { subst nb. destruct (Z.ltb_spec start 0); [|split; [lia|change (2 ^ 0) with 1; lia]].
      split; [pose proof (nbits_nonneg (- (start + 1))); lia|apply neg_bits_spec; auto]. }
    assert (PB : 0 <= pb /\ fin < 2 ^ pb).
    { subst pb. destruct (Z.ltb_spec 0 fin) as [Q|Q]; [|split; [lia|change (2 ^ 0) with 1; lia]].
      destruct (nbits_spec fin) as (A1 & A2 & _); [lia|auto]. }
    split; [lia|]. split.
    + intros d D. specialize (B d D). unfold enough_bits.
      assert (2 ^ nb <= 2 ^ Z.max nb pb) by (apply Z.pow_le_mono_r; lia). assert (2 ^ pb <= 2 ^ Z.max nb pb) by (apply Z.pow_le_mono_r; lia). lia.
    + intros n' N' E. apply Z.max_lub.
      * subst nb. destruct (Z.ltb_spec start 0) as [Q|Q]; [|lia]. apply neg_bits_least; auto.
        destruct SI as [SI|SI]; [lia|]. apply (E start SI).
      * subst pb. destruct (Z.ltb_spec 0 fin) as [Q|Q]; [|lia]. apply nbits_le; [lia|]. split; [lia|]. apply (E fin FI').
Qed.

Lemma enum_value_bits d sg : fits_repr sg d ->
  let n := enum_value_nbits (ev sg d) in
  0 <= n /\ enough_bits n d /\ (forall n', 0 <= n' -> enough_bits n' d -> n <= n').
Proof.
  intros F. assert (POS : 0 <= d -> 0 <= nbits_u128 d /\ enough_bits (nbits_u128 d) d /\ (forall n', 0 <= n' -> enough_bits n' d -> nbits_u128 d <= n')).
  { intros D. destruct (nbits_spec d D) as (A & B & _). split; [auto|]. split; [split; [|auto]|].
    - pose proof (p2_pos (nbits_u128 d) A). lia.
    - intros n' N [_ E]. apply nbits_le; lia. }
  destruct sg; cbn [ev enum_value_nbits]; [|apply POS; apply F].
  destruct (Z.ltb_spec d 0) as [Q|Q]; [|apply POS; auto]. pose proof (nbits_nonneg (- (d + 1))). pose proof (neg_bits_spec d Q).
  cbv zeta.
  split; [lia|]. split; [split; [auto|]|].
  - pose proof (p2_pos (nbits_u128 (- (d + 1)) + 1)). lia.
  - intros n' N [E _]. apply neg_bits_least; auto.
Qed.

Lemma enough_iff p t d : enough_bits (bits p t) d <-> inr p (IT true (ity_size t)) d = true \/ inr p (IT false (ity_size t)) d = true.
Proof.
  rewrite !inr_iff. unfold enough_bits, imin, imax. destruct t as [sg sz]. cbn [ity_signed ity_size].
  change (bits p (IT true sz)) with (bits p (IT sg sz)). change (bits p (IT false sz)) with (bits p (IT sg sz)).
  pose proof (half_double p (IT sg sz)). pose proof (half_pos p (IT sg sz)). lia.
Qed.

Lemma stored_nth sg : forall l k next i d, nth_error (discriminants next l) i = Some d ->
  exists v, nth_error (stored sg k l) i = Some v /\
    match v with
    | Explicit v => v = Some (ev sg d)
    | Relative x =>
        (exists a, x = Z.of_nat a /\ (0 < a <= i)%nat /\ exists d', nth_error (stored sg k l) (i - a) = Some (Explicit (Some (ev sg d'))) /\ d = d' + x)
        \/ (x = k + Z.of_nat i /\ d = next + Z.of_nat i /\ forall j v, (j <= i)%nat -> nth_error (stored sg k l) j = Some v -> exists y, v = Relative y)
    end.
Proof.
  induction l as [|o l IH]; intros k next i d H; [destruct i; discriminate|].
  cbn [discriminants] in H. destruct i as [|i].
  - cbn in H. injection H as <-. destruct o as [x|]; cbn [stored nth_error]; eexists; (split; [reflexivity|]); [reflexivity|].
    right. split; [lia|]. split; [lia|]. intros j v J. replace j with 0%nat by lia. cbn. intros [= <-]. eauto.
  - cbn [nth_error] in H. destruct o as [x|]; cbn [stored nth_error].
    + destruct (IH 1 _ _ _ H) as (v & V & P). exists v. split; [exact V|]. destruct v as [v|y]; [exact P|].
      left. destruct P as [(a & -> & A & d' & D & ->)|(-> & -> & P)].
      * exists a. split; [reflexivity|]. split; [lia|]. exists d'. split; [|reflexivity].
        replace (S i - a)%nat with (S (i - a)) by lia. exact D.
      * exists (S i). split; [lia|]. split; [lia|]. exists x. split; [|lia]. now rewrite Nat.sub_diag.
    + destruct (IH (k + 1) _ _ _ H) as (v & V & P). exists v. split; [exact V|]. destruct v as [v|y]; [exact P|].
      destruct P as [(a & -> & A & d' & D & ->)|(-> & -> & P)].
      * left. exists a. split; [reflexivity|]. split; [lia|]. exists d'. split; [|reflexivity].
        replace (S i - a)%nat with (S (i - a)) by lia. exact D.
      * right. split; [lia|]. split; [lia|]. intros [|j] v J; cbn [nth_error]; [intros [= <-]; eauto|]. intros Q. apply (P j v); [lia|auto].
Qed.

Definition enum_number (v : enum_value) : Z := match v with EUnsigned x | ESigned x => x end.
Lemma discriminant_value sg l i d : nth_error (discriminants 0 l) i = Some d ->
  exists v, get_discriminant_value (stored sg 0 l) i = Some v /\ enum_number v = d.
Proof.
  intros H. destruct (stored_nth sg l 0 0 i d H) as (v & V & P). unfold get_discriminant_value. rewrite V.
  destruct v as [v|x].
  - subst v. exists (ev sg d). split; [reflexivity|]. destruct sg; reflexivity.
  - destruct P as [(a & -> & A & d' & D & ->)|(-> & -> & P)].
    + rewrite Nat2Z.id, D. cbn [option_map]. eexists. split; [reflexivity|]. destruct sg; reflexivity.
    + replace (i - Z.to_nat (0 + Z.of_nat i))%nat with 0%nat by lia.
      assert (L : (0 < length (stored sg 0 l))%nat). { assert (nth_error (stored sg 0 l) i <> None) by congruence. apply nth_error_Some in H0. lia. }
      destruct (nth_error (stored sg 0 l) 0) as [w|] eqn:W; [|apply nth_error_None in W; lia].
      destruct (P 0%nat w ltac:(lia) W) as (y & ->). eexists. split; [reflexivity|]. reflexivity.
Qed.

(** ** Checked conversions *)
Lemma read_le_ge_eval m p rho e lt gt v : read_le_ge e = Some (lt, gt) -> eval m p rho e = Ok v -> exact_bounds p e = true ->
  exists a c o, eval m p rho lt = Ok a /\ eval m p rho gt = Ok c /\ val_cmp a c = Ok o /\ v = VB (cmp_of CLe o)
    /\ exact_bounds p lt = true /\ exact_bounds p gt = true.
Proof.
  intros R E B. destruct e as [| | | | | |[|[]| |] e1 e2| | | | | |]; try discriminate; cbn in R; injection R as <- <-;
    apply andb_prop in B as [B1 B2]; apply eval_cmp_inv in E as (va & vb & o & E1 & E2 & C & ->).
  - exists va, vb, o. auto 10.
  - exists vb, va, (option_map CompOpp o). repeat split; auto.
    + now apply val_cmp_sym.
    + destruct o as [[]|]; reflexivity.
Qed.
Lemma types_cast p m rho e a s from to v : get_types_from_cast e a s = Some (from, to) -> exact_bounds p e = true -> eval m p rho e = Ok v ->
  (s = true -> ity_signed to = true) /\ v = VI from (match a with AMin => imin p to | _ => imax p to end).
Proof.
  intros H B E. destruct e as [| | | | | | |e t| | | | |]; try discriminate. destruct e as [| | | |t' a'| | | | | | | |]; try discriminate.
  cbn [get_types_from_cast] in H.
  destruct (in_ints t' && in_ints t && (negb s || ity_signed t') && match a, a' with AMin, AMin | AMax, AMax => true | _, _ => false end) eqn:Q; [|discriminate].
  injection H as <- <-. apply andb_prop in Q as [Q1 Q2]. apply andb_prop in Q1 as [Q1 Q3]. split.
  { intros ->. exact Q3. }
  destruct a, a'; try discriminate; cbn in B, E; injection E as <-; now rewrite wrap_id.
Qed.
Lemma upper_ok m p rho lt gt c a w o : check_upper_bound lt gt = Some c -> exact_bounds p gt = true ->
  eval m p rho lt = Ok a -> eval m p rho gt = Ok w -> val_cmp a w = Ok o ->
  exists from to z, c = conv_try_new lt from to /\ a = VI from z /\ inr p from z = true /\ cmp_of CLe o = (z <=? imax p to).
Proof.
  intros H B A W C. unfold check_upper_bound in H. destruct (get_types_from_cast gt AMax false) as [[from to]|] eqn:G; [|discriminate].
  injection H as <-. destruct (types_cast _ _ _ _ _ _ _ _ _ G B W) as [_ ->].
  destruct a as [t z|b|f|t z]; try discriminate. cbn in C. destruct (ity_eqb t from) eqn:T; [|discriminate]. injection C as <-. apply ity_eqb_eq in T. subst t.
  exists from, to, z. split; [reflexivity|]. split; [reflexivity|]. split; [now apply eval_VI_range in A|]. now rewrite cmp_of_Z.
Qed.
Lemma lower_ok m p rho lt gt c a w o : check_lower_bound lt gt = Some c -> exact_bounds p lt = true ->
  eval m p rho lt = Ok a -> eval m p rho gt = Ok w -> val_cmp a w = Ok o ->
  (exists from z, c = {| cvt := SignedToUnsigned; expr_to_cast := gt; to_type := None |} /\ w = VI from z /\ cmp_of CLe o = (0 <=? z))
  \/ (exists from to z, c = conv_try_new gt from to /\ ity_signed to = true /\ w = VI from z /\ cmp_of CLe o = (imin p to <=? z)).
Proof.
  intros H B A W C.
  assert (G : forall c, match get_types_from_cast lt AMin true with Some (from, to) => Some (conv_try_new gt from to) | None => None end = Some c ->
    exists from to z, c = conv_try_new gt from to /\ ity_signed to = true /\ w = VI from z /\ cmp_of CLe o = (imin p to <=? z)).
  { intros c0 G. destruct (get_types_from_cast lt AMin true) as [[from to]|] eqn:T; [|discriminate]. injection G as <-.
    destruct (types_cast _ _ _ _ _ _ _ _ _ T B A) as [S ->]. destruct w as [t z|b|f|t z]; try discriminate. cbn in C.
    destruct (ity_eqb from t) eqn:Q; [|discriminate]. injection C as <-. apply ity_eqb_eq in Q. subst t. exists from, to, z. repeat split; auto. }
  destruct lt as [t n|b|f|t x|t a0|o0 e|o0 e1 e2|e t|k e|k e a0|k e a0 b|c0 a0 b|i lo hi x]; try (right; apply G; exact H).
  destruct n as [|n|n]; try (right; apply G; exact H). cbn in H. injection H as <-. left.
  cbn in A. destruct (inr p t 0); [|discriminate]. injection A as <-. destruct w as [t' z|b|f|t' z]; try discriminate. cbn in C. destruct (ity_eqb t t'); [|discriminate].
  injection C as <-. exists t', z. repeat split.
Qed.

(** What a pair of bounds says about the value of the expression. *)
Lemma upper_lower_ok m p rho u l c e1 e2 b1 b2 : upper_lower u l = Some c -> read_le_ge e1 = Some u -> read_le_ge e2 = Some l ->
  exact_bounds p e1 = true -> exact_bounds p e2 = true ->
  (b1 = None \/ exists b, b1 = Some b /\ eval m p rho e1 = Ok (VB b)) -> (b2 = None \/ exists b, b2 = Some b /\ eval m p rho e2 = Ok (VB b)) ->
  exists to, to_type c = Some to /\
    (forall b, b1 = Some b -> exists from z, eval m p rho (expr_to_cast c) = Ok (VI from z) /\ b = (z <=? imax p to)) /\
    (forall b, b2 = Some b -> exists from z, eval m p rho (expr_to_cast c) = Ok (VI from z) /\ b = (imin p to <=? z)).
Proof.
  intros H R1 R2 B1 B2 V1 V2. unfold upper_lower in H. destruct u as [lt gt], l as [lt' gt']. cbn [fst snd] in H.
  destruct (check_upper_bound lt gt) as [a|] eqn:U; [|discriminate]. destruct (check_lower_bound lt' gt') as [b|] eqn:L; [|discriminate].
  unfold conv_combine in H. destruct (conv_type_eqb (cvt a) (cvt b) && expr_eqb (expr_to_cast a) (expr_to_cast b)
     && match to_type a with Some l => match to_type b with Some r => ity_eqb l r | None => true end | None => true end) eqn:Q; [|discriminate].
  apply andb_prop in Q as [Q QT]. apply andb_prop in Q as [QC QX]. apply expr_eqb_eq in QX.
  assert (U' := U). unfold check_upper_bound in U'. destruct (get_types_from_cast gt AMax false) as [[from to]|]; [|discriminate]. injection U' as <-.
  cbn [conv_try_new to_type expr_to_cast] in *. injection H as <-. cbn [conv_try_new to_type expr_to_cast]. exists to. split; [reflexivity|]. split.
  - intros r ->. destruct V1 as [V1|(r' & [= <-] & V1)]; [discriminate|]. destruct (read_le_ge_eval _ _ _ _ _ _ _ R1 V1 B1) as (va & vc & o & E1 & E2 & C & RQ & _ & X).
    destruct (upper_ok _ _ _ _ _ _ _ _ _ U X E1 E2 C) as (f' & t' & z & UQ & -> & _ & CQ). injection UQ as _ <-. rewrite CQ in RQ. injection RQ as ->. eauto.
  - intros r ->. destruct V2 as [V2|(r' & [= <-] & V2)]; [discriminate|]. destruct (read_le_ge_eval _ _ _ _ _ _ _ R2 V2 B2) as (va & vc & o & E1 & E2 & C & RQ & X & _).
    destruct (lower_ok _ _ _ _ _ _ _ _ _ L X E1 E2 C) as [(f' & z & -> & -> & CQ)|(f' & t' & z & -> & S & -> & CQ)]; rewrite CQ in RQ; injection RQ as ->; cbn [conv_try_new to_type expr_to_cast cvt] in *; subst lt.
    + exists f', z. split; [exact E2|]. unfold imin. destruct (ity_signed to); [|reflexivity]. destruct (ity_signed from); discriminate QC.
    + apply ity_eqb_eq in QT. subst t'. eauto.
Qed.

Lemma checked_sound m p rho e x to b : checked_conversions e = Some (x, to) -> exact_bounds p e = true -> eval m p rho e = Ok (VB b) ->
  exists from z, eval m p rho x = Ok (VI from z) /\ b = inr p to z.
Proof.
  intros H B E.
  assert (INR : forall z, inr p to z = (imin p to <=? z) && (z <=? imax p to)) by reflexivity.
  assert (ONE : match read_le_ge e with
        | Some (lt, gt) =>
            match check_upper_bound lt gt with
            | Some c => if conv_type_eqb (cvt c) FromUnsigned then Some c else None
            | None => None
            end
        | None => None
        end = Some {| cvt := FromUnsigned; expr_to_cast := x; to_type := Some to |} -> exists from z, eval m p rho x = Ok (VI from z) /\ b = inr p to z).
  { intros G. destruct (read_le_ge e) as [[lt gt]|] eqn:R; [|discriminate]. destruct (check_upper_bound lt gt) as [c|] eqn:U; [|discriminate].
    destruct (conv_type_eqb (cvt c) FromUnsigned) eqn:CV; [|discriminate]. injection G as ->.
    destruct (read_le_ge_eval _ _ _ _ _ _ _ R E B) as (va & vc & o & E1 & E2 & C & RQ & _ & X).
    destruct (upper_ok _ _ _ _ _ _ _ _ _ U X E1 E2 C) as (f' & t' & z & Q & -> & I & CQ). injection Q as Q -> ->. rewrite CQ in RQ. injection RQ as ->.
    exists f', z. split; [exact E1|]. rewrite INR. destruct (ity_signed f') eqn:S; [destruct (ity_signed t'); discriminate Q|].
    apply inr_iff in I. unfold imin in I. rewrite S in I. pose proof (imin_le0 p t'). destruct (Z.leb_spec (imin p t') z); [reflexivity|lia]. }
  assert (ONE' : match match read_le_ge e with
        | Some (lt, gt) =>
            match check_upper_bound lt gt with
            | Some c => if conv_type_eqb (cvt c) FromUnsigned then Some c else None
            | None => None
            end
        | None => None
        end with Some c => match to_type c with Some t => Some (expr_to_cast c, t) | None => None end | None => None end = Some (x, to) -> 
        exists from z, eval m p rho x = Ok (VI from z) /\ b = inr p to z).
  { intros G. apply ONE. destruct (match read_le_ge e with Some _ => _ | None => _ end) as [c|] eqn:G'; [|discriminate].
    destruct (read_le_ge e) as [[lt gt]|]; [|discriminate]. destruct (check_upper_bound lt gt) as [c'|]; [|discriminate].
    destruct (conv_type_eqb (cvt c') FromUnsigned) eqn:CV; [|discriminate]. injection G' as ->. destruct c as [[] x' [t'|]]; try discriminate. now injection G as -> ->. }
  destruct e as [t n|b0|f|t y|t a|o e|o e1 e2|e t|k e|k e a|k e a b0|c a b0|i lo hi y]; try (apply ONE'; exact H).
  destruct o as [o|c| |]; try (apply ONE'; exact H). clear ONE ONE'.
  unfold checked_conversions in H. cbv zeta iota in H. cbn [exact_bounds] in B. apply andb_prop in B as [B1 B2].
  destruct (read_le_ge e1) as [c1|] eqn:R1; [|discriminate]. destruct (read_le_ge e2) as [c2|] eqn:R2; [|discriminate].
  cbn [eval] in E. apply rbind_Ok in E as (v1 & E1 & E). destruct v1 as [| b1| |]; try discriminate.
  assert (V2 : exists o2, (o2 = None \/ exists b, o2 = Some b /\ eval m p rho e2 = Ok (VB b)) /\ match o2 with None => b1 = false /\ b = false | Some b2 => b1 = true /\ b = b2 end).
  { destruct b1; [|injection E as <-; exists None; auto]. apply rbind_Ok in E as (v2 & E2 & E). destruct v2 as [|b2| |]; try discriminate. injection E as ->. exists (Some b). split; eauto. }
  destruct V2 as (o2 & V2 & Q).
  destruct (upper_lower c1 c2) as [c|] eqn:UL.
  - destruct (upper_lower_ok m p rho _ _ _ _ _ (Some b1) o2 UL R1 R2 B1 B2) as (to' & T & P1 & P2); eauto.
    rewrite T in H. injection H as <- <-. destruct (P1 _ eq_refl) as (from & z & X & Z1). exists from, z. split; [exact X|]. rewrite INR.
    destruct o2 as [b2|].
    + destruct (P2 _ eq_refl) as (from' & z' & X' & Z2). rewrite X in X'. injection X' as <- <-. destruct Q as [-> ->]. now rewrite <- Z1, <- Z2, andb_true_r.
    + destruct Q as [-> ->]. now rewrite <- Z1, andb_false_r.
  - destruct (upper_lower c2 c1) as [c|] eqn:UL'; [|discriminate].
    destruct (upper_lower_ok m p rho _ _ _ _ _ o2 (Some b1) UL' R2 R1 B2 B1) as (to' & T & P1 & P2); eauto.
    rewrite T in H. injection H as <- <-. destruct (P2 _ eq_refl) as (from & z & X & Z1). exists from, z. split; [exact X|]. rewrite INR.
    destruct o2 as [b2|].
    + destruct (P1 _ eq_refl) as (from' & z' & X' & Z2). rewrite X in X'. injection X' as <- <-. destruct Q as [-> ->]. now rewrite <- Z1, <- Z2.
    + destruct Q as [-> ->]. now rewrite <- Z1.
Qed.
