From Coq Require Import SpecFloat Lia.
From Verif Require Import RustFacts ConstProofs SatProofs StructSpec.
Open Scope Z_scope.

Section SconstInd.
  Context (P : sconst -> Prop).
  Context (Hstr : forall s, P (SStr s)) (Hbin : forall s, P (SBinary s)) (Hchar : forall c, P (SChar c)) (Hint : forall u, P (SInt u))
          (Hf : forall f, P (SF64 f)) (Hb : forall b, P (SBool b)) (Hvec : forall l, Forall P l -> P (SVec l))
          (Hrep : forall c n, P c -> P (SRepeat c n)) (Htup : forall l, Forall P l -> P (STuple l)) (Href : forall c, P c -> P (SRef c))
          (Hoth : forall n, P (SOther n)).
  Fixpoint sconst_ind' (c : sconst) : P c :=
    match c with
    | SStr s => Hstr s | SBinary s => Hbin s | SChar c => Hchar c | SInt u => Hint u | SF64 f => Hf f | SBool b => Hb b
    | SVec l => Hvec l ((fix go l : Forall P l := match l with [] => Forall_nil P | x :: l => Forall_cons x (sconst_ind' x) (go l) end) l)
    | SRepeat c n => Hrep c n (sconst_ind' c)
    | STuple l => Htup l ((fix go l : Forall P l := match l with [] => Forall_nil P | x :: l => Forall_cons x (sconst_ind' x) (go l) end) l)
    | SRef c => Href c (sconst_ind' c)
    | SOther n => Hoth n
    end.
End SconstInd.

Lemma list_eqb_iff {A} (eqb : A -> A -> bool) (Q : A -> Prop) l : Forall (fun x => forall y, eqb x y = true <-> x = y /\ Q x) l ->
  forall r, list_eqb eqb l r = true <-> l = r /\ all Q l.
Proof.
  induction 1 as [|x l Hx _ IH]; intros [|y r]; cbn; try (split; [discriminate|intros [? _]; discriminate]).
  - tauto.
  - rewrite andb_true_iff, Hx, IH. split; [intros [[-> U] [-> W]]; auto|intros [E [U W]]; injection E as -> ->; auto].
Qed.
Lemma zlist_eqb l r : list_eqb Z.eqb l r = true <-> l = r.
Proof.
  rewrite (list_eqb_iff Z.eqb (fun _ => True) l).
  - split; [tauto|intros ->; split; auto]. clear. induction r; cbn; auto.
  - apply Forall_forall. intros x _ y. rewrite Z.eqb_eq. tauto.
Qed.
Lemma same_bits_eq f g : same_bits f g = true <-> f = g.
Proof.
  destruct f, g; cbn; try (split; [discriminate|congruence]); try (rewrite Bool.eqb_true_iff; split; congruence); [tauto|].
  rewrite !andb_true_iff, Bool.eqb_true_iff, Pos.eqb_eq, Z.eqb_eq. split; [intros [[-> ->] ->]; auto|intros E; injection E as -> -> ->; auto].
Qed.
Lemma ceq_iff a : forall b, ceq a b = true <-> a = b /\ self_equal a.
Proof.
  induction a using sconst_ind'; intros d; destruct d; cbn [ceq self_equal]; try (split; [discriminate|intros [? _]; discriminate]).
  - rewrite zlist_eqb. split; [intros ->; auto|intros [E _]; congruence].
  - rewrite zlist_eqb. split; [intros ->; auto|intros [E _]; congruence].
  - rewrite Z.eqb_eq. split; [intros ->; auto|intros [E _]; congruence].
  - rewrite Z.eqb_eq. split; [intros ->; auto|intros [E _]; congruence].
  - rewrite andb_true_iff, same_bits_eq, negb_true_iff. split.
    + intros [-> N]. split; auto. intros ->. discriminate.
    + intros [E N]. injection E as ->. split; auto. destruct f0; auto. now destruct N.
  - rewrite Bool.eqb_true_iff. split; [intros ->; auto|intros [E _]; congruence].
  - rewrite (list_eqb_iff ceq self_equal l H l0). split; [intros [-> A]; auto|intros [E A]; injection E as ->; auto].
  - rewrite andb_true_iff, Nat.eqb_eq, IHa. split; [intros [-> [-> A]]; auto|intros [E A]; injection E as -> ->; auto].
  - rewrite (list_eqb_iff ceq self_equal l H l0). split; [intros [-> A]; auto|intros [E A]; injection E as ->; auto].
  - rewrite IHa. split; [intros [-> A]; auto|intros [E A]; injection E as ->; auto].
  - split; [discriminate|tauto].
Qed.

Lemma bytes_lex l : forall r, Some (bytes_cmp l r) = lex (fun x y => Some (x ?= y)) l r.
Proof. induction l as [|x l IH]; intros [|y r]; cbn; auto. destruct (x ?= y); auto. Qed.

Definition agrees (p : ptrw) (a b : sconst) (t : sty) (x y : rval) : Prop :=
  exists r, pcmp p a b t = Some r /\ (alike a b -> r = rust_cmp x y) /\ (r = None \/ r = rust_cmp x y).
Lemma agrees_answer p a b t x y o : pcmp p a b t = Some o -> o = rust_cmp x y -> agrees p a b t x y.
Proof. intros H ->. eexists. split; [exact H|]. auto. Qed.
Lemma int_denote p t u v : (if to_bits p t (of_bits p t u) =? u then Some (RInt (of_bits p t u)) else None) = Some v ->
  v = RInt (if ity_signed t then sext p t u else u).
Proof.
  destruct (Z.eqb_spec (to_bits p t (of_bits p t u)) u) as [E|E]; [|discriminate]. intros H. injection H as <-. f_equal.
  destruct (ity_signed t) eqn:S; [symmetry; now apply sext_wrap|].
  unfold of_bits, wrap. rewrite S. unfold to_bits in E. rewrite <- E at 1. rewrite Z.mod_mod by (pose proof (Z.pow_nonneg 2 (bits p t)); destruct t as [s []]; destruct p; cbn; lia). exact E.
Qed.

Lemma omap_some {A B} (f : A -> option B) l xs : omap f l = Some xs -> Forall2 (fun x y => f x = Some y) l xs.
Proof.
  revert xs. induction l as [|x l IH]; cbn; intros xs H; [injection H as <-; constructor|].
  destruct (f x) eqn:E; [|discriminate]. destruct (omap f l) eqn:O; [|discriminate]. injection H as <-. constructor; auto.
Qed.
Lemma seq_agrees p (f : sconst -> option rval) (t : sty) l : forall r xs ys,
  Forall (fun a => forall b x y, f a = Some x -> f b = Some y -> no_empty_repeat a -> no_empty_repeat b -> agrees p a b t x y) l ->
  Forall2 (fun c v => f c = Some v) l xs -> Forall2 (fun c v => f c = Some v) r ys -> all no_empty_repeat l -> all no_empty_repeat r ->
  exists o, find_diff (fun x y => pcmp p x y t) (Some (Some (Nat.compare (length l) (length r)))) l r = Some o
    /\ (all2 alike l r -> o = lex rust_cmp xs ys) /\ (o = None \/ o = lex rust_cmp xs ys).
Proof.
  induction l as [|a l IH]; intros r xs ys H Hl Hr Nl Nr.
  - inversion Hl; subst. inversion Hr; subst; cbn; eexists; (split; [reflexivity|auto]).
  - inversion Hl; subst. inversion Hr as [|b v r' vs Hb Hr' E1 E2]; subst; [cbn; eexists; (split; [reflexivity|auto])|].
    inversion H as [|? ? Ha Hl']; subst. cbn in Nl, Nr. destruct Nl as [Na Nl], Nr as [Nb Nr].
    destruct (Ha b _ _ ltac:(eassumption) Hb Na Nb) as (o & O & A1 & A2).
    destruct (IH r' _ _ Hl' ltac:(eassumption) Hr' Nl Nr) as (o' & O' & B1 & B2).
    cbn [find_diff length lex Nat.compare all2]. rewrite O.
    destruct o as [[]|].
    + destruct A2 as [A2|A2]; [discriminate|]. rewrite <- A2. exists o'. split; [exact O'|]. split; [intros [_ ?]; auto|auto].
    + destruct A2 as [A2|A2]; [discriminate|]. rewrite <- A2. eexists. split; [reflexivity|]. auto.
    + destruct A2 as [A2|A2]; [discriminate|]. rewrite <- A2. eexists. split; [reflexivity|]. auto.
    + eexists. split; [reflexivity|]. split; [|auto]. intros [A _]. rewrite <- (A1 A). reflexivity.
Qed.
Lemma omap2_some {A B C} (f : A -> B -> option C) l : forall r xs, omap2 f l r = Some xs ->
  length l = length r /\ match l, r, xs with
    | [], [], [] => True
    | x :: l, y :: r, z :: xs => f x y = Some z /\ omap2 f l r = Some xs
    | _, _, _ => False end.
Proof.
  induction l as [|x l IH]; intros [|y r] xs H; cbn in H; try discriminate.
  - injection H as <-. auto.
  - destruct (f x y) eqn:E; [|discriminate]. destruct (omap2 f l r) eqn:O; [|discriminate]. injection H as <-.
    destruct (IH r l0 O) as [L _]. cbn. auto.
Qed.
Lemma tup_agrees p l : forall r ts xs ys,
  Forall (fun a => forall b t x y, denote p a t = Some x -> denote p b t = Some y -> no_empty_repeat a -> no_empty_repeat b -> agrees p a b t x y) l ->
  omap2 (denote p) l ts = Some xs -> omap2 (denote p) r ts = Some ys -> all no_empty_repeat l -> all no_empty_repeat r ->
  exists o, find_diff3 (pcmp p) (Some (Some (Nat.compare (length l) (length r)))) l r ts = Some o
    /\ (all2 alike l r -> o = lex rust_cmp xs ys) /\ (o = None \/ o = lex rust_cmp xs ys).
Proof.
  induction l as [|a l IH]; intros r ts xs ys H Hl Hr Nl Nr.
  - apply omap2_some in Hl as [L Hl], Hr as [R Hr]. destruct ts; [|discriminate]. destruct xs; [|contradiction]. destruct r; [|discriminate].
    destruct ys; [|contradiction]. cbn. eexists. split; [reflexivity|auto].
  - apply omap2_some in Hl as [L Hl], Hr as [R Hr]. destruct ts as [|t ts]; [discriminate|]. destruct r as [|b r]; [discriminate|].
    destruct xs as [|x xs], ys as [|y ys]; try contradiction. destruct Hl as [Ha Hl], Hr as [Hb Hr].
    inversion H as [|? ? Pa Hl']; subst. cbn in Nl, Nr. destruct Nl as [Na Nl], Nr as [Nb Nr].
    destruct (Pa b t x y Ha Hb Na Nb) as (o & O & A1 & A2).
    destruct (IH r ts xs ys Hl' Hl Hr Nl Nr) as (o' & O' & B1 & B2).
    cbn [find_diff3 length lex Nat.compare all2]. rewrite O.
    destruct o as [[]|].
    + destruct A2 as [A2|A2]; [discriminate|]. rewrite <- A2. exists o'. split; [exact O'|]. split; [intros [_ ?]; auto|auto].
    + destruct A2 as [A2|A2]; [discriminate|]. rewrite <- A2. eexists. split; [reflexivity|]. auto.
    + destruct A2 as [A2|A2]; [discriminate|]. rewrite <- A2. eexists. split; [reflexivity|]. auto.
    + eexists. split; [reflexivity|]. split; [|auto]. intros [A _]. rewrite <- (A1 A). reflexivity.
Qed.
Lemma lex_repeat x y : forall n m, (0 < n)%nat -> (0 < m)%nat ->
  lex rust_cmp (repeat x n) (repeat y m) = match rust_cmp x y with Some Eq => Some (Nat.compare n m) | o => o end.
Proof.
  assert (E : rust_cmp x y = Some Eq -> forall n m, lex rust_cmp (repeat x n) (repeat y m) = Some (Nat.compare n m)).
  { intros E. induction n as [|n IH]; intros [|m]; cbn; auto. rewrite E. apply IH. }
  intros [|n] [|m]; try lia. intros _ _. destruct (rust_cmp x y) as [[]|] eqn:R; try (cbn; rewrite R; reflexivity).
  apply E. auto.
Qed.
Lemma some_map {A B} (f : A -> B) o v : option_map f o = Some v -> exists w, o = Some w /\ v = f w.
Proof. destruct o; [|discriminate]. intros H. injection H as <-. eauto. Qed.
Lemma pcmp_agrees p a : forall b t x y, denote p a t = Some x -> denote p b t = Some y -> no_empty_repeat a -> no_empty_repeat b -> agrees p a b t x y.
Proof.
  induction a using sconst_ind'; intros d t x y Ha Hb Na Nb; cbn [denote] in Ha.
  - destruct t; try discriminate. injection Ha as <-. destruct d; cbn [denote] in Hb; try discriminate. injection Hb as <-.
    eapply agrees_answer; [reflexivity|]. apply bytes_lex.
  - discriminate.
  - destruct t; try discriminate. injection Ha as <-. destruct d; cbn [denote] in Hb; try discriminate. injection Hb as <-.
    eapply agrees_answer; reflexivity.
  - destruct t; try discriminate. apply int_denote in Ha. subst x. destruct d; cbn [denote] in Hb; try discriminate. apply int_denote in Hb. subst y.
    eapply agrees_answer; [reflexivity|]. cbn. destruct (ity_signed t); auto.
  - destruct t; try discriminate. injection Ha as <-. destruct d; cbn [denote] in Hb; try discriminate. injection Hb as <-.
    eapply agrees_answer; reflexivity.
  - destruct t; try discriminate. injection Ha as <-. destruct d; cbn [denote] in Hb; try discriminate. injection Hb as <-.
    eapply agrees_answer; reflexivity.
  - assert (T : exists e, (t = TyArray e \/ t = TySlice e) /\ option_map RSeq (omap (fun c => denote p c e) l) = Some x).
    { destruct t; try discriminate; eauto. }
    destruct T as (e & T & Ha'). apply some_map in Ha' as (xs & Hx & ->). apply omap_some in Hx.
    destruct d; try (destruct T as [-> | ->]; discriminate).
    + assert (Hb' : option_map RSeq (omap (fun c => denote p c e) l0) = Some y) by (destruct T as [-> | ->]; exact Hb).
      apply some_map in Hb' as (ys & Hy & ->). apply omap_some in Hy.
      destruct (seq_agrees p (fun c => denote p c e) e l l0 xs ys) as (o & O & A1 & A2); auto.
      { eapply Forall_impl; [|exact H]. cbn. intros a Ia b x y. apply Ia. }
      exists o. split; [|split; [exact A1|exact A2]]. destruct T as [-> | ->]; exact O.
    + exists None. split; [reflexivity|]. split; [intros []|auto].
  - destruct t; try discriminate. apply some_map in Ha as (v & Hv & ->). destruct d; cbn [denote] in Hb; try discriminate.
    + exists None. split; [reflexivity|]. split; [intros []|auto].
    + apply some_map in Hb as (w & Hw & ->). destruct Na as [Pn Na], Nb as [Pm Nb].
      destruct (IHa d t v w Hv Hw Na Nb) as (o & O & A1 & A2). unfold agrees. cbn [pcmp rust_cmp alike]. rewrite O, lex_repeat by auto.
      destruct o as [[]|]; eexists; (split; [reflexivity|]); try (destruct A2 as [A2|A2]; [discriminate|]; rewrite <- A2; auto; fail).
      split; [|auto]. intros A. rewrite <- (A1 A). reflexivity.
  - destruct t; try discriminate. apply some_map in Ha as (xs & Hx & ->). destruct d; cbn [denote] in Hb; try discriminate.
    apply some_map in Hb as (ys & Hy & ->).
    destruct (tup_agrees p l l1 l0 xs ys H Hx Hy Na Nb) as (o & O & A1 & A2).
    pose proof (proj1 (omap2_some _ _ _ _ Hx)) as Lx. pose proof (proj1 (omap2_some _ _ _ _ Hy)) as Ly.
    exists o. split; [|split; [exact A1|exact A2]]. cbn [pcmp]. rewrite Lx, Ly, !Nat.eqb_refl. rewrite Lx, Ly in O. exact O.
  - destruct t; try discriminate. apply some_map in Ha as (v & Hv & ->). destruct d; cbn [denote] in Hb; try discriminate.
    apply some_map in Hb as (w & Hw & ->). destruct (IHa d t v w Hv Hw Na Nb) as (o & O & A). exists o. cbn. auto.
  - discriminate.
Qed.

(** ** Extreme values *)
Lemma sext_bits p t z : ity_signed t = true -> inr p t z = true -> sext p t (to_bits p t z) = z.
Proof. apply sext_to_bits. Qed.
Lemma i128w_small u : 0 <= u < 2 ^ 127 -> i128w u = u.
Proof. intros H. unfold i128w. rewrite Z.mod_small by lia. lia. Qed.
Lemma imax_pos p t : 0 <= imax p t < 2 ^ 128.
Proof. unfold imax. destruct (bits_cases p t) as [E|[E|[E|[E|E]]]]; rewrite E; destruct (ity_signed t); cbn; lia. Qed.
Lemma sext_min p t : ity_signed t = true -> sext p t (u128w (imin p t)) = imin p t.
Proof.
  intros S. rewrite sext_wrap by auto. apply (wrap_unique p t _ _ (2 ^ (128 - bits p t) * (imin p t / 2 ^ 128))).
  - apply inr_iff. pose proof (imax_pos p t). unfold imin in *. rewrite S. pose proof (Z.pow_nonneg 2 (bits p t - 1)). lia.
  - unfold u128w. rewrite Z.mod_eq by lia. pose proof (bits_le128 p t). pose proof (bits_pos p t).
    assert (E : 2 ^ 128 = 2 ^ (128 - bits p t) * 2 ^ bits p t) by (rewrite <- Z.pow_add_r by lia; f_equal; lia). rewrite E at 1. ring.
Qed.
Lemma sext_max p t : ity_signed t = true -> sext p t (u128w (imax p t)) = imax p t.
Proof.
  intros S. rewrite sext_wrap by auto. pose proof (imax_pos p t). unfold u128w. rewrite Z.mod_small by lia.
  apply wrap_id. apply inr_iff. unfold imin. rewrite S. pose proof (Z.pow_nonneg 2 (bits p t - 1)). lia.
Qed.
Lemma extremes_order p t z : inr p t z = true -> exists mn mx, numeric_min p (TyInt t) = Some mn /\ numeric_max p (TyInt t) = Some mx
  /\ pcmp p mn (SInt (to_bits p t z)) (TyInt t) = Some (Some (imin p t ?= z)) /\ pcmp p mx (SInt (to_bits p t z)) (TyInt t) = Some (Some (imax p t ?= z)).
Proof.
  intros I. do 2 eexists. split; [reflexivity|]. split; [reflexivity|]. cbn. destruct (ity_signed t) eqn:S.
  - rewrite sext_min, sext_max, sext_bits by auto. auto.
  - rewrite to_bits_unsigned by auto. pose proof (imax_pos p t). unfold u128w. rewrite Z.mod_small by lia. unfold imin. rewrite S. auto.
Qed.
Lemma is_max_iff p t z : inr p t z = true -> (is_numeric_max p (SInt (to_bits p t z)) (TyInt t) = true <-> z = imax p t).
Proof.
  intros I. cbn. destruct (ity_signed t) eqn:S; rewrite Z.eqb_eq.
  - assert (E : to_bits p t z = imax p t -> z = imax p t) by (apply bits_imax; auto).
    assert (C : to_bits p t (imax p t) = imax p t).
    { apply to_bits_nonneg_small; [pose proof (imax_pos p t); lia|]. apply inr_iff. unfold imin. rewrite S. pose proof (imax_pos p t). pose proof (Z.pow_nonneg 2 (bits p t - 1)). lia. }
    assert (M : imax p t < 2 ^ 127).
    { unfold imax. rewrite S. destruct (bits_cases p t) as [B|[B|[B|[B|B]]]]; rewrite B; cbn; lia. }
    split.
    + intros W. apply E. pose proof (to_bits_range p t z) as R. pose proof (imax_pos p t) as P.
      unfold i128w in W. destruct (Z_lt_le_dec (to_bits p t z) (2 ^ 127)) as [L|L].
      * rewrite Z.mod_small in W by lia. lia.
      * exfalso. pose proof (bits_le128 p t). assert (2 ^ bits p t <= 2 ^ 128) by (apply Z.pow_le_mono_r; lia).
        replace (to_bits p t z + 2 ^ 127) with (to_bits p t z - 2 ^ 127 + 1 * 2 ^ 128) in W by lia. rewrite Z_mod_plus_full, Z.mod_small in W by lia. lia.
    + intros ->. rewrite C. apply i128w_small. pose proof (imax_pos p t). lia.
  - rewrite to_bits_unsigned by auto. reflexivity.
Qed.
Lemma is_min_iff p t z : ity_signed t = false \/ bits p t = 128 -> inr p t z = true ->
  (is_numeric_min p (SInt (to_bits p t z)) (TyInt t) = true <-> z = imin p t).
Proof.
  intros C I. cbn. destruct (ity_signed t) eqn:S; rewrite Z.eqb_eq.
  - destruct C as [C|C]; [discriminate|]. apply inr_iff in I. unfold to_bits, i128w, imin, imax in *. rewrite S in *. rewrite C in *.
    change (128 - 1) with 127 in *. rewrite Z.add_mod_idemp_l by lia. rewrite Z.mod_small by lia. lia.
  - rewrite to_bits_unsigned by auto. unfold imin. rewrite S. reflexivity.
Qed.
Lemma is_min_never p t z : ity_signed t = true -> bits p t < 128 -> is_numeric_min p (SInt (to_bits p t z)) (TyInt t) = false.
Proof.
  intros S B. cbn. rewrite S. apply Z.eqb_neq. pose proof (to_bits_range p t z) as R.
  assert (2 ^ bits p t <= 2 ^ 127) by (apply Z.pow_le_mono_r; lia). rewrite i128w_small by lia.
  unfold imin. rewrite S. pose proof (bits_pos p t). pose proof (Z.pow_pos_nonneg 2 (bits p t - 1)). lia.
Qed.
