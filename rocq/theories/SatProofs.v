(** Proofs about the saturating-arithmetic lints. *)
From Coq Require Import SpecFloat ZifyBool.
From Verif Require Import RustFacts ConstProofs ConstTotal ConstMore LintSpec RustStmt SatModel RotateProofs ArithProofs MaskProofs ClampProofs.
Open Scope Z_scope.

Lemma is_lit e n : is_int_lit e n = true -> exists t, e = ELit t n.
Proof. exact (is_int_lit_inv e n). Qed.
Lemma subtracts_one_inv s t x : subtracts_one s = Some (t, x) -> exists t1,
  s = SAssignOp OSub t x (ELit t1 1) \/ s = SAssign t x (EBin (BI OSub) (EVar t x) (ELit t1 1)).
Proof.
  destruct s as [|t' y e|o t' y e| |]; try discriminate; cbn.
  - destruct e as [| | | | | |o l r| | | | | |]; try discriminate. destruct o as [[]| | |]; try discriminate.
    destruct (expr_eqb l (EVar t' y) && is_int_lit r 1) eqn:E; [|discriminate]. apply andb_prop in E as [E1 E2].
    apply expr_eqb_eq in E1. apply is_lit in E2 as [t1 ->]. intros [= -> ->]. subst. eauto.
  - destruct o; try discriminate. destruct (is_int_lit e 1) eqn:E; [|discriminate]. apply is_lit in E as [t1 ->]. intros [= -> ->]. eauto.
Qed.
(** What the decrement does. *)
Lemma subtracts_one_exec m p rho s t x i r : subtracts_one s = Some (t, x) -> t = TI i -> exec m p rho s = Ok r ->
  exists z, rho x = VI i z /\ inr p i z = true /\ exists z', arith m p i (z - 1) = Ok z' /\ r = upd rho x (VI i z').
Proof.
  intros H -> Hr. apply subtracts_one_inv in H as [t1 H].
  assert (exists v, eval m p rho (EBin (BI OSub) (EVar (TI i) x) (ELit t1 1)) = Ok v /\ r = upd rho x v) as (v & Hv & ->).
  { destruct H as [->| ->]; cbn [exec] in Hr; apply rbind_Ok in Hr as (v & Hv & Hr); exists v; (split; [exact Hv|]);
      destruct (ty_eqb _ _); congruence. }
  apply (eval_bi_int_inv _ _ _ _ _ _ i) in Hv as (t' & z & y & w & Hz & Hy & Rz & Ry & -> & Ho & ->); [|reflexivity].
  apply eval_var_inv in Hz as (Hz & _). exists z. split; [auto|]. split; [auto|].
  apply eval_lit_inv in Hy as (Hy & _). injection Hy as -> ->. cbn in Ho. eauto.
Qed.
Lemma sat_sub_one p t z : inr p t z = true -> sat (imin p t) (imax p t) (z - 1) = if z =? imin p t then z else z - 1.
Proof. intros R. apply inr_iff in R. unfold sat. destruct (Z.ltb_spec (z - 1) (imin p t)), (Z.ltb_spec (imax p t) (z - 1)), (Z.eqb_spec z (imin p t)); lia. Qed.
Lemma sat_add_one p t z : inr p t z = true -> sat (imin p t) (imax p t) (z + 1) = if z =? imax p t then z else z + 1.
Proof. intros R. apply inr_iff in R. unfold sat. destruct (Z.ltb_spec (z + 1) (imin p t)), (Z.ltb_spec (imax p t) (z + 1)), (Z.eqb_spec z (imax p t)); lia. Qed.

Lemma upd_self rho x v y : rho x = v -> rho y = upd rho x v y.
Proof. intros <-. destruct (Nat.eq_dec y x) as [->|N]; [now rewrite upd_same|now rewrite upd_other]. Qed.
(** An `if` whose condition says "not at the end" around a step by one. *)
Lemma sat_step m p rho x i z k (b : bool) r : (k = MSatSub /\ (b = true -> z <> imin p i) /\ (b = false -> z = imin p i) \/
                                               k = MSatAdd /\ (b = true -> z <> imax p i) /\ (b = false -> z = imax p i)) ->
  rho x = VI i z -> inr p i z = true ->
  (b = true -> exists z', arith m p i (match k with MSatSub => z - 1 | _ => z + 1 end) = Ok z' /\ r = upd rho x (VI i z')) -> (b = false -> r = rho) ->
  exists r', exec m p rho (SAssign (TI i) x (EM1 k (EVar (TI i) x) (ELit i 1))) = Ok r' /\ forall y, r y = r' y.
Proof.
  intros K Hz R Hb Hn.
  assert (E1 : eval m p rho (ELit i 1) = Ok (VI i 1)). { cbn. rewrite inr_small by lia. reflexivity. }
  assert (E2 : eval m p rho (EVar (TI i) x) = Ok (VI i z)). { rewrite <- Hz. apply eval_var; rewrite Hz; auto. }
  assert (L : imin p i <= z <= imax p i) by now apply inr_iff.
  pose proof (imax_ge127 p i). pose proof (imin_le0 p i).
  destruct K as [(-> & Kt & Kf)|(-> & Kt & Kf)].
  - exists (upd rho x (VI i (sat (imin p i) (imax p i) (z - 1)))). split.
    { cbn [exec]. cbn [eval] in *. rewrite E2, E1. cbn [rbind]. cbn [sem1]. rewrite ity_eqb_refl. cbn [rbind val_ty]. now rewrite ty_eqb_refl. }
    rewrite sat_sub_one by auto. destruct b.
    + destruct (Hb eq_refl) as (z' & Ha & ->). specialize (Kt eq_refl). rewrite arith_in in Ha by (apply inr_iff; lia). injection Ha as <-.
      destruct (Z.eqb_spec z (imin p i)); [contradiction|reflexivity].
    + rewrite (Hn eq_refl). specialize (Kf eq_refl). destruct (Z.eqb_spec z (imin p i)); [|contradiction]. intros y. now apply upd_self.
  - exists (upd rho x (VI i (sat (imin p i) (imax p i) (z + 1)))). split.
    { cbn [exec]. cbn [eval] in *. rewrite E2, E1. cbn [rbind]. cbn [sem1]. rewrite ity_eqb_refl. cbn [rbind val_ty]. now rewrite ty_eqb_refl. }
    rewrite sat_add_one by auto. destruct b.
    + destruct (Hb eq_refl) as (z' & Ha & ->). specialize (Kt eq_refl). rewrite arith_in in Ha by (apply inr_iff; lia). injection Ha as <-.
      destruct (Z.eqb_spec z (imax p i)); [contradiction|reflexivity].
    + rewrite (Hn eq_refl). specialize (Kf eq_refl). destruct (Z.eqb_spec z (imax p i)); [|contradiction]. intros y. now apply upd_self.
Qed.

Lemma lower_end_value m p rho l e t z : is_lower_end l e = true -> eval m p rho e = Ok (VI t z) -> ty_of l = Some (TI t) -> z = imin p t.
Proof.
  intros H Hv Tl. destruct e as [t0 n| | | |t0 a| | | | | | | |]; try discriminate.
  - apply eval_lit_inv in Hv as (E & _). injection E as -> ->. cbn [is_lower_end] in H. rewrite Tl in H. unfold imin. destruct (ity_signed t0); cbn [negb] in H; lia.
  - destruct a; try discriminate. cbn in Hv. congruence.
Qed.

Lemma implicit_sub_correct m p rho s s' : implicit_sub_stmt s = Some s' -> spreserves m p rho s s'.
Proof.
  intros H r Hr. unfold implicit_sub_stmt in H. destruct s as [| | |c th el|]; try discriminate.
  destruct c as [| | | | | |o l rr| | | | | |]; try discriminate. destruct o as [|c| |]; try discriminate.
  destruct el; try discriminate.
  assert (HC : c = CNe \/ c = CGt \/ c = CLt) by (destruct c; try discriminate; auto).
  destruct (subtracts_one th) as [[t x]|] eqn:S1; [|destruct c; discriminate].
  set (sugg := SAssign t x (EM1 MSatSub (EVar t x) (ELit (match t with TI i => i | _ => u32 end) 1))) in *.
  assert (exists other, (l = EVar t x /\ other = rr /\ (c = CGt \/ c = CNe) \/ rr = EVar t x /\ other = l /\ (c = CLt \/ c = CNe)) /\
    is_int_ty (Some t) = true /\ is_lower_end l other = true /\ sugg = s') as (other & Hs & It & Lo & <-).
  { assert (H' : (match (if expr_eqb l (EVar t x) then match c with CGt | CNe => Some rr | _ => None end
                     else if expr_eqb rr (EVar t x) then match c with CLt | CNe => Some l | _ => None end
                     else None) with
              | Some other => if is_int_ty (Some t) && is_lower_end l other then Some sugg else None
              | None => None
              end) = Some s') by (destruct HC as [->|[->| ->]]; exact H). clear H.
    destruct (expr_eqb l (EVar t x)) eqn:E1.
    - apply expr_eqb_eq in E1. destruct HC as [->|[->| ->]]; try discriminate; destruct (is_int_ty (Some t)) eqn:E2; try discriminate;
      destruct (is_lower_end l rr) eqn:E3; try discriminate; cbn in H'; injection H' as <-; exists rr; auto 10.
    - destruct (expr_eqb rr (EVar t x)) eqn:E4; [|discriminate]. apply expr_eqb_eq in E4.
      destruct HC as [->|[->| ->]]; try discriminate; destruct (is_int_ty (Some t)) eqn:E2; try discriminate;
      destruct (is_lower_end l l) eqn:E3; try discriminate; cbn in H'; injection H' as <-; exists l; auto 10. }
  destruct t as [i| | |]; try discriminate.
  cbn [exec] in Hr. apply rbind_Ok in Hr as (w & Hw & Hr). apply eval_cmp_inv in Hw as (va & vb & o & Ha & Hb & Ho & ->).
  assert (exists z k, rho x = VI i z /\ inr p i z = true /\ eval m p rho other = Ok (VI i k) /\ ty_of l = Some (TI i) /\ cmp_of c o = (if (match c with CNe => true | _ => false end) then negb (z =? k) else k <? z))
    as (z & k & Hz & Rz & Hk & Tl & Hcmp).
  
  { destruct Hs as [(-> & -> & Hc)|(-> & -> & Hc)].
    - apply eval_var_inv in Ha as (-> & Ya & Wa). destruct (rho x) as [tx z| | |]; try discriminate. cbn in Ya. injection Ya as ->.
      destruct vb as [tb k| | |]; try discriminate. cbn in Ho. destruct (ity_eqb i tb) eqn:E; [|discriminate]. apply ity_eqb_eq in E. subst tb. injection Ho as <-.
      exists z, k. do 4 (split; [auto|]). rewrite cmp_of_Z. destruct Hc as [->| ->]; cbn; lia.
    - pose proof Hb as Hb'. apply eval_var_inv in Hb as (-> & Yb & Wb). destruct (rho x) as [tx z| | |] eqn:Ex; try discriminate. cbn in Yb. injection Yb as ->.
      destruct va as [ta k| | |]; try discriminate. cbn in Ho. destruct (ity_eqb ta i) eqn:E; [|discriminate]. apply ity_eqb_eq in E. subst ta. injection Ho as <-.
      exists z, k. do 3 (split; [auto|]). split.
      { destruct l as [t0 n| | | |t0 a| | | | | | | |]; try discriminate; [apply eval_lit_inv in Ha as (E & _); injection E as -> _; reflexivity|].
        destruct a; try discriminate. cbn in Ha. injection Ha as -> _. reflexivity. }
      rewrite cmp_of_Z. destruct Hc as [->| ->]; cbn; lia. }
  assert (k = imin p i) by (eapply lower_end_value; eauto). subst k. rewrite Hcmp in Hr. clear Hcmp.
  assert (Lz : imin p i <= z) by (apply inr_iff in Rz; lia).
  eapply (sat_step m p rho x i z MSatSub _ r); eauto.
  - left. split; [auto|]. split; intros Q.
    + instantiate (1 := if match c with CNe => true | _ => false end then negb (z =? imin p i) else imin p i <? z) in Q. destruct c; lia.
    + destruct c; lia.
  - intros Q. rewrite Q in Hr. eapply subtracts_one_exec in Hr as (z0 & Hz0 & _ & z' & Hz' & ->); eauto. exists z'. split; auto. congruence.
  - intros Q. rewrite Q in Hr. congruence.
Qed.

Lemma sat_sub_eval m p rho a b t x y : eval m p rho a = Ok (VI t x) -> eval m p rho b = Ok (VI t y) ->
  eval m p rho (EM1 MSatSub a b) = Ok (VI t (sat (imin p t) (imax p t) (x - y))).
Proof. intros A B. cbn [eval]. rewrite A, B. cbn [rbind sem1]. now rewrite ity_eqb_refl. Qed.

(** One `if big >= little { big - little } else { 0 }`. *)
Lemma sub_or_inverted_inv big little sb zb s : sub_or_inverted big little sb zb = Some s ->
  (exists tz, zb = ELit tz 0) /\
  (sb = EBin (BI OSub) big little /\ s = Whole (EM1 MSatSub big little) \/
   sb = EBin (BI OSub) little big /\ s = Inverted (EBin (BI OSub) big little)).
Proof.
  unfold sub_or_inverted. destruct (is_int_lit zb 0) eqn:Z0; [|discriminate]. apply is_lit in Z0.
  destruct sb as [| | | | | |o a b| | | | | |]; try discriminate. destruct o as [[]| | |]; try discriminate.
  destruct (expr_eqb a big && expr_eqb b little) eqn:E1.
  { apply andb_prop in E1 as [E1 E2]. apply expr_eqb_eq in E1, E2. subst. intros [= <-]. auto. }
  destruct (expr_eqb a little && expr_eqb b big) eqn:E2; [|discriminate].
  apply andb_prop in E2 as [E3 E4]. apply expr_eqb_eq in E3, E4. subst. intros [= <-]. auto.
Qed.
Lemma cmp_int_vals m p rho c l r t w : ty_of l = Some (TI t) -> eval m p rho (EBin (BC c) l r) = Ok w ->
  exists x y, eval m p rho l = Ok (VI t x) /\ eval m p rho r = Ok (VI t y) /\ inr p t x = true /\ inr p t y = true /\ w = VB (cmp_op c x y).
Proof.
  intros T H. apply (eval_cmp_int_inv _ _ _ _ _ _ t) in H as (x & y & Hx & Hy & ->); [|auto].
  exists x, y. do 2 (split; [auto|]). apply eval_VI_range in Hx, Hy. auto.
Qed.
(** The shape of everything the expression form accepts: [sw] tells whether the zero block comes first;
    [big] is the operand that is at least [little] whenever the subtraction runs. *)
Lemma manual_sub_inv e s : manual_sub_check e = Some s -> exists c l r a b,
  e = EIf (EBin (BC c) l r) a b /\ (exists t, ty_of l = Some (TI t) /\ ity_signed t = false \/ ty_of l = Some TF) /\
  exists big little tz (sub : expr), (big = l /\ little = r \/ big = r /\ little = l) /\
    ((a = sub /\ b = ELit tz 0 /\ (match c with CGt | CGe => big = l /\ little = r | CLt | CLe => big = r /\ little = l | _ => False end)) \/
     (b = sub /\ a = ELit tz 0 /\ (match c with CGt | CGe => big = r /\ little = l | CLt | CLe => big = l /\ little = r | _ => False end))) /\
    (sub = EBin (BI OSub) big little /\ s = Whole (EM1 MSatSub big little) \/
     sub = EBin (BI OSub) little big /\ s = Inverted (EIf (EBin (BC c) l r) (if is_int_lit a 0 then a else EBin (BI OSub) big little) (if is_int_lit a 0 then EBin (BI OSub) big little else b))).
Proof.
  unfold manual_sub_check. destruct e as [| | | | | | | | | | |q a b|]; try discriminate. destruct q as [| | | | | |o l r| | | | | |]; try discriminate.
  destruct o as [|c| |]; try discriminate. intros H.
  assert (T : exists t, ty_of l = Some (TI t) /\ ity_signed t = false \/ ty_of l = Some TF).
  { destruct (ty_of l) as [[t| | |]|]; try discriminate.
    - exists t. left. split; auto. destruct (ity_signed t); [discriminate|auto].
    - exists u8. auto. }
  exists c, l, r, a, b. split; [auto|]. split; [exact T|].
  assert (H' : exists big little, (match c with CGt | CGe => big = l /\ little = r | CLt | CLe => big = r /\ little = l | _ => False end) /\
     check_subtraction (EBin (BC c) l r) big little a b = Some s).
  { destruct (ty_of l) as [[t| | |]|]; try discriminate; [destruct (negb (ity_signed t)); [|discriminate]|];
    destruct c; try discriminate; eauto. }
  destruct H' as (big & little & Hbl & H'). unfold check_subtraction in H'. destruct (is_int_lit a 0) eqn:Za.
  - destruct (is_int_lit b 0); [discriminate|]. destruct (sub_or_inverted little big b a) as [s0|] eqn:E; [|discriminate].
    apply sub_or_inverted_inv in E as ([tz ->] & D). exists little, big, tz, b. split; [destruct c; try contradiction; destruct Hbl; subst; auto|].
    split; [right; split; [auto|split; [auto|destruct c; try contradiction; destruct Hbl; subst; auto]]|].
    destruct D as [[-> ->]|[-> ->]]; cbn in H'; injection H' as <-; auto.
  - destruct (sub_or_inverted big little a b) as [s0|] eqn:E; [|discriminate].
    apply sub_or_inverted_inv in E as ([tz ->] & D). exists big, little, tz, a. split; [destruct c; try contradiction; destruct Hbl; subst; auto|].
    split; [left; auto|].
    destruct D as [[-> ->]|[-> ->]]; cbn in H'; injection H' as <-; auto.
Qed.

Lemma tf_cmp_lit_sub m p rho l a b v tz : ty_of l = Some TF -> (a = l \/ b = l) -> eval m p rho (EBin (BI OSub) a b) = Ok v -> ty_of (ELit tz 0) = Some (val_ty v) -> False.
Proof.
  intros T D H E. cbn in E. injection E as E. apply eval_bi_inv in H as [(t & t' & x & y & r & Ha & Hb & -> & _ & ->)|[(x & y & r & Ha & Hb & -> & _)|(x & y & r & Ha & Hb & -> & _)]]; try discriminate.
  destruct D as [->| ->]; [apply eval_wf in Ha as [_ Y]|apply eval_wf in Hb as [_ Y]]; specialize (Y _ T); discriminate.
Qed.

Lemma manual_sub_whole m p rho e e' t : manual_sub_check e = Some (Whole e') -> tyck p e = Some (TI t) -> preserves m p rho e e'.
Proof.
  intros H Te v Hv. apply manual_sub_inv in H as (c & l & r & a & b & -> & Ht & big & little & tz & sub & Hbl & Hab & Hs).
  destruct Hs as [[-> Hs]|[-> Hs]]; [|discriminate]. injection Hs as ->.
  apply tyck_if in Te as (Tc & Ta & Tb).
  cbn [eval] in Hv. apply rbind_Ok in Hv as (w & Hw & Hv).
  assert (Hw' : eval m p rho (EBin (BC c) l r) = Ok w) by exact Hw.
  assert (Tl : ty_of l = Some (TI t)).
  { assert (Tsub : tyck p (EBin (BI OSub) big little) = Some (TI t)) by (destruct Hab as [(-> & _)|(-> & _)]; auto).
    cbn [tyck] in Tsub, Tc. 
    destruct (tyck p big) as [[tb| | |]|] eqn:E1; try discriminate; destruct (tyck p little) as [[tl| | |]|] eqn:E2; try discriminate.
    destruct (ity_eqb tb tl) eqn:E; [|discriminate]. apply ity_eqb_eq in E. subst tl. injection Tsub as ->.
    destruct Hbl as [[-> ->]|[-> ->]]; now apply tyck_ty_of in E1, E2. }
  destruct Ht as (t0 & [[Ht Sg]|Ht]); [|congruence]. assert (t0 = t) by congruence. subst t0.
  apply (cmp_int_vals _ _ _ _ _ _ t) in Hw' as (x & y & Hx & Hy & Rx & Ry & ->); [|auto].
  assert (Lx : 0 <= x <= imax p t) by (apply inr_iff in Rx; unfold imin in Rx; rewrite Sg in Rx; lia).
  assert (Ly : 0 <= y <= imax p t) by (apply inr_iff in Ry; unfold imin in Ry; rewrite Sg in Ry; lia).
  assert (M0 : imin p t = 0) by (unfold imin; now rewrite Sg).
  assert (Hz : forall tz', tyck p (ELit tz' 0) = Some (TI t) -> eval m p rho (ELit tz' 0) = Ok (VI t 0)).
  { intros tz' Q. cbn in Q |- *. destruct (_ && _); [|discriminate]. congruence. }
  assert (Core : forall big little bv lv (up : bool), eval m p rho big = Ok (VI t bv) -> eval m p rho little = Ok (VI t lv) ->
     0 <= bv <= imax p t -> 0 <= lv <= imax p t ->
     (up = true -> lv <= bv /\ eval m p rho (EBin (BI OSub) big little) = Ok v) -> (up = false -> bv <= lv /\ v = VI t 0) ->
     eval m p rho (EM1 MSatSub big little) = Ok v).
  { clear - M0. intros big little bv lv up Hb Hl Rb Rl Ht Hf. rewrite (sat_sub_eval m p rho big little t bv lv) by auto. rewrite M0. unfold sat. f_equal.
    destruct up.
    - destruct (Ht eq_refl) as [L Hq]. cbn [eval] in Hq. rewrite Hb, Hl in Hq. cbn [rbind] in Hq. rewrite ity_eqb_refl in Hq. cbn in Hq. inv_bind Hq. injection Hq as <-.
      rewrite arith_in in E by (apply inr_iff; lia). injection E as <-. f_equal. destruct (Z.ltb_spec (bv - lv) 0), (Z.ltb_spec (imax p t) (bv - lv)); lia.
    - destruct (Hf eq_refl) as [L ->]. f_equal. destruct (Z.ltb_spec (bv - lv) 0), (Z.ltb_spec (imax p t) (bv - lv)); lia. }
  clear Hw. destruct Hab as [(-> & -> & Hc)|(-> & -> & Hc)]; [pose (up := cmp_op c x y)|pose (up := negb (cmp_op c x y))].
  - rewrite (Hz _ Tb) in Hv. destruct c; try contradiction; destruct Hc as [-> ->];
    [eapply (Core r l y x up)|eapply (Core r l y x up)|eapply (Core l r x y up)|eapply (Core l r x y up)]; auto; unfold up; intros Q; rewrite Q in Hv; (split; [cbn in Q; lia|congruence]).
  - rewrite (Hz _ Ta) in Hv. destruct c; try contradiction; destruct Hc as [-> ->];
    [eapply (Core l r x y up)|eapply (Core l r x y up)|eapply (Core r l y x up)|eapply (Core r l y x up)]; auto; unfold up; destruct (cmp_op _ x y) eqn:Q; try discriminate; intros _; (split; [cbn in Q; lia|congruence]).
Qed.

(** The corrected check of [inverted_saturating_sub] never underflows and, with overflow checks on, has
    the value of the original. *)
Lemma manual_sub_inverted p rho e e' t : manual_sub_check e = Some (Inverted e') -> tyck p e = Some (TI t) ->
  preserves Checked p rho e e' /\
  (forall m c l r a b x y, e = EIf (EBin (BC c) l r) a b -> eval m p rho l = Ok (VI t x) -> eval m p rho r = Ok (VI t y) ->
     eval m p rho e' = Ok (VI t (if cmp_op c x y then (if is_int_lit a 0 then 0 else Z.abs (x - y)) else (if is_int_lit a 0 then Z.abs (x - y) else 0)))).
Proof.
  intros H Te. apply manual_sub_inv in H as (c & l & r & a & b & -> & Ht & big & little & tz & sub & Hbl & Hab & Hs).
  destruct Hs as [[-> Hs]|[-> Hs]]; [discriminate|]. injection Hs as ->.
  apply tyck_if in Te as (Tc & Ta & Tb).
  assert (Tl : tyck p l = Some (TI t) /\ tyck p r = Some (TI t)).
  { assert (Tsub : tyck p (EBin (BI OSub) little big) = Some (TI t)) by (destruct Hab as [(-> & _)|(-> & _)]; auto).
    cbn [tyck] in Tsub.
    destruct (tyck p little) as [[tb| | |]|] eqn:E1; try discriminate; destruct (tyck p big) as [[tl| | |]|] eqn:E2; try discriminate.
    destruct (ity_eqb tb tl) eqn:E; [|discriminate]. apply ity_eqb_eq in E. subst tl. injection Tsub as ->.
    destruct Hbl as [[-> ->]|[-> ->]]; auto. }
  destruct Tl as [Tl Tr]. pose proof (tyck_ty_of _ _ _ Tl) as Yl.
  destruct Ht as (t0 & [[Ht Sg]|Ht]); [|congruence]. assert (t0 = t) by congruence. subst t0.
  assert (M0 : imin p t = 0) by (unfold imin; now rewrite Sg).
  assert (Hz : forall m tz', tyck p (ELit tz' 0) = Some (TI t) -> eval m p rho (ELit tz' 0) = Ok (VI t 0)).
  { intros m tz' Q. cbn in Q |- *. destruct (_ && _); [|discriminate]. congruence. }
  set (e' := EIf (EBin (BC c) l r) (if is_int_lit a 0 then a else EBin (BI OSub) big little) (if is_int_lit a 0 then EBin (BI OSub) big little else b)).
  assert (Lz : is_int_lit (EBin (BI OSub) little big) 0 = false) by reflexivity.
  assert (Sub : forall m u w x y, eval m p rho u = Ok (VI t x) -> eval m p rho w = Ok (VI t y) -> eval m p rho (EBin (BI OSub) u w) = (do r <- arith m p t (x - y); Ok (VI t r))).
  { intros m u w x y Hu Hw. cbn [eval]. rewrite Hu, Hw. cbn [rbind]. now rewrite ity_eqb_refl. }
  assert (New : forall m x y, eval m p rho l = Ok (VI t x) -> eval m p rho r = Ok (VI t y) ->
    eval m p rho e' = Ok (VI t (if cmp_op c x y then (if is_int_lit a 0 then 0 else Z.abs (x - y)) else (if is_int_lit a 0 then Z.abs (x - y) else 0)))).
  { intros m x y Hx Hy. pose proof (eval_VI_range _ _ _ _ _ _ Hx) as Rx. pose proof (eval_VI_range _ _ _ _ _ _ Hy) as Ry. apply inr_iff in Rx, Ry.
    unfold e'. change (eval m p rho (EIf ?c ?a ?b)) with (do vc <- eval m p rho c; match vc with VB true => eval m p rho a | VB false => eval m p rho b | _ => Stuck end).
    rewrite (eval_cmp_int _ _ _ c _ _ _ _ _ Hx Hy). cbn [rbind].
    destruct Hab as [(-> & -> & Hc)|(-> & -> & Hc)].
    - rewrite Lz. destruct (cmp_op c x y) eqn:Q; [|now apply Hz].
      destruct c; try contradiction; destruct Hc as [-> ->]; cbn in Q;
        [rewrite (Sub m r l y x) by auto|rewrite (Sub m r l y x) by auto|rewrite (Sub m l r x y) by auto|rewrite (Sub m l r x y) by auto];
        rewrite arith_in by (apply inr_iff; lia); cbn; do 2 f_equal; lia.
    - change (is_int_lit (ELit tz 0) 0) with true. cbv iota. destruct (cmp_op c x y) eqn:Q; [now apply Hz|].
      destruct c; try contradiction; destruct Hc as [-> ->]; cbn in Q;
        [rewrite (Sub m l r x y) by auto|rewrite (Sub m l r x y) by auto|rewrite (Sub m r l y x) by auto|rewrite (Sub m r l y x) by auto];
        rewrite arith_in by (apply inr_iff; lia); cbn; do 2 f_equal; lia. }
  split; [|intros m c0 l0 r0 a0 b0 x y [= <- <- <- <- <-]; apply New].
  intros v Hv. pose proof Hv as Hv0. cbn [eval] in Hv0. apply rbind_Ok in Hv0 as (w & Hw & _).
  assert (Hw' : eval Checked p rho (EBin (BC c) l r) = Ok w) by exact Hw. clear Hw.
  pose proof Hw' as Hw. apply (cmp_int_vals _ _ _ _ _ _ t) in Hw' as (x & y & Hx & Hy & Rx & Ry & ->); [|auto].
  rewrite (New _ _ _ Hx Hy). apply inr_iff in Rx, Ry.
  change (eval Checked p rho (EIf ?c ?a ?b)) with (do vc <- eval Checked p rho c; match vc with VB true => eval Checked p rho a | VB false => eval Checked p rho b | _ => Stuck end) in Hv.
  rewrite Hw in Hv. cbn [rbind] in Hv.
  assert (Ar : forall z r, arith Checked p t z = Ok r -> 0 <= z <= imax p t /\ r = z).
  { intros z r0 Q. apply arith_Ok in Q as [_ Q]. destruct (Q eq_refl) as [I ->]. apply inr_iff in I. lia. }
  destruct Hab as [(-> & -> & Hc)|(-> & -> & Hc)].
  - rewrite Lz. destruct (cmp_op c x y) eqn:Q; [|rewrite <- Hv; symmetry; now apply Hz].
    destruct c; try contradiction; destruct Hc as [-> ->]; cbn in Q;
      [rewrite (Sub _ l r x y) in Hv by auto|rewrite (Sub _ l r x y) in Hv by auto|rewrite (Sub _ r l y x) in Hv by auto|rewrite (Sub _ r l y x) in Hv by auto];
      inv_bind Hv; apply Ar in E as [? ->]; rewrite <- Hv; do 2 f_equal; lia.
  - change (is_int_lit (ELit tz 0) 0) with true. cbv iota. destruct (cmp_op c x y) eqn:Q; [rewrite <- Hv; symmetry; now apply Hz|].
    destruct c; try contradiction; destruct Hc as [-> ->]; cbn in Q;
      [rewrite (Sub _ r l y x) in Hv by auto|rewrite (Sub _ r l y x) in Hv by auto|rewrite (Sub _ l r x y) in Hv by auto|rewrite (Sub _ l r x y) in Hv by auto];
      inv_bind Hv; apply Ar in E as [? ->]; rewrite <- Hv; do 2 f_equal; lia.
Qed.

(** ** implicit_saturating_add *)
Lemma eval_local_val m p rho e u t z : eval_local p p e = Some (CInt u) -> eval m p rho e = Ok (VI t z) -> u = to_bits p t z.
Proof.
  unfold eval_local. destruct (all_local e); [|discriminate]. intros H Hv. exact (ceval_sound_denotes _ _ _ _ _ _ H Hv).
Qed.
Lemma bits_imax p t z : inr p t z = true -> to_bits p t z = imax p t -> z = imax p t.
Proof.
  intros R E. apply (to_bits_inj p t); auto.
  - apply inr_iff. pose proof (imin_imax p t). lia.
  - rewrite E. unfold to_bits, imax. pose proof (half_double p t). pose proof (half_pos p t). destruct (ity_signed t); rewrite Z.mod_small; lia.
Qed.
Lemma implicit_add_correct m p rho s s' : implicit_add_stmt p p s = Some s' -> spreserves m p rho s s'.
Proof.
  intros H r Hr. unfold implicit_add_stmt in H. destruct s as [| | |c th el|]; try discriminate.
  destruct th as [| |o t x v| |]; try discriminate. destruct o; try discriminate. destruct el; try discriminate.
  destruct (sat_get_const p p c) as [[[u op] l]|] eqn:G; [|discriminate].
  assert (HC : (op = CNe \/ op = CLt) /\ (match get_int_max p t with Some k => u =? k | None => false end = true) /\ l = EVar t x /\ is_int_lit v 1 = true /\
    SAssign t x (EM1 MSatAdd (EVar t x) (ELit (match t with TI i => i | _ => u32 end) 1)) = s').
  { destruct op; try discriminate; (destruct (_ && is_int_lit v 1) eqn:E in H; [|discriminate]); apply andb_prop in E as [E E3]; apply andb_prop in E as [E1 E2];
      apply expr_eqb_eq in E2; injection H as <-; auto. }
  clear H. destruct HC as (Hop & Hu & -> & Hv & <-). apply is_lit in Hv as [t1 ->].
  destruct t as [i| | |]; try discriminate. cbn in Hu. apply Z.eqb_eq in Hu. subst u.
  cbn [exec] in Hr. apply rbind_Ok in Hr as (w & Hw & Hr).
  assert (exists z, rho x = VI i z /\ inr p i z = true /\ w = VB (cmp_op op z (imax p i))) as (z & Hz & Rz & ->).
  { unfold sat_get_const in G. destruct c as [| | | | | |o l r0| | | | | |]; try discriminate. destruct o as [|c| |]; try discriminate.
    apply eval_cmp_inv in Hw as (va & vb & o & Ha & Hb & Ho & ->).
    assert (G' : (eval_local p p r0 = Some (CInt (imax p i)) /\ c = op /\ l = EVar (TI i) x) \/
                 (eval_local p p l = Some (CInt (imax p i)) /\ sat_invert_op c = Some op /\ r0 = EVar (TI i) x)).
    { destruct (eval_local p p r0) as [[u| |]|] eqn:E1; [left; injection G as -> -> ->; auto| | |];
        (destruct (eval_local p p l) as [[u| |]|] eqn:E2; try discriminate; destruct (sat_invert_op c) as [c'|] eqn:E3; [|discriminate]; cbn in G; injection G as -> -> ->; auto). }
    destruct G' as [(E & -> & ->)|(E & I & ->)].
    - apply eval_var_inv in Ha as (-> & Ya & Wa). destruct (rho x) as [tx z| | |]; try discriminate. cbn in Ya. injection Ya as ->.
      destruct vb as [tb k| | |]; try discriminate. cbn in Ho. destruct (ity_eqb i tb) eqn:Et; [|discriminate]. apply ity_eqb_eq in Et. subst tb. injection Ho as <-.
      exists z. split; [auto|]. split; [auto|]. rewrite cmp_of_Z. do 2 f_equal. eapply bits_imax; [eapply eval_VI_range; eauto|]. symmetry. eapply eval_local_val; eauto.
    - apply eval_var_inv in Hb as (-> & Yb & Wb). destruct (rho x) as [tx z| | |]; try discriminate. cbn in Yb. injection Yb as ->.
      destruct va as [ta k| | |]; try discriminate. cbn in Ho. destruct (ity_eqb ta i) eqn:Et; [|discriminate]. apply ity_eqb_eq in Et. subst ta. injection Ho as <-.
      exists z. split; [auto|]. split; [auto|]. rewrite cmp_of_Z. f_equal.
      assert (k = imax p i) as -> by (eapply bits_imax; [eapply eval_VI_range; eauto|]; symmetry; eapply eval_local_val; eauto).
      destruct c; try discriminate; cbn in I; injection I as <-; destruct Hop; try discriminate; cbn; lia. }
  assert (L : z <= imax p i) by (apply inr_iff in Rz; lia).
  eapply (sat_step m p rho x i z MSatAdd (cmp_op op z (imax p i)) r); eauto.
  - right. split; [auto|]. destruct Hop as [->| ->]; cbn; split; lia.
  - intros Q. rewrite Q in Hr. apply rbind_Ok in Hr as (vv & Hvv & Hr).
    assert (Hvv' : eval m p rho (EBin (BI OAdd) (EVar (TI i) x) (ELit t1 1)) = Ok vv) by exact Hvv. clear Hvv.
    apply (eval_bi_int_inv _ _ _ _ _ _ i) in Hvv' as (t' & z0 & y & w & Hz0 & Hy & _ & _ & -> & Ho & ->); [|reflexivity].
    apply eval_var_inv in Hz0 as (Hz0 & _). apply eval_lit_inv in Hy as (Hy & _). injection Hy as -> ->. cbn in Ho.
    rewrite Hz in Hz0. injection Hz0 as ->. exists w. split; auto. destruct (ty_eqb _ _); congruence.
  - intros Q. rewrite Q in Hr. congruence.
Qed.

(** ** manual_saturating_arithmetic *)
Lemma min_or_max_value m p rho d mm t z : is_min_or_max p d = Some mm -> d <> EUn UNeg (ELit t (imax p t)) ->
  eval m p rho d = Ok (VI t z) -> z = match mm with MmMin => imin p t | MmMax => imax p t end.
Proof.
  intros H Nd Hv. pose proof (eval_wf _ _ _ _ _ Hv) as [_ Y].
  assert (Lit : forall t0 t1 v cm mm', mm_check_lit p t0 (ELit t1 v) cm = Some mm' -> v = imax p t0 /\ mm' = MmMax \/ v <> imax p t0 /\ v = (if ity_signed t0 then 2 ^ (bits p t0 - 1) else 0) /\ mm' = MmMin /\ cm = true).
  { clear. intros t0 t1 v cm mm'. unfold mm_check_lit. destruct (Z.eqb_spec v (imax p t0)); [intros [= <-]; auto|].
    destruct cm; [|discriminate]. cbn [andb]. destruct (Z.eqb_spec v (if ity_signed t0 then 2 ^ (bits p t0 - 1) else 0)); [|discriminate]. intros [= <-]. auto 6. }
  destruct d as [t0 n| | | |t0 a|o e| | | | | | |]; unfold is_min_or_max in H;
    try (match type of H with match ?q with _ => _ end = _ => destruct q as [[]|]; discriminate end).
  - cbn [ty_of] in H. apply eval_lit_inv in Hv as (E & _). injection E as -> ->. destruct (mm_check_lit p t0 (ELit t0 n) (negb (ity_signed t0))) as [mm'|] eqn:L; [|discriminate].
    injection H as ->. apply Lit in L as [[-> ->]|(_ & -> & -> & Sg)]; auto. unfold imin. destruct (ity_signed t0); [discriminate|auto].
  - destruct a; cbn in Hv; try discriminate; injection Hv as -> ->; injection H as <-; auto.
  - change (ty_of (EUn o e)) with (ty_of e) in H. destruct (ty_of e) as [[t1| | |]|] eqn:Te; try discriminate.
    assert (t1 = t). { specialize (Y (TI t1) Te). cbn in Y. congruence. } subst t1.
    replace (mm_check_lit p t (EUn o e) (negb (ity_signed t))) with (@None minmax) in H by reflexivity.
    destruct o; [|discriminate]. destruct (ity_signed t) eqn:Sg; [|discriminate]. destruct e as [t1 n| | | | | | | | | | | |]; try discriminate.
    rewrite eval_un in Hv. destruct (ity_signed t1 && inr p t1 (- n) && (0 <=? n)) eqn:E; [|discriminate]. injection Hv as -> <-.
    apply Lit in H as [[-> ->]|(_ & -> & -> & _)]; [now destruct Nd|]. rewrite Sg. unfold imin. rewrite Sg. lia.
Qed.

Lemma chk_eval m p rho k l r v t : ty_of l = Some (TI t) -> ca_new k <> None -> eval m p rho (EM1 k l r) = Ok v ->
  exists x y, eval m p rho l = Ok (VI t x) /\ eval m p rho r = Ok (VI t y) /\ inr p t x = true /\ inr p t y = true /\
    let z := match k with MChkAdd => x + y | MChkSub => x - y | _ => x * y end in v = VO t (if inr p t z then Some z else None).
Proof.
  intros Tl K H. cbn [eval] in H. inv_bind H. destruct (eval_int_ty _ _ _ _ _ _ Tl E) as (x & -> & Rx).
  destruct v1 as [t' y| | |]; [|destruct k; discriminate..].
  pose proof (eval_VI_range _ _ _ _ _ _ E0) as Ry.
  assert (t' = t /\ let z := match k with MChkAdd => x + y | MChkSub => x - y | _ => x * y end in v = VO t (if inr p t z then Some z else None)) as [-> Hv].
  { destruct k; try (cbn in K; congruence); cbn in H; destruct (ity_eqb t t') eqn:Et; try discriminate; apply ity_eqb_eq in Et; subst; split; auto; cbn; congruence. }
  exists x, y. auto.
Qed.
Lemma lit_sign_value m p rho r t y neg : lit_sign r = Some neg -> eval m p rho r = Ok (VI t y) -> if neg then y <= 0 else 0 <= y.
Proof.
  destruct r as [t0 n| | | | |o e| | | | | | |]; try discriminate.
  - intros [= <-] H. apply eval_lit_inv in H as (E & R). injection E as -> ->. tauto.
  - destruct o; try discriminate. destruct e as [t0 n| | | | | | | | | | | |]; try discriminate. intros [= <-] H.
    rewrite eval_un in H. destruct (ity_signed t0 && inr p t0 (- n) && (0 <=? n)) eqn:E; [|discriminate]. injection H as -> <-. lia.
Qed.
(** With the default at the end the operation can overflow to, the pair is a saturating operation. *)
Lemma sat_arith_core m p rho t l r mm a e' x y : sat_arith_check t l r mm a = Some e' ->
  eval m p rho l = Ok (VI t x) -> eval m p rho r = Ok (VI t y) -> inr p t x = true -> inr p t y = true ->
  let z := match a with CaAdd => x + y | CaSub => x - y | CaMul => x * y end in
  eval m p rho e' = Ok (VI t (if inr p t z then z else match mm with MmMin => imin p t | MmMax => imax p t end)).
Proof.
  intros H Hx Hy Rx Ry z. unfold sat_arith_check in H.
  cbv zeta in H. match type of H with (if ?o then _ else _) = _ => destruct o eqn:Ok; [|discriminate] end. injection H as <-.
  assert (Ev : eval m p rho (EM1 (as_saturating a) l r) = RustInt.Ok (VI t (sat (imin p t) (imax p t) z))).
  { cbn [eval]. rewrite Hx, Hy. cbn [rbind]. destruct a; cbn; rewrite ity_eqb_refl; reflexivity. }
  rewrite Ev. do 2 f_equal. apply inr_iff in Rx, Ry. unfold sat.
  pose proof (imin_imax p t).
  assert (D : (z < imin p t -> mm = MmMin) /\ (imax p t < z -> mm = MmMax)).
  { destruct (ity_signed t) eqn:Sg.
    - destruct (lit_sign r) as [neg|] eqn:L; [|discriminate]. pose proof (lit_sign_value _ _ _ _ _ _ _ L Hy) as S1.
      destruct a, neg, mm; try discriminate; cbv iota in S1; unfold z; split; intros; auto; exfalso; lia.
    - assert (imin p t = 0) as M0 by (unfold imin; now rewrite Sg).
      destruct mm, a; try discriminate; unfold z; split; intros; auto; exfalso; nia. }
  clearbody z. clear - D. destruct D as [D1 D2]. destruct (inr p t z) eqn:I; [apply inr_iff in I|apply inr_false in I];
    destruct (Z.ltb_spec z (imin p t)), (Z.ltb_spec (imax p t) z); try lia;
    first [specialize (D1 ltac:(lia)); now rewrite D1 | specialize (D2 ltac:(lia)); now rewrite D2 | exfalso; pose proof (imin_imax p t); lia].
Qed.
Lemma sat_unwrap_or_correct m p rho e e' : sat_unwrap_or p e = Some e' ->
  (match e with EM1 _ _ (EUn UNeg (ELit t n)) => n <> imax p t | _ => True end) -> preserves m p rho e e'.
Proof.
  intros H Nd v Hv. unfold sat_unwrap_or in H. destruct e as [| | | | | | | | |k q d| | |]; try discriminate. destruct k; try discriminate.
  destruct q as [| | | | | | | | |k l r| | |]; try discriminate. destruct (ty_of l) as [[t| | |]|] eqn:Tl; try discriminate.
  destruct (is_min_or_max p d) as [mm|] eqn:Hm; [|discriminate]. destruct (ca_new k) as [a|] eqn:Ha; [|discriminate].
  cbn [eval] in Hv. apply rbind_Ok in Hv as (vo & Ho & Hv). apply rbind_Ok in Hv as (vd & Hd & Hv).
  assert (Ho' : eval m p rho (EM1 k l r) = Ok vo) by exact Ho. clear Ho.
  apply (chk_eval _ _ _ _ _ _ _ t) in Ho' as (x & y & Hx & Hy & Rx & Ry & ->); [|auto|congruence].
  destruct vd as [td z| | |]; try discriminate. destruct (ity_eqb t td) eqn:Et; [|discriminate]. apply ity_eqb_eq in Et. subst td.
  rewrite (sat_arith_core _ _ _ _ _ _ _ _ _ x y H Hx Hy Rx Ry). rewrite <- Hv.
  assert (z = match mm with MmMin => imin p t | MmMax => imax p t end) as ->.
  { eapply min_or_max_value; eauto. intros ->. apply Nd. reflexivity. }
  do 2 f_equal. clear - Ha. destruct k; try discriminate; cbn in Ha; injection Ha as <-; cbv zeta; match goal with |- context [inr p t ?q] => destruct (inr p t q) end; reflexivity.
Qed.
Lemma sat_sub_default_correct m p rho l r e' : sat_sub_unwrap_or_default l r = Some e' ->
  forall t, ty_of l = Some (TI t) -> preserves m p rho (EM1 MUnwrapOr (EM1 MChkSub l r) (ELit t 0)) e'.
Proof.
  unfold sat_sub_unwrap_or_default. intros H t Tl v Hv. rewrite Tl in H. destruct (ity_signed t) eqn:Sg; [discriminate|].
  cbn [eval] in Hv. apply rbind_Ok in Hv as (vo & Ho & Hv). apply rbind_Ok in Hv as (vd & Hd & Hv).
  assert (Ho' : eval m p rho (EM1 MChkSub l r) = Ok vo) by exact Ho. clear Ho.
  apply (chk_eval _ _ _ _ _ _ _ t) in Ho' as (x & y & Hx & Hy & Rx & Ry & ->); [|auto|cbn; congruence].
  rewrite inr_small in Hd by lia. injection Hd as <-. rewrite ity_eqb_refl in Hv.
  rewrite (sat_arith_core _ _ _ _ _ _ _ _ _ x y H Hx Hy Rx Ry). rewrite <- Hv. do 2 f_equal.
  unfold imin. rewrite Sg. cbv zeta. destruct (inr p t (x - y)); reflexivity.
Qed.
