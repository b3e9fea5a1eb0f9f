(** Proofs: expressions found cheap to evaluate eagerly have a value. *)
From Verif Require Export PanicModel PanicSpec PanicProofs.
From Verif Require Import RustFacts ConstSpec ConstProofs ConstTotal ConstMore MaskProofs.
Open Scope Z_scope.

Lemma bitor_ge a b : (rank a <= rank (bitor a b))%nat.
Proof. unfold bitor. destruct (Nat.leb_spec (rank a) (rank b)); lia. Qed.
Lemma visit_ge h p e : forall st, (rank st <= rank (visit_eager h p st e))%nat.
Proof.
  induction e as [t n|b|f|t x|t a|o e IH|o e1 IH1 e2 IH2|e IH t|k e IH|k e IH a IHa|k e IH a IHa b IHb|ec IHc a IHa b IHb|i lo IHl hi IHh x IHx];
    intros st; (destruct (match st with ForceNoChange => true | _ => false end) eqn:F; [destruct st; try discriminate; cbn; lia|]);
    assert (L : (rank st <= 2)%nat) by (destruct st; cbn; try lia; discriminate).
  1-5: destruct st; cbn; lia.
  - etransitivity; [|destruct st; [..|discriminate]; apply IH].
    destruct (match o with UNeg => _ | UNot => _ end); [apply bitor_ge|]. destruct (ty_of e) as [[| | |]|]; cbn; lia.
  - destruct st; [..|discriminate]; cbn [visit_eager]; (etransitivity; [|apply IH2]); (etransitivity; [|apply IH1]);
    repeat match goal with |- context [if ?c then _ else _] => destruct c end; try apply bitor_ge; cbn; lia.
  - destruct st; [..|discriminate]; apply IH.
  - destruct st; [..|discriminate]; cbn [visit_eager]; destruct (is_const_evaluatable _); try apply bitor_ge; (etransitivity; [|apply IH]); apply bitor_ge.
  - destruct st; [..|discriminate]; cbn [visit_eager]; destruct (is_const_evaluatable _); try apply bitor_ge; (etransitivity; [|apply IHa]); (etransitivity; [|apply IH]); apply bitor_ge.
  - destruct st; [..|discriminate]; cbn [visit_eager]; destruct (is_const_evaluatable _); try apply bitor_ge; (etransitivity; [|apply IHb]); (etransitivity; [|apply IHa]); (etransitivity; [|apply IH]); apply bitor_ge.
  - destruct st; [..|discriminate]; cbn [visit_eager]; (etransitivity; [|apply IHb]); (etransitivity; [|apply IHa]); apply IHc.
  - destruct st; [..|discriminate]; cbn [visit_eager]; destruct (is_const_evaluatable _); try apply bitor_ge; (etransitivity; [|apply IHx]); (etransitivity; [|apply IHh]); (etransitivity; [|apply IHl]); apply bitor_ge.
Qed.
Lemma visit_eager_start h p st e : visit_eager h p st e = Eager -> st = Eager.
Proof. intros H. pose proof (visit_ge h p e st) as R. rewrite H in R. destruct st; cbn in R; auto; lia. Qed.

(** What a constant says about a value fixes the value. *)
Lemma constant_value_of p rho a v c t : ty_of a = Some t -> eval Checked p rho a = Ok v -> ceval p p a = Some c -> constant_value p a v.
Proof.
  intros T H C. split; [eauto|]. intros rho' v' H'.
  pose proof (ceval_sound_denotes _ _ _ _ _ _ C H) as D. pose proof (ceval_sound_denotes _ _ _ _ _ _ C H') as D'.
  pose proof (eval_wf _ _ _ _ _ H) as (W & TY). pose proof (eval_wf _ _ _ _ _ H') as (W' & TY').
  specialize (TY _ T). specialize (TY' _ T). destruct c as [u|u|u], v as [t1 z|z|z|t1 z]; try contradiction; destruct v' as [t2 z'|z'|z'|t2 z']; try contradiction; cbn in *; subst; try congruence.
  injection TY' as ->. f_equal. apply (to_bits_inj p t1); auto.
Qed.

Lemma known_true {A} (o : option A) : known o = true -> exists a, o = Some a.
Proof. destruct o; [eauto|discriminate]. Qed.

Lemma typed_val p rho e t v : tyck p e = Some t -> eval Checked p rho e = Ok v -> val_ty v = t /\ val_wf p v = true.
Proof. intros T H. apply tyck_ty_of in T. apply eval_wf in H as (W & TY). auto. Qed.

Ltac vals v T := let Q := fresh in pose proof T as (Q & _); cbn in Q; destruct v; try discriminate Q; try (injection Q as Q; subst).

Lemma eager_value p rho e : forall t, switch_to_eager_eval p p e = true -> tyck p e = Some t -> accepted p e -> gives p rho e ->
  exists v, eval Checked p rho e = Ok v.
Proof.
  unfold switch_to_eager_eval, expr_eagerness.
  assert (EQ : forall x, (match x with Eager => true | _ => false end) = true <-> x = Eager) by (intros []; split; congruence).
  setoid_rewrite EQ.
  induction e as [t n|b|f|t x|t a|o e IH|o e1 IH1 e2 IH2|e IH t|k e IH|k e IH a IHa|k e IH a IHa b IHb|ec IHc a IHa b IHb|i lo IHl hi IHh x IHx];
    intros ty E T A G.
  - cbn in *. destruct (_ && _); [eauto|discriminate].
  - cbn; eauto.
  - cbn; eauto.
  - cbn in *. destruct G as (G1 & G2). rewrite G1, ty_eqb_refl, G2. cbn. eauto.
  - destruct a; cbn; eauto.
  - (* unary *)
    cbn [visit_eager] in E. pose proof (visit_eager_start _ _ _ _ E) as E0. rewrite E0 in E.
    rewrite eval_un. cbn [gives] in G. cbn [accepted] in A. destruct A as (R & A).
    assert (D : (exists t n, o = UNeg /\ e = ELit t n) \/
      (tyck p (EUn o e) = match o, tyck p e with
      | UNeg, Some (TI t) => if ity_signed t then Some (TI t) else None
      | UNeg, Some TF => Some TF
      | UNot, Some (TI t) => Some (TI t)
      | UNot, Some TB => Some TB
      | _, _ => None
      end /\ match o, e with
  | UNeg, ELit t n => if ity_signed t && inr p t (- n) && (0 <=? n) then Ok (VI t (- n)) else Stuck
  | _, _ => do v <- eval Checked p rho e; un_sem Checked p o v
  end = do v <- eval Checked p rho e; un_sem Checked p o v)).
    { destruct o; [destruct e; eauto|]; auto. }
    destruct D as [(t & n & -> & ->)|(D1 & D2)].
    + cbn in T. destruct (ity_signed t && inr p t (- n) && (0 <=? n)) eqn:Q; [eauto|discriminate].
    + rewrite D2. rewrite D1 in T. destruct (tyck p e) as [te|] eqn:Te; [|destruct o; discriminate].
      destruct (IH te E eq_refl A G) as (v & Hv). rewrite Hv. cbn [rbind].
      pose proof (typed_val _ _ _ _ _ Te Hv) as TV. pose proof (tyck_ty_of _ _ _ Te) as Ty.
      destruct o.
      * destruct (known (ceval p p e)) eqn:K; cbn [negb] in E0; [|discriminate]. apply known_true in K as (c & K).
        rewrite Ty in E0. destruct te as [te| | |]; try discriminate. vals v TV. cbn [un_sem]. unfold int_neg.
        destruct (ity_signed te) eqn:Sg; [|discriminate]. pose proof (proj2 TV) as W. cbn in W.
        rewrite arith_in; [cbn; eauto|]. apply inr_iff in W. apply inr_iff.
        assert (z <> imin p te). { intros ->. apply R. cbn. exists te. eapply constant_value_of; eauto. }
        unfold imin, imax in *. rewrite Sg in *. lia.
      * destruct te as [te| | |]; try discriminate; vals v TV; cbn; eauto.
  - (* binary *)
    cbn [visit_eager] in E. pose proof (visit_eager_start _ _ _ _ E) as E1. rewrite E1 in E.
    pose proof (visit_eager_start _ _ _ _ E1) as E0. rewrite E0 in E1.
    cbn [gives] in G. destruct G as (G1 & G2). cbn [accepted] in A. destruct A as (R & A1 & A2).
    assert (TS : exists ta tb, tyck p e1 = Some ta /\ tyck p e2 = Some tb).
    { cbn [tyck] in T. destruct o; destruct (tyck p e1) as [[| | |]|]; try discriminate; destruct (tyck p e2) as [[| | |]|]; try discriminate; eauto. }
    destruct TS as (ta & tb & Ta & Tb).
    destruct (IH1 ta E1 Ta A1 G1) as (va & Ha). destruct (IH2 tb E Tb A2 G2) as (vb & Hb).
    pose proof (typed_val _ _ _ _ _ Ta Ha) as TVa. pose proof (typed_val _ _ _ _ _ Tb Hb) as TVb.
    pose proof (tyck_ty_of _ _ _ Ta) as Tya. pose proof (tyck_ty_of _ _ _ Tb) as Tyb.
    cbn [tyck] in T. rewrite Ta, Tb in T. cbn [eval]. rewrite Ha, Hb. cbn [rbind].
    destruct o as [o|c| |].
    + destruct ta as [ta| | |], tb as [tb| | |]; try discriminate; vals va TVa; vals vb TVb.
      2: destruct o; try discriminate; eauto. 2: destruct o; try discriminate; cbn; eauto.
      cbn [val_wf] in *. destruct TVa as (_ & Wa). destruct TVb as (_ & Wb). cbn in Wa, Wb.
      assert (CV : forall c, ceval p p e2 = Some c -> constant_value p e2 (VI tb z0)) by (intros; eapply constant_value_of; eauto).
      assert (CU : forall c, ceval p p e1 = Some c -> constant_value p e1 (VI ta z)) by (intros; eapply constant_value_of; eauto).
      assert (SF : match o with OShl | OShr => True | _ => tb = ta end).
      { destruct o; auto; destruct (ity_eqb ta tb) eqn:Q; try discriminate; apply ity_eqb_eq in Q; auto. }
      assert (OKs : int_op Checked p ta o z z0 <> Panic).
      { destruct o; cbn [int_op]; try discriminate.
        - cbn [ty_of is_float_ty] in E0. rewrite Tya in E0. cbn in E0. subst tb.
          destruct (known (ceval p p e1)) eqn:K1; [|discriminate]. destruct (known (ceval p p e2)) eqn:K2; [|discriminate].
          apply known_true in K1 as (c1 & K1). apply known_true in K2 as (c2 & K2).
          intros P. apply R. cbn. left. exists ta, z, z0. eauto.
        - cbn [ty_of is_float_ty] in E0. rewrite Tya in E0. cbn in E0. subst tb.
          destruct (known (ceval p p e1)) eqn:K1; [|discriminate]. destruct (known (ceval p p e2)) eqn:K2; [|discriminate].
          apply known_true in K1 as (c1 & K1). apply known_true in K2 as (c2 & K2).
          intros P. apply R. cbn. left. exists ta, z, z0. eauto.
        - cbn [ty_of is_float_ty] in E0. rewrite Tya in E0. cbn in E0. subst tb.
          destruct (known (ceval p p e1)) eqn:K1; [|discriminate]. destruct (known (ceval p p e2)) eqn:K2; [|discriminate].
          apply known_true in K1 as (c1 & K1). apply known_true in K2 as (c2 & K2).
          intros P. apply R. cbn. left. exists ta, z, z0. eauto.
        - subst tb. destruct (ceval p p e2) as [c2|] eqn:K2; [|cbn in E0; destruct (ceval p p e1); discriminate].
          specialize (CV _ eq_refl). rewrite Tyb in E0. cbn [obind] in E0.
          destruct (int_value p c2 (Some (TI ta))) as [fi|] eqn:I; [|cbn in E0; destruct (ceval p p e1); discriminate].
          pose proof (int_value_sound p c2 ta z0 fi Wb (ceval_sound_denotes _ _ _ _ _ _ K2 Hb) I) as V.
          destruct (Z.eqb_spec z0 0) as [Z0|Z0]. { exfalso. apply R. cbn. right. exists ta, ta, z0. auto. }
          destruct (inr p ta (z ÷ z0)) eqn:Q; [discriminate|]. exfalso.
          assert (X : z = imin p ta /\ z0 = -1).
          { destruct (Z.eq_dec z0 (-1)); [destruct (Z.eq_dec z (imin p ta)); auto|]; rewrite quot_range in Q; auto; try discriminate; lia. }
          destruct (ceval p p e1) as [c1|] eqn:K1.
          + apply R. cbn. left. exists ta, z, z0. split; eauto. split; auto. destruct (z0 =? 0) eqn:Q0; [lia|]. now rewrite Q.
          + destruct fi as [w|w]; cbn in V.
            * replace (w =? -1) with true in E0 by lia. discriminate.
            * destruct X as (_ & X). unfold int_value in I. destruct c2; try discriminate. destruct (ity_signed ta) eqn:Sg; [discriminate|].
              apply inr_iff in Wb. unfold imin in Wb. rewrite Sg in Wb. lia.
        - subst tb. destruct (ceval p p e2) as [c2|] eqn:K2; [|cbn in E0; destruct (ceval p p e1); discriminate].
          specialize (CV _ eq_refl). rewrite Tyb in E0. cbn [obind] in E0.
          destruct (int_value p c2 (Some (TI ta))) as [fi|] eqn:I; [|cbn in E0; destruct (ceval p p e1); discriminate].
          pose proof (int_value_sound p c2 ta z0 fi Wb (ceval_sound_denotes _ _ _ _ _ _ K2 Hb) I) as V.
          destruct (Z.eqb_spec z0 0) as [Z0|Z0]. { exfalso. apply R. cbn. right. exists ta, ta, z0. auto. }
          destruct (inr p ta (z ÷ z0)) eqn:Q; [discriminate|]. exfalso.
          assert (X : z = imin p ta /\ z0 = -1).
          { destruct (Z.eq_dec z0 (-1)); [destruct (Z.eq_dec z (imin p ta)); auto|]; rewrite quot_range in Q; auto; try discriminate; lia. }
          destruct (ceval p p e1) as [c1|] eqn:K1.
          + apply R. cbn. left. exists ta, z, z0. split; eauto. split; auto. destruct (z0 =? 0) eqn:Q0; [lia|]. now rewrite Q.
          + destruct fi as [w|w]; cbn in V.
            * replace (w =? -1) with true in E0 by lia. discriminate.
            * destruct X as (_ & X). unfold int_value in I. destruct c2; try discriminate. destruct (ity_signed ta) eqn:Sg; [discriminate|].
              apply inr_iff in Wb. unfold imin in Wb. rewrite Sg in Wb. lia.
        - destruct (known (ceval p p e2)) eqn:K2; [|discriminate]. apply known_true in K2 as (c2 & K2).
          destruct ((0 <=? z0) && (z0 <? bits p ta)) eqn:Q; [discriminate|]. exfalso. apply R. cbn. right. exists ta, tb, z0. split; auto. split; eauto. lia.
        - destruct (known (ceval p p e2)) eqn:K2; [|discriminate]. apply known_true in K2 as (c2 & K2).
          destruct ((0 <=? z0) && (z0 <? bits p ta)) eqn:Q; [discriminate|]. exfalso. apply R. cbn. right. exists ta, tb, z0. split; auto. split; eauto. lia. }
      assert (NS : int_op Checked p ta o z z0 <> Stuck).
      { destruct o; cbn [int_op]; try discriminate; unfold arith; repeat match goal with |- context [if ?c then _ else _] => destruct c end; discriminate. }
      destruct (int_op Checked p ta o z z0) as [q| |] eqn:Q; [|congruence|congruence].
      destruct o; try (subst tb; rewrite ity_eqb_refl); cbn [rbind]; eauto.
    + destruct ta as [ta| | |], tb as [tb| | |]; try discriminate; vals va TVa; vals vb TVb; cbn; eauto.
      destruct (ity_eqb ta tb); [|discriminate]. cbn. eauto.
    + destruct ta as [ta| | |], tb as [tb| | |]; try discriminate; vals va TVa; vals vb TVb. destruct b; cbn; eauto.
    + destruct ta as [ta| | |], tb as [tb| | |]; try discriminate; vals va TVa; vals vb TVb. destruct b; cbn; eauto.
  - (* cast *)
    cbn [visit_eager] in E. cbn in A, G. destruct A as (_ & A). cbn [tyck] in T. destruct (tyck p e) as [te|] eqn:Te; [|discriminate].
    destruct (IH te E eq_refl A G) as (v & Hv). cbn [eval]. rewrite Hv. cbn [rbind]. pose proof (typed_val _ _ _ _ _ Te Hv) as TV.
    destruct te as [te| | |]; try discriminate; vals v TV; eauto.
  - cbn [visit_eager] in E. exfalso. destruct (is_const_evaluatable _); [discriminate|]. apply visit_eager_start in E. discriminate.
  - cbn [visit_eager] in E. exfalso. destruct (is_const_evaluatable _); [discriminate|]. do 2 apply visit_eager_start in E. discriminate.
  - cbn [visit_eager] in E. exfalso. destruct (is_const_evaluatable _); [discriminate|]. do 3 apply visit_eager_start in E. discriminate.
  - (* if *)
    cbn [visit_eager] in E. pose proof (visit_eager_start _ _ _ _ E) as E2. rewrite E2 in E.
    pose proof (visit_eager_start _ _ _ _ E2) as E1. rewrite E1 in E2.
    cbn in A, G. destruct A as (_ & A1 & A2 & A3), G as (G1 & G2 & G3). cbn [tyck] in T.
    destruct (tyck p ec) as [[| | |]|] eqn:Tc; try discriminate. destruct (tyck p a) as [ta|] eqn:Ta; [|discriminate]. destruct (tyck p b) as [tb|] eqn:Tb; [|discriminate].
    destruct (IHc _ E1 eq_refl A1 G1) as (v & Hv). cbn [eval]. rewrite Hv. cbn [rbind].
    pose proof (typed_val _ _ _ _ _ Tc Hv) as TV. vals v TV. destruct b0; eauto.
  - cbn [visit_eager] in E. exfalso. destruct (is_const_evaluatable _); [discriminate|]. do 3 apply visit_eager_start in E. discriminate.
Qed.
