(** Proofs: reported operations on variables and literals can panic. *)
From Verif Require Export PanicProofs.
From Verif Require Import RustFacts ConstProofs.
Open Scope Z_scope.

Definition env2 (x : nat) (t : ity) (vx vy : Z) : env := fun n => if Nat.eqb n x then VI t vx else VI t vy.
Lemma env2_fst m p x t vx vy : inr p t vx = true -> eval m p (env2 x t vx vy) (EVar (TI t) x) = Ok (VI t vx).
Proof. intros H. cbn. unfold env2. rewrite Nat.eqb_refl. cbn. now rewrite ity_eqb_refl, H. Qed.
Lemma env2_snd m p x y t vx vy : x <> y -> inr p t vy = true -> eval m p (env2 x t vx vy) (EVar (TI t) y) = Ok (VI t vy).
Proof. intros N H. cbn. unfold env2. destruct (Nat.eqb_spec y x); [congruence|]. cbn. now rewrite ity_eqb_refl, H. Qed.
Lemma lit_eval m p rho t n : tyck p (ELit t n) <> None -> eval m p rho (ELit t n) = Ok (VI t n) /\ inr p t n = true /\ 0 <= n.
Proof. cbn. destruct (inr p t n && (0 <=? n)) eqn:E; [|congruence]. intros _. split; auto. split; lia. Qed.

Lemma fails_bin p rho o a b t x y : eval Checked p rho a = Ok (VI t x) -> eval Checked p rho b = Ok (VI t y) ->
  int_op Checked p t o x y = Panic -> fails_here p rho (EBin (BI o) a b).
Proof.
  intros Ha Hb P. split.
  - cbn [eval]. rewrite Ha, Hb. cbn [rbind]. rewrite ity_eqb_refl. destruct o; rewrite P; reflexivity.
  - cbn. repeat constructor; eauto.
Qed.
Lemma over p t z : imax p t < z \/ z < imin p t -> arith Checked p t z = Panic.
Proof. intros H. unfold arith. destruct (inr p t z) eqn:E; auto. apply inr_iff in E. lia. Qed.

Lemma imax_in p t : inr p t (imax p t) = true.
Proof. apply inr_iff. pose proof (imin_imax p t). lia. Qed.
Lemma imin_in p t : inr p t (imin p t) = true.
Proof. apply inr_iff. pose proof (imin_imax p t). lia. Qed.

Lemma reported_can_fail p e t : tyck p e = Some t -> simple_operation e -> ~ from_the_top p e ->
  arithmetic_side_effects p p e = true -> exists rho, fails_here p rho e.
Proof.
  intros T S F R. destruct e as [ | | | | |u a|[o| | |] l r| | | | | | ]; try contradiction.
  - destruct u; [|contradiction]. destruct a as [ | | |ty x| | | | | | | | | ]; try contradiction.
    cbn in T. destruct ty as [t0| | |]; try discriminate.
    destruct (ity_signed t0) eqn:Sg; [|discriminate]. exists (env2 x t0 (imin p t0) 0). split.
    + rewrite eval_un, env2_fst by apply imin_in. cbn [rbind un_sem]. unfold int_neg. rewrite Sg, over; [reflexivity|].
      left. unfold imin, imax. rewrite Sg. lia.
    + cbn [operands]. constructor; [|constructor]. rewrite env2_fst by apply imin_in. eauto.
  - destruct S as (Sl & Sr & Ap). cbn [arithmetic_side_effects] in R. unfold manage_bin_ops in R.
    destruct (known (eval_local p p (EBin (BI o) l r))) eqn:KL; [discriminate|].
    assert (OO : match o with OShl | OShr | OAnd | OOr | OXor => False | _ => True end).
    { destruct o; try exact I; try discriminate;
        (destruct (is_float_ty _ && _); [discriminate|]; destruct (_ || _); [discriminate|];
         destruct (is_int_ty (ty_of l)) eqn:I1, (is_int_ty (ty_of r)) eqn:I2; try discriminate;
         cbn [tyck] in T; destruct l as [tl nl| | |[tl| | |] xl| | | | | | | | | ]; try discriminate; destruct r as [tr nr| | |[tr| | |] xr| | | | | | | | | ]; try discriminate;
         cbn in T; repeat match type of T with context [if ?c then _ else _] => destruct c end; discriminate). }
    assert (INT : exists t0, ty_of l = Some (TI t0) /\ ty_of r = Some (TI t0) /\ tyck p l = Some (TI t0) /\ tyck p r = Some (TI t0)).
    { cbn [tyck] in T. destruct (is_float_ty (ty_of l) && is_float_ty (ty_of r)) eqn:FF; [destruct o; try contradiction; discriminate|].
      destruct (tyck p l) as [[tl| | |]|] eqn:Tl; try discriminate; destruct (tyck p r) as [[tr| | |]|] eqn:Tr; try discriminate.
      - assert (tl = tr) as -> by (destruct o; try contradiction; destruct (ity_eqb tl tr) eqn:Q; try discriminate; now apply ity_eqb_eq).
        exists tr. pose proof (ConstTotal.tyck_ty_of _ _ _ Tl). pose proof (ConstTotal.tyck_ty_of _ _ _ Tr). auto.
      - destruct o; try contradiction; discriminate.
      - pose proof (ConstTotal.tyck_ty_of _ _ _ Tl) as Q1. pose proof (ConstTotal.tyck_ty_of _ _ _ Tr) as Q2. rewrite Q1, Q2 in FF. discriminate. }
    destruct INT as (t0 & Tl & Tr & Kl & Kr). rewrite Tl, Tr in R. cbn [is_float_ty is_int_ty andb] in R.
    pose proof (imax_in p t0) as HM. pose proof (imin_in p t0) as Hm. pose proof (imax_ge127 p t0) as B1. pose proof (imin_le0 p t0) as B2.
    pose proof (inr_small p t0 0 ltac:(lia)) as H0. pose proof (inr_small p t0 1 ltac:(lia)) as H1. pose proof (inr_small p t0 2 ltac:(lia)) as H2.
    destruct l as [tl nl| | |[tl| | |] xl| | | | | | | | | ]; try discriminate; destruct r as [tr nr| | |[tr| | |] xr| | | | | | | | | ]; try discriminate; cbn in Tl, Tr;
      try (injection Tl as ->); try (injection Tr as ->).
    + exfalso. assert (L : literal_integer p p (ELit t0 nl) = Some nl) by reflexivity. assert (L' : literal_integer p p (ELit t0 nr) = Some nr) by reflexivity.
      rewrite L, L' in R. destruct o; try contradiction; destruct (_ || _); discriminate.
    + assert (L : literal_integer p p (ELit t0 nl) = Some nl) by reflexivity. assert (L' : literal_integer p p (EVar (TI t0) xr) = None) by reflexivity.
      rewrite L, L' in R. assert (NV : tyck p (ELit t0 nl) <> None) by congruence.
      assert (EL := fun rho => lit_eval Checked p rho t0 nl NV).
      destruct (EL (env2 xr t0 0 0)) as (_ & Rn & Nn).
      assert (W : forall v, inr p t0 v = true -> int_op Checked p t0 o nl v = Panic -> exists rho, fails_here p rho (EBin (BI o) (ELit t0 nl) (EVar (TI t0) xr))).
      { intros v Hv P. exists (env2 xr t0 v 0). eapply fails_bin; [apply EL|apply env2_fst; auto|auto]. }
      destruct o; try contradiction; cbn [int_op] in W.
      * apply (W (imax p t0) HM). apply over. left. destruct (_ || _); [discriminate|]. destruct (nl =? 0) eqn:Q; [discriminate|]. lia.
      * destruct (_ || _); [discriminate|]. destruct (nl =? 0) eqn:Q; [discriminate|]. destruct (ity_signed t0) eqn:Sg.
        -- apply (W (imin p t0) Hm). apply over. left. unfold imin, imax in *. rewrite Sg in *. lia.
        -- apply (W (imax p t0) HM). apply over. right. cbn in F. apply inr_iff in Rn. assert (nl <> imax p t0) by tauto.
           unfold imin in *. rewrite Sg in *. lia.
      * apply (W (imax p t0) HM). apply over. left. destruct (_ || _); [discriminate|].
        destruct ((nl =? 0) || (nl =? 1)) eqn:Q; [discriminate|]. nia.
      * now apply (W 0 H0).
      * now apply (W 0 H0).
    + assert (L : literal_integer p p (ELit t0 nr) = Some nr) by reflexivity. assert (L' : literal_integer p p (EVar (TI t0) xl) = None) by reflexivity.
      rewrite L, L' in R. assert (NV : tyck p (ELit t0 nr) <> None) by congruence.
      assert (EL := fun rho => lit_eval Checked p rho t0 nr NV).
      destruct (EL (env2 xl t0 0 0)) as (_ & Rn & Nn).
      assert (W : forall v, inr p t0 v = true -> int_op Checked p t0 o v nr = Panic -> exists rho, fails_here p rho (EBin (BI o) (EVar (TI t0) xl) (ELit t0 nr))).
      { intros v Hv P. exists (env2 xl t0 v 0). eapply fails_bin; [apply env2_fst; auto|apply EL|auto]. }
      destruct o; try contradiction; cbn [int_op] in W; (destruct (_ || _) in R; [discriminate|]).
      * apply (W (imax p t0) HM). apply over. left. destruct (nr =? 0) eqn:Q; [discriminate|]. lia.
      * apply (W (imin p t0) Hm). apply over. right. destruct (nr =? 0) eqn:Q; [discriminate|]. lia.
      * apply (W (imax p t0) HM). apply over. left. destruct ((nr =? 0) || (nr =? 1)) eqn:Q; [discriminate|]. nia.
      * apply (W 0 H0). now rewrite R.
      * apply (W 0 H0). now rewrite R.
    + cbn in Ap.
      assert (W : forall v w, inr p t0 v = true -> inr p t0 w = true -> int_op Checked p t0 o v w = Panic -> exists rho, fails_here p rho (EBin (BI o) (EVar (TI t0) xl) (EVar (TI t0) xr))).
      { intros v w Hv Hw P. exists (env2 xl t0 v w). eapply fails_bin; [apply env2_fst; auto|apply env2_snd; auto|auto]. }
      destruct o; try contradiction; cbn [int_op] in W.
      * apply (W (imax p t0) 1); auto. apply over. lia.
      * apply (W (imin p t0) 1); auto. apply over. lia.
      * apply (W (imax p t0) 2); auto. apply over. lia.
      * now apply (W 0 0).
      * now apply (W 0 0).
Qed.
