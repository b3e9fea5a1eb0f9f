(** Expression-level proofs about bad_bit_mask / ineffective_bit_mask. *)
From Verif Require Import RustFacts ConstProofs ConstMore LintSpec CmpModel ArithProofs ConstSpec MaskProofs.
Open Scope Z_scope.

Lemma is_int_Some t : is_int t = true -> exists i, t = Some (TI i).
Proof. destruct t as [[]|]; cbn; try discriminate. eauto. Qed.

Lemma bitop_from_inv o b : bitop_from o = Some b -> exists i, o = BI i /\ forall m p t x y, int_op m p t i x y = Ok (bz b x y).
Proof. destruct o as [[]| | |]; cbn; intros H; try discriminate; apply Some_inj in H; subst; eexists; split; try reflexivity. Qed.

(** One masked side: the value of `bl o br`, and the operand that remains. *)
Lemma masked_side m p rho i b bl br t w op x :
  (forall m p t x y, int_op m p t i x y = Ok (bz b x y)) ->
  (match i with OShl | OShr => False | _ => True end) ->
  ty_of bl = Some (TI t) -> is_int (ty_of br) = true -> mask_value p bl br = Some (op, x) ->
  eval m p rho (EBin (BI i) bl br) = Ok w ->
  exists vx k, w = VI t (bz b vx k) /\ eval m p rho x = Ok (VI t vx) /\ inr p t vx = true /\ inr p t k = true /\ to_bits p t k = op.
Proof.
  intros Hi Hsh Ht Hr Hm He. apply (eval_bi_int_inv _ _ _ _ _ _ _ _ Ht) in He as (t' & a & c & r & Ea & Eb & Ra & Rb & -> & Ho & Hty).
  assert (t' = t) by (destruct i; auto; contradiction). subst t'. rewrite Hi in Ho. injection Ho as <-.
  unfold mask_value in Hm. destruct (ceval p p br) as [[u| |]|] eqn:Ec; try discriminate.
  - apply Some_inj in Hm. injection Hm as <- <-. exists a, c. repeat split; auto.
    symmetry. exact (ceval_sound_denotes _ _ _ _ _ _ Ec Eb).
  - destruct (ceval p p bl) as [[u| |]|] eqn:Ec'; try discriminate. apply Some_inj in Hm. injection Hm as <- <-.
    exists c, a. rewrite bz_comm. repeat split; auto. symmetry. exact (ceval_sound_denotes _ _ _ _ _ _ Ec' Ea).
Qed.

Lemma bitop_noshift i b : (forall m p t x y, int_op m p t i x y = Ok (bz b x y)) -> match i with OShl | OShr => False | _ => True end.
Proof.
  intros H. specialize (H Wrapping P64 u8 5 1). destruct i; auto; destruct b; vm_compute in H; discriminate.
Qed.

Lemma bit_mask_shape p e v e' : bit_mask p e = Some (v, e') ->
  exists c l r left t b u1 u2, e = EBin (BC c) l r /\ unmasked e e' left /\
    (let o := if (left : bool) then cmpop_from c else cmpop_swap (cmpop_from c) in
     mask_table o b (ity_signed t) u1 u2 = Some v /\
     forall m rho w, eval m p rho e = Ok w -> exists x k K,
       inr p t x = true /\ inr p t k = true /\ inr p t K = true /\ to_bits p t k = u1 /\ to_bits p t K = u2 /\
       w = VB (matches_ordering o (bz b x k ?= K)) /\ eval m p rho e' = Ok (VB (matches_ordering o (x ?= K))) /\
       eval m p rho (if left then l else r) = Ok (VI t (bz b x k)) /\ eval m p rho (if left then r else l) = Ok (VI t K)).
Proof.
  destruct e as [| | | | | |[|c| |] l r| | | | | |]; cbn [bit_mask]; try discriminate. intros H.
  destruct (mask_operand p l r) as [[[[b bl] br] cmp]|] eqn:Em.
  - destruct (ty_of bl) as [[t| | |]|] eqn:Tl; try discriminate. destruct (is_int (ty_of br)) eqn:Tr; try discriminate.
    destruct (mask_value p bl br) as [[op x]|] eqn:Mv; try discriminate.
    destruct (mask_table _ b _ op cmp) as [v'|] eqn:Mt; try discriminate. cbn [option_map] in H. apply Some_inj in H. injection H as <- <-.
    unfold mask_operand in Em. destruct l as [| | | | | |o bl' br'| | | | | |]; try discriminate.
    destruct (bitop_from o) as [b'|] eqn:Eb; try discriminate. destruct (is_int (ty_of r)); try discriminate.
    destruct (ceval p p r) as [[u| |]|] eqn:Ec; try discriminate. apply Some_inj in Em. injection Em as <- <- <- <-.
    destruct (bitop_from_inv _ _ Eb) as (i & -> & Hi).
    exists c, (EBin (BI i) bl' br'), r, true, t, b', op, u. split; [reflexivity|]. split.
    { unfold mask_value in Mv. destruct (ceval p p br') as [[]|]; try discriminate.
      - apply Some_inj in Mv. injection Mv as <- <-. constructor.
      - destruct (ceval p p bl') as [[]|]; try discriminate. apply Some_inj in Mv. injection Mv as <- <-. constructor. }
    split; [exact Mt|]. intros m rho w He.
    assert (Tl' : ty_of (EBin (BI i) bl' br') = Some (TI t)) by exact Tl.
    destruct (eval_cmp_int_inv _ _ _ _ _ _ _ _ Tl' He) as (y & K & Ey & EK & ->).
    destruct (masked_side _ _ _ _ _ _ _ _ _ _ _ Hi (bitop_noshift _ _ Hi) Tl Tr Mv Ey) as (vx & k & Ew & Ex & Rx & Rk & Ek).
    injection Ew as ->. exists vx, k, K. 
    pose proof (ceval_sound_denotes _ _ _ _ _ _ Ec EK) as D. cbn in D.
    rewrite <- !cmpop_from_ok. repeat split; auto.
    + now apply eval_VI_range in EK.
    + now apply eval_cmp_int with (t := t).
  - destruct (mask_operand p r l) as [[[[b bl] br] cmp]|] eqn:Em'; try discriminate.
    destruct (ty_of bl) as [[t| | |]|] eqn:Tl; try discriminate. destruct (is_int (ty_of br)) eqn:Tr; try discriminate.
    destruct (mask_value p bl br) as [[op x]|] eqn:Mv; try discriminate.
    destruct (mask_table _ b _ op cmp) as [v'|] eqn:Mt; try discriminate. cbn [option_map] in H. apply Some_inj in H. injection H as <- <-.
    clear Em. unfold mask_operand in Em'. destruct r as [| | | | | |o bl' br'| | | | | |]; try discriminate.
    destruct (bitop_from o) as [b'|] eqn:Eb; try discriminate. destruct (is_int (ty_of l)) eqn:Til; try discriminate.
    destruct (ceval p p l) as [[u| |]|] eqn:Ec; try discriminate. apply Some_inj in Em'. injection Em' as <- <- <- <-.
    destruct (bitop_from_inv _ _ Eb) as (i & -> & Hi).
    exists c, l, (EBin (BI i) bl' br'), false, t, b', op, u. split; [reflexivity|]. split.
    { unfold mask_value in Mv. destruct (ceval p p br') as [[]|]; try discriminate.
      - apply Some_inj in Mv. injection Mv as <- <-. constructor.
      - destruct (ceval p p bl') as [[]|]; try discriminate. apply Some_inj in Mv. injection Mv as <- <-. constructor. }
    split; [exact Mt|]. intros m rho w He.
    assert (Tl' : ty_of (EBin (BI i) bl' br') = Some (TI t)) by exact Tl.
    apply is_int_Some in Til as [tl Til].
    destruct (eval_cmp_int_inv _ _ _ _ _ _ _ _ Til He) as (K & y & EK & Ey & ->).
    destruct (eval_int_ty _ _ _ _ _ _ Tl' Ey) as (y' & Ey' & _). injection Ey' as -> <-.
    destruct (masked_side _ _ _ _ _ _ _ _ _ _ _ Hi (bitop_noshift _ _ Hi) Tl Tr Mv Ey) as (vx & k & Ew & Ex & Rx & Rk & Ek).
    injection Ew as ->. exists vx, k, K.
    pose proof (ceval_sound_denotes _ _ _ _ _ _ Ec EK) as D. cbn in D.
    rewrite <- !cmpop_swap_ok. repeat split; auto.
    + now apply eval_VI_range in EK.
    + now apply eval_cmp_int with (t := t).
Qed.

Lemma unmasked_left_unique e e' a b : unmasked e e' a -> unmasked e e' b -> a = b.
Proof.
  assert (S : forall o x y, EBin o x y <> x /\ EBin o y x <> x).
  { intros o x y. split; intros E; apply (f_equal (fix size (e : expr) : nat := match e with
      | EBin _ a b => S (size a + size b) | EUn _ a => S (size a) | ECast a _ => S (size a) | EM0 _ a => S (size a)
      | EM1 _ a b => S (size a + size b) | EM2 _ a b c => S (size a + size b + size c) | EIf a b c => S (size a + size b + size c)
      | EContains _ a b c => S (size a + size b + size c) | _ => 1%nat end)) in E; cbn in E; lia. }
  intros Ha Hb. inversion Ha; subst; inversion Hb; subst; auto; exfalso;
    match goal with H : ?x = EBin ?o ?x ?y |- _ => symmetry in H; destruct (S o x y); tauto
                  | H : ?x = EBin ?o ?y ?x |- _ => symmetry in H; destruct (S o x y); tauto
                  | H : EBin ?o ?x ?y = ?x |- _ => destruct (S o x y); tauto
                  | H : EBin ?o ?y ?x = ?x |- _ => destruct (S o x y); tauto end.
Qed.

Lemma bit_mask_ineffective p e e' : bit_mask p e = Some (MIneffective, e') ->
  (exists left, unmasked e e' left) /\ forall m rho, preserves m p rho e e'.
Proof.
  intros H. destruct (bit_mask_shape _ _ _ _ H) as (c & l & r & left & t & b & u1 & u2 & -> & Hu & Hs). cbv zeta in Hs.
  destruct Hs as (Hm & Hs). split; [eauto|]. intros m rho w Hw.
  destruct (Hs _ _ _ Hw) as (x & k & K & Rx & Rk & RK & <- & <- & -> & He' & _).
  rewrite He'. pose proof (mask_core _ _ _ _ _ _ _ _ Rx Rk RK Hm) as C. cbn in C. now rewrite C.
Qed.

Lemma bit_mask_constant p e b e' : bit_mask p e = Some (MAlways b, e') ->
  forall m rho w m' rho' w', eval m p rho e = Ok w -> eval m' p rho' e = Ok w' -> w = w'.
Proof.
  intros H. destruct (bit_mask_shape _ _ _ _ H) as (c & l & r & left & t & bo & u1 & u2 & -> & Hu & Hs). cbv zeta in Hs.
  destruct Hs as (Hm & Hs). intros m rho w m' rho' w' Hw Hw'.
  destruct (Hs _ _ _ Hw) as (x & k & K & Rx & Rk & RK & E1 & E2 & -> & _).
  destruct (Hs _ _ _ Hw') as (x' & k' & K' & Rx' & Rk' & RK' & E1' & E2' & -> & _).
  assert (k' = k) by (apply (to_bits_inj p t); auto; congruence).
  assert (K' = K) by (apply (to_bits_inj p t); auto; congruence). subst k' K' u1 u2.
  pose proof (mask_core _ _ _ _ _ _ _ _ Rx Rk RK Hm) as C. cbn [mask_claim] in C.
  pose proof (mask_core _ _ _ _ _ _ _ _ Rx' Rk RK Hm) as C'. cbn [mask_claim] in C'.
  destruct C as [(-> & -> & _)|[(N & Ek & _ & C)|(N & C)]].
  - cbn [bz]. now rewrite !Z.land_0_r.
  - destruct C' as [(? & ? & _)|[(_ & _ & _ & C')|(N' & C')]]; [tauto| |tauto]. now rewrite C, C'.
  - destruct C' as [(-> & -> & _)|[(_ & ? & _ & C')|(N' & C')]]; [cbn [bz]; now rewrite !Z.land_0_r|tauto|]. now rewrite C, C'.
Qed.

Lemma kind_exceeds c l r (left : bool) :
  asks_exceeds (EBin (BC c) l r) left =
  match ck_kind (if left then cmpop_from c else cmpop_swap (cmpop_from c)) with KGt => true | _ => false end.
Proof. destruct c, left; reflexivity. Qed.
Lemma kind_eq c l r (left : bool) : is_equality (EBin (BC c) l r) = true ->
  ck_kind (if left then cmpop_from c else cmpop_swap (cmpop_from c)) = KEq.
Proof. destruct c, left; cbn; congruence. Qed.

Lemma and_zero_value p t o K : inr p t K = true -> 0 <= K \/ ck_kind o = KEq ->
  matches_ordering o (0 ?= K) = matches_ordering o (0 ?= to_bits p t K).
Proof.
  intros RK [C|C].
  - rewrite to_bits_nonneg_small; auto.
  - unfold matches_ordering. rewrite C.
    destruct (Z.compare_spec 0 K) as [E|E|E], (Z.compare_spec 0 (to_bits p t K)) as [E'|E'|E']; try reflexivity; exfalso;
      try (subst K; rewrite to_bits_0 in E'; lia); try (symmetry in E'; apply to_bits_0_inv in E'; auto; lia).
Qed.

Lemma bit_mask_always m p rho e b e' left w : bit_mask p e = Some (MAlways b, e') -> unmasked e e' left ->
  asks_exceeds e left = false -> is_equality e = true \/ sides_nonneg m p rho e ->
  eval m p rho e = Ok w -> w = VB b.
Proof.
  intros H Hu Hx Hn Hw. destruct (bit_mask_shape _ _ _ _ H) as (c & l & r & left' & t & bo & u1 & u2 & -> & Hu' & Hs). cbv zeta in Hs.
  rewrite (unmasked_left_unique _ _ _ _ Hu Hu') in Hx. clear Hu Hu'. rewrite kind_exceeds in Hx.
  destruct Hs as (Hm & Hs). destruct (Hs _ _ _ Hw) as (x & k & K & Rx & Rk & RK & <- & <- & -> & _ & _ & EK).
  pose proof (mask_core _ _ _ _ _ _ _ _ Rx Rk RK Hm) as C. cbn [mask_claim] in C. f_equal.
  destruct C as [(-> & -> & ->)|[(N & Ek & _ & C)|(N & C)]].
  - cbn [bz]. rewrite Z.land_0_r. apply and_zero_value; auto.
    destruct Hn as [Hn|Hn]; [right; now apply kind_eq with (l := l) (r := r)|left].
    destruct Hn as (t' & a & d & Ea & Ed & Pa & Pd). destruct left'; congruence.
  - rewrite Ek in Hx. discriminate.
  - exact C.
Qed.

(** The reported value is the opposite of the actual one on the "exceeds" rows. *)
Lemma bit_mask_exceeds m p rho e b e' left w : bit_mask p e = Some (MAlways b, e') -> unmasked e e' left ->
  asks_exceeds e left = true -> eval m p rho e = Ok w ->
  w = VB (negb b) \/ (exists t, eval m p rho (match e with EBin _ l r => if left then l else r | _ => e end) = Ok (VI t 0)).
Proof.
  intros H Hu Hx Hw. destruct (bit_mask_shape _ _ _ _ H) as (c & l & r & left' & t & bo & u1 & u2 & -> & Hu' & Hs). cbv zeta in Hs.
  rewrite (unmasked_left_unique _ _ _ _ Hu Hu') in *. clear Hu Hu'. rewrite kind_exceeds in Hx.
  destruct Hs as (Hm & Hs). destruct (Hs _ _ _ Hw) as (x & k & K & Rx & Rk & RK & <- & <- & -> & _ & Ey & EK).
  pose proof (mask_core _ _ _ _ _ _ _ _ Rx Rk RK Hm) as C. cbn [mask_claim] in C.
  destruct C as [(-> & -> & ->)|[(N & Ek & _ & C)|(N & C)]].
  - right. exists t. rewrite Ey. cbn [bz]. now rewrite Z.land_0_r.
  - left. now rewrite C.
  - destruct (ck_kind _); try discriminate. tauto.
Qed.
