From Coq Require Import ZifyBool.
From Verif Require Export RotateModel ConstMore LintSpec.
Open Scope Z_scope.

Lemma mod_dvd a n m : 0 < m -> (m | n) -> (a mod n) mod m = a mod m.
Proof.
  intros Hm [k ->]. destruct (Z.eq_dec k 0) as [->|Hk]. { cbn. now rewrite Zmod_0_r. }
  rewrite (Z.mod_eq a (k * m)) by lia.
  replace (a - k * m * (a / (k * m))) with (a + (- k * (a / (k * m))) * m) by ring. apply Z.mod_add. lia.
Qed.

Lemma lor_disjoint a b k : 0 <= k -> a mod 2 ^ k = 0 -> 0 <= b < 2 ^ k -> Z.lor a b = a + b.
Proof.
  intros Hk Ha Hb. rewrite Z.lor_comm. rewrite Z.add_comm.
  assert (L : Z.land b a = 0).
  { apply Z.bits_inj'. intros i Hi. rewrite Z.land_spec, Z.bits_0. destruct (Z.lt_ge_cases i k).
    - assert (Z.testbit a i = false). { rewrite <- (Z.mod_pow2_bits_low a k i) by lia. rewrite Ha. apply Z.bits_0. }
      rewrite H0. apply andb_false_r.
    - assert (Z.testbit b i = false). { rewrite <- (Z.mod_small b (2 ^ k)) by lia. apply Z.mod_pow2_bits_high. lia. }
      now rewrite H0. }
  now rewrite Z.add_nocarry_lxor, Z.lxor_lor by auto.
Qed.

(** The rotation by amounts adding up to a multiple of the width. *)
Lemma rot_parts w x a b : 0 < w -> 0 <= x < 2 ^ w -> (a + b) mod w = 0 -> a mod w <> 0 ->
  let s := (x * 2 ^ (a mod w)) mod 2 ^ w in let r := x / 2 ^ (b mod w) in
  Z.lor s r = s + r /\ s + r = rotl w x a /\ 0 <= s + r < 2 ^ w.
Proof.
  intros Hw Hx Hab Ha s r. pose proof (Z.mod_pos_bound a w Hw) as Ba. pose proof (Z.mod_pos_bound b w Hw) as Bb.
  set (k := a mod w) in *. 
  assert (Eb : b mod w = w - k).
  { rewrite Z.add_mod in Hab by lia. fold k in Hab.
    destruct (Z.eq_dec (b mod w) 0) as [E|E]. { rewrite E, Z.add_0_r, Z.mod_small in Hab by lia. lia. }
    assert (Hd : (w | k + b mod w)) by (apply Z.mod_divide; lia). destruct Hd as [q Hq].
    assert (q = 1) by nia. lia. }
  subst r. rewrite Eb.
  assert (P : 2 ^ w = 2 ^ (w - k) * 2 ^ k) by (rewrite <- Z.pow_add_r by lia; f_equal; lia).
  pose proof (p2_pos k ltac:(lia)). pose proof (p2_pos (w - k) ltac:(lia)).
  assert (Hs : s = (x mod 2 ^ (w - k)) * 2 ^ k) by (subst s; rewrite P; apply Z.mul_mod_distr_r; lia).
  assert (Hr : 0 <= x / 2 ^ (w - k) < 2 ^ k).
  { split; [apply Z.div_pos; lia|]. apply Z.div_lt_upper_bound; lia. }
  split; [|split].
  - apply (lor_disjoint _ _ k); [lia| |auto]. rewrite Hs. apply Z.mod_mul. lia.
  - unfold rotl. fold k. reflexivity.
  - pose proof (Z.mod_pos_bound x (2 ^ (w - k)) ltac:(lia)). rewrite Hs. nia.
Qed.

Lemma rotl_0 w x a : 0 < w -> 0 <= x < 2 ^ w -> a mod w = 0 -> rotl w x a = x.
Proof.
  intros. unfold rotl. rewrite H1. rewrite Z.sub_0_r. cbn [Z.pow]. rewrite Z.mul_1_r, Z.mod_small, Z.div_small by lia. lia.
Qed.
Lemma rot_lr w x a b : 0 < w -> (a + b) mod w = 0 -> rotr w x b = rotl w x a.
Proof.
  intros Hw Hab. unfold rotr. unfold rotl. replace ((w - b mod w) mod w) with (a mod w); [reflexivity|].
  replace (w - b mod w) with (a - (a + b mod w) + 1 * w) by lia. rewrite Z.mod_add by lia.
  rewrite Zminus_mod. replace ((a + b mod w) mod w) with 0. 2:{ rewrite Z.add_mod_idemp_r by lia. lia. }
  rewrite Z.sub_0_r, Z.mod_mod by lia. reflexivity.
Qed.

Lemma fixed_bits_Some p t w : fixed_bits t = Some w -> bits p t = w /\ (w | 2 ^ 7).
Proof.
  unfold fixed_bits, bits. destruct t as [s []]; cbn; intros [= <-]; split; try reflexivity.
  - now exists 16. - now exists 8. - now exists 4. - now exists 2.
Qed.
Lemma dvd_bits p t w : (w | 2 ^ 7) -> (w | 2 ^ bits p t).
Proof.
  intros. apply (Z.divide_trans _ (2 ^ 7)); [auto|]. pose proof (bits_ge8 p t). exists (2 ^ (bits p t - 7)).
  rewrite <- Z.pow_add_r by lia. f_equal. lia.
Qed.

Lemma shift_amt m p t o a b r w : (o = OShl \/ o = OShr) -> bits p t = w -> int_op m p t o a b = Ok r ->
  r = (if match o with OShl => true | _ => false end then wrap p t (a * 2 ^ (b mod w)) else a / 2 ^ (b mod w)) /\
  (m = Checked -> 0 <= b < w).
Proof.
  intros Ho Hw H. pose proof (bits_pos p t).
  destruct Ho as [-> | ->]; unfold int_op in H; destruct ((0 <=? b) && (b <? bits p t)) eqn:E.
  - injection H as <-. rewrite <- Hw. rewrite Z.mod_small by lia. split; [reflexivity|lia].
  - destruct m; [discriminate|]. injection H as <-. subst w. split; [reflexivity|discriminate].
  - injection H as <-. rewrite <- Hw. rewrite Z.mod_small by lia. split; [reflexivity|lia].
  - destruct m; [discriminate|]. injection H as <-. subst w. split; [reflexivity|discriminate].
Qed.

(** What [pick] guarantees about the two amounts. *)
Lemma local_const_denotes m p rho e u t z : eval_local p p e = Some (CInt u) -> eval m p rho e = Ok (VI t z) -> u = to_bits p t z.
Proof.
  unfold eval_local. destruct (all_local e); [|discriminate]. intros H1 H2. exact (ceval_sound_denotes _ _ _ _ _ _ H1 H2).
Qed.
Lemma to_bits_modw p t z w : 0 < w -> (w | 2 ^ 7) -> (to_bits p t z) mod w = z mod w.
Proof. intros. unfold to_bits. apply mod_dvd; auto using dvd_bits. Qed.

Lemma pick_amounts m p rho w ld rd la ra d a tl tr zl zr :
  0 < w -> (w | 2 ^ 7) ->
  no_xor la -> no_xor ra -> ld <> rd ->
  pick p p w ld rd la ra = Some (d, a) ->
  eval m p rho la = Ok (VI tl zl) -> eval m p rho ra = Ok (VI tr zr) ->
  (zl + zr) mod w = 0 /\ (d = ld /\ a = la \/ d = rd /\ a = ra) /\
  (m = Checked -> 0 <= zl < w -> 0 <= zr < w -> zl mod w <> 0).
Proof.
  intros Hw Hdv Hxl Hxr Hne Hp Hl Hr.
  assert (SUB : forall a1 o mi a2 d0, pick_binary ld rd la ra = Some (a1, o, mi, a2, d0) ->
    match eval_local p p mi with
        | Some (CInt mv) =>
            if expr_eqb a1 a2 &&
               match o with
               | BI OSub => w =? mv
               | BI OXor => (mv <=? w) && (w - mv =? 1)
               | _ => false
               end
            then Some (d0, a1) else None
        | _ => None
    end = Some (d, a) -> (zl + zr) mod w = 0 /\ (d = ld /\ a = la \/ d = rd /\ a = ra) /\
  (m = Checked -> 0 <= zl < w -> 0 <= zr < w -> zl mod w <> 0)).
  { intros a1 o mi a2 d0 Hb Hs.
    destruct (eval_local p p mi) as [[mv| |]|] eqn:Em; try discriminate.
    destruct (expr_eqb a1 a2) eqn:Eq; [|discriminate]. apply expr_eqb_eq in Eq. subst a2. cbn [andb] in Hs.
    assert (Hcase : exists s z1 z2 t1 t2, (s = la /\ z1 = zl /\ z2 = zr /\ t1 = tl /\ t2 = tr /\ ra = EBin o mi la /\ d0 = ld \/
        s = ra /\ z1 = zr /\ z2 = zl /\ t1 = tr /\ t2 = tl /\ la = EBin o mi ra /\ d0 = rd) /\ a1 = s).
    { unfold pick_binary in Hb. destruct ra as [t0 n|b0|f0|t0 x0|t0 as0|u0 e0|bo r1 r2|e0 t0|k0 e0|k0 e0 e1|k0 e0 e1 e2|c0 e1 e2|i0 e0 e1 e2]; [ | discriminate Hr | discriminate Hr | .. ]; try (destruct la; try discriminate; injection Hb; intros; subst;
        eexists _, zr, zl, tr, tl; split; [right; repeat split; reflexivity|reflexivity]).
      assert (Hb' : Some (la, bo, r1, r2, ld) = Some (a1, o, mi, a1, d0)) by (destruct la; exact Hb). injection Hb'; intros; subst.
      eexists _, zl, zr, tl, tr. split; [left; repeat split; reflexivity|reflexivity]. }
    destruct Hcase as (s & z1 & z2 & t1 & t2 & Hc & ->).
    assert (Hev : eval m p rho s = Ok (VI t1 z1) /\ eval m p rho (EBin o mi s) = Ok (VI t2 z2) /\ no_xor (EBin o mi s)).
    { destruct Hc as [(-> & -> & -> & -> & -> & -> & ->)|(-> & -> & -> & -> & -> & -> & ->)]; auto. }
    destruct Hev as (Hs1 & Hs2 & Hnx).
    destruct o as [[]| | |]; try discriminate Hs; try contradiction.
    destruct (Z.eqb_spec w mv) as [<-|]; [|discriminate]. injection Hs as <- <-.
    apply eval_bi_inv in Hs2 as [(t & t' & x & y & r & Hmi & Hs' & Hv & Hop & Ht)|[(x & y & r & H1 & H2 & H3 & _)|(x & y & r & H1 & H2 & H3 & _)]]; [|discriminate|discriminate].
    injection Hv as -> ->. rewrite Hs1 in Hs'. injection Hs' as -> ->. subst t'.
    pose proof (local_const_denotes _ _ _ _ _ _ _ Em Hmi) as Hx.
    pose proof (arith_Ok _ _ _ _ _ Hop) as [Hr1 Hr2].
    assert (Hsum : (y + r) mod w = 0).
    { rewrite <- (to_bits_modw p t (y + r) w) by auto. unfold to_bits. rewrite Hr1.
      rewrite Z.add_mod by (pose proof (half_double p t); pose proof (half_pos p t); lia). rewrite wrap_mod.
      rewrite <- Z.add_mod by (pose proof (half_double p t); pose proof (half_pos p t); lia).
      replace (y + (x - y)) with x by ring. fold (to_bits p t x). rewrite <- Hx. apply Z.mod_same. lia. }
    assert (Hnz : m = Checked -> 0 <= y < w -> 0 <= r < w -> y mod w <> 0).
    { intros Hm By Br. destruct (Hr2 Hm) as [_ ->]. rewrite Z.mod_small by lia. intros ->.
      assert (x = w); [|lia]. pose proof (eval_VI_range _ _ _ _ _ _ Hmi) as Hxr'.
      rewrite Hx in Br |- *. unfold to_bits. rewrite Z.mod_small; [lia|]. split; [lia|].
      rewrite Z.sub_0_r in Br. apply inr_iff in Hxr'. unfold imax in Hxr'. pose proof (half_double p t). pose proof (half_pos p t).
      destruct (ity_signed t); lia. }
    destruct Hc as [(E1 & E2 & E3 & E4 & E5 & E6 & E7)|(E1 & E2 & E3 & E4 & E5 & E6 & E7)]; subst.
    - split; [exact Hsum|]. split; [left; auto|]. exact Hnz.
    - split; [rewrite Z.add_comm; exact Hsum|]. split; [right; auto|].
      intros Hm B1 B2 E0. rewrite Z.mod_small in E0 by lia. rewrite E0, Z.add_0_r in Hsum. now apply (Hnz Hm). }
  unfold pick in Hp. fold (pick_binary ld rd la ra) in Hp.
  assert (SUB' : match pick_binary ld rd la ra with
    | Some (amount1, o, minuend, amount2, d) =>
        match eval_local p p minuend with
        | Some (CInt mv) =>
            if expr_eqb amount1 amount2 &&
               match o with
               | BI OSub => w =? mv
               | BI OXor => (mv <=? w) && (w - mv =? 1)
               | _ => false
               end
            then Some (d, amount1) else None
        | _ => None
        end
    | None => None
    end = Some (d, a) -> (zl + zr) mod w = 0 /\ (d = ld /\ a = la \/ d = rd /\ a = ra) /\
  (m = Checked -> 0 <= zl < w -> 0 <= zr < w -> zl mod w <> 0)).
  { destruct (pick_binary ld rd la ra) as [[[[[a1 o] mi] a2] d0]|]; [|discriminate]. now apply SUB. }
  destruct (eval_local p p la) as [[lv| |]|] eqn:El; try (now apply SUB').
  destruct (eval_local p p ra) as [[rv| |]|] eqn:Er; try (now apply SUB').
  destruct (Z.eqb_spec (u128w (lv + rv)) w) as [E|]; [|now apply SUB'].
  pose proof (local_const_denotes _ _ _ _ _ _ _ El Hl) as Hlv. pose proof (local_const_denotes _ _ _ _ _ _ _ Er Hr) as Hrv.
  assert (Hsum : (zl + zr) mod w = 0).
  { rewrite Z.add_mod by lia. rewrite <- (to_bits_modw p tl zl w), <- (to_bits_modw p tr zr w), <- Hlv, <- Hrv by auto.
    rewrite <- Z.add_mod by lia. rewrite <- (mod_dvd (lv + rv) (2 ^ 128) w) by (auto; destruct Hdv as [k Hk]; exists (k * 2 ^ 121); rewrite <- Z.mul_assoc, (Z.mul_comm _ w), Z.mul_assoc, <- Hk; reflexivity).
    unfold u128w in E. rewrite E. apply Z.mod_same. lia. }
  split; [exact Hsum|]. split.
  - destruct (lv <? rv); injection Hp as <- <-; auto.
  - intros _ B1 B2 E0. rewrite Z.mod_small in E0 by lia.
    assert (zl < 128 /\ zr < 128) as [L1 L2]. { pose proof (Z.divide_pos_le w (2 ^ 7) ltac:(lia) Hdv) as Hle. change (2 ^ 7) with 128 in Hle. lia. }
    assert (S : forall t z, 0 <= z < 128 -> to_bits p t z = z).
    { intros t z Hz. unfold to_bits. apply Z.mod_small. pose proof (bits_ge8 p t). assert (2 ^ 8 <= 2 ^ bits p t) by (apply Z.pow_le_mono_r; lia). lia. }
    rewrite S in Hlv, Hrv by lia. subst lv rv. unfold u128w in E. rewrite Z.mod_small in E by lia. lia.
Qed.

Lemma as_u32_eval m p rho a t z : eval m p rho a = Ok (VI t z) -> tyck p (as_u32_arg a) = Some (TI u32) ->
  eval m p rho (as_u32_arg a) = Ok (VI u32 z).
Proof.
  intros H Ht. destruct a; cbn [as_u32_arg] in *;
    try (apply tyck_ty_of in Ht; destruct (eval_int_ty _ _ _ _ _ _ Ht H) as (z' & E & _); injection E as -> ->; exact H).
  cbn in *. destruct (inr p t0 n && (0 <=? n)); [|discriminate]. destruct (inr p u32 n && (0 <=? n)); [|discriminate].
  injection H as _ ->. reflexivity.
Qed.

Lemma manual_rotate_sound m p rho o s1 s2 x y a b e' t' t v :
  manual_rotate p p (EBin (BI o) (EBin (BI s1) x a) (EBin (BI s2) y b)) = Some e' ->
  tyck p e' = Some t' ->
  ty_of x = Some (TI t) -> ity_signed t = false ->
  no_xor a -> no_xor b -> (m = Checked \/ o = OOr) ->
  eval m p rho (EBin (BI o) (EBin (BI s1) x a) (EBin (BI s2) y b)) = Ok v ->
  eval m p rho e' = Ok v.
Proof.
  intros H Hty Hx Hu Hxa Hxb Hm Hv.
  assert (Hlint : exists ld rd w d am, parse_shift (EBin (BI s1) x a) = Some (ld, x, a) /\ parse_shift (EBin (BI s2) y b) = Some (rd, y, b) /\
     ld <> rd /\ x = y /\ fixed_bits t = Some w /\ pick p p w ld rd a b = Some (d, am) /\ e' = EM1 (dir_meth d) x (as_u32_arg am) /\ (o = OAdd \/ o = OOr)).
  { unfold manual_rotate in H. assert (Ho : o = OAdd \/ o = OOr) by (destruct o; auto; discriminate).
    assert (H' : match parse_shift (EBin (BI s1) x a), parse_shift (EBin (BI s2) y b) with
      | Some (ld, lx, la), Some (rd, rx, ra) =>
          if negb (dir_eqb ld rd) && expr_eqb lx rx then
                match fixed_bits t with
                | Some w => option_map (fun '(d, a) => EM1 (dir_meth d) lx (as_u32_arg a)) (pick p p w ld rd la ra)
                | None => None
                end
          else None
      | _, _ => None
      end = Some e').
    { cbn [ty_of] in H. rewrite Hx in H. destruct Ho as [-> | ->]; exact H. } clear H.
    destruct (parse_shift (EBin (BI s1) x a)) as [[[ld lx] la]|] eqn:E1; [|discriminate].
    destruct (parse_shift (EBin (BI s2) y b)) as [[[rd rx] ra]|] eqn:E2; [|discriminate].
    assert (lx = x /\ la = a) as [-> ->] by (destruct s1; try discriminate; injection E1; auto).
    assert (rx = y /\ ra = b) as [-> ->] by (destruct s2; try discriminate; injection E2; auto).
    destruct (dir_eqb ld rd) eqn:Ed; [discriminate|]. destruct (expr_eqb x y) eqn:Exy; [|discriminate]. cbn [negb andb] in H'.
    apply expr_eqb_eq in Exy. destruct (fixed_bits t) as [w|] eqn:Ew; [|discriminate].
    destruct (pick p p w ld rd a b) as [[d am]|] eqn:Ep; [|discriminate]. injection H' as <-.
    exists ld, rd, w, d, am. repeat split; auto. intros ->. destruct rd; discriminate. }
  destruct Hlint as (ld & rd & w & d & am & P1 & P2 & Hne & <- & Hw & Hp & -> & Ho).
  destruct (fixed_bits_Some p t w Hw) as [Hbw Hdv]. assert (Hwp : 0 < w) by (rewrite <- Hbw; apply bits_pos).
  apply eval_bi_int_inv with (t := t) in Hv; [|cbn [ty_of]; exact Hx].
  destruct Hv as (t1 & xl & xr & r & Hl & Hr & Rl & Rr & -> & Hop & Et1).
  assert (t1 = t) by (destruct Ho as [-> | ->]; exact Et1). subst t1. clear Et1.
  apply eval_bi_int_inv with (t := t) in Hl; [|exact Hx]. destruct Hl as (ta & z & za & r1 & Hxz & Ha & Rz & _ & E & Hop1 & _). injection E as <-.
  apply eval_bi_int_inv with (t := t) in Hr; [|exact Hx]. destruct Hr as (tb & z' & zb & r2 & Hxz' & Hb & _ & _ & E & Hop2 & _). injection E as <-.
  rewrite Hxz in Hxz'. injection Hxz' as <-.
  destruct (pick_amounts m p rho w ld rd a b d am ta tb za zb Hwp Hdv Hxa Hxb Hne Hp Ha Hb) as (Hsum & Hd & Hnz).
  assert (So : (s1 = OShl /\ ld = DLeft \/ s1 = OShr /\ ld = DRight) /\ (s2 = OShl /\ rd = DLeft \/ s2 = OShr /\ rd = DRight)).
  { split; [destruct s1 | destruct s2]; try discriminate; [injection P1 as <- | injection P1 as <- | injection P2 as <- | injection P2 as <-]; auto. }
  destruct So as [So1 So2].
  destruct (shift_amt m p t s1 z za xl w ltac:(tauto) Hbw Hop1) as [E1 C1].
  destruct (shift_amt m p t s2 z zb xr w ltac:(tauto) Hbw Hop2) as [E2 C2].
  assert (Rz' : 0 <= z < 2 ^ w).
  { destruct t as [sg sz]. cbn in Hu. subst sg. apply inr_u in Rz. unfold bits in Hbw. cbn in Hbw. now rewrite <- Hbw. }
  assert (Hwrap : forall q, wrap p t q = q mod 2 ^ w) by (intros; unfold wrap; now rewrite Hu, Hbw).
  assert (Hrange : forall q, 0 <= q < 2 ^ w -> inr p t q = true).
  { intros q Hq. apply inr_iff. unfold imin, imax. rewrite Hu, Hbw. lia. }
  assert (Hden : forall q, to_bits p t q = q mod 2 ^ w) by (intros; unfold to_bits; now rewrite Hbw).
  assert (Hyty : tyck p (as_u32_arg am) = Some (TI u32)).
  { cbn [tyck] in Hty. destruct d; cbn [dir_meth] in Hty; destruct (tyck p x) as [[]|]; try discriminate;
     destruct (tyck p (as_u32_arg am)) as [[t2| | |]|]; try discriminate; destruct (ity_eqb t2 u32) eqn:E; try discriminate; apply ity_eqb_eq in E; now subst. }
  (* amounts: left zL, right zR *)
  assert (Hfin : forall k zk, eval m p rho (as_u32_arg am) = Ok (VI u32 zk) ->
     (k = MRotl -> rotl w z zk = r) -> (k = MRotr -> rotr w z zk = r) -> (k = MRotl \/ k = MRotr) ->
     eval m p rho (EM1 k x (as_u32_arg am)) = Ok (VI t r)).
  { intros k zk Hek K1 K2 Kk. cbn [eval]. rewrite Hxz, Hek. cbn [rbind].
    assert (Rr' : inr p t r = true).
    { apply (int_op_range m p t o xl xr); auto; destruct Ho; subst; auto. }
    destruct Kk as [-> | ->]; cbn [sem1]; cbn [ity_eqb u32 Bool.eqb andb].
    - unfold of_bits. rewrite Hbw, Hden, (Z.mod_small z) by lia. rewrite (K1 eq_refl). now rewrite wrap_id.
    - unfold of_bits. rewrite Hbw, Hden, (Z.mod_small z) by lia. rewrite (K2 eq_refl). now rewrite wrap_id. }
  (* value of r in terms of left/right amounts *)
  assert (Hval : forall zL zR sL sR, (zL + zR) mod w = 0 ->
     (m = Checked -> zL mod w <> 0) ->
     sL = (z * 2 ^ (zL mod w)) mod 2 ^ w -> sR = z / 2 ^ (zR mod w) ->
     (int_op m p t o sL sR = Ok r \/ int_op m p t o sR sL = Ok r) -> rotl w z zL = r).
  { intros zL zR sL sR Hs Hc EL ER Hi.
    destruct (Z.eq_dec (zL mod w) 0) as [E0|E0].
    - rewrite rotl_0 by auto. assert (ER0 : zR mod w = 0). { rewrite Z.add_mod, E0, Z.add_0_l, Z.mod_mod in Hs by lia. exact Hs. }
      rewrite E0 in EL. rewrite ER0 in ER. cbn [Z.pow] in EL, ER. rewrite Z.mul_1_r, Z.mod_small in EL by lia. rewrite Z.div_1_r in ER. subst sL sR.
      destruct m; [now contradiction Hc|]. destruct Hm as [|Hm]; [discriminate|]. subst o.
      cbn in Hi. rewrite Z.lor_diag in Hi. destruct Hi as [Hi|Hi]; now injection Hi.
    - destruct (rot_parts w z zL zR Hwp Rz' Hs E0) as (L1 & L2 & L3). rewrite <- EL, <- ER in *. rewrite <- L2.
      destruct Ho as [-> | ->]; cbn [int_op] in Hi.
      + rewrite (Z.add_comm sR sL) in Hi. rewrite arith_in in Hi by (now apply Hrange). destruct Hi as [Hi|Hi]; now injection Hi.
      + rewrite (Z.lor_comm sR sL), L1 in Hi. destruct Hi as [Hi|Hi]; now injection Hi. }
  assert (Hnz' : m = Checked -> za mod w <> 0) by (intros E; apply Hnz; auto).
  assert (Hnz2 : m = Checked -> zb mod w <> 0).
  { intros E E0. apply (Hnz' E). rewrite Z.add_mod, E0, Z.add_0_r, Z.mod_mod in Hsum by lia. exact Hsum. }
  destruct So1 as [[-> ->]|[-> ->]], So2 as [[-> ->]|[-> ->]]; try (now contradiction Hne); cbn iota in E1, E2; rewrite Hwrap in *.
  - assert (V : rotl w z za = r) by (apply (Hval za zb xl xr); auto).
    destruct Hd as [[-> ->]|[-> ->]].
    + apply (Hfin MRotl za); auto; [now apply as_u32_eval with (t := ta)|discriminate].
    + apply (Hfin MRotr zb); auto; [now apply as_u32_eval with (t := tb)|discriminate|]. intros _. now rewrite (rot_lr w z za zb).
  - assert (V : rotl w z zb = r) by (apply (Hval zb za xr xl); auto; now rewrite Z.add_comm).
    destruct Hd as [[-> ->]|[-> ->]].
    + apply (Hfin MRotr za); auto; [now apply as_u32_eval with (t := ta)|discriminate|]. intros _. rewrite (rot_lr w z zb za); auto. now rewrite Z.add_comm.
    + apply (Hfin MRotl zb); auto; [now apply as_u32_eval with (t := tb)|discriminate].
Qed.

Lemma manual_rotate_preserves m p rho e e' t t' :
  manual_rotate p p e = Some e' -> tyck p e' = Some t' ->
  tyck p e = Some (TI t) -> ity_signed t = false -> amounts_no_xor e ->
  (m = Checked \/ is_sum e = false) -> preserves m p rho e e'.
Proof.
  intros H Hty Ht Hu Hx Hm v Hv. pose proof H as H0.
  destruct e as [| | | | | |o l r| | | | | |]; try discriminate. destruct o as [o| | |]; try discriminate.
  assert (Hl : exists s1 x a, l = EBin (BI s1) x a).
  { cbn [manual_rotate] in H. destruct (parse_shift l) as [[[ld lx] la]|] eqn:E; [|destruct o; discriminate].
    destruct l as [| | | | | |lo l1 l2| | | | | |]; try discriminate. destruct lo as [s1| | |]; try discriminate. eauto. }
  assert (Hr : exists s1 x a, r = EBin (BI s1) x a).
  { cbn [manual_rotate] in H. destruct (parse_shift l) as [[[ld lx] la]|]; [|destruct o; discriminate]. destruct (parse_shift r) as [[[rd rx] ra]|] eqn:E; [|destruct o; discriminate].
    destruct r as [| | | | | |lo l1 l2| | | | | |]; try discriminate. destruct lo as [s1| | |]; try discriminate. eauto. }
  destruct Hl as (s1 & x & a & ->). destruct Hr as (s2 & y & b & ->). destruct Hx as [Hxa Hxb]. apply tyck_ty_of in Ht.
  eapply manual_rotate_sound; eauto. destruct Hm as [|Hm]; [auto|right]. destruct o; try discriminate; auto.
Qed.
