(** Proofs about literal_representation.rs: mistyped suffixes and hexadecimal suggestions. *)
From Coq Require Import Lia.
From Verif Require Export NumProofs6.
Local Notation len := (@List.length ascii).

Lemma one_piece : forall t p, split_at us t = [p] -> p = t.
Proof.
  induction t as [|c t IH]; intros p E; cbn [split_at] in E; [congruence|]. destruct (Ascii.eqb us c); [destruct (split_at us t) eqn:Q; [now apply split_at_nonempty in Q|discriminate]|].
  destruct (split_at us t) as [|q [|q' qs]] eqn:Q; [now apply split_at_nonempty in Q| |discriminate]. injection E as <-. f_equal. auto.
Qed.
Lemma last_split t : 1 < List.length (split_at us t) -> exists p, t = p ++ us :: last (split_at us t) [].
Proof.
  induction t as [|c t IH]; [cbn; lia|]. cbn [split_at]. destruct (split_at us t) as [|q qs] eqn:Q; [now apply split_at_nonempty in Q|].
  destruct (Ascii.eqb_spec us c) as [<-|N]; intros L.
  - destruct qs as [|q2 qs].
    + exists []. cbn [app last]. f_equal. symmetry. now apply one_piece.
    + destruct IH as (p & E); [cbn; lia|]. exists (us :: p). cbn [app]. f_equal. exact E.
  - destruct qs as [|q2 qs]; [cbn in L; lia|]. destruct IH as (p & E); [cbn; lia|]. exists (c :: p). cbn [app]. f_equal. exact E.
Qed.
Lemma split_main t : 1 < List.length (split_at us t) -> let g := last (split_at us t) [] in let m := firstn (len t - len g) t in t = m ++ g /\ exists p, m = p ++ [us].
Proof.
  intros L g m. destruct (last_split t L) as (p & E). fold g in E. assert (M : m = p ++ [us]).
  { unfold m. rewrite E at 2. change (us :: g) with ([us] ++ g). rewrite app_assoc. apply firstn_exact. rewrite E. rewrite !app_length. cbn. lia. }
  split; [|eauto]. rewrite M, E at 1. now rewrite <- app_assoc.
Qed.

(** *** Integers *)
Lemma mistyped_int l s : wf l -> epart l = None -> check_for_mistyped_suffix (numlit_of l) = Some s ->
  exists main g c lim l', ipart l = main ++ g /\ (exists p, main = p ++ [us]) /\ fpart l = None /\ tsuf l = None /\ s = Some (show l') /\ wf l' /\ base l' = base l /\ fpart l' = None /\ epart l' = None /\ tsuf l' = Some (c :: g)
   /\ number l' = (horner (base_of (base l)) (digits_of main), 0%Z) /\ In (c :: g, lim) limits /\ (0 <= fst (number l') < lim)%Z /\ (c = "u"%char -> lim <= 2 * fst (number l'))%Z.
Proof.
  intros W E C. assert (T : tsuf l = None). { unfold check_for_mistyped_suffix in C. change (nsuffix (numlit_of l)) with (tsuf l) in C. destruct (tsuf l); [discriminate|reflexivity]. }
  assert (F : fpart l = None). { destruct (fpart l) eqn:F; [|reflexivity]. unfold check_for_mistyped_suffix, numlit_of, seen in C. cbn [nsuffix nexponent nfraction ninteger nradix] in C. rewrite T, E, F in C. discriminate. }
  assert (N : numlit_of l = {| nradix := base l; nprefix := nprefix (numlit_of l); ninteger := ipart l; nfraction := None; nexponent := None; nsuffix := None |}).
  { unfold numlit_of, seen. rewrite T, E, F. reflexivity. }
  rewrite N in C. unfold check_for_mistyped_suffix in C. cbn [nsuffix nexponent nfraction ninteger nradix] in C. cbv zeta in C.
  destruct (1 <? List.length (split_at us (ipart l))) eqn:L; [|discriminate]. apply Nat.ltb_lt in L. cbn [andb] in C. pose proof (split_main (ipart l) L) as SM. cbv zeta in SM.
  set (g := last (split_at us (ipart l)) []) in *. set (m := firstn (len (ipart l) - len g) (ipart l)) in *. destruct SM as [SM SP].
  match type of C with (if ?b then _ else _) = _ => destruct b; [|discriminate] end. destruct (from_str_radix (strip_us m) (base l)) as [i|] eqn:PR; [|discriminate].
  destruct (missing_char g i) as [c|] eqn:MC; [|discriminate]. injection C as <-. apply from_str_value in PR as (V & VB & NE).
  destruct (missing_fits g i c MC VB) as (lim & I1 & I2 & I3 & I4). destruct (wf_i l W) as [DI HI].
  assert (DM : digits_ok (base l) m). { unfold digits_ok in *. rewrite SM in DI. apply Forall_app in DI. tauto. }
  assert (HM : has_digit (base l) m) by (now apply digit_strip_has).
  set (l0 := {| base := base l; ipart := m; fpart := None; epart := None; tsuf := None |}).
  assert (W0 : wf l0).
  { constructor; cbn [l0 base ipart fpart epart tsuf]; auto; try discriminate. intros B. pose proof (wf_i_dec l W B) as SD. destruct SP as (p & MP). destruct m as [|z m']; [destruct p; discriminate|]. rewrite SM in SD. exact SD. }
  assert (FN : forall z, z = numlit_of l0 -> format z = Some (show (reformat l0))) by (intros z ->; now apply format_show).
  assert (SR : show (reformat l0) = prefix_of (base l) ++ fmt_i l0) by (unfold reformat, show, without_exp, fmt_f, sufus; cbn; now rewrite !app_nil_r).
  set (l' := {| base := base l; ipart := fmt_i l0 ++ [us]; fpart := None; epart := None; tsuf := Some (c :: g) |}).
  assert (NU : number l' = (horner (base_of (base l)) (digits_of m), 0%Z)).
  { unfold number, frac_digits, exponent_of. cbn [l' base ipart fpart epart]. rewrite !digits_of_strip, strip_app. change (strip_us [us]) with (@nil ascii). rewrite app_nil_r.
    rewrite (fmt_i_value l0 [] W0 : horner (base_of (base l)) _ = _). cbn [l0 ipart base]. rewrite app_nil_r. reflexivity. }
  destruct (fmt_i_digits l0 W0) as [D0 H0].
  exists m, g, c, lim, l'. rewrite FN, SR by reflexivity. cbn [option_map]. assert (VH : horner (base_of (base l)) (digits_of m) = i) by (rewrite V; reflexivity).
  repeat (split; [solve [auto]|]). split; [unfold show, l'; cbn; now rewrite <- !app_assoc|]. split.
  { constructor; cbn [l' base ipart fpart epart tsuf]; auto; try discriminate.
    - split; [apply Forall_app; split; [exact D0|repeat constructor; apply us_dig_us]|now apply has_app].
    - intros B. apply starts_app. now apply (fmt_i_head l0 W0).
    - intros s Q. injection Q as <-. right. auto. }
  repeat (split; [reflexivity|]). split; [exact NU|]. split; [exact I1|]. rewrite NU. cbn [fst]. rewrite VH. auto.
Qed.

(** *** Exponents *)
Lemma mistyped_exp l s c sg x : wf l -> epart l = Some (c, sg, x) -> check_for_mistyped_suffix (numlit_of l) = Some s ->
  exists main g, x = main ++ g /\ (exists p, main = p ++ [us]) /\ (g = tx "32" \/ g = tx "64") /\ tsuf l = None /\
   (has_digit Decimal main -> exists l', s = Some (show l') /\ wf l' /\ tsuf l' = Some ("f"%char :: g)
      /\ same_number (number l') (number {| base := base l; ipart := ipart l; fpart := fpart l; epart := Some (c, sg, main); tsuf := Some ("f"%char :: g) |})).
Proof.
  intros W E C. assert (T : tsuf l = None). { unfold check_for_mistyped_suffix in C. change (nsuffix (numlit_of l)) with (tsuf l) in C. destruct (tsuf l); [discriminate|reflexivity]. }
  assert (B : base l = Decimal) by (eapply has_exp_dec; eauto). destruct (wf_e l W c sg x E) as (EC & ES & DX & HX).
  assert (N : exists sep, nexponent (numlit_of l) = Some (sep, sgt sg ++ x)) by (unfold numlit_of, seen; rewrite T, E; eexists; reflexivity). destruct N as (sep & N).
  unfold check_for_mistyped_suffix in C. change (nsuffix (numlit_of l)) with (tsuf l) in C. rewrite T, N in C. cbv zeta in C.
  set (part := sgt sg ++ x) in *. destruct (1 <? List.length (split_at us part)) eqn:L; [|discriminate]. apply Nat.ltb_lt in L. cbn [andb] in C. pose proof (split_main part L) as SM. cbv zeta in SM.
  set (g := last (split_at us part) []) in *. set (m := firstn (len part - len g) part) in *. destruct SM as [SM SP].
  destruct (teqb g (tx "32") || teqb g (tx "64")) eqn:GG; [|discriminate]. injection C as <-.
  assert (GC : g = tx "32" \/ g = tx "64") by (apply orb_true_iff in GG as [G1|G1]; apply teqb_eq in G1; auto).
  assert (MX : exists main, m = sgt sg ++ main /\ x = main ++ g /\ exists p, main = p ++ [us]).
  { destruct SP as (p & MP). rewrite MP in SM. unfold part in SM. destruct sg as [z|]; cbn [sgt app] in *.
    - destruct p as [|y p]; [cbn in SM; injection SM as Q _; exfalso; destruct ES as [Z|[Z|Z]]; [discriminate| |]; injection Z as ->; discriminate|]. cbn in SM. injection SM as <- SM. exists (p ++ [us]). rewrite MP. eauto.
    - exists (p ++ [us]). rewrite MP. eauto. }
  destruct MX as (main & M1 & M2 & M3). exists main, g. split; [exact M2|]. split; [exact M3|]. split; [exact GC|]. split; [exact T|]. intros HM.
  assert (DM : digits_ok Decimal main) by (unfold digits_ok in *; rewrite M2 in DX; apply Forall_app in DX; tauto).
  set (l0 := {| base := base l; ipart := ipart l; fpart := fpart l; epart := Some (c, sg, main); tsuf := None |}).
  assert (W0 : wf l0).
  { constructor; cbn [l0 base ipart fpart epart tsuf]; try discriminate.
    - exact (wf_i l W).
    - exact (wf_i_dec l W).
    - intros Q. congruence.
    - intros f F. destruct (wf_f l W f F) as [DF _]. split; [auto|]. left. apply (frac_nonempty l f W F). left. rewrite E. discriminate.
    - intros ? ? ? Q. injection Q as <- <- <-. auto. }
  assert (FN : format (with_exponent (numlit_of l) sep m) = Some (show (reformat l0))).
  { rewrite <- format_show by auto. f_equal. unfold numlit_of, seen in N |- *. rewrite T, E in *. unfold with_exponent. cbn [nradix nprefix ninteger nfraction nexponent nsuffix l0 base ipart fpart epart tsuf cut_us] in *.
    rewrite M1. injection N as <-. reflexivity. }
  rewrite FN. cbn [option_map].
  assert (Z0 : zero_exp l0 = false).
  { unfold zero_exp. cbn [l0 epart tsuf cut_us]. apply teqb_neq. intros Q. destruct M3 as (p & ->). rewrite app_assoc in Q. change (tx "0") with ([] ++ ["0"%char]) in Q. apply app_inj_tail in Q as [_ Q]. discriminate. }
  destruct (exp_facts sg main ES DM HM) as (X1 & X2 & X3 & X4).
  set (l' := {| base := base l; ipart := ipart (reformat l0); fpart := fpart (reformat l0); epart := Some (c, sg, exp_digits sg main ++ [us]); tsuf := Some ("f"%char :: g) |}).
  assert (RE : epart (reformat l0) = Some (c, sg, exp_digits sg main)).
  { unfold reformat. cbn [l0 epart]. rewrite Z0. cbn [l0 fpart]. destruct (fpart l); cbn [with_parts epart sufus l0 tsuf]; now rewrite app_nil_r. }
  pose proof (wf_reformat l0 W0) as WR. pose proof (base_reformat l0) as RB. pose proof (tsuf_reformat l0) as RT. change (base l0) with (base l) in RB. change (tsuf l0) with (@None text) in RT.
  exists l'. split; [|split; [|split; [reflexivity|]]].
  - f_equal. unfold show. rewrite RB, RE, RT. cbn [l0 base tsuf l' ipart fpart epart show_exp]. rewrite <- !app_assoc. cbn [app]. rewrite <- !app_assoc. reflexivity.
  - constructor; cbn [l' base ipart fpart epart tsuf].
    + rewrite <- RB. exact (wf_i _ WR).
    + intros _. apply (wf_i_dec _ WR). rewrite RB. exact B.
    + intros Q. congruence.
    + intros f F. destruct (wf_f _ WR f F) as [DF SF]. split; [auto|]. left. apply (frac_nonempty _ f WR F). left. rewrite RE. discriminate.
    + intros ? ? ? Q. injection Q as <- <- <-. split; [auto|]. split; [auto|]. split; [apply Forall_app; split; [exact X1|repeat constructor]|now apply has_app].
    + intros s Q. injection Q as <-. left. split; [|exact B]. destruct GC as [->| ->]; cbn; tauto.
  - pose proof (same_number_reformat l0 W0) as SN.
    assert (N1 : number l' = number (reformat l0)). { unfold number, frac_digits, exponent_of. rewrite RE, RB. cbn [l' l0 base ipart fpart epart]. rewrite !digits_of_strip, (strip_app (exp_digits sg main)). change (strip_us [us]) with (@nil ascii). rewrite app_nil_r. reflexivity. }
    assert (N2 : number {| base := base l; ipart := ipart l; fpart := fpart l; epart := Some (c, sg, main); tsuf := Some ("f"%char :: g) |} = number l0) by reflexivity.
    rewrite N1, N2. unfold same_number in *. rewrite Z.min_comm. rewrite SN. reflexivity.
Qed.

(** *** Decimal to hexadecimal *)
Lemma log2_div16 v : (0 < v / 16)%Z -> (Z.to_nat (Z.log2 (v / 16)) < Z.to_nat (Z.log2 v))%nat.
Proof.
  intros H. change 16%Z with (2 ^ 4)%Z in *. rewrite <- Z.shiftr_div_pow2 in * by lia. assert (V : (0 < v)%Z) by (rewrite Z.shiftr_div_pow2 in H by lia; destruct (Z.le_gt_cases v 0) as [L|L]; [|auto]; assert (v / 2 ^ 4 <= 0)%Z by (apply Z.div_le_upper_bound; lia); lia).
  rewrite Z.log2_shiftr by auto. assert (L4 : (4 <= Z.log2 v)%Z). { apply Z.log2_le_pow2; [auto|]. rewrite Z.shiftr_div_pow2 in H by lia. assert (2 ^ 4 * 1 <= v)%Z; [|lia]. pose proof (Z.mul_div_le v (2 ^ 4) ltac:(lia)). lia. }
  rewrite Z.max_r by lia. lia.
Qed.
Lemma hex_acc : forall f v acc, hex_digits f v acc = hex_digits f v [] ++ acc.
Proof.
  induction f as [|f IH]; intros v acc; [reflexivity|]. cbn [hex_digits]. destruct (v / 16 =? 0)%Z; [reflexivity|].
  rewrite (IH _ (hex_digit (v mod 16) :: acc)), (IH _ [hex_digit (v mod 16)]), <- app_assoc. reflexivity.
Qed.
Lemma hex_fuel : forall f1 f2 v, (0 <= v)%Z -> Z.to_nat (Z.log2 v) < f1 -> Z.to_nat (Z.log2 v) < f2 -> hex_digits f1 v [] = hex_digits f2 v [].
Proof.
  induction f1 as [|f1 IH]; intros f2 v V L1 L2; [lia|]. destruct f2 as [|f2]; [lia|]. cbn [hex_digits]. destruct (v / 16 =? 0)%Z eqn:Z; [reflexivity|]. apply Z.eqb_neq in Z.
  assert (P : (0 < v / 16)%Z) by (pose proof (Z.div_pos v 16 V ltac:(lia)); lia). pose proof (log2_div16 v P) as LD.
  rewrite (hex_acc f1), (hex_acc f2), (IH f2) by lia. reflexivity.
Qed.
Definition hexd (v : Z) : text := hex_digits (S (Z.to_nat (Z.log2 v))) v [].
Lemma hexd_eq v : (0 <= v)%Z -> hexd v = if (v / 16 =? 0)%Z then [hex_digit (v mod 16)] else hexd (v / 16) ++ [hex_digit (v mod 16)].
Proof.
  intros V. unfold hexd at 1. cbn [hex_digits]. destruct (v / 16 =? 0)%Z eqn:Z; [reflexivity|]. apply Z.eqb_neq in Z.
  assert (P : (0 < v / 16)%Z) by (pose proof (Z.div_pos v 16 V ltac:(lia)); lia). pose proof (log2_div16 v P) as LD. rewrite hex_acc. unfold hexd. now rewrite (hex_fuel _ (S (Z.to_nat (Z.log2 (v / 16))))) by lia.
Qed.
Lemma nibble (P : Z -> Prop) : Forall P (map Z.of_nat (seq 0 16)) -> forall d, (0 <= d < 16)%Z -> P d.
Proof. intros F d D. rewrite Forall_forall in F. apply F. replace d with (Z.of_nat (Z.to_nat d)) by lia. apply in_map, in_seq. lia. Qed.
Lemma hex_digit_ok d : (0 <= d < 16)%Z -> is_dig Hexadecimal (hex_digit d) = true /\ dval (hex_digit d) = d.
Proof. revert d. apply nibble. repeat constructor. Qed.
Lemma hexd_ok : forall n v, Z.to_nat (Z.log2 v) < n -> (0 <= v)%Z -> Forall (fun c => is_dig Hexadecimal c = true) (hexd v) /\ horner 16 (hexd v) = v /\ hexd v <> [].
Proof.
  induction n as [|n IH]; intros v L V; [lia|]. pose proof (Z.mod_pos_bound v 16 ltac:(lia)) as M. destruct (hex_digit_ok _ M) as [D1 D2]. pose proof (Z.div_mod v 16 ltac:(lia)) as DM. rewrite hexd_eq by auto.
  destruct (v / 16 =? 0)%Z eqn:Z.
  - apply Z.eqb_eq in Z. split; [auto|]. split; [|discriminate]. unfold horner. cbn [fold_left]. rewrite D2. lia.
  - apply Z.eqb_neq in Z. assert (P : (0 < v / 16)%Z) by (pose proof (Z.div_pos v 16 V ltac:(lia)); lia). pose proof (log2_div16 v P) as LD. destruct (IH (v / 16)%Z) as (I1 & I2 & I3); [lia|lia|].
    split; [apply Forall_app; auto|]. split; [rewrite horner_snoc, I2, D2; lia|]. intros Q. now apply app_eq_nil in Q as [_ Q].
Qed.
Lemma new_hex v s : (0 <= v)%Z -> new (to_hex v) s false = numlit_of {| base := Hexadecimal; ipart := hexd v; fpart := None; epart := None; tsuf := s |}.
Proof.
  intros V. destruct (hexd_ok _ v (le_n _) V) as (D & _ & N). assert (NE : ends [us] (hexd v) = false).
  { destruct (snoc_cases (hexd v) N) as (r & z & E). rewrite E in *. apply Forall_app in D as [_ D]. inversion D; subst. eapply no_final_us; eauto. }
  unfold to_hex. change (hex_digits (S (Z.to_nat (Z.log2 v))) v []) with (hexd v). unfold new. change (drop_while (Ascii.eqb dash) (tx "0x" ++ hexd v)) with (tx "0x" ++ hexd v).
  replace (starts (tx "0x") (tx "0x" ++ hexd v)) with true by (symmetry; apply starts_iff; eauto). cbn [radix_eqb]. change (skipn 2 (tx "0x" ++ hexd v)) with (hexd v). change (firstn 2 (tx "0x" ++ hexd v)) with (tx "0x").
  rewrite NE, andb_false_r. unfold numlit_of, seen. cbn [fpart epart base ipart tsuf split_digit_parts]. unfold cut_us. destruct s; [rewrite drop1_none by auto|]; reflexivity.
Qed.
Lemma hex_lit_wf v s : (0 <= v)%Z -> (forall t, s = Some t -> In t int_types) -> wf {| base := Hexadecimal; ipart := hexd v; fpart := None; epart := None; tsuf := s |}.
Proof.
  intros V I. destruct (hexd_ok _ v (le_n _) V) as (D & _ & N). constructor; cbn [base ipart fpart epart tsuf]; auto; try discriminate.
  split; [now apply dig_dig_us|]. apply digit_strip_has; [now apply dig_dig_us|]. rewrite strip_id; [auto|]. intros Q. rewrite Forall_forall in D. now apply (dig_not_us _ _ (D _ Q)).
Qed.
Lemma hexd_strip v : (0 <= v)%Z -> strip_us (hexd v) = hexd v.
Proof. intros V. destruct (hexd_ok _ v (le_n _) V) as (D & _ & N). apply strip_id. intros Q. rewrite Forall_forall in D. now apply (dig_not_us _ _ (D _ Q)). Qed.
Lemma number_nonneg b t : (0 < b)%Z -> Forall (fun c => (0 <= dval c)%Z) t -> (0 <= horner b t)%Z.
Proof.
  intros B F. unfold horner. assert (K : forall acc, (0 <= acc)%Z -> (0 <= fold_left (fun acc c => acc * b + dval c) t acc)%Z); [|apply K; lia].
  induction F as [|c t Hc Ht IH]; intros acc A; [exact A|]. cbn [fold_left]. apply IH. nia.
Qed.
Lemma kind_int l : is_float l = false -> kind_of l = {| kfloat := false; ksuffix := tsuf l |}.
Proof. unfold kind_of. now intros ->. Qed.
Lemma decimal_hex l th v s : wf l -> is_float l = false -> number l = (v, 0%Z) -> (0 <= v)%Z -> check_decimal th (show l) v (tsuf l) = Some s ->
  base l = Decimal /\ (th <= v)%Z /\ exists l', s = Some (show l') /\ wf l' /\ base l' = Hexadecimal /\ fpart l' = None /\ epart l' = None /\ tsuf l' = tsuf l /\ number l' = number l.
Proof.
  intros W FL NV V C. unfold check_decimal in C. destruct (th <=? v)%Z eqn:TH; [|discriminate]. apply Z.leb_le in TH. rewrite <- (kind_int l FL), from_lit_kind_show in C by auto.
  change (nradix (numlit_of l)) with (base l) in C. change (nsuffix (numlit_of l)) with (tsuf l) in C. destruct (radix_eqb (base l) Decimal) eqn:B; [|discriminate].
  assert (BD : base l = Decimal) by (destruct (base l); try discriminate; reflexivity). split; [auto|]. split; [auto|]. cbv zeta in C. rewrite new_hex in C by auto.
  set (h := {| base := Hexadecimal; ipart := hexd v; fpart := None; epart := None; tsuf := tsuf l |}) in *.
  assert (WH : wf h). { apply hex_lit_wf; [auto|]. intros t T. destruct (wf_s l W t T) as [[I _]|[I _]]; [|auto]. exfalso. unfold is_float in FL. destruct (nonfloat_parts l FL) as [F E]. rewrite F, E, T in FL.
    destruct (in_dec text_eq_dec t float_types); [discriminate|contradiction]. }
  rewrite (format_show h WH) in C. destruct (do_lint _); [|discriminate]. injection C as <-. exists (reformat h). split; [reflexivity|]. split; [now apply wf_reformat|]. split; [apply base_reformat|].
  split; [reflexivity|]. split; [reflexivity|]. split; [reflexivity|]. rewrite NV. destruct (hexd_ok _ v (le_n _) V) as (_ & HV & _).
  unfold reformat. cbn [epart h]. rewrite number_without by auto. unfold number, exponent_of, frac_digits. cbn [fst snd h epart fpart ipart base List.length]. rewrite app_nil_r, digits_of_strip, hexd_strip by auto. cbn [base_of]. rewrite HV. reflexivity.
Qed.

(** Powers of two and their predecessors are reported. *)
Lemma hexd_16 v d : (0 < v)%Z -> (0 <= d < 16)%Z -> hexd (16 * v + d) = hexd v ++ [hex_digit d].
Proof.
  intros V D. rewrite hexd_eq by lia. replace ((16 * v + d) / 16)%Z with v by (apply (Z.div_unique_pos _ _ _ d); lia). replace ((16 * v + d) mod 16)%Z with d by (apply (Z.mod_unique_pos _ _ v); lia).
  replace (v =? 0)%Z with false; [reflexivity|]. symmetry. apply Z.eqb_neq. lia.
Qed.
Lemma pow_hex : forall n r, r < 4 -> hexd (2 ^ Z.of_nat (4 * n + r)) = hex_digit (2 ^ Z.of_nat r) :: repeat "0"%char n.
Proof.
  induction n as [|n IH]; intros r R.
  - destruct r as [|[|[|[|r]]]]; [reflexivity..|lia].
  - replace (2 ^ Z.of_nat (4 * S n + r))%Z with (16 * 2 ^ Z.of_nat (4 * n + r) + 0)%Z.
    + rewrite hexd_16 by (try apply Z.pow_pos_nonneg; lia). rewrite IH by auto. change (hex_digit 0) with "0"%char. cbn [app]. f_equal. cbn [repeat]. rewrite repeat_cons. reflexivity.
    + change 16%Z with (2 ^ 4)%Z. rewrite Z.add_0_r, <- Z.pow_add_r by lia. f_equal. lia.
Qed.
Lemma pow1_hex : forall n r, 1 <= r <= 4 -> hexd (2 ^ Z.of_nat (4 * n + r) - 1) = hex_digit (2 ^ Z.of_nat r - 1) :: repeat "F"%char n.
Proof.
  induction n as [|n IH]; intros r R.
  - destruct r as [|[|[|[|[|r]]]]]; [lia|reflexivity..|lia].
  - replace (2 ^ Z.of_nat (4 * S n + r) - 1)%Z with (16 * (2 ^ Z.of_nat (4 * n + r) - 1) + 15)%Z.
    + assert (2 ^ 1 <= 2 ^ Z.of_nat (4 * n + r))%Z by (apply Z.pow_le_mono_r; lia). rewrite hexd_16 by lia. rewrite IH by auto. change (hex_digit 15) with "F"%char. cbn [app]. f_equal. cbn [repeat]. rewrite repeat_cons. reflexivity.
    + replace (Z.of_nat (4 * S n + r)) with (4 + Z.of_nat (4 * n + r))%Z by lia. rewrite Z.pow_add_r by lia. lia.
Qed.
Lemma forallb_repeat c n : forallb (Ascii.eqb c) (repeat c n) = true.
Proof. induction n; cbn; [reflexivity|]. now rewrite Ascii.eqb_refl. Qed.
Lemma firstn_repeat (c : ascii) k n : exists m, firstn k (repeat c n) = repeat c m.
Proof. revert n. induction k as [|k IH]; intros n; [exists 0; reflexivity|]. destruct n as [|n]; [exists 0; reflexivity|]. destruct (IH n) as (m & E). exists (S m). cbn. now rewrite E. Qed.
Lemma do_lint_regular f c n : is_one_of f (tx "124837F") = true -> (c = "0"%char /\ is_one_of f (tx "1248") = true \/ c = "F"%char /\ is_one_of f (tx "137F") = true) -> do_lint (f :: repeat c n) = true.
Proof.
  intros A B. unfold do_lint. destruct n as [|n]; [exact A|]. cbn [repeat]. set (s := c :: repeat c n). assert (FS : forallb (Ascii.eqb c) s = true) by (apply (forallb_repeat c (S n))).
  destruct (firstn_repeat c (List.length s - 1) (S n)) as (m & FM). change (repeat c (S n)) with s in FM. pose proof (forallb_repeat c m) as FR. rewrite <- FM in FR.
  destruct B as [[-> B]|[-> B]]; rewrite B, FS, FR; destruct (_ <? _); cbn [andb orb]; rewrite ?orb_true_r; reflexivity.
Qed.
Lemma do_lint_powers k : do_lint (hexd (2 ^ Z.of_nat k)) = true /\ do_lint (hexd (2 ^ Z.of_nat (S k) - 1)) = true.
Proof.
  split.
  - rewrite (Nat.div_mod_eq k 4). pose proof (Nat.mod_upper_bound k 4 ltac:(lia)) as R. rewrite pow_hex by auto. destruct (k mod 4) as [|[|[|[|r]]]]; [apply do_lint_regular; [reflexivity|left; split; reflexivity]..|lia].
  - replace (S k) with (4 * (k / 4) + S (k mod 4)) by (pose proof (Nat.div_mod_eq k 4); lia). pose proof (Nat.mod_upper_bound k 4 ltac:(lia)) as R. rewrite pow1_hex by lia.
    destruct (k mod 4) as [|[|[|[|r]]]]; [apply do_lint_regular; [reflexivity|right; split; reflexivity]..|lia].
Qed.
Lemma decimal_reported l th v : wf l -> is_float l = false -> base l = Decimal -> (th <= v)%Z -> (exists k, v = (2 ^ Z.of_nat k)%Z \/ v = (2 ^ Z.of_nat (S k) - 1)%Z) -> exists s, check_decimal th (show l) v (tsuf l) = Some s.
Proof.
  intros W FL B TH (k & K). assert (V : (0 <= v)%Z) by (destruct K as [->| ->]; [apply Z.pow_nonneg; lia|pose proof (Z.pow_pos_nonneg 2 (Z.of_nat (S k)) ltac:(lia) ltac:(lia)); lia]).
  unfold check_decimal. replace (th <=? v)%Z with true by (symmetry; apply Z.leb_le; auto). rewrite <- (kind_int l FL), from_lit_kind_show by auto.
  change (nradix (numlit_of l)) with (base l). change (nsuffix (numlit_of l)) with (tsuf l). rewrite B. cbn [radix_eqb]. cbv zeta. rewrite new_hex by auto.
  assert (NI : ninteger (numlit_of {| base := Hexadecimal; ipart := hexd v; fpart := None; epart := None; tsuf := tsuf l |}) = hexd v).
  { destruct (hexd_ok _ v (le_n _) V) as (D & _ & N). assert (NE : ends [us] (hexd v) = false).
    { destruct (snoc_cases (hexd v) N) as (r & z & E). rewrite E in *. apply Forall_app in D as [_ D]. inversion D; subst. eapply no_final_us; eauto. }
    unfold numlit_of, seen. cbn [fpart epart ipart tsuf ninteger]. unfold cut_us. destruct (tsuf l); [now apply drop1_none|reflexivity]. }
  rewrite NI. destruct (do_lint_powers k) as [P1 P2]. destruct K as [->| ->]; [rewrite P1|rewrite P2]; eauto.
Qed.
