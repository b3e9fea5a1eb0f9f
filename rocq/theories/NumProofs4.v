(** Proofs about numeric_literal.rs: value, stability and shape of the formatted literal. *)
From Coq Require Import Lia.
From Verif Require Export NumProofs3.
Local Notation len := (@List.length ascii).

(** *** It is a literal *)
Lemma digits_sufus r l t : digits_ok r t -> digits_ok r (t ++ sufus l).
Proof. intros D. apply Forall_app. split; [auto|]. unfold sufus. destruct (tsuf l); repeat constructor. apply us_dig_us. Qed.
Lemma digits_sepof r s t : digits_ok r t -> digits_ok r (t ++ sepof s).
Proof. intros D. apply Forall_app. split; [auto|]. unfold sepof. destruct (ends [us] s); repeat constructor. apply us_dig_us. Qed.
Lemma has_app r t s : has_digit r t -> has_digit r (t ++ s).
Proof. intros H. apply Exists_app. auto. Qed.
Lemma starts_app t s : starts_with_digit t -> starts_with_digit (t ++ s).
Proof. destruct t; [intros []|auto]. Qed.

Lemma wf_without l : wf l -> wf (without_exp l).
Proof.
  intros W. destruct (fmt_i_digits l W) as [D H]. unfold without_exp, fmt_f. destruct (fpart l) as [f|] eqn:F; cbn [option_map].
  - destruct (wf_f l W f F) as [DF SF]. constructor; cbn [with_parts base ipart fpart epart tsuf].
    + auto.
    + intros B. now apply fmt_i_head.
    + intros N. destruct N. eapply has_frac_dec; eauto.
    + intros g E. injection E as <-. destruct SF as [SF|(-> & E1 & E2)].
      * destruct (Lf_facts f DF SF) as (F1 & F2 & _). split; [now apply digits_sufus|left; now apply starts_app].
      * split; [apply digits_sufus; constructor|]. right. unfold sufus. rewrite E2. auto.
    + discriminate.
    + intros s E. destruct (wf_s l W s E) as [A|(A & A2 & A3)]; [auto|congruence].
  - constructor; cbn [with_parts base ipart fpart epart tsuf].
    + split; [now apply digits_sufus|now apply has_app].
    + intros B. now apply starts_app, fmt_i_head.
    + auto.
    + discriminate.
    + discriminate.
    + intros s E. destruct (wf_s l W s E) as [A|(A & A2 & A3)]; [auto|right; auto].
Qed.
Lemma wf_reformat l : wf l -> wf (reformat l).
Proof.
  intros W. unfold reformat. destruct (epart l) as [[[c sg] x]|] eqn:E; [|now apply wf_without].
  pose proof (has_exp_dec l _ W E) as B. destruct (fmt_i_digits l W) as [D H]. destruct (wf_e l W c sg x E) as (EC & ES & DX & HX). destruct (exp_facts sg x ES DX HX) as (X1 & X2 & X3 & X4).
  assert (WE : forall c0 sg0 x0, Some (c, sg, exp_digits sg x ++ sufus l) = Some (c0, sg0, x0) ->
            (c0 = "e"%char \/ c0 = "E"%char) /\ (sg0 = None \/ sg0 = Some "+"%char \/ sg0 = Some dash) /\ digits_ok Decimal x0 /\ has_digit Decimal x0).
  { intros c0 sg0 x0 Q. injection Q as <- <- <-. auto using digits_sufus, has_app. }
  destruct (zero_exp l).
  - destruct (fpart l) as [f|] eqn:F; [now apply wf_without|]. destruct (tsuf l) as [s|] eqn:T; [now apply wf_without|]. constructor; cbn [with_parts base ipart fpart epart tsuf].
    + auto.
    + intros _. now apply fmt_i_head.
    + intros N. now destruct N.
    + intros f Q. injection Q as <-. split; [repeat constructor|left; reflexivity].
    + discriminate.
    + rewrite T. discriminate.
  - assert (WS : forall (f : option text) (e : option (ascii * option ascii * text)) s, tsuf l = Some s -> In s float_types /\ base l = Decimal \/ In s int_types /\ f = None /\ e = None).
    { intros f e s Q. destruct (wf_s l W s Q) as [A|(A & A2 & A3)]; [auto|congruence]. }
    destruct (fpart l) as [f|] eqn:F.
    + destruct (wf_f l W f F) as [DF _]. assert (SF : starts_with_digit f) by (apply (frac_nonempty l f W F); left; rewrite E; discriminate). destruct (Lf_facts f DF SF) as (F1 & F2 & _).
      constructor; cbn [with_parts base ipart fpart epart tsuf]; auto.
      * intros _. now apply fmt_i_head.
      * intros N. now destruct N.
      * intros g Q. injection Q as <-. split; [now apply digits_sepof|left; now apply starts_app].
    + constructor; cbn [with_parts base ipart fpart epart tsuf]; auto.
      * split; [now apply digits_sepof|now apply has_app].
      * intros _. now apply starts_app, fmt_i_head.
      * intros N. now destruct N.
      * discriminate.
Qed.

(** *** It denotes the same number *)
Lemma fold_zeros b n acc : acc = 0%Z -> fold_left (fun acc c => (acc * b + dval c)%Z) (repeat "0"%char n) acc = 0%Z.
Proof. revert acc. induction n as [|n IH]; intros acc ->; [reflexivity|]. cbn [repeat fold_left]. apply IH. reflexivity. Qed.
Lemma horner_zeros b n d : horner b (repeat "0"%char n ++ d) = horner b d.
Proof. unfold horner. rewrite fold_left_app, fold_zeros by auto. reflexivity. Qed.
Lemma horner_snoc b d c : horner b (d ++ [c]) = (horner b d * b + dval c)%Z.
Proof. unfold horner. rewrite fold_left_app. reflexivity. Qed.
Lemma strip_sufus l t : strip_us (t ++ sufus l) = strip_us t.
Proof. rewrite strip_app. unfold sufus. destruct (tsuf l); cbn; apply app_nil_r. Qed.
Lemma strip_sepof s t : strip_us (t ++ sepof s) = strip_us t.
Proof. rewrite strip_app, strip_sep. apply app_nil_r. Qed.
Lemma fmt_i_value l r : wf l -> horner (base_of (base l)) (strip_us (fmt_i l) ++ r) = horner (base_of (base l)) (strip_us (ipart l) ++ r).
Proof. intros W. rewrite fmt_i_strip by auto. destruct (is_hex l); [|reflexivity]. rewrite <- app_assoc. apply horner_zeros. Qed.
Lemma same_refl a : same_number a a.
Proof. reflexivity. Qed.
Lemma same_eq a b : a = b -> same_number a b.
Proof. intros ->. apply same_refl. Qed.
Lemma strip_Lf_any f : digits_ok Decimal f -> strip_us (Lf 3 (strip_us f)) = strip_us f.
Proof. intros _. apply strip_Lf, strip_lacks. Qed.
Lemma number_without l : wf l -> number (without_exp l) = (fst (number l), (snd (number l) - exponent_of l)%Z).
Proof.
  intros W. unfold without_exp, fmt_f, number, frac_digits. generalize (exponent_of l) as ex. intros ex. destruct (fpart l) as [f|] eqn:F; cbn [option_map]; unfold exponent_of; cbn [with_parts base ipart fpart epart fst snd]; rewrite !digits_of_strip, strip_sufus.
  - destruct (wf_f l W f F) as [DF _]. rewrite strip_Lf_any by auto. rewrite fmt_i_value by auto. f_equal. change (digits_of f) with (strip_us f). lia.
  - rewrite fmt_i_value by auto. f_equal. lia.
Qed.
Lemma zero_exp_value l : wf l -> zero_exp l = true -> exponent_of l = 0%Z.
Proof.
  intros W. unfold zero_exp, exponent_of. destruct (epart l) as [[[c sg] x]|] eqn:E; [|discriminate]. intros Z. apply teqb_eq in Z. rewrite digits_of_strip, <- (strip_cut (tsuf l)).
  destruct sg as [s|]; cbn [sgt app] in Z.
  - injection Z as -> Z. destruct (wf_e l W _ _ _ E) as (_ & [S|[S|S]] & _); discriminate.
  - rewrite Z. reflexivity.
Qed.
Lemma same_number_reformat l : wf l -> same_number (number l) (number (reformat l)).
Proof.
  intros W. unfold reformat. destruct (epart l) as [[[c sg] x]|] eqn:E.
  - destruct (wf_e l W c sg x E) as (EC & ES & DX & HX). destruct (exp_facts sg x ES DX HX) as (X1 & X2 & X3 & X4). destruct (zero_exp l) eqn:Z.
    + pose proof (zero_exp_value l W Z) as Z0.
      assert (K : same_number (number l) (number (without_exp l))).
      { rewrite number_without by auto. apply same_eq. rewrite Z0, Z.sub_0_r. now destruct (number l). }
      destruct (fpart l) as [f|] eqn:F; [exact K|]. destruct (tsuf l) as [s|] eqn:T; [exact K|]. clear K.
      pose proof (has_exp_dec l _ W E) as B.
      assert (N : number l = (horner 10 (strip_us (ipart l)), 0%Z)).
      { unfold number. rewrite Z0. unfold frac_digits. rewrite F, B, app_nil_r, digits_of_strip. reflexivity. }
      assert (N' : number (with_parts l (fmt_i l) (Some (tx "0")) None) = ((horner 10 (strip_us (ipart l)) * 10)%Z, (-1)%Z)).
      { unfold number, frac_digits, exponent_of. cbn [with_parts base ipart fpart epart]. rewrite digits_of_strip, fmt_i_value by auto. rewrite B. change (digits_of (tx "0")) with ["0"%char]. cbn [base_of]. rewrite horner_snoc.
        change (dval "0") with 0%Z. f_equal; cbn [List.length]; lia. }
      rewrite N, N'. unfold same_number. cbn [fst snd]. change (0 - Z.min 0 (-1))%Z with 1%Z. change (-1 - Z.min 0 (-1))%Z with 0%Z. lia.
    + apply same_eq. destruct (fpart l) as [f|] eqn:F.
      * destruct (wf_f l W f F) as [DF _].
        unfold number, frac_digits, exponent_of. cbn [with_parts base ipart fpart epart]. rewrite E, F, !digits_of_strip, fmt_i_value, strip_sepof, strip_sufus, X3, strip_Lf_any by auto. reflexivity.
      * unfold number, frac_digits, exponent_of. cbn [with_parts base ipart fpart epart]. rewrite E, F, !digits_of_strip, strip_sepof, strip_sufus, X3, fmt_i_value by auto. reflexivity.
  - rewrite number_without by auto. apply same_eq. unfold exponent_of. rewrite E, Z.sub_0_r. now destruct (number l).
Qed.
Lemma base_reformat l : base (reformat l) = base l.
Proof. unfold reformat, without_exp, fmt_f. destruct (epart l) as [[[c sg] x]|]; destruct (fpart l); try destruct (zero_exp l); try destruct (tsuf l); reflexivity. Qed.
Lemma tsuf_reformat l : tsuf (reformat l) = tsuf l.
Proof. unfold reformat, without_exp, fmt_f. destruct (epart l) as [[[c sg] x]|]; destruct (fpart l); try destruct (zero_exp l); try destruct (tsuf l) eqn:T; cbn [option_map with_parts tsuf]; auto. Qed.
Lemma float_reformat l : wf l -> is_float (reformat l) = is_float l.
Proof.
  intros W. unfold is_float at 2. destruct (epart l) as [[[c sg] x]|] eqn:E.
  - replace (match fpart l with Some _ | _ => true end) with true by (destruct (fpart l); reflexivity). unfold reformat. rewrite E. destruct (zero_exp l).
    + destruct (fpart l) as [f|] eqn:F; [unfold without_exp, fmt_f; now rewrite F|]. destruct (tsuf l) as [s|] eqn:T; [|reflexivity].
      unfold without_exp, fmt_f. rewrite F. unfold is_float. cbn [option_map with_parts fpart epart tsuf]. rewrite T.
      destruct (in_dec text_eq_dec s float_types) as [|N]; [reflexivity|]. destruct (wf_s l W s T) as [[A _]|(_ & _ & A)]; [contradiction|congruence].
    + destruct (fpart l); reflexivity.
  - unfold reformat. rewrite E. unfold without_exp, fmt_f. destruct (fpart l); reflexivity.
Qed.
Lemma same_reformat l : wf l -> same_literal l (reformat l).
Proof. intros W. split; [now apply same_number_reformat|]. rewrite base_reformat, tsuf_reformat, float_reformat by auto. auto. Qed.

(** *** The parts of the reformatted literal *)
Definition kept_exp (l : lit) : option (ascii * option ascii * text) := if zero_exp l then None else epart l.
Lemma fmt_i_noend l : wf l -> ends [us] (fmt_i l) = false.
Proof. intros W. destruct (fmt_i_last l W) as (r & c & E & D). eapply no_final_us; eauto. Qed.
Lemma Lf_noend f : digits_ok Decimal f -> ends [us] (Lf 3 (strip_us f)) = false.
Proof.
  intros D. destruct (strip_us f) as [|c d] eqn:E; [reflexivity|]. pose proof (strip_digits _ _ D) as F. destruct (snoc_cases (strip_us f)) as (r & z & Z); [rewrite E; discriminate|].
  rewrite E in Z. rewrite Z. destruct (Lf_last 3 ltac:(lia) r z) as (r' & E'). rewrite E'. rewrite E, Z in F. apply Forall_app in F as [_ F]. eapply no_final_us; [reflexivity|]. inversion F; eauto.
Qed.
Definition shown_frac (l : lit) : option text :=
  match epart l with
  | Some _ => if zero_exp l then match fpart l, tsuf l with None, None => Some (tx "0") | _, _ => fmt_f l end else fmt_f l
  | None => fmt_f l
  end.
Definition shown_exp (l : lit) : option (text * text) :=
  match epart l with
  | Some (c, sg, x) => if zero_exp l then None else Some (sepof (match fpart l with Some f => f | None => ipart l end) ++ [c], sgt sg ++ exp_digits sg x)
  | None => None
  end.
Lemma cut_of s t : cut_us (Some s) t = drop1 t.
Proof. reflexivity. Qed.
Lemma numlit_reformat l : wf l -> numlit_of (reformat l) =
  {| nradix := base l; nprefix := nprefix (numlit_of l); ninteger := fmt_i l; nfraction := shown_frac l; nexponent := shown_exp l; nsuffix := tsuf l |}.
Proof.
  intros W. pose proof (fmt_i_noend l W) as NI. 
  assert (K : ninteger (numlit_of (reformat l)) = fmt_i l /\ nfraction (numlit_of (reformat l)) = shown_frac l /\ nexponent (numlit_of (reformat l)) = shown_exp l).
  { unfold reformat, shown_frac, shown_exp. destruct (epart l) as [[[c sg] x]|] eqn:E.
    - destruct (wf_e l W c sg x E) as (EC & ES & DX & HX). destruct (exp_facts sg x ES DX HX) as (X1 & X2 & X3 & X4). destruct (zero_exp l).
      + destruct (fpart l) as [f|] eqn:F.
        * destruct (wf_f l W f F) as [DF _]. unfold without_exp, fmt_f, numlit_of, seen. rewrite F. cbn [option_map with_parts base ipart fpart epart tsuf ninteger nfraction nexponent]. rewrite cut_sufus by (now apply Lf_noend). auto.
        * destruct (tsuf l) as [s|] eqn:T.
          -- unfold without_exp, fmt_f, numlit_of, seen. rewrite F. cbn [option_map with_parts base ipart fpart epart tsuf ninteger nfraction nexponent]. rewrite cut_sufus by auto. auto.
          -- unfold numlit_of, seen. cbn [option_map with_parts base ipart fpart epart tsuf ninteger nfraction nexponent]. rewrite T. auto.
      + destruct (fpart l) as [f|] eqn:F.
        * destruct (wf_f l W f F) as [DF _]. unfold fmt_f, numlit_of, seen. rewrite F. cbn [option_map with_parts base ipart fpart epart tsuf ninteger nfraction nexponent]. rewrite cut_sufus, drop1_sepof, sepof_sepof by (auto using Lf_noend). auto.
        * unfold fmt_f, numlit_of, seen. rewrite F. cbn [option_map with_parts base ipart fpart epart tsuf ninteger nfraction nexponent]. rewrite cut_sufus, drop1_sepof, sepof_sepof by (auto using Lf_noend). auto.
    - unfold without_exp, fmt_f, numlit_of, seen. destruct (fpart l) as [f|] eqn:F; cbn [option_map with_parts base ipart fpart epart tsuf].
      + destruct (wf_f l W f F) as [DF _]. rewrite cut_sufus by (now apply Lf_noend). auto.
      + rewrite cut_sufus by auto. auto. }
  destruct K as (K1 & K2 & K3). transitivity {| nradix := nradix (numlit_of (reformat l)); nprefix := nprefix (numlit_of (reformat l)); ninteger := ninteger (numlit_of (reformat l));
    nfraction := nfraction (numlit_of (reformat l)); nexponent := nexponent (numlit_of (reformat l)); nsuffix := nsuffix (numlit_of (reformat l)) |}; [now destruct (numlit_of (reformat l))|].
  rewrite K1, K2, K3. unfold numlit_of. cbn [nprefix nradix nsuffix]. rewrite base_reformat, tsuf_reformat. reflexivity.
Qed.
