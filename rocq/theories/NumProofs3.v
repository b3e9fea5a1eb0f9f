(** Proofs about numeric_literal.rs: the formatted literal. *)
From Coq Require Import Lia.
From Verif Require Export NumProofs2.
Local Notation len := (@List.length ascii).

Definition grouping (l : lit) : nat := suggest_grouping (base l).
Lemma grouping_pos l : 0 < grouping l.
Proof. unfold grouping. destruct (base l); cbn; lia. Qed.
Definition is_hex (l : lit) : bool := radix_eqb (base l) Hexadecimal.
Definition fmt_i (l : lit) : text :=
  let d := strip_us (ipart l) in (if is_hex l then pad (grouping l) d else []) ++ G (grouping l) d.
Definition plus_sign : ascii := "+"%char.
Definition exp_digits (sg : option ascii) (x : text) : text :=
  match sg with
  | Some s => if Ascii.eqb s plus_sign then tl (G 3 (plus_sign :: strip_us x)) else G 3 (strip_us x)
  | None => G 3 (strip_us x)
  end.
Definition zero_exp (l : lit) : bool :=
  match epart l with Some (_, sg, x) => teqb (sgt sg ++ cut_us (tsuf l) x) (tx "0") | None => false end.
Definition sufus (l : lit) : text := match tsuf l with Some _ => [us] | None => [] end.
Definition fmt_f (l : lit) : option text := option_map (fun f => Lf 3 (strip_us f)) (fpart l).
Definition with_parts (l : lit) i f e : lit := {| base := base l; ipart := i; fpart := f; epart := e; tsuf := tsuf l |}.
Definition without_exp (l : lit) : lit :=
  match fmt_f l with
  | None => with_parts l (fmt_i l ++ sufus l) None None
  | Some f => with_parts l (fmt_i l) (Some (f ++ sufus l)) None
  end.
Definition reformat (l : lit) : lit :=
  match epart l with
  | None => without_exp l
  | Some (c, sg, x) =>
      if zero_exp l then
        match fpart l, tsuf l with
        | None, None => with_parts l (fmt_i l) (Some (tx "0")) None
        | _, _ => without_exp l
        end
      else
        match fpart l with
        | None => with_parts l (fmt_i l ++ sepof (ipart l)) None (Some (c, sg, exp_digits sg x ++ sufus l))
        | Some f => with_parts l (fmt_i l) (Some (Lf 3 (strip_us f) ++ sepof f)) (Some (c, sg, exp_digits sg x ++ sufus l))
        end
  end.

(** *** The parts *)
Lemma i_digits l : wf l -> exists c d, strip_us (ipart l) = c :: d /\ Forall (fun c => is_dig (base l) c = true) (c :: d).
Proof.
  intros W. destruct (wf_i l W) as [D H]. pose proof (strip_digits _ _ D) as F. destruct (strip_us (ipart l)) as [|c d] eqn:E; [now apply has_digit_strip in H|]. eauto.
Qed.
Lemma format_i l t : wf l -> strip_us t = strip_us (ipart l) -> group_digits t (grouping l) true (is_hex l) = Some (fmt_i l).
Proof.
  intros W E. destruct (i_digits l W) as (c & d & Ed & F). unfold fmt_i. rewrite Ed. inversion F; subst. apply group_digits_right; [congruence|]. eapply dig_not_dash; eauto.
Qed.
Lemma format_f f t : digits_ok Decimal f -> strip_us t = strip_us f -> group_digits t 3 false false = Some (Lf 3 (strip_us f)).
Proof.
  intros D E. pose proof (strip_digits _ _ D) as F. destruct (strip_us f) as [|c d] eqn:Ed; [rewrite group_digits_left_nil by auto; reflexivity|].
  inversion F; subst. apply group_digits_left; [auto|]. eapply dig_not_dash; eauto.
Qed.
Definition sign_ok (sg : option ascii) : Prop := sg = None \/ sg = Some plus_sign \/ sg = Some dash.
Lemma format_x sg x t : sign_ok sg -> digits_ok Decimal x -> has_digit Decimal x -> strip_us t = strip_us x -> group_digits (sgt sg ++ t) 3 true false = Some (sgt sg ++ exp_digits sg x).
Proof.
  intros S D H E. pose proof (strip_digits _ _ D) as F. destruct (strip_us x) as [|c d] eqn:Ed; [now apply has_digit_strip in H|].
  inversion F; subst. assert (ND : c <> dash) by (eapply dig_not_dash; eauto). destruct S as [->|[->| ->]]; cbn [sgt app exp_digits].
  - rewrite Ed. rewrite (group_digits_right t 3 false c d) by auto. reflexivity.
  - assert (SP : strip_us (plus_sign :: t) = plus_sign :: c :: d) by (rewrite <- E; reflexivity).
    rewrite (group_digits_right (plus_sign :: t) 3 false plus_sign (c :: d) SP ltac:(discriminate)). rewrite Ascii.eqb_refl, Ed. cbn [app].
    destruct (G_head 3 ltac:(lia) plus_sign (c :: d)) as (r & ->). reflexivity.
  - rewrite (group_digits_minus (dash :: t) 3 false c d) by (rewrite <- E; reflexivity). rewrite Ed. reflexivity.
Qed.
(** Their characters. *)
Lemma pad_digits r g d : Forall (fun c => dig_us r c = true) (pad g d).
Proof. apply Forall_forall. intros c I. apply repeat_spec in I. subst c. destruct r; reflexivity. Qed.
Lemma dig_dig_us r d : Forall (fun c => is_dig r c = true) d -> Forall (fun c => dig_us r c = true) d.
Proof. apply Forall_impl. intros c H. unfold dig_us. now rewrite H. Qed.
Lemma us_dig_us r : dig_us r us = true.
Proof. destruct r; reflexivity. Qed.
Lemma fmt_i_strip l : wf l -> strip_us (fmt_i l) = (if is_hex l then pad (grouping l) (strip_us (ipart l)) else []) ++ strip_us (ipart l).
Proof.
  intros W. unfold fmt_i. rewrite strip_app, strip_G by (apply grouping_pos || apply strip_lacks). f_equal. destruct (is_hex l); [|reflexivity]. apply strip_id, pad_lacks.
Qed.
Lemma fmt_i_digits l : wf l -> digits_ok (base l) (fmt_i l) /\ has_digit (base l) (fmt_i l).
Proof.
  intros W. destruct (i_digits l W) as (c & d & Ed & F).
  assert (D : digits_ok (base l) (fmt_i l)).
  { apply Forall_app. split; [destruct (is_hex l); [apply pad_digits|constructor]|]. apply G_chars; [apply us_dig_us|]. rewrite Ed. now apply dig_dig_us. }
  split; [exact D|]. apply digit_strip_has; [exact D|]. rewrite fmt_i_strip, Ed by auto. intros E. apply app_eq_nil in E as [_ E]. discriminate.
Qed.
Lemma fmt_i_head l : wf l -> base l = Decimal -> starts_with_digit (fmt_i l).
Proof.
  intros W B. destruct (i_digits l W) as (c & d & Ed & F). unfold fmt_i, is_hex. rewrite B, Ed. cbn [radix_eqb app]. destruct (G_head (grouping l) (grouping_pos l) c d) as (r & ->).
  inversion F; subst. rewrite B in *. assumption.
Qed.
Lemma snoc_cases {A} (l : list A) : l <> [] -> exists r c, l = r ++ [c].
Proof. intros N. destruct (exists_last N) as (r & c & E). eauto. Qed.
Lemma fmt_i_last l : wf l -> exists r c, fmt_i l = r ++ [c] /\ is_dig (base l) c = true.
Proof.
  intros W. destruct (i_digits l W) as (c & d & Ed & F). destruct (snoc_cases (c :: d) ltac:(discriminate)) as (r & z & E). unfold fmt_i. rewrite Ed, E.
  destruct (G_last (grouping l) (grouping_pos l) r z) as (r' & ->). exists ((if is_hex l then pad (grouping l) (r ++ [z]) else []) ++ r'), z. rewrite app_assoc. split; [reflexivity|].
  rewrite E in F. apply Forall_app in F as [_ F]. now inversion F.
Qed.
Lemma no_final_us t r c b : t = r ++ [c] -> is_dig b c = true -> ends [us] t = false.
Proof. intros -> D. rewrite ends_snoc. apply Ascii.eqb_neq. intros E. apply (dig_not_us b c D). auto. Qed.
Lemma drop1_snoc t : drop1 (t ++ [us]) = t.
Proof. unfold drop1. rewrite ends_snoc, Ascii.eqb_refl, app_length. cbn [List.length]. apply firstn_exact. lia. Qed.
Lemma drop1_none t : ends [us] t = false -> drop1 t = t.
Proof. unfold drop1. now intros ->. Qed.
Lemma cut_sufus l t : ends [us] t = false -> cut_us (tsuf l) (t ++ sufus l) = t.
Proof. intros E. unfold sufus, cut_us. destruct (tsuf l); [apply drop1_snoc|apply app_nil_r]. Qed.
Lemma drop1_sepof t s : ends [us] t = false -> drop1 (t ++ sepof s) = t.
Proof. intros E. unfold sepof. destruct (ends [us] s); [apply drop1_snoc|]. rewrite app_nil_r. now apply drop1_none. Qed.
Lemma sepof_sepof t s : ends [us] t = false -> sepof (t ++ sepof s) = sepof s.
Proof. intros E. unfold sepof. destruct (ends [us] s); [now rewrite ends_snoc|]. now rewrite app_nil_r, E. Qed.

Lemma Lf_facts f : digits_ok Decimal f -> starts_with_digit f ->
  digits_ok Decimal (Lf 3 (strip_us f)) /\ starts_with_digit (Lf 3 (strip_us f)) /\ strip_us (Lf 3 (strip_us f)) = strip_us f /\ ends [us] (Lf 3 (strip_us f)) = false.
Proof.
  intros D S. pose proof (strip_digits _ _ D) as F.
  assert (E : exists c d, strip_us f = c :: d /\ is_digit c = true).
  { destruct f as [|c f]; [destruct S|]. cbn in S. exists c, (strip_us f). split; [|exact S]. cbn. assert (N : c <> us) by (intros ->; discriminate). apply Ascii.eqb_neq in N. now rewrite N. }
  destruct E as (c & d & E & DC). split; [apply Lf_chars; [reflexivity|now apply dig_dig_us]|]. split; [rewrite E; destruct (Lf_head 3 ltac:(lia) c d) as (r & ->); exact DC|].
  split; [apply strip_Lf, strip_lacks|]. destruct (snoc_cases (strip_us f)) as (r & z & Z); [rewrite E; discriminate|]. rewrite Z in *.
  destruct (Lf_last 3 ltac:(lia) r z) as (r' & E'). rewrite E'. apply Forall_app in F as [_ F]. eapply no_final_us; [reflexivity|]. inversion F; eauto.
Qed.
Lemma exp_facts sg x : sign_ok sg -> digits_ok Decimal x -> has_digit Decimal x ->
  digits_ok Decimal (exp_digits sg x) /\ has_digit Decimal (exp_digits sg x) /\ strip_us (exp_digits sg x) = strip_us x /\ ends [us] (exp_digits sg x) = false.
Proof.
  intros S D H. pose proof (strip_digits _ _ D) as F. destruct (strip_us x) as [|c d] eqn:Ed; [now apply has_digit_strip in H|].
  assert (NU : ~ In us (c :: d)) by (rewrite <- Ed; apply strip_lacks).
  assert (W : forall t, digits_ok Decimal t -> strip_us t = c :: d -> ends [us] t = false -> digits_ok Decimal t /\ has_digit Decimal t /\ strip_us t = c :: d /\ ends [us] t = false).
  { intros t T1 T2 T3. split; [auto|]. split; [apply digit_strip_has; [auto|rewrite T2; discriminate]|auto]. }
  destruct (snoc_cases (c :: d) ltac:(discriminate)) as (r & z & Z). assert (DZ : is_dig Decimal z = true) by (rewrite Z in F; apply Forall_app in F as [_ F]; now inversion F).
  assert (P : digits_ok Decimal (G 3 (c :: d)) /\ has_digit Decimal (G 3 (c :: d)) /\ strip_us (G 3 (c :: d)) = c :: d /\ ends [us] (G 3 (c :: d)) = false).
  { apply W; [apply G_chars; [reflexivity|now apply dig_dig_us]|apply strip_G; auto|]. rewrite Z. destruct (G_last 3 ltac:(lia) r z) as (r' & ->). eapply no_final_us; eauto. }
  destruct S as [->|[->| ->]]; cbn [exp_digits]; rewrite Ed; [exact P| |exact P]. rewrite Ascii.eqb_refl. clear P.
  assert (NP : ~ In us (plus_sign :: c :: d)) by (intros [E|I]; [discriminate|auto]).
  destruct (G_head 3 ltac:(lia) plus_sign (c :: d)) as (t & ET).
  assert (ST : strip_us (G 3 (plus_sign :: c :: d)) = plus_sign :: c :: d) by (apply strip_G; auto). rewrite ET in ST |- *. cbn [tl]. change (strip_us (plus_sign :: t)) with (plus_sign :: strip_us t) in ST. apply (f_equal (@tl ascii)) in ST. cbn [tl] in ST.
  apply W; [|exact ST|].
  - apply Forall_forall. intros y Y. destruct (Ascii.eqb_spec y us) as [->|N]; [reflexivity|].
    assert (I : In y (strip_us t)) by (apply filter_In; split; [auto|]; apply negb_true_iff, Ascii.eqb_neq; auto). rewrite ST in I. rewrite Forall_forall in F. unfold dig_us. now rewrite (F y I).
  - destruct (G_last 3 ltac:(lia) (plus_sign :: r) z) as (r' & E'). cbn [app] in E'. rewrite <- Z, ET in E'. apply (f_equal (@tl ascii)) in E'. destruct r' as [|p r']; cbn [tl app] in E'; [rewrite E' in ST; discriminate ST|]. eapply no_final_us; eauto.
Qed.

(** *** Formatting gives the reformatted literal *)
Lemma ends_dot_app a b : b <> [] -> Forall (fun c => dig_us Decimal c = true) b -> ends [dot] (a ++ b) = false.
Proof.
  intros N F. destruct (snoc_cases b N) as (r & c & ->). apply Forall_app in F as [_ F]. inversion F as [|? ? D _]; subst. rewrite app_assoc. unfold ends, strip_suf. rewrite rev_app_distr. cbn [rev app strip_pre].
  destruct (Ascii.eqb_spec dot c) as [E|]; [|reflexivity]. subst c. discriminate.
Qed.
Lemma ends_dot_any r a b : b <> [] -> Forall (fun c => dig_us r c = true) b -> ends [dot] (a ++ b) = false.
Proof.
  intros N F. destruct (snoc_cases b N) as (t & c & ->). apply Forall_app in F as [_ F]. inversion F as [|? ? D _]; subst. rewrite app_assoc. unfold ends, strip_suf. rewrite rev_app_distr. cbn [rev app strip_pre].
  destruct (Ascii.eqb_spec dot c) as [E|]; [|reflexivity]. subst c. destruct r; discriminate.
Qed.
Lemma format_parts l i fr ex : wf l -> strip_us (ninteger (numlit_of l)) = strip_us (ipart l) ->
  (match nfraction (numlit_of l) with Some f => option_map (fun t => dot :: t) (group_digits f (grouping l) false false) | None => Some [] end) = Some fr ->
  (match nexponent (numlit_of l) with
         | Some (sep, e) =>
             if negb (match e with [] => true | _ => false end) && negb (teqb e (tx "0"))
             then option_map (fun t => sep ++ t) (group_digits e (grouping l) true false)
             else if teqb e (tx "0") && (match nfraction (numlit_of l) with None => true | _ => false end) && (match nsuffix (numlit_of l) with None => true | _ => false end)
             then Some (tx ".0") else Some []
         | None => Some []
         end) = Some ex -> i = fmt_i l ->
  (tsuf l <> None -> ends [dot] (prefix_of (base l) ++ i ++ fr ++ ex) = false) ->
  format (numlit_of l) = Some (prefix_of (base l) ++ i ++ fr ++ ex ++ match tsuf l with Some s => us :: s | None => [] end).
Proof.
  intros W HI HF HE -> HD. unfold format. change (suggest_grouping (nradix (numlit_of l))) with (grouping l). change (radix_eqb (nradix (numlit_of l)) Hexadecimal) with (is_hex l).
  rewrite (format_i l _ W HI). cbn [obind]. rewrite HF. cbn [obind]. rewrite HE. cbn [obind].
  assert (HP : nprefix (numlit_of l) = Some (prefix_of (base l)) \/ nprefix (numlit_of l) = None /\ prefix_of (base l) = []).
  { unfold numlit_of; cbn [nprefix]; destruct (base l); auto. }
  change (nsuffix (numlit_of l)) with (tsuf l). destruct HP as [HP|[HP HN]]; rewrite HP; [|rewrite HN in *]; (destruct (tsuf l) as [s|]; [rewrite HD by discriminate; cbn [app]; now rewrite <- ?app_assoc|now rewrite !app_nil_r]).
Qed.
Lemma seen_strip_i l : strip_us (ninteger (numlit_of l)) = strip_us (ipart l).
Proof.
  unfold numlit_of, seen. cbn [ninteger]. destruct (epart l) as [[[c sg] x]|]; cbn [epart fpart ipart].
  - destruct (fpart l); [reflexivity|apply strip_drop1].
  - destruct (fpart l); cbn [epart fpart ipart]; [reflexivity|apply strip_cut].
Qed.
Lemma has_frac_dec l f : wf l -> fpart l = Some f -> base l = Decimal.
Proof. intros W F. destruct (radix_eqb (base l) Decimal) eqn:E; [destruct (base l); try discriminate; auto|]. destruct (wf_dec l W) as [N _]; [intros B; rewrite B in E; discriminate|congruence]. Qed.
Lemma has_exp_dec l e : wf l -> epart l = Some e -> base l = Decimal.
Proof. intros W F. destruct (radix_eqb (base l) Decimal) eqn:E; [destruct (base l); try discriminate; auto|]. destruct (wf_dec l W) as [_ N]; [intros B; rewrite B in E; discriminate|congruence]. Qed.
Lemma show_parts l i f e : show (with_parts l i f e) = prefix_of (base l) ++ i ++ show_frac f ++ show_exp e ++ match tsuf l with Some s => s | None => [] end.
Proof. reflexivity. Qed.
Lemma suf_text l : sufus l ++ match tsuf l with Some s => s | None => [] end = match tsuf l with Some s => us :: s | None => [] end.
Proof. unfold sufus. destruct (tsuf l); reflexivity. Qed.

Lemma frac_nonempty l f : wf l -> fpart l = Some f -> (epart l <> None \/ tsuf l <> None) -> starts_with_digit f.
Proof. intros W F H. destruct (wf_f l W f F) as [_ [S|(_ & E & T)]]; [auto|]. destruct H; congruence. Qed.

Lemma format_show l : wf l -> format (numlit_of l) = Some (show (reformat l)).
Proof.
  intros W. unfold reformat. destruct (epart l) as [[[c sg] x]|] eqn:E.
  - pose proof (has_exp_dec l _ W E) as B. assert (G3 : grouping l = 3) by (unfold grouping; rewrite B; reflexivity).
    destruct (wf_e l W c sg x E) as (EC & ES & DX & HX). destruct (exp_facts sg x ES DX HX) as (X1 & X2 & X3 & X4).
    pose proof (has_digit_nonempty _ _ X2) as XN.
    set (x' := cut_us (tsuf l) x). assert (SX : strip_us x' = strip_us x) by apply strip_cut.
    assert (XNE : x' <> []) by (intros N; apply (has_digit_strip _ _ HX); rewrite <- SX, N; reflexivity).
    assert (NE : (match sgt sg ++ x' with [] => true | _ => false end) = false) by (destruct (sgt sg ++ x') eqn:Q; [apply app_eq_nil in Q as [_ Q]; congruence|reflexivity]).
    assert (Z : zero_exp l = teqb (sgt sg ++ x') (tx "0")) by (unfold zero_exp; now rewrite E). rewrite Z.
    destruct (fpart l) as [f|] eqn:F.
    + destruct (wf_f l W f F) as [DF _]. assert (SF : starts_with_digit f) by (apply (frac_nonempty l f W F); left; rewrite E; discriminate). destruct (Lf_facts f DF SF) as (F1 & F2 & F3 & F4).
      assert (EXPN : nexponent (numlit_of l) = Some (sepof f ++ [c], sgt sg ++ x')) by (unfold numlit_of, seen; rewrite E, F; reflexivity).
      assert (FRN : nfraction (numlit_of l) = Some (drop1 f)) by (unfold numlit_of, seen; rewrite E, F; reflexivity).
      assert (FR : group_digits (drop1 f) (grouping l) false false = Some (Lf 3 (strip_us f))) by (rewrite G3; apply format_f; [auto|apply strip_drop1]).
      destruct (teqb (sgt sg ++ x') (tx "0")) eqn:Q.
      * rewrite (format_parts l (fmt_i l) (dot :: Lf 3 (strip_us f)) []); [| | | | | |]; auto using seen_strip_i.
        -- unfold without_exp, fmt_f. rewrite F. cbn [option_map]. rewrite show_parts. cbn [show_frac show_exp app]. rewrite <- (suf_text l), <- !app_assoc. reflexivity.
        -- rewrite FRN, FR. reflexivity.
        -- rewrite EXPN, Q, NE, FRN. reflexivity.
        -- intros _. rewrite app_nil_r, app_assoc. change (dot :: Lf 3 (strip_us f)) with ([dot] ++ Lf 3 (strip_us f)). rewrite app_assoc. apply ends_dot_app; [now apply head_nonempty|exact F1].
      * rewrite (format_parts l (fmt_i l) (dot :: Lf 3 (strip_us f)) ((sepof f ++ [c]) ++ sgt sg ++ exp_digits sg x)); auto using seen_strip_i.
        -- rewrite show_parts. cbn [show_frac show_exp app]. rewrite <- (suf_text l). unfold sgt. rewrite <- !app_assoc. cbn [app]. rewrite <- ?app_assoc. reflexivity.
        -- rewrite FRN, FR. reflexivity.
        -- rewrite EXPN, Q, NE. cbn [negb andb]. rewrite G3, (format_x sg x x' ES DX HX SX). reflexivity.
        -- intros _. rewrite !app_assoc. apply ends_dot_app; [exact XN|exact X1].
    + assert (EXPN : nexponent (numlit_of l) = Some (sepof (ipart l) ++ [c], sgt sg ++ x')) by (unfold numlit_of, seen; rewrite E, F; reflexivity).
      assert (FRN : nfraction (numlit_of l) = None) by (unfold numlit_of, seen; rewrite E, F; reflexivity).
      destruct (teqb (sgt sg ++ x') (tx "0")) eqn:Q.
      * rewrite (format_parts l (fmt_i l) [] (match tsuf l with None => tx ".0" | Some _ => [] end)); auto using seen_strip_i.
        -- destruct (tsuf l) eqn:T.
           ++ unfold without_exp, fmt_f. rewrite F. cbn [option_map]. rewrite show_parts. cbn [show_frac show_exp app]. unfold sufus. rewrite T. rewrite <- !app_assoc. reflexivity.
           ++ rewrite show_parts, T. cbn [show_frac show_exp]. reflexivity.
        -- rewrite FRN. reflexivity.
        -- rewrite EXPN, Q, NE, FRN. change (nsuffix (numlit_of l)) with (tsuf l). destruct (tsuf l); reflexivity.
        -- intros N. destruct (tsuf l); [|congruence]. cbn [app]. rewrite app_nil_r. destruct (fmt_i_digits l W) as [D H]. apply (ends_dot_any (base l)); [now apply has_digit_nonempty in H|exact D].
      * rewrite (format_parts l (fmt_i l) [] ((sepof (ipart l) ++ [c]) ++ sgt sg ++ exp_digits sg x)); auto using seen_strip_i.
        -- rewrite show_parts. cbn [show_frac show_exp app]. rewrite <- (suf_text l). unfold sgt. rewrite <- !app_assoc. cbn [app]. rewrite <- ?app_assoc. reflexivity.
        -- rewrite FRN. reflexivity.
        -- rewrite EXPN, Q, NE. cbn [negb andb]. rewrite G3, (format_x sg x x' ES DX HX SX). reflexivity.
        -- intros _. cbn [app]. rewrite !app_assoc. apply ends_dot_app; [exact XN|exact X1].
  - assert (EXPN : nexponent (numlit_of l) = None) by (unfold numlit_of, seen; rewrite E; destruct (fpart l); reflexivity).
    unfold without_exp, fmt_f. destruct (fpart l) as [f|] eqn:F; cbn [option_map].
    + pose proof (has_frac_dec l f W F) as B. assert (G3 : grouping l = 3) by (unfold grouping; rewrite B; reflexivity). destruct (wf_f l W f F) as [DF SF].
      assert (FRN : nfraction (numlit_of l) = Some (cut_us (tsuf l) f)) by (unfold numlit_of, seen; rewrite E, F; reflexivity).
      rewrite (format_parts l (fmt_i l) (dot :: Lf 3 (strip_us f)) []); auto using seen_strip_i.
      * rewrite show_parts. cbn [show_frac show_exp app]. rewrite <- (suf_text l), <- !app_assoc. reflexivity.
      * rewrite FRN, G3, (format_f f) by (auto; apply strip_cut). reflexivity.
      * rewrite EXPN. reflexivity.
      * intros T. pose proof (frac_nonempty l f W F (or_intror T)) as SF'. destruct (Lf_facts f DF SF') as (F1 & F2 & _).
        rewrite app_nil_r, app_assoc. change (dot :: Lf 3 (strip_us f)) with ([dot] ++ Lf 3 (strip_us f)). rewrite app_assoc. apply ends_dot_app; [now apply head_nonempty|exact F1].
    + assert (FRN : nfraction (numlit_of l) = None) by (unfold numlit_of, seen; rewrite E, F; reflexivity).
      rewrite (format_parts l (fmt_i l) [] []); auto using seen_strip_i.
      * rewrite show_parts. cbn [show_frac show_exp app]. rewrite <- (suf_text l), <- !app_assoc. reflexivity.
      * rewrite FRN. reflexivity.
      * rewrite EXPN. reflexivity.
      * intros _. cbn [app]. rewrite app_nil_r. destruct (fmt_i_digits l W) as [D H]. apply (ends_dot_any (base l)); [now apply has_digit_nonempty in H|exact D].
Qed.
