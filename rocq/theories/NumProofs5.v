(** Proofs about numeric_literal.rs and literal_representation.rs: stability, and the lint accepts its suggestion. *)
From Coq Require Import Lia.
From Verif Require Export NumProofs4.
Local Notation len := (@List.length ascii).

(** *** Formatting twice *)
Lemma pad_G l : wf l -> is_hex l = true -> exists d', strip_us (fmt_i l) = d' /\ d' <> [] /\ pad (grouping l) d' = [] /\ G (grouping l) d' = fmt_i l.
Proof.
  intros W H. destruct (i_digits l W) as (c & d & Ed & F). exists (strip_us (fmt_i l)). split; [reflexivity|]. rewrite fmt_i_strip by auto. unfold fmt_i. rewrite H, Ed.
  set (g := grouping l). pose proof (grouping_pos l) as GP. fold g in GP. set (D := c :: d). destruct (first_rest g GP D ltac:(discriminate)) as [B M]. pose proof (first_bounds g GP D) as FB.
  assert (LP : len (pad g D) = g - first_of g D) by (unfold pad; apply repeat_length).
  assert (FO : first_of g (pad g D ++ D) = g).
  { unfold first_of at 1. rewrite app_length, LP. pose proof (Nat.div_mod_eq (len D - first_of g D) g) as Q. rewrite M in Q.
    replace (g - first_of g D + len D - 1) with ((g - 1) + ((len D - first_of g D) / g) * g) by lia. rewrite Nat.mod_add by lia. rewrite Nat.mod_small by lia. lia. }
  split; [intros Q; apply app_eq_nil in Q as [_ Q]; discriminate|]. split.
  - unfold pad at 1. rewrite FO, Nat.sub_diag. reflexivity.
  - unfold G at 1. rewrite FO. unfold G. rewrite firstn_app, skipn_app, LP. rewrite firstn_all2 by lia. rewrite skipn_all2 by lia. replace (g - (g - first_of g D)) with (first_of g D) by lia. cbn [app]. now rewrite app_assoc.
Qed.
Lemma fmt_i_again l l' : wf l -> base l' = base l -> strip_us (ipart l') = strip_us (fmt_i l) -> fmt_i l' = fmt_i l.
Proof.
  intros W B S. assert (GB : grouping l' = grouping l) by (unfold grouping; now rewrite B). assert (HB : is_hex l' = is_hex l) by (unfold is_hex; now rewrite B).
  unfold fmt_i at 1. rewrite GB, HB, S. destruct (is_hex l) eqn:H.
  - destruct (pad_G l W H) as (d' & <- & _ & -> & E). exact E.
  - rewrite fmt_i_strip by auto. rewrite H. unfold fmt_i. now rewrite H.
Qed.
Lemma exp_again sg x x' : strip_us x' = strip_us x -> exp_digits sg x' = exp_digits sg x.
Proof. intros S. unfold exp_digits. rewrite S. reflexivity. Qed.
Lemma reformat_ipart l : wf l -> strip_us (ipart (reformat l)) = strip_us (fmt_i l).
Proof.
  intros W. unfold reformat, without_exp, fmt_f. destruct (epart l) as [[[c sg] x]|]; destruct (fpart l); try destruct (zero_exp l); try destruct (tsuf l);
    cbn [option_map with_parts ipart]; rewrite ?strip_sufus, ?strip_sepof; reflexivity.
Qed.
(** The exponent is not a zero with other characters than the one digit. *)
Definition plain_zero (l : lit) : Prop := forall c x, epart l = Some (c, None, x) -> strip_us x = tx "0" -> zero_exp l = true.
Lemma reformat_twice l : wf l -> plain_zero l -> reformat (reformat l) = reformat l.
Proof.
  intros W P. pose proof (base_reformat l) as RB. pose proof (tsuf_reformat l) as RT. pose proof (reformat_ipart l W) as RI. pose proof (fmt_i_again l _ W RB RI) as FI.
  pose proof (fmt_i_noend l W) as NI.
  assert (WP : forall i f e, with_parts (reformat l) i f e = with_parts l i f e) by (intros; unfold with_parts; now rewrite RB, RT).
  assert (SU : sufus (reformat l) = sufus l) by (unfold sufus; now rewrite RT).
  unfold reformat at 1. destruct (epart (reformat l)) as [[[c sg] x]|] eqn:E.
  - assert (K : zero_exp l = false /\ exists x0, epart l = Some (c, sg, x0) /\ x = exp_digits sg x0 ++ sufus l).
    { unfold reformat in E. destruct (epart l) as [[[c0 sg0] x0]|]; [|unfold without_exp in E; destruct (fmt_f l); discriminate].
      destruct (zero_exp l); [exfalso; destruct (fpart l); [|destruct (tsuf l); [|discriminate]]; unfold without_exp in E; destruct (fmt_f l); discriminate|].
      split; [reflexivity|]. destruct (fpart l); injection E as <- <- <-; eauto. }
    destruct K as (Z & x0 & E0 & ->). destruct (wf_e l W c sg x0 E0) as (EC & ES & DX & HX). destruct (exp_facts sg x0 ES DX HX) as (X1 & X2 & X3 & X4).
    assert (ZR : zero_exp (reformat l) = false).
    { unfold zero_exp. rewrite E, RT, cut_sufus by auto. apply teqb_neq. intros Q. destruct sg as [s|]; cbn [sgt app] in Q.
      - injection Q as -> Q. destruct ES as [S|[S|S]]; discriminate.
      - assert (strip_us x0 = tx "0") as Q2 by (rewrite <- X3, Q; reflexivity). rewrite (P c x0 E0 Q2) in Z. discriminate. }
    rewrite ZR, FI, SU. unfold reformat. rewrite E0, Z. destruct (fpart l) as [f|] eqn:F; cbn [with_parts fpart ipart base tsuf].
    + destruct (wf_f l W f F) as [DF _]. rewrite strip_sepof, sepof_sepof, strip_Lf_any by (auto using Lf_noend). rewrite (exp_again sg x0 (exp_digits sg x0 ++ sufus l)) by (rewrite strip_sufus; exact X3). reflexivity.
    + rewrite sepof_sepof by auto. rewrite (exp_again sg x0 (exp_digits sg x0 ++ sufus l)) by (rewrite strip_sufus; exact X3). reflexivity.
  - unfold without_exp at 1. rewrite FI, SU. unfold fmt_f.
    assert (K : (fpart (reformat l) = None /\ reformat l = with_parts l (fmt_i l ++ sufus l) None None)
      \/ (exists f, digits_ok Decimal f /\ reformat l = with_parts l (fmt_i l) (Some (Lf 3 (strip_us f) ++ sufus l)) None)).
    { assert (KW : (fpart (without_exp l) = None /\ without_exp l = with_parts l (fmt_i l ++ sufus l) None None)
      \/ (exists f, digits_ok Decimal f /\ without_exp l = with_parts l (fmt_i l) (Some (Lf 3 (strip_us f) ++ sufus l)) None)).
      { unfold without_exp, fmt_f. destruct (fpart l) as [f|] eqn:F; cbn [option_map]; [right|left; auto]. exists f. destruct (wf_f l W f F). auto. }
      unfold reformat in *. destruct (epart l) as [[[c sg] x]|]; [|exact KW]. destruct (zero_exp l).
      - destruct (fpart l); [exact KW|]. destruct (tsuf l) as [s|] eqn:T; [exact KW|]. right. exists (tx "0"). split; [repeat constructor|]. unfold sufus. rewrite T. reflexivity.
      - destruct (fpart l); discriminate. }
    destruct K as [[KF K]|(f & DF & K)].
    + rewrite KF. cbn [option_map]. rewrite WP. congruence.
    + assert (KF : fpart (reformat l) = Some (Lf 3 (strip_us f) ++ sufus l)) by (rewrite K; reflexivity). rewrite KF. cbn [option_map]. rewrite WP, strip_sufus, strip_Lf_any by auto. congruence.
Qed.

(** *** Shape *)
Lemma fmt_i_right l : wf l -> right_aligned (grouping l) (fmt_i l).
Proof.
  intros W. pose proof (grouping_pos l) as GP. destruct (is_hex l) eqn:H.
  - destruct (pad_G l W H) as (d' & S & N & _ & <-). destruct (G_aligned (grouping l) GP d' N) as (others & E & F); [rewrite <- S; apply strip_lacks|].
    exists (first_of (grouping l) d'), others. pose proof (first_bounds _ GP d'). auto.
  - destruct (i_digits l W) as (c & d & Ed & _). unfold fmt_i. rewrite H. cbn [app]. destruct (G_aligned (grouping l) GP (strip_us (ipart l))) as (others & E & F); [rewrite Ed; discriminate|apply strip_lacks|].
    exists (first_of (grouping l) (strip_us (ipart l))), others. pose proof (first_bounds _ GP (strip_us (ipart l))). auto.
Qed.
Lemma Lf_left f : strip_us f <> [] -> left_aligned 3 (Lf 3 (strip_us f)).
Proof. intros N. apply Lf_aligned; [lia|auto|apply strip_lacks]. Qed.
(** The exponent: groups of three after the first; the first may count the sign. *)
Lemma sizes_cons c t : c <> us -> exists n r, group_sizes t = n :: r /\ group_sizes (c :: t) = S n :: r.
Proof.
  intros N. unfold group_sizes. cbn [split_at]. assert (N2 : Ascii.eqb us c = false) by (apply Ascii.eqb_neq; congruence). rewrite N2. destruct (split_at us t) as [|p ps] eqn:E; [now apply split_at_nonempty in E|]. cbn [map List.length]. eauto.
Qed.
Lemma exp_sizes sg x : sign_ok sg -> digits_ok Decimal x -> has_digit Decimal x -> exists first others, group_sizes (sgt sg ++ exp_digits sg x) = first :: others /\ Forall (fun n => n = 3) others.
Proof.
  intros S D H. assert (N : strip_us x <> []) by (eapply has_digit_strip; eauto). destruct (G_aligned 3 ltac:(lia) (strip_us x) N (strip_lacks x)) as (others & E & F).
  destruct S as [->|[->| ->]]; cbn [sgt app exp_digits].
  - eauto.
  - rewrite Ascii.eqb_refl. destruct (G_aligned 3 ltac:(lia) (plus_sign :: strip_us x) ltac:(discriminate)) as (others' & E' & F'); [intros [Q|Q]; [discriminate|now apply strip_lacks in Q]|].
    destruct (G_head 3 ltac:(lia) plus_sign (strip_us x)) as (t & ET). rewrite ET in *. cbn [tl]. eauto.
  - change (Ascii.eqb dash plus_sign) with false. cbn iota. destruct (sizes_cons dash (G 3 (strip_us x)) ltac:(discriminate)) as (n & r & E1 & E2). rewrite E1 in E. injection E as -> ->. eauto.
Qed.

(** *** The lint accepts the result *)
Lemma last_map {A B} (f : A -> B) l a : l <> [] -> last (map f l) (f a) = f (last l a).
Proof. induction l as [|x l IH]; intros N; [congruence|]. destruct l; [reflexivity|]. apply IH. discriminate. Qed.
Lemma last_Forall {A} (P : A -> Prop) l a : l <> [] -> Forall P l -> P (last l a).
Proof. intros N F. induction F as [|x l Hx Hl IH]; [congruence|]. destruct l; [exact Hx|]. apply IH. discriminate. Qed.
Lemma last_group_long t g first others s : group_sizes t = first :: others -> Forall (fun n => n = g) others -> len s <> g ->
  (1 <? List.length (split_at us t)) && teqb (last (split_at us t) []) s = false.
Proof.
  intros E F N. apply andb_false_iff. destruct others as [|o os].
  - left. apply Nat.ltb_ge. rewrite <- (map_length (@List.length ascii)). change (map _ (split_at us t)) with (group_sizes t). rewrite E. cbn. lia.
  - right. apply teqb_neq. intros Q. apply N. rewrite <- Q. rewrite <- (last_map (@List.length ascii)) by apply split_at_nonempty. change (map _ (split_at us t)) with (group_sizes t). rewrite E.
    cbn [List.length]. change (last (o :: os) 0 = g). apply (last_Forall (fun n => n = g)); [discriminate|auto].
Qed.
Lemma not_mistyped l : wf l -> check_for_mistyped_suffix (numlit_of (reformat l)) = None.
Proof.
  intros W. rewrite numlit_reformat by auto. unfold check_for_mistyped_suffix. cbn [nsuffix nexponent nfraction ninteger nradix]. destruct (tsuf l); [reflexivity|].
  assert (KI : match shown_frac l with
          | Some _ => None
          | None =>
              let part := fmt_i l in
              let groups := split_at us part in
              let last_group := last groups [] in
              if (1 <? List.length groups)
                 && (teqb last_group (tx "8") || teqb last_group (tx "16") || teqb last_group (tx "32") || teqb last_group (tx "64")) then
                let main_part := firstn (List.length part - List.length last_group) part in
                match from_str_radix (strip_us main_part) (base l) with
                | Some i =>
                    match missing_char last_group i with
                    | Some c => Some (option_map (fun t => t ++ us :: c :: last_group) (format (with_integer {| nradix := base l; nprefix := nprefix (numlit_of l); ninteger := fmt_i l; nfraction := shown_frac l; nexponent := shown_exp l; nsuffix := None |} main_part)))
                    | None => None
                    end
                | None => None
                end
              else None
          end = None).
  { destruct (shown_frac l); [reflexivity|]. cbv zeta. destruct (fmt_i_right l W) as (first & others & G1 & _ & G2).
    rewrite !andb_orb_distrib_r, !(last_group_long _ (grouping l) first others) by (auto; unfold grouping; destruct (base l); cbn; lia); reflexivity. }
  destruct (shown_exp l) as [[sep part]|] eqn:SE; [|exact KI]. clear KI.
  unfold shown_exp in SE. destruct (epart l) as [[[c sg] x]|] eqn:E; [destruct (zero_exp l) eqn:Z; [discriminate|]|discriminate]. injection SE as _ <-.
  destruct (wf_e l W c sg x E) as (EC & ES & DX & HX). destruct (exp_sizes sg x ES DX HX) as (first & others & G1 & G2).
  cbv zeta. rewrite andb_orb_distrib_r, !(last_group_long _ 3 first others) by (auto; cbn; lia). reflexivity.
Qed.
Lemma size_one first r : 1 <= first <= 4 -> get_group_size [first] r true = inr None /\ (forall b, get_group_size [first] r b = inr None).
Proof. intros B. unfold get_group_size. replace (5 <? first) with false by (symmetry; apply Nat.ltb_ge; lia). destruct (radix_eqb r Decimal); auto. Qed.
Lemma forallb_eqb g l : Forall (fun n => n = g) l -> forallb (Nat.eqb g) l = true.
Proof. intros F. apply forallb_forall. rewrite Forall_forall in F. intros x I. apply Nat.eqb_eq. symmetry. auto. Qed.
Lemma size_more first g others r b : first <= g <= 4 -> Forall (fun n => n = g) others -> others <> [] ->
  get_group_size (first :: others) r b = inr (if radix_eqb r Decimal then Some g else None).
Proof.
  intros B F N. destruct others as [|o os]; [congruence|]. inversion F as [|? ? EO F']; subst o. pose proof (forallb_eqb g os F') as FB.
  unfold get_group_size. assert (L1 : (g <? first) = false) by (apply Nat.ltb_ge; lia). assert (L2 : (4 <? g) = false) by (apply Nat.ltb_ge; lia). assert (L3 : (5 <? first) = false) by (apply Nat.ltb_ge; lia).
  destruct (radix_eqb r Decimal); rewrite FB, L1; cbn [negb orb]; [rewrite L2|rewrite L3]; reflexivity.
Qed.
Lemma one_group t n : group_sizes t = [n] -> len t = n.
Proof.
  assert (K : forall t p, split_at us t = [p] -> p = t).
  { clear. induction t as [|c t IH]; intros p E; cbn [split_at] in E; [congruence|]. destruct (Ascii.eqb us c); [destruct (split_at us t) eqn:Q; [now apply split_at_nonempty in Q|discriminate]|].
    destruct (split_at us t) as [|q [|q' qs]] eqn:Q; [now apply split_at_nonempty in Q| |discriminate]. injection E as <-. f_equal. auto. }
  unfold group_sizes. intros E. destruct (split_at us t) as [|p [|q ps]] eqn:S; try discriminate. injection E as <-. now rewrite (K t p S).
Qed.
Lemma quiet lf l : wf l -> grouping_warning lf (numlit_of (reformat l)) = None.
Proof.
  intros W. rewrite numlit_reformat by auto. unfold grouping_warning. cbn [nsuffix nexponent nfraction ninteger nradix].
  destruct (fmt_i_right l W) as (first & others & G1 & B & G2). unfold group_sizes in G1. rewrite G1. fold (group_sizes (fmt_i l)) in G1.
  assert (G4 : grouping l <= 4) by (unfold grouping; destruct (base l); cbn; lia).
  assert (I : get_group_size (first :: others) (base l) true = inr (if match others with [] => true | _ => false end then None else if radix_eqb (base l) Decimal then Some (grouping l) else None)).
  { destruct others as [|o os]; [apply size_one; lia|]. rewrite (size_more _ (grouping l)) by (auto; try lia; discriminate). reflexivity. }
  rewrite I. clear I.
  assert (FR : shown_frac l = None \/ exists f, base l = Decimal /\ digits_ok Decimal f /\ shown_frac l = Some (Lf 3 (strip_us f))).
  { assert (KW : fmt_f l = None \/ exists f, base l = Decimal /\ digits_ok Decimal f /\ fmt_f l = Some (Lf 3 (strip_us f))).
    { unfold fmt_f. destruct (fpart l) as [f|] eqn:F; [right|auto]. exists f. split; [eapply has_frac_dec; eauto|]. destruct (wf_f l W f F). auto. }
    unfold shown_frac. destruct (epart l) as [e|] eqn:E; [|exact KW]. destruct (zero_exp l); [|exact KW]. destruct (fpart l); [exact KW|]. destruct (tsuf l); [exact KW|].
    right. exists (tx "0"). split; [eapply has_exp_dec; eauto|]. split; [repeat constructor|reflexivity]. }
  destruct FR as [->|(f & BD & DF & ->)]; [reflexivity|]. assert (G3 : grouping l = 3) by (unfold grouping; rewrite BD; reflexivity). rewrite BD, G3 in *. cbn [radix_eqb].
  destruct (list_eq_dec ascii_dec (strip_us f) []) as [Z|N].
  - rewrite Z. change (Lf 3 []) with (@nil ascii). cbn [split_at map rev app List.length get_group_size radix_eqb]. cbn. destruct others; reflexivity.
  - destruct (Lf_left f N) as (fo & fl & F1 & FB & F2). unfold group_sizes in F1. rewrite F1. fold (group_sizes (Lf 3 (strip_us f))) in F1. rewrite rev_app_distr. cbn [rev app].
    assert (RF : Forall (fun n => n = 3) (rev fo)) by (apply Forall_rev; auto).
    destruct (rev fo) as [|o os] eqn:RV.
    + assert (fo = []) as -> by (rewrite <- (rev_involutive fo), RV; reflexivity). destruct (size_one fl Decimal ltac:(lia)) as [_ ->]. cbn [app] in F1. pose proof (one_group _ _ F1) as LF.
      unfold parts_consistent. destruct others; [reflexivity|]. rewrite LF. replace (fl <=? 3) with true by (symmetry; apply Nat.leb_le; lia). reflexivity.
    + rewrite (size_more fl 3) by (auto; try lia; discriminate). cbn [radix_eqb]. unfold parts_consistent. destruct others as [|o' os']; [|reflexivity].
      pose proof (one_group _ _ G1) as LI. rewrite LI. replace (first <=? 3) with true by (symmetry; apply Nat.leb_le; lia). reflexivity.
Qed.
Lemma check_quiet lf l : wf l -> check_lit lf (show (reformat l)) (kind_of (reformat l)) = None.
Proof.
  intros W. unfold check_lit. rewrite from_lit_kind_show by (now apply wf_reformat). rewrite not_mistyped, quiet by auto. destruct (is_literal_uuid_formatted _); reflexivity.
Qed.
